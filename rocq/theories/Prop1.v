(** Generated by tools/genprops.py from Claims1.v: the property theorems only. *)
From Coq Require Import Reals Lra Psatz Bool List.
From Verif Require Import Linalg Spec SpecFacts ModelCommon ModelEigen ModelRotation ModelQuaternion ModelDebug CommonFacts ConvFacts RVFacts Windows RotFacts UniqueFacts MetricFacts EulerFacts EqFacts SetFacts QuatDebugFacts.
Local Open Scope R_scope.
From Verif Require Import Claims1.

(** C01: floatingPointModulo. *)
Theorem C01_modulo : forall x y : R,
  (0 < y -> 0 <= floatingPointModulo x y < y) /\
  (y < 0 -> y < floatingPointModulo x y <= 0) /\
  (y = 0 -> floatingPointModulo x y = x) /\
  (y <> 0 -> exists k : Z, floatingPointModulo x y = x - y * IZR k).
Proof. exact C01_modulo_lemma. Qed.
Print Assumptions C01_modulo.

(** C01: the wrap functions land in their interval, change the angle by whole
    periods, are the only such function, leave in-range angles alone and are
    idempotent. *)
Theorem C01_wrap :
  (forall a x1 x2 : R, x1 < x2 ->
     x1 <= wrapAngle a x1 x2 < x2 /\
     (exists k : Z, wrapAngle a x1 x2 = a - (x2 - x1) * IZR k) /\
     (forall r (k : Z), x1 <= r < x2 -> r = a - (x2 - x1) * IZR k -> wrapAngle a x1 x2 = r) /\
     (x1 <= a < x2 -> wrapAngle a x1 x2 = a) /\
     wrapAngle (wrapAngle a x1 x2) x1 x2 = wrapAngle a x1 x2) /\
  (forall a : R,
     - PI <= wrapPosNegPI a < PI /\ same_angle (wrapPosNegPI a) a /\
     (- PI <= a < PI -> wrapPosNegPI a = a) /\ wrapPosNegPI (wrapPosNegPI a) = wrapPosNegPI a) /\
  (forall a : R,
     0 <= wrapTwoPI a < 2 * PI /\ same_angle (wrapTwoPI a) a /\
     (0 <= a < 2 * PI -> wrapTwoPI a = a) /\ wrapTwoPI (wrapTwoPI a) = wrapTwoPI a) /\
  (forall a b : R, (wrapPosNegPI a = wrapPosNegPI b <-> same_angle a b) /\
                   (wrapTwoPI a = wrapTwoPI b <-> same_angle a b)).
Proof. exact C01_wrap_lemma. Qed.
Print Assumptions C01_wrap.

Example C01_wrap_ex : wrapPosNegPI (3 * PI) = - PI /\ floatingPointModulo 7 (-3) = -2 /\ wrapAngle 7 (-1) 2 = 1.
Proof. exact Claims1.C01_wrap_ex. Qed.

(** C02: the quaternion classes implement Hamilton's algebra. *)
Theorem C02_quaternion_algebra :
  (forall a b, quat_mult a b = hamilton a b) /\
  (forall a b c, quat_mult a (quat_mult b c) = quat_mult (quat_mult a b) c) /\
  (forall a, quat_mult unit_identity a = a /\ quat_mult a unit_identity = a) /\
  (forall a b, quat_norm (quat_mult a b) = quat_norm a * quat_norm b) /\
  (forall a, quat_conjugated a = conj a) /\
  (forall a b, quat_conjugated (quat_mult a b) = quat_mult (quat_conjugated b) (quat_conjugated a)) /\
  (forall a, quat_conjugated (quat_conjugated a) = a) /\
  (forall a b, quat_eq a b = true <-> a = b) /\
  (forall a b, quat_neq a b = true <-> a <> b).
Proof. exact C02_quaternion_algebra_lemma. Qed.
Print Assumptions C02_quaternion_algebra.

(** C02: inverses and normalisation of quaternions that need not be unit. *)
Theorem C02_quaternion_inverse :
  (forall q, q <> quat_zero -> quat_mult q (quat_inverted q) = unit_identity /\
                               quat_mult (quat_inverted q) q = unit_identity) /\
  quat_inverted quat_zero = quat_zero /\
  (forall q, quat_norm q = 1 -> unit_inverted q = quat_inverted q) /\
  (forall q, q <> quat_zero ->
     quat_norm (quat_toUnitQuaternion q) = 1 /\ quat_normalized q = quat_toUnitQuaternion q /\
     exists k, 0 < k /\ quat_toUnitQuaternion q = mkQ (k * qw q) (k * qx q) (k * qy q) (k * qz q)).
Proof. exact C02_quaternion_inverse_lemma. Qed.
Print Assumptions C02_quaternion_inverse.

Example C02_quaternion_inverse_ex : mkQ 0 3 0 4 <> quat_zero /\ quat_norm (mkQ 0 (3/5) 0 (4/5)) = 1.
Proof. exact Claims1.C02_quaternion_inverse_ex. Qed.

(** C02: real and imaginary part: building a quaternion and reading it back are
    inverse, and the product is the scalar/vector formula on the parts. *)
Theorem C02_real_imaginary :
  (forall re im, quat_real (quat_real_imag re im) = re /\ quat_imaginary (quat_real_imag re im) = im) /\
  (forall w x y z, quat_real_imag w (mkV3 x y z) = mkQ w x y z) /\
  (forall q, quat_real_imag (quat_real q) (quat_imaginary q) = q) /\
  (forall a b, quat_real (quat_mult a b) = quat_real a * quat_real b - vdot (quat_imaginary a) (quat_imaginary b)) /\
  (forall a b, quat_imaginary (quat_mult a b) =
     vadd (vadd (vscale (quat_real a) (quat_imaginary b)) (vscale (quat_real b) (quat_imaginary a)))
          (vcross (quat_imaginary a) (quat_imaginary b))) /\
  (forall q, quat_real (quat_conjugated q) = quat_real q /\ quat_imaginary (quat_conjugated q) = vneg (quat_imaginary q)) /\
  (forall q, quat_norm q = sqrt (quat_real q * quat_real q + vdot (quat_imaginary q) (quat_imaginary q))).
Proof. exact C02_real_imaginary_lemma. Qed.
Print Assumptions C02_real_imaginary.

Example C02_real_imaginary_ex : quat_imaginary (quat_mult (quat_real_imag 0 ex) (quat_real_imag 0 ey)) = ez.
Proof. exact Claims1.C02_real_imaginary_ex. Qed.

(** C03 *)
Theorem C03_quaternion_matrices : forall q p : Quat,
  m44_apply (getQuaternionMatrix q) p = hamilton q p /\
  m44_apply (getConjugateQuaternionMatrix p) q = hamilton q p.
Proof. exact C03_quaternion_matrices_lemma. Qed.
Print Assumptions C03_quaternion_matrices.

(** C04: a unit quaternion rotates by q v q*, its matrix is a rotation, and
    exactly two unit quaternions denote each rotation. *)
Theorem C04_unit_quaternion_rotation : forall (p : prim) (q : Quat), qnorm q = 1 ->
  (forall v, rotate p (RotQuat q) v = Val (sandwich q v)) /\
  (exists m, to_mat p (RotQuat q) = Val m /\ SO3 m /\ forall v, mvmul m v = sandwich q v) /\
  (forall q', qnorm q' = 1 ->
     ((forall v, rotate p (RotQuat q) v = rotate p (RotQuat q') v) <-> q' = q \/ q' = qneg q)).
Proof. exact C04_unit_quaternion_rotation_lemma. Qed.
Print Assumptions C04_unit_quaternion_rotation.

Example C04_unit_quaternion_rotation_ex : qnorm (mkQ (1/2) (1/2) (-1/2) (1/2)) = 1.
Proof. exact Claims1.C04_unit_quaternion_rotation_ex. Qed.

(** C05: what rotate() does, class by class. [exact_operand] only excludes
    non-zero rotation vectors shorter than eps^(1/4) (see C07). *)
Theorem C05_rotate_meaning : forall (p : prim) (v : V3),
  (forall q, qnorm q = 1 -> rotate p (RotQuat q) v = Val (sandwich q v)) /\
  (forall a n, vnorm n = 1 -> rotate p (RotAA (mkAA a n)) v = Val (rodrigues a n v)) /\
  (rotate p (RotVec vzero) v = Val v) /\
  (forall u, eps4throot p <= vnorm u ->
     rotate p (RotVec u) v = Val (rodrigues (vnorm u) (vscale (/ vnorm u) u) v)) /\
  (forall m, rotate p (RotMat m) v = Val (mvmul m v)) /\
  (forall yaw pitch roll, rotate p (RotZyx (mkZyx yaw pitch roll)) v =
     Val (mvmul (Rot_z yaw) (mvmul (Rot_y pitch) (mvmul (Rot_x roll) v)))) /\
  (forall roll pitch yaw, rotate p (RotXyz (mkXyz roll pitch yaw)) v =
     Val (mvmul (Rot_x roll) (mvmul (Rot_y pitch) (mvmul (Rot_z yaw) v)))).
Proof. exact C05_rotate_meaning_lemma. Qed.
Print Assumptions C05_rotate_meaning.

(** C05, uniformly: every class rotates by its meaning, which is in SO(3). *)
Theorem C05_rotate_is_meaning : forall (p : prim) (r : rotation) (v : V3),
  valid r -> exact_operand p r ->
  SO3 (meaning r) /\ rotate p r v = Val (mvmul (meaning r) v).
Proof. exact C05_rotate_is_meaning_lemma. Qed.
Print Assumptions C05_rotate_is_meaning.

Example C05_rotate_is_meaning_ex : forall p,
  valid (RotVec (mkV3 1 2 3)) /\ exact_operand p (RotVec (mkV3 1 2 3)) /\
  valid (RotAA (mkAA 7 (mkV3 0 (3/5) (4/5)))) /\ eps4throot p <= vnorm (mkV3 1 2 3).
Proof. exact Claims1.C05_rotate_is_meaning_ex. Qed.

(** C06: converting between any two classes keeps the rotation, never yields
    NaN and yields a legal value of the target class, outside the truncation
    windows [exact_conversion]. *)
Theorem C06_conversion_exact : forall (p : prim) (k : kind) (r : rotation),
  valid r -> exact_conversion p k r ->
  exists r', convert p k r = Val r' /\ kind_of r' = k /\ valid r' /\ meaning r' = meaning r.
Proof. exact C06_conversion_exact_lemma. Qed.
Print Assumptions C06_conversion_exact.

(** C06: no legal input makes a conversion fail, windows included. *)
Theorem C06_conversion_total : forall (p : prim) (k : kind) (r : rotation),
  valid r -> exists r', convert p k r = Val r' /\ kind_of r' = k.
Proof. exact C06_conversion_total_lemma. Qed.
Print Assumptions C06_conversion_total.

(** C06: conversions compose: going through any intermediate class gives the
    same rotation as converting directly. *)
Theorem C06_conversion_path : forall (p : prim) (k1 k2 : kind) (r : rotation),
  valid r -> clear_angle p (meaning r) -> exact_operand p r ->
  exists r1 r2 r3, convert p k1 r = Val r1 /\ convert p k2 r1 = Val r2 /\ convert p k2 r = Val r3 /\
    kind_of r2 = k2 /\ kind_of r3 = k2 /\ valid r2 /\ meaning r2 = meaning r /\ meaning r3 = meaning r.
Proof. exact C06_conversion_path_lemma. Qed.
Print Assumptions C06_conversion_path.

Example C06_conversion_path_ex : forall p,
  valid (RotZyx (mkZyx (PI/2) 0 0)) /\ clear_angle p (meaning (RotZyx (mkZyx (PI/2) 0 0))) /\
  exact_operand p (RotZyx (mkZyx (PI/2) 0 0)).
Proof. exact Claims1.C06_conversion_path_ex. Qed.

(** C07: the truncated series used for rotation vectors shorter than
    eps^(1/4): same real part as the exact half-angle quaternion, imaginary
    part within eps*|v|/3840, squared norm within eps*|v|^2/3840 of one. *)
Theorem C07_small_rotation_vector : forall (p : prim) (v : V3), v <> vzero ->
  exists q' : Quat, convert p KQuat (RotVec v) = Val (RotQuat q') /\
  let n := vscale (/ vnorm v) v in
  qw q' = cos (vnorm v / 2) /\
  vnorm (vsub (qvec q') (vscale (sin (vnorm v / 2)) n)) <= epsilon p * vnorm v / 3840 /\
  Rabs (qnorm2 q' - 1) <= epsilon p * (vnorm v * vnorm v) / 3840.
Proof. exact C07_small_rotation_vector_lemma. Qed.
Print Assumptions C07_small_rotation_vector.

(** C08: RotationVector from RotationQuaternion in the truncated branch. *)
Theorem C08_small_quaternion_to_vector : forall (p : prim) (q : Quat), qnorm q = 1 ->
  exists v u, convert p KVec (RotQuat q) = Val (RotVec v) /\ vec_rot u = quat_rot q /\
     vnorm (vsub v u) <= dummy_precision p * vnorm u.
Proof. exact C08_small_quaternion_to_vector_lemma. Qed.
Print Assumptions C08_small_quaternion_to_vector.

(** C08: AngleAxis from RotationVector: legal always, exact unless the vector
    is non-zero and shorter than the tolerance, when it is the identity and
    hence off by less than the tolerance. *)
Theorem C08_small_vector_to_angle_axis : forall (p : prim) (v : V3),
  exists a, convert p KAA (RotVec v) = Val (RotAA a) /\ vnorm (aaxis a) = 1 /\
    (v = vzero \/ dummy_precision p <= vnorm v -> aa_rot a = vec_rot v) /\
    (vnorm v < dummy_precision p -> aangle a = 0) /\
    vnorm (vsub (vscale (aangle a) (aaxis a)) v) < dummy_precision p.
Proof. exact C08_small_vector_to_angle_axis_lemma. Qed.
Print Assumptions C08_small_vector_to_angle_axis.

(** C09 *)
Theorem C09_matrix_to_quaternion : forall (p : prim) (m : M33), SO3 m ->
  exists q, convert p KQuat (RotMat m) = Val (RotQuat q) /\ qnorm q = 1 /\
    (forall v, sandwich q v = mvmul m v) /\ convert p KMat (RotQuat q) = Val (RotMat m).
Proof. exact C09_matrix_to_quaternion_lemma. Qed.
Print Assumptions C09_matrix_to_quaternion.

Example C09_matrix_to_quaternion_ex :
  SO3 (mkM33 (-1) 0 0  0 (-1) 0  0 0 1) /\ SO3 (mkM33 0 0 1  1 0 0  0 1 0).
Proof. exact Claims1.C09_matrix_to_quaternion_ex. Qed.

(** C10: Euler angles extracted from any rotation reproduce it, at gimbal lock
    too. *)
Theorem C10_euler_extraction : forall (p : prim) (r : rotation), valid r ->
  (exact_conversion p KZyx r -> exists e, convert p KZyx r = Val (RotZyx e) /\
     mmul (Rot_z (zyaw e)) (mmul (Rot_y (zpitch e)) (Rot_x (zroll e))) = meaning r) /\
  (exact_conversion p KXyz r -> exists e, convert p KXyz r = Val (RotXyz e) /\
     mmul (Rot_x (xroll e)) (mmul (Rot_y (xpitch e)) (Rot_z (xyaw e))) = meaning r).
Proof. exact C10_euler_extraction_lemma. Qed.
Print Assumptions C10_euler_extraction.

(** the hypothesis covers gimbal lock *)
Example C10_euler_extraction_ex : forall p,
  let r := RotMat (mmul (Rot_z 1) (mmul (Rot_y (PI/2)) (Rot_x 2))) in
  valid r /\ exact_conversion p KZyx r /\ exact_conversion p KXyz r.
Proof. exact Claims1.C10_euler_extraction_ex. Qed.

(** C11: concatenation. *)
Theorem C11_concatenation : forall (p : prim) (a b : rotation),
  valid a -> valid b -> exact_operand p a -> exact_operand p b ->
  exact_result p (kind_of a) (mmul (meaning a) (meaning b)) ->
  exists c, mult p a b = Val c /\ kind_of c = kind_of a /\ valid c /\
    meaning c = mmul (meaning a) (meaning b) /\
    (exact_operand p c -> forall v, exists bv, rotate p b v = Val bv /\ rotate p c v = rotate p a bv).
Proof. exact C11_concatenation_lemma. Qed.
Print Assumptions C11_concatenation.

(** C11: associativity and neutrality of Identity, for every mix of classes
    (classes other than RotationVector on the left, where no window exists). *)
Theorem C11_assoc_identity : forall (p : prim) (a b c : rotation),
  valid a -> valid b -> valid c -> exact_operand p a -> exact_operand p b -> exact_operand p c ->
  kind_of a <> KVec -> kind_of b <> KVec ->
  (exists ab abc bc abc', mult p a b = Val ab /\ mult p ab c = Val abc /\
     mult p b c = Val bc /\ mult p a bc = Val abc' /\ valid abc /\ valid abc' /\
     meaning abc = meaning abc') /\
  (forall k, exists ai ia, mult p a (identity k) = Val ai /\ meaning ai = meaning a /\
     (k <> KVec -> mult p (identity k) a = Val ia /\ meaning ia = meaning a /\ kind_of ia = k)).
Proof. exact C11_assoc_identity_lemma. Qed.
Print Assumptions C11_assoc_identity.

Example C11_assoc_identity_ex : forall p,
  let a := RotQuat (mkQ (3/5) (4/5) 0 0) in let b := RotXyz (mkXyz 1 2 3) in let c := RotVec (mkV3 0 0 5) in
  valid a /\ valid b /\ valid c /\ exact_operand p a /\ exact_operand p b /\ exact_operand p c /\
  kind_of a <> KVec /\ kind_of b <> KVec.
Proof. exact Claims1.C11_assoc_identity_ex. Qed.

(** C12: inversion. *)
Theorem C12_inversion : forall (p : prim) (r : rotation), valid r ->
  exists i, inverted r = Val i /\ kind_of i = kind_of r /\ valid i /\
    mmul (meaning r) (meaning i) = mid /\ mmul (meaning i) (meaning r) = mid /\
    (exact_operand p r -> exists l l', mult p r i = Val l /\ mult p i r = Val l' /\
        valid l /\ valid l' /\ meaning l = mid /\ meaning l' = mid) /\
    (exists ii, inverted i = Val ii /\ valid ii /\ meaning ii = meaning r) /\
    (exact_operand p r -> forall v, exists u, rotate p r v = Val u /\ inverseRotate p r u = Val v) /\
    (exact_operand p r -> forall v, exists u, inverseRotate p r v = Val u /\ rotate p r u = Val v).
Proof. exact C12_inversion_lemma. Qed.
Print Assumptions C12_inversion.

(** C12: the inverse of a product is the product of the inverses reversed. *)
Theorem C12_inverse_of_product : forall (p : prim) (a b : rotation), valid a -> valid b ->
  exact_operand p a -> exact_operand p b -> kind_of a <> KVec -> kind_of b <> KVec ->
  exists ab i ai bi c, mult p a b = Val ab /\ inverted ab = Val i /\
    inverted a = Val ai /\ inverted b = Val bi /\ mult p bi ai = Val c /\ meaning i = meaning c.
Proof. exact C12_inverse_of_product_lemma. Qed.
Print Assumptions C12_inverse_of_product.

Theorem C13_rigid : forall (p : prim) (r : rotation), valid r -> exact_operand p r ->
  forall op, op = rotate p r \/ op = inverseRotate p r ->
  forall a b s, exists a' b', op a = Val a' /\ op b = Val b' /\
    vdot a' b' = vdot a b /\ vnorm a' = vnorm a /\ op (vcross a b) = Val (vcross a' b') /\
    op (vadd a b) = Val (vadd a' b') /\ op (vscale s a) = Val (vscale s a').
Proof. exact C13_rigid_lemma. Qed.
Print Assumptions C13_rigid.

Theorem C13_columns : forall (p : prim) (r : rotation) (cols : list V3), valid r -> exact_operand p r ->
  exists cols', rotate_cols p r cols = Val cols' /\ length cols' = length cols /\
    forall i v, nth_error cols i = Some v -> exists u, nth_error cols' i = Some u /\ rotate p r v = Val u.
Proof. exact C13_columns_lemma. Qed.
Print Assumptions C13_columns.
