(** Generated by tools/genprops.py from Claims2.v: the property theorems only. *)
From Coq Require Import Reals Lra Psatz Bool List.
From Verif Require Import Linalg Spec SpecFacts ModelCommon ModelEigen ModelRotation ModelQuaternion ModelDebug CommonFacts ConvFacts RVFacts Windows RotFacts UniqueFacts MetricFacts EulerFacts EqFacts SetFacts QuatDebugFacts Claims1.
Local Open Scope R_scope.
From Verif Require Import Claims2.

(** C14: getUnique keeps the rotation, lands in the documented range, is
    idempotent. *)
Theorem C14_get_unique : forall p : prim,
  (forall q, qnorm q = 1 -> exists q', get_unique p (RotQuat q) = RotQuat q' /\ qnorm q' = 1 /\
     quat_rot q' = quat_rot q /\ 0 <= qw q' /\ get_unique p (RotQuat q') = RotQuat q') /\
  (forall a, vnorm (aaxis a) = 1 -> exists a', get_unique p (RotAA a) = RotAA a' /\ vnorm (aaxis a') = 1 /\
     aa_rot a' = aa_rot a /\ 0 <= aangle a' <= PI /\ get_unique p (RotAA a') = RotAA a') /\
  (forall v, v = vzero \/ dummy_precision p <= vnorm v ->
     exists v', get_unique p (RotVec v) = RotVec v' /\ vec_rot v' = vec_rot v /\ vnorm v' <= PI /\
       (v' = vzero \/ dummy_precision p <= vnorm v' -> get_unique p (RotVec v') = RotVec v')) /\
  (forall m, get_unique p (RotMat m) = RotMat m).
Proof. exact C14_get_unique_lemma. Qed.
Print Assumptions C14_get_unique.

(** C14: a rotation vector slightly longer than a full turn (by less than the
    tolerance) has a getUnique that is not a fixed point of getUnique. *)
Theorem C14_rotation_vector_idempotence_refuted : forall p : prim, exists v v' : V3,
  dummy_precision p <= vnorm v /\ get_unique p (RotVec v) = RotVec v' /\ get_unique p (RotVec v') <> RotVec v'.
Proof. exact C14_rotation_vector_idempotence_refuted_lemma. Qed.
Print Assumptions C14_rotation_vector_idempotence_refuted.

(** C15: two values of the same class have the same getUnique iff they denote
    the same rotation. *)
Theorem C15_get_unique_canonical : forall p : prim,
  (forall a b, qnorm a = 1 -> qnorm b = 1 ->
     (get_unique p (RotQuat a) = get_unique p (RotQuat b) <-> quat_rot a = quat_rot b)) /\
  (forall a b, vnorm (aaxis a) = 1 -> vnorm (aaxis b) = 1 ->
     (get_unique p (RotAA a) = get_unique p (RotAA b) <-> aa_rot a = aa_rot b)) /\
  (forall a b, (a = vzero \/ dummy_precision p <= vnorm a) -> (b = vzero \/ dummy_precision p <= vnorm b) ->
     (get_unique p (RotVec a) = get_unique p (RotVec b) <-> vec_rot a = vec_rot b)) /\
  (forall a b, get_unique p (RotMat a) = get_unique p (RotMat b) <-> a = b) /\
  (forall a b, pitch_clear (zpitch a) -> pitch_clear (zpitch b) ->
     (get_unique p (RotZyx a) = get_unique p (RotZyx b) <-> zyx_rot a = zyx_rot b)) /\
  (forall a b, pitch_clear (xpitch a) -> pitch_clear (xpitch b) ->
     (get_unique p (RotXyz a) = get_unique p (RotXyz b) <-> xyz_rot a = xyz_rot b)).
Proof. exact C15_get_unique_canonical_lemma. Qed.
Print Assumptions C15_get_unique_canonical.

(** instances: two different angle-axis pairs for the same half turn, two
    different quaternions for the same rotation *)
Example C15_get_unique_canonical_ex :
  let a := mkAA PI ex in let b := mkAA (3 * PI) (vneg ex) in
  vnorm (aaxis a) = 1 /\ vnorm (aaxis b) = 1 /\ a <> b /\ aa_rot a = aa_rot b.
Proof. exact Claims2.C15_get_unique_canonical_ex. Qed.

(** C16: operator== within one class. *)
Theorem C16_equality_same_class : forall p : prim,
  (forall a b, qnorm a = 1 -> qnorm b = 1 ->
     exists c, is_equal p (RotQuat a) (RotQuat b) = Some (Val c) /\ (c = true <-> quat_rot a = quat_rot b)) /\
  (forall a b, exists c, is_equal p (RotMat a) (RotMat b) = Some (Val c) /\ (c = true <-> a = b)) /\
  (forall a b, (a = vzero \/ dummy_precision p <= vnorm a) -> (b = vzero \/ dummy_precision p <= vnorm b) ->
     exists c, is_equal p (RotVec a) (RotVec b) = Some (Val c) /\ (c = true <-> vec_rot a = vec_rot b)) /\
  (forall a b, pitch_clear (zpitch a) -> pitch_clear (zpitch b) ->
     exists c, is_equal p (RotZyx a) (RotZyx b) = Some (Val c) /\ (c = true <-> zyx_rot a = zyx_rot b)) /\
  (forall a b, pitch_clear (xpitch a) -> pitch_clear (xpitch b) ->
     exists c, is_equal p (RotXyz a) (RotXyz b) = Some (Val c) /\ (c = true <-> xyz_rot a = xyz_rot b)).
Proof. exact C16_equality_same_class_lemma. Qed.
Print Assumptions C16_equality_same_class.

Example C16_equality_same_class_ex : pitch_clear 1 /\ pitch_clear (-3).
Proof. exact Claims2.C16_equality_same_class_ex. Qed.

(** C17: Euler getUnique.  [pitch_clear b]: the wrapped pitch is further than
    1e-3 from +-pi/2. *)
Theorem C17_euler_unique : forall p : prim,
  (forall e, pitch_clear (zpitch e) -> exists e', get_unique p (RotZyx e) = RotZyx e' /\
     zyx_rot e' = zyx_rot e /\ - PI <= zyaw e' < PI /\ - (PI/2) < zpitch e' < PI/2 /\ - PI <= zroll e' < PI /\
     get_unique p (RotZyx e') = RotZyx e') /\
  (forall e, pitch_clear (xpitch e) -> exists e', get_unique p (RotXyz e) = RotXyz e' /\
     xyz_rot e' = xyz_rot e /\ - PI <= xroll e' < PI /\ - (PI/2) < xpitch e' < PI/2 /\ - PI <= xyaw e' < PI /\
     get_unique p (RotXyz e') = RotXyz e').
Proof. exact C17_euler_unique_lemma. Qed.
Print Assumptions C17_euler_unique.

(** C17: EulerAnglesXyz inside the gimbal bands: the yaw becomes zero, the
    rotation changes by at most twice the distance of the pitch to +-pi/2
    (<= 2e-3), hence not at all at gimbal lock. *)
Theorem C17_xyz_gimbal : forall (p : prim) (s : R) (e : Xyz), s = 1 \/ s = -1 ->
  let delta := Rabs (wrapPosNegPI (xpitch e) - s * (PI/2)) in
  delta <= / 10 ^ 3 ->
  exists e' d, get_unique p (RotXyz e) = RotXyz e' /\ xyaw e' = 0 /\
    is_rotation_angle (mmul (xyz_rot e') (mtrans (xyz_rot e))) d /\ d <= 2 * delta /\
    (delta = 0 -> xyz_rot e' = xyz_rot e).
Proof. exact C17_xyz_gimbal_lemma. Qed.
Print Assumptions C17_xyz_gimbal.

Example C17_xyz_gimbal_ex : Rabs (wrapPosNegPI (PI/2 + / 10 ^ 4) - 1 * (PI/2)) <= / 10 ^ 3.
Proof. exact Claims2.C17_xyz_gimbal_ex. Qed.

(** C18: EulerAnglesZyx::getUnique at gimbal lock keeps the rotation iff
    sin(roll) = 0; so it changes the rotation for almost every roll. *)
Theorem C18_zyx_gimbal_characterised : forall (p : prim) (s : R) (e : Zyx), s = 1 \/ s = -1 ->
  same_angle (zpitch e) (s * (PI/2)) ->
  exists e', get_unique p (RotZyx e) = RotZyx e' /\ zroll e' = 0 /\
    (zyx_rot e' = zyx_rot e <-> sin (zroll e) = 0).
Proof. exact C18_zyx_gimbal_characterised_lemma. Qed.
Print Assumptions C18_zyx_gimbal_characterised.

(** C18 refuted: the documented claim "getUnique is the same rotation" fails,
    and operator== is wrong in both directions. *)
Theorem C18_zyx_gimbal_refuted : forall p : prim, exists a b c : Zyx,
  (exists e', get_unique p (RotZyx a) = RotZyx e' /\ zyx_rot e' <> zyx_rot a) /\
  (zyx_rot a <> zyx_rot b /\ is_equal p (RotZyx a) (RotZyx b) = Some (Val true)) /\
  (zyx_rot a = zyx_rot c /\ is_equal p (RotZyx a) (RotZyx c) = Some (Val false)).
Proof. exact C18_zyx_gimbal_refuted_lemma. Qed.
Print Assumptions C18_zyx_gimbal_refuted.

(** C19: AngleAxis operator== accepts every equal pair ... *)
Theorem C19_angle_axis_equality_complete : forall (p : prim) (a b : AA),
  vnorm (aaxis a) = 1 -> vnorm (aaxis b) = 1 -> aa_rot a = aa_rot b ->
  is_equal p (RotAA a) (RotAA b) = Some (Val true).
Proof. exact C19_angle_axis_equality_complete_lemma. Qed.
Print Assumptions C19_angle_axis_equality_complete.

(** ... but also unequal ones, and it is not transitive. *)
Theorem C19_angle_axis_equality_refuted : forall p : prim, exists a b c : AA,
  vnorm (aaxis a) = 1 /\ vnorm (aaxis b) = 1 /\ vnorm (aaxis c) = 1 /\
  is_equal p (RotAA a) (RotAA b) = Some (Val true) /\ aa_rot a <> aa_rot b /\
  is_equal p (RotAA b) (RotAA c) = Some (Val true) /\
  is_equal p (RotAA a) (RotAA c) = Some (Val false).
Proof. exact C19_angle_axis_equality_refuted_lemma. Qed.
Print Assumptions C19_angle_axis_equality_refuted.

(** C20: where operator== across classes is exact. *)
Theorem C20_cross_class_equality_exact : forall p : prim,
  (forall m r, valid r -> unique_exact p r -> exact_operand p (get_unique p r) ->
     exists c, is_equal p (RotMat m) r = Some (Val c) /\ (c = true <-> m = meaning r)) /\
  (forall v a, vnorm (aaxis a) = 1 -> (v = vzero \/ dummy_precision p <= vnorm v) ->
     exists c, is_equal p (RotVec v) (RotAA a) = Some (Val c) /\ (c = true <-> vec_rot v = aa_rot a)) /\
  (forall v q, qnorm q = 1 -> (v = vzero \/ dummy_precision p <= vnorm v) -> regular_angle p (quat_rot q) ->
     exists c, is_equal p (RotVec v) (RotQuat q) = Some (Val c) /\ (c = true <-> vec_rot v = quat_rot q)).
Proof. exact C20_cross_class_equality_exact_lemma. Qed.
Print Assumptions C20_cross_class_equality_exact.

(** C20 refuted: RotationVector == RotationMatrix can be false for the same
    rotation; EulerAngles == (any other class) is never true when the unique
    first angle is negative. *)
Theorem C20_cross_class_equality_refuted : forall p : prim,
  (exists v m, SO3 m /\ vec_rot v = m /\ is_equal p (RotVec v) (RotMat m) = Some (Val false)) /\
  (forall e r, kind_of r <> KZyx -> zyaw (zyx_unique e) < 0 -> is_equal p (RotZyx e) r <> Some (Val true)) /\
  (forall e r, kind_of r <> KXyz -> xroll (xyz_unique e) < 0 -> is_equal p (RotXyz e) r <> Some (Val true)) /\
  (exists e m, SO3 m /\ zyx_rot e = m /\ is_equal p (RotZyx e) (RotMat m) <> Some (Val true)).
Proof. exact C20_cross_class_equality_refuted_lemma. Qed.
Print Assumptions C20_cross_class_equality_refuted.

(** C21: getDisparityAngle is the rotation angle of a b^-1. *)
Theorem C21_disparity : forall (p : prim) (a b : rotation), valid a -> valid b -> comparable p a b ->
  exists d, disparity p a b = Val d /\ 0 <= d <= PI /\
    2 * cos d = mtrace (mmul (meaning a) (mtrans (meaning b))) - 1.
Proof. exact C21_disparity_lemma. Qed.
Print Assumptions C21_disparity.

(** C21: it is a bi-invariant metric on rotations. *)
Theorem C21_metric : forall (p : prim) (a b c : rotation), valid a -> valid b -> valid c ->
  comparable p a b -> comparable p b a -> comparable p b c -> comparable p a c ->
  exists dab dba dbc dac,
    disparity p a b = Val dab /\ disparity p b a = Val dba /\
    disparity p b c = Val dbc /\ disparity p a c = Val dac /\
    dab = dba /\ (dab = 0 <-> meaning a = meaning b) /\ dac <= dab + dbc.
Proof. exact C21_metric_lemma. Qed.
Print Assumptions C21_metric.

Theorem C21_invariance : forall (p : prim) (a b g : rotation), valid a -> valid b -> valid g ->
  exact_operand p g -> exact_operand p a -> exact_operand p b ->
  kind_of a <> KVec -> kind_of b <> KVec -> kind_of g <> KVec ->
  exists d ag bg ga gb, disparity p a b = Val d /\
    mult p a g = Val ag /\ mult p b g = Val bg /\ mult p g a = Val ga /\ mult p g b = Val gb /\
    disparity p ag bg = Val d /\ disparity p ga gb = Val d.
Proof. exact C21_invariance_lemma. Qed.
Print Assumptions C21_invariance.

Example C21_metric_ex : forall p,
  let a := RotVec (mkV3 1 0 0) in let b := RotMat (Rot_x 2) in
  valid a /\ valid b /\ comparable p a b /\ comparable p b a.
Proof. exact Claims2.C21_metric_ex. Qed.

(** C22 *)
Theorem C22_is_near : forall (p : prim) (a b : rotation) (tol : R), valid a -> valid b -> comparable p a b ->
  exists d c, is_rotation_angle (mmul (meaning a) (mtrans (meaning b))) d /\
    isNear p a b tol = Val c /\ (c = true <-> d <= tol).
Proof. exact C22_is_near_lemma. Qed.
Print Assumptions C22_is_near.

(** C23: exponentialMap of any vector is the rotation about it by its norm;
    logarithmicMap returns a vector of norm <= pi (the rotation angle) with
    that rotation; they are inverse to each other. *)
Theorem C23_exp_log : forall (p : prim) (k : kind),
  (forall v, exact_conversion p k (RotVec v) ->
     exists r, exponentialMap p k v = Val r /\ kind_of r = k /\ valid r /\ meaning r = vec_rot v) /\
  (forall r, valid r -> regular_angle p (meaning r) ->
     exists v, logarithmicMap p r = Val v /\ vec_rot v = meaning r /\ is_rotation_angle (meaning r) (vnorm v)) /\
  (forall r, valid r -> clear_angle p (meaning r) ->
     exists v r', logarithmicMap p r = Val v /\ exponentialMap p k v = Val r' /\ valid r' /\ meaning r' = meaning r) /\
  (forall v, exact_operand p (RotVec v) -> vnorm v < PI ->
     exists r, exponentialMap p k v = Val r /\ logarithmicMap p r = Val v).
Proof. exact C23_exp_log_lemma. Qed.
Print Assumptions C23_exp_log.

Example C23_exp_log_ex : forall p, exact_operand p (RotVec (mkV3 0 2 0)) /\ vnorm (mkV3 0 2 0) < PI.
Proof. exact Claims2.C23_exp_log_ex. Qed.

(** C24: boxPlus / boxMinus axioms. *)
Theorem C24_boxplus_boxminus : forall (p : prim),
  (forall a b, valid a -> valid b -> exact_operand p a -> exact_operand p b ->
     clear_angle p (mmul (meaning b) (mtrans (meaning a))) -> exact_result p (kind_of a) (meaning b) ->
     exists v s, boxMinus p b a = Val v /\ boxPlus p a v = Val s /\ kind_of s = kind_of a /\ valid s /\
                 meaning s = meaning b) /\
  (forall a v, valid a -> exact_operand p a -> exact_operand p (RotVec v) -> vnorm v < PI ->
     kind_of a <> KVec -> exists s, boxPlus p a v = Val s /\ boxMinus p s a = Val v) /\
  (forall a, valid a -> exact_operand p a -> boxMinus p a a = Val vzero) /\
  (forall a, valid a -> exact_operand p a -> exact_result p (kind_of a) (meaning a) ->
     exists s, boxPlus p a vzero = Val s /\ kind_of s = kind_of a /\ valid s /\ meaning s = meaning a) /\
  (forall a b, valid a -> valid b -> comparable p a b -> regular_angle p (mmul (meaning a) (mtrans (meaning b))) ->
     exists v d, boxMinus p a b = Val v /\ disparity p a b = Val d /\ vnorm v = d).
Proof. exact C24_boxplus_boxminus_lemma. Qed.
Print Assumptions C24_boxplus_boxminus.

(** C25: interpolate = exp(clamp(ratio) * log(b a^-1)) a; the boundary cases
    and the constant rate. *)
Theorem C25_interpolate : forall (p : prim) (a b : rotation) (ratio : R),
  valid a -> valid b -> exact_operand p a -> exact_operand p b ->
  regular_angle p (mmul (meaning b) (mtrans (meaning a))) ->
  (forall v, boxMinus p b a = Val v ->
     exact_operand p (RotVec (vscale (Rmax 0 (Rmin 1 ratio)) v)) /\
     exact_result p (kind_of a) (mmul (vec_rot (vscale (Rmax 0 (Rmin 1 ratio)) v)) (meaning a))) ->
  exists s d, interpolate p a b ratio = Val s /\ kind_of s = kind_of a /\ valid s /\
    is_rotation_angle (mmul (meaning b) (mtrans (meaning a))) d /\
    is_rotation_angle (mmul (meaning s) (mtrans (meaning a))) (Rmax 0 (Rmin 1 ratio) * d) /\
    (ratio <= 0 -> meaning s = meaning a) /\ (1 <= ratio -> meaning s = meaning b).
Proof. exact C25_interpolate_lemma. Qed.
Print Assumptions C25_interpolate.

Example C25_interpolate_ex : forall p,
  let a := RotQuat (mkQ 1 0 0 0) in let b := RotAA (mkAA 1 ex) in let ratio := 1/2 in
  valid a /\ valid b /\ exact_operand p a /\ exact_operand p b /\
  regular_angle p (mmul (meaning b) (mtrans (meaning a))) /\
  (forall v, boxMinus p b a = Val v ->
     exact_operand p (RotVec (vscale (Rmax 0 (Rmin 1 ratio)) v)) /\
     exact_result p (kind_of a) (mmul (vec_rot (vscale (Rmax 0 (Rmin 1 ratio)) v)) (meaning a))).
Proof. exact Claims2.C25_interpolate_ex. Qed.

(** C26: setFromVectors.  [svd_null]: what is assumed of Eigen's SVD in the
    nearly-opposite branch (a unit vector orthogonal to both inputs). *)
Theorem C26_set_from_vectors : forall (p : prim) (svd : V3 -> V3 -> V3) (k : kind) (a b : V3), svd_null svd ->
  (setFromVectors p svd k a b = Throws <-> a = vzero \/ b = vzero) /\
  (a <> vzero -> b <> vzero -> k <> KVec ->
   let ua := vscale (/ vnorm a) a in let ub := vscale (/ vnorm b) b in
   exists r, setFromVectors p svd k a b = Val r /\ kind_of r = k /\ valid r /\
     (vdot ub ua = -1 \/ -1 + dummy_precision p <= vdot ub ua -> rotate p r ua = Val ub) /\
     exists u, rotate p r ua = Val u /\ vnorm2 (vsub u ub) <= 8 * dummy_precision p).
Proof. exact C26_set_from_vectors_lemma. Qed.
Print Assumptions C26_set_from_vectors.

(** such an SVD axis exists for every pair, e.g. for opposite vectors along x *)
Example C26_set_from_vectors_ex : exists svd, svd_null svd.
Proof. exact Claims2.C26_set_from_vectors_ex. Qed.

(** C27: fix(). *)
Theorem C27_fix :
  (forall r, valid r -> fix_rot r = Val r) /\
  (forall q, q <> quat_zero -> exists q', fix_rot (RotQuat q) = Val (RotQuat q') /\ qnorm q' = 1 /\
     exists k, 0 < k /\ q' = mkQ (k * qw q) (k * qx q) (k * qy q) (k * qz q)) /\
  (forall a, aaxis a <> vzero -> exists a', fix_rot (RotAA a) = Val (RotAA a') /\ vnorm (aaxis a') = 1 /\
     aangle a' = aangle a /\ exists k, 0 < k /\ aaxis a' = vscale k (aaxis a)) /\
  (forall m, 0 < mdet m -> exists m' k, fix_rot (RotMat m) = Val (RotMat m') /\ 0 < k /\ m' = mscale k m /\ mdet m' = 1 /\
     (SO3 m' <-> exists s, s <> 0 /\ mmul m (mtrans m) = mscale s mid)) /\
  (forall m, mdet m <= 0 -> fix_rot (RotMat m) = NaN) /\
  fix_rot (RotQuat quat_zero) = Val (RotQuat quat_zero) /\
  (forall t, fix_rot (RotAA (mkAA t vzero)) = Val (RotAA (mkAA t vzero))).
Proof. exact C27_fix_lemma. Qed.
Print Assumptions C27_fix.

(** C27 refuted for matrices: fix() of an invertible matrix of determinant 1
    can return a matrix that is not a rotation. *)
Theorem C27_matrix_fix_refuted : exists m m', 0 < mdet m /\ fix_rot (RotMat m) = Val (RotMat m') /\ ~ SO3 m'.
Proof. exact C27_matrix_fix_refuted_lemma. Qed.
Print Assumptions C27_matrix_fix_refuted.

(** C28: setRandom on any drawn vector. *)
Theorem C28_set_random : forall (p : prim) (k : kind) (u : V3),
  exists r, set_random p k u = Val r /\ kind_of r = k /\
    (k <> KQuat -> k <> KMat -> valid r) /\
    (u = vzero \/ eps4throot p <= vnorm u -> valid r /\ meaning r = vec_rot u) /\
    (forall q, r = RotQuat q -> Rabs (qnorm2 q - 1) <= epsilon p).
Proof. exact C28_set_random_lemma. Qed.
Print Assumptions C28_set_random.

(** C29: debug-build assertions of the constructors. *)
Theorem C29_debug_assertions :
  (forall q, (dbg_quat_ctor q = Val q <-> Rabs (qnorm q - 1) <= / 10 ^ 4 * Rmax (qnorm q) 1) /\
             (dbg_quat_ctor q = Throws <-> ~ Rabs (qnorm q - 1) <= / 10 ^ 4 * Rmax (qnorm q) 1)) /\
  (forall q, (dbg_quat_assign q = Val q <-> Rabs (qnorm q - 1) <= / 10 ^ 6 * Rmax (qnorm q) 1) /\
             (dbg_quat_assign q = Throws <-> ~ Rabs (qnorm q - 1) <= / 10 ^ 6 * Rmax (qnorm q) 1)) /\
  (forall a, (dbg_aa_ctor a = Val a <-> Rabs (vnorm (aaxis a) - 1) <= / 10 ^ 6 * Rmax (vnorm (aaxis a)) 1) /\
             (dbg_aa_ctor a = Throws <-> ~ Rabs (vnorm (aaxis a) - 1) <= / 10 ^ 6 * Rmax (vnorm (aaxis a)) 1)) /\
  (forall m, (dbg_mat_ctor m = Val m <-> nearly_orthogonal m /\ near1 (mdet m)) /\
             (dbg_mat_ctor m = Throws <-> ~ (nearly_orthogonal m /\ near1 (mdet m)))) /\
  (forall r, valid r -> dbg_ctor r = Val r) /\
  (forall p u, exists q, convert p KQuat (RotVec u) = Val (RotQuat q) /\ dbg_quat_ctor q = Val q).
Proof. exact C29_debug_assertions_lemma. Qed.
Print Assumptions C29_debug_assertions.

(** C48 refuted: UnitQuaternion::setIdentity() leaves the zero quaternion,
    which is not the identity and not even a unit quaternion. *)
Theorem C48_unit_quaternion_setIdentity_refuted : forall q : Quat,
  unit_setIdentity q <> unit_identity /\ quat_norm (unit_setIdentity q) = 0 /\ dbg_quat_ctor (unit_setIdentity q) = Throws.
Proof. exact C48_unit_quaternion_setIdentity_refuted_lemma. Qed.
Print Assumptions C48_unit_quaternion_setIdentity_refuted.
