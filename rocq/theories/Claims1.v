(** Claims C01-C13: proofs (statements are copied to Prop1.v). *)
From Coq Require Import Reals Lra Psatz Bool List.
From Verif Require Import Linalg Spec SpecFacts ModelCommon ModelEigen ModelRotation ModelQuaternion ModelDebug CommonFacts ConvFacts RVFacts Windows RotFacts UniqueFacts MetricFacts EulerFacts EqFacts SetFacts QuatDebugFacts.
Local Open Scope R_scope.

Lemma kind_eq_dec (a b : kind) : {a = b} + {a <> b}.
Proof. decide equality. Qed.
Lemma Val_inj {A} (a b : A) : Val a = Val b -> a = b.
Proof. intros H. congruence. Qed.

(** C01: floatingPointModulo. *)
Lemma C01_modulo_lemma : forall x y : R,
  (0 < y -> 0 <= floatingPointModulo x y < y) /\
  (y < 0 -> y < floatingPointModulo x y <= 0) /\
  (y = 0 -> floatingPointModulo x y = x) /\
  (y <> 0 -> exists k : Z, floatingPointModulo x y = x - y * IZR k).
Proof.
  intros x y. destruct (Req_dec y 0) as [->|N].
  - repeat split; intros; try lra; try (apply mod_zero); congruence.
  - destruct (mod_spec x y N) as (k & E & H). repeat split; intros; try lra. exists k; exact E.
Qed.
(** C01: the wrap functions land in their interval, change the angle by whole
    periods, are the only such function, leave in-range angles alone and are
    idempotent. *)
Lemma C01_wrap_lemma :
  (forall a x1 x2 : R, x1 < x2 ->
     x1 <= wrapAngle a x1 x2 < x2 /\
     (exists k : Z, wrapAngle a x1 x2 = a - (x2 - x1) * IZR k) /\
     (forall r (k : Z), x1 <= r < x2 -> r = a - (x2 - x1) * IZR k -> wrapAngle a x1 x2 = r) /\
     (x1 <= a < x2 -> wrapAngle a x1 x2 = a) /\
     wrapAngle (wrapAngle a x1 x2) x1 x2 = wrapAngle a x1 x2) /\
  (forall a : R,
     - PI <= wrapPosNegPI a < PI /\ same_angle (wrapPosNegPI a) a /\
     (- PI <= a < PI -> wrapPosNegPI a = a) /\ wrapPosNegPI (wrapPosNegPI a) = wrapPosNegPI a) /\
  (forall a : R,
     0 <= wrapTwoPI a < 2 * PI /\ same_angle (wrapTwoPI a) a /\
     (0 <= a < 2 * PI -> wrapTwoPI a = a) /\ wrapTwoPI (wrapTwoPI a) = wrapTwoPI a) /\
  (forall a b : R, (wrapPosNegPI a = wrapPosNegPI b <-> same_angle a b) /\
                   (wrapTwoPI a = wrapTwoPI b <-> same_angle a b)).
Proof.
  assert (W : forall a x1 x2, x1 < x2 -> x1 <= a < x2 -> wrapAngle a x1 x2 = a).
  { intros a x1 x2 L H. apply (wrapAngle_unique a x1 x2 a 0%Z H). ring. }
  pose proof PI_RGT_0 as P.
  split; [|split; [|split]].
  - intros a x1 x2 L. destruct (wrapAngle_spec a x1 x2 L) as [R K].
    split; [exact R|]. split; [exact K|]. split; [|split].
    + intros r k Hr E. exact (wrapAngle_unique a x1 x2 r k Hr E).
    + intros H. apply W; assumption.
    + apply W; assumption.
  - intros a. split; [apply wrapPosNegPI_range|]. split; [apply wrapPosNegPI_same|].
    split; [apply wrapPosNegPI_id|]. apply wrapPosNegPI_id, wrapPosNegPI_range.
  - intros a. split; [apply wrapTwoPI_range|]. split; [apply wrapTwoPI_same|].
    rewrite !wrapTwoPI_as. pose proof (wrapTwoPI_range a) as R. rewrite wrapTwoPI_as in R.
    split; [intros H|]; apply W; lra.
  - intros a b. split; [apply wrapPosNegPI_eq|]. split; intros H.
    + apply same_angle_trans with (wrapTwoPI a); [apply same_angle_sym, wrapTwoPI_same|].
      rewrite H. apply wrapTwoPI_same.
    + apply (same_angle_range 0).
      * apply same_angle_trans with a; [apply wrapTwoPI_same|].
        apply same_angle_trans with b; [exact H|apply same_angle_sym, wrapTwoPI_same].
      * pose proof (wrapTwoPI_range a); lra.
      * pose proof (wrapTwoPI_range b); lra.
Qed.
Lemma C01_wrap_ex : wrapPosNegPI (3 * PI) = - PI /\ floatingPointModulo 7 (-3) = -2 /\ wrapAngle 7 (-1) 2 = 1.
Proof.
  pose proof PI_RGT_0. split; [|split].
  - rewrite wrapPosNegPI_as. apply (wrapAngle_unique _ _ _ _ 2%Z); lra.
  - apply (mod_unique _ _ _ (-3)%Z); lra.
  - apply (wrapAngle_unique _ _ _ _ 2%Z); lra.
Qed.

(** C02: the quaternion classes implement Hamilton's algebra. *)
Lemma C02_quaternion_algebra_lemma :
  (forall a b, quat_mult a b = hamilton a b) /\
  (forall a b c, quat_mult a (quat_mult b c) = quat_mult (quat_mult a b) c) /\
  (forall a, quat_mult unit_identity a = a /\ quat_mult a unit_identity = a) /\
  (forall a b, quat_norm (quat_mult a b) = quat_norm a * quat_norm b) /\
  (forall a, quat_conjugated a = conj a) /\
  (forall a b, quat_conjugated (quat_mult a b) = quat_mult (quat_conjugated b) (quat_conjugated a)) /\
  (forall a, quat_conjugated (quat_conjugated a) = a) /\
  (forall a b, quat_eq a b = true <-> a = b) /\
  (forall a b, quat_neq a b = true <-> a <> b).
Proof.
  unfold quat_mult, quat_conjugated, unit_identity, quat_norm.
  split; [apply e_mul_hamilton|].
  split; [intros; rewrite !e_mul_hamilton; apply hamilton_assoc|].
  split; [intros; rewrite !e_mul_hamilton; split; [apply hamilton_id_l|apply hamilton_id_r]|].
  split; [intros; rewrite e_mul_hamilton; apply qnorm_mult|].
  split; [apply e_conjugate_conj|].
  split; [intros; rewrite !e_mul_hamilton, !e_conjugate_conj; apply conj_hamilton|].
  split; [intros; rewrite !e_conjugate_conj; apply conj_conj|].
  split; [intros; apply qeqb_true|].
  intros a b. unfold quat_neq, quat_eq. rewrite negb_true_iff. pose proof (qeqb_true a b) as Q.
  destruct (qeqb a b); split; intros H; try congruence.
  - exfalso; apply H, Q; reflexivity.
  - intros E. apply Q in E. discriminate.
Qed.
(** C02: inverses and normalisation of quaternions that need not be unit. *)
Lemma C02_quaternion_inverse_lemma :
  (forall q, q <> quat_zero -> quat_mult q (quat_inverted q) = unit_identity /\
                               quat_mult (quat_inverted q) q = unit_identity) /\
  quat_inverted quat_zero = quat_zero /\
  (forall q, quat_norm q = 1 -> unit_inverted q = quat_inverted q) /\
  (forall q, q <> quat_zero ->
     quat_norm (quat_toUnitQuaternion q) = 1 /\ quat_normalized q = quat_toUnitQuaternion q /\
     exists k, 0 < k /\ quat_toUnitQuaternion q = mkQ (k * qw q) (k * qx q) (k * qy q) (k * qz q)).
Proof.
  assert (P : forall q, q <> quat_zero -> 0 < qnorm2 q).
  { intros q H. destruct (Req_dec (qnorm2 q) 0) as [Z|Z].
    - exfalso. apply H. destruct q as [w x y z]; unfold qnorm2 in Z; cbn [qw qx qy qz] in *. unfold quat_zero.
      assert (w = 0) by nra. assert (x = 0) by nra. assert (y = 0) by nra. assert (z = 0) by nra. congruence.
    - pose proof (qnorm2_nonneg q). lra. }
  split; [|split; [|split]].
  - intros q H. unfold quat_mult, quat_inverted. rewrite !e_mul_hamilton. apply e_inverse_ok, H.
  - apply e_inverse_zero.
  - intros q H. apply qnorm_unit in H. unfold unit_inverted, quat_inverted, quat_conjugated, e_inverse, e_conjugate.
    rewrite H. destruct (Rlt_dec 0 1); [|lra]. f_equal; field.
  - intros q H. destruct (e_qnormalize_ok q (P q H)) as [U K].
    split; [apply qnorm_unit, U|]. split; [reflexivity|exact K].
Qed.
Lemma C02_quaternion_inverse_ex : mkQ 0 3 0 4 <> quat_zero /\ quat_norm (mkQ 0 (3/5) 0 (4/5)) = 1.
Proof. split; [intros H; apply (f_equal qx) in H; cbn in H; lra|]. apply qnorm_unit. lin_unfold; lra. Qed.

(** C02: real and imaginary part: building a quaternion and reading it back are
    inverse, and the product is the scalar/vector formula on the parts. *)
Lemma C02_real_imaginary_lemma :
  (forall re im, quat_real (quat_real_imag re im) = re /\ quat_imaginary (quat_real_imag re im) = im) /\
  (forall w x y z, quat_real_imag w (mkV3 x y z) = mkQ w x y z) /\
  (forall q, quat_real_imag (quat_real q) (quat_imaginary q) = q) /\
  (forall a b, quat_real (quat_mult a b) = quat_real a * quat_real b - vdot (quat_imaginary a) (quat_imaginary b)) /\
  (forall a b, quat_imaginary (quat_mult a b) =
     vadd (vadd (vscale (quat_real a) (quat_imaginary b)) (vscale (quat_real b) (quat_imaginary a)))
          (vcross (quat_imaginary a) (quat_imaginary b))) /\
  (forall q, quat_real (quat_conjugated q) = quat_real q /\ quat_imaginary (quat_conjugated q) = vneg (quat_imaginary q)) /\
  (forall q, quat_norm q = sqrt (quat_real q * quat_real q + vdot (quat_imaginary q) (quat_imaginary q))).
Proof.
  unfold quat_mult, quat_conjugated, quat_norm, quat_real, quat_imaginary, quat_real_imag.
  split; [intros re [x y z]; split; reflexivity|]. split; [reflexivity|]. split; [intros [w x y z]; reflexivity|].
  split; [intros; rewrite e_mul_hamilton; reflexivity|]. split; [intros a b; rewrite e_mul_hamilton; slin|].
  split; [intros; split; reflexivity|]. intro q. unfold qnorm. f_equal. lin.
Qed.
Lemma C02_real_imaginary_ex : quat_imaginary (quat_mult (quat_real_imag 0 ex) (quat_real_imag 0 ey)) = ez.
Proof. unfold quat_mult, quat_real_imag, quat_imaginary, e_mul. lin. Qed.

(** C03 *)
Lemma C03_quaternion_matrices_lemma : forall q p : Quat,
  m44_apply (getQuaternionMatrix q) p = hamilton q p /\
  m44_apply (getConjugateQuaternionMatrix p) q = hamilton q p.
Proof. intros q p. split; [apply m44_left|apply m44_right]. Qed.

(** C04: a unit quaternion rotates by q v q*, its matrix is a rotation, and
    exactly two unit quaternions denote each rotation. *)
Lemma C04_unit_quaternion_rotation_lemma : forall (p : prim) (q : Quat), qnorm q = 1 ->
  (forall v, rotate p (RotQuat q) v = Val (sandwich q v)) /\
  (exists m, to_mat p (RotQuat q) = Val m /\ SO3 m /\ forall v, mvmul m v = sandwich q v) /\
  (forall q', qnorm q' = 1 ->
     ((forall v, rotate p (RotQuat q) v = rotate p (RotQuat q') v) <-> q' = q \/ q' = qneg q)).
Proof.
  intros p q H. apply qnorm_unit in H.
  assert (E : forall q v, qnorm2 q = 1 -> rotate p (RotQuat q) v = Val (sandwich q v)).
  { intros r v U. rewrite rotate_exact by (cbn; auto). rewrite sandwich_matrix. reflexivity. }
  split; [intros v; apply E, H|]. split.
  - exists (quat_rot q). split; [cbn [to_mat]; rewrite e_toRotationMatrix_unit by exact H; reflexivity|].
    split; [apply quat_rot_SO3, H|]. intros v. symmetry; apply sandwich_matrix.
  - intros q' H'. apply qnorm_unit in H'. split.
    + intros R. apply quat_rot_eq; [exact H'|exact H|]. apply mvmul_ext. intros v.
      specialize (R v). rewrite !E in R by assumption. apply Val_inj in R. rewrite <- !sandwich_matrix. symmetry; exact R.
    + intros [->|E'] v; [reflexivity|]. rewrite !E by (try rewrite E', qnorm2_qneg; assumption).
      rewrite !sandwich_matrix, E', quat_rot_neg. reflexivity.
Qed.
Lemma C04_unit_quaternion_rotation_ex : qnorm (mkQ (1/2) (1/2) (-1/2) (1/2)) = 1.
Proof. apply qnorm_unit. lin_unfold; lra. Qed.

(** C05: what rotate() does, class by class. [exact_operand] only excludes
    non-zero rotation vectors shorter than eps^(1/4) (see C07). *)
Lemma C05_rotate_meaning_lemma : forall (p : prim) (v : V3),
  (forall q, qnorm q = 1 -> rotate p (RotQuat q) v = Val (sandwich q v)) /\
  (forall a n, vnorm n = 1 -> rotate p (RotAA (mkAA a n)) v = Val (rodrigues a n v)) /\
  (rotate p (RotVec vzero) v = Val v) /\
  (forall u, eps4throot p <= vnorm u ->
     rotate p (RotVec u) v = Val (rodrigues (vnorm u) (vscale (/ vnorm u) u) v)) /\
  (forall m, rotate p (RotMat m) v = Val (mvmul m v)) /\
  (forall yaw pitch roll, rotate p (RotZyx (mkZyx yaw pitch roll)) v =
     Val (mvmul (Rot_z yaw) (mvmul (Rot_y pitch) (mvmul (Rot_x roll) v)))) /\
  (forall roll pitch yaw, rotate p (RotXyz (mkXyz roll pitch yaw)) v =
     Val (mvmul (Rot_x roll) (mvmul (Rot_y pitch) (mvmul (Rot_z yaw) v)))).
Proof.
  intros p v. split; [|split; [|split; [|split; [|split; [|split]]]]].
  - intros q H. apply qnorm_unit in H. rewrite rotate_exact by (cbn; auto). rewrite sandwich_matrix. reflexivity.
  - intros a n H. apply vnorm_unit in H. rewrite rotate_exact by (cbn; auto). rewrite rodrigues_matrix. reflexivity.
  - rewrite rotate_exact by (cbn; auto). cbn [meaning]. rewrite vec_rot_zero, mvmul_id. reflexivity.
  - intros u H. rewrite rotate_exact by (cbn; auto). cbn [meaning]. rewrite rodrigues_matrix, vec_rot_aa; [reflexivity|].
    pose proof (eps4_pos p). lra.
  - reflexivity.
  - intros. rewrite rotate_exact by (cbn; auto). cbn [meaning zyx_rot zyaw zpitch zroll]. unfold zyx_rot; cbn [zyaw zpitch zroll].
    rewrite !mvmul_mmul. reflexivity.
  - intros. rewrite rotate_exact by (cbn; auto). cbn [meaning]. unfold xyz_rot; cbn [xroll xpitch xyaw].
    rewrite !mvmul_mmul. reflexivity.
Qed.
(** C05, uniformly: every class rotates by its meaning, which is in SO(3). *)
Lemma C05_rotate_is_meaning_lemma : forall (p : prim) (r : rotation) (v : V3),
  valid r -> exact_operand p r ->
  SO3 (meaning r) /\ rotate p r v = Val (mvmul (meaning r) v).
Proof. intros p r v V X. split; [apply meaning_SO3, V|apply rotate_exact; assumption]. Qed.
Lemma C05_rotate_is_meaning_ex : forall p,
  valid (RotVec (mkV3 1 2 3)) /\ exact_operand p (RotVec (mkV3 1 2 3)) /\
  valid (RotAA (mkAA 7 (mkV3 0 (3/5) (4/5)))) /\ eps4throot p <= vnorm (mkV3 1 2 3).
Proof.
  intros p. assert (E : eps4throot p <= vnorm (mkV3 1 2 3)).
  { pose proof (eps4_small p). apply Rle_trans with 1; [lra|]. unfold vnorm.
    apply Rle_trans with (sqrt 1); [rewrite sqrt_1; lra|]. apply sqrt_le_1_alt. lin_unfold; lra. }
  repeat split; [right; exact E| |exact E]. cbn [valid aaxis]. clear E; lin_unfold; field.
Qed.

(** C06: converting between any two classes keeps the rotation, never yields
    NaN and yields a legal value of the target class, outside the truncation
    windows [exact_conversion]. *)
Lemma C06_conversion_exact_lemma : forall (p : prim) (k : kind) (r : rotation),
  valid r -> exact_conversion p k r ->
  exists r', convert p k r = Val r' /\ kind_of r' = k /\ valid r' /\ meaning r' = meaning r.
Proof. exact convert_exact. Qed.
(** C06: no legal input makes a conversion fail, windows included. *)
Lemma C06_conversion_total_lemma : forall (p : prim) (k : kind) (r : rotation),
  valid r -> exists r', convert p k r = Val r' /\ kind_of r' = k.
Proof. exact convert_total. Qed.
(** C06: conversions compose: going through any intermediate class gives the
    same rotation as converting directly. *)
Lemma C06_conversion_path_lemma : forall (p : prim) (k1 k2 : kind) (r : rotation),
  valid r -> clear_angle p (meaning r) -> exact_operand p r ->
  exists r1 r2 r3, convert p k1 r = Val r1 /\ convert p k2 r1 = Val r2 /\ convert p k2 r = Val r3 /\
    kind_of r2 = k2 /\ kind_of r3 = k2 /\ valid r2 /\ meaning r2 = meaning r /\ meaning r3 = meaning r.
Proof.
  intros p k1 k2 r V C X.
  pose proof (clear_regular p _ C) as G.
  assert (X1 : forall k, exact_conversion p k r).
  { intros k. apply exact_operand_conversion; [exact X|]. intros _. exact G. }
  destruct (convert_exact p k1 r V (X1 k1)) as (r1 & E1 & K1 & V1 & M1).
  assert (XO : exact_operand p r1).
  { destruct r1 as [q|a|v|m|e|e]; cbn [exact_operand]; auto. cbn [meaning] in M1. rewrite <- M1 in C.
    destruct C as [C|C].
    - destruct (Rlt_dec (vnorm v) (eps4throot p)) as [L|L]; [|right; lra]. left.
      apply vnorm_zero. assert (T : mtrace (vec_rot v) = 3) by (rewrite C; lin_unfold; ring).
      rewrite vec_rot_trace in T. assert (Cv : cos (vnorm v) = cos 0) by (rewrite cos_0; lra).
      apply cos_inj in Cv; [exact Cv| |].
      + pose proof (vnorm_nonneg v). pose proof (eps4_small p). pose proof PI2_1. lra.
      + pose proof PI2_1. lra.
    - right. rewrite vec_rot_trace in C. apply Rnot_lt_le; intros L.
      assert (cos (eps4throot p) < cos (vnorm v)); [|lra].
      apply cos_decreasing_1; try exact L; pose proof (vnorm_nonneg v); pose proof (eps4_small p); pose proof PI2_1; lra. }
  assert (X2 : exact_conversion p k2 r1).
  { apply exact_operand_conversion; [exact XO|]. intros _. rewrite M1. exact G. }
  destruct (convert_exact p k2 r1 V1 X2) as (r2 & E2 & K2 & V2 & M2).
  destruct (convert_exact p k2 r V (X1 k2)) as (r3 & E3 & K3 & V3 & M3).
  exists r1, r2, r3. repeat split; try assumption. congruence.
Qed.
Lemma C06_conversion_path_ex : forall p,
  valid (RotZyx (mkZyx (PI/2) 0 0)) /\ clear_angle p (meaning (RotZyx (mkZyx (PI/2) 0 0))) /\
  exact_operand p (RotZyx (mkZyx (PI/2) 0 0)).
Proof.
  intros p. repeat split. right. cbn [meaning]. spec_unfold. rewrite !sin_0, !cos_0, cos_PI2.
  pose proof (eps4_small p). pose proof (eps4_pos p). pose proof PI2_1.
  assert (0 < cos (eps4throot p)) by (apply cos_gt_0; lra). lra.
Qed.

(** C07: the truncated series used for rotation vectors shorter than
    eps^(1/4): same real part as the exact half-angle quaternion, imaginary
    part within eps*|v|/3840, squared norm within eps*|v|^2/3840 of one. *)
Lemma C07_small_rotation_vector_lemma : forall (p : prim) (v : V3), v <> vzero ->
  exists q' : Quat, convert p KQuat (RotVec v) = Val (RotQuat q') /\
  let n := vscale (/ vnorm v) v in
  qw q' = cos (vnorm v / 2) /\
  vnorm (vsub (qvec q') (vscale (sin (vnorm v / 2)) n)) <= epsilon p * vnorm v / 3840 /\
  Rabs (qnorm2 q' - 1) <= epsilon p * (vnorm v * vnorm v) / 3840.
Proof.
  intros p v H. exists (rv_to_quat p v). split; [reflexivity|]. cbv zeta.
  assert (N : vnorm v <> 0) by (intros E; apply H, vnorm_zero, E).
  destruct (rv_to_quat_error p v N) as (A & B & C). split; [exact A|]. split; [exact B|exact C].
Qed.

(** C08: RotationVector from RotationQuaternion in the truncated branch. *)
Lemma C08_small_quaternion_to_vector_lemma : forall (p : prim) (q : Quat), qnorm q = 1 ->
  exists v u, convert p KVec (RotQuat q) = Val (RotVec v) /\ vec_rot u = quat_rot q /\
     vnorm (vsub v u) <= dummy_precision p * vnorm u.
Proof.
  intros p q H. apply qnorm_unit in H. destruct (quat_to_rv_error p q H) as (v & u & E & M & B).
  exists v, u. cbn [convert to_rv]. rewrite E. cbn [omap]. repeat split; assumption.
Qed.
(** C08: AngleAxis from RotationVector: legal always, exact unless the vector
    is non-zero and shorter than the tolerance, when it is the identity and
    hence off by less than the tolerance. *)
Lemma C08_small_vector_to_angle_axis_lemma : forall (p : prim) (v : V3),
  exists a, convert p KAA (RotVec v) = Val (RotAA a) /\ vnorm (aaxis a) = 1 /\
    (v = vzero \/ dummy_precision p <= vnorm v -> aa_rot a = vec_rot v) /\
    (vnorm v < dummy_precision p -> aangle a = 0) /\
    vnorm (vsub (vscale (aangle a) (aaxis a)) v) < dummy_precision p.
Proof.
  intros p v. exists (rv_to_aa p v). split; [reflexivity|].
  split; [apply vnorm_unit, rv_to_aa_unit|]. split; [intros H; apply rv_to_aa_exact, H|].
  pose proof (dummy_pos p) as D. unfold rv_to_aa. destruct (Rlt_dec (vnorm v) (dummy_precision p)) as [L|L].
  - split; [reflexivity|]. cbn [aangle aaxis].
    replace (vsub (vscale 0 (mkV3 1 0 0)) v) with (vscale (-1) v) by lin.
    rewrite vnorm_vscale, Rabs_left by lra. lra.
  - split; [lra|]. cbn [aangle aaxis]. assert (N : vnorm v <> 0) by lra. rewrite e_normalized_unit by exact N.
    unfold unit_of. replace (vsub (vscale (vnorm v) (vscale (/ vnorm v) v)) v) with vzero.
    + rewrite vnorm_vzero. exact D.
    + destruct v as [x y z]; cbn [vscale vsub vx vy vz]. unfold vsub, vscale, vzero; cbn [vx vy vz]. f_equal; field; exact N.
Qed.

(** C09 *)
Lemma C09_matrix_to_quaternion_lemma : forall (p : prim) (m : M33), SO3 m ->
  exists q, convert p KQuat (RotMat m) = Val (RotQuat q) /\ qnorm q = 1 /\
    (forall v, sandwich q v = mvmul m v) /\ convert p KMat (RotQuat q) = Val (RotMat m).
Proof.
  intros p m S. destruct (e_quat_of_matrix_ok m S) as (q & E & U & R). exists q.
  cbn [convert to_quat to_mat]. rewrite E. cbn [omap]. split; [reflexivity|]. split; [apply qnorm_unit, U|].
  split; [intros v; rewrite sandwich_matrix, R; reflexivity|]. rewrite e_toRotationMatrix_unit, R by exact U. reflexivity.
Qed.
Lemma C09_matrix_to_quaternion_ex :
  SO3 (mkM33 (-1) 0 0  0 (-1) 0  0 0 1) /\ SO3 (mkM33 0 0 1  1 0 0  0 1 0).
Proof. split; split; lin_unfold; try (f_equal; ring); ring. Qed.

(** C10: Euler angles extracted from any rotation reproduce it, at gimbal lock
    too. *)
Lemma C10_euler_extraction_lemma : forall (p : prim) (r : rotation), valid r ->
  (exact_conversion p KZyx r -> exists e, convert p KZyx r = Val (RotZyx e) /\
     mmul (Rot_z (zyaw e)) (mmul (Rot_y (zpitch e)) (Rot_x (zroll e))) = meaning r) /\
  (exact_conversion p KXyz r -> exists e, convert p KXyz r = Val (RotXyz e) /\
     mmul (Rot_x (xroll e)) (mmul (Rot_y (xpitch e)) (Rot_z (xyaw e))) = meaning r).
Proof.
  intros p r V. split; intros X; destruct (convert_exact p _ r V X) as (r' & E & K & _ & M);
    destruct r' as [q|a|v|m|e|e]; cbn [kind_of] in K; try discriminate; exists e; (split; [exact E|exact M]).
Qed.
(** the hypothesis covers gimbal lock *)
Lemma C10_euler_extraction_ex : forall p,
  let r := RotMat (mmul (Rot_z 1) (mmul (Rot_y (PI/2)) (Rot_x 2))) in
  valid r /\ exact_conversion p KZyx r /\ exact_conversion p KXyz r.
Proof. intros p. cbv zeta. split; [|split; exact I]. exact (zyx_rot_SO3 (mkZyx 1 (PI/2) 2)). Qed.

(** C11: concatenation. *)
Lemma C11_concatenation_lemma : forall (p : prim) (a b : rotation),
  valid a -> valid b -> exact_operand p a -> exact_operand p b ->
  exact_result p (kind_of a) (mmul (meaning a) (meaning b)) ->
  exists c, mult p a b = Val c /\ kind_of c = kind_of a /\ valid c /\
    meaning c = mmul (meaning a) (meaning b) /\
    (exact_operand p c -> forall v, exists bv, rotate p b v = Val bv /\ rotate p c v = rotate p a bv).
Proof.
  intros p a b Va Vb Xa Xb Xr. destruct (mult_exact p a b Va Vb Xa Xb Xr) as (c & E & K & V & M).
  exists c. repeat split; try assumption. intros Xc v. exists (mvmul (meaning b) v).
  split; [apply rotate_exact; assumption|]. rewrite !rotate_exact by assumption. rewrite M, mvmul_mmul. reflexivity.
Qed.
(** C11: associativity and neutrality of Identity, for every mix of classes
    (classes other than RotationVector on the left, where no window exists). *)
Lemma C11_assoc_identity_lemma : forall (p : prim) (a b c : rotation),
  valid a -> valid b -> valid c -> exact_operand p a -> exact_operand p b -> exact_operand p c ->
  kind_of a <> KVec -> kind_of b <> KVec ->
  (exists ab abc bc abc', mult p a b = Val ab /\ mult p ab c = Val abc /\
     mult p b c = Val bc /\ mult p a bc = Val abc' /\ valid abc /\ valid abc' /\
     meaning abc = meaning abc') /\
  (forall k, exists ai ia, mult p a (identity k) = Val ai /\ meaning ai = meaning a /\
     (k <> KVec -> mult p (identity k) a = Val ia /\ meaning ia = meaning a /\ kind_of ia = k)).
Proof.
  intros p a b c Va Vb Vc Xa Xb Xc Ka Kb.
  assert (NR : forall r m, kind_of r <> KVec -> exact_result p (kind_of r) m) by (intros r m H E; congruence).
  assert (NO : forall r, kind_of r <> KVec -> exact_operand p r) by (intros [q|x|x|x|x|x] H; cbn in *; auto; congruence).
  split.
  - destruct (mult_exact p a b Va Vb Xa Xb (NR a _ Ka)) as (ab & E1 & K1 & V1 & M1).
    assert (Kab : kind_of ab <> KVec) by congruence.
    destruct (mult_exact p ab c V1 Vc (NO _ Kab) Xc (NR ab _ Kab)) as (abc & E2 & K2 & V2 & M2).
    destruct (mult_exact p b c Vb Vc Xb Xc (NR b _ Kb)) as (bc & E3 & K3 & V3 & M3).
    assert (Kbc : kind_of bc <> KVec) by congruence.
    destruct (mult_exact p a bc Va V3 Xa (NO _ Kbc) (NR a _ Ka)) as (abc' & E4 & K4 & V4 & M4).
    exists ab, abc, bc, abc'. repeat split; try assumption. rewrite M2, M1, M4, M3. symmetry. apply mmul_assoc.
  - intros k.
    assert (Vi : valid (identity k)) by (destruct k; cbn [identity valid aaxis]; auto; try (lin_unfold; lra); exact SO3_mid).
    assert (Mi : meaning (identity k) = mid).
    { destruct k; cbn [identity meaning]; [exact quat_rot_id|apply aa_rot_0_id|exact vec_rot_zero|reflexivity| |];
        spec_unfold; rewrite !sin_0, !cos_0; f_equal; ring. }
    assert (Xi : exact_operand p (identity k)) by (destruct k; cbn; auto).
    destruct (mult_exact p a _ Va Vi Xa Xi (NR a _ Ka)) as (ai & E1 & K1 & V1 & M1).
    rewrite Mi, mmul_id_r in M1.
    destruct (kind_eq_dec k KVec) as [->|NK].
    { exists ai, ai. split; [exact E1|]. split; [exact M1|]. intros N; congruence. }
    assert (Ki : kind_of (identity k) = k) by (destruct k; reflexivity).
    destruct (mult_exact p (identity k) a Vi Va Xi Xa) as (ia & E2 & K2 & V2 & M2); [intros H; congruence|].
    rewrite Mi, mmul_id_l in M2.
    exists ai, ia. repeat split; try assumption. congruence.
Qed.
Lemma C11_assoc_identity_ex : forall p,
  let a := RotQuat (mkQ (3/5) (4/5) 0 0) in let b := RotXyz (mkXyz 1 2 3) in let c := RotVec (mkV3 0 0 5) in
  valid a /\ valid b /\ valid c /\ exact_operand p a /\ exact_operand p b /\ exact_operand p c /\
  kind_of a <> KVec /\ kind_of b <> KVec.
Proof.
  intros p. cbv zeta. repeat split; try discriminate; try (cbn [valid]; lin_unfold; lra).
  right. pose proof (eps4_small p). unfold vnorm. replace (vnorm2 (mkV3 0 0 5)) with (5 * 5) by (lin_unfold; ring).
  rewrite sqrt_square by lra. lra.
Qed.

(** C12: inversion. *)
Lemma C12_inversion_lemma : forall (p : prim) (r : rotation), valid r ->
  exists i, inverted r = Val i /\ kind_of i = kind_of r /\ valid i /\
    mmul (meaning r) (meaning i) = mid /\ mmul (meaning i) (meaning r) = mid /\
    (exact_operand p r -> exists l l', mult p r i = Val l /\ mult p i r = Val l' /\
        valid l /\ valid l' /\ meaning l = mid /\ meaning l' = mid) /\
    (exists ii, inverted i = Val ii /\ valid ii /\ meaning ii = meaning r) /\
    (exact_operand p r -> forall v, exists u, rotate p r v = Val u /\ inverseRotate p r u = Val v) /\
    (exact_operand p r -> forall v, exists u, inverseRotate p r v = Val u /\ rotate p r u = Val v).
Proof.
  intros p r V. pose proof (meaning_SO3 r V) as S.
  destruct (inverted_exact r V) as (i & E & K & Vi & M). exists i.
  split; [exact E|]. split; [exact K|]. split; [exact Vi|]. rewrite M.
  split; [apply SO3_inv_r, S|]. split; [apply SO3_inv_l, S|].
  assert (R : exact_operand p r -> exact_operand p i) by apply (inverted_operand p r i E).
  split; [|split; [|split]].
  - intros X.
    destruct (mult_exact p r i V Vi X (R X)) as (l & E1 & K1 & V1 & M1).
    { intros _. rewrite M, SO3_inv_r by exact S. left; reflexivity. }
    destruct (mult_exact p i r Vi V (R X) X) as (l' & E2 & K2 & V2 & M2).
    { intros _. rewrite M, SO3_inv_l by exact S. left; reflexivity. }
    exists l, l'. repeat split; try assumption; [rewrite M1, M; apply SO3_inv_r, S|rewrite M2, M; apply SO3_inv_l, S].
  - destruct (inverted_exact i Vi) as (ii & E2 & K2 & V2 & M2). exists ii. repeat split; try assumption.
    rewrite M2, M. apply mtrans_mtrans.
  - intros X v. exists (mvmul (meaning r) v). split; [apply rotate_exact; assumption|].
    rewrite inverseRotate_exact by assumption. rewrite <- mvmul_mmul, SO3_inv_l, mvmul_id by exact S. reflexivity.
  - intros X v. exists (mvmul (mtrans (meaning r)) v). split; [apply inverseRotate_exact; assumption|].
    rewrite rotate_exact by assumption. rewrite <- mvmul_mmul, SO3_inv_r, mvmul_id by exact S. reflexivity.
Qed.
(** C12: the inverse of a product is the product of the inverses reversed. *)
Lemma C12_inverse_of_product_lemma : forall (p : prim) (a b : rotation), valid a -> valid b ->
  exact_operand p a -> exact_operand p b -> kind_of a <> KVec -> kind_of b <> KVec ->
  exists ab i ai bi c, mult p a b = Val ab /\ inverted ab = Val i /\
    inverted a = Val ai /\ inverted b = Val bi /\ mult p bi ai = Val c /\ meaning i = meaning c.
Proof.
  intros p a b Va Vb Xa Xb Ka Kb.
  destruct (mult_exact p a b Va Vb Xa Xb) as (ab & E1 & K1 & V1 & M1); [intros H; congruence|].
  destruct (inverted_exact ab V1) as (i & E2 & K2 & V2 & M2).
  destruct (inverted_exact a Va) as (ai & E3 & K3 & V3 & M3).
  destruct (inverted_exact b Vb) as (bi & E4 & K4 & V4 & M4).
  destruct (mult_exact p bi ai V4 V3 (inverted_operand p b bi E4 Xb) (inverted_operand p a ai E3 Xa))
    as (c & E5 & K5 & V5 & M5); [intros H; congruence|].
  exists ab, i, ai, bi, c. repeat split; try assumption. rewrite M2, M1, M5, M3, M4, mtrans_mmul. reflexivity.
Qed.

(** C13: rotate and inverseRotate are rigid and linear; rotating a 3xN matrix
    rotates every column. *)
Lemma rigid_SO3 m : SO3 m -> forall a b,
  vdot (mvmul m a) (mvmul m b) = vdot a b /\ vnorm (mvmul m a) = vnorm a /\
  vcross (mvmul m a) (mvmul m b) = mvmul m (vcross a b).
Proof.
  intros S.
  assert (D : forall a b, vdot (mvmul m a) (mvmul m b) = vdot a b).
  { intros a b. pose proof (SO3_inv_l m S) as H.
    assert (E : vdot (mvmul m a) (mvmul m b) = vdot a (mvmul (mmul (mtrans m) m) b)) by lin.
    rewrite E, H, mvmul_id. reflexivity. }
  intros a b. split; [apply D|]. split; [unfold vnorm, vnorm2; rewrite D; reflexivity|].
  destruct (SO3_cofactor m S) as ((A1 & A2 & A3) & (B1 & B2 & B3) & (C1 & C2 & C3)).
  destruct m as [a00 a01 a02 a10 a11 a12 a20 a21 a22], a as [a1 a2 a3], b as [b1 b2 b3].
  cbn [m00 m01 m02 m10 m11 m12 m20 m21 m22] in *. unfold vcross, mvmul; cbn [vx vy vz m00 m01 m02 m10 m11 m12 m20 m21 m22].
  f_equal.
  - rewrite <- A1, <- A2, <- A3. ring.
  - rewrite <- B1, <- B2, <- B3. ring.
  - rewrite <- C1, <- C2, <- C3. ring.
Qed.
Lemma C13_rigid_lemma : forall (p : prim) (r : rotation), valid r -> exact_operand p r ->
  forall op, op = rotate p r \/ op = inverseRotate p r ->
  forall a b s, exists a' b', op a = Val a' /\ op b = Val b' /\
    vdot a' b' = vdot a b /\ vnorm a' = vnorm a /\ op (vcross a b) = Val (vcross a' b') /\
    op (vadd a b) = Val (vadd a' b') /\ op (vscale s a) = Val (vscale s a').
Proof.
  intros p r V X op Ho a b s. pose proof (meaning_SO3 r V) as S.
  assert (H : exists m, SO3 m /\ forall v, op v = Val (mvmul m v)).
  { destruct Ho as [->| ->]; [exists (meaning r)|exists (mtrans (meaning r))]; (split; [|intros v]).
    - exact S. - apply rotate_exact; assumption.
    - apply SO3_trans, S. - apply inverseRotate_exact; assumption. }
  destruct H as (m & Sm & Hm). exists (mvmul m a), (mvmul m b). rewrite !Hm.
  destruct (rigid_SO3 m Sm a b) as (D & N & C). repeat split; try assumption.
  - rewrite C. reflexivity.
  - f_equal. lin.
  - f_equal. lin.
Qed.
Lemma C13_columns_lemma : forall (p : prim) (r : rotation) (cols : list V3), valid r -> exact_operand p r ->
  exists cols', rotate_cols p r cols = Val cols' /\ length cols' = length cols /\
    forall i v, nth_error cols i = Some v -> exists u, nth_error cols' i = Some u /\ rotate p r v = Val u.
Proof.
  intros p r cols V X. unfold rotate_cols. rewrite to_mat_exact by assumption. cbn [obind].
  exists (map (mvmul (meaning r)) cols). split; [reflexivity|]. split; [apply map_length|].
  intros i v H. exists (mvmul (meaning r) v). split; [apply map_nth_error, H|]. apply rotate_exact; assumption.
Qed.
