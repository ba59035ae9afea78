(** Claims C30-C38, C53: proofs (statements are copied to Prop4.v). *)
From Coq Require Import Reals Lra Psatz Bool.
From Verif Require Import Linalg Spec SpecFacts SpecDiff ModelCommon ModelEigen ModelRotation ModelDiff CommonFacts ConvFacts RVFacts Windows RotFacts MetricFacts DerivFacts DiffFacts DiffFacts2 JacFacts.
Local Open Scope R_scope.

(** C30: the two angular velocity classes are related by the rotation, and the
    two conversions undo each other. *)
Lemma C30_local_global_velocity_lemma : forall (p : prim) (r : rotation) (w : V3),
  valid r -> exact_operand p r ->
  let to_global v := diff_convert p KDGlobal r (DLocal v) in
  let to_local v := diff_convert p KDLocal r (DGlobal v) in
  exists g l,
    to_global w = Some (Val (DGlobal g)) /\ g = mvmul (meaning r) w /\
    to_local g = Some (Val (DLocal w)) /\
    to_local w = Some (Val (DLocal l)) /\ l = mvmul (mtrans (meaning r)) w /\
    to_global l = Some (Val (DGlobal w)).
Proof.
  intros p r w V X. cbv zeta. pose proof (meaning_SO3 r V) as (S & _).
  exists (mvmul (meaning r) w), (mvmul (mtrans (meaning r)) w). cbn [diff_convert].
  rewrite !(rotate_exact p r _ V X), !(inverseRotate_exact p r _ V X). cbn [omap].
  rewrite <- !mvmul_mmul, S, (mmul_inv_comm _ _ S), mvmul_id. repeat split.
Qed.
Lemma C30_local_global_velocity_ex : forall p,
  valid (RotXyz (mkXyz 1 2 3)) /\ exact_operand p (RotXyz (mkXyz 1 2 3)).
Proof. intros p; split; exact I. Qed.
(** C30: the two velocities describe the same motion of a rotating frame. *)
Lemma C30_same_motion_lemma : forall (p : prim) (c : R -> M33) (t : R) (wl wg : V3),
  SO3 (c t) ->
  diff_convert p KDGlobal (RotMat (c t)) (DLocal wl) = Some (Val (DGlobal wg)) ->
  (has_local_velocity c t wl <-> has_global_velocity c t wg).
Proof.
  intros p c t wl wg S E. cbn [diff_convert rotate to_mat obind omap] in E.
  assert (wg = mvmul (c t) wl) as -> by (injection E; intros; congruence).
  apply local_global_velocity, S.
Qed.
Lemma C30_same_motion_ex : forall p, SO3 (Rot_z 1) /\
  diff_convert p KDGlobal (RotMat (Rot_z 1)) (DLocal ez) = Some (Val (DGlobal (mvmul (Rot_z 1) ez))) /\
  has_local_velocity Rot_z 1 ez.
Proof.
  intros p. split; [apply Rot_z_SO3|]. split; [reflexivity|].
  unfold has_local_velocity, Mderiv, Rot_z, ez, mcross, mmul. cbn [m00 m01 m02 m10 m11 m12 m20 m21 m22 vx vy vz].
  repeat split; dl_solve; ring.
Qed.

(** C31: along every differentiable curve of unit quaternions the extracted
    velocities are the angular velocities of the rotating frame, and converting
    them back returns the derivative. *)
Lemma C31_quaternion_curve_lemma : forall (p : prim) (c : R -> Quat) (t : R) (d : Quat),
  (forall s, qnorm (c s) = 1) -> Qderiv c t d ->
  let r := RotQuat (c t) in
  exists wl wg,
    diff_convert p KDLocal r (DQuat d) = Some (Val (DLocal wl)) /\
    diff_convert p KDGlobal r (DQuat d) = Some (Val (DGlobal wg)) /\
    has_local_velocity (fun s => meaning (RotQuat (c s))) t wl /\
    has_global_velocity (fun s => meaning (RotQuat (c s))) t wg /\
    diff_convert p KDQuat r (DLocal wl) = Some (Val (DQuat d)) /\
    diff_convert p KDQuat r (DGlobal wg) = Some (Val (DQuat d)).
Proof.
  intros p c t d U H. cbv zeta.
  assert (U' : forall s, qnorm2 (c s) = 1) by (intros s; apply qnorm_unit, U).
  exists (local_of_quatdiff (c t) d), (global_of_quatdiff (c t) d). cbn [diff_convert meaning].
  rewrite (quatdiff_local_back _ _ (U' t) (unit_curve_tangent _ _ _ U' H)).
  rewrite (quatdiff_global_back _ _ (U' t) (unit_curve_tangent _ _ _ U' H)).
  repeat split; first [reflexivity | apply (quat_curve_local c t d U' H) | apply (quat_curve_global c t d U' H)].
Qed.
Lemma C31_quaternion_curve_ex :
  let c := fun s => mkQ (cos s) (sin s) 0 0 in
  (forall s, qnorm (c s) = 1) /\ Qderiv c 1 (mkQ (- sin 1) (cos 1) 0 0).
Proof.
  cbv zeta. split.
  - intros s. apply qnorm_unit. unfold qnorm2; cbn. pose proof (sin2_cos2' s). lra.
  - unfold Qderiv; cbn. repeat split; dl_solve; ring.
Qed.
(** C31: velocity -> derivative -> velocity is the identity, and the
    derivative is tangent to the unit sphere. *)
Lemma C31_quaternion_roundtrip_lemma : forall (p : prim) (q : Quat) (w : V3), qnorm q = 1 ->
  (exists d, diff_convert p KDQuat (RotQuat q) (DLocal w) = Some (Val (DQuat d)) /\
     qw q * qw d + qx q * qx d + qy q * qy d + qz q * qz d = 0 /\
     diff_convert p KDLocal (RotQuat q) (DQuat d) = Some (Val (DLocal w))) /\
  (exists d, diff_convert p KDQuat (RotQuat q) (DGlobal w) = Some (Val (DQuat d)) /\
     qw q * qw d + qx q * qx d + qy q * qy d + qz q * qz d = 0 /\
     diff_convert p KDGlobal (RotQuat q) (DQuat d) = Some (Val (DGlobal w))).
Proof.
  intros p q w U. apply qnorm_unit in U. destruct (quatdiff_tangent q w) as (T1 & T2). split; eexists; (split; [reflexivity|]); (split; [assumption|]); cbn [diff_convert].
  - rewrite local_quatdiff_back by exact U. reflexivity.
  - rewrite global_quatdiff_back by exact U. reflexivity.
Qed.
(** C31: the derivative computed from the angular velocity of a moving frame
    is the derivative of its quaternion. *)
Lemma C31_quaternion_derivative_lemma : forall (p : prim) (c : R -> Quat) (t : R) (d : Quat) (w : V3),
  (forall s, qnorm (c s) = 1) -> Qderiv c t d ->
  (has_local_velocity (fun s => quat_rot (c s)) t w ->
     diff_convert p KDQuat (RotQuat (c t)) (DLocal w) = Some (Val (DQuat d))) /\
  (has_global_velocity (fun s => quat_rot (c s)) t w ->
     diff_convert p KDQuat (RotQuat (c t)) (DGlobal w) = Some (Val (DQuat d))).
Proof.
  intros p c t d w U H.
  destruct (C31_quaternion_curve_lemma p c t d U H) as (wl & wg & _ & _ & L & G & BL & BG).
  assert (S : SO3 (quat_rot (c t))) by (apply (meaning_SO3 (RotQuat (c t))); apply qnorm_unit, U).
  split; intros W.
  - rewrite (local_velocity_uniq _ t w wl S W L). exact BL.
  - rewrite (global_velocity_uniq _ t w wg S W G). exact BG.
Qed.

(** C32 *)
Lemma C32_matrix_curve_lemma : forall (p : prim) (c : R -> M33) (t : R) (d : M33),
  (forall s, SO3 (c s)) -> Mderiv c t d ->
  let r := RotMat (c t) in
  exists wl wg,
    diff_convert p KDLocal r (DMat d) = Some (Val (DLocal wl)) /\
    diff_convert p KDGlobal r (DMat d) = Some (Val (DGlobal wg)) /\
    has_local_velocity c t wl /\ has_global_velocity c t wg /\
    diff_convert p KDMat r (DLocal wl) = Some (Val (DMat d)) /\
    diff_convert p KDMat r (DGlobal wg) = Some (Val (DMat d)).
Proof.
  intros p c t d S H. cbv zeta.
  pose proof (mat_curve_local c t d S H) as L. pose proof (mat_curve_global c t d S H) as G.
  exists (local_of_matdiff (c t) d), (global_of_matdiff (c t) d). cbn [diff_convert].
  unfold matdiff_of_local, matdiff_of_global. rewrite !skew_mcross.
  pose proof (Mderiv_uniq _ _ _ _ H L) as EL. pose proof (Mderiv_uniq _ _ _ _ H G) as EG.
  split; [reflexivity|]. split; [reflexivity|]. split; [exact L|]. split; [exact G|].
  split; [rewrite EL at 2|rewrite EG at 2]; reflexivity.
Qed.
Lemma C32_matrix_curve_ex : (forall s, SO3 (Rot_z s)) /\ 
  Mderiv Rot_z 1 (mkM33 (- sin 1) (- cos 1) 0 (cos 1) (- sin 1) 0 0 0 0).
Proof.
  split; [intros s; apply Rot_z_SO3|]. unfold Mderiv, Rot_z; cbn. repeat split; dl_solve; ring.
Qed.
(** C32: R [w]x and [w]x R, and back. *)
Lemma C32_matrix_roundtrip_lemma : forall (p : prim) (m : M33) (w : V3), SO3 m ->
  diff_convert p KDMat (RotMat m) (DLocal w) = Some (Val (DMat (mmul m (mcross w)))) /\
  diff_convert p KDLocal (RotMat m) (DMat (mmul m (mcross w))) = Some (Val (DLocal w)) /\
  diff_convert p KDMat (RotMat m) (DGlobal w) = Some (Val (DMat (mmul (mcross w) m))) /\
  diff_convert p KDGlobal (RotMat m) (DMat (mmul (mcross w) m)) = Some (Val (DGlobal w)).
Proof.
  intros p m w S. cbn [diff_convert].
  pose proof (local_matdiff_back m w S) as L. pose proof (global_matdiff_back m w S) as G.
  unfold matdiff_of_local, matdiff_of_global in *. rewrite !skew_mcross in *. rewrite L, G.
  repeat split.
Qed.

(** C33 *)
Lemma C33_zyx_rates_lemma : forall (p : prim) (c : R -> Zyx) (t : R) (d : V3),
  Zyxderiv c t d ->
  exists w, diff_convert p KDLocal (RotZyx (c t)) (DZyx d) = Some (Val (DLocal w)) /\
    has_local_velocity (fun s => meaning (RotZyx (c s))) t w /\
    (cos (zpitch (c t)) <> 0 ->
     diff_convert p KDZyx (RotZyx (c t)) (DLocal w) = Some (Val (DZyx d))).
Proof.
  intros p c t d H. eexists. split; [reflexivity|]. split; [apply (zyx_curve_local c t d H)|].
  intros N. cbn [diff_convert]. destruct (zyx_local_to_diff (c t)) as [m| |] eqn:E.
  - destruct (zyx_inverse _ _ E) as (_ & I1 & _). cbn [omap]. rewrite <- mvmul_mmul, I1, mvmul_id. reflexivity.
  - destruct (zyx_no_nan _ E).
  - apply zyx_throws in E. contradiction.
Qed.
Lemma C33_zyx_rates_ex : Zyxderiv (fun s => mkZyx (s * s) s (2 * s)) 1 (mkV3 2 1 2) /\ cos (zpitch (mkZyx 1 1 2)) <> 0.
Proof.
  split; [unfold Zyxderiv; cbn; repeat split; dl_solve; ring|]. cbn.
  pose proof PI2_1. assert (0 < cos 1) by (apply cos_gt_0; lra). lra.
Qed.
(** C33: angular velocity -> rates -> angular velocity, when it does not throw *)
Lemma C33_zyx_inverse_lemma : forall (p : prim) (e : Zyx) (w : V3) (d : diff),
  diff_convert p KDZyx (RotZyx e) (DLocal w) = Some (Val d) ->
  diff_convert p KDLocal (RotZyx e) d = Some (Val (DLocal w)).
Proof.
  intros p e w d H. cbn [diff_convert] in H. destruct (zyx_local_to_diff e) as [m| |] eqn:E; try discriminate.
  cbn [omap] in H. assert (d = DZyx (mvmul m w)) as -> by congruence. cbn [diff_convert].
  destruct (zyx_inverse _ _ E) as (_ & _ & I2). rewrite <- mvmul_mmul, I2, mvmul_id. reflexivity.
Qed.
Lemma C33_zyx_inverse_ex : forall p, exists d, diff_convert p KDZyx (RotZyx (mkZyx 0 0 0)) (DLocal (mkV3 1 2 3)) = Some (Val d).
Proof.
  intros p. cbn [diff_convert]. destruct (zyx_local_to_diff (mkZyx 0 0 0)) as [m| |] eqn:E.
  - eexists; reflexivity.
  - destruct (zyx_no_nan _ E).
  - apply zyx_throws in E. cbn in E. rewrite cos_0 in E. lra.
Qed.

(** C34: first-order mappings of EulerAnglesXyz along every curve *)
Lemma C34_xyz_rates_lemma : forall (p : prim) (c : R -> Xyz) (t : R) (d : V3),
  Xyzderiv c t d ->
  exists wl wg,
    diff_convert p KDLocal (RotXyz (c t)) (DXyz d) = Some (Val (DLocal wl)) /\
    diff_convert p KDGlobal (RotXyz (c t)) (DXyz d) = Some (Val (DGlobal wg)) /\
    has_local_velocity (fun s => meaning (RotXyz (c s))) t wl /\
    has_global_velocity (fun s => meaning (RotXyz (c s))) t wg /\
    (cos (xpitch (c t)) <> 0 ->
     diff_convert p KDXyz (RotXyz (c t)) (DLocal wl) = Some (Val (DXyz d)) /\
     exists m, xyz_global_to_diff (c t) = Val m /\ mvmul m wg = d).
Proof.
  intros p c t d H. do 2 eexists. split; [reflexivity|]. split; [reflexivity|].
  split; [apply (xyz_curve_local c t d H)|]. split; [apply (xyz_curve_global c t d H)|].
  intros N. cbn [diff_convert]. split.
  - destruct (xyz_local_to_diff (c t)) as [m| |] eqn:E.
    + destruct (xyz_local_inverse _ _ E) as (_ & I1 & _). cbn [omap]. rewrite <- mvmul_mmul, I1, mvmul_id. reflexivity.
    + destruct (xyz_local_no_nan _ E).
    + apply xyz_local_throws in E. contradiction.
  - destruct (xyz_global_to_diff (c t)) as [m| |] eqn:E.
    + destruct (xyz_global_inverse _ _ E) as (_ & I1 & _). exists m. split; [reflexivity|]. rewrite <- mvmul_mmul, I1, mvmul_id. reflexivity.
    + destruct (xyz_global_no_nan _ E).
    + apply xyz_global_throws in E. contradiction.
Qed.
Lemma C34_xyz_rates_ex : Xyzderiv (fun s => mkXyz (s * s) s (2 * s)) 1 (mkV3 2 1 2) /\ cos (xpitch (mkXyz 1 1 2)) <> 0.
Proof.
  split; [unfold Xyzderiv; cbn; repeat split; dl_solve; ring|]. cbn.
  pose proof PI2_1. assert (0 < cos 1) by (apply cos_gt_0; lra). lra.
Qed.
(** C34: the mappings are pairwise inverse matrices whenever they do not throw *)
Lemma C34_xyz_inverse_lemma : forall e : Xyz,
  (forall m, xyz_local_to_diff e = Val m ->
     mmul m (xyz_diff_to_local e) = mid /\ mmul (xyz_diff_to_local e) m = mid) /\
  (forall m, xyz_global_to_diff e = Val m ->
     mmul m (xyz_diff_to_global e) = mid /\ mmul (xyz_diff_to_global e) m = mid).
Proof.
  intros e. split; intros m E; [apply xyz_local_inverse, E|apply xyz_global_inverse, E].
Qed.
Lemma C34_xyz_inverse_ex : exists m1 m2, xyz_local_to_diff (mkXyz 1 0 2) = Val m1 /\ xyz_global_to_diff (mkXyz 1 0 2) = Val m2.
Proof.
  unfold xyz_local_to_diff, xyz_global_to_diff; cbn [xpitch xroll xyaw].
  destruct (Req_EM_T (cos 0) 0) as [E|_]; [rewrite cos_0 in E; lra|]. do 2 eexists; split; reflexivity.
Qed.

(** C35: the rate mappings throw exactly at gimbal lock (and never return
    NaN) ... *)
Lemma C35_gimbal_lock_reported_lemma :
  (forall e, zyx_local_to_diff e = Throws <-> cos (zpitch e) = 0) /\
  (forall e, xyz_local_to_diff e = Throws <-> cos (xpitch e) = 0) /\
  (forall e, xyz_global_to_diff e = Throws <-> cos (xpitch e) = 0) /\
  (forall d e, xyz_local_to_second d e = Throws <-> cos (xpitch e) = 0) /\
  (forall d e, xyz_global_to_second d e = Throws <-> cos (xpitch e) = 0) /\
  (forall e, zyx_local_to_diff e <> NaN) /\
  (forall e, xyz_local_to_diff e <> NaN) /\ (forall e, xyz_global_to_diff e <> NaN).
Proof.
  repeat match goal with |- _ /\ _ => split end.
  - apply zyx_throws.
  - apply xyz_local_throws.
  - apply xyz_global_throws.
  - intros d e. unfold xyz_local_to_second. destruct (Req_EM_T _ 0); split; intros; try assumption; try reflexivity; try discriminate; contradiction.
  - intros d e. unfold xyz_global_to_second. destruct (Req_EM_T _ 0); split; intros; try assumption; try reflexivity; try discriminate; contradiction.
  - apply zyx_no_nan.
  - apply xyz_local_no_nan.
  - apply xyz_global_no_nan.
Qed.
Lemma C35_gimbal_lock_reported_ex : zyx_local_to_diff (mkZyx 1 (PI/2) 2) = Throws.
Proof. apply zyx_throws. cbn. apply cos_PI2. Qed.
(** ... and rightly so: at gimbal lock some angular velocity is not produced
    by any rates. *)
Lemma C35_gimbal_lock_real_lemma : forall p : prim,
  (forall e, cos (zpitch e) = 0 -> exists w, forall d, diff_convert p KDLocal (RotZyx e) (DZyx d) <> Some (Val (DLocal w))) /\
  (forall e, cos (xpitch e) = 0 -> exists w, forall d, diff_convert p KDLocal (RotXyz e) (DXyz d) <> Some (Val (DLocal w))) /\
  (forall e, cos (xpitch e) = 0 -> exists w, forall d, diff_convert p KDGlobal (RotXyz e) (DXyz d) <> Some (Val (DGlobal w))).
Proof.
  intros p. repeat match goal with |- _ /\ _ => split end; intros e E.
  - destruct (zyx_singular e E) as (w & W). exists w. intros d H. apply (W d). cbn [diff_convert] in H. congruence.
  - destruct (xyz_local_singular e E) as (w & W). exists w. intros d H. apply (W d). cbn [diff_convert] in H. congruence.
  - destruct (xyz_global_singular e E) as (w & W). exists w. intros d H. apply (W d). cbn [diff_convert] in H. congruence.
Qed.
Lemma C35_gimbal_lock_real_ex : cos (zpitch (mkZyx 0 (PI/2) 0)) = 0 /\ cos (xpitch (mkXyz 1 (- (PI/2)) 0)) = 0.
Proof. cbn. rewrite cos_neg, cos_PI2. split; reflexivity. Qed.

(** C36 *)
Lemma C36_second_order_forward_lemma : forall (c : R -> Xyz) (t : R) (d : V3), Xyzderiv c t d ->
  Mderiv (fun s => xyz_diff_to_local (c s)) t (xyz_second_to_local d (c t)) /\
  Mderiv (fun s => xyz_diff_to_global (c s)) t (xyz_second_to_global d (c t)).
Proof. intros c t d H. split; [apply second_to_local, H|apply second_to_global, H]. Qed.
(** C36, inverse mappings: [first] is the first-order mapping near [t]. *)
Lemma C36_second_order_inverse_lemma : forall (c : R -> Xyz) (t : R) (d : V3) (first : R -> M33) (eps : R),
  Xyzderiv c t d -> 0 < eps ->
  ((forall s, Rabs (s - t) < eps -> xyz_local_to_diff (c s) = Val (first s)) ->
     exists m, xyz_local_to_second d (c t) = Val m /\ Mderiv first t m) /\
  ((forall s, Rabs (s - t) < eps -> xyz_global_to_diff (c s) = Val (first s)) ->
     exists m, xyz_global_to_second d (c t) = Val m /\ Mderiv first t m).
Proof.
  intros c t d first eps H P. split; intros F.
  - apply (local_to_second c t d first (mkposreal eps P) H F).
  - apply (global_to_second c t d first (mkposreal eps P) H F).
Qed.
Lemma C36_second_order_inverse_ex : exists first,
  Xyzderiv (fun s => mkXyz (2 * s) s 0) 0 (mkV3 2 1 0) /\
  (forall s, Rabs (s - 0) < 1 -> xyz_local_to_diff (mkXyz (2 * s) s 0) = Val (first s)).
Proof.
  exists (fun s => match xyz_local_to_diff (mkXyz (2 * s) s 0) with Val m => m | _ => mid end).
  split; [unfold Xyzderiv; cbn; repeat split; dl_solve; ring|].
  intros s Hs. destruct (xyz_local_to_diff (mkXyz (2 * s) s 0)) as [m| |] eqn:E; [reflexivity| |].
  - destruct (xyz_local_no_nan _ E).
  - apply xyz_local_throws in E. cbn in E. rewrite Rminus_0_r in Hs. apply Rabs_def2 in Hs.
    pose proof PI2_1. assert (0 < cos s) by (apply cos_gt_0; lra). lra.
Qed.
(** C36: so the angular acceleration obtained with the two forward mappings,
    A(e) e'' + A'(e,e') e', is the derivative of the angular velocity. *)
Lemma C36_acceleration_lemma : forall (c : R -> Xyz) (rates : R -> V3) (t : R) (acc : V3),
  (forall s, Xyzderiv c s (rates s)) -> Vderiv rates t acc ->
  Vderiv (fun s => mvmul (xyz_diff_to_local (c s)) (rates s)) t
    (vadd (mvmul (xyz_diff_to_local (c t)) acc) (mvmul (xyz_second_to_local (rates t) (c t)) (rates t))) /\
  Vderiv (fun s => mvmul (xyz_diff_to_global (c s)) (rates s)) t
    (vadd (mvmul (xyz_diff_to_global (c t)) acc) (mvmul (xyz_second_to_global (rates t) (c t)) (rates t))).
Proof.
  intros c r t acc H (A0 & A1 & A2).
  destruct (C36_second_order_forward_lemma c t (r t) (H t)) as (L & G).
  destruct L as ((L1&L2&L3)&(L4&L5&L6)&(L7&L8&L9)).
  destruct G as ((G1&G2&G3)&(G4&G5&G6)&(G7&G8&G9)).
  unfold Vderiv, mvmul, vadd. cbn [vx vy vz].
  repeat split; dl_solve; unfold xyz_diff_to_local, xyz_diff_to_global, xyz_second_to_local, xyz_second_to_global;
    cbn [m00 m01 m02 m10 m11 m12 m20 m21 m22 vx vy vz]; ring.
Qed.
Lemma C36_acceleration_ex : let c := fun s => mkXyz (s * s) s 0 in let r := fun s => mkV3 (2 * s) 1 0 in
  (forall s, Xyzderiv c s (r s)) /\ Vderiv r 3 (mkV3 2 0 0).
Proof. cbv zeta. unfold Xyzderiv, Vderiv; cbn. split; [intros s|]; repeat split; dl_solve; ring. Qed.

(** C37: outside the small-norm branch (and at zero) the Jacobian is exact. *)
Lemma C37_jacobian_exact_lemma : forall (v : R -> V3) (t : R) (d : V3), Vderiv v t d ->
  v t = vzero \/ / 10 ^ 4 <= vnorm (v t) ->
  has_global_velocity (fun s => meaning (RotVec (v s))) t (mvmul (getJacobianOfExponentialMap (v t)) d).
Proof.
  intros v t d H [Z|G]; cbn [meaning].
  - replace (mvmul _ d) with d; [apply vec_rot_deriv_zero; assumption|].
    unfold getJacobianOfExponentialMap. rewrite Z, vnorm_vzero.
    destruct (Rlt_dec 0 (/ 10 ^ 4)) as [_|N]; [|exfalso; apply N; lra]. clear. unfold getSkewMatrixFromVector. lin.
  - assert (P : 0 < / 10 ^ 4) by lra.
    replace (getJacobianOfExponentialMap (v t)) with (exact_jac (v t)); [apply vec_rot_deriv; [lra|exact H]|].
    unfold getJacobianOfExponentialMap. destruct (Rlt_dec (vnorm (v t)) (/ 10 ^ 4)) as [L|_]; [lra|reflexivity].
Qed.
Lemma C37_jacobian_exact_ex : Vderiv (fun s => mkV3 s 1 (s * s)) 1 (mkV3 1 0 2) /\ / 10 ^ 4 <= vnorm (mkV3 1 1 (1 * 1)).
Proof.
  split; [unfold Vderiv; cbn; repeat split; dl_solve; ring|].
  unfold vnorm. apply Rle_trans with (sqrt 1); [rewrite sqrt_1; lra|]. apply sqrt_le_1_alt. unfold vnorm2, vdot; cbn. lra.
Qed.
(** C37: everywhere, small-norm branch included, it is within 2e-9 (relative
    to the rate) of the true one. *)
Lemma C37_jacobian_error_lemma : forall (v : R -> V3) (t : R) (d : V3), Vderiv v t d ->
  exists w, has_global_velocity (fun s => meaning (RotVec (v s))) t w /\
    vnorm (vsub (mvmul (getJacobianOfExponentialMap (v t)) d) w) <= / 10 ^ 8 / 5 * vnorm d.
Proof.
  intros v t d H. pose proof (vnorm_nonneg d) as PD.
  assert (Z0 : forall a, vnorm (vsub a a) = 0) by (intros a; replace (vsub a a) with vzero by (clear; lin); apply vnorm_vzero).
  destruct (Req_dec (vnorm (v t)) 0) as [Z|N]; [|destruct (Rlt_le_dec (vnorm (v t)) (/ 10 ^ 4)) as [L|G]].
  - apply vnorm_zero in Z. eexists. split; [apply (C37_jacobian_exact_lemma v t d H); left; exact Z|]. rewrite Z0. nra.
  - exists (mvmul (exact_jac (v t)) d). split; [apply vec_rot_deriv; assumption|].
    eapply Rle_trans; [apply jac_window; assumption|]. pose proof (vnorm_nonneg (v t)).
    apply Rmult_le_compat_r; [exact PD|]. nra.
  - eexists. split; [apply (C37_jacobian_exact_lemma v t d H); right; exact G|]. rewrite Z0. nra.
Qed.

Ltac cong_vec :=
  match goal with
  | |- Some (DLocal ?x) = Some (DLocal ?y) => replace x with y by (clear; lin); reflexivity
  | |- Some (DGlobal ?x) = Some (DGlobal ?y) => replace x with y by (clear; lin); reflexivity
  end.
(** C38: vector space laws, for both classes. *)
Lemma C38_velocity_vector_space_lemma : forall k : V3 -> diff, k = DLocal \/ k = DGlobal ->
  forall a b c (f g : R),
  let add x y := diff_add (k x) (k y) in
  let sub x y := diff_sub (k x) (k y) in
  (exists s, add a b = Some (k s) /\ add b a = Some (k s) /\ sub s b = Some (k a) /\
             vx s = vx a + vx b /\ vy s = vy a + vy b /\ vz s = vz a + vz b) /\
  (exists ab bc s, add a b = Some (k ab) /\ add b c = Some (k bc) /\ add ab c = Some (k s) /\ add a bc = Some (k s)) /\
  add a vzero = Some (k a) /\ sub a a = Some (k vzero) /\
  add (local_scale a f) (local_scale a g) = Some (k (local_scale a (f + g))) /\
  (exists s, add a b = Some (k s) /\ add (local_scale a f) (local_scale b f) = Some (k (local_scale s f))) /\
  local_scale (local_scale a f) g = local_scale a (f * g) /\ local_scale a 1 = a.
Proof.
  intros k K a b c f g. cbv zeta.
  destruct K as [-> | ->]; cbn [diff_add diff_sub]; unfold local_scale;
  (repeat match goal with |- _ /\ _ => split end;
   [ exists (vadd a b); cbn [diff_sub vadd vx vy vz]; repeat split; cong_vec
   | exists (vadd a b), (vadd b c), (vadd (vadd a b) c); repeat split; cong_vec
   | cong_vec | cong_vec | cong_vec
   | exists (vadd a b); repeat split; cong_vec
   | clear; lin | clear; lin ]).
Qed.
Lemma C38_velocity_vector_space_ex : diff_add (DLocal (mkV3 1 2 3)) (DLocal (mkV3 4 5 6)) = Some (DLocal (mkV3 (1+4) (2+5) (3+6))).
Proof. reflexivity. Qed.
(** C38: the sum of (global) angular velocities is the angular velocity of the
    composed motion. *)
Lemma C38_sum_is_composition_lemma : forall (p : prim) (a b : R -> M33) (t : R) (wa wb wb' w : V3),
  SO3 (a t) -> has_global_velocity a t wa -> has_global_velocity b t wb ->
  diff_convert p KDGlobal (RotMat (a t)) (DLocal wb) = Some (Val (DGlobal wb')) ->
  diff_add (DGlobal wa) (DGlobal wb') = Some (DGlobal w) ->
  has_global_velocity (fun s => mmul (a s) (b s)) t w.
Proof.
  intros p a b t wa wb wb' w S A B E1 E2. cbn [diff_convert rotate to_mat obind omap diff_add] in E1, E2.
  assert (wb' = mvmul (a t) wb) as -> by congruence. assert (w = vadd wa (mvmul (a t) wb)) as -> by congruence.
  unfold has_global_velocity in *. pose proof (Mderiv_mmul _ _ _ _ _ A B) as P. cbv beta in P.
  replace (mmul (mcross _) (mmul (a t) (b t))) with (madd (mmul (mmul (mcross wa) (a t)) (b t)) (mmul (a t) (mmul (mcross wb) (b t)))); [exact P|].
  rewrite (mmul_assoc (a t)), <- (mcross_rotate _ wb S). clear.
  generalize (mvmul (a t) wb). intros u. rewrite <- !mmul_assoc. generalize (mmul (a t) (b t)). lin.
Qed.
Lemma C38_sum_is_composition_ex : SO3 (Rot_z 1) /\ has_global_velocity Rot_z 1 ez.
Proof.
  split; [apply Rot_z_SO3|]. unfold has_global_velocity, Mderiv, Rot_z, ez, mcross, mmul.
  cbn [m00 m01 m02 m10 m11 m12 m20 m21 m22 vx vy vz]. repeat split; dl_solve; ring.
Qed.
(** C38: the mixed sum Local + Global compiles, adds raw coordinates, and is
    the frame-correct sum for all operands only for the identity rotation. *)
Lemma C38_mixed_sum_lemma : forall (p : prim) (r : rotation), valid r -> exact_operand p r ->
  (forall a b, exists s, diff_add (DLocal a) (DGlobal b) = Some (DLocal s) /\ diff_add (DLocal a) (DLocal b) = Some (DLocal s)) /\
  ((forall a b b', diff_convert p KDLocal r (DGlobal b) = Some (Val (DLocal b')) ->
      diff_add (DLocal a) (DGlobal b) = diff_add (DLocal a) (DLocal b')) <-> meaning r = mid).
Proof.
  intros p r V X. split; [intros a b; eexists; split; reflexivity|]. split.
  - intros H. assert (T : mtrans (meaning r) = mid).
    { apply mvmul_ext. intros v. rewrite mvmul_id.
      specialize (H vzero v (mvmul (mtrans (meaning r)) v)). cbn [diff_convert diff_add] in H.
      rewrite (inverseRotate_exact p r _ V X) in H. specialize (H eq_refl).
      assert (E : vadd vzero v = vadd vzero (mvmul (mtrans (meaning r)) v)) by congruence.
      assert (Z : forall u, vadd vzero u = u) by (clear; lin). rewrite !Z in E. symmetry; exact E. }
    rewrite <- (mtrans_mtrans (meaning r)), T. apply mtrans_mid.
  - intros M a b b' E. cbn [diff_convert] in E. rewrite (inverseRotate_exact p r _ V X), M, mtrans_mid, mvmul_id in E.
    cbn [omap] in E. assert (b' = b) as -> by congruence. reflexivity.
Qed.
Lemma C38_mixed_sum_ex : forall p, valid (RotZyx (mkZyx 1 2 3)) /\ exact_operand p (RotZyx (mkZyx 1 2 3)).
Proof. intros; split; exact I. Qed.

(** C53: a rotation times a quaternion derivative is the derivative of the
    product with that constant rotation, and the velocity seen from the
    moving side does not change. *)
Lemma C53_rotation_times_derivative_lemma : forall (p : prim) (r : rotation) (q0 : Quat) (c : R -> Quat) (t : R) (d : Quat),
  convert p KQuat r = Val (RotQuat q0) -> Qderiv c t d ->
  exists dl dr,
    rot_times_quatdiff p r d = Val dl /\ quatdiff_times_rot p d r = Val dr /\
    Qderiv (fun s => hamilton q0 (c s)) t dl /\ Qderiv (fun s => hamilton (c s) q0) t dr /\
    (qnorm q0 = 1 ->
      diff_convert p KDLocal (RotQuat (hamilton q0 (c t))) (DQuat dl) = diff_convert p KDLocal (RotQuat (c t)) (DQuat d) /\
      diff_convert p KDGlobal (RotQuat (hamilton (c t) q0)) (DQuat dr) = diff_convert p KDGlobal (RotQuat (c t)) (DQuat d)).
Proof.
  intros p r q0 c t d E (H0 & H1 & H2 & H3). cbn [convert] in E.
  destruct (to_quat p r) as [q| |] eqn:TQ; try discriminate. cbn [omap] in E. assert (q = q0) as -> by congruence.
  unfold rot_times_quatdiff, quatdiff_times_rot. rewrite TQ. cbn [obind].
  exists (e_mul q0 d), (e_mul d q0). split; [reflexivity|]. split; [reflexivity|].
  split; [|split].
  - unfold Qderiv, hamilton, e_mul, vadd, vscale, vcross, vdot, qvec. cbn [qw qx qy qz vx vy vz]. repeat split; dl_solve; ring.
  - unfold Qderiv, hamilton, e_mul, vadd, vscale, vcross, vdot, qvec. cbn [qw qx qy qz vx vy vz]. repeat split; dl_solve; ring.
  - intros U. apply qnorm_unit in U. cbn [diff_convert].
    assert (A : local_of_quatdiff (hamilton q0 (c t)) (e_mul q0 d) = vscale (qnorm2 q0) (local_of_quatdiff (c t) d)).
    { clear. generalize (c t). intros q. destruct q, q0, d. unfold e_mul, hamilton, local_of_quatdiff, m34_apply, getLocalQuaternionDiffMatrix, qscale, dot4. cbn [r340 r341 r342]. lin_unfold. f_equal; ring. }
    assert (B : global_of_quatdiff (hamilton (c t) q0) (e_mul d q0) = vscale (qnorm2 q0) (global_of_quatdiff (c t) d)).
    { clear. generalize (c t). intros q. destruct q, q0, d. unfold e_mul, hamilton, global_of_quatdiff, m34_apply, getGlobalQuaternionDiffMatrix, qscale, dot4. cbn [r340 r341 r342]. lin_unfold. f_equal; ring. }
    rewrite A, B, U.
    assert (S1 : forall v, vscale 1 v = v) by (clear; lin). rewrite !S1. split; reflexivity.
Qed.
Lemma C53_rotation_times_derivative_ex : forall p,
  convert p KQuat (RotAA (mkAA 0 ex)) = Val (RotQuat (e_quat_of_aa (mkAA 0 ex))) /\
  qnorm (e_quat_of_aa (mkAA 0 ex)) = 1 /\ Qderiv (fun s => mkQ (cos s) (sin s) 0 0) 1 (mkQ (- sin 1) (cos 1) 0 0).
Proof.
  intros p. split; [reflexivity|]. split.
  - apply qnorm_unit. unfold e_quat_of_aa, qnorm2; cbn. replace (1/2*0) with 0 by ring. rewrite sin_0, cos_0. ring.
  - unfold Qderiv; cbn. repeat split; dl_solve; ring.
Qed.
