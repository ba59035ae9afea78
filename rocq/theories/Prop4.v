(** Generated by tools/genprops.py from Claims4.v: the property theorems only. *)
From Coq Require Import Reals Lra Psatz Bool.
From Verif Require Import Linalg Spec SpecFacts SpecDiff ModelCommon ModelEigen ModelRotation ModelDiff CommonFacts ConvFacts RVFacts Windows RotFacts MetricFacts DerivFacts DiffFacts DiffFacts2 JacFacts.
Local Open Scope R_scope.
From Verif Require Import Claims4.

(** C30: the two angular velocity classes are related by the rotation, and the
    two conversions undo each other. *)
Theorem C30_local_global_velocity : forall (p : prim) (r : rotation) (w : V3),
  valid r -> exact_operand p r ->
  let to_global v := diff_convert p KDGlobal r (DLocal v) in
  let to_local v := diff_convert p KDLocal r (DGlobal v) in
  exists g l,
    to_global w = Some (Val (DGlobal g)) /\ g = mvmul (meaning r) w /\
    to_local g = Some (Val (DLocal w)) /\
    to_local w = Some (Val (DLocal l)) /\ l = mvmul (mtrans (meaning r)) w /\
    to_global l = Some (Val (DGlobal w)).
Proof. exact C30_local_global_velocity_lemma. Qed.
Print Assumptions C30_local_global_velocity.

Example C30_local_global_velocity_ex : forall p,
  valid (RotXyz (mkXyz 1 2 3)) /\ exact_operand p (RotXyz (mkXyz 1 2 3)).
Proof. exact Claims4.C30_local_global_velocity_ex. Qed.

(** C30: the two velocities describe the same motion of a rotating frame. *)
Theorem C30_same_motion : forall (p : prim) (c : R -> M33) (t : R) (wl wg : V3),
  SO3 (c t) ->
  diff_convert p KDGlobal (RotMat (c t)) (DLocal wl) = Some (Val (DGlobal wg)) ->
  (has_local_velocity c t wl <-> has_global_velocity c t wg).
Proof. exact C30_same_motion_lemma. Qed.
Print Assumptions C30_same_motion.

Example C30_same_motion_ex : forall p, SO3 (Rot_z 1) /\
  diff_convert p KDGlobal (RotMat (Rot_z 1)) (DLocal ez) = Some (Val (DGlobal (mvmul (Rot_z 1) ez))) /\
  has_local_velocity Rot_z 1 ez.
Proof. exact Claims4.C30_same_motion_ex. Qed.

(** C31: along every differentiable curve of unit quaternions the extracted
    velocities are the angular velocities of the rotating frame, and converting
    them back returns the derivative. *)
Theorem C31_quaternion_curve : forall (p : prim) (c : R -> Quat) (t : R) (d : Quat),
  (forall s, qnorm (c s) = 1) -> Qderiv c t d ->
  let r := RotQuat (c t) in
  exists wl wg,
    diff_convert p KDLocal r (DQuat d) = Some (Val (DLocal wl)) /\
    diff_convert p KDGlobal r (DQuat d) = Some (Val (DGlobal wg)) /\
    has_local_velocity (fun s => meaning (RotQuat (c s))) t wl /\
    has_global_velocity (fun s => meaning (RotQuat (c s))) t wg /\
    diff_convert p KDQuat r (DLocal wl) = Some (Val (DQuat d)) /\
    diff_convert p KDQuat r (DGlobal wg) = Some (Val (DQuat d)).
Proof. exact C31_quaternion_curve_lemma. Qed.
Print Assumptions C31_quaternion_curve.

Example C31_quaternion_curve_ex :
  let c := fun s => mkQ (cos s) (sin s) 0 0 in
  (forall s, qnorm (c s) = 1) /\ Qderiv c 1 (mkQ (- sin 1) (cos 1) 0 0).
Proof. exact Claims4.C31_quaternion_curve_ex. Qed.

(** C31: velocity -> derivative -> velocity is the identity, and the
    derivative is tangent to the unit sphere. *)
Theorem C31_quaternion_roundtrip : forall (p : prim) (q : Quat) (w : V3), qnorm q = 1 ->
  (exists d, diff_convert p KDQuat (RotQuat q) (DLocal w) = Some (Val (DQuat d)) /\
     qw q * qw d + qx q * qx d + qy q * qy d + qz q * qz d = 0 /\
     diff_convert p KDLocal (RotQuat q) (DQuat d) = Some (Val (DLocal w))) /\
  (exists d, diff_convert p KDQuat (RotQuat q) (DGlobal w) = Some (Val (DQuat d)) /\
     qw q * qw d + qx q * qx d + qy q * qy d + qz q * qz d = 0 /\
     diff_convert p KDGlobal (RotQuat q) (DQuat d) = Some (Val (DGlobal w))).
Proof. exact C31_quaternion_roundtrip_lemma. Qed.
Print Assumptions C31_quaternion_roundtrip.

(** C31: the derivative computed from the angular velocity of a moving frame
    is the derivative of its quaternion. *)
Theorem C31_quaternion_derivative : forall (p : prim) (c : R -> Quat) (t : R) (d : Quat) (w : V3),
  (forall s, qnorm (c s) = 1) -> Qderiv c t d ->
  (has_local_velocity (fun s => quat_rot (c s)) t w ->
     diff_convert p KDQuat (RotQuat (c t)) (DLocal w) = Some (Val (DQuat d))) /\
  (has_global_velocity (fun s => quat_rot (c s)) t w ->
     diff_convert p KDQuat (RotQuat (c t)) (DGlobal w) = Some (Val (DQuat d))).
Proof. exact C31_quaternion_derivative_lemma. Qed.
Print Assumptions C31_quaternion_derivative.

(** C32 *)
Theorem C32_matrix_curve : forall (p : prim) (c : R -> M33) (t : R) (d : M33),
  (forall s, SO3 (c s)) -> Mderiv c t d ->
  let r := RotMat (c t) in
  exists wl wg,
    diff_convert p KDLocal r (DMat d) = Some (Val (DLocal wl)) /\
    diff_convert p KDGlobal r (DMat d) = Some (Val (DGlobal wg)) /\
    has_local_velocity c t wl /\ has_global_velocity c t wg /\
    diff_convert p KDMat r (DLocal wl) = Some (Val (DMat d)) /\
    diff_convert p KDMat r (DGlobal wg) = Some (Val (DMat d)).
Proof. exact C32_matrix_curve_lemma. Qed.
Print Assumptions C32_matrix_curve.

Example C32_matrix_curve_ex : (forall s, SO3 (Rot_z s)) /\ 
  Mderiv Rot_z 1 (mkM33 (- sin 1) (- cos 1) 0 (cos 1) (- sin 1) 0 0 0 0).
Proof. exact Claims4.C32_matrix_curve_ex. Qed.

(** C32: R [w]x and [w]x R, and back. *)
Theorem C32_matrix_roundtrip : forall (p : prim) (m : M33) (w : V3), SO3 m ->
  diff_convert p KDMat (RotMat m) (DLocal w) = Some (Val (DMat (mmul m (mcross w)))) /\
  diff_convert p KDLocal (RotMat m) (DMat (mmul m (mcross w))) = Some (Val (DLocal w)) /\
  diff_convert p KDMat (RotMat m) (DGlobal w) = Some (Val (DMat (mmul (mcross w) m))) /\
  diff_convert p KDGlobal (RotMat m) (DMat (mmul (mcross w) m)) = Some (Val (DGlobal w)).
Proof. exact C32_matrix_roundtrip_lemma. Qed.
Print Assumptions C32_matrix_roundtrip.

(** C33 *)
Theorem C33_zyx_rates : forall (p : prim) (c : R -> Zyx) (t : R) (d : V3),
  Zyxderiv c t d ->
  exists w, diff_convert p KDLocal (RotZyx (c t)) (DZyx d) = Some (Val (DLocal w)) /\
    has_local_velocity (fun s => meaning (RotZyx (c s))) t w /\
    (cos (zpitch (c t)) <> 0 ->
     diff_convert p KDZyx (RotZyx (c t)) (DLocal w) = Some (Val (DZyx d))).
Proof. exact C33_zyx_rates_lemma. Qed.
Print Assumptions C33_zyx_rates.

Example C33_zyx_rates_ex : Zyxderiv (fun s => mkZyx (s * s) s (2 * s)) 1 (mkV3 2 1 2) /\ cos (zpitch (mkZyx 1 1 2)) <> 0.
Proof. exact Claims4.C33_zyx_rates_ex. Qed.

(** C33: angular velocity -> rates -> angular velocity, when it does not throw *)
Theorem C33_zyx_inverse : forall (p : prim) (e : Zyx) (w : V3) (d : diff),
  diff_convert p KDZyx (RotZyx e) (DLocal w) = Some (Val d) ->
  diff_convert p KDLocal (RotZyx e) d = Some (Val (DLocal w)).
Proof. exact C33_zyx_inverse_lemma. Qed.
Print Assumptions C33_zyx_inverse.

Example C33_zyx_inverse_ex : forall p, exists d, diff_convert p KDZyx (RotZyx (mkZyx 0 0 0)) (DLocal (mkV3 1 2 3)) = Some (Val d).
Proof. exact Claims4.C33_zyx_inverse_ex. Qed.

(** C34: first-order mappings of EulerAnglesXyz along every curve *)
Theorem C34_xyz_rates : forall (p : prim) (c : R -> Xyz) (t : R) (d : V3),
  Xyzderiv c t d ->
  exists wl wg,
    diff_convert p KDLocal (RotXyz (c t)) (DXyz d) = Some (Val (DLocal wl)) /\
    diff_convert p KDGlobal (RotXyz (c t)) (DXyz d) = Some (Val (DGlobal wg)) /\
    has_local_velocity (fun s => meaning (RotXyz (c s))) t wl /\
    has_global_velocity (fun s => meaning (RotXyz (c s))) t wg /\
    (cos (xpitch (c t)) <> 0 ->
     diff_convert p KDXyz (RotXyz (c t)) (DLocal wl) = Some (Val (DXyz d)) /\
     exists m, xyz_global_to_diff (c t) = Val m /\ mvmul m wg = d).
Proof. exact C34_xyz_rates_lemma. Qed.
Print Assumptions C34_xyz_rates.

Example C34_xyz_rates_ex : Xyzderiv (fun s => mkXyz (s * s) s (2 * s)) 1 (mkV3 2 1 2) /\ cos (xpitch (mkXyz 1 1 2)) <> 0.
Proof. exact Claims4.C34_xyz_rates_ex. Qed.

(** C34: the mappings are pairwise inverse matrices whenever they do not throw *)
Theorem C34_xyz_inverse : forall e : Xyz,
  (forall m, xyz_local_to_diff e = Val m ->
     mmul m (xyz_diff_to_local e) = mid /\ mmul (xyz_diff_to_local e) m = mid) /\
  (forall m, xyz_global_to_diff e = Val m ->
     mmul m (xyz_diff_to_global e) = mid /\ mmul (xyz_diff_to_global e) m = mid).
Proof. exact C34_xyz_inverse_lemma. Qed.
Print Assumptions C34_xyz_inverse.

Example C34_xyz_inverse_ex : exists m1 m2, xyz_local_to_diff (mkXyz 1 0 2) = Val m1 /\ xyz_global_to_diff (mkXyz 1 0 2) = Val m2.
Proof. exact Claims4.C34_xyz_inverse_ex. Qed.

(** C35: the rate mappings throw exactly at gimbal lock (and never return
    NaN) ... *)
Theorem C35_gimbal_lock_reported :
  (forall e, zyx_local_to_diff e = Throws <-> cos (zpitch e) = 0) /\
  (forall e, xyz_local_to_diff e = Throws <-> cos (xpitch e) = 0) /\
  (forall e, xyz_global_to_diff e = Throws <-> cos (xpitch e) = 0) /\
  (forall d e, xyz_local_to_second d e = Throws <-> cos (xpitch e) = 0) /\
  (forall d e, xyz_global_to_second d e = Throws <-> cos (xpitch e) = 0) /\
  (forall e, zyx_local_to_diff e <> NaN) /\
  (forall e, xyz_local_to_diff e <> NaN) /\ (forall e, xyz_global_to_diff e <> NaN).
Proof. exact C35_gimbal_lock_reported_lemma. Qed.
Print Assumptions C35_gimbal_lock_reported.

Example C35_gimbal_lock_reported_ex : zyx_local_to_diff (mkZyx 1 (PI/2) 2) = Throws.
Proof. exact Claims4.C35_gimbal_lock_reported_ex. Qed.

(** ... and rightly so: at gimbal lock some angular velocity is not produced
    by any rates. *)
Theorem C35_gimbal_lock_real : forall p : prim,
  (forall e, cos (zpitch e) = 0 -> exists w, forall d, diff_convert p KDLocal (RotZyx e) (DZyx d) <> Some (Val (DLocal w))) /\
  (forall e, cos (xpitch e) = 0 -> exists w, forall d, diff_convert p KDLocal (RotXyz e) (DXyz d) <> Some (Val (DLocal w))) /\
  (forall e, cos (xpitch e) = 0 -> exists w, forall d, diff_convert p KDGlobal (RotXyz e) (DXyz d) <> Some (Val (DGlobal w))).
Proof. exact C35_gimbal_lock_real_lemma. Qed.
Print Assumptions C35_gimbal_lock_real.

Example C35_gimbal_lock_real_ex : cos (zpitch (mkZyx 0 (PI/2) 0)) = 0 /\ cos (xpitch (mkXyz 1 (- (PI/2)) 0)) = 0.
Proof. exact Claims4.C35_gimbal_lock_real_ex. Qed.

(** C36 *)
Theorem C36_second_order_forward : forall (c : R -> Xyz) (t : R) (d : V3), Xyzderiv c t d ->
  Mderiv (fun s => xyz_diff_to_local (c s)) t (xyz_second_to_local d (c t)) /\
  Mderiv (fun s => xyz_diff_to_global (c s)) t (xyz_second_to_global d (c t)).
Proof. exact C36_second_order_forward_lemma. Qed.
Print Assumptions C36_second_order_forward.

(** C36, inverse mappings: [first] is the first-order mapping near [t]. *)
Theorem C36_second_order_inverse : forall (c : R -> Xyz) (t : R) (d : V3) (first : R -> M33) (eps : R),
  Xyzderiv c t d -> 0 < eps ->
  ((forall s, Rabs (s - t) < eps -> xyz_local_to_diff (c s) = Val (first s)) ->
     exists m, xyz_local_to_second d (c t) = Val m /\ Mderiv first t m) /\
  ((forall s, Rabs (s - t) < eps -> xyz_global_to_diff (c s) = Val (first s)) ->
     exists m, xyz_global_to_second d (c t) = Val m /\ Mderiv first t m).
Proof. exact C36_second_order_inverse_lemma. Qed.
Print Assumptions C36_second_order_inverse.

Example C36_second_order_inverse_ex : exists first,
  Xyzderiv (fun s => mkXyz (2 * s) s 0) 0 (mkV3 2 1 0) /\
  (forall s, Rabs (s - 0) < 1 -> xyz_local_to_diff (mkXyz (2 * s) s 0) = Val (first s)).
Proof. exact Claims4.C36_second_order_inverse_ex. Qed.

(** C36: so the angular acceleration obtained with the two forward mappings,
    A(e) e'' + A'(e,e') e', is the derivative of the angular velocity. *)
Theorem C36_acceleration : forall (c : R -> Xyz) (rates : R -> V3) (t : R) (acc : V3),
  (forall s, Xyzderiv c s (rates s)) -> Vderiv rates t acc ->
  Vderiv (fun s => mvmul (xyz_diff_to_local (c s)) (rates s)) t
    (vadd (mvmul (xyz_diff_to_local (c t)) acc) (mvmul (xyz_second_to_local (rates t) (c t)) (rates t))) /\
  Vderiv (fun s => mvmul (xyz_diff_to_global (c s)) (rates s)) t
    (vadd (mvmul (xyz_diff_to_global (c t)) acc) (mvmul (xyz_second_to_global (rates t) (c t)) (rates t))).
Proof. exact C36_acceleration_lemma. Qed.
Print Assumptions C36_acceleration.

Example C36_acceleration_ex : let c := fun s => mkXyz (s * s) s 0 in let r := fun s => mkV3 (2 * s) 1 0 in
  (forall s, Xyzderiv c s (r s)) /\ Vderiv r 3 (mkV3 2 0 0).
Proof. exact Claims4.C36_acceleration_ex. Qed.

(** C37: outside the small-norm branch (and at zero) the Jacobian is exact. *)
Theorem C37_jacobian_exact : forall (v : R -> V3) (t : R) (d : V3), Vderiv v t d ->
  v t = vzero \/ / 10 ^ 4 <= vnorm (v t) ->
  has_global_velocity (fun s => meaning (RotVec (v s))) t (mvmul (getJacobianOfExponentialMap (v t)) d).
Proof. exact C37_jacobian_exact_lemma. Qed.
Print Assumptions C37_jacobian_exact.

Example C37_jacobian_exact_ex : Vderiv (fun s => mkV3 s 1 (s * s)) 1 (mkV3 1 0 2) /\ / 10 ^ 4 <= vnorm (mkV3 1 1 (1 * 1)).
Proof. exact Claims4.C37_jacobian_exact_ex. Qed.

(** C37: everywhere, small-norm branch included, it is within 2e-9 (relative
    to the rate) of the true one. *)
Theorem C37_jacobian_error : forall (v : R -> V3) (t : R) (d : V3), Vderiv v t d ->
  exists w, has_global_velocity (fun s => meaning (RotVec (v s))) t w /\
    vnorm (vsub (mvmul (getJacobianOfExponentialMap (v t)) d) w) <= / 10 ^ 8 / 5 * vnorm d.
Proof. exact C37_jacobian_error_lemma. Qed.
Print Assumptions C37_jacobian_error.

(** C38: vector space laws, for both classes. *)
Theorem C38_velocity_vector_space : forall k : V3 -> diff, k = DLocal \/ k = DGlobal ->
  forall a b c (f g : R),
  let add x y := diff_add (k x) (k y) in
  let sub x y := diff_sub (k x) (k y) in
  (exists s, add a b = Some (k s) /\ add b a = Some (k s) /\ sub s b = Some (k a) /\
             vx s = vx a + vx b /\ vy s = vy a + vy b /\ vz s = vz a + vz b) /\
  (exists ab bc s, add a b = Some (k ab) /\ add b c = Some (k bc) /\ add ab c = Some (k s) /\ add a bc = Some (k s)) /\
  add a vzero = Some (k a) /\ sub a a = Some (k vzero) /\
  add (local_scale a f) (local_scale a g) = Some (k (local_scale a (f + g))) /\
  (exists s, add a b = Some (k s) /\ add (local_scale a f) (local_scale b f) = Some (k (local_scale s f))) /\
  local_scale (local_scale a f) g = local_scale a (f * g) /\ local_scale a 1 = a.
Proof. exact C38_velocity_vector_space_lemma. Qed.
Print Assumptions C38_velocity_vector_space.

Example C38_velocity_vector_space_ex : diff_add (DLocal (mkV3 1 2 3)) (DLocal (mkV3 4 5 6)) = Some (DLocal (mkV3 (1+4) (2+5) (3+6))).
Proof. exact Claims4.C38_velocity_vector_space_ex. Qed.

(** C38: the sum of (global) angular velocities is the angular velocity of the
    composed motion. *)
Theorem C38_sum_is_composition : forall (p : prim) (a b : R -> M33) (t : R) (wa wb wb' w : V3),
  SO3 (a t) -> has_global_velocity a t wa -> has_global_velocity b t wb ->
  diff_convert p KDGlobal (RotMat (a t)) (DLocal wb) = Some (Val (DGlobal wb')) ->
  diff_add (DGlobal wa) (DGlobal wb') = Some (DGlobal w) ->
  has_global_velocity (fun s => mmul (a s) (b s)) t w.
Proof. exact C38_sum_is_composition_lemma. Qed.
Print Assumptions C38_sum_is_composition.

Example C38_sum_is_composition_ex : SO3 (Rot_z 1) /\ has_global_velocity Rot_z 1 ez.
Proof. exact Claims4.C38_sum_is_composition_ex. Qed.

(** C38: the mixed sum Local + Global compiles, adds raw coordinates, and is
    the frame-correct sum for all operands only for the identity rotation. *)
Theorem C38_mixed_sum : forall (p : prim) (r : rotation), valid r -> exact_operand p r ->
  (forall a b, exists s, diff_add (DLocal a) (DGlobal b) = Some (DLocal s) /\ diff_add (DLocal a) (DLocal b) = Some (DLocal s)) /\
  ((forall a b b', diff_convert p KDLocal r (DGlobal b) = Some (Val (DLocal b')) ->
      diff_add (DLocal a) (DGlobal b) = diff_add (DLocal a) (DLocal b')) <-> meaning r = mid).
Proof. exact C38_mixed_sum_lemma. Qed.
Print Assumptions C38_mixed_sum.

Example C38_mixed_sum_ex : forall p, valid (RotZyx (mkZyx 1 2 3)) /\ exact_operand p (RotZyx (mkZyx 1 2 3)).
Proof. exact Claims4.C38_mixed_sum_ex. Qed.

(** C53: a rotation times a quaternion derivative is the derivative of the
    product with that constant rotation, and the velocity seen from the
    moving side does not change. *)
Theorem C53_rotation_times_derivative : forall (p : prim) (r : rotation) (q0 : Quat) (c : R -> Quat) (t : R) (d : Quat),
  convert p KQuat r = Val (RotQuat q0) -> Qderiv c t d ->
  exists dl dr,
    rot_times_quatdiff p r d = Val dl /\ quatdiff_times_rot p d r = Val dr /\
    Qderiv (fun s => hamilton q0 (c s)) t dl /\ Qderiv (fun s => hamilton (c s) q0) t dr /\
    (qnorm q0 = 1 ->
      diff_convert p KDLocal (RotQuat (hamilton q0 (c t))) (DQuat dl) = diff_convert p KDLocal (RotQuat (c t)) (DQuat d) /\
      diff_convert p KDGlobal (RotQuat (hamilton (c t) q0)) (DQuat dr) = diff_convert p KDGlobal (RotQuat (c t)) (DQuat d)).
Proof. exact C53_rotation_times_derivative_lemma. Qed.
Print Assumptions C53_rotation_times_derivative.

Example C53_rotation_times_derivative_ex : forall p,
  convert p KQuat (RotAA (mkAA 0 ex)) = Val (RotQuat (e_quat_of_aa (mkAA 0 ex))) /\
  qnorm (e_quat_of_aa (mkAA 0 ex)) = 1 /\ Qderiv (fun s => mkQ (cos s) (sin s) 0 0) 1 (mkQ (- sin 1) (cos 1) 0 0).
Proof. exact Claims4.C53_rotation_times_derivative_ex. Qed.
