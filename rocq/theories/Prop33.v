(** Generated by tools/genprops.py from Claims33.v: the property theorems only. *)
From Coq Require Import ZArith Reals Lra Psatz Bool List Lia Permutation.
From Flocq Require Import IEEE754.BinarySingleNaN Core.Core.
From Verif Require Import Linalg Spec SpecFacts SpecClose SpecDiff ModelDiff DerivFacts DiffFacts DiffFacts2 ModelCommon ModelEigen CommonFacts CloseFacts
  FloatModel FloatFacts FloatWrap FloatModel2 SpecFloatQ FloatQFacts FloatQProd FloatQHist FloatQRot FloatMHist FloatCast FloatModel3 SpecLibm SpecBuild FloatBuild FloatBuild4 FloatModel4 FloatModel5 FloatPose FloatModel6 FloatMat Claims16 FloatModel12 FloatDiff2 FloatDiff3 FloatJac FloatJac2 FloatModel15 SpecSecond FloatSecond FloatSecond2 Claims4 Claims28 Claims30 FloatExt3.
Import ListNotations.
Local Open Scope R_scope.
From Verif Require Import Claims33.

(** C86: getMappingFromSecondDiffToLocalAngularVelocity and ...ToGlobalAngularVelocity.
    A is the matrix that takes rates of the angles to the angular velocity; the angles
    and the rates of a motion are exactly those of the objects. Then the computed
    matrix is the time derivative of A along the motion, up to 44 roundings of the
    length of the rates. *)
Theorem C86_forward : forall (p : prim) (L : libm) (o : second_choices) (x y z : fl p) (d : FV p) (A : Xyz -> M33) (c : R -> Xyz) (t : R),
  libm_ok L -> second_ok o -> is_finite x = true -> is_finite y = true -> is_finite z = true -> vfinite d -> vnorm (vval d) <= 1000 ->
  c t = mkXyz (B2R x) (B2R y) (B2R z) -> Xyzderiv c t (vval d) ->
  (gives_local A -> exists m, Mderiv (fun s => A (c s)) t m /\
    mfinite (fxyz_second_to_local L o x y z d) /\ close (44 * roundoff p * (vnorm (vval d) + / 2 ^ 100)) (mval (fxyz_second_to_local L o x y z d)) m) /\
  (gives_global A -> exists m, Mderiv (fun s => A (c s)) t m /\
    mfinite (fxyz_second_to_global L o x y z d) /\ close (44 * roundoff p * (vnorm (vval d) + / 2 ^ 100)) (mval (fxyz_second_to_global L o x y z d)) m).
Proof. exact C86_forward_lemma. Qed.
Print Assumptions C86_forward.

Example C86_forward_ex : libm_ok exact_libm /\ second_ok std_second /\ vfinite fvec212 /\ vnorm (vval fvec212) <= 1000 /\
  path_xyz 1 = mkXyz (B2R (fofZ F32 1)) (B2R (fofZ F32 1)) (B2R (fofZ F32 2)) /\ Xyzderiv path_xyz 1 (vval fvec212) /\ (exists A, gives_local A) /\ (exists A, gives_global A).
Proof. exact Claims33.C86_forward_ex. Qed.

(** C86: getMappingFromLocalAngularVelocityToSecondDiff and the global one, away from
    gimbal lock: B is the inverse of A; there is no exception, and the computed matrix
    is the time derivative of B along the motion up to 111 roundings of the length of
    the rates, divided by the cube of the cosine of the pitch. *)
Theorem C86_inverse : forall (p : prim) (L : libm) (o : second_choices) (x y z : fl p) (d : FV p) (A B : Xyz -> M33) (c : R -> Xyz) (t : R),
  libm_ok L -> second_ok o -> is_finite x = true -> is_finite y = true -> is_finite z = true -> vfinite d -> vnorm (vval d) <= 1000 ->
  c t = mkXyz (B2R x) (B2R y) (B2R z) -> Xyzderiv c t (vval d) -> 1000 * roundoff p <= Rabs (cos (B2R y)) -> inverts B A ->
  let err := 111 * roundoff p * (vnorm (vval d) + / 2 ^ 100) / Rabs (cos (B2R y)) ^ 3 in
  (gives_local A -> exists f m, fxyz_local_to_second L o x y z d = Some f /\ Mderiv (fun s => B (c s)) t m /\ mfinite f /\ close err (mval f) m) /\
  (gives_global A -> exists f m, fxyz_global_to_second L o x y z d = Some f /\ Mderiv (fun s => B (c s)) t m /\ mfinite f /\ close err (mval f) m).
Proof. exact C86_inverse_lemma. Qed.
Print Assumptions C86_inverse.

Example C86_inverse_ex : vnorm (vval fvec212) <= 1000 /\ path_xyz 1 = mkXyz (B2R (fofZ F32 1)) (B2R (fofZ F32 1)) (B2R (fofZ F32 2)) /\ Xyzderiv path_xyz 1 (vval fvec212) /\
  1000 * roundoff F32 <= Rabs (cos (B2R (fofZ F32 1))) /\ (exists A B, gives_local A /\ inverts B A) /\ (exists A B, gives_global A /\ inverts B A).
Proof. exact Claims33.C86_inverse_ex. Qed.

(** C86: the exception is thrown exactly when the math library returns zero for the
    cosine of the pitch; then the true cosine is at most 2 roundings. *)
Theorem C86_gimbal : forall (p : prim) (L : libm) (o : second_choices) (x y z : fl p) (d : FV p), libm_ok L -> is_finite y = true ->
  ((fxyz_local_to_second L o x y z d = None <-> B2R (lcos L p y) = 0) /\ (fxyz_global_to_second L o x y z d = None <-> B2R (lcos L p y) = 0)) /\
  (B2R (lcos L p y) = 0 -> Rabs (cos (B2R y)) <= 2 * roundoff p).
Proof. exact C86_gimbal_lemma. Qed.
Print Assumptions C86_gimbal.

Example C86_gimbal_ex : libm_ok zero_libm /\ fxyz_local_to_second zero_libm std_second (fofZ F32 1) half_pi (fofZ F32 2) fvec212 = None /\
  libm_ok exact_libm /\ fxyz_global_to_second exact_libm std_second (fofZ F32 1) (fofZ F32 1) (fofZ F32 2) fvec212 <> None.
Proof. exact Claims33.C86_gimbal_ex. Qed.

Theorem C86_acceleration : forall (p : prim) (L : libm) (o : second_choices) (x y z : fl p) (d : FV p) (A : Xyz -> M33) (c : R -> Xyz) (r w : R -> V3) (t : R) (acc alpha : V3),
  libm_ok L -> second_ok o -> is_finite x = true -> is_finite y = true -> is_finite z = true -> vfinite d -> vnorm (vval d) <= 1000 ->
  c t = mkXyz (B2R x) (B2R y) (B2R z) -> (forall s, Xyzderiv c s (r s)) -> r t = vval d -> Vderiv r t acc -> Vderiv w t alpha ->
  let err := 44 * roundoff p * (vnorm (vval d) + / 2 ^ 100) * vnorm (vval d) in
  (gives_local A -> (forall s, has_local_velocity (fun s => xyz_rot (c s)) s (w s)) ->
    vdist (vadd (mvmul (A (c t)) acc) (mvmul (mval (fxyz_second_to_local L o x y z d)) (vval d))) alpha <= err) /\
  (gives_global A -> (forall s, has_global_velocity (fun s => xyz_rot (c s)) s (w s)) ->
    vdist (vadd (mvmul (A (c t)) acc) (mvmul (mval (fxyz_second_to_global L o x y z d)) (vval d))) alpha <= err).
Proof. exact C86_acceleration_lemma. Qed.
Print Assumptions C86_acceleration.

Example C86_acceleration_ex : path_xyz 1 = mkXyz (B2R (fofZ F32 1)) (B2R (fofZ F32 1)) (B2R (fofZ F32 2)) /\ (forall s, Xyzderiv path_xyz s (path_rates s)) /\ path_rates 1 = vval fvec212 /\ Vderiv path_rates 1 (mkV3 2 0 0) /\
  (exists w a, Vderiv w 1 a /\ forall s, has_local_velocity (fun s => xyz_rot (path_xyz s)) s (w s)) /\ (exists w a, Vderiv w 1 a /\ forall s, has_global_velocity (fun s => xyz_rot (path_xyz s)) s (w s)).
Proof. exact Claims33.C86_acceleration_ex. Qed.

(** C86: ... and the second derivative of the angles is B times the angular
    acceleration plus the computed matrix times the angular velocity. *)
Theorem C86_second_derivative : forall (p : prim) (L : libm) (o : second_choices) (x y z : fl p) (d : FV p) (A B : Xyz -> M33) (c : R -> Xyz) (r w : R -> V3) (t : R) (acc alpha : V3),
  libm_ok L -> second_ok o -> is_finite x = true -> is_finite y = true -> is_finite z = true -> vfinite d -> vnorm (vval d) <= 1000 ->
  c t = mkXyz (B2R x) (B2R y) (B2R z) -> (forall s, Xyzderiv c s (r s)) -> r t = vval d -> Vderiv r t acc -> Vderiv w t alpha ->
  1000 * roundoff p <= Rabs (cos (B2R y)) -> inverts B A ->
  let err := 111 * roundoff p * (vnorm (vval d) + / 2 ^ 100) / Rabs (cos (B2R y)) ^ 3 * vnorm (w t) in
  (gives_local A -> (forall s, has_local_velocity (fun s => xyz_rot (c s)) s (w s)) ->
    exists f, fxyz_local_to_second L o x y z d = Some f /\ vdist (vadd (mvmul (B (c t)) alpha) (mvmul (mval f) (w t))) acc <= err) /\
  (gives_global A -> (forall s, has_global_velocity (fun s => xyz_rot (c s)) s (w s)) ->
    exists f, fxyz_global_to_second L o x y z d = Some f /\ vdist (vadd (mvmul (B (c t)) alpha) (mvmul (mval f) (w t))) acc <= err).
Proof. exact C86_second_derivative_lemma. Qed.
Print Assumptions C86_second_derivative.

Example C86_second_derivative_ex : 1000 * roundoff F32 <= Rabs (cos (B2R (fofZ F32 1))) /\ (forall s, Xyzderiv path_xyz s (path_rates s)) /\ path_rates 1 = vval fvec212 /\
  (exists A B w a, gives_local A /\ inverts B A /\ Vderiv w 1 a /\ forall s, has_local_velocity (fun s => xyz_rot (path_xyz s)) s (w s)) /\
  (exists A B w a, gives_global A /\ inverts B A /\ Vderiv w 1 a /\ forall s, has_global_velocity (fun s => xyz_rot (path_xyz s)) s (w s)).
Proof. exact Claims33.C86_second_derivative_ex. Qed.
