(** Generated by tools/genprops.py from Claims30.v: the property theorems only. *)
From Coq Require Import ZArith Reals Lra Psatz Bool List Lia Permutation.
From Flocq Require Import IEEE754.BinarySingleNaN Core.Core.
From Verif Require Import Linalg Spec SpecFacts SpecClose SpecDiff ModelDiff DerivFacts DiffFacts DiffFacts2 ModelCommon ModelEigen CommonFacts CloseFacts
  FloatModel FloatFacts FloatWrap FloatModel2 SpecFloatQ FloatQFacts FloatQProd FloatQHist FloatQRot FloatMHist FloatCast FloatModel3 SpecLibm SpecBuild FloatBuild FloatBuild2 FloatBuild3 FloatBuild4 FloatModel4 FloatModel5 FloatExt FloatExt2 FloatExt3 FloatPose FloatModel6 FloatMat FloatModel7 SpecSix FloatSix Claims16 Claims18 Claims19 Claims22 FloatModel12 FloatDiff FloatDiff2 FloatDiff3.
Import ListNotations.
Local Open Scope R_scope.
From Verif Require Import Claims30.

(** C82: RotationQuaternionDiff from an angular velocity, local or global. Let a
    rotation move along a curve of unit quaternions with the angular velocity w, and
    let the quaternion object be within A roundings of the quaternion of the curve.
    Then the computed rate is the derivative of the curve, up to 4.1 + A/2 roundings
    times the length of w, plus the underflow error. *)
Theorem C82_quaternion_rate : forall (p : prim) (o : orders4) (q : FQ p) (w : FV p) (c : R -> Quat) (t : R) (d : Quat) (A : R),
  orders4_three o -> qfinite q -> vfinite w -> vnorm (vval w) <= 2 ^ 99 ->
  (forall s, qnorm (c s) = 1) -> Qderiv c t d -> qdist (qval q) (c t) <= A * roundoff p -> A * roundoff p <= / 100 ->
  (has_local_velocity (fun s => quat_rot (c s)) t (vval w) ->
    qfinite (fquatdiff_of_local o q w) /\ qdist (qval (fquatdiff_of_local o q w)) d <= (41/10 + A / 2) * roundoff p * vnorm (vval w) + underflow p) /\
  (has_global_velocity (fun s => quat_rot (c s)) t (vval w) ->
    qfinite (fquatdiff_of_global o q w) /\ qdist (qval (fquatdiff_of_global o q w)) d <= (41/10 + A / 2) * roundoff p * vnorm (vval w) + underflow p).
Proof. exact C82_quaternion_rate_lemma. Qed.
Print Assumptions C82_quaternion_rate.

Example C82_quaternion_rate_ex : orders4_three std43 /\ qfinite q345 /\ vfinite (funit_x F32) /\ vnorm (vval (funit_x F32)) <= 2 ^ 99 /\
  (forall s, qnorm (spin s) = 1) /\ Qderiv spin 0 (mkQ (-2/5) (3/10) 0 0) /\ qdist (qval q345) (spin 0) <= 6 * roundoff F32 /\ 6 * roundoff F32 <= / 100 /\
  has_local_velocity (fun s => quat_rot (spin s)) 0 (vval (funit_x F32)) /\ has_global_velocity (fun s => quat_rot (spin s)) 0 (vval (funit_x F32)).
Proof. exact Claims30.C82_quaternion_rate_ex. Qed.

(** C82: LocalAngularVelocity and GlobalAngularVelocity from a quaternion and its rate.
    If a rotation moves along a curve of unit quaternions with derivative d and angular
    velocity w, the quaternion object is within A roundings of the curve and the rate
    object within B of d, then the computed angular velocity is w up to 8 + A roundings
    times its length, plus 2.1 B, plus the underflow error. *)
Theorem C82_quaternion_velocity : forall (p : prim) (o : orders3) (q f : FQ p) (c : R -> Quat) (t : R) (d : Quat) (w : V3) (A B : R),
  orders3_ok 4 4 4 o -> qfinite q -> qfinite f -> vnorm w + B <= 2 ^ 99 ->
  (forall s, qnorm (c s) = 1) -> Qderiv c t d -> qdist (qval q) (c t) <= A * roundoff p -> A * roundoff p <= / 100 -> qdist (qval f) d <= B ->
  (has_local_velocity (fun s => quat_rot (c s)) t w ->
    vfinite (flocal_of_quatdiff o q f) /\ vdist (vval (flocal_of_quatdiff o q f)) w <= (8 + A) * roundoff p * vnorm w + 21/10 * B + underflow p) /\
  (has_global_velocity (fun s => quat_rot (c s)) t w ->
    vfinite (fglobal_of_quatdiff o q f) /\ vdist (vval (fglobal_of_quatdiff o q f)) w <= (8 + A) * roundoff p * vnorm w + 21/10 * B + underflow p).
Proof. exact C82_quaternion_velocity_lemma. Qed.
Print Assumptions C82_quaternion_velocity.

Example C82_quaternion_velocity_ex : orders3_ok 4 4 4 (mkOrd3 leftright4 leftright4 leftright4) /\ qfinite q345 /\ qfinite rate345 /\ vnorm ex + 6 * roundoff F32 <= 2 ^ 99 /\
  (forall s, qnorm (spin s) = 1) /\ Qderiv spin 0 (mkQ (-2/5) (3/10) 0 0) /\ qdist (qval q345) (spin 0) <= 6 * roundoff F32 /\ 6 * roundoff F32 <= / 100 /\
  qdist (qval rate345) (mkQ (-2/5) (3/10) 0 0) <= 6 * roundoff F32 /\ has_local_velocity (fun s => quat_rot (spin s)) 0 ex /\ has_global_velocity (fun s => quat_rot (spin s)) 0 ex.
Proof. exact Claims30.C82_quaternion_velocity_ex. Qed.

(** C82: round trip. An angular velocity turned into the rate of a quaternion of norm
    1 up to A roundings and back is the same up to 16 + 2.1 A roundings. *)
Theorem C82_quaternion_roundtrip : forall (p : prim) (o : orders4) (o' : orders3) (q : FQ p) (w : FV p) (A : R),
  orders4_three o -> orders3_ok 4 4 4 o' -> qfinite q -> vfinite w -> vnorm (vval w) <= 2 ^ 99 ->
  Rabs (qnorm (qval q) - 1) <= A * roundoff p -> A * roundoff p <= / 100 ->
  (let v := flocal_of_quatdiff o' q (fquatdiff_of_local o q w) in vfinite v /\ vdist (vval v) (vval w) <= (16 + 21/10 * A) * roundoff p * vnorm (vval w) + 4 * underflow p) /\
  (let v := fglobal_of_quatdiff o' q (fquatdiff_of_global o q w) in vfinite v /\ vdist (vval v) (vval w) <= (16 + 21/10 * A) * roundoff p * vnorm (vval w) + 4 * underflow p).
Proof. exact C82_quaternion_roundtrip_lemma. Qed.
Print Assumptions C82_quaternion_roundtrip.

Example C82_quaternion_roundtrip_ex : orders4_three std43 /\ orders3_ok 4 4 4 (mkOrd3 leftright4 leftright4 leftright4) /\ qfinite q345 /\ Rabs (qnorm (qval q345) - 1) <= 6 * roundoff F32.
Proof. exact Claims30.C82_quaternion_roundtrip_ex. Qed.

(** C82: RotationMatrixDiff from an angular velocity, local or global. Let a rotation
    move along a curve of rotation matrices with the angular velocity w, and let the
    matrix object be within A roundings of the matrix of the curve. Then the computed
    rate is the derivative of the curve up to 9.4 + A roundings times the length of w,
    plus the underflow error. *)
Theorem C82_matrix_rate : forall (p : prim) (o : orders9) (m : FM p) (w : FV p) (c : R -> M33) (t : R) (d : M33) (A : R),
  orders9_ok o -> mfinite m -> vfinite w -> vnorm (vval w) <= 2 ^ 100 ->
  (forall s, SO3 (c s)) -> Mderiv c t d -> close (A * roundoff p) (mval m) (c t) -> A * roundoff p <= / 100 ->
  (has_local_velocity c t (vval w) ->
    mfinite (fmatdiff_of_local o m w) /\ close ((94/10 + A) * roundoff p * vnorm (vval w) + underflow p) (mval (fmatdiff_of_local o m w)) d) /\
  (has_global_velocity c t (vval w) ->
    mfinite (fmatdiff_of_global o m w) /\ close ((94/10 + A) * roundoff p * vnorm (vval w) + underflow p) (mval (fmatdiff_of_global o m w)) d).
Proof. exact C82_matrix_rate_lemma. Qed.
Print Assumptions C82_matrix_rate.

Example C82_matrix_rate_ex : orders9_ok std9 /\ mfinite m345 /\ vfinite (funit_x F32) /\ vnorm (vval (funit_x F32)) <= 2 ^ 100 /\
  (forall s, SO3 (spinm s)) /\ Mderiv spinm 0 (mmul (spinm 0) (mcross ex)) /\ close (61 * roundoff F32) (mval m345) (spinm 0) /\ 61 * roundoff F32 <= / 100 /\
  has_local_velocity spinm 0 (vval (funit_x F32)) /\ has_global_velocity spinm 0 (vval (funit_x F32)).
Proof. exact Claims30.C82_matrix_rate_ex. Qed.

(** C82: LocalAngularVelocity and GlobalAngularVelocity from a rotation matrix and its
    rate. With the matrix object within A roundings of the curve and the rate object
    within B of its derivative, the computed angular velocity is that of the curve up
    to 16.5 + 1.75 A roundings times its length, plus 1.8 B, plus the underflow error. *)
Theorem C82_matrix_velocity : forall (p : prim) (o : orders9) (m f : FM p) (c : R -> M33) (t : R) (d : M33) (w : V3) (A B : R),
  orders9_ok o -> mfinite m -> mfinite f -> vnorm w + B <= 2 ^ 100 ->
  (forall s, SO3 (c s)) -> Mderiv c t d -> close (A * roundoff p) (mval m) (c t) -> A * roundoff p <= / 100 -> close B (mval f) d ->
  (has_local_velocity c t w ->
    vfinite (flocal_of_matdiff o m f) /\ vdist (vval (flocal_of_matdiff o m f)) w <= (165/10 + 175/100 * A) * roundoff p * vnorm w + 18/10 * B + underflow p) /\
  (has_global_velocity c t w ->
    vfinite (fglobal_of_matdiff o m f) /\ vdist (vval (fglobal_of_matdiff o m f)) w <= (165/10 + 175/100 * A) * roundoff p * vnorm w + 18/10 * B + underflow p).
Proof. exact C82_matrix_velocity_lemma. Qed.
Print Assumptions C82_matrix_velocity.

(** the rate computed by the library for the spinning body is itself such a rate object *)
Example C82_matrix_velocity_ex : let f := fmatdiff_of_local std9 m345 (funit_x F32) in let B := (94/10 + 61) * roundoff F32 * 1 + underflow F32 in
  orders9_ok std9 /\ mfinite m345 /\ mfinite f /\ vnorm ex + B <= 2 ^ 100 /\
  (forall s, SO3 (spinm s)) /\ Mderiv spinm 0 (mmul (spinm 0) (mcross ex)) /\ close (61 * roundoff F32) (mval m345) (spinm 0) /\ 61 * roundoff F32 <= / 100 /\
  close B (mval f) (mmul (spinm 0) (mcross ex)) /\ has_local_velocity spinm 0 ex /\ has_global_velocity spinm 0 ex.
Proof. exact Claims30.C82_matrix_velocity_ex. Qed.

(** C82: change of frame. GlobalAngularVelocity(R, local) and LocalAngularVelocity(R,
    global), for a rotation object of any of the six classes that stands for the
    rotation of the curve at time t: the computed velocity is the angular velocity of
    the curve in the other frame, up to the defect of the matrix of the object plus 6
    roundings times the length (for the local velocity with the four classes that are
    not quaternions or matrices, plus the 4200 roundings of inverted()). *)
Theorem C82_frames : forall (p : prim) (L : libm) (ch : choices6) (o : orders3) (x : fobject p) (c : R -> M33) (t T A : R) (v : FV p) (l g : V3),
  libm_ok L -> choices6_ok ch -> orders3_ok 3 3 3 o -> 64/10 <= T <= 655/100 -> stands T A x (c t) -> A * roundoff p <= / 100 -> vfinite v -> vnorm (vval v) <= 2 ^ 100 ->
  has_local_velocity c t l -> has_global_velocity c t g ->
  let defect := conv_defect (okind_of x) KMat A + 6 in
  (vval v = l -> let w := fglobal_of_local L ch o x v in vfinite w /\ vdist (vval w) g <= defect * roundoff p * vnorm l + underflow p) /\
  (vval v = g -> let w := flocal_of_global L ch o x v in vfinite w /\
     vdist (vval w) l <= (defect + match okind_of x with KSrc _ => 4200 | _ => 0 end) * roundoff p * vnorm g + underflow p).
Proof. exact C82_frames_lemma. Qed.
Print Assumptions C82_frames.

Example C82_frames_ex : libm_ok exact_libm /\ choices6_ok stdsix /\ orders3_ok 3 3 3 std3 /\ stands (64/10) 61 (OMat m345) (spinm 0) /\ 61 * roundoff F32 <= / 100 /\
  vfinite (funit_x F32) /\ vnorm (vval (funit_x F32)) <= 2 ^ 100 /\ has_local_velocity spinm 0 ex /\ has_global_velocity spinm 0 ex /\ vval (funit_x F32) = ex.
Proof. exact Claims30.C82_frames_ex. Qed.

(** C83: angular velocities from Euler angles and their rates. Let the angles move
    along any curve that at time t goes through the stored angles with the stored
    rates, and let the rotation they stand for have the angular velocity w at time t.
    The computed velocity is w up to 22 roundings times the length of the vector of
    rates, plus the underflow error. EulerAnglesZyx, local: *)
Theorem C83_zyx_velocity : forall (p : prim) (L : libm) (o : orders3) (z y x : fl p) (d : FV p) (c : R -> Zyx) (t : R) (w : V3),
  libm_ok L -> orders3_ok 3 3 3 o -> is_finite z = true -> is_finite y = true -> is_finite x = true -> vfinite d -> vnorm (vval d) <= 2 ^ 100 ->
  c t = mkZyx (B2R z) (B2R y) (B2R x) -> Zyxderiv c t (vval d) -> has_local_velocity (fun s => zyx_rot (c s)) t w ->
  vfinite (fzyx_velocity L o z y x d) /\ vdist (vval (fzyx_velocity L o z y x d)) w <= 22 * roundoff p * vnorm (vval d) + underflow p.
Proof. exact C83_zyx_velocity_lemma. Qed.
Print Assumptions C83_zyx_velocity.

Example C83_zyx_velocity_ex : libm_ok exact_libm /\ orders3_ok 3 3 3 std3 /\ vfinite fvec212 /\ vnorm (vval fvec212) <= 2 ^ 100 /\
  path_zyx 1 = mkZyx (B2R (fofZ F32 1)) (B2R (fofZ F32 1)) (B2R (fofZ F32 2)) /\ Zyxderiv path_zyx 1 (vval fvec212) /\ exists w, has_local_velocity (fun s => zyx_rot (path_zyx s)) 1 w.
Proof. exact Claims30.C83_zyx_velocity_ex. Qed.

(** C83: EulerAnglesXyz, local and global: *)
Theorem C83_xyz_velocity : forall (p : prim) (L : libm) (o : orders3) (x y z : fl p) (d : FV p) (c : R -> Xyz) (t : R) (w : V3),
  libm_ok L -> orders3_ok 3 3 3 o -> is_finite x = true -> is_finite y = true -> is_finite z = true -> vfinite d -> vnorm (vval d) <= 2 ^ 100 ->
  c t = mkXyz (B2R x) (B2R y) (B2R z) -> Xyzderiv c t (vval d) ->
  (has_local_velocity (fun s => xyz_rot (c s)) t w ->
    vfinite (fxyz_velocity L o x y z d) /\ vdist (vval (fxyz_velocity L o x y z d)) w <= 22 * roundoff p * vnorm (vval d) + underflow p) /\
  (has_global_velocity (fun s => xyz_rot (c s)) t w ->
    vfinite (fxyz_global_velocity L o x y z d) /\ vdist (vval (fxyz_global_velocity L o x y z d)) w <= 22 * roundoff p * vnorm (vval d) + underflow p).
Proof. exact C83_xyz_velocity_lemma. Qed.
Print Assumptions C83_xyz_velocity.

Example C83_xyz_velocity_ex : libm_ok exact_libm /\ orders3_ok 3 3 3 std3 /\ vfinite fvec212 /\ vnorm (vval fvec212) <= 2 ^ 100 /\
  path_xyz 1 = mkXyz (B2R (fofZ F32 1)) (B2R (fofZ F32 1)) (B2R (fofZ F32 2)) /\ Xyzderiv path_xyz 1 (vval fvec212) /\
  (exists w, has_local_velocity (fun s => xyz_rot (path_xyz s)) 1 w) /\ (exists w, has_global_velocity (fun s => xyz_rot (path_xyz s)) 1 w).
Proof. exact Claims30.C83_xyz_velocity_ex. Qed.

(** C83: rates of Euler angles from an angular velocity. Away from gimbal lock (the
    cosine of the pitch is at least 100 roundings in absolute value) there is no
    exception, and the computed rates are the rates of any curve of angles that goes
    through the stored angles with the stored angular velocity, up to 34 roundings
    times the length of the velocity, divided by the square of the cosine of the pitch.
    EulerAnglesZyxDiff from a LocalAngularVelocity: *)
Theorem C83_zyx_rates : forall (p : prim) (L : libm) (o : orders3) (z y x : fl p) (w : FV p) (c : R -> Zyx) (t : R) (d : V3),
  libm_ok L -> orders3_ok 3 3 3 o -> is_finite z = true -> is_finite y = true -> is_finite x = true -> vfinite w -> vnorm (vval w) <= 2 ^ 60 ->
  c t = mkZyx (B2R z) (B2R y) (B2R x) -> Zyxderiv c t d -> has_local_velocity (fun s => zyx_rot (c s)) t (vval w) -> 100 * roundoff p <= Rabs (cos (B2R y)) ->
  exists r, fzyx_rates L o z y x w = Some r /\ vfinite r /\ vdist (vval r) d <= 34 * roundoff p * vnorm (vval w) / (cos (B2R y) * cos (B2R y)) + underflow p.
Proof. exact C83_zyx_rates_lemma. Qed.
Print Assumptions C83_zyx_rates.

Example C83_zyx_rates_ex : let e := mkZyx (B2R (fofZ F32 2)) (B2R (fofZ F32 1)) (B2R (fofZ F32 2)) in
  vfinite fvec212 /\ vnorm (vval fvec212) <= 2 ^ 60 /\ 100 * roundoff F32 <= Rabs (cos (B2R (fofZ F32 1))) /\
  exists d, line_zyx e d 0 = e /\ Zyxderiv (line_zyx e d) 0 d /\ has_local_velocity (fun s => zyx_rot (line_zyx e d s)) 0 (vval fvec212).
Proof. exact Claims30.C83_zyx_rates_ex. Qed.

(** C83: EulerAnglesXyzDiff from a LocalAngularVelocity, and the mapping from a
    GlobalAngularVelocity: *)
Theorem C83_xyz_rates : forall (p : prim) (L : libm) (o : orders3) (x y z : fl p) (w : FV p) (c : R -> Xyz) (t : R) (d : V3),
  libm_ok L -> orders3_ok 3 3 3 o -> is_finite x = true -> is_finite y = true -> is_finite z = true -> vfinite w -> vnorm (vval w) <= 2 ^ 60 ->
  c t = mkXyz (B2R x) (B2R y) (B2R z) -> Xyzderiv c t d -> 100 * roundoff p <= Rabs (cos (B2R y)) ->
  (has_local_velocity (fun s => xyz_rot (c s)) t (vval w) ->
    exists r, fxyz_rates L o x y z w = Some r /\ vfinite r /\ vdist (vval r) d <= 34 * roundoff p * vnorm (vval w) / (cos (B2R y) * cos (B2R y)) + underflow p) /\
  (has_global_velocity (fun s => xyz_rot (c s)) t (vval w) ->
    exists r, fxyz_global_rates L o x y z w = Some r /\ vfinite r /\ vdist (vval r) d <= 34 * roundoff p * vnorm (vval w) / (cos (B2R y) * cos (B2R y)) + underflow p).
Proof. exact C83_xyz_rates_lemma. Qed.
Print Assumptions C83_xyz_rates.

Example C83_xyz_rates_ex : let e := mkXyz (B2R (fofZ F32 2)) (B2R (fofZ F32 1)) (B2R (fofZ F32 2)) in
  vfinite fvec212 /\ vnorm (vval fvec212) <= 2 ^ 60 /\ 100 * roundoff F32 <= Rabs (cos (B2R (fofZ F32 1))) /\
  (exists d, line_xyz e d 0 = e /\ Xyzderiv (line_xyz e d) 0 d /\ has_local_velocity (fun s => xyz_rot (line_xyz e d s)) 0 (vval fvec212)) /\
  (exists d, line_xyz e d 0 = e /\ Xyzderiv (line_xyz e d) 0 d /\ has_global_velocity (fun s => xyz_rot (line_xyz e d s)) 0 (vval fvec212)).
Proof. exact Claims30.C83_xyz_rates_ex. Qed.

(** C83: the gimbal-lock exception. The three mappings to rates throw exactly when the
    math library returns zero for the cosine of the pitch; then the true cosine is at
    most 2 roundings in absolute value, and for larger cosines there is no exception. *)
Theorem C83_gimbal : forall (p : prim) (L : libm) (o : orders3) (x y z : fl p) (w : FV p), libm_ok L -> is_finite y = true ->
  ((fzyx_rates L o z y x w = None <-> B2R (lcos L p y) = 0) /\ (fxyz_rates L o x y z w = None <-> B2R (lcos L p y) = 0) /\ (fxyz_global_rates L o x y z w = None <-> B2R (lcos L p y) = 0)) /\
  (B2R (lcos L p y) = 0 -> Rabs (cos (B2R y)) <= 2 * roundoff p).
Proof. exact C83_gimbal_lemma. Qed.
Print Assumptions C83_gimbal.

Example C83_gimbal_ex : libm_ok zero_libm /\ is_finite half_pi = true /\ fzyx_rates zero_libm std3 (fofZ F32 1) half_pi (fofZ F32 2) fvec212 = None /\
  libm_ok exact_libm /\ fzyx_rates exact_libm std3 (fofZ F32 1) (fofZ F32 1) (fofZ F32 2) fvec212 <> None.
Proof. exact Claims30.C83_gimbal_ex. Qed.

(** C83: round trip. Rates turned into an angular velocity and back are the same up to
    130 roundings times their length, divided by the square of the cosine of the pitch
    (plus underflow), for the three pairs of mappings. *)
Theorem C83_roundtrip : forall (p : prim) (L : libm) (o o' : orders3) (x y z : fl p) (d : FV p),
  libm_ok L -> orders3_ok 3 3 3 o -> orders3_ok 3 3 3 o' -> is_finite x = true -> is_finite y = true -> is_finite z = true -> vfinite d -> vnorm (vval d) <= 2 ^ 58 ->
  100 * roundoff p <= Rabs (cos (B2R y)) ->
  let e := 130 * roundoff p * vnorm (vval d) / (cos (B2R y) * cos (B2R y)) + 4 * underflow p / Rabs (cos (B2R y)) in
  (exists r, fzyx_rates L o' z y x (fzyx_velocity L o z y x d) = Some r /\ vfinite r /\ vdist (vval r) (vval d) <= e) /\
  (exists r, fxyz_rates L o' x y z (fxyz_velocity L o x y z d) = Some r /\ vfinite r /\ vdist (vval r) (vval d) <= e) /\
  (exists r, fxyz_global_rates L o' x y z (fxyz_global_velocity L o x y z d) = Some r /\ vfinite r /\ vdist (vval r) (vval d) <= e).
Proof. exact C83_roundtrip_lemma. Qed.
Print Assumptions C83_roundtrip.

Example C83_roundtrip_ex : libm_ok exact_libm /\ orders3_ok 3 3 3 std3 /\ vfinite fvec212 /\ vnorm (vval fvec212) <= 2 ^ 58 /\ 100 * roundoff F32 <= Rabs (cos (B2R (fofZ F32 1))).
Proof. exact Claims30.C83_roundtrip_ex. Qed.
