(** Generated by tools/genprops.py from Claims25.v: the property theorems only. *)
From Coq Require Import ZArith Reals Lra Psatz Bool List Lia.
From Flocq Require Import IEEE754.BinarySingleNaN Core.Core.
From Verif Require Import Linalg Spec SpecFacts SpecClose ModelCommon ModelEigen CommonFacts CloseFacts EulerFacts PiBounds
  FloatModel FloatFacts FloatModel2 SpecFloatQ FloatQFacts FloatQProd FloatQHist FloatQRot FloatModulo FloatWrap FloatCast FloatModel3 FloatModel4 FloatModel7 FloatModel8 FloatBuild FloatBox FloatModel9 SpecUnique FloatUnique.
Import ListNotations.
Local Open Scope R_scope.
From Verif Require Import Claims25.

(** C77: getUnique() of EulerAnglesZyx and EulerAnglesXyz, for float and double and
    angles up to 2^51, when the middle angle is further than 1e-3 (plus the error of
    its wrap) from every odd multiple of pi/2: the first and last angle are in
    [-pi,pi], the middle one is in [-pi/2,pi/2], up to the rounding of pi, and the
    rotation changes by at most [euler_error]. *)
Theorem C77_clear : forall (p : prim) (ev : evaluation) (a b c x y z : fl p),
  is_finite a = true -> is_finite b = true -> is_finite c = true ->
  Rabs (B2R a) <= 2 ^ 51 -> Rabs (B2R b) <= 2 ^ 51 -> Rabs (B2R c) <= 2 ^ 51 ->
  (forall s k, s = 1 \/ s = -1 -> pitch_off (B2R b) s k > / 1000 + wrap_error p (B2R b) + 2 * roundoff F64) ->
  feuler_unique ev a b c = (x, y, z) ->
  is_finite x = true /\ is_finite y = true /\ is_finite z = true /\
  Rabs (B2R x) <= B2R (fcvt p fM_PI) /\ Rabs (B2R z) <= B2R (fcvt p fM_PI) /\ Rabs (B2R y) <= PI/2 - / 1000 + 10 * roundoff p /\
  close (euler_error p (B2R a) (B2R b) (B2R c)) (zyx_rot (mkZyx (B2R x) (B2R y) (B2R z))) (zyx_rot (mkZyx (B2R a) (B2R b) (B2R c))) /\
  close (euler_error p (B2R a) (B2R b) (B2R c)) (xyz_rot (mkXyz (B2R x) (B2R y) (B2R z))) (xyz_rot (mkXyz (B2R a) (B2R b) (B2R c))).
Proof. exact C77_clear_lemma. Qed.
Print Assumptions C77_clear.

(** C77: EulerAnglesXyz::getUnique() of any finite triple changes the rotation by at
    most 0.002 plus the roundings; *)
Theorem C77_xyz : forall (p : prim) (ev : evaluation) (a b c x y z : fl p),
  is_finite a = true -> is_finite b = true -> is_finite c = true ->
  Rabs (B2R a) <= 2 ^ 51 -> Rabs (B2R b) <= 2 ^ 51 -> Rabs (B2R c) <= 2 ^ 51 ->
  feuler_unique ev a b c = (x, y, z) ->
  is_finite x = true /\ is_finite y = true /\ is_finite z = true /\
  Rabs (B2R x) <= 2 * B2R (fcvt p fM_PI) /\ Rabs (B2R z) <= B2R (fcvt p fM_PI) /\ Rabs (B2R y) <= PI/2 + / 1000 + 10 * roundoff p /\
  close (2 / 1000 + euler_error p (B2R a) (B2R b) (B2R c)) (xyz_rot (mkXyz (B2R x) (B2R y) (B2R z))) (xyz_rot (mkXyz (B2R a) (B2R b) (B2R c))).
Proof. exact C77_xyz_lemma. Qed.
Print Assumptions C77_xyz.

(** and at distance d of the middle angle from an odd multiple of pi/2 the change is
    at most 2 d plus the roundings. *)
Theorem C77_xyz_lock : forall (p : prim) (ev : evaluation) (a b c x y z : fl p) (s : R) (k : Z),
  is_finite a = true -> is_finite b = true -> is_finite c = true ->
  Rabs (B2R a) <= 2 ^ 51 -> Rabs (B2R b) <= 2 ^ 51 -> Rabs (B2R c) <= 2 ^ 51 -> s = 1 \/ s = -1 ->
  feuler_unique ev a b c = (x, y, z) ->
  close (2 * pitch_off (B2R b) s k + 2 * euler_error p (B2R a) (B2R b) (B2R c)) (xyz_rot (mkXyz (B2R x) (B2R y) (B2R z))) (xyz_rot (mkXyz (B2R a) (B2R b) (B2R c))).
Proof. exact C77_xyz_lock_lemma. Qed.
Print Assumptions C77_xyz_lock.

(** C77: EulerAnglesZyx::getUnique() near gimbal lock: within 1e-3 of s pi/2 (s = +-1)
    the result is the input turned about the z axis by 2 s roll, up to 0.002 and
    roundings: the rotation is lost unless the roll is a multiple of pi. *)
Theorem C77_zyx_band : forall (p : prim) (ev : evaluation) (a b c x y z : fl p) (s : R) (k : Z),
  is_finite a = true -> is_finite b = true -> is_finite c = true ->
  Rabs (B2R a) <= 2 ^ 51 -> Rabs (B2R b) <= 2 ^ 51 -> Rabs (B2R c) <= 2 ^ 51 -> s = 1 \/ s = -1 ->
  pitch_off (B2R b) s k <= / 1000 - wrap_error p (B2R b) - 2 * roundoff F64 ->
  feuler_unique ev a b c = (x, y, z) ->
  z = fzero /\ close (2 / 1000 + euler_error p (B2R a) (B2R b) (B2R c)) (zyx_rot (mkZyx (B2R x) (B2R y) (B2R z))) (mmul (Rot_z (2 * s * B2R c)) (zyx_rot (mkZyx (B2R a) (B2R b) (B2R c)))).
Proof. exact C77_zyx_band_lemma. Qed.
Print Assumptions C77_zyx_band.

Theorem C77_zyx_refuted : forall (p : prim) (ev : evaluation),
  let b := fcvt p fhalf_pi in
  exists x y z, feuler_unique ev fzero b b = (x, y, z) /\ is_finite b = true /\ Rabs (B2R b - PI/2) <= / 10 ^ 7 /\
    ~ close (19/10) (zyx_rot (mkZyx (B2R x) (B2R y) (B2R z))) (zyx_rot (mkZyx 0 (B2R b) (B2R b))).
Proof. exact C77_zyx_refuted_lemma. Qed.
Print Assumptions C77_zyx_refuted.

Example C77_clear_ex : forall p : prim, let a := fofZ p 100 in let b := fofZ p 3 in let c := fofZ p (-5) in
  is_finite a = true /\ is_finite b = true /\ is_finite c = true /\ Rabs (B2R a) <= 2 ^ 51 /\ Rabs (B2R b) <= 2 ^ 51 /\ Rabs (B2R c) <= 2 ^ 51 /\
  (forall s k, s = 1 \/ s = -1 -> pitch_off (B2R b) s k > / 1000 + wrap_error p (B2R b) + 2 * roundoff F64) /\ euler_error p (B2R a) (B2R b) (B2R c) <= / 100000.
Proof. exact Claims25.C77_clear_ex. Qed.

Example C77_xyz_ex : forall p : prim, is_finite (fofZ p 100) = true /\ Rabs (B2R (fofZ p 100)) <= 2 ^ 51.
Proof. exact Claims25.C77_xyz_ex. Qed.

Example C77_xyz_lock_ex : forall p : prim, is_finite (fcvt p fhalf_pi) = true /\ pitch_off (B2R (fcvt p fhalf_pi)) 1 0 <= / 10 ^ 7.
Proof. exact Claims25.C77_xyz_lock_ex. Qed.

Example C77_zyx_band_ex : forall p : prim, let b := fcvt p fhalf_pi in pitch_off (B2R b) 1 0 <= / 1000 - wrap_error p (B2R b) - 2 * roundoff F64.
Proof. exact Claims25.C77_zyx_band_ex. Qed.
