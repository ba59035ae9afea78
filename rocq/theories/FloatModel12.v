(** Floating-point model of the time derivatives of rotations and of the angular
    velocities. *)
From Coq Require Import ZArith Bool List.
From Flocq Require Import IEEE754.BinarySingleNaN Core.Core.
From Verif Require Import ModelCommon FloatModel FloatModel2 FloatModel3 FloatModel4 FloatModel5 FloatModel6 FloatModel7.
Import ListNotations.
Local Open Scope Z_scope.

(** getGlobalQuaternionDiffMatrix, getLocalQuaternionDiffMatrix: the three rows,
    RotationQuaternion.hpp:400-417 *)
Record FM34 (p : prim) := mkFM34 { q0 : list (fl p); q1 : list (fl p); q2 : list (fl p) }.
Arguments mkFM34 {p}. Arguments q0 {p}. Arguments q1 {p}. Arguments q2 {p}.
Definition fglobal_matrix {p} (q : FQ p) : FM34 p :=
  mkFM34 [fneg (fx q); fw q; fneg (fz q); fy q] [fneg (fy q); fz q; fw q; fneg (fx q)] [fneg (fz q); fneg (fy q); fx q; fw q].
Definition flocal_matrix {p} (q : FQ p) : FM34 p :=
  mkFM34 [fneg (fx q); fw q; fz q; fneg (fy q)] [fneg (fy q); fneg (fz q); fw q; fx q] [fneg (fz q); fy q; fneg (fx q); fw q].
(** H^T * w: one sum of three products per column *)
Definition fcol {p} (h : FM34 p) (i : nat) : list (fl p) := [nth i (q0 h) fzero; nth i (q1 h) fzero; nth i (q2 h) fzero].
(** RotationQuaternionDiff(q, local or global angular velocity): 0.5 * (H^T * w),
    RotationQuaternionDiff.hpp:204-220 *)
Definition fhalf_tapply {p} (o : orders4) (h : FM34 p) (w : FV p) : FQ p :=
  let c t i := fmul (fhalf p) (fdot t (fcol h i) (flist w)) in mkFQ (c (ow o) 0%nat) (c (ox o) 1%nat) (c (oy o) 2%nat) (c (oz o) 3%nat).
(** the four sums of three products may be evaluated in any order *)
Definition orders4_three (o : orders4) : Prop := order 3 (ow o) /\ order 3 (ox o) /\ order 3 (oy o) /\ order 3 (oz o).
Definition fquatdiff_of_local {p} (o : orders4) (q : FQ p) (w : FV p) : FQ p := fhalf_tapply o (flocal_matrix q) w.
Definition fquatdiff_of_global {p} (o : orders4) (q : FQ p) (w : FV p) : FQ p := fhalf_tapply o (fglobal_matrix q) w.
(** LocalAngularVelocity(q, RotationQuaternionDiff), GlobalAngularVelocity(...): 2.0 * H
    * dq, LocalAngularVelocity.hpp:228-234, GlobalAngularVelocity.hpp:232-238. (The
    factor is applied to H; scaling by two is exact, so it does not matter where.) *)
Definition ftwice {p} (l : list (fl p)) : list (fl p) := map (fmul (fofZ p 2)) l.
Definition fqlist {p} (q : FQ p) : list (fl p) := [fw q; fx q; fy q; fz q].
Definition ftwice_apply {p} (o : orders3) (h : FM34 p) (d : FQ p) : FV p :=
  mkFV (fdot (o0 o) (ftwice (q0 h)) (fqlist d)) (fdot (o1 o) (ftwice (q1 h)) (fqlist d)) (fdot (o2 o) (ftwice (q2 h)) (fqlist d)).
Definition flocal_of_quatdiff {p} (o : orders3) (q d : FQ p) : FV p := ftwice_apply o (flocal_matrix q) d.
Definition fglobal_of_quatdiff {p} (o : orders3) (q d : FQ p) : FV p := ftwice_apply o (fglobal_matrix q) d.

(** getSkewMatrixFromVector, getVectorFromSkewMatrix, LinearAlgebra.hpp:40-60 *)
Definition fskew {p} (v : FV p) : FM p :=
  mkFM (mkFV fzero (fneg (gz v)) (gy v)) (mkFV (gz v) fzero (fneg (gx v))) (mkFV (fneg (gy v)) (gx v) fzero).
Definition fvee {p} (m : FM p) : FV p := mkFV (gy (r2 m)) (gz (r0 m)) (gx (r1 m)).
(** RotationMatrixDiff(R, local or global), RotationMatrixDiff.hpp:182-198 *)
Definition fmatdiff_of_local {p} (o : orders9) (m : FM p) (w : FV p) : FM p := fmm o m (fskew w).
Definition fmatdiff_of_global {p} (o : orders9) (m : FM p) (w : FV p) : FM p := fmm o (fskew w) m.
(** LocalAngularVelocity(R, RotationMatrixDiff), LocalAngularVelocity.hpp:236-243;
    GlobalAngularVelocity(R, RotationMatrixDiff), GlobalAngularVelocity.hpp:241-247 *)
Definition flocal_of_matdiff {p} (o : orders9) (m d : FM p) : FV p := fvee (fmm o (ftrans m) d).
Definition fglobal_of_matdiff {p} (o : orders9) (m d : FM p) : FV p := fvee (fmm o d (ftrans m)).

(** GlobalAngularVelocity(R, local): R.rotate(w), GlobalAngularVelocity.hpp:223-229;
    LocalAngularVelocity(R, global): R.inverted() rotates w, LocalAngularVelocity.hpp:
    220-226, RotationBase.hpp:325-328 *)
Definition fglobal_of_local {p} (L : libm) (c : choices6) (o : orders3) (x : fobject p) (w : FV p) : FV p := orotate L c o x w.
Definition flocal_of_global {p} (L : libm) (c : choices6) (o : orders3) (x : fobject p) (w : FV p) : FV p := orotate L c o (oinverted L c x) w.

(** const PrimType_ t3 = 1.0/t2: a division of doubles, converted to the scalar type *)
Definition frecip {p} (t : fl p) : fl p := fcvt p (fdiv (fofZ F64 1) (fcvt F64 t)).
Section Euler.
Context {p : prim} (L : libm).
(** EulerAnglesZyx::getMappingFromDiffToLocalAngularVelocity, EulerAnglesZyx.hpp:421-438 *)
Definition fzyx_to_local (z y x : fl p) : FM p :=
  let t2 := lcos L p x in let t3 := lcos L p y in let t4 := lsin L p x in
  mkFM (mkFV (fneg (lsin L p y)) fzero (fofZ p 1)) (mkFV (fmul t3 t4) t2 fzero) (mkFV (fmul t2 t3) (fneg t4) fzero).
(** EulerAnglesZyx::getMappingFromLocalAngularVelocityToDiff, EulerAnglesZyx.hpp:440-461;
    None: std::runtime_error (KINDR_ASSERT_TRUE, in every build) *)
Definition fzyx_from_local (z y x : fl p) : option (FM p) :=
  let t2 := lcos L p y in let t3 := frecip t2 in
  if feq t2 fzero then None else
  let t4 := lcos L p x in let t5 := lsin L p x in let t6 := lsin L p y in
  Some (mkFM (mkFV fzero (fmul t3 t5) (fmul t3 t4)) (mkFV fzero t4 (fneg t5)) (mkFV (fofZ p 1) (fmul (fmul t3 t5) t6) (fmul (fmul t3 t4) t6))).
(** EulerAnglesXyz::getMappingFromDiffToLocalAngularVelocity, EulerAnglesXyz.hpp:330-349 *)
Definition fxyz_to_local (x y z : fl p) : FM p :=
  let t2 := lcos L p y in let t3 := lsin L p z in let t4 := lcos L p z in
  mkFM (mkFV (fmul t2 t4) t3 fzero) (mkFV (fmul (fneg t2) t3) t4 fzero) (mkFV (lsin L p y) fzero (fofZ p 1)).
(** EulerAnglesXyz::getMappingFromLocalAngularVelocityToDiff, EulerAnglesXyz.hpp:351-374 *)
Definition fxyz_from_local (x y z : fl p) : option (FM p) :=
  let t2 := lcos L p y in
  if feq t2 fzero then None else
  let t3 := frecip t2 in let t4 := lsin L p z in let t5 := lcos L p z in let t6 := lsin L p y in
  Some (mkFM (mkFV (fmul t3 t5) (fmul (fneg t3) t4) fzero) (mkFV t4 t5 fzero) (mkFV (fmul (fmul (fneg t3) t5) t6) (fmul (fmul t3 t4) t6) (fofZ p 1))).
(** EulerAnglesXyz::getMappingFromGlobalAngularVelocityToDiff, EulerAnglesXyz.hpp:376-397 *)
Definition fxyz_from_global (x y z : fl p) : option (FM p) :=
  let t2 := lcos L p y in
  if feq t2 fzero then None else
  let t3 := frecip t2 in let t4 := lsin L p y in let t5 := lcos L p x in let t6 := lsin L p x in
  Some (mkFM (mkFV (fofZ p 1) (fmul (fmul t3 t4) t6) (fmul (fmul (fneg t3) t4) t5)) (mkFV fzero t5 t6) (mkFV fzero (fmul (fneg t3) t6) (fmul t3 t5))).
(** EulerAnglesXyz::getMappingFromDiffToGlobalAngularVelocity, EulerAnglesXyz.hpp:400-417 *)
Definition fxyz_to_global (x y z : fl p) : FM p :=
  let t2 := lsin L p x in let t3 := lcos L p x in let t4 := lcos L p y in
  mkFM (mkFV (fofZ p 1) fzero (lsin L p y)) (mkFV fzero t3 (fmul (fneg t2) t4)) (mkFV fzero t2 (fmul t3 t4)).

(** The conversions: mapping times vector. LocalAngularVelocity.hpp:248-265,
    GlobalAngularVelocity.hpp:259-267, EulerAnglesZyxDiff.hpp:271-277,
    EulerAnglesXyzDiff.hpp:363-369. (GlobalAngularVelocity from EulerAnglesZyxDiff does
    not compile; rates from a GlobalAngularVelocity: only the mapping exists.) *)
Definition fzyx_velocity (o : orders3) (z y x : fl p) (d : FV p) : FV p := fmv o (fzyx_to_local z y x) d.
Definition fxyz_velocity (o : orders3) (x y z : fl p) (d : FV p) : FV p := fmv o (fxyz_to_local x y z) d.
Definition fxyz_global_velocity (o : orders3) (x y z : fl p) (d : FV p) : FV p := fmv o (fxyz_to_global x y z) d.
Definition fzyx_rates (o : orders3) (z y x : fl p) (w : FV p) : option (FV p) := option_map (fun m => fmv o m w) (fzyx_from_local z y x).
Definition fxyz_rates (o : orders3) (x y z : fl p) (w : FV p) : option (FV p) := option_map (fun m => fmv o m w) (fxyz_from_local x y z).
Definition fxyz_global_rates (o : orders3) (x y z : fl p) (w : FV p) : option (FV p) := option_map (fun m => fmv o m w) (fxyz_from_global x y z).
End Euler.
