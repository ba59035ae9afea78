(** Floating-point model (IEEE 754 binary32/binary64, round to nearest even) of
    the kindr functions whose properties are about rounding, NaN and infinity.
    The arithmetic is Flocq's BinarySingleNaN (all NaNs are one value). *)
From Coq Require Import ZArith Bool List.
From Flocq Require Import IEEE754.BinarySingleNaN Core.Core.
From Verif Require Import ModelCommon.
Import ListNotations.
Local Open Scope Z_scope.

(** ** The two scalar types *)
Definition fprec (p : prim) : Z := match p with F32 => 24 | F64 => 53 end.
Definition femax (p : prim) : Z := match p with F32 => 128 | F64 => 1024 end.
Global Instance fprec_pos (p : prim) : Prec_gt_0 (fprec p).
Proof. destruct p; reflexivity. Defined.
Global Instance fprec_lt_emax (p : prim) : Prec_lt_emax (fprec p) (femax p).
Proof. destruct p; reflexivity. Defined.

(** a float (F32) or a double (F64) *)
Definition fl (p : prim) : Set := binary_float (fprec p) (femax p).

Definition fadd {p} (a b : fl p) : fl p := Bplus mode_NE a b.
Definition fsub {p} (a b : fl p) : fl p := Bminus mode_NE a b.
Definition fmul {p} (a b : fl p) : fl p := Bmult mode_NE a b.
Definition fdiv {p} (a b : fl p) : fl p := Bdiv mode_NE a b.
Definition fsqrt {p} (a : fl p) : fl p := Bsqrt mode_NE a.
Definition ffma {p} (a b c : fl p) : fl p := Bfma mode_NE a b c.
Definition fneg {p} (a : fl p) : fl p := Bopp a.
Definition fabs {p} (a : fl p) : fl p := Babs a.
(** floor: the result is again a float *)
Definition ffloor {p} (a : fl p) : fl p := Bnearbyint mode_DN a.
(** C comparisons: false when an operand is NaN; == identifies the two zeros *)
Definition flt {p} (a b : fl p) : bool := Bltb a b.
Definition fle {p} (a b : fl p) : bool := Bleb a b.
Definition feq {p} (a b : fl p) : bool := Beqb a b.
Definition fzero {p} : fl p := B754_zero false.
(** an integer literal *)
Definition fofZ (p : prim) (z : Z) : fl p := binary_normalize (fprec p) (femax p) _ _ mode_NE z 0 false.
(** floating conversion (float -> double is exact, double -> float rounds) *)
Definition fcvt {p} (q : prim) (a : fl p) : fl q :=
  match a with
  | B754_zero s => B754_zero s
  | B754_infinity s => B754_infinity s
  | B754_nan => B754_nan
  | B754_finite s m e _ => binary_normalize (fprec q) (femax q) _ _ mode_NE (cond_Zopp s (Zpos m)) e s
  end.
(** a decimal literal num/den of type double, cast to p (both correctly rounded) *)
Definition flit (p : prim) (num den : Z) : fl p := fcvt p (fdiv (fofZ F64 num) (fofZ F64 den)).

(** M_PI = 0x400921FB54442D18 as a double *)
Definition fM_PI : fl F64 := binary_normalize (fprec F64) (femax F64) _ _ mode_NE 7074237752028440 (-51) false.

(** ** common.hpp *)

(** How the compiler evaluates  x - y * floor(x/y)  (common.hpp:53), which the
    C++ text leaves open:
    - [InType]: floor(T) -> T, everything in T;
    - [FloorDouble]: the unqualified floor is ::floor(double) only (libstdc++
      without <math.h>), so for T = float the product and the difference are
      double;
    - [Fused]: as InType, with the product and the difference contracted into
      one fused multiply-add (-ffp-contract=fast).
    For T = double the first two coincide. *)
Inductive evaluation := InType | FloorDouble | Fused.

(** floatingPointModulo, common.hpp:45-85. The local variable m has type
    double (line 53), so the comparisons and the sum y+m are in double and
    the returned value is converted back to T. *)
Definition fmodulo_m {p} (ev : evaluation) (x y : fl p) : fl F64 :=
  match ev with
  | InType => fcvt F64 (fsub x (fmul y (ffloor (fdiv x y))))
  | FloorDouble => fsub (fcvt F64 x) (fmul (fcvt F64 y) (ffloor (fcvt F64 (fdiv x y))))
  | Fused => fcvt F64 (ffma (fneg y) (ffloor (fdiv x y)) x)
  end.
Definition fmodulo {p} (ev : evaluation) (x y : fl p) : fl p :=
  if feq (fcvt F64 y) fzero then x else
  let m := fmodulo_m ev x y in
  let yd := fcvt F64 y in
  if flt fzero y then
    if fle yd m then fzero else
    if flt m fzero then
      (if feq (fadd yd m) yd then fzero else fcvt p (fadd yd m))
    else fcvt p m
  else
    if fle m yd then fzero else
    if flt fzero m then
      (if feq (fadd yd m) yd then fzero else fcvt p (fadd yd m))
    else fcvt p m.

(** wrapAngle, common.hpp:88-92 *)
Definition fwrapAngle {p} (ev : evaluation) (angle x1 x2 : fl p) : fl p :=
  fadd (fmodulo ev (fsub angle x1) (fsub x2 x1)) x1.
(** wrapPosNegPI, common.hpp:95-99: the result of the modulo is a T, M_PI a
    double, so the subtraction is in double, then converted to T *)
Definition fwrapPosNegPI {p} (ev : evaluation) (angle : fl p) : fl p :=
  fcvt p (fsub (fcvt F64 (fmodulo ev (fadd angle (fcvt p fM_PI)) (fcvt p (fmul (fofZ F64 2) fM_PI)))) fM_PI).
(** wrapTwoPI, common.hpp:102-106 *)
Definition fwrapTwoPI {p} (ev : evaluation) (angle : fl p) : fl p :=
  fmodulo ev angle (fcvt p (fmul (fofZ F64 2) fM_PI)).

(** compareRelative, assert_macros_eigen.hpp:47-67, all arguments of one type.
    std::max(a,b) is (a < b) ? b : a. *)
Definition fmax {p} (a b : fl p) : fl p := if flt a b then b else a.
Definition fcompareRelative {p} (a b percentTolerance : fl p) : bool :=
  let fa := fabs a in let fb := fabs b in
  let bothZeroThreshold := flit p 1 (10 ^ 15) in
  let tolerance_zero := flit p 1 (10 ^ 6) in
  if ((flt fa bothZeroThreshold && flt fb bothZeroThreshold)
      || (feq fa fzero && flt fb tolerance_zero)
      || (feq fb fzero && flt fa tolerance_zero))%bool
  then true
  else
    let diff := fdiv (fabs (fsub a b)) (fmax fa fb) in
    if flt (fmul percentTolerance (flit p 1 100)) diff then false else true.

(** ** Debug assertions on coefficients *)

(** The order in which Eigen adds the four squared coefficients depends on the
    vector unit: any binary tree of additions. *)
Inductive sumtree := Leaf (i : nat) | Node (l r : sumtree).
Fixpoint leaves (t : sumtree) : list nat :=
  match t with Leaf i => [i] | Node l r => leaves l ++ leaves r end.
Fixpoint fsum {p} (t : sumtree) (f : nat -> fl p) : fl p :=
  match t with Leaf i => f i | Node l r => fadd (fsum l f) (fsum r f) end.
(** Eigen norm(): sqrt of the sum of squares (Eigen/src/Core/Dot.h) *)
Definition fnorm {p} (t : sumtree) (c : nat -> fl p) : fl p := fsqrt (fsum t (fun i => fmul (c i) (c i))).
(** does the debug-mode constructor accept the coefficients?
    UnitQuaternion: Quaternion.hpp:318-355 (1e-2 percent, 4 coefficients);
    RotationQuaternion: RotationQuaternion.hpp:90-134 (1e-2 percent);
    AngleAxis: AngleAxis.hpp:94-126 (1e-4 percent, 3 axis coefficients). *)
Definition funit_assert {p} (t : sumtree) (c : nat -> fl p) (num den : Z) : bool :=
  fcompareRelative (fnorm t c) (fofZ p 1) (flit p num den).

(** ** AngleAxis::getUnique, AngleAxis.hpp:259-298, in IEEE arithmetic *)
Definition fangleaxis (p : prim) : Set := (fl p * (fl p * fl p * fl p))%type.
Definition fneg3 {p} (v : fl p * fl p * fl p) : fl p * fl p * fl p :=
  match v with (a, b, c) => (fneg a, fneg b, fneg c) end.
Definition fgetUnique {p} (ev : evaluation) (aa : fangleaxis p) : fangleaxis p :=
  let (angle, axis) := aa in
  let a := fwrapPosNegPI ev angle in
  if flt fzero a then (a, axis)
  else if flt a fzero then
    (* -M_PI is a double: the angle is promoted (line 266) *)
    if negb (feq (fcvt F64 a) (fneg fM_PI)) then (fneg a, fneg3 axis)
    else match axis with (v0, v1, v2) =>
      if flt v0 fzero then (fneg a, fneg3 axis)
      else if flt fzero v0 then (fneg a, axis)
      else if flt v1 fzero then (fneg a, fneg3 axis)
      else if flt fzero v1 then (fneg a, axis)
      else if flt v2 fzero then (fneg a, fneg3 axis)
      else (fneg a, axis)
    end
  else (fzero, (fofZ p 1, fzero, fzero)).
