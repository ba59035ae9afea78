(** * ModelCommon: model of include/kindr/common (exact-real scalars).

    Simplification valid for every file named Model*.v: the C++ scalar
    (float/double) is an exact real number, M_PI is the real number PI, and an
    operation that is undefined on the reals (x/0, sqrt of a negative number)
    yields the distinct outcome [NaN].  Rounding, overflow, signed zero and
    the value-level spreading of NaN are not in these files; the files named
    Float*.v treat the functions where they matter. *)
From Coq Require Import Reals Lra Bool.
From Verif Require Import Linalg Spec.
Local Open Scope R_scope.

(** ** Outcome plumbing (modelling device, no counterpart in the code) *)
Definition obind {A B : Type} (x : outcome A) (f : A -> outcome B) : outcome B :=
  match x with Val a => f a | NaN => NaN | Throws => Throws end.
Definition omap {A B : Type} (f : A -> B) (x : outcome A) : outcome B :=
  match x with Val a => Val (f a) | NaN => NaN | Throws => Throws end.
Notation "x <- e ;; f" := (obind e (fun x => f)) (at level 61, e at next level, right associativity).

(** IEEE division and square root, on reals: undefined cases give [NaN]. *)
Definition cdiv (a b : R) : outcome R := if Req_EM_T b 0 then NaN else Val (a / b).
Definition csqrt (a : R) : outcome R := if Rlt_dec a 0 then NaN else Val (sqrt a).

(** ** PrimType_ (float or double): only the constants that depend on it *)
Inductive prim : Type := F32 | F64.
(** std::numeric_limits<T>::epsilon(), common.hpp:164 *)
Definition epsilon (p : prim) : R := match p with F32 => / 2 ^ 23 | F64 => / 2 ^ 52 end.
(** NumTraits<T>::dummy_precision(), common.hpp:180-192 (the decimal literal,
    not its rounding to T) *)
Definition dummy_precision (p : prim) : R :=
  match p with F32 => / 10 ^ 5 | F64 => / 10 ^ 12 end.

(** std::floor on reals *)
Definition rfloor (x : R) : R := IZR (Int_part x).

(** kindr::floatingPointModulo, common.hpp:45-85; the local [double m] is
    a real, so the boundary corrections are kept although exact arithmetic
    never takes them. *)
Definition floatingPointModulo (x y : R) : R :=
  if Req_EM_T y 0 then x else
  let m := x - y * rfloor (x / y) in
  if Rlt_dec 0 y then
    if Rle_dec y m then 0 else
    if Rlt_dec m 0 then (if Req_EM_T (y + m) y then 0 else y + m)
    else m
  else
    if Rle_dec m y then 0 else
    if Rlt_dec 0 m then (if Req_EM_T (y + m) y then 0 else y + m)
    else m.

(** kindr::wrapAngle, common.hpp:88-92 *)
Definition wrapAngle (angle x1 x2 : R) : R :=
  floatingPointModulo (angle - x1) (x2 - x1) + x1.
(** kindr::wrapPosNegPI, common.hpp:95-99 *)
Definition wrapPosNegPI (angle : R) : R :=
  floatingPointModulo (angle + PI) (2 * PI) - PI.
(** kindr::wrapTwoPI, common.hpp:102-106 *)
Definition wrapTwoPI (angle : R) : R := floatingPointModulo angle (2 * PI).

(** C++ comparisons of scalars as booleans *)
Definition Rltb (a b : R) : bool := if Rlt_dec a b then true else false.
Definition Rleb (a b : R) : bool := if Rle_dec a b then true else false.
Definition Reqb (a b : R) : bool := if Req_EM_T a b then true else false.

(** kindr::compareRelative, assert_macros_eigen.hpp:47-67.  The percentError
    output argument is not modelled. The quotient is only formed when the
    maximum is non-zero: if both magnitudes are zero the first test has
    already returned true. *)
Definition compareRelative (a b percent : R) : bool :=
  let fa := Rabs a in let fb := Rabs b in
  if ((Rltb fa (/ 10 ^ 15) && Rltb fb (/ 10 ^ 15))
      || (Reqb fa 0 && Rltb fb (/ 10 ^ 6))
      || (Reqb fb 0 && Rltb fa (/ 10 ^ 6)))%bool
  then true
  else
    let diff := Rabs (a - b) / Rmax fa fb in
    if Rltb (percent * / 10 ^ 2) diff then false else true.

(** kindr::compareRelativePeriodic, assert_macros_eigen.hpp:69-89 *)
Definition compareRelativePeriodic (a b period percent : R) : outcome bool :=
  let fa := floatingPointModulo a period in
  let fb := floatingPointModulo b period in
  let tol := / 10 ^ 15 in
  if (((Rltb (period - tol) fa || Rltb fa tol) && (Rltb (period - tol) fb || Rltb fb tol))
      || (Reqb fa 0 && Rltb fb (/ 10 ^ 6))
      || (Reqb fb 0 && Rltb fa (/ 10 ^ 6)))%bool
  then Val true
  else
    diff <- cdiv (Rmin (floatingPointModulo (a - b) period)
                       (floatingPointModulo (b - a) period)) period ;;
    Val (if Rltb (percent * / 10 ^ 2) diff then false else true).
