(** * SpecUnique: error bounds of getUnique() of the Euler angle classes in
    floating-point arithmetic. *)
From Coq Require Import Reals ZArith.
From Flocq Require Import IEEE754.BinarySingleNaN Core.Core.
From Verif Require Import Linalg Spec ModelCommon FloatModel SpecFloatQ.
Local Open Scope R_scope.

(** Error of one angle wrapped into [-pi,pi]: the wrap is computed in double, the
    result is rounded to the type of the object. *)
Definition wrap_error (p : prim) (a : R) : R := 8 * roundoff F64 * (Rabs a + 8) + 4 * roundoff p.
(** ... for the three angles, with the additions of pi *)
Definition euler_error (p : prim) (a b c : R) : R := wrap_error p a + wrap_error p b + wrap_error p c + 24 * roundoff p.
(** the middle angle [b] is at distance [d] from s pi/2 + 2 pi k *)
Definition pitch_off (b s : R) (k : Z) : R := Rabs (b - (s * (PI / 2) + 2 * PI * IZR k)).
