(** * SpecLibm: what is assumed of the C math library. *)
From Coq Require Import Reals ZArith List.
From Flocq Require Import IEEE754.BinarySingleNaN Core.Core.
From Verif Require Import Linalg Spec ModelCommon ModelEigen FloatModel FloatModel2 FloatModel3 SpecFloatQ.
Local Open Scope R_scope.

(** [r] is the real [x], up to [d]. *)
Definition approximates {p} (d : R) (r : fl p) (x : R) : Prop := is_finite r = true /\ Rabs (B2R r - x) <= d.
(** half the smallest positive number *)
Definition half_smallest (p : prim) : R := match p with F32 => bpow radix2 (-150) | F64 => bpow radix2 (-1075) end.
(** sin and cos of any finite number are off by at most two unit roundoffs (one
    unit in the last place of numbers near 1), atan2 by at most four (one unit in
    the last place of numbers near pi; atan2(0,0) is some number of size at
    most 4); the constant is the fourth root of the
    machine epsilon (two roundoffs); the stable norm is off by at most eight
    relative roundoffs, or by half the smallest number. *)
Record libm_ok (L : libm) : Prop := mkLibmOk {
  sin_accurate : forall p (x : fl p), is_finite x = true -> approximates (2 * roundoff p) (lsin L p x) (sin (B2R x));
  cos_accurate : forall p (x : fl p), is_finite x = true -> approximates (2 * roundoff p) (lcos L p x) (cos (B2R x));
  atan2_accurate : forall p (y x : fl p), is_finite y = true -> is_finite x = true -> B2R y <> 0 \/ B2R x <> 0 ->
    approximates (4 * roundoff p) (latan2 L p y x) (atan2 (B2R y) (B2R x));
  atan2_zero : forall p (y x : fl p), is_finite y = true -> is_finite x = true -> B2R y = 0 -> B2R x = 0 -> approximates 4 (latan2 L p y x) 0;
  eps4_accurate : forall p, is_finite (leps4 L p) = true /\ 0 < B2R (leps4 L p) /\
    Rabs (B2R (leps4 L p) ^ 4 - 2 * roundoff p) <= roundoff p / 500;
  stable_accurate : forall p (x y z : fl p), is_finite x = true -> is_finite y = true -> is_finite z = true ->
    vnorm (mkV3 (B2R x) (B2R y) (B2R z)) <= 2 ->
    approximates (8 * roundoff p * vnorm (mkV3 (B2R x) (B2R y) (B2R z)) + half_smallest p) (lstable L p x y z) (vnorm (mkV3 (B2R x) (B2R y) (B2R z)))
}.
