(** * SpecVecF: specification vocabulary for floating-point vectors of any dimension:
    real vectors as lists, and the real values of a list of floats. *)
From Coq Require Import Reals List.
From Flocq Require Import IEEE754.BinarySingleNaN Core.Core.
From Verif Require Import ModelCommon FloatModel.
Import ListNotations.
Local Open Scope R_scope.

(** the real numbers stored in the coefficients; none is infinite or NaN *)
Definition values {p} (a : list (fl p)) : list R := map B2R a.
Definition all_finite {p} (a : list (fl p)) : Prop := Forall (fun x => is_finite x = true) a.

(** sum of the products, and of their magnitudes *)
Fixpoint inner (a b : list R) : R :=
  match a, b with x :: a', y :: b' => x * y + inner a' b' | _, _ => 0 end.
Fixpoint inner_abs (a b : list R) : R :=
  match a, b with x :: a', y :: b' => Rabs (x * y) + inner_abs a' b' | _, _ => 0 end.
(** Euclidean length and distance *)
Definition len (a : list R) : R := sqrt (inner a a).
Fixpoint minus (a b : list R) : list R :=
  match a, b with x :: a', y :: b' => (x - y) :: minus a' b' | _, _ => [] end.
Definition far (a b : list R) : R := len (minus a b).
Definition times (s : R) (a : list R) : list R := map (fun x => s * x) a.
(** sum of the numbers, and of their magnitudes *)
Definition total (a : list R) : R := fold_right Rplus 0 a.
Definition total_abs (a : list R) : R := fold_right (fun x s => Rabs x + s) 0 a.
(** the dimension, as a real number *)
Definition dimension {A} (a : list A) : R := INR (length a).
(** half of the range of the type: 2^127 for float, 2^1023 for double *)
Definition half_range (p : prim) : R := bpow radix2 (match p with F32 => 127 | F64 => 1023 end).
