(** Generated by tools/genprops.py from Claims9.v: the property theorems only. *)
From Coq Require Import ZArith Reals Lra Psatz Bool Lia List.
From Flocq Require Import IEEE754.BinarySingleNaN Core.Core.
From Verif Require Import ModelCommon FloatModel FloatFacts FloatModulo FloatWrap.
Import ListNotations.
Local Open Scope R_scope.
From Verif Require Import Claims9.

(** C49: compareRelative returns true as soon as one compared value is NaN or
    infinite, or the tolerance is NaN. *)
Theorem C49_not_finite : forall (p : prim) (a b tol : fl p),
  is_finite a = false \/ is_finite b = false \/ is_nan tol = true -> fcompareRelative a b tol = true.
Proof. exact C49_not_finite_lemma. Qed.
Print Assumptions C49_not_finite.

(** C49: hence in debug mode the unit-length assertions accept every
    coefficient vector with a NaN or an infinite coefficient, in whatever order
    Eigen adds the squares, and for every tolerance. *)
Theorem C49_unit_assert : forall (p : prim) (order : sumtree) (c : nat -> fl p) (i : nat) (num den : Z),
  In i (leaves order) -> is_finite (c i) = false -> funit_assert order c num den = true.
Proof. exact C49_unit_assert_lemma. Qed.
Print Assumptions C49_unit_assert.

Example C49_unit_assert_ex :
  funit_assert quat_order (fun i => match i with 0%nat => B754_nan | _ => fofZ F64 0 end) 1 100 = true /\
  funit_assert quat_order (fun i => match i with 0%nat => fofZ F64 (10 ^ 200) | _ => fofZ F64 0 end) 1 100 = true /\
  funit_assert quat_order (fun i => match i with 0%nat => fofZ F64 2 | _ => fofZ F64 0 end) 1 100 = false /\
  funit_assert quat_order (fun i => match i with 0%nat => fofZ F32 2 | _ => fofZ F32 0 end) 1 100 = false /\
  funit_assert quat_order (fun i => match i with 0%nat => fofZ F32 1 | _ => fofZ F32 0 end) 1 100 = true.
Proof. exact Claims9.C49_unit_assert_ex. Qed.

(** C49: for finite values far from overflow the comparison means what it says,
    up to rounding (u = 2^-24 or 2^-53): accepted values are both tiny, or agree
    relatively within the threshold; rejected values differ by more. *)
Theorem C49_finite : forall (p : prim) (a b tol : fl p),
  is_finite a = true -> is_finite b = true ->
  is_finite (fmul tol (flit p 1 100)) = true ->
  Rabs (B2R a) <= bpow radix2 (femax p - 2) -> Rabs (B2R b) <= bpow radix2 (femax p - 2) ->
  let thr := B2R (fmul tol (flit p 1 100)) in
  let M := Rmax (Rabs (B2R a)) (Rabs (B2R b)) in
  let u := bpow radix2 (- fprec p) in
  (fcompareRelative a b tol = true ->
     (Rabs (B2R a) < B2R (flit p 1 (10 ^ 15)) /\ Rabs (B2R b) < B2R (flit p 1 (10 ^ 15))) \/
     (B2R a = 0 /\ Rabs (B2R b) < B2R (flit p 1 (10 ^ 6))) \/
     (B2R b = 0 /\ Rabs (B2R a) < B2R (flit p 1 (10 ^ 6))) \/
     Rabs (B2R a - B2R b) <= (1 + 3 * u) * (Rabs thr + u * u) * M) /\
  (fcompareRelative a b tol = false ->
     0 < M /\ (1 - 3 * u) * (thr - u * u) * M <= Rabs (B2R a - B2R b)).
Proof. exact C49_finite_lemma. Qed.
Print Assumptions C49_finite.

Example C49_finite_ex : fcompareRelative (fofZ F64 1000001) (fofZ F64 1000000) (flit F64 1 100) = true /\
  fcompareRelative (fofZ F64 1000) (fofZ F64 1001) (flit F64 1 100) = false.
Proof. exact Claims9.C49_finite_ex. Qed.
