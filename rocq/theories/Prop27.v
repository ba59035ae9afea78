(** Generated by tools/genprops.py from Claims27.v: the property theorems only. *)
From Coq Require Import ZArith Reals Lra Psatz Bool List Lia Permutation.
From Flocq Require Import IEEE754.BinarySingleNaN Core.Core Sterbenz.
From Verif Require Import Linalg Spec SpecFacts ModelCommon FloatModel FloatFacts FloatModulo FloatWrap FloatModel2 SpecFloatQ FloatQFacts FloatQProd FloatCast FloatModel10 SpecVecF FloatVec.
Import ListNotations.
Local Open Scope R_scope.
From Verif Require Import Claims27.

(** C79: sums, elementwise products and dot products do not depend on the order of the
    operands, bit for bit, for all floats (infinities, NaN and signed zeros included)
    and for any order of the additions and fusing of the products *)
Theorem C79_commutative : forall (p : prim) (a b : fvec p) (t : dtree), length a = length b ->
  fv_add a b = fv_add b a /\ fv_cwiseProduct a b = fv_cwiseProduct b a /\ fv_dot t a b = fv_dot t b a.
Proof. exact C79_commutative_lemma. Qed.
Print Assumptions C79_commutative.

Example C79_commutative_ex : exists x : fl F32, fv_add fv345 [x; B754_nan; B754_infinity true] = fv_add [x; B754_nan; B754_infinity true] fv345.
Proof. exact Claims27.C79_commutative_ex. Qed.

(** C79: every coefficient of a sum or difference is the exact one up to half a unit in
    the last place (no underflow); of an elementwise product or quotient, up to
    underflow too. *)
Theorem C79_coefficients : forall (p : prim) (a b : fvec p) (i : nat) (x y : fl p), all_finite a -> all_finite b -> length a = length b ->
  nth_error a i = Some x -> nth_error b i = Some y ->
  (Rabs (B2R x + B2R y) <= half_range p ->
     exists z, nth_error (fv_add a b) i = Some z /\ is_finite z = true /\ Rabs (B2R z - (B2R x + B2R y)) <= roundoff p * Rabs (B2R x + B2R y)) /\
  (Rabs (B2R x - B2R y) <= half_range p ->
     exists z, nth_error (fv_sub a b) i = Some z /\ is_finite z = true /\ Rabs (B2R z - (B2R x - B2R y)) <= roundoff p * Rabs (B2R x - B2R y)) /\
  (Rabs (B2R x * B2R y) <= half_range p ->
     exists z, nth_error (fv_cwiseProduct a b) i = Some z /\ is_finite z = true /\ Rabs (B2R z - B2R x * B2R y) <= roundoff p * Rabs (B2R x * B2R y) + underflow p) /\
  (B2R y <> 0 -> Rabs (B2R x / B2R y) <= half_range p ->
     exists z, nth_error (fv_cwiseQuotient a b) i = Some z /\ is_finite z = true /\ Rabs (B2R z - B2R x / B2R y) <= roundoff p * Rabs (B2R x / B2R y) + underflow p).
Proof. exact C79_coefficients_lemma. Qed.
Print Assumptions C79_coefficients.

Example C79_coefficients_ex : nth_error (values (fv_add fv345 fv345)) 1 = Some (-8) /\ all_finite fv345.
Proof. exact Claims27.C79_coefficients_ex. Qed.

(** C79: the difference of coefficients that differ by at most a factor two is exact *)
Theorem C79_exact_difference : forall (p : prim) (a b : fvec p) (i : nat) (x y : fl p), all_finite a -> all_finite b -> length a = length b ->
  nth_error a i = Some x -> nth_error b i = Some y -> B2R y / 2 <= B2R x <= 2 * B2R y ->
  exists z, nth_error (fv_sub a b) i = Some z /\ is_finite z = true /\ B2R z = B2R x - B2R y.
Proof. exact C79_exact_difference_lemma. Qed.
Print Assumptions C79_exact_difference.

Example C79_exact_difference_ex : B2R (fofZ F32 2) / 2 <= B2R (fofZ F32 1) <= 2 * B2R (fofZ F32 2).
Proof. exact Claims27.C79_exact_difference_ex. Qed.

(** C79: product with a scalar of either type: the scalar is rounded to the type of the
    vector first *)
Theorem C79_scale : forall (p q : prim) (a : fvec p) (s : fl q) (i : nat) (x : fl p), all_finite a -> is_finite s = true -> nth_error a i = Some x ->
  Rabs (B2R s) <= half_range p / 2 -> Rabs (B2R x) * (Rabs (B2R s) + 1) <= half_range p / 2 ->
  exists z, nth_error (fv_mul_other a s) i = Some z /\ is_finite z = true /\
    Rabs (B2R z - B2R x * B2R s) <= (21/10) * roundoff p * Rabs (B2R x * B2R s) + (1 + 2 * Rabs (B2R x)) * underflow p.
Proof. exact C79_scale_lemma. Qed.
Print Assumptions C79_scale.

Example C79_scale_ex : exists s : fl F64, is_finite s = true /\ Rabs (B2R s) <= half_range F32 / 2 /\ Rabs (B2R (fofZ F32 2)) * (Rabs (B2R s) + 1) <= half_range F32 / 2.
Proof. exact Claims27.C79_scale_ex. Qed.

(** C79: quotient by a scalar, also where Eigen multiplies with the reciprocal *)
Theorem C79_divide : forall (p : prim) (m : divmode) (a : fvec p) (s : fl p) (i : nat) (x : fl p), all_finite a -> is_finite s = true -> nth_error a i = Some x ->
  bpow radix2 (-100) <= Rabs (B2R s) <= bpow radix2 100 -> Rabs (B2R x / B2R s) <= half_range p / 2 ->
  exists z, nth_error (fv_div m a s) i = Some z /\ is_finite z = true /\
    Rabs (B2R z - B2R x / B2R s) <= (21/10) * roundoff p * Rabs (B2R x / B2R s) + underflow p.
Proof. exact C79_divide_lemma. Qed.
Print Assumptions C79_divide.

Example C79_divide_ex : bpow radix2 (-100) <= Rabs (B2R (fofZ F32 2)) <= bpow radix2 100 /\ fv_eq (fv_div Reciprocal fv345 (fofZ F32 3)) (fv_div Quotient fv345 (fofZ F32 3)) = false.
Proof. exact Claims27.C79_divide_ex. Qed.

(** C79: the product of two vectors is defined if one of them has dimension 1, does not
    depend on the order of the factors (bit for bit), and has the coefficients of the
    longer one times the coefficient of the other *)
Theorem C79_vector_product : forall (p : prim) (a b : fvec p),
  (fv_mul_vec a b <> None <-> length a = 1%nat \/ length b = 1%nat) /\ fv_mul_vec a b = fv_mul_vec b a /\
  (forall (s : fl p) c, fv_mul_vec a [s] = Some c -> length c = length a /\
     forall i x, nth_error a i = Some x -> is_finite x = true -> is_finite s = true -> Rabs (B2R x * B2R s) <= half_range p ->
     exists z, nth_error c i = Some z /\ is_finite z = true /\ Rabs (B2R z - B2R x * B2R s) <= roundoff p * Rabs (B2R x * B2R s) + underflow p).
Proof. exact C79_vector_product_lemma. Qed.
Print Assumptions C79_vector_product.

Example C79_vector_product_ex : exists c, fv_mul_vec [fofZ F32 2] fv345 = Some c /\ fv_eq c [fofZ F32 6; fofZ F32 (-8); fofZ F32 10] = true.
Proof. exact Claims27.C79_vector_product_ex. Qed.

(** C79: a second factor of dimension 1 and of the other scalar type is converted first *)
Theorem C79_vector_product_mixed : forall (p q : prim) (a : fvec p) (b : fvec q),
  (fv_mul_vec_other a b <> None <-> length b = 1%nat) /\
  forall s : fl q, fv_mul_vec_other a [s] = fv_mul_vec a (fv_cast p [s]).
Proof. exact C79_vector_product_mixed_lemma. Qed.
Print Assumptions C79_vector_product_mixed.

(** C79: negation and abs() are exact *)
Theorem C79_sign : forall (p : prim) (a : fvec p), values (fv_neg a) = map Ropp (values a) /\ values (fv_abs a) = map Rabs (values a) /\
  (all_finite a -> all_finite (fv_neg a) /\ all_finite (fv_abs a)).
Proof. exact C79_sign_lemma. Qed.
Print Assumptions C79_sign.

Example C79_sign_ex : fv_eq (fv_abs fv345) [fofZ F32 3; fofZ F32 4; fofZ F32 5] = true.
Proof. exact Claims27.C79_sign_ex. Qed.

(** C79: operator== holds exactly if the coefficients are the same real numbers (finite
    coefficients); a vector equals itself exactly if no coefficient is NaN *)
Theorem C79_equal : forall (p : prim) (a b : fvec p), length a = length b -> all_finite a -> all_finite b ->
  (fv_eq a b = true <-> values a = values b).
Proof. exact C79_equal_lemma. Qed.
Print Assumptions C79_equal.

Theorem C79_equal_self : forall (p : prim) (a : fvec p), fv_eq a a = true <-> Forall (fun x => is_nan x = false) a.
Proof. exact C79_equal_self_lemma. Qed.
Print Assumptions C79_equal_self.

Example C79_equal_ex : fv_eq fv345 fv345 = true /\ fv_eq [B754_nan : fl F32] [B754_nan] = false /\ fv_eq [B754_zero true : fl F32] [B754_zero false] = true.
Proof. exact Claims27.C79_equal_ex. Qed.

(** C79: v - v is the zero vector, v + 0 and v * 1 are v, and -(-v) is v *)
Theorem C79_neutral : forall (p : prim) (a : fvec p), all_finite a ->
  fv_eq (fv_sub a a) (fv_zero p (length a)) = true /\ fv_eq (fv_add a (fv_zero p (length a))) a = true /\
  fv_eq (fv_mul_int a 1) a = true /\ fv_neg (fv_neg a) = a.
Proof. exact C79_neutral_lemma. Qed.
Print Assumptions C79_neutral.

Example C79_neutral_ex : all_finite fv345.
Proof. exact Claims27.C79_neutral_ex. Qed.

(** C79: isSimilarTo(other, tol) returns true only if every two coefficients differ by
    less than tol, exactly (also when the difference overflows) *)
Theorem C79_similar_true : forall (p : prim) (t : sumtree) (a b : fvec p) (tol : fl p),
  length a = length b -> sum_order (length a) t -> all_finite a -> all_finite b -> is_finite tol = true ->
  fv_similar t a b tol = true ->
  forall i x y, nth_error a i = Some x -> nth_error b i = Some y -> Rabs (B2R x - B2R y) < B2R tol.
Proof. exact C79_similar_true_lemma. Qed.
Print Assumptions C79_similar_true.

(** C79: and returns true if every two coefficients differ by less than tol, up to one
    rounding of tol *)
Theorem C79_similar_near : forall (p : prim) (t : sumtree) (a b : fvec p) (tol : fl p),
  length a = length b -> sum_order (length a) t -> all_finite a -> all_finite b -> is_finite tol = true ->
  (forall i x y, nth_error a i = Some x -> nth_error b i = Some y -> Rabs (B2R x - B2R y) < (1 - roundoff p) * B2R tol) ->
  fv_similar t a b tol = true.
Proof. exact C79_similar_near_lemma. Qed.
Print Assumptions C79_similar_near.

(** C79: it is symmetric, independent of the order in which Eigen takes the maximum, and
    holds for a vector and itself if tol is positive *)
Theorem C79_similar_order : forall (p : prim) (t t' : sumtree) (a b : fvec p) (tol : fl p),
  length a = length b -> sum_order (length a) t -> sum_order (length a) t' -> all_finite a -> all_finite b -> is_finite tol = true ->
  fv_similar t a b tol = fv_similar t' b a tol /\ (0 < B2R tol -> fv_similar t a a tol = true).
Proof. exact C79_similar_order_lemma. Qed.
Print Assumptions C79_similar_order.

Example C79_similar_ex : fv_similar max3 fv345 [fofZ F32 3; fofZ F32 (-4); fofZ F32 6] (flit F32 11 10) = true /\
  fv_similar max3 fv345 [fofZ F32 3; fofZ F32 (-4); fofZ F32 6] (fofZ F32 1) = false /\ sum_order (length fv345) max3.
Proof. exact Claims27.C79_similar_ex. Qed.

(** but a NaN coefficient can go unnoticed *)
Theorem C79_similar_nan : exists a b : fvec F32, length a = length b /\ all_finite b /\ In B754_nan a /\
  fv_similar max3 a b (flit F32 1 1000) = true.
Proof. exact C79_similar_nan_lemma. Qed.
Print Assumptions C79_similar_nan.

(** C79: max() and min() are the largest and the smallest coefficient, exactly *)
Theorem C79_max_min : forall (p : prim) (t : sumtree) (a : fvec p), all_finite a -> sum_order (length a) t ->
  In (fv_max t a) a /\ In (fv_min t a) a /\
  (forall x, In x a -> B2R (fv_min t a) <= B2R x <= B2R (fv_max t a)).
Proof. exact C79_max_min_lemma. Qed.
Print Assumptions C79_max_min.

Example C79_max_min_ex : feq (fv_max max3 fv345) (fofZ F32 5) = true /\ feq (fv_min max3 fv345) (fofZ F32 (-4)) = true.
Proof. exact Claims27.C79_max_min_ex. Qed.

(** C79: a float vector converted to double is the same vector, and comes back bit for
    bit; a double vector converted to float is rounded *)
Theorem C79_cast : forall (a : fvec F32) (b : fvec F64),
  values (fv_cast F64 a) = values a /\ fv_cast F32 (fv_cast F64 a) = a /\
  (all_finite b -> (forall x, In x (values b) -> Rabs x <= half_range F32) ->
   all_finite (fv_cast F32 b) /\
   forall i x y, nth_error (values b) i = Some x -> nth_error (values (fv_cast F32 b)) i = Some y -> Rabs (y - x) <= roundoff F32 * Rabs x + underflow F32).
Proof. exact C79_cast_lemma. Qed.
Print Assumptions C79_cast.

Example C79_cast_ex : all_finite [flit F64 1 10; flit F64 (-7) 3] /\ fv_eq (fv_cast F64 (fv_cast F32 [flit F64 1 10; flit F64 (-7) 3])) [flit F64 1 10; flit F64 (-7) 3] = false.
Proof. exact Claims27.C79_cast_ex. Qed.
