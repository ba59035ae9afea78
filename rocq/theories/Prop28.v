(** Generated by tools/genprops.py from Claims28.v: the property theorems only. *)
From Coq Require Import ZArith Reals Lra Psatz Bool List Lia Permutation.
From Flocq Require Import IEEE754.BinarySingleNaN Core.Core.
From Verif Require Import Linalg Spec SpecFacts ModelCommon FloatModel FloatFacts FloatModulo FloatWrap FloatModel2 SpecFloatQ FloatQFacts FloatQProd FloatQRot FloatModel10 SpecVecF FloatVec FloatVec2 FloatVec3 FloatVec4 Claims27.
Import ListNotations.
Local Open Scope R_scope.
From Verif Require Import Claims28.

(** C80: the dot product, in any order of the additions and with any products fused,
    is the exact one up to about n roundings of the sum of the magnitudes of the
    products; in any dimension n with n roundings at most one percent (167772 for
    float). *)
Theorem C80_dot : forall (p : prim) (t : dtree) (a b : fvec p), order (length a) t -> length a = length b -> all_finite a -> all_finite b ->
  dimension a * roundoff p <= / 100 -> inner_abs (values a) (values b) <= half_range p / 2 ->
  is_finite (fv_dot t a b) = true /\
  Rabs (B2R (fv_dot t a b) - inner (values a) (values b)) <= 101/100 * dimension a * roundoff p * inner_abs (values a) (values b) + dimension a * underflow p.
Proof. exact C80_dot_lemma. Qed.
Print Assumptions C80_dot.

Example C80_dot_ex : order (length fv345) dot3 /\ all_finite fv345 /\ dimension fv345 * roundoff F32 <= / 100 /\ inner_abs (values fv345) (values fv345) <= half_range F32 / 2.
Proof. exact Claims28.C80_dot_ex. Qed.

(** C80: norm() is the Euclidean length up to n/2 + 1 roundings, for lengths between
    2^-50 and 2^50 *)
Theorem C80_norm : forall (p : prim) (t : dtree) (a : fvec p), order (length a) t -> all_finite a -> dimension a * roundoff p <= / 100 ->
  bpow radix2 (-50) <= len (values a) <= bpow radix2 50 ->
  is_finite (fv_norm t a) = true /\ Rabs (B2R (fv_norm t a) - len (values a)) <= (52/100 * dimension a + 102/100) * roundoff p * len (values a) /\
  is_finite (fv_squaredNorm t a) = true /\ Rabs (B2R (fv_squaredNorm t a) - len (values a) * len (values a)) <= 102/100 * dimension a * roundoff p * (len (values a) * len (values a)).
Proof. exact C80_norm_lemma. Qed.
Print Assumptions C80_norm.

Example C80_norm_ex : bpow radix2 (-50) <= len (values fv345) <= bpow radix2 50.
Proof. exact Claims28.C80_norm_ex. Qed.

(** C80: the norm of a vector without NaN coefficients is never NaN and never negative,
    for all magnitudes (overflow to infinity included) and all orders of the additions *)
Theorem C80_norm_sign : forall (p : prim) (t : dtree) (a : fvec p), order (length a) t -> Forall (fun x => is_nan x = false) a ->
  is_nan (fv_norm t a) = false /\ fle fzero (fv_norm t a) = true.
Proof. exact C80_norm_sign_lemma. Qed.
Print Assumptions C80_norm_sign.

Example C80_norm_sign_ex : feq (fv_norm dot3 [fzero; B754_infinity true; fofZ F32 3]) (B754_infinity false) = true.
Proof. exact Claims28.C80_norm_sign_ex. Qed.

(** C80: normalized() is the unit vector in the direction of the vector up to
    n/2 + 3 roundings, and its length is one to the same accuracy *)
Theorem C80_normalized : forall (p : prim) (t : dtree) (m : divmode) (a : fvec p), order (length a) t -> all_finite a -> dimension a * roundoff p <= / 100 ->
  bpow radix2 (-50) <= len (values a) <= bpow radix2 50 ->
  all_finite (fv_normalized t m a) /\ length (fv_normalized t m a) = length a /\
  far (values (fv_normalized t m a)) (times (/ len (values a)) (values a)) <= (54/100 * dimension a + 32/10) * roundoff p /\
  Rabs (len (values (fv_normalized t m a)) - 1) <= (54/100 * dimension a + 32/10) * roundoff p.
Proof. exact C80_normalized_lemma. Qed.
Print Assumptions C80_normalized.

Theorem C80_normalized_range : exists x y : fl F32, is_finite x = true /\ is_finite y = true /\ flt fzero x = true /\ flt fzero y = true /\
  fv_eq (fv_normalized dot3 Quotient [x; fzero; fzero]) [fzero; fzero; fzero] = true /\ fv_eq (fv_normalized dot3 Quotient [y; fzero; fzero]) [y; fzero; fzero] = true /\ flt y (flit F32 1 (10 ^ 29)) = true.
Proof. exact C80_normalized_range_lemma. Qed.
Print Assumptions C80_normalized_range.

(** C80: projectOn(b) is the orthogonal projection b (a.b)/(b.b), up to 2n + 2
    roundings of the length of a *)
Theorem C80_project : forall (p : prim) (t t' : dtree) (a b : fvec p), order (length a) t -> order (length b) t' -> length a = length b -> all_finite a -> all_finite b ->
  dimension a * roundoff p <= / 100 -> bpow radix2 (-40) <= len (values a) <= bpow radix2 40 -> bpow radix2 (-40) <= len (values b) <= bpow radix2 40 ->
  all_finite (fv_projectOn t t' a b) /\
  far (values (fv_projectOn t t' a b)) (times (inner (values a) (values b) / inner (values b) (values b)) (values b)) <= (22/10 * dimension a + 22/10) * roundoff p * len (values a).
Proof. exact C80_project_lemma. Qed.
Print Assumptions C80_project.

Example C80_project_ex : bpow radix2 (-40) <= len (values fv345) <= bpow radix2 40.
Proof. exact Claims28.C80_project_ex. Qed.

(** the projection of (1,0,0) on the float vector (10^-30,0,0) is not finite *)
Theorem C80_project_range : exists b : fvec F32, all_finite b /\ (exists x, nth_error b 0 = Some x /\ flt fzero x = true) /\
  map is_finite (fv_projectOn dot3 dot3 [fofZ F32 1; fzero; fzero] b) = [false; false; false].
Proof. exact C80_project_range_lemma. Qed.
Print Assumptions C80_project_range.

(** C80: cross() is the exact cross product up to three roundings of the product of the
    lengths *)
Theorem C80_cross : forall (p : prim) (o : orders3) (a b : FV p), orders3_ok 2 2 2 o -> vfinite a -> vfinite b -> vnorm (vval a) * vnorm (vval b) <= bpow radix2 120 ->
  vfinite (fv_cross o a b) /\ vdist (vval (fv_cross o a b)) (vcross (vval a) (vval b)) <= 3 * roundoff p * (vnorm (vval a) * vnorm (vval b)) + underflow p.
Proof. exact C80_cross_lemma. Qed.
Print Assumptions C80_cross.

Example C80_cross_ex : orders3_ok 2 2 2 unfused /\ orders3_ok 2 2 2 fused /\ vfinite (mkFV (fofZ F32 1) (fofZ F32 2) fzero) /\ vnorm (vval (mkFV (fofZ F32 1) (fofZ F32 2) fzero)) * vnorm (vval (mkFV (fofZ F32 1) (fofZ F32 2) fzero)) <= bpow radix2 120.
Proof. exact Claims28.C80_cross_ex. Qed.

(** C80: without fused operations the cross product is antisymmetric, and the one of a
    vector with itself is zero, exactly *)
Theorem C80_cross_antisymmetric : forall (p : prim) (a b : FV p), vfinite a -> vfinite b -> vnorm (vval a) * vnorm (vval b) <= bpow radix2 120 ->
  vval (fv_cross unfused b a) = vneg (vval (fv_cross unfused a b)).
Proof. exact C80_cross_antisymmetric_lemma. Qed.
Print Assumptions C80_cross_antisymmetric.

Theorem C80_cross_self : forall (p : prim) (a : FV p), vfinite a -> vnorm (vval a) * vnorm (vval a) <= bpow radix2 120 ->
  vval (fv_cross unfused a a) = mkV3 0 0 0.
Proof. exact C80_cross_self_lemma. Qed.
Print Assumptions C80_cross_self.

(** with fused operations it is not zero *)
Theorem C80_cross_self_fused : exists a : FV F32, vfinite a /\ vval (fv_cross fused a a) <> mkV3 0 0 0.
Proof. exact C80_cross_self_fused_lemma. Qed.
Print Assumptions C80_cross_self_fused.

(** C80: sum() and mean(), in any order of the additions *)
Theorem C80_sum : forall (p : prim) (t : sumtree) (a : fvec p), sum_order (length a) t -> all_finite a -> dimension a * roundoff p <= / 100 -> total_abs (values a) <= half_range p / 2 ->
  is_finite (fv_sum t a) = true /\ Rabs (B2R (fv_sum t a) - total (values a)) <= 101/100 * (dimension a - 1) * roundoff p * total_abs (values a).
Proof. exact C80_sum_lemma. Qed.
Print Assumptions C80_sum.

Theorem C80_mean : forall (p : prim) (t : sumtree) (a : fvec p), sum_order (length a) t -> all_finite a -> dimension a * roundoff F32 <= / 100 -> total_abs (values a) <= half_range p / 2 ->
  is_finite (fv_mean t a) = true /\ Rabs (B2R (fv_mean t a) - total (values a) / dimension a) <= 102/100 * dimension a * roundoff p * (total_abs (values a) / dimension a) + underflow p.
Proof. exact C80_mean_lemma. Qed.
Print Assumptions C80_mean.

Example C80_sum_ex : sum_order (length fv345) max3 /\ total_abs (values fv345) <= half_range F32 / 2 /\ feq (fv_sum max3 fv345) (fofZ F32 4) = true /\ feq (fv_mean max3 fv345) (flit F32 4 3) = true.
Proof. exact Claims28.C80_sum_ex. Qed.

(** the sum depends on the order of the additions *)
Theorem C80_sum_order : exists (a : fvec F32) (t t' : sumtree), sum_order (length a) t /\ sum_order (length a) t' /\ all_finite a /\ feq (fv_sum t a) (fv_sum t' a) = false.
Proof. exact C80_sum_order_lemma. Qed.
Print Assumptions C80_sum_order.
