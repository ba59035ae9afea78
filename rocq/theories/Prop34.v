(** Generated by tools/genprops.py from Claims34.v: the property theorems only. *)
From Coq Require Import ZArith Reals Lra Psatz Bool List Lia Permutation.
From Flocq Require Import IEEE754.BinarySingleNaN Core.Core.
From Verif Require Import Linalg Spec SpecFacts SpecClose SpecDiff ModelDiff DerivFacts DiffFacts DiffFacts2 ModelCommon ModelEigen CommonFacts CloseFacts ModelRotation
  FloatModel FloatFacts FloatWrap FloatModel2 SpecFloatQ FloatQFacts FloatQProd FloatQHist FloatQRot FloatMHist FloatCast FloatModel3 SpecLibm SpecBuild FloatBuild FloatBuild4 FloatModel4 FloatModel5 FloatModel6 FloatModel7 SpecSix FloatSix FloatExt3 FloatModel16 FloatInv FloatInv2 Claims4 Claims16 Claims18 Claims19 Claims22 Claims30 ConvFacts.
Import ListNotations.
Local Open Scope R_scope.
From Verif Require Import Claims34.

(** C87: inverted() of a general quaternion in floating-point arithmetic, for every
    order of evaluation and either way of dividing: if the length lies between 2^-50
    and 2^50, the result is finite and within 6.2 roundings, relative to its length, of
    the exact inverse (the conjugate divided by the square of the length), and the
    product of the quaternion and its inverse, on either side, is within 16 roundings of
    the identity. *)
Theorem C87_inverse : forall (p : prim) (t : dtree) (m : divmode) (o : orders4) (q : FQ p),
  order 4 t -> orders4_ok o -> qfinite q -> bpow radix2 (-50) <= qnorm (qval q) <= bpow radix2 50 ->
  let n := qnorm (qval q) in
  let inv := finverted t m q in
  qfinite inv /\ qdist (qval inv) (qscale (/ (n * n)) (conj (qval q))) <= 62/10 * roundoff p / n /\
  qfinite (fmult o q inv) /\ qdist (qval (fmult o q inv)) (mkQ 1 0 0 0) <= 16 * roundoff p /\
  qfinite (fmult o inv q) /\ qdist (qval (fmult o inv q)) (mkQ 1 0 0 0) <= 16 * roundoff p.
Proof. exact C87_inverse_lemma. Qed.
Print Assumptions C87_inverse.

Example C87_inverse_ex : order 4 leftright4 /\ order 4 fused4 /\ orders4_ok std4 /\ qfinite q345 /\ bpow radix2 (-50) <= qnorm (qval q345) <= bpow radix2 50 /\
  B2SF (fx (finverted fused4 Quotient q345)) = SpecFloat.S754_finite true 13421773 (-24) /\
  B2SF (fx (finverted leftright4 Reciprocal q345)) = SpecFloat.S754_finite true 13421773 (-24).
Proof. exact Claims34.C87_inverse_ex. Qed.

Theorem C87_out_of_range : forall (p : prim) (t : dtree) (m : divmode) (q : FQ p),
  order 4 t -> qfinite q ->
  (Rabs (qw (qval q)) <= vanishing p -> Rabs (qx (qval q)) <= vanishing p -> Rabs (qy (qval q)) <= vanishing p -> Rabs (qz (qval q)) <= vanishing p ->
    finverted t m q = mkFQ fzero fzero fzero fzero /\ fnormalize t m q = q) /\
  (overflowing p <= Rabs (qw (qval q)) \/ overflowing p <= Rabs (qx (qval q)) \/ overflowing p <= Rabs (qy (qval q)) \/ overflowing p <= Rabs (qz (qval q)) ->
    (qfinite (finverted t m q) /\ qval (finverted t m q) = mkQ 0 0 0 0) /\ (qfinite (fnormalize t m q) /\ qval (fnormalize t m q) = mkQ 0 0 0 0)).
Proof. exact C87_out_of_range_lemma. Qed.
Print Assumptions C87_out_of_range.

Example C87_out_of_range_ex : (qfinite tiny_quat /\ qval tiny_quat = mkQ (bpow radix2 (-80)) (3 * bpow radix2 (-80)) 0 0 /\ 3 * bpow radix2 (-80) <= vanishing F32) /\
  (qfinite huge_quat /\ qval huge_quat = mkQ 1 (bpow radix2 70) 0 0 /\ overflowing F32 <= bpow radix2 70).
Proof. exact Claims34.C87_out_of_range_ex. Qed.

(** C87: rotation * derivative and derivative * rotation, in floating-point arithmetic,
    for a rotation object of any of the six classes. The rotation r that the object
    stands for is represented by a unit quaternion e, up to the conversion error of the
    class, and the product is the derivative of e c(s) or of c(s) e for every quaternion
    curve c whose derivative the operand holds up to an error B, with at most the stated
    number of roundings, relative to the size of the derivative, and the underflow. *)
Theorem C87_rotation_times_derivative : forall (p : prim) (L : libm) (cc : choices6) (o : orders4) (x : fobject p) (r : M33) (T A : R) (f : FQ p) (c : R -> Quat) (t : R) (d : Quat) (B : R),
  libm_ok L -> choices6_ok cc -> orders4_ok o -> 64/10 <= T <= 655/100 -> stands T A x r -> conv_limit p (okind_of x) KQuat A ->
  qfinite f -> Qderiv c t d -> qdist (qval f) d <= B -> qnorm d + B <= 2 ^ 100 ->
  let bound := (conv_defect (okind_of x) KQuat A + 93/10) * roundoff p * (qnorm d + B) + B + underflow p in
  exists e, qnorm e = 1 /\ close (conv_error p (okind_of x) KQuat A) (quat_rot e) r /\
  exists dl dr, Qderiv (fun s => hamilton e (c s)) t dl /\ Qderiv (fun s => hamilton (c s) e) t dr /\
    qfinite (frot_times_quatdiff L cc o x f) /\ qdist (qval (frot_times_quatdiff L cc o x f)) dl <= bound /\
    qfinite (fquatdiff_times_rot L cc o f x) /\ qdist (qval (fquatdiff_times_rot L cc o f x)) dr <= bound.
Proof. exact C87_rotation_times_derivative_lemma. Qed.
Print Assumptions C87_rotation_times_derivative.

(** a rotation matrix and a quaternion spinning about the x axis *)
Example C87_rotation_times_derivative_ex : libm_ok exact_libm /\ choices6_ok stdsix /\ orders4_ok std4 /\
  stands (64/10) 61 (OMat m345) (quat_rot (mkQ (3/5) (4/5) 0 0)) /\ conv_limit F32 KMat KQuat 61 /\
  Qderiv (fun s => mkQ (cos s) (sin s) 0 0) 0 (mkQ 0 1 0 0) /\ qdist (qval (mkFQ fzero (fofZ F32 1) fzero fzero)) (mkQ 0 1 0 0) <= 0 /\ qnorm (mkQ 0 1 0 0) + 0 <= 2 ^ 100.
Proof. exact Claims34.C87_rotation_times_derivative_ex. Qed.
