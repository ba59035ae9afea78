(** Generated by tools/genprops.py from Claims39.v: the property theorems only. *)
From Coq Require Import ZArith Reals Lra Psatz Bool List Lia Permutation.
From Flocq Require Import IEEE754.BinarySingleNaN Core.Core.
From Verif Require Import Linalg Spec SpecFacts ModelCommon FloatModel FloatFacts FloatWrap FloatModel2 SpecFloatQ FloatQFacts FloatQProd FloatModel10 SpecVecF FloatVec FloatVec2 FloatVec4 FloatModel19 SpecPinv PinvFacts SpecMat MatFacts Claims27 Claims28.
Import ListNotations.
Local Open Scope R_scope.
From Verif Require Import Claims39.

(** C92: pseudoInverse always returns true. Singular values above a threshold are
    inverted, all others count as zero; the threshold is epsilon times the larger
    dimension times the largest singular value, up to four roundings, and lies below the
    largest one. Every coefficient of the result is finite and is the one of
    V diag(1/s) U^T over the inverted singular values up to 2.07 k + 1 roundings of the
    sum of the magnitudes of its k terms. *)
Theorem C92_coefficients : forall (p : prim) (t t' : nat -> nat -> dtree) (epsilon : fl F64) (rows cols : Z) (U : list (fvec p)) (s : fvec p) (V : list (fvec p)) (M : R),
  (forall i j, order (length s) (t i j) /\ order (length s) (t' i j)) ->
  s <> [] -> all_finite s -> rows_of (length s) U -> rows_of (length s) V -> dimension s * roundoff p <= / 100 ->
  is_finite epsilon = true -> bpow radix2 (-900) <= B2R epsilon -> (1 <= Z.max cols rows <= 2 ^ 24)%Z -> B2R epsilon * IZR (Z.max cols rows) <= / 8 ->
  largest (values s) M -> let cut := B2R epsilon * IZR (Z.max cols rows) * M in bpow radix2 (-89) <= cut ->
  fst (fpseudoInverse t t' epsilon rows cols U s V) = true /\
  exists tol, Rabs (tol - cut) <= 4 * roundoff p * cut + underflow p /\ tol < M /\
  forall i j v u, nth_error V i = Some v -> nth_error U j = Some u ->
    let c := snd (fpseudoInverse t t' epsilon rows cols U s V) i j in
    is_finite c = true /\
    Rabs (B2R c - pinv_coefficient tol (values v) (values s) (values u)) <=
      (207/100 * dimension s + 1) * roundoff p * pinv_size tol (values v) (values s) (values u) + dimension s * dimension s * underflow p.
Proof. exact C92_coefficients_lemma. Qed.
Print Assumptions C92_coefficients.

(** C92: the pseudoinverse of the zero matrix is zero, exactly *)
Theorem C92_zero : forall (p : prim) (t t' : nat -> nat -> dtree) (epsilon : fl F64) (rows cols : Z) (U : list (fvec p)) (s : fvec p) (V : list (fvec p)),
  s <> [] -> all_finite s -> Forall all_finite U -> Forall all_finite V -> (forall x, In x (values s) -> x = 0) ->
  is_finite epsilon = true -> bpow radix2 (-900) <= B2R epsilon -> (1 <= Z.max cols rows <= 2 ^ 24)%Z -> B2R epsilon * IZR (Z.max cols rows) <= / 8 ->
  forall i j, is_finite (snd (fpseudoInverse t t' epsilon rows cols U s V) i j) = true /\ B2R (snd (fpseudoInverse t t' epsilon rows cols U s V) i j) = 0.
Proof. exact C92_zero_lemma. Qed.
Print Assumptions C92_zero.

Theorem C92_overflow :
  B2R tiny32 = bpow radix2 (-149) /\
  fst (fpseudoInverse two two (fpinv_epsilon F32) 2 2 eye32 [tiny32; tiny32] eye32) = true /\
  is_nan (snd (fpseudoInverse two two (fpinv_epsilon F32) 2 2 eye32 [tiny32; tiny32] eye32) 0%nat 0%nat) = true.
Proof. exact C92_overflow_lemma. Qed.
Print Assumptions C92_overflow.

(** C92: if U, s, V are a singular value decomposition of A and every nonzero singular
    value is above the threshold, the result is the Moore-Penrose inverse of A up to the
    same bound *)
Theorem C92_penrose : forall (p : prim) (t t' : nat -> nat -> dtree) (epsilon : fl F64) (A X : mat) (U : list (fvec p)) (s : fvec p) (V : list (fvec p)) (M : R),
  let m := length U in let n := length V in let N := Z.max (Z.of_nat n) (Z.of_nat m) in
  length s = Nat.min m n -> thin_svd m n A (stored U) (fun l => B2R (nth l s fzero)) (stored V) -> penrose m n A X ->
  (forall i j, order (length s) (t i j) /\ order (length s) (t' i j)) ->
  s <> [] -> all_finite s -> rows_of (length s) U -> rows_of (length s) V -> dimension s * roundoff p <= / 100 ->
  is_finite epsilon = true -> bpow radix2 (-900) <= B2R epsilon -> (1 <= N <= 2 ^ 24)%Z -> B2R epsilon * IZR N <= / 8 ->
  largest (values s) M -> let cut := B2R epsilon * IZR N * M in bpow radix2 (-89) <= cut ->
  (forall x, In x (values s) -> x <> 0 -> cut + 4 * roundoff p * cut + underflow p < x) ->
  forall i j v u, nth_error V i = Some v -> nth_error U j = Some u ->
    let c := snd (fpseudoInverse t t' epsilon (Z.of_nat m) (Z.of_nat n) U s V) i j in
    is_finite c = true /\
    Rabs (B2R c - X i j) <= (207/100 * dimension s + 1) * roundoff p * pinv_size 0 (values v) (values s) (values u) + dimension s * dimension s * underflow p.
Proof. exact C92_penrose_lemma. Qed.
Print Assumptions C92_penrose.

Example C92_coefficients_ex : (forall i j, order 2 (two i j)) /\ all_finite [four32; fzero] /\ rows_of 2 eye32 /\ dimension [four32; fzero] * roundoff F32 <= / 100 /\
  is_finite (fpinv_epsilon F32) = true /\ B2R (fpinv_epsilon F32) = bpow radix2 (-23) /\ bpow radix2 (-900) <= B2R (fpinv_epsilon F32) /\ B2R (fpinv_epsilon F32) * IZR (Z.max 2 2) <= / 8 /\
  largest (values [four32; fzero]) 4 /\ bpow radix2 (-89) <= B2R (fpinv_epsilon F32) * IZR (Z.max 2 2) * 4 /\
  B2SF (snd (fpseudoInverse two two (fpinv_epsilon F32) 2 2 eye32 [four32; fzero] eye32) 0%nat 0%nat) = B2SF (flit F32 1 4).
Proof. exact Claims39.C92_coefficients_ex. Qed.

Example C92_penrose_ex : let s := fun l => B2R (nth l [four32; fzero] fzero) in
  thin_svd 2 2 (diag s) (stored eye32) s (stored eye32) /\ penrose 2 2 (diag s) (diag (fun l => if Nat.eqb l 0 then / 4 else 0)) /\
  (let cut := B2R (fpinv_epsilon F32) * IZR (Z.max 2 2) * 4 in forall x, In x (values [four32; fzero]) -> x <> 0 -> cut + 4 * roundoff F32 * cut + underflow F32 < x).
Proof. exact Claims39.C92_penrose_ex. Qed.

Example C92_zero_ex : all_finite [@fzero F32; fzero] /\ Forall all_finite eye32 /\ (forall x, In x (values [@fzero F32; fzero]) -> x = 0) /\
  B2SF (snd (fpseudoInverse two two (fpinv_epsilon F32) 2 2 eye32 [fzero; fzero] eye32) 1%nat 1%nat) = B2SF (@fzero F32).
Proof. exact Claims39.C92_zero_ex. Qed.
