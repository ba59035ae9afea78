(** Generated by tools/genprops.py from Claims8.v: the property theorems only. *)
From Coq Require Import Reals Lra Psatz Arith Lia Bool.
From Verif Require Import Linalg ModelCommon ModelDiff SpecMat ModelLinalg CommonFacts MatFacts.
Local Open Scope R_scope.
From Verif Require Import Claims8.

(** C46: the skew matrix of a multiplies a vector like the cross product with a,
    is antisymmetric, and determines a; every antisymmetric matrix is the skew
    matrix of exactly one vector, which getVectorFromSkewMatrix returns. *)
Theorem C46_skew : forall a b : V3,
  mvmul (getSkewMatrixFromVector a) b = vcross a b /\
  mtrans (getSkewMatrixFromVector a) = mscale (-1) (getSkewMatrixFromVector a) /\
  getVectorFromSkewMatrix (getSkewMatrixFromVector a) = a /\
  (forall M : M33, mtrans M = mscale (-1) M ->
     getSkewMatrixFromVector (getVectorFromSkewMatrix M) = M /\
     forall c, getSkewMatrixFromVector c = M -> c = getVectorFromSkewMatrix M).
Proof. exact C46_skew_lemma. Qed.
Print Assumptions C46_skew.

Example C46_skew_ex : mtrans (mkM33 0 (-3) 2 3 0 (-1) (-2) 1 0) = mscale (-1) (mkM33 0 (-3) 2 3 0 (-1) (-2) 1 0).
Proof. exact Claims8.C46_skew_ex. Qed.

(** C47: pseudoInverse reports success and returns the Moore-Penrose inverse:
    the four Penrose conditions hold, and no other matrix satisfies them. *)
Theorem C47_penrose : forall (m n : nat) (A U : mat) (s : nat -> R) (V : mat) (epsilon : R),
  thin_svd m n A U s V -> 0 <= epsilon ->
  (forall i, (i < Nat.min m n)%nat -> s i <> 0 -> pinv_tolerance m n s epsilon < s i) ->
  let (ok, X) := pseudoInverse m n U s V epsilon in
  ok = true /\ penrose m n A X /\ forall Y, penrose m n A Y -> mat_eq n m Y X.
Proof. exact C47_penrose_lemma. Qed.
Print Assumptions C47_penrose.

(** C47: hence the result applied to b is the least-squares solution of A y = b
    of least length, and the only one. *)
Theorem C47_least_squares : forall (m n : nat) (A U : mat) (s : nat -> R) (V : mat) (epsilon : R),
  thin_svd m n A U s V -> 0 <= epsilon ->
  (forall i, (i < Nat.min m n)%nat -> s i <> 0 -> pinv_tolerance m n s epsilon < s i) ->
  let X := snd (pseudoInverse m n U s V epsilon) in
  forall b y : nat -> R,
  let err z := nrm2 m (fun i => mvm n A z i - b i) in
  let x := mvm m X b in
  err x <= err y /\
  (err y = err x -> nrm2 n x <= nrm2 n y /\ (nrm2 n y = nrm2 n x -> forall j, (j < n)%nat -> y j = x j)).
Proof. exact C47_least_squares_lemma. Qed.
Print Assumptions C47_least_squares.

(** C47: for a matrix with a left inverse (full column rank), the result is a
    left inverse; with a right inverse, a right inverse; so the inverse of every
    invertible matrix. *)
Theorem C47_one_sided : forall (m n : nat) (A U : mat) (s : nat -> R) (V : mat) (epsilon : R),
  thin_svd m n A U s V -> 0 <= epsilon ->
  (forall i, (i < Nat.min m n)%nat -> s i <> 0 -> pinv_tolerance m n s epsilon < s i) ->
  let X := snd (pseudoInverse m n U s V epsilon) in
  (forall L, mat_eq n n (mmulm m L A) idm -> mat_eq n n (mmulm m X A) idm) /\
  (forall R, mat_eq m m (mmulm n A R) idm -> mat_eq m m (mmulm n A X) idm) /\
  (forall B, mat_eq n n (mmulm m B A) idm -> mat_eq m m (mmulm n A B) idm -> mat_eq n m X B).
Proof. exact C47_one_sided_lemma. Qed.
Print Assumptions C47_one_sided.

(** C47 without the gap condition: for every matrix and every threshold the
    result is the exact pseudoinverse of a matrix A' that differs from A by at
    most tolerance = epsilon * max(rows, cols) * largest singular value in
    operator norm; singular values above the tolerance are not touched. *)
Theorem C47_truncated : forall (m n : nat) (A U : mat) (s : nat -> R) (V : mat) (epsilon : R),
  thin_svd m n A U s V -> 0 <= epsilon ->
  exists A' : mat,
    penrose m n A' (snd (pseudoInverse m n U s V epsilon)) /\
    forall (x : nat -> R) (smax : R), (forall i, (i < Nat.min m n)%nat -> s i <= smax) -> 0 <= smax ->
      nrm2 m (fun i => mvm n A x i - mvm n A' x i) <= (epsilon * INR (Nat.max m n) * smax)² * nrm2 n x.
Proof. exact C47_truncated_lemma. Qed.
Print Assumptions C47_truncated.

Example C47_penrose_ex : thin_svd 2 2 exA exU exs idm /\
  (forall i, (i < Nat.min 2 2)%nat -> exs i <> 0 -> pinv_tolerance 2 2 exs (1 / 4503599627370496) < exs i) /\
  exs 1%nat = 0 /\
  snd (pseudoInverse 2 2 exU exs idm (1 / 4503599627370496)) 0%nat 1%nat = 4/25.
Proof. exact Claims8.C47_penrose_ex. Qed.
