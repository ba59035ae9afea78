(** Real matrices of any size, as functions of row and column, and the
    Moore-Penrose pseudoinverse (specification for C47). *)
From Coq Require Import Reals Lra Psatz Arith Lia.
Local Open Scope R_scope.

Definition mat := nat -> nat -> R.

(** sum of f 0 .. f (n-1) *)
Fixpoint sumn (n : nat) (f : nat -> R) : R :=
  match n with O => 0 | S k => sumn k f + f k end.

(** equality of m x n matrices *)
Definition mat_eq (m n : nat) (A B : mat) : Prop := forall i j, (i < m)%nat -> (j < n)%nat -> A i j = B i j.
(** product over the inner dimension k *)
Definition mmulm (k : nat) (A B : mat) : mat := fun i j => sumn k (fun l => A i l * B l j).
Definition tr (A : mat) : mat := fun i j => A j i.
Definition idm : mat := fun i j => if Nat.eqb i j then 1 else 0.
Definition diag (s : nat -> R) : mat := fun i j => if Nat.eqb i j then s i else 0.

(** the four Penrose conditions for an m x n matrix A and an n x m matrix X *)
Definition penrose (m n : nat) (A X : mat) : Prop :=
  mat_eq m n (mmulm m (mmulm n A X) A) A /\
  mat_eq n m (mmulm n (mmulm m X A) X) X /\
  mat_eq m m (tr (mmulm n A X)) (mmulm n A X) /\
  mat_eq n n (tr (mmulm m X A)) (mmulm m X A).

(** vectors as one-column matrices: matrix times vector, squared length *)
Definition mvm (n : nat) (A : mat) (x : nat -> R) : nat -> R := fun i => sumn n (fun j => A i j * x j).
Definition nrm2 (n : nat) (x : nat -> R) : R := sumn n (fun i => x i * x i).

(** a thin singular value decomposition A = U diag(s) V^T of an m x n matrix:
    U is m x k, V is n x k, k = min m n, orthonormal columns, s >= 0 *)
Definition thin_svd (m n : nat) (A U : mat) (s : nat -> R) (V : mat) : Prop :=
  let k := Nat.min m n in
  mat_eq k k (mmulm m (tr U) U) idm /\
  mat_eq k k (mmulm n (tr V) V) idm /\
  mat_eq m n (mmulm k (mmulm k U (diag s)) (tr V)) A /\
  (forall i, (i < k)%nat -> 0 <= s i).
