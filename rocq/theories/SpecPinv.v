(** * SpecPinv: what pseudoInverse computes from a singular value decomposition, in real
    arithmetic, for C92. *)
From Coq Require Import Reals List.
Import ListNotations.
Local Open Scope R_scope.

(** M is the largest magnitude of the numbers of the list *)
Definition largest (s : list R) (M : R) : Prop := (exists x, In x s /\ Rabs x = M) /\ forall x, In x s -> Rabs x <= M.
(** coefficient of V diag(1/s) U^T, from a row v of V and a row u of U; singular values
    of magnitude at most tol are left out *)
Fixpoint pinv_coefficient (tol : R) (v s u : list R) : R :=
  match v, s, u with
  | x :: v', y :: s', z :: u' => (if Rlt_dec tol (Rabs y) then x * z / y else 0) + pinv_coefficient tol v' s' u'
  | _, _, _ => 0
  end.
(** the sum of the magnitudes of the same terms *)
Fixpoint pinv_size (tol : R) (v s u : list R) : R :=
  match v, s, u with
  | x :: v', y :: s', z :: u' => (if Rlt_dec tol (Rabs y) then Rabs (x * z / y) else 0) + pinv_size tol v' s' u'
  | _, _, _ => 0
  end.
