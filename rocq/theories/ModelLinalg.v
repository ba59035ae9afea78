(** Model of math/LinearAlgebra.hpp (pseudoInverse; the skew functions are in
    ModelDiff.v) and of the SVD interface it calls. *)
From Coq Require Import Reals Lra Arith Lia Bool.
From Verif Require Import Linalg ModelCommon SpecMat.
Local Open Scope R_scope.

(** Eigen: svd.singularValues().array().abs().maxCoeff() over k coefficients
    (k >= 1: Eigen asserts that the array is not empty; for k = 0 this is 0).
    Called at LinearAlgebra.hpp:88. *)
Fixpoint absMaxCoeff (k : nat) (s : nat -> R) : R :=
  match k with O => 0 | S j => Rmax (absMaxCoeff j s) (Rabs (s j)) end.

(** LinearAlgebra.hpp:87-88
    tolerance = epsilon * std::max(a.cols(), a.rows()) * maxCoeff *)
Definition pinv_tolerance (m n : nat) (s : nat -> R) (epsilon : R) : R :=
  epsilon * INR (Nat.max n m) * absMaxCoeff (Nat.min m n) s.

(** LinearAlgebra.hpp:91-92
    (abs > tolerance).select(inverse, 0), as a diagonal matrix *)
Definition sigmaThin (m n : nat) (s : nat -> R) (epsilon : R) : mat :=
  diag (fun i => if Rltb (pinv_tolerance m n s epsilon) (Rabs (s i)) then / s i else 0).

(** LinearAlgebra.hpp:65-97 for an m x n matrix whose JacobiSVD (ComputeThinU |
    ComputeThinV, line 85) is U, s, V. The SVD is Eigen's: it is an argument.
    Returns the result matrix and the returned bool (line 96).
    The products associate to the left (line 94). *)
Definition pseudoInverse (m n : nat) (U : mat) (s : nat -> R) (V : mat) (epsilon : R) : bool * mat :=
  let k := Nat.min m n in
  (true, mmulm k (mmulm k V (sigmaThin m n s epsilon)) (tr U)).
