(** Floating-point model of kindr::pseudoInverse (math/LinearAlgebra.hpp:65-97) for
    Scalar float or double. The singular value decomposition (lines 85) is Eigen's: its
    results U, s, V are arguments, arbitrary floats. Matrices are lists of rows. *)
From Coq Require Import ZArith Bool List Arith.
From Flocq Require Import IEEE754.BinarySingleNaN Core.Core.
From Verif Require Import ModelCommon FloatModel FloatModel2 FloatModel10.
Import ListNotations.
Local Open Scope Z_scope.

(** svd.singularValues().array().abs().maxCoeff(), LinearAlgebra.hpp:88. The value of a
    maximum of finite numbers does not depend on the order; Eigen asserts that there is
    at least one coefficient. *)
Definition fmaxabs {p} (s : fvec p) : fl p :=
  match s with
  | [] => fzero
  | x :: r => fold_left (fun m y => if flt m (fabs y) then fabs y else m) r (fabs x)
  end.
(** tolerance = epsilon * std::max(a.cols(), a.rows()) * maxCoeff, LinearAlgebra.hpp:87-88:
    epsilon is a double, the dimension is converted to double, and the product of doubles
    to the scalar type *)
Definition fpinv_tolerance {p} (epsilon : fl F64) (rows cols : Z) (s : fvec p) : fl p :=
  fcvt p (fmul (fmul epsilon (fofZ F64 (Z.max cols rows))) (fcvt F64 (fmaxabs s))).
(** (abs > tolerance).select(inverse, 0), LinearAlgebra.hpp:91-92 *)
Definition fsigmaThin {p} (tolerance : fl p) (s : fvec p) : fvec p :=
  map (fun x => if flt tolerance (fabs x) then fdiv (fofZ p 1) x else fzero) s.
(** column l of the matrix sigmaThin, made from that vector by asDiagonal() *)
Definition fdiag_column {p} (d : fvec p) (l : nat) : fvec p :=
  map (fun i => if Nat.eqb i l then nth l d fzero else fzero) (seq 0 (length d)).
(** row of svd.matrixV() * sigmaThin *)
Definition frow_diag {p} (t : nat -> dtree) (v d : fvec p) : fvec p :=
  map (fun l => fv_dot (t l) v (fdiag_column d l)) (seq 0 (length d)).
(** pseudoInverse, LinearAlgebra.hpp:65-97: the returned bool and the coefficients of
    result = V * sigmaThin * U^T (line 94, from the left). [t i l] and [t' i j] are the
    orders of the sums of the two products. *)
Definition fpseudoInverse {p} (t t' : nat -> nat -> dtree) (epsilon : fl F64) (rows cols : Z)
  (U : list (fvec p)) (s : fvec p) (V : list (fvec p)) : bool * (nat -> nat -> fl p) :=
  let d := fsigmaThin (fpinv_tolerance epsilon rows cols s) s in
  (true, fun i j => fv_dot (t' i j) (frow_diag (t i) (nth i V []) d) (nth j U [])).
(** the default argument std::numeric_limits<Scalar>::epsilon(), LinearAlgebra.hpp:67 *)
Definition fpinv_epsilon (p : prim) : fl F64 := binary_normalize (fprec F64) (femax F64) _ _ mode_NE 1 (1 - fprec p) false.
