(** * ModelVector: kindr::Vector<PhysicalType_, PrimType_, Dimension_>
    (vectors/Vector.hpp).  A vector of any (static or dynamic) dimension is the
    list of its coefficients; two operands of a binary operation have the same
    length (static dimensions: compile-time; dynamic: Eigen assertion). An
    access outside the vector is [None] (Eigen static or run-time assertion,
    undefined behaviour under NDEBUG). *)
From Coq Require Import Reals Lra List Bool Arith.
From Verif Require Import Linalg Spec ModelCommon ModelRotation.
Import ListNotations.
Local Open Scope R_scope.

Definition vec : Type := list R.

(** coefficientwise operation of two vectors of the same dimension (Eigen) *)
Fixpoint zipWith (f : R -> R -> R) (a b : vec) : vec :=
  match a, b with
  | x :: a', y :: b' => f x y :: zipWith f a' b'
  | _, _ => []
  end.

(** Zero(), setZero(), default constructor of static size: Vector.hpp:83-86,139-149 *)
Definition vec_zero (n : nat) : vec := repeat 0 n.
(** Eigen::Matrix::Unit(n,i), used by UnitX/UnitY/UnitZ, Vector.hpp:168-185 *)
Definition vec_unit (n i : nat) : option vec :=
  if (i <? n)%nat then Some (map (fun j => if (j =? i)%nat then 1 else 0) (seq 0 n)) else None.
Definition unitX (n : nat) := vec_unit n 0.
Definition unitY (n : nat) := vec_unit n 1.
Definition unitZ (n : nat) := vec_unit n 2.

(** Eigen segment(start,length), head(n), tail(n) *)
Definition getSegment (start len : nat) (v : vec) : option vec :=     (* Vector.hpp:228-238 *)
  if (start + len <=? length v)%nat then Some (firstn len (skipn start v)) else None.
Definition getHead (n : nat) (v : vec) : option vec :=                (* Vector.hpp:195-206 *)
  if (n <=? length v)%nat then Some (firstn n v) else None.
Definition getTail (n : nat) (v : vec) : option vec :=                (* Vector.hpp:211-222 *)
  if (n <=? length v)%nat then Some (skipn (length v - n) v) else None.
Definition setSegment (start : nat) (input v : vec) : option vec :=   (* Vector.hpp:256-259 *)
  if (start + length input <=? length v)%nat
  then Some (firstn start v ++ input ++ skipn (start + length input) v) else None.
Definition setHead (input v : vec) : option vec :=                    (* Vector.hpp:242-245 *)
  if (length input <=? length v)%nat then Some (input ++ skipn (length input) v) else None.
Definition setTail (input v : vec) : option vec :=                    (* Vector.hpp:249-252 *)
  if (length input <=? length v)%nat then Some (firstn (length v - length input) v ++ input) else None.

(** arithmetic, Vector.hpp:344-464 and 626-629 *)
Definition vec_add (a b : vec) : vec := zipWith Rplus a b.
Definition vec_sub (a b : vec) : vec := zipWith Rminus a b.
Definition vec_mul (a : vec) (f : R) : vec := map (fun x => x * f) a.
Definition vec_mul_left (f : R) (a : vec) : vec := vec_mul a f.
Definition vec_div (a : vec) (d : R) : outcome vec :=
  if Req_EM_T d 0 then NaN else Val (map (fun x => x / d) a).
Definition vec_neg (a : vec) : vec := map Ropp a.
(** vector times / divided by a one-dimensional vector (typed scalar),
    Vector.hpp:378-403, 682-713 *)
Definition vec_mul_vec (a b : vec) : option vec :=
  match b with
  | [s] => Some (vec_mul a s)
  | _ => match a with [s] => Some (vec_mul b s) | _ => None end   (* dimension mismatch: does not compile *)
  end.
Definition vec_div_vec (a b : vec) : option (outcome vec) :=
  match b with [s] => Some (vec_div a s) | _ => None end.
(** operator==, !=: Vector.hpp:470-480 *)
Fixpoint vec_eq (a b : vec) : bool :=
  match a, b with
  | [], [] => true
  | x :: a', y :: b' => (Reqb x y && vec_eq a' b')%bool
  | _, _ => false
  end.

(** dot, norms: Vector.hpp:498-533 *)
Definition vec_sum (a : vec) : R := fold_right Rplus 0 a.              (* sum(): Vector.hpp:602-604 *)
Definition vec_dot (a b : vec) : R := vec_sum (zipWith Rmult a b).
Definition vec_squaredNorm (a : vec) : R := vec_dot a a.
Definition vec_norm (a : vec) : R := sqrt (vec_squaredNorm a).
(** Eigen 3.3 normalized()/normalize(): unchanged when the squared norm is not
    positive; Vector.hpp:512-522 *)
Definition vec_normalized (a : vec) : vec :=
  let z := vec_squaredNorm a in
  if Rlt_dec 0 z then map (fun x => x / sqrt z) a else a.
(** projectOn, Vector.hpp:554-557 *)
Definition vec_projectOn (a other : vec) : outcome vec :=
  f <- cdiv (vec_dot a other) (vec_squaredNorm other) ;; Val (vec_mul other f).
(** cross (3 dimensions), Vector.hpp:539-543 *)
Definition vec_cross (a b : vec) : option vec :=
  match a, b with
  | [a0; a1; a2], [b0; b1; b2] => Some [a1 * b2 - a2 * b1; a2 * b0 - a0 * b2; a0 * b1 - a1 * b0]
  | _, _ => None
  end.
(** elementwiseMultiplication / elementwiseDivision, Vector.hpp:563-578 *)
Definition vec_cwiseProduct (a b : vec) : vec := zipWith Rmult a b.
Definition vec_cwiseQuotient (a b : vec) : outcome vec :=
  if forallb (fun y => negb (Reqb y 0)) b then Val (zipWith Rdiv a b) else NaN.
(** abs, max, min, mean: Vector.hpp:583-611; the reductions of an empty vector
    are an Eigen assertion *)
Definition vec_abs (a : vec) : vec := map Rabs a.
Definition vec_max (a : vec) : option R :=
  match a with [] => None | x :: a' => Some (fold_left Rmax a' x) end.
Definition vec_min (a : vec) : option R :=
  match a with [] => None | x :: a' => Some (fold_left Rmin a' x) end.
Definition vec_mean (a : vec) : option R :=
  match a with [] => None | _ => Some (vec_sum a / INR (length a)) end.
(** isSimilarTo, Vector.hpp:487-493 *)
Definition isSimilarTo (a b : vec) (tol : R) : option bool :=
  match vec_max (vec_abs (vec_sub a b)) with
  | Some m => Some (Rltb m tol)
  | None => None
  end.
