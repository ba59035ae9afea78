(** Floating-point model of kindr::Vector<PhysicalType_, PrimType_, Dimension_>
    (vectors/Vector.hpp) for PrimType_ float or double and any static or dynamic
    dimension: the list of the coefficients. Operands of a binary operation have the
    same length (compile-time for static, Eigen assertion for dynamic dimensions). *)
From Coq Require Import ZArith Bool List.
From Flocq Require Import IEEE754.BinarySingleNaN Core.Core.
From Verif Require Import ModelCommon FloatModel FloatModel2.
Import ListNotations.
Local Open Scope Z_scope.

Definition fvec (p : prim) : Type := list (fl p).

(** Eigen's coefficientwise operation of two vectors *)
Fixpoint fzip {p} (f : fl p -> fl p -> fl p) (a b : fvec p) : fvec p :=
  match a, b with
  | x :: a', y :: b' => f x y :: fzip f a' b'
  | _, _ => []
  end.

(** Zero(), setZero(), default constructor: Vector.hpp:83-86, 139-149 *)
Definition fv_zero (p : prim) (n : nat) : fvec p := repeat fzero n.
(** operator+, +=: Vector.hpp:348-350, 405-408 *)
Definition fv_add {p} (a b : fvec p) : fvec p := fzip fadd a b.
(** operator-, -=: Vector.hpp:356-358, 414-417 *)
Definition fv_sub {p} (a b : fvec p) : fvec p := fzip fsub a b.
(** operator*(factor), factor*vector, *=: Vector.hpp:364-367, 423-427, 626-629.
    The factor is converted to the scalar type of the vector: (PrimType_)factor. *)
Definition fv_mul {p} (a : fvec p) (s : fl p) : fvec p := map (fun x => fmul x s) a.
Definition fv_mul_other {p q} (a : fvec p) (s : fl q) : fvec p := fv_mul a (fcvt p s).
Definition fv_mul_int {p} (a : fvec p) (z : Z) : fvec p := fv_mul a (fofZ p z).
(** operator/(divisor), /=: Vector.hpp:384-400, 443-447. Eigen divides the
    coefficients; operator/= of Eigen 3.2 multiplies them with the reciprocal. *)
Definition fv_div {p} (m : divmode) (a : fvec p) (s : fl p) : fvec p := map (fscale_down m s) a.
(** product of two vectors, one of dimension 1: Vector.hpp:373-378, 433-437, 684-713.
    The second factor of dimension 1 may have another scalar type (static_cast);
    if only the first has dimension 1, the scalar types must agree (the return type has
    the scalar type of the first factor and the conversion is explicit, so that the
    other case does not compile). *)
Definition fv_mul_vec {p} (a b : fvec p) : option (fvec p) :=
  match b with
  | [s] => Some (fv_mul a s)
  | _ => match a with [s] => Some (fv_mul b s) | _ => None end
  end.
Definition fv_mul_vec_other {p q} (a : fvec p) (b : fvec q) : option (fvec p) :=
  match b with [s] => Some (fv_mul_other a s) | _ => None end.
(** operator-(): Vector.hpp:462-464 *)
Definition fv_neg {p} (a : fvec p) : fvec p := map fneg a.
(** operator==, !=: Vector.hpp:470-480 *)
Fixpoint fv_eq {p} (a b : fvec p) : bool :=
  match a, b with
  | [], [] => true
  | x :: a', y :: b' => (feq x y && fv_eq a' b')%bool
  | _, _ => false
  end.
(** constructor from a vector of the other scalar type: Vector.hpp:97-100 *)
Definition fv_cast {p} (q : prim) (a : fvec p) : fvec q := map (fcvt q) a.

(** Reductions: Eigen combines the coefficients in an order that depends on the vector
    unit. Sums of products are a [dtree] (with fused operations), sums and maxima a
    [sumtree]. A reduction with + of an empty vector is 0. *)
Definition sum_order (n : nat) (t : sumtree) : Prop := Permutation.Permutation (leaves t) (seq 0 n).
(** dot: Vector.hpp:528-531 *)
Definition fv_dot {p} (t : dtree) (a b : fvec p) : fl p := match a with [] => fzero | _ => fdot t a b end.
(** squaredNorm, norm: Vector.hpp:498-507 *)
Definition fv_squaredNorm {p} (t : dtree) (a : fvec p) : fl p := fv_dot t a a.
Definition fv_norm {p} (t : dtree) (a : fvec p) : fl p := fsqrt (fv_squaredNorm t a).
(** normalize, normalized: Vector.hpp:512-522. Eigen 3.3: unchanged unless the squared
    norm is positive; coefficients divided by the square root. *)
Definition fv_normalized {p} (t : dtree) (m : divmode) (a : fvec p) : fvec p :=
  let z := fv_squaredNorm t a in
  if flt fzero z then fv_div m a (fsqrt z) else a.
(** projectOn: Vector.hpp:553-556 *)
Definition fv_projectOn {p} (t t' : dtree) (a other : fvec p) : fvec p :=
  fv_mul other (fdiv (fv_dot t a other) (fv_squaredNorm t' other)).
(** cross: Vector.hpp:537-541; the order and the fusing of the two products of each
    coefficient are free *)
Definition fv_cross {p} (o : orders3) (a b : FV p) : FV p :=
  mkFV (fdot (o0 o) [gy a; fneg (gz a)] [gz b; gy b])
       (fdot (o1 o) [gz a; fneg (gx a)] [gx b; gz b])
       (fdot (o2 o) [gx a; fneg (gy a)] [gy b; gx b]).
(** elementwiseMultiplication, elementwiseDivision: Vector.hpp:562-576 *)
Definition fv_cwiseProduct {p} (a b : fvec p) : fvec p := fzip fmul a b.
Definition fv_cwiseQuotient {p} (a b : fvec p) : fvec p := fzip fdiv a b.
(** abs: Vector.hpp:581-583 *)
Definition fv_abs {p} (a : fvec p) : fvec p := map fabs a.
(** max, min: Vector.hpp:588-597. std::max(a,b) is (a < b) ? b : a and std::min(a,b) is
    (b < a) ? b : a; the vector units differ from this only when a coefficient is NaN
    (or in the sign of a zero). *)
Fixpoint freduce {p} (f : fl p -> fl p -> fl p) (t : sumtree) (c : nat -> fl p) : fl p :=
  match t with Leaf i => c i | Node l r => f (freduce f l c) (freduce f r c) end.
Definition fmin {p} (a b : fl p) : fl p := if flt b a then b else a.
Definition fv_max {p} (t : sumtree) (a : fvec p) : fl p := freduce fmax t (cf fzero a).
Definition fv_min {p} (t : sumtree) (a : fvec p) : fl p := freduce fmin t (cf fzero a).
(** isSimilarTo: Vector.hpp:487-493 *)
Definition fv_similar {p} (t : sumtree) (a b : fvec p) (tol : fl p) : bool :=
  flt (fv_max t (fv_abs (fv_sub a b))) tol.
(** sum, mean: Vector.hpp:602-611. mean() divides by Scalar(size()). *)
Definition fv_sum {p} (t : sumtree) (a : fvec p) : fl p := match a with [] => fzero | _ => fsum t (cf fzero a) end.
Definition fv_mean {p} (t : sumtree) (a : fvec p) : fl p := fdiv (fv_sum t a) (fofZ p (Z.of_nat (length a))).
