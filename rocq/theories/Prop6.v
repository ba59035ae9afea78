(** Generated by tools/genprops.py from Claims6.v: the property theorems only. *)
From Coq Require Import Reals Lra Psatz List Bool Arith Lia.
From Verif Require Import Linalg Spec ModelCommon ModelRotation CommonFacts UniqueFacts ModelVector.
Import ListNotations.
Local Open Scope R_scope.
From Verif Require Import Claims6.

(** C43: reading. A segment inside the vector has the requested length and the
    coefficients of the vector at its place; head and tail are the segments at
    the two ends; an access outside is an assertion failure. *)
Theorem C43_read_segment : forall (v : vec) (start len : nat),
  ((start + len <= length v)%nat ->
     exists s, getSegment start len v = Some s /\ length s = len /\
       forall i, (i < len)%nat -> nth_error s i = nth_error v (start + i)) /\
  ((length v < start + len)%nat -> getSegment start len v = None) /\
  getHead len v = getSegment 0 len v /\
  ((len <= length v)%nat -> getTail len v = getSegment (length v - len) len v) /\
  ((length v < len)%nat -> getTail len v = None).
Proof. exact C43_read_segment_lemma. Qed.
Print Assumptions C43_read_segment.

Example C43_read_segment_ex : getSegment 1 2 [4; 5; 6; 7] = Some [5; 6] /\ getTail 2 [4; 5; 6; 7] = Some [6; 7].
Proof. exact Claims6.C43_read_segment_ex. Qed.

(** C43: writing. The written coefficients are read back, every other
    coefficient and the dimension are unchanged; setHead/setTail write at the
    two ends; a write outside is an assertion failure. *)
Theorem C43_write_segment : forall (v input : vec) (start : nat),
  ((start + length input <= length v)%nat ->
     exists w, setSegment start input v = Some w /\ length w = length v /\
       getSegment start (length input) w = Some input /\
       (forall i, (i < length input)%nat -> nth_error w (start + i) = nth_error input i) /\
       (forall i, (i < start \/ start + length input <= i)%nat -> nth_error w i = nth_error v i)) /\
  ((length v < start + length input)%nat -> setSegment start input v = None) /\
  setHead input v = setSegment 0 input v /\
  ((length input <= length v)%nat -> setTail input v = setSegment (length v - length input) input v) /\
  ((length v < length input)%nat -> setTail input v = None).
Proof. exact C43_write_segment_lemma. Qed.
Print Assumptions C43_write_segment.

Example C43_write_segment_ex : setSegment 1 [8; 9] [4; 5; 6; 7] = Some [4; 8; 9; 7] /\ setTail [8; 9] [4; 5; 6; 7] = Some [4; 5; 8; 9].
Proof. exact Claims6.C43_write_segment_ex. Qed.

(** C43: Zero() has only zeros; UnitX/Y/Z have a one in exactly the named place
    and exist iff the dimension is large enough. *)
Theorem C43_constructors : forall n : nat,
  (length (vec_zero n) = n /\ forall i, (i < n)%nat -> nth_error (vec_zero n) i = Some 0) /\
  (forall u k, (u, k) = (unitX n, 0%nat) \/ (u, k) = (unitY n, 1%nat) \/ (u, k) = (unitZ n, 2%nat) ->
     ((k < n)%nat <-> u <> None) /\
     forall v, u = Some v -> length v = n /\
       forall i, (i < n)%nat -> nth_error v i = Some (if Nat.eq_dec i k then 1 else 0)).
Proof. exact C43_constructors_lemma. Qed.
Print Assumptions C43_constructors.

Example C43_constructors_ex : unitY 4 = Some [0; 1; 0; 0] /\ unitZ 2 = None.
Proof. exact Claims6.C43_constructors_ex. Qed.

(** C44: vector space laws; == is equality. *)
Theorem C44_vector_space : forall (a b c : vec) (s t : R),
  length a = length b -> length b = length c ->
  (forall i x y, nth_error a i = Some x -> nth_error b i = Some y ->
     nth_error (vec_add a b) i = Some (x + y) /\ nth_error (vec_sub a b) i = Some (x - y) /\
     nth_error (vec_mul a s) i = Some (x * s) /\ nth_error (vec_mul_left s a) i = Some (s * x) /\
     nth_error (vec_neg a) i = Some (- x) /\ nth_error (vec_cwiseProduct a b) i = Some (x * y)) /\
  length (vec_add a b) = length a /\ length (vec_sub a b) = length a /\ length (vec_mul a s) = length a /\
  vec_add a b = vec_add b a /\ vec_add (vec_add a b) c = vec_add a (vec_add b c) /\
  vec_add a (vec_zero (length a)) = a /\ vec_add a (vec_neg a) = vec_zero (length a) /\
  vec_sub a b = vec_add a (vec_neg b) /\
  vec_mul a 1 = a /\ vec_mul (vec_mul a s) t = vec_mul a (s * t) /\
  vec_mul (vec_add a b) s = vec_add (vec_mul a s) (vec_mul b s) /\
  vec_mul a (s + t) = vec_add (vec_mul a s) (vec_mul a t) /\
  (s <> 0 -> exists q, vec_div a s = Val q /\ vec_mul q s = a) /\ vec_div a 0 = NaN /\
  (vec_eq a b = true <-> a = b).
Proof. exact C44_vector_space_lemma. Qed.
Print Assumptions C44_vector_space.

Example C44_vector_space_ex : vec_eq [1; 2; 3; 4] [1; 2; 3; 5] = false /\ exists q, vec_div [1; 2] 2 = Val q /\ q = [1/2; 2/2].
Proof. exact Claims6.C44_vector_space_ex. Qed.

(** C44: dot and norm: bilinear, symmetric, Cauchy-Schwarz, triangle
    inequality, definiteness, homogeneity, in every dimension. *)
Theorem C44_dot_norm : forall (a b c : vec) (s : R), length a = length b -> length b = length c ->
  vec_dot a b = vec_dot b a /\ vec_dot (vec_add a b) c = vec_dot a c + vec_dot b c /\
  vec_dot (vec_mul a s) b = s * vec_dot a b /\
  vec_squaredNorm a = vec_dot a a /\ 0 <= vec_norm a /\ vec_norm a * vec_norm a = vec_squaredNorm a /\
  (vec_norm a = 0 <-> a = vec_zero (length a)) /\ vec_norm (vec_mul a s) = Rabs s * vec_norm a /\
  Rabs (vec_dot a b) <= vec_norm a * vec_norm b /\
  vec_norm (vec_add a b) <= vec_norm a + vec_norm b.
Proof. exact C44_dot_norm_lemma. Qed.
Print Assumptions C44_dot_norm.

Example C44_dot_norm_ex : length [1; 2; 3; 4; 5] = length [0; 0; 1; 0; 2] /\ vec_dot [1; 2; 3; 4; 5] [0; 0; 1; 0; 2] = 13.
Proof. exact Claims6.C44_dot_norm_ex. Qed.

(** C44: normalized(): norm one, same direction; the zero vector is returned
    unchanged. *)
Theorem C44_normalized : forall a : vec,
  (a <> vec_zero (length a) -> vec_norm (vec_normalized a) = 1 /\
     exists s, 0 < s /\ s = / vec_norm a /\ vec_normalized a = vec_mul a s) /\
  (a = vec_zero (length a) -> vec_normalized a = a).
Proof. exact C44_normalized_lemma. Qed.
Print Assumptions C44_normalized.

Example C44_normalized_ex : [3; 0; 4; 0] <> vec_zero 4.
Proof. exact Claims6.C44_normalized_ex. Qed.

(** C44: projectOn is the orthogonal projection onto the line spanned by the
    other vector, the nearest point of that line; projecting on the zero vector
    is 0/0. *)
Theorem C44_projection : forall a b : vec, length a = length b ->
  (b <> vec_zero (length b) ->
     exists q s, vec_projectOn a b = Val q /\ q = vec_mul b s /\
       vec_dot (vec_sub a q) b = 0 /\
       (forall r, vec_norm (vec_sub a q) <= vec_norm (vec_sub a (vec_mul b r))) /\
       vec_projectOn q b = Val q) /\
  (b = vec_zero (length b) -> vec_projectOn a b = NaN).
Proof. exact C44_projection_lemma. Qed.
Print Assumptions C44_projection.

(** C44: cross product (dimension 3): defined exactly for dimension 3,
    orthogonal to both operands, antisymmetric, |a x b|^2 + (a.b)^2 = |a|^2 |b|^2,
    right-handed (det(a,b,c) = |c|^2). *)
Theorem C44_cross : forall a b : vec, length a = length b ->
  (length a = 3%nat <-> vec_cross a b <> None) /\
  forall c, vec_cross a b = Some c -> length c = 3%nat /\ vec_dot c a = 0 /\ vec_dot c b = 0 /\
    vec_cross b a = Some (vec_neg c) /\
    vec_squaredNorm c + vec_dot a b * vec_dot a b = vec_squaredNorm a * vec_squaredNorm b /\
    vec_dot c [nth 1 a 0 * nth 2 b 0 - nth 2 a 0 * nth 1 b 0;
               nth 2 a 0 * nth 0 b 0 - nth 0 a 0 * nth 2 b 0;
               nth 0 a 0 * nth 1 b 0 - nth 1 a 0 * nth 0 b 0] = vec_squaredNorm c.
Proof. exact C44_cross_lemma. Qed.
Print Assumptions C44_cross.

Example C44_cross_ex : vec_cross [1; 0; 0] [0; 1; 0] = Some [0 * 0 - 0 * 1; 0 * 0 - 1 * 0; 1 * 1 - 0 * 0].
Proof. exact Claims6.C44_cross_ex. Qed.

(** C44: max/min are the largest/smallest coefficient (and are coefficients),
    mean lies between them and n*mean is the sum; abs is coefficientwise; the
    reductions exist for every non-empty vector. *)
Theorem C44_reductions : forall a : vec, a <> [] ->
  exists mx mn me, vec_max a = Some mx /\ vec_min a = Some mn /\ vec_mean a = Some me /\
    (In mx a /\ forall x, In x a -> x <= mx) /\ (In mn a /\ forall x, In x a -> mn <= x) /\
    mn <= me <= mx /\ INR (length a) * me = vec_sum a /\
    (forall i x, nth_error a i = Some x -> nth_error (vec_abs a) i = Some (Rabs x)).
Proof. exact C44_reductions_lemma. Qed.
Print Assumptions C44_reductions.

(** C44: isSimilarTo is true exactly when every coefficient differs by less
    than the tolerance. *)
Theorem C44_similar : forall (a b : vec) (tol : R), length a = length b -> a <> [] ->
  exists r, isSimilarTo a b tol = Some r /\
    (r = true <-> forall i x y, nth_error a i = Some x -> nth_error b i = Some y -> Rabs (x - y) < tol).
Proof. exact C44_similar_lemma. Qed.
Print Assumptions C44_similar.

Example C44_similar_ex : length [1; 2; 3; 4] = length [1; 2; 3; 5] /\ [1; 2; 3; 4] <> [].
Proof. exact Claims6.C44_similar_ex. Qed.

(** C44: multiplication and division by a one-dimensional (typed scalar) vector
    on either side scale every coefficient; two vectors of dimension > 1 do not
    multiply. *)
Theorem C44_typed_scalar : forall (a : vec) (s : R),
  vec_mul_vec a [s] = Some (vec_mul a s) /\ vec_mul_vec [s] a = Some (vec_mul a s) /\
  (s <> 0 -> exists q, vec_div_vec a [s] = Some (Val q) /\ vec_mul_vec q [s] = Some a) /\
  (forall b, length a <> 1%nat -> length b <> 1%nat -> vec_mul_vec a b = None /\ vec_div_vec a b = None).
Proof. exact C44_typed_scalar_lemma. Qed.
Print Assumptions C44_typed_scalar.

(** C44: elementwise division is defined iff no divisor coefficient is zero,
    and is undone by the elementwise product. *)
Theorem C44_elementwise_division : forall a b : vec, length a = length b ->
  ((forall y, In y b -> y <> 0) -> exists q, vec_cwiseQuotient a b = Val q /\ vec_cwiseProduct q b = a) /\
  ((exists y, In y b /\ y = 0) -> vec_cwiseQuotient a b = NaN).
Proof. exact C44_elementwise_division_lemma. Qed.
Print Assumptions C44_elementwise_division.

Example C44_elementwise_division_ex : length [1; 2; 3; 4] = length [2; 2; 3; 5] /\ forall y, In y [2; 2; 3; 5] -> y <> 0.
Proof. exact Claims6.C44_elementwise_division_ex. Qed.
