(** * Claims6: n-dimensional vectors (C43, C44). *)
From Coq Require Import Reals Lra Psatz List Bool Arith Lia.
From Verif Require Import Linalg Spec ModelCommon ModelRotation CommonFacts UniqueFacts ModelVector.
Import ListNotations.
Local Open Scope R_scope.

(** ** list helpers *)
Lemma Rltb_true a b : Rltb a b = true <-> a < b.
Proof. unfold Rltb. destruct (Rlt_dec a b); split; auto; discriminate. Qed.
Lemma zipWith_length f a : forall b, length a = length b -> length (zipWith f a b) = length a.
Proof. induction a as [|x a IH]; intros [|y b] H; cbn in *; try lia. f_equal. apply IH. lia. Qed.
Lemma zipWith_nth f a : forall b i x y, nth_error a i = Some x -> nth_error b i = Some y ->
  nth_error (zipWith f a b) i = Some (f x y).
Proof.
  induction a as [|u a IH]; intros [|v b] [|i] x y Ha Hb; cbn in *; try discriminate; [congruence|].
  apply IH; assumption.
Qed.
Lemma nth_error_firstn' (A : Type) (l : list A) : forall n i, (i < n)%nat -> nth_error (firstn n l) i = nth_error l i.
Proof.
  induction l as [|x l IH]; intros n i H; destruct n as [|n]; try lia; cbn.
  - destruct i; reflexivity.
  - destruct i as [|i]; cbn; [reflexivity|]. apply IH. lia.
Qed.
Lemma nth_error_skipn' (A : Type) (l : list A) : forall n i, nth_error (skipn n l) i = nth_error l (n + i).
Proof.
  induction l as [|x l IH]; intros n i; destruct n as [|n]; cbn; try reflexivity.
  - destruct i; reflexivity.
  - apply IH.
Qed.
Lemma leb_if (A : Type) a b (x : A) : (a <= b)%nat -> (if (a <=? b)%nat then Some x else None) = Some x.
Proof. intros H. destruct (Nat.leb_spec a b); [reflexivity|lia]. Qed.
Lemma leb_if_not (A : Type) a b (x : A) : (b < a)%nat -> (if (a <=? b)%nat then Some x else None) = None.
Proof. intros H. destruct (Nat.leb_spec a b); [lia|reflexivity]. Qed.

(** C43: reading. A segment inside the vector has the requested length and the
    coefficients of the vector at its place; head and tail are the segments at
    the two ends; an access outside is an assertion failure. *)
Lemma C43_read_segment_lemma : forall (v : vec) (start len : nat),
  ((start + len <= length v)%nat ->
     exists s, getSegment start len v = Some s /\ length s = len /\
       forall i, (i < len)%nat -> nth_error s i = nth_error v (start + i)) /\
  ((length v < start + len)%nat -> getSegment start len v = None) /\
  getHead len v = getSegment 0 len v /\
  ((len <= length v)%nat -> getTail len v = getSegment (length v - len) len v) /\
  ((length v < len)%nat -> getTail len v = None).
Proof.
  intros v start len. unfold getSegment, getHead, getTail. repeat split.
  - intros H. rewrite leb_if by exact H. eexists. split; [reflexivity|]. split.
    + rewrite firstn_length, skipn_length. lia.
    + intros i Hi. rewrite nth_error_firstn', nth_error_skipn' by exact Hi. reflexivity.
  - intros H. apply leb_if_not, H.
  - intros H. rewrite !leb_if by lia. f_equal. rewrite firstn_all2; [reflexivity|]. rewrite skipn_length. lia.
  - intros H. apply leb_if_not, H.
Qed.
Lemma C43_read_segment_ex : getSegment 1 2 [4; 5; 6; 7] = Some [5; 6] /\ getTail 2 [4; 5; 6; 7] = Some [6; 7].
Proof. split; reflexivity. Qed.

(** C43: writing. The written coefficients are read back, every other
    coefficient and the dimension are unchanged; setHead/setTail write at the
    two ends; a write outside is an assertion failure. *)
Lemma C43_write_segment_lemma : forall (v input : vec) (start : nat),
  ((start + length input <= length v)%nat ->
     exists w, setSegment start input v = Some w /\ length w = length v /\
       getSegment start (length input) w = Some input /\
       (forall i, (i < length input)%nat -> nth_error w (start + i) = nth_error input i) /\
       (forall i, (i < start \/ start + length input <= i)%nat -> nth_error w i = nth_error v i)) /\
  ((length v < start + length input)%nat -> setSegment start input v = None) /\
  setHead input v = setSegment 0 input v /\
  ((length input <= length v)%nat -> setTail input v = setSegment (length v - length input) input v) /\
  ((length v < length input)%nat -> setTail input v = None).
Proof.
  intros v input start. unfold setSegment, setHead, setTail. repeat split.
  - intros H. rewrite leb_if by exact H.
    assert (L1 : length (firstn start v) = start) by (rewrite firstn_length; lia).
    assert (L : length (firstn start v ++ input ++ skipn (start + length input) v) = length v).
    { rewrite !app_length, L1, skipn_length. lia. }
    eexists. split; [reflexivity|]. split; [exact L|]. split; [|split].
    + unfold getSegment. rewrite L, leb_if by exact H. f_equal.
      rewrite skipn_app, L1, Nat.sub_diag, skipn_all2 by lia. cbn [app skipn].
      rewrite firstn_app, Nat.sub_diag, firstn_all. cbn. apply app_nil_r.
    + intros i Hi. rewrite nth_error_app2 by lia. rewrite L1.
      replace (start + i - start)%nat with i by lia. apply nth_error_app1. exact Hi.
    + intros i [Hi|Hi].
      * rewrite nth_error_app1 by lia. apply nth_error_firstn', Hi.
      * rewrite nth_error_app2 by lia. rewrite L1, nth_error_app2 by lia. rewrite nth_error_skipn'.
        f_equal. lia.
  - intros H. apply leb_if_not, H.
  - intros H. rewrite !leb_if by lia.
    replace (length v - length input + length input)%nat with (length v) by lia.
    rewrite skipn_all, app_nil_r. reflexivity.
  - intros H. apply leb_if_not, H.
Qed.
Lemma C43_write_segment_ex : setSegment 1 [8; 9] [4; 5; 6; 7] = Some [4; 8; 9; 7] /\ setTail [8; 9] [4; 5; 6; 7] = Some [4; 5; 8; 9].
Proof. split; reflexivity. Qed.

Lemma nth_error_seq n i s : (i < n)%nat -> nth_error (seq s n) i = Some (s + i)%nat.
Proof.
  revert s i. induction n as [|n IH]; intros s i H; [lia|]. cbn. destruct i as [|i]; cbn.
  - f_equal. lia.
  - rewrite IH by lia. f_equal. lia.
Qed.
(** C43: Zero() has only zeros; UnitX/Y/Z have a one in exactly the named place
    and exist iff the dimension is large enough. *)
Lemma C43_constructors_lemma : forall n : nat,
  (length (vec_zero n) = n /\ forall i, (i < n)%nat -> nth_error (vec_zero n) i = Some 0) /\
  (forall u k, (u, k) = (unitX n, 0%nat) \/ (u, k) = (unitY n, 1%nat) \/ (u, k) = (unitZ n, 2%nat) ->
     ((k < n)%nat <-> u <> None) /\
     forall v, u = Some v -> length v = n /\
       forall i, (i < n)%nat -> nth_error v i = Some (if Nat.eq_dec i k then 1 else 0)).
Proof.
  intros n. split.
  - unfold vec_zero. split; [apply repeat_length|]. intros i H. apply nth_error_repeat, H.
  - assert (G : forall k, ((k < n)%nat <-> vec_unit n k <> None) /\
     forall v, vec_unit n k = Some v -> length v = n /\
       forall i, (i < n)%nat -> nth_error v i = Some (if Nat.eq_dec i k then 1 else 0)).
    { intros k. unfold vec_unit. destruct (Nat.ltb_spec k n) as [H|H].
      - split; [split; [discriminate|auto]|]. intros v E. injection E as <-. split.
        + rewrite map_length, seq_length. reflexivity.
        + intros i Hi. rewrite nth_error_map, (nth_error_seq n i 0 Hi). cbn.
          destruct (Nat.eqb_spec i k), (Nat.eq_dec i k); congruence.
      - split; [split; [lia|congruence]|]. discriminate. }
    intros u k [H|[H|H]]; injection H as -> ->; apply G.
Qed.
Lemma C43_constructors_ex : unitY 4 = Some [0; 1; 0; 0] /\ unitZ 2 = None.
Proof. split; reflexivity. Qed.

(** ** arithmetic *)
Lemma vec_sum_app a b : vec_sum (a ++ b) = vec_sum a + vec_sum b.
Proof. unfold vec_sum. induction a as [|x a IH]; cbn in *; [lra|]. rewrite IH. lra. Qed.
Lemma dot_comm a : forall b, vec_dot a b = vec_dot b a.
Proof.
  unfold vec_dot, vec_sum. induction a as [|x a IH]; intros [|y b]; cbn; try reflexivity. rewrite IH. ring.
Qed.
Lemma dot_cons x a y b : vec_dot (x :: a) (y :: b) = x * y + vec_dot a b.
Proof. reflexivity. Qed.
Lemma dot_add a : forall b c, length a = length c -> length b = length c ->
  vec_dot (vec_add a b) c = vec_dot a c + vec_dot b c.
Proof.
  induction a as [|x a IH]; intros [|y b] [|z c] H1 H2; cbn in H1, H2; try lia.
  - unfold vec_dot, vec_sum; cbn. lra.
  - unfold vec_add. cbn [zipWith]. rewrite !dot_cons. fold (vec_add a b). rewrite IH by lia. ring.
Qed.
Lemma dot_sub a : forall b c, length a = length c -> length b = length c ->
  vec_dot (vec_sub a b) c = vec_dot a c - vec_dot b c.
Proof.
  induction a as [|x a IH]; intros [|y b] [|z c] H1 H2; cbn in H1, H2; try lia.
  - unfold vec_dot, vec_sum; cbn. lra.
  - unfold vec_sub. cbn [zipWith]. rewrite !dot_cons. fold (vec_sub a b). rewrite IH by lia. ring.
Qed.
Lemma dot_mul s a : forall b, vec_dot (vec_mul a s) b = s * vec_dot a b.
Proof.
  induction a as [|x a IH]; intros [|y b]; try (unfold vec_dot, vec_sum; cbn; ring).
  unfold vec_mul. cbn [map]. rewrite !dot_cons. fold (vec_mul a s). rewrite IH. ring.
Qed.
Lemma sq_nonneg a : 0 <= vec_squaredNorm a.
Proof.
  unfold vec_squaredNorm. induction a as [|x a IH].
  - unfold vec_dot, vec_sum; cbn. lra.
  - rewrite dot_cons. nra.
Qed.
Lemma sq_zero a : vec_squaredNorm a = 0 <-> a = vec_zero (length a).
Proof.
  unfold vec_squaredNorm, vec_zero. induction a as [|x a IH].
  - split; [reflexivity|]. intros _. unfold vec_dot, vec_sum; cbn. reflexivity.
  - rewrite dot_cons. cbn [length repeat]. pose proof (sq_nonneg a) as P. unfold vec_squaredNorm in P. split.
    + intros H. assert (vec_dot a a = 0) by nra. assert (x = 0) by nra. f_equal; [assumption|]. apply IH; assumption.
    + intros H. assert (x = 0) by congruence. assert (a = repeat 0 (length a)) by congruence.
      apply IH in H1. nra.
Qed.
Lemma norm_nonneg a : 0 <= vec_norm a.
Proof. apply sqrt_pos. Qed.
Lemma norm_sq a : vec_norm a * vec_norm a = vec_squaredNorm a.
Proof. apply sqrt_sqrt, sq_nonneg. Qed.
Lemma sq_sub_mul a b s : length a = length b ->
  vec_squaredNorm (vec_sub a (vec_mul b s)) = vec_squaredNorm a - 2 * s * vec_dot a b + s * s * vec_squaredNorm b.
Proof.
  intros L. unfold vec_squaredNorm.
  assert (Lm : length (vec_mul b s) = length b) by apply map_length.
  assert (Ls : length (vec_sub a (vec_mul b s)) = length a) by (apply zipWith_length; lia).
  rewrite dot_sub by lia. rewrite dot_mul. rewrite !(dot_comm _ (vec_sub _ _)).
  rewrite !dot_sub by lia. rewrite !dot_mul. rewrite (dot_comm b a). ring.
Qed.
Lemma cauchy_schwarz2 a b : length a = length b ->
  vec_dot a b * vec_dot a b <= vec_squaredNorm a * vec_squaredNorm b.
Proof.
  intros L. pose proof (sq_nonneg b) as B.
  destruct (Req_dec (vec_squaredNorm b) 0) as [Z|N].
  - pose proof (sq_nonneg (vec_sub a (vec_mul b (vec_squaredNorm a * vec_dot a b)))) as H1.
    pose proof (sq_nonneg (vec_sub a (vec_mul b (vec_dot a b)))) as H2.
    assert (D : vec_dot a b = 0).
    { apply sq_zero in Z. rewrite Z. unfold vec_zero. clear.
      generalize (length b) as n. induction a as [|x a IH]; intros [|n]; try reflexivity.
      cbn [repeat]. rewrite dot_cons, IH. ring. }
    rewrite D, Z. lra.
  - pose proof (sq_nonneg (vec_sub a (vec_mul b (vec_dot a b / vec_squaredNorm b)))) as H.
    rewrite sq_sub_mul in H by exact L. set (D := vec_dot a b) in *. set (B' := vec_squaredNorm b) in *.
    set (A := vec_squaredNorm a) in *.
    assert (P : 0 < B') by lra.
    replace (A - 2 * (D / B') * D + D / B' * (D / B') * B') with ((A * B' - D * D) / B') in H by (field; lra).
    assert (0 <= A * B' - D * D).
    { replace (A * B' - D * D) with ((A * B' - D * D) / B' * B') by (field; lra). nra. }
    lra.
Qed.
Lemma cauchy_schwarz a b : length a = length b -> Rabs (vec_dot a b) <= vec_norm a * vec_norm b.
Proof.
  intros L. pose proof (cauchy_schwarz2 a b L) as H.
  pose proof (norm_nonneg a); pose proof (norm_nonneg b).
  apply Rsqr_incr_0_var; [|nra]. rewrite <- Rsqr_abs. unfold Rsqr.
  replace (vec_norm a * vec_norm b * (vec_norm a * vec_norm b)) with ((vec_norm a * vec_norm a) * (vec_norm b * vec_norm b)) by ring.
  rewrite !norm_sq. exact H.
Qed.

(** C44: vector space laws; == is equality. *)
Lemma C44_vector_space_lemma : forall (a b c : vec) (s t : R),
  length a = length b -> length b = length c ->
  (forall i x y, nth_error a i = Some x -> nth_error b i = Some y ->
     nth_error (vec_add a b) i = Some (x + y) /\ nth_error (vec_sub a b) i = Some (x - y) /\
     nth_error (vec_mul a s) i = Some (x * s) /\ nth_error (vec_mul_left s a) i = Some (s * x) /\
     nth_error (vec_neg a) i = Some (- x) /\ nth_error (vec_cwiseProduct a b) i = Some (x * y)) /\
  length (vec_add a b) = length a /\ length (vec_sub a b) = length a /\ length (vec_mul a s) = length a /\
  vec_add a b = vec_add b a /\ vec_add (vec_add a b) c = vec_add a (vec_add b c) /\
  vec_add a (vec_zero (length a)) = a /\ vec_add a (vec_neg a) = vec_zero (length a) /\
  vec_sub a b = vec_add a (vec_neg b) /\
  vec_mul a 1 = a /\ vec_mul (vec_mul a s) t = vec_mul a (s * t) /\
  vec_mul (vec_add a b) s = vec_add (vec_mul a s) (vec_mul b s) /\
  vec_mul a (s + t) = vec_add (vec_mul a s) (vec_mul a t) /\
  (s <> 0 -> exists q, vec_div a s = Val q /\ vec_mul q s = a) /\ vec_div a 0 = NaN /\
  (vec_eq a b = true <-> a = b).
Proof.
  intros a b c s t L1 L2. split; [|split; [|split; [|split]]].
  - intros i x y Ha Hb. repeat split; try (apply zipWith_nth; assumption);
      unfold vec_mul_left, vec_mul, vec_neg; rewrite nth_error_map, Ha; cbn; try reflexivity. f_equal. ring.
  - apply zipWith_length, L1.
  - apply zipWith_length, L1.
  - apply map_length.
  - assert (DV : s <> 0 -> exists q, vec_div a s = Val q /\ vec_mul q s = a).
    { intros N. unfold vec_div. destruct (Req_EM_T s 0); [contradiction|]. eexists. split; [reflexivity|].
      clear - N. unfold vec_mul. induction a as [|x a IH]; cbn; [reflexivity|]. f_equal; [field; exact N|exact IH]. }
    assert (D0 : vec_div a 0 = NaN). { unfold vec_div. destruct (Req_EM_T 0 0); [reflexivity|contradiction]. }
    assert (EQ : vec_eq a b = true <-> a = b).
    { clear. revert b. induction a as [|x a IH]; intros [|y b]; cbn; try (split; [discriminate|discriminate]); [tauto|].
      rewrite andb_true_iff, Reqb_true, IH. split; [intros [-> ->]; reflexivity|]. intros E. split; congruence. }
    unfold vec_add, vec_sub, vec_mul, vec_neg, vec_zero in *.
    repeat match goal with |- _ /\ _ => split end; try assumption; clear DV D0 EQ;
      revert b c L1 L2; induction a as [|x a IH]; intros [|y b] [|z c] L1 L2; cbn in L1, L2 |- *; try lia; try reflexivity;
      (f_equal; try ring; apply (IH b c); lia).
Qed.
Lemma C44_vector_space_ex : vec_eq [1; 2; 3; 4] [1; 2; 3; 5] = false /\ exists q, vec_div [1; 2] 2 = Val q /\ q = [1/2; 2/2].
Proof.
  split.
  - destruct (vec_eq _ _) eqn:E; [|reflexivity]. exfalso.
    apply (C44_vector_space_lemma [1;2;3;4] [1;2;3;5] [1;2;3;5] 1 1 eq_refl eq_refl) in E.
    injection E. lra.
  - unfold vec_div. destruct (Req_EM_T 2 0); [lra|]. eexists. split; reflexivity.
Qed.

(** C44: dot and norm: bilinear, symmetric, Cauchy-Schwarz, triangle
    inequality, definiteness, homogeneity, in every dimension. *)
Lemma C44_dot_norm_lemma : forall (a b c : vec) (s : R), length a = length b -> length b = length c ->
  vec_dot a b = vec_dot b a /\ vec_dot (vec_add a b) c = vec_dot a c + vec_dot b c /\
  vec_dot (vec_mul a s) b = s * vec_dot a b /\
  vec_squaredNorm a = vec_dot a a /\ 0 <= vec_norm a /\ vec_norm a * vec_norm a = vec_squaredNorm a /\
  (vec_norm a = 0 <-> a = vec_zero (length a)) /\ vec_norm (vec_mul a s) = Rabs s * vec_norm a /\
  Rabs (vec_dot a b) <= vec_norm a * vec_norm b /\
  vec_norm (vec_add a b) <= vec_norm a + vec_norm b.
Proof.
  intros a b c s L1 L2. repeat split.
  - apply dot_comm.
  - apply dot_add; lia.
  - apply dot_mul.
  - apply norm_nonneg.
  - apply norm_sq.
  - intros H. apply sq_zero. rewrite <- norm_sq, H. ring.
  - intros H. apply sq_zero in H. unfold vec_norm. rewrite H. apply sqrt_0.
  - unfold vec_norm, vec_squaredNorm. rewrite dot_mul, dot_comm, dot_mul, <- Rmult_assoc.
    rewrite sqrt_mult_alt by nra. f_equal. apply sqrt_Rsqr_abs.
  - apply cauchy_schwarz, L1.
  - pose proof (norm_nonneg a); pose proof (norm_nonneg b).
    apply Rsqr_incr_0_var; [|lra]. unfold Rsqr. rewrite norm_sq. unfold vec_squaredNorm.
    assert (La : length (vec_add a b) = length a) by (apply zipWith_length; lia).
    rewrite dot_add by lia. rewrite !(dot_comm _ (vec_add a b)), !dot_add by lia.
    pose proof (cauchy_schwarz a b L1) as CS. pose proof (Rle_abs (vec_dot a b)) as CA.
    pose proof (norm_sq a) as NA; pose proof (norm_sq b) as NB. unfold vec_squaredNorm in NA, NB.
    rewrite (dot_comm b a). nra.
Qed.
Lemma C44_dot_norm_ex : length [1; 2; 3; 4; 5] = length [0; 0; 1; 0; 2] /\ vec_dot [1; 2; 3; 4; 5] [0; 0; 1; 0; 2] = 13.
Proof. split; [reflexivity|]. unfold vec_dot, vec_sum; cbn. lra. Qed.

(** C44: normalized(): norm one, same direction; the zero vector is returned
    unchanged. *)
Lemma C44_normalized_lemma : forall a : vec,
  (a <> vec_zero (length a) -> vec_norm (vec_normalized a) = 1 /\
     exists s, 0 < s /\ s = / vec_norm a /\ vec_normalized a = vec_mul a s) /\
  (a = vec_zero (length a) -> vec_normalized a = a).
Proof.
  intros a. unfold vec_normalized. pose proof (sq_nonneg a) as P. split.
  - intros N. assert (Z : vec_squaredNorm a <> 0) by (intros Z; apply N, sq_zero, Z).
    destruct (Rlt_dec 0 (vec_squaredNorm a)) as [Hp|]; [|lra].
    assert (S : 0 < sqrt (vec_squaredNorm a)) by (apply sqrt_lt_R0, Hp).
    assert (E : map (fun x => x / sqrt (vec_squaredNorm a)) a = vec_mul a (/ vec_norm a)) by reflexivity.
    rewrite E. split.
    + unfold vec_norm at 1. unfold vec_squaredNorm. rewrite dot_mul, dot_comm, dot_mul.
      fold (vec_squaredNorm a). rewrite <- norm_sq. fold (vec_norm a) in S.
      replace (/ vec_norm a * (/ vec_norm a * (vec_norm a * vec_norm a))) with 1 by (field; lra). apply sqrt_1.
    + exists (/ vec_norm a). split; [apply Rinv_0_lt_compat; exact S|]. split; reflexivity.
  - intros H. apply sq_zero in H. destruct (Rlt_dec 0 (vec_squaredNorm a)); [lra|reflexivity].
Qed.
Lemma C44_normalized_ex : [3; 0; 4; 0] <> vec_zero 4.
Proof. intros H. injection H. lra. Qed.

(** C44: projectOn is the orthogonal projection onto the line spanned by the
    other vector, the nearest point of that line; projecting on the zero vector
    is 0/0. *)
Lemma C44_projection_lemma : forall a b : vec, length a = length b ->
  (b <> vec_zero (length b) ->
     exists q s, vec_projectOn a b = Val q /\ q = vec_mul b s /\
       vec_dot (vec_sub a q) b = 0 /\
       (forall r, vec_norm (vec_sub a q) <= vec_norm (vec_sub a (vec_mul b r))) /\
       vec_projectOn q b = Val q) /\
  (b = vec_zero (length b) -> vec_projectOn a b = NaN).
Proof.
  intros a b L. unfold vec_projectOn, cdiv. split.
  - intros N. assert (Z : vec_squaredNorm b <> 0) by (intros Z; apply N, sq_zero, Z).
    destruct (Req_EM_T (vec_squaredNorm b) 0) as [E|_]; [contradiction|]. cbn [obind].
    set (f := vec_dot a b / vec_squaredNorm b).
    assert (Lm : length (vec_mul b f) = length b) by apply map_length.
    exists (vec_mul b f), f. repeat split.
    + rewrite dot_sub, dot_mul by lia. fold (vec_squaredNorm b). unfold f. field. exact Z.
    + intros r. apply sqrt_le_1_alt. rewrite !sq_sub_mul by exact L.
      pose proof (sq_nonneg b). assert (D : vec_dot a b = f * vec_squaredNorm b) by (unfold f; field; exact Z).
      rewrite D. clearbody f. assert (0 <= (f - r) * (f - r) * vec_squaredNorm b) by (apply Rmult_le_pos; [apply (Rle_0_sqr (f - r))|lra]). lra.
    + f_equal. f_equal. rewrite dot_mul. fold (vec_squaredNorm b). unfold f. field. exact Z.
  - intros H. apply sq_zero in H. destruct (Req_EM_T (vec_squaredNorm b) 0); [reflexivity|contradiction].
Qed.

(** C44: cross product (dimension 3): defined exactly for dimension 3,
    orthogonal to both operands, antisymmetric, |a x b|^2 + (a.b)^2 = |a|^2 |b|^2,
    right-handed (det(a,b,c) = |c|^2). *)
Lemma C44_cross_lemma : forall a b : vec, length a = length b ->
  (length a = 3%nat <-> vec_cross a b <> None) /\
  forall c, vec_cross a b = Some c -> length c = 3%nat /\ vec_dot c a = 0 /\ vec_dot c b = 0 /\
    vec_cross b a = Some (vec_neg c) /\
    vec_squaredNorm c + vec_dot a b * vec_dot a b = vec_squaredNorm a * vec_squaredNorm b /\
    vec_dot c [nth 1 a 0 * nth 2 b 0 - nth 2 a 0 * nth 1 b 0;
               nth 2 a 0 * nth 0 b 0 - nth 0 a 0 * nth 2 b 0;
               nth 0 a 0 * nth 1 b 0 - nth 1 a 0 * nth 0 b 0] = vec_squaredNorm c.
Proof.
  intros a b L.
  destruct a as [|a0 [|a1 [|a2 [|a3 a]]]], b as [|b0 [|b1 [|b2 [|b3 b]]]]; cbn in L; try lia;
    try (split; [split; [cbn; lia|cbn; congruence]|cbn; discriminate]).
  split; [split; [cbn; discriminate|reflexivity]|].
  intros c E. cbn in E. injection E as <-. unfold vec_squaredNorm, vec_dot, vec_sum, vec_neg; cbn.
  repeat split; try ring. assert (X : forall x y z x' y' z' : R, x = x' -> y = y' -> z = z' -> Some [x; y; z] = Some [x'; y'; z']) by (intros; subst; reflexivity).
  apply X; ring.
Qed.
Lemma C44_cross_ex : vec_cross [1; 0; 0] [0; 1; 0] = Some [0 * 0 - 0 * 1; 0 * 0 - 1 * 0; 1 * 1 - 0 * 0].
Proof. reflexivity. Qed.

Lemma fold_max_spec l : forall x, x <= fold_left Rmax l x /\ (forall y, In y l -> y <= fold_left Rmax l x) /\
  (fold_left Rmax l x = x \/ In (fold_left Rmax l x) l).
Proof.
  induction l as [|y l IH]; intros x; cbn [fold_left].
  - split; [lra|]. split; [intros y []|left; reflexivity].
  - destruct (IH (Rmax x y)) as (A & B & C). pose proof (Rmax_l x y); pose proof (Rmax_r x y). split; [lra|]. split.
    + intros z [<-|H']; [lra|apply B, H'].
    + destruct C as [C|C]; [|right; right; exact C]. rewrite C. unfold Rmax. destruct (Rle_dec x y); [right; left|left]; reflexivity.
Qed.
Lemma fold_min_spec l : forall x, fold_left Rmin l x <= x /\ (forall y, In y l -> fold_left Rmin l x <= y) /\
  (fold_left Rmin l x = x \/ In (fold_left Rmin l x) l).
Proof.
  induction l as [|y l IH]; intros x; cbn [fold_left].
  - split; [lra|]. split; [intros y []|left; reflexivity].
  - destruct (IH (Rmin x y)) as (A & B & C). pose proof (Rmin_l x y); pose proof (Rmin_r x y). split; [lra|]. split.
    + intros z [<-|H']; [lra|apply B, H'].
    + destruct C as [C|C]; [|right; right; exact C]. rewrite C. unfold Rmin. destruct (Rle_dec x y); [left|right; left]; reflexivity.
Qed.
Lemma vec_max_spec a m : vec_max a = Some m -> In m a /\ forall x, In x a -> x <= m.
Proof.
  destruct a as [|x a]; cbn; [discriminate|]. intros E. injection E as <-.
  destruct (fold_max_spec a x) as (A & B & C). split.
  - destruct C as [C|C]; [left; symmetry; exact C|right; exact C].
  - intros y [<-|H]; [exact A|apply B, H].
Qed.
Lemma vec_min_spec a m : vec_min a = Some m -> In m a /\ forall x, In x a -> m <= x.
Proof.
  destruct a as [|x a]; cbn; [discriminate|]. intros E. injection E as <-.
  destruct (fold_min_spec a x) as (A & B & C). split.
  - destruct C as [C|C]; [left; symmetry; exact C|right; exact C].
  - intros y [<-|H]; [exact A|apply B, H].
Qed.
Lemma sum_bounds lo hi a : (forall x, In x a -> lo <= x <= hi) ->
  INR (length a) * lo <= vec_sum a <= INR (length a) * hi.
Proof.
  unfold vec_sum. induction a as [|x a IH]; intros H; cbn [length fold_right].
  - cbn. lra.
  - rewrite S_INR. destruct IH as [I1 I2]; [intros y Hy; apply H; right; exact Hy|].
    specialize (H x (or_introl eq_refl)). lra.
Qed.
(** C44: max/min are the largest/smallest coefficient (and are coefficients),
    mean lies between them and n*mean is the sum; abs is coefficientwise; the
    reductions exist for every non-empty vector. *)
Lemma C44_reductions_lemma : forall a : vec, a <> [] ->
  exists mx mn me, vec_max a = Some mx /\ vec_min a = Some mn /\ vec_mean a = Some me /\
    (In mx a /\ forall x, In x a -> x <= mx) /\ (In mn a /\ forall x, In x a -> mn <= x) /\
    mn <= me <= mx /\ INR (length a) * me = vec_sum a /\
    (forall i x, nth_error a i = Some x -> nth_error (vec_abs a) i = Some (Rabs x)).
Proof.
  intros a N. destruct a as [|x a]; [congruence|].
  assert (EM : vec_max (x :: a) = Some (fold_left Rmax a x)) by reflexivity.
  assert (Em : vec_min (x :: a) = Some (fold_left Rmin a x)) by reflexivity.
  pose proof (vec_max_spec _ _ EM) as SM. pose proof (vec_min_spec _ _ Em) as Sm.
  do 3 eexists. split; [exact EM|]. split; [exact Em|]. split; [reflexivity|].
  split; [exact SM|]. split; [exact Sm|].
  assert (P : 0 < INR (length (x :: a))) by (apply lt_0_INR; cbn; lia).
  destruct (sum_bounds (fold_left Rmin a x) (fold_left Rmax a x) (x :: a)) as [B1 B2].
  { intros y Hy. split; [apply Sm, Hy|apply SM, Hy]. }
  split; [split|split].
  - apply Rmult_le_reg_l with (1 := P). unfold Rdiv. rewrite (Rmult_comm (vec_sum _)), <- Rmult_assoc, Rinv_r by lra. lra.
  - apply Rmult_le_reg_l with (1 := P). unfold Rdiv. rewrite (Rmult_comm (vec_sum _)), <- Rmult_assoc, Rinv_r by lra. lra.
  - field. lra.
  - intros i y H. unfold vec_abs. rewrite nth_error_map, H. reflexivity.
Qed.

(** C44: isSimilarTo is true exactly when every coefficient differs by less
    than the tolerance. *)
Lemma C44_similar_lemma : forall (a b : vec) (tol : R), length a = length b -> a <> [] ->
  exists r, isSimilarTo a b tol = Some r /\
    (r = true <-> forall i x y, nth_error a i = Some x -> nth_error b i = Some y -> Rabs (x - y) < tol).
Proof.
  intros a b tol L N. unfold isSimilarTo.
  assert (LS : length (vec_sub a b) = length a) by (apply zipWith_length, L).
  assert (NE : vec_abs (vec_sub a b) <> []).
  { intros E. apply (f_equal (@length R)) in E. unfold vec_abs in E. rewrite map_length, LS in E.
    destruct a; [congruence|discriminate]. }
  destruct (C44_reductions_lemma _ NE) as (mx & _ & _ & E & _ & _ & SM & _). rewrite E.
  eexists. split; [reflexivity|]. rewrite Rltb_true. split.
  - intros H i x y Ha Hb. assert (I : In (Rabs (x - y)) (vec_abs (vec_sub a b))).
    { apply (in_map Rabs). apply nth_error_In with i. apply zipWith_nth; assumption. }
    apply SM in I. lra.
  - intros H. destruct SM as [I _]. unfold vec_abs in I. apply in_map_iff in I. destruct I as (d & <- & I).
    apply In_nth_error in I. destruct I as [i Hi].
    assert (Li : (i < length a)%nat). { rewrite <- LS. apply nth_error_Some. congruence. }
    destruct (nth_error a i) as [x|] eqn:Ea; [|apply nth_error_None in Ea; lia].
    destruct (nth_error b i) as [y|] eqn:Eb; [|apply nth_error_None in Eb; lia].
    pose proof (zipWith_nth Rminus a b i x y Ea Eb) as Z. fold (vec_sub a b) in Z.
    rewrite Hi in Z. injection Z as ->. eapply H; eassumption.
Qed.
Lemma C44_similar_ex : length [1; 2; 3; 4] = length [1; 2; 3; 5] /\ [1; 2; 3; 4] <> [].
Proof. split; [reflexivity|discriminate]. Qed.

(** C44: multiplication and division by a one-dimensional (typed scalar) vector
    on either side scale every coefficient; two vectors of dimension > 1 do not
    multiply. *)
Lemma C44_typed_scalar_lemma : forall (a : vec) (s : R),
  vec_mul_vec a [s] = Some (vec_mul a s) /\ vec_mul_vec [s] a = Some (vec_mul a s) /\
  (s <> 0 -> exists q, vec_div_vec a [s] = Some (Val q) /\ vec_mul_vec q [s] = Some a) /\
  (forall b, length a <> 1%nat -> length b <> 1%nat -> vec_mul_vec a b = None /\ vec_div_vec a b = None).
Proof.
  intros a s. repeat split.
  - destruct a as [|x [|y a]]; cbn; try reflexivity. f_equal. f_equal. ring.
  - intros N. destruct (C44_vector_space_lemma a a a s s eq_refl eq_refl) as (_&_&_&_&_&_&_&_&_&_&_&_&_&D&_).
    destruct (D N) as (q & E & M). exists q. cbn. rewrite E, M. split; reflexivity.
  - destruct a as [|x [|y a]], b as [|z [|w b]]; cbn in *; try reflexivity; lia.
  - destruct b as [|z [|w b]]; cbn in *; try reflexivity; lia.
Qed.
(** C44: elementwise division is defined iff no divisor coefficient is zero,
    and is undone by the elementwise product. *)
Lemma C44_elementwise_division_lemma : forall a b : vec, length a = length b ->
  ((forall y, In y b -> y <> 0) -> exists q, vec_cwiseQuotient a b = Val q /\ vec_cwiseProduct q b = a) /\
  ((exists y, In y b /\ y = 0) -> vec_cwiseQuotient a b = NaN).
Proof.
  intros a b L. unfold vec_cwiseQuotient. split.
  - intros H. assert (F : forallb (fun y => negb (Reqb y 0)) b = true).
    { apply forallb_forall. intros y Hy. apply negb_true_iff. destruct (Reqb y 0) eqn:E; [|reflexivity].
      apply Reqb_true in E. elim (H y Hy E). }
    rewrite F. eexists. split; [reflexivity|]. unfold vec_cwiseProduct. clear F.
    revert b L H. induction a as [|x a IH]; intros [|y b] L H; cbn in *; try lia; [reflexivity|].
    f_equal; [field; apply H; left; reflexivity|]. apply IH; [lia|]. intros z Hz. apply H. right. exact Hz.
  - intros (y & Hy & ->). destruct (forallb _ b) eqn:F; [|reflexivity]. exfalso.
    rewrite forallb_forall in F. specialize (F 0 Hy). apply negb_true_iff in F.
    assert (Reqb 0 0 = true) by (apply Reqb_true; reflexivity). congruence.
Qed.
Lemma C44_elementwise_division_ex : length [1; 2; 3; 4] = length [2; 2; 3; 5] /\ forall y, In y [2; 2; 3; 5] -> y <> 0.
Proof. split; [reflexivity|]. cbn. intros y H. intuition lra. Qed.
