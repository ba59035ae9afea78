(** Rounding errors of sums, dot products, norms, normalisation and projections of
    floating-point vectors of any dimension. *)
From Coq Require Import ZArith Reals Lra Psatz Bool List Lia Permutation.
From Flocq Require Import IEEE754.BinarySingleNaN Core.Core.
From Verif Require Import Linalg Spec SpecFacts ModelCommon FloatModel FloatFacts FloatModulo FloatWrap FloatModel2 SpecFloatQ FloatQFacts FloatQProd FloatModel10 SpecVecF FloatVec.
Import ListNotations.
Local Open Scope R_scope.

(** ** Real vectors *)
Lemma inner_self_nonneg a : 0 <= inner a a.
Proof. induction a as [|x a IH]; cbn [inner]; [lra|]. pose proof (Rle_0_sqr x) as S. unfold Rsqr in S. lra. Qed.
Lemma len_sq a : len a * len a = inner a a.
Proof. apply sqrt_sqrt, inner_self_nonneg. Qed.
Lemma len_nonneg a : 0 <= len a. Proof. apply sqrt_pos. Qed.
Lemma sq_le x y : 0 <= y -> x * x <= y * y -> x <= y.
Proof. intros Y H. apply Rsqr_incr_0_var; [exact H|exact Y]. Qed.
Lemma inner_abs_nonneg a b : 0 <= inner_abs a b.
Proof. revert b. induction a as [|x a IH]; intros [|y b]; cbn [inner_abs]; try lra. pose proof (Rabs_pos (x * y)). specialize (IH b). lra. Qed.
Lemma inner_le_abs a b : Rabs (inner a b) <= inner_abs a b.
Proof.
  revert b. induction a as [|x a IH]; intros [|y b]; cbn [inner inner_abs]; rewrite ?Rabs_R0; try lra.
  eapply Rle_trans; [apply Rabs_triang|]. specialize (IH b). lra.
Qed.
Lemma inner_abs_self a : inner_abs a a = inner a a.
Proof. induction a as [|x a IH]; cbn [inner inner_abs]; [reflexivity|]. rewrite IH, Rabs_pos_eq; [reflexivity|]. apply Rle_0_sqr. Qed.
Lemma inner_abs_len a : forall b, inner_abs a b <= len a * len b.
Proof.
  induction a as [|x a IH]; intros [|y b]; cbn [inner_abs]; try (apply Rmult_le_pos; apply len_nonneg).
  specialize (IH b). pose proof (len_nonneg a) as A. pose proof (len_nonneg b) as B. pose proof (len_nonneg (x :: a)) as A'. pose proof (len_nonneg (y :: b)) as B'.
  pose proof (len_sq (x :: a)) as SA. pose proof (len_sq (y :: b)) as SB. cbn [inner] in SA, SB. rewrite <- (len_sq a) in SA. rewrite <- (len_sq b) in SB.
  set (al := len a) in *. set (be := len b) in *. rewrite Rabs_mult. pose proof (Rabs_pos x) as X. pose proof (Rabs_pos y) as Y.
  assert (SX : Rabs x * Rabs x = x * x) by (rewrite <- Rabs_mult; apply Rabs_pos_eq, Rle_0_sqr). assert (SY : Rabs y * Rabs y = y * y) by (rewrite <- Rabs_mult; apply Rabs_pos_eq, Rle_0_sqr).
  apply Rle_trans with (Rabs x * Rabs y + al * be); [lra|]. apply sq_le; [now apply Rmult_le_pos|].
  replace (len (x :: a) * len (y :: b) * (len (x :: a) * len (y :: b))) with ((len (x :: a) * len (x :: a)) * (len (y :: b) * len (y :: b))) by ring.
  rewrite SA, SB, <- SX, <- SY. pose proof (Rle_0_sqr (Rabs x * be - Rabs y * al)) as Q. unfold Rsqr in Q.
  replace ((Rabs x * Rabs x + al * al) * (Rabs y * Rabs y + be * be)) with ((Rabs x * Rabs y + al * be) * (Rabs x * Rabs y + al * be) + (Rabs x * be - Rabs y * al) * (Rabs x * be - Rabs y * al)) by ring. lra.
Qed.
Lemma coef_le_len a i x : nth_error a i = Some x -> Rabs x <= len a.
Proof.
  intro H. apply sq_le; [apply len_nonneg|]. rewrite len_sq, <- Rabs_mult, Rabs_pos_eq by apply Rle_0_sqr. revert i H.
  induction a as [|y a IH]; intros [|i] H; try discriminate H; cbn [nth_error inner] in *.
  - injection H as ->. pose proof (inner_self_nonneg a). lra.
  - specialize (IH i H). pose proof (Rle_0_sqr y) as S. unfold Rsqr in S. lra.
Qed.
Lemma minus_sq a : forall b, length a = length b -> inner (minus a b) (minus a b) = inner a a - 2 * inner a b + inner b b.
Proof. induction a as [|x a IH]; intros [|y b] L; try discriminate L; cbn [minus inner]; [ring|]. injection L as L. rewrite (IH b L). ring. Qed.
(** reverse triangle inequality *)
Lemma len_far a b : length a = length b -> Rabs (len a - len b) <= far a b.
Proof.
  intro L. pose proof (len_nonneg a) as A. pose proof (len_nonneg b) as B. apply sq_le; [apply len_nonneg|]. rewrite <- Rabs_mult, Rabs_pos_eq by apply Rle_0_sqr. unfold far. rewrite len_sq, minus_sq by exact L.
  rewrite <- (len_sq a), <- (len_sq b). pose proof (inner_le_abs a b) as I. pose proof (inner_abs_len a b) as C. pose proof (Rle_abs (inner a b)). lra.
Qed.
(** coefficients off by [al] times a vector [x] plus [be] each *)
Lemma len_mixed al be : 0 <= al -> 0 <= be -> forall d x, length d = length x ->
  (forall i u v, nth_error d i = Some u -> nth_error x i = Some v -> Rabs u <= al * Rabs v + be) -> len d <= al * len x + dimension d * be.
Proof.
  intros A B d x L H. unfold dimension. apply sq_le; [pose proof (len_nonneg x); pose proof (pos_INR (length d)); pose proof (Rmult_le_pos al (len x)); pose proof (Rmult_le_pos (INR (length d)) be); lra|].
  rewrite len_sq.
  assert (K : inner d d <= al * al * inner x x + 2 * al * be * total_abs x + INR (length d) * (be * be)).
  { clear -A B L H. revert x L H. induction d as [|u d IH]; intros [|v x] L H; try discriminate L.
    - cbn [inner total_abs fold_right length INR]. lra.
    - injection L as L. specialize (IH x L (fun i => H (S i))). pose proof (H 0%nat u v eq_refl eq_refl) as H0. cbn [inner]. unfold total_abs in *. cbn [fold_right]. rewrite length_cons_INR || (cbn [length]; rewrite S_INR).
      assert (U : u * u <= (al * Rabs v + be) * (al * Rabs v + be)).
      { rewrite <- (Rabs_pos_eq (u * u)) by apply Rle_0_sqr. rewrite Rabs_mult. apply Rmult_le_compat; try apply Rabs_pos; assumption. }
      assert (V : Rabs v * Rabs v = v * v) by (rewrite <- Rabs_mult; apply Rabs_pos_eq, Rle_0_sqr).
      replace ((al * Rabs v + be) * (al * Rabs v + be)) with (al * al * (Rabs v * Rabs v) + 2 * al * be * Rabs v + be * be) in U by ring. rewrite V in U. lra. }
  assert (T : total_abs x <= INR (length x) * len x).
  { assert (G : forall c, (forall i v, nth_error x i = Some v -> Rabs v <= c) -> total_abs x <= INR (length x) * c).
    { clear. intro c. induction x as [|v x IH]; intro H; unfold total_abs in *; cbn [fold_right length]; [cbn; lra|]. rewrite S_INR. pose proof (H 0%nat v eq_refl). specialize (IH (fun i => H (S i))). lra. }
    apply G. intros i v E. eapply coef_le_len; exact E. }
  rewrite <- L in T. rewrite <- (len_sq x) in K. set (N := INR (length d)) in *. assert (N0 : 0 <= N) by apply pos_INR. assert (N1 : N <= N * N).
  { unfold N. destruct (length d) as [|n]; [cbn; lra|]. assert (1 <= INR (S n)) by (change 1 with (INR 1); apply le_INR; lia). pose proof (Rmult_le_compat_r (INR (S n)) 1 (INR (S n))). lra. }
  assert (T2 : 2 * al * be * total_abs x <= 2 * al * be * (N * len x)) by (apply Rmult_le_compat_l; [repeat apply Rmult_le_pos; lra|exact T]).
  assert (B2 : N * (be * be) <= N * N * (be * be)) by (apply Rmult_le_compat_r; [now apply Rmult_le_pos|exact N1]).
  replace ((al * len x + N * be) * (al * len x + N * be)) with (al * al * (len x * len x) + 2 * al * be * (N * len x) + N * N * (be * be)) by ring. lra.
Qed.

(** ** Sums of products *)
Lemma pow_small u n : 0 <= u -> INR n * u <= 1 -> (1 + u) ^ n <= 1 + INR n * u + (INR n * u) * (INR n * u).
Proof.
  intros U. induction n as [|n IH]; intro H; [cbn; lra|]. rewrite S_INR in *. pose proof (pos_INR n) as N.
  assert (H' : INR n * u <= 1) by lra. specialize (IH H'). cbn [pow].
  apply Rle_trans with ((1 + u) * (1 + INR n * u + INR n * u * (INR n * u))); [apply Rmult_le_compat_l; lra|].
  set (m := INR n) in *. assert (Q1 : m * u * (u * (m * u)) <= 1 * (u * (m * u))) by (apply Rmult_le_compat_r; [repeat apply Rmult_le_pos; lra|lra]).
  assert (Q2 : 0 <= u * u) by (now apply Rmult_le_pos). assert (Q3 : 0 <= m * (u * u)) by (now apply Rmult_le_pos).
  replace ((m + 1) * u * ((m + 1) * u)) with (m * u * (m * u) + 2 * (m * (u * u)) + u * u) by ring. lra.
Qed.
Lemma ebound_n p n s : INR n * fu p <= / 100 -> 0 <= s -> ebound p n s <= 101/100 * INR n * fu p * s + 102/100 * INR n * eta p.
Proof.
  intros H S. unfold ebound. pose proof (fu_pos p) as U. pose proof (eta_pos p) as E. pose proof (pos_INR n) as N.
  pose proof (pow_small (fu p) n ltac:(lra) ltac:(lra)) as P. set (m := INR n * fu p) in *. assert (M : 0 <= m) by (apply Rmult_le_pos; lra).
  assert (MM : m * m <= / 100 * m) by (apply Rmult_le_compat_r; lra).
  assert (A1 : ((1 + fu p) ^ n - 1) * s <= (101/100 * m) * s) by (apply Rmult_le_compat_r; lra).
  assert (A2 : INR n * (1 + fu p) ^ n * eta p <= INR n * (102/100) * eta p).
  { apply Rmult_le_compat_r; [lra|]. apply Rmult_le_compat_l; lra. }
  unfold m in *. lra.
Qed.
Lemma n_eta p n : INR n * fu p <= / 100 -> INR n * eta p <= / 100 * bpow radix2 (-126).
Proof.
  intro H. pose proof (eta_u p) as E. pose proof (pos_INR n) as N. pose proof (bpow_gt_0 radix2 (-126)) as P.
  apply Rle_trans with (INR n * (fu p * bpow radix2 (-126))); [now apply Rmult_le_compat_l|]. rewrite <- Rmult_assoc. apply Rmult_le_compat_r; lra.
Qed.
Lemma inner_dot p (a b : fvec p) : length a = length b ->
  dsum (cf fzero a) (cf fzero b) (seq 0 (length a)) = inner (values a) (values b) /\
  dabs (cf fzero a) (cf fzero b) (seq 0 (length a)) = inner_abs (values a) (values b).
Proof.
  unfold dsum, dabs. revert b. induction a as [|x a IH]; intros [|y b] L; try discriminate L; [split; reflexivity|].
  injection L as L. destruct (IH b L) as [I1 I2]. cbn [length seq values map inner inner_abs]. rewrite <- seq_shift.
  assert (M : forall f l, rsum f (map S l) = rsum (fun i => f (S i)) l) by (intros f l; induction l as [|k l IHl]; cbn; [reflexivity|now rewrite IHl]).
  split; cbn [rsum]; rewrite M; (f_equal; [assumption]).
Qed.
Lemma fv_dot_err p (t : dtree) (a b : fvec p) : order (length a) t -> length a = length b -> all_finite a -> all_finite b ->
  dimension a * fu p <= / 100 -> inner_abs (values a) (values b) <= fbig p / 2 ->
  is_finite (fv_dot t a b) = true /\
  Rabs (B2R (fv_dot t a b) - inner (values a) (values b)) <= 101/100 * dimension a * fu p * inner_abs (values a) (values b) + 102/100 * dimension a * eta p.
Proof.
  intros O L Fa Fb Hn HB. unfold dimension in *. pose proof (order_length _ _ O) as Ln. destruct (inner_dot p a b L) as [I1 I2].
  assert (D1 : dsum (cf fzero a) (cf fzero b) (dleaves t) = inner (values a) (values b)) by (rewrite <- I1; apply rsum_perm; exact O).
  assert (D2 : dabs (cf fzero a) (cf fzero b) (dleaves t) = inner_abs (values a) (values b)) by (rewrite <- I2; apply rsum_perm; exact O).
  pose proof (inner_abs_nonneg (values a) (values b)) as N. pose proof (ebound_n p (length a) _ Hn N) as EB. pose proof (n_eta p (length a) Hn) as NE.
  assert (FB : bpow radix2 (-126) <= fbig p) by (apply bpow_le; destruct p; cbn; lia).
  assert (Q : 101/100 * INR (length a) * fu p * inner_abs (values a) (values b) <= 101/100 * (/ 100) * inner_abs (values a) (values b)) by (apply Rmult_le_compat_r; lra).
  destruct (feval_err p (cf fzero a) (cf fzero b) t) as [F E].
  - intros i Hi. apply (Permutation_in i O) in Hi. apply in_seq in Hi. unfold cf. unfold all_finite in *. rewrite Forall_forall in Fa, Fb. split; [apply Fa|apply Fb]; apply nth_In; lia.
  - rewrite D2, Ln. lra.
  - rewrite D1, D2, Ln in E. assert (R : fv_dot t a b = feval t (cf fzero a) (cf fzero b)).
    { unfold fv_dot. destruct a as [|x a]; [|reflexivity]. exfalso. pose proof (dleaves_pos t). cbn in Ln. lia. }
    rewrite R. split; [exact F|]. lra.
Qed.
Lemma order_pos n t : order n t -> 1 <= INR n.
Proof. intro O. pose proof (order_length _ _ O) as L. pose proof (dleaves_pos t) as P. rewrite L in P. apply (le_INR 1 n) in P. exact P. Qed.

(** ** Norms *)
Lemma sqrt_rel d N z : 0 <= d <= / 50 -> 0 < N -> Rabs (z - N * N) <= d * (N * N) -> 0 < z /\ Rabs (sqrt z - N) <= 51/100 * d * N.
Proof.
  intros D HN H. assert (N2 : 0 < N * N) by (now apply Rmult_lt_0_compat).
  assert (DN : d * (N * N) <= / 50 * (N * N)) by (apply Rmult_le_compat_r; lra).
  assert (Z : 98/100 * (N * N) <= z). { pose proof (Rle_abs (- (z - N * N))) as X. rewrite Rabs_Ropp in X. lra. }
  split; [lra|]. assert (S1 : 97/100 * N <= sqrt z).
  { apply sq_le; [apply sqrt_pos|]. rewrite sqrt_sqrt by lra. lra. }
  assert (E : (sqrt z - N) * (sqrt z + N) = z - N * N) by (replace z with (sqrt z * sqrt z) at 3 by (apply sqrt_sqrt; lra); ring).
  assert (E2 : Rabs (sqrt z - N) * (sqrt z + N) = Rabs (z - N * N)).
  { rewrite <- E, Rabs_mult. f_equal. symmetry. apply Rabs_pos_eq. lra. }
  pose proof (Rabs_pos (sqrt z - N)) as P.
  assert (M : Rabs (sqrt z - N) * (197/100 * N) <= Rabs (sqrt z - N) * (sqrt z + N)) by (apply Rmult_le_compat_l; lra).
  apply Rmult_le_reg_r with (197/100 * N); [lra|]. eapply Rle_trans; [exact M|]. rewrite E2. eapply Rle_trans; [exact H|].
  assert (0 <= d * (N * N)) by (apply Rmult_le_pos; lra). replace (51 / 100 * d * N * (197 / 100 * N)) with (51/100 * (197/100) * (d * (N * N))) by ring. lra.
Qed.
Lemma fv_sq_err p (t : dtree) (a : fvec p) : order (length a) t -> all_finite a -> dimension a * fu p <= / 100 ->
  bpow radix2 (-50) <= len (values a) <= bpow radix2 50 ->
  is_finite (fv_squaredNorm t a) = true /\
  Rabs (B2R (fv_squaredNorm t a) - len (values a) * len (values a)) <= 1011/1000 * dimension a * fu p * (len (values a) * len (values a)).
Proof.
  intros O F Hn [H1 H2]. pose proof (bpow_gt_0 radix2 (-50)) as P. set (N := len (values a)) in *.
  assert (NN : bpow radix2 (-100) <= N * N). { replace (bpow radix2 (-100)) with (bpow radix2 (-50) * bpow radix2 (-50)) by (rewrite <- bpow_plus; reflexivity). apply Rmult_le_compat; lra. }
  assert (NM : N * N <= bpow radix2 100). { replace (bpow radix2 100) with (bpow radix2 50 * bpow radix2 50) by (rewrite <- bpow_plus; reflexivity). apply Rmult_le_compat; lra. }
  assert (FB : bpow radix2 100 <= fbig p / 2). { unfold Rdiv. change (/ 2) with (bpow radix2 (-1)). unfold fbig. rewrite <- bpow_plus. apply bpow_le. destruct p; cbn; lia. }
  assert (S : inner_abs (values a) (values a) = N * N) by (rewrite inner_abs_self; symmetry; apply len_sq).
  assert (S' : inner (values a) (values a) = N * N) by (symmetry; apply len_sq).
  destruct (fv_dot_err p t a a O eq_refl F F Hn) as [G E]; [rewrite S; lra|]. split; [exact G|]. unfold fv_squaredNorm. rewrite S, S' in E. eapply Rle_trans; [exact E|].
  pose proof (eta_u p) as EU. pose proof (fu_pos p) as U. unfold dimension in *. pose proof (pos_INR (length a)) as N0. rewrite bpow_m100 in EU.
  assert (Q : 102/100 * INR (length a) * eta p <= 102/100 * INR (length a) * (fu p * (/ 67108864 * (N * N)))).
  { apply Rmult_le_compat_l; [lra|]. eapply Rle_trans; [exact EU|]. apply Rmult_le_compat_l; lra. }
  assert (W : 0 <= INR (length a) * fu p * (N * N)) by (apply Rmult_le_pos; [apply Rmult_le_pos; lra|]; pose proof (bpow_gt_0 radix2 (-100)); lra). lra.
Qed.
Lemma fv_norm_err p (t : dtree) (a : fvec p) : order (length a) t -> all_finite a -> dimension a * fu p <= / 100 ->
  bpow radix2 (-50) <= len (values a) <= bpow radix2 50 ->
  flt fzero (fv_squaredNorm t a) = true /\ is_finite (fv_norm t a) = true /\
  Rabs (B2R (fv_norm t a) - len (values a)) <= (52/100 * dimension a + 102/100) * fu p * len (values a).
Proof.
  intros O F Hn HN. destruct (fv_sq_err p t a O F Hn HN) as [G E]. pose proof (bpow_gt_0 radix2 (-50)) as P. set (N := len (values a)) in *. assert (N0 : 0 < N) by lra.
  pose proof (order_pos _ _ O) as D1. unfold dimension in *. set (n := INR (length a)) in *. pose proof (fu_pos p) as U. pose proof (fu_24 p) as V.
  destruct (sqrt_rel (1011/1000 * n * fu p) N (B2R (fv_squaredNorm t a))) as [Z S]; [split; [repeat apply Rmult_le_pos; lra|lra]|exact N0|exact E|].
  split; [rewrite (flt_R p fzero _ eq_refl G); cbn [B2R]; now apply Rlt_bool_true|]. unfold fv_norm. destruct (fsqrt_R p _ G ltac:(lra)) as [Fs Rs]. split; [exact Fs|]. rewrite Rs.
  set (s := sqrt (B2R (fv_squaredNorm t a))) in *. pose proof (rnd_err_le p s) as ER.
  assert (S2 : Rabs s <= 1006/1000 * N). { replace s with ((s - N) + N) by ring. eapply Rle_trans; [apply Rabs_triang|]. rewrite (Rabs_pos_eq N) by lra.
    assert (51/100 * (1011/1000 * n * fu p) * N <= 51/100 * (1011/1000 * / 100) * N) by (apply Rmult_le_compat_r; lra). lra. }
  pose proof (eta_u p) as EU. assert (EN : eta p <= / 1000 * fu p * N).
  { eapply Rle_trans; [exact EU|]. rewrite Rmult_assoc, (Rmult_comm (/ 1000)), Rmult_assoc. apply Rmult_le_compat_l; [lra|]. assert (bpow radix2 (-126) <= bpow radix2 (-50) * / 1000); [|lra].
    apply Rle_trans with (bpow radix2 (-50) * bpow radix2 (-10)); [rewrite <- bpow_plus; apply bpow_le; lia|apply Rmult_le_compat_l; [lra|]; cbn; lra]. }
  replace (rnd p s - N) with ((rnd p s - s) + (s - N)) by ring. eapply Rle_trans; [apply Rabs_triang|].
  assert (Q : fu p * Rabs s <= fu p * (1006/1000 * N)) by (apply Rmult_le_compat_l; lra).
  assert (W : 0 <= fu p * N) by (apply Rmult_le_pos; lra). assert (W2 : 0 <= n * (fu p * N)) by (apply Rmult_le_pos; lra).
  replace (51/100 * (1011/1000 * n * fu p) * N) with (51/100 * (1011/1000) * (n * (fu p * N))) in S by ring. lra.
Qed.
