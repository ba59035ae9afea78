(** Normalisation, projection, sums, means, cross products of floating-point vectors. *)
From Coq Require Import ZArith Reals Lra Psatz Bool List Lia Permutation.
From Flocq Require Import IEEE754.BinarySingleNaN Core.Core.
From Verif Require Import Linalg Spec SpecFacts ModelCommon FloatModel FloatFacts FloatModulo FloatWrap FloatModel2 SpecFloatQ FloatQFacts FloatQProd FloatModel10 SpecVecF FloatVec FloatVec2.
Import ListNotations.
Local Open Scope R_scope.

(** ** Division by a norm that is known up to a relative error [d] *)
Lemma quot_rel d N s c : 0 <= d <= / 100 -> 0 < N -> Rabs (s - N) <= d * N ->
  99/100 * N <= s /\ Rabs (c / s - c / N) <= 102/100 * d * (Rabs c / N).
Proof.
  intros D HN H. assert (DN : d * N <= / 100 * N) by (apply Rmult_le_compat_r; lra).
  assert (S : 99/100 * N <= s) by (pose proof (Rle_abs (- (s - N))) as X; rewrite Rabs_Ropp in X; lra). split; [exact S|].
  assert (S0 : 0 < s) by lra. replace (c / s - c / N) with (c / N * ((N - s) / s)) by (field; lra).
  rewrite Rabs_mult. unfold Rdiv at 1. rewrite Rabs_mult, (Rabs_pos_eq (/ N)) by (left; now apply Rinv_0_lt_compat). fold (Rabs c / N).
  rewrite (Rmult_comm (102/100 * d)). apply Rmult_le_compat_l; [apply Rmult_le_pos; [apply Rabs_pos|left; now apply Rinv_0_lt_compat]|].
  unfold Rdiv. rewrite Rabs_mult, (Rabs_pos_eq (/ s)) by (left; now apply Rinv_0_lt_compat). apply Rmult_le_reg_r with s; [exact S0|]. rewrite Rmult_assoc, Rinv_l, Rmult_1_r by lra.
  rewrite Rabs_minus_sym. eapply Rle_trans; [exact H|]. assert (d * (99/100 * N) <= d * s) by (apply Rmult_le_compat_l; lra). assert (0 <= d * N) by (apply Rmult_le_pos; lra). lra.
Qed.
Lemma fscale_down_n p m (s c : fl p) N d : is_finite s = true -> is_finite c = true ->
  bpow radix2 (-50) <= N <= bpow radix2 50 -> 0 <= d <= / 100 -> Rabs (B2R s - N) <= d * N -> Rabs (B2R c) <= N ->
  is_finite (fscale_down m s c) = true /\ Rabs (B2R (fscale_down m s c) - B2R c / N) <= (102/100 * d + 207/100 * fu p) * (Rabs (B2R c) / N) + eta p.
Proof.
  intros Fs Fc [L H] D Hs Hc. pose proof (fu_pos p) as U. pose proof (fu_24 p) as V. pose proof (bpow_gt_0 radix2 (-50)) as P. pose proof (eta_pos p) as E0.
  assert (N0 : 0 < N) by lra. set (C := B2R c) in *. pose proof (Rabs_pos C) as C0. assert (Iv : 0 < / N) by (now apply Rinv_0_lt_compat).
  assert (X1 : Rabs C / N <= 1) by (apply Rmult_le_reg_r with N; [exact N0|]; unfold Rdiv; rewrite Rmult_assoc, Rinv_l by lra; lra).
  assert (X0 : 0 <= Rabs C / N) by (apply Rmult_le_pos; lra). set (X := Rabs C / N) in *.
  assert (XN : Rabs (C / N) = X) by (unfold X, Rdiv; rewrite Rabs_mult, (Rabs_pos_eq (/ N)) by lra; reflexivity).
  assert (BF : 16 <= fbig p) by (change 16 with (bpow radix2 4); apply bpow_le; destruct p; cbn; lia).
  destruct (quot_rel d N (B2R s) C D N0 Hs) as [S0 Q]. fold X in Q. assert (Sp : 0 < B2R s) by lra.
  assert (DX : d * X <= / 100 * X) by (apply Rmult_le_compat_r; lra). assert (DX0 : 0 <= d * X) by (apply Rmult_le_pos; lra).
  assert (UX : fu p * X <= / 16777216 * X) by (apply Rmult_le_compat_r; lra). assert (UX0 : 0 <= fu p * X) by (apply Rmult_le_pos; lra).
  destruct m; cbn [fscale_down].
  - assert (A : Rabs (C / B2R s) <= 103/100 * X).
    { replace (C / B2R s) with ((C / B2R s - C / N) + C / N) by ring. eapply Rle_trans; [apply Rabs_triang|]. rewrite XN. lra. }
    destruct (fdiv_R p c s Fc ltac:(lra)) as [R F]; [fold C; lra|]. split; [exact F|]. rewrite R. fold C. pose proof (rnd_err_le p (C / B2R s)) as ER.
    replace (rnd p (C / B2R s) - C / N) with ((rnd p (C / B2R s) - C / B2R s) + (C / B2R s - C / N)) by ring. eapply Rle_trans; [apply Rabs_triang|].
    assert (fu p * Rabs (C / B2R s) <= fu p * (103/100 * X)) by (apply Rmult_le_compat_l; lra). lra.
  - destruct (fofZ1 p) as [F1 V1]. destruct (quot_rel d N (B2R s) 1 D N0 Hs) as [_ Q1]. rewrite Rabs_R1 in Q1.
    assert (IB : / N <= bpow radix2 50). { replace (bpow radix2 50) with (/ bpow radix2 (-50)) by (rewrite <- bpow_opp; reflexivity). now apply Rinv_le. }
    assert (IL : bpow radix2 (-50) <= / N). { replace (bpow radix2 (-50)) with (/ bpow radix2 50) by (rewrite <- bpow_opp; reflexivity). apply Rinv_le; [exact N0|exact H]. }
    unfold Rdiv in Q1 at 1 2. rewrite !Rmult_1_l in Q1. unfold Rdiv in Q1. rewrite Rmult_1_l in Q1. set (I := / N) in *.
    assert (DI : d * I <= / 100 * I) by (apply Rmult_le_compat_r; lra). assert (DI0 : 0 <= d * I) by (apply Rmult_le_pos; lra).
    assert (A : Rabs (/ B2R s) <= 103/100 * I).
    { replace (/ B2R s) with ((/ B2R s - I) + I) by ring. eapply Rle_trans; [apply Rabs_triang|]. rewrite (Rabs_pos_eq I) by lra. lra. }
    assert (BB : 4 * bpow radix2 50 <= fbig p). { change 4 with (bpow radix2 2). rewrite <- bpow_plus. apply bpow_le; destruct p; cbn; lia. }
    destruct (fdiv_R p (fofZ p 1) s F1 ltac:(lra)) as [R1 G1]; [rewrite V1; unfold Rdiv; rewrite Rmult_1_l; lra|]. rewrite V1 in R1. unfold Rdiv in R1. rewrite Rmult_1_l in R1.
    pose proof (rnd_err_le p (/ B2R s)) as ER. rewrite <- R1 in ER. set (r := B2R (fdiv (fofZ p 1) s)) in *.
    assert (EI : eta p <= / 1000 * fu p * I).
    { eapply Rle_trans; [apply eta_u|]. rewrite Rmult_assoc, (Rmult_comm (/ 1000)), Rmult_assoc. apply Rmult_le_compat_l; [lra|]. assert (bpow radix2 (-126) <= bpow radix2 (-50) * / 1000); [|lra].
      apply Rle_trans with (bpow radix2 (-50) * bpow radix2 (-10)); [rewrite <- bpow_plus; apply bpow_le; lia|apply Rmult_le_compat_l; [lra|]; cbn; lra]. }
    assert (UI : fu p * I <= / 16777216 * I) by (apply Rmult_le_compat_r; lra). assert (UI0 : 0 <= fu p * I) by (apply Rmult_le_pos; lra).
    assert (RI : Rabs (r - I) <= (102/100 * d + 1032/1000 * fu p) * I).
    { replace (r - I) with ((r - / B2R s) + (/ B2R s - I)) by ring. eapply Rle_trans; [apply Rabs_triang|].
      assert (fu p * Rabs (/ B2R s) <= fu p * (103/100 * I)) by (apply Rmult_le_compat_l; lra). lra. }
    assert (CI : Rabs C * I = X) by reflexivity.
    assert (RC : Rabs (C * r - C / N) <= (102/100 * d + 1032/1000 * fu p) * X).
    { replace (C * r - C / N) with (C * (r - I)) by (unfold I, Rdiv; ring). rewrite Rabs_mult. rewrite <- CI. replace ((102/100 * d + 1032/1000 * fu p) * (Rabs C * I)) with (Rabs C * ((102/100 * d + 1032/1000 * fu p) * I)) by ring. now apply Rmult_le_compat_l. }
    assert (AC : Rabs (C * r) <= 103/100 * X). { replace (C * r) with ((C * r - C / N) + C / N) by ring. eapply Rle_trans; [apply Rabs_triang|]. rewrite XN. lra. }
    destruct (fmul_R p c (fdiv (fofZ p 1) s) Fc G1) as [R F]; [fold C r; lra|]. split; [exact F|]. rewrite R. fold C r. pose proof (rnd_err_le p (C * r)) as E2.
    replace (rnd p (C * r) - C / N) with ((rnd p (C * r) - C * r) + (C * r - C / N)) by ring. eapply Rle_trans; [apply Rabs_triang|].
    assert (fu p * Rabs (C * r) <= fu p * (103/100 * X)) by (apply Rmult_le_compat_l; lra). lra.
Qed.
Lemma minus_nth a b i x y : nth_error a i = Some x -> nth_error b i = Some y -> nth_error (minus a b) i = Some (x - y).
Proof. revert b i. induction a as [|x' a IH]; intros [|y' b] [|i]; cbn; try discriminate; intros; [congruence|]. now apply IH. Qed.
Lemma minus_length a b : length a = length b -> length (minus a b) = length a.
Proof. revert b. induction a as [|x a IH]; intros [|y b] L; cbn in *; try lia. rewrite IH; lia. Qed.
Lemma values_length p (a : fvec p) : length (values a) = length a. Proof. apply map_length. Qed.
Lemma values_inv p (a : fvec p) i x : nth_error (values a) i = Some x -> exists y, nth_error a i = Some y /\ x = B2R y.
Proof.
  intro H. destruct (nth_error a i) as [y|] eqn:E.
  - exists y. split; [reflexivity|]. rewrite (values_nth p a i y E) in H. congruence.
  - exfalso. apply nth_error_None in E. rewrite <- (values_length p a) in E. apply nth_error_None in E. rewrite H in E. discriminate E.
Qed.
Lemma map_inv {A B} (f : A -> B) l i y : nth_error (map f l) i = Some y -> exists x, nth_error l i = Some x /\ y = f x.
Proof.
  intro H. destruct (nth_error l i) as [x|] eqn:E; [rewrite (map_nth_error f i l E) in H; exists x; split; congruence|].
  exfalso. apply nth_error_None in E. rewrite <- (map_length f) in E. apply nth_error_None in E. congruence.
Qed.
(** a vector computed coefficient by coefficient *)
Lemma far_map p (f : fl p -> fl p) (a : fvec p) s al be : 0 <= al -> 0 <= be ->
  (forall i c, nth_error a i = Some c -> Rabs (B2R (f c) - s * B2R c) <= al * Rabs (B2R c) + be) ->
  far (values (map f a)) (times s (values a)) <= al * len (values a) + dimension a * be.
Proof.
  intros A B H. unfold far. assert (L1 : length (values (map f a)) = length a) by (rewrite values_length; apply map_length). assert (L2 : length (times s (values a)) = length a) by (unfold times; rewrite map_length; apply values_length).
  replace (dimension a) with (dimension (minus (values (map f a)) (times s (values a)))) by (unfold dimension; rewrite minus_length, L1; congruence).
  apply len_mixed; try assumption; [rewrite minus_length, L1, values_length; congruence|].
  intros i u v Hu Hv. destruct (values_inv p a i v Hv) as (c & Hc & ->).
  assert (E : nth_error (minus (values (map f a)) (times s (values a))) i = Some (B2R (f c) - s * B2R c)).
  { apply minus_nth; [apply values_nth; now apply map_nth_error|]. unfold times. apply (map_nth_error (fun x => s * x)). now apply values_nth. }
  rewrite E in Hu. injection Hu as <-. now apply (H i).
Qed.
Lemma fv_normalized_err p (t : dtree) (m : divmode) (a : fvec p) : order (length a) t -> all_finite a -> dimension a * fu p <= / 100 ->
  bpow radix2 (-50) <= len (values a) <= bpow radix2 50 ->
  all_finite (fv_normalized t m a) /\ far (values (fv_normalized t m a)) (times (/ len (values a)) (values a)) <= (54/100 * dimension a + 32/10) * fu p.
Proof.
  intros O F Hn HN. destruct (fv_norm_err p t a O F Hn HN) as (Z & G & E). unfold fv_normalized. rewrite Z. unfold fv_norm in *. pose proof (bpow_gt_0 radix2 (-50)) as P.
  set (N := len (values a)) in *. set (s := fsqrt (fv_squaredNorm t a)) in *. pose proof (fu_pos p) as U. pose proof (fu_24 p) as V. pose proof (eta_pos p) as E0.
  pose proof (order_pos _ _ O) as D1. unfold dimension in Hn, E. fold (dimension a) in *. set (n := dimension a) in *. change (INR (length a)) with n in *.
  set (d := (52/100 * n + 102/100) * fu p) in *. assert (D : 0 <= d <= / 100) by (unfold d; split; [apply Rmult_le_pos; lra|lra]).
  assert (K : forall i c, nth_error a i = Some c -> is_finite (fscale_down m s c) = true /\ Rabs (B2R (fscale_down m s c) - / N * B2R c) <= ((102/100 * d + 207/100 * fu p) * / N) * Rabs (B2R c) + eta p).
  { intros i c Hc. destruct (fscale_down_n p m s c N d G (all_nth p a i c F Hc) HN D E) as [F1 E1]; [apply (coef_le_len _ i); now apply values_nth|].
    split; [exact F1|]. rewrite (Rmult_comm (/ N)). fold (B2R c / N). unfold Rdiv in *. lra. }
  split.
  - apply Forall_forall. intros y Hy. unfold fv_div in Hy. apply in_map_iff in Hy. destruct Hy as (c & <- & Hc). apply In_nth_error in Hc. destruct Hc as [i Hi]. now apply (K i c).
  - assert (N0 : 0 < N) by lra. unfold fv_div. eapply Rle_trans; [apply (far_map p (fscale_down m s) a (/ N) ((102/100 * d + 207/100 * fu p) * / N) (eta p))|].
    + apply Rmult_le_pos; [lra|]. left. now apply Rinv_0_lt_compat.
    + lra.
    + intros i c Hc. exact (proj2 (K i c Hc)).
    + fold N n. rewrite Rmult_assoc, Rinv_l, Rmult_1_r by lra. pose proof (n_eta p (length a) Hn) as NE. change (INR (length a)) with n in NE.
      assert (EE : n * eta p <= n * (fu p * bpow radix2 (-126))) by (apply Rmult_le_compat_l; [lra|apply eta_u]).
      assert (BE : bpow radix2 (-126) <= / 1000) by (apply Rle_trans with (bpow radix2 (-10)); [apply bpow_le; lia|cbn; lra]).
      assert (NU : 0 <= n * fu p) by (apply Rmult_le_pos; lra).
      assert (EE2 : n * fu p * bpow radix2 (-126) <= n * fu p * / 1000) by (apply Rmult_le_compat_l; lra). unfold d. lra.
Qed.
Lemma times_length s a : length (times s a) = length a. Proof. apply map_length. Qed.
Lemma inner_times s a : inner (times s a) (times s a) = s * s * inner a a.
Proof. induction a as [|x a IH]; cbn; [ring|]. fold (times s a). rewrite IH. ring. Qed.
Lemma len_times s a : len (times s a) = Rabs s * len a.
Proof.
  unfold len. rewrite inner_times. rewrite sqrt_mult_alt by apply Rle_0_sqr. f_equal. apply sqrt_Rsqr_abs.
Qed.
Lemma fv_normalized_length p t m (a : fvec p) : length (fv_normalized t m a) = length a.
Proof. unfold fv_normalized. destruct (flt fzero (fv_squaredNorm t a)); [apply map_length|reflexivity]. Qed.

(** ** Projection *)
Lemma fv_project_err p (t t' : dtree) (a b : fvec p) : order (length a) t -> order (length b) t' -> length a = length b -> all_finite a -> all_finite b -> dimension a * fu p <= / 100 ->
  bpow radix2 (-40) <= len (values a) <= bpow radix2 40 -> bpow radix2 (-40) <= len (values b) <= bpow radix2 40 ->
  all_finite (fv_projectOn t t' a b) /\
  far (values (fv_projectOn t t' a b)) (times (inner (values a) (values b) / inner (values b) (values b)) (values b)) <= (22/10 * dimension a + 22/10) * fu p * len (values a).
Proof.
  intros O O' L Fa Fb Hn HA HB. pose proof (bpow_gt_0 radix2 (-40)) as P. set (A := len (values a)) in *. set (B := len (values b)) in *.
  assert (M50 : bpow radix2 (-50) <= bpow radix2 (-40)) by (apply bpow_le; lia). assert (P50 : bpow radix2 40 <= bpow radix2 50) by (apply bpow_le; lia).
  assert (Hn' : dimension b * fu p <= / 100) by (unfold dimension; rewrite <- L; exact Hn).
  destruct (fv_sq_err p t' b O' Fb Hn') as [GS ES]; [fold B; lra|]. fold B in ES.
  set (I := inner (values a) (values b)) in *. pose proof (inner_le_abs (values a) (values b)) as I1. pose proof (inner_abs_len (values a) (values b)) as I2. fold I in I1. fold A B in I2.
  assert (AB0 : bpow radix2 (-80) <= A * B). { replace (bpow radix2 (-80)) with (bpow radix2 (-40) * bpow radix2 (-40)) by (rewrite <- bpow_plus; reflexivity). apply Rmult_le_compat; lra. }
  assert (AB1 : A * B <= bpow radix2 80). { replace (bpow radix2 80) with (bpow radix2 40 * bpow radix2 40) by (rewrite <- bpow_plus; reflexivity). apply Rmult_le_compat; lra. }
  assert (FB : bpow radix2 80 <= fbig p / 2). { unfold Rdiv. change (/ 2) with (bpow radix2 (-1)). unfold fbig. rewrite <- bpow_plus. apply bpow_le. destruct p; cbn; lia. }
  destruct (fv_dot_err p t a b O L Fa Fb Hn) as [GD ED]; [lra|]. fold I in ED.
  pose proof (order_pos _ _ O) as D1. replace (dimension b) with (dimension a) in ES by (unfold dimension; now rewrite L). unfold dimension in Hn, ED, ES, D1 |- *. set (n := INR (length a)) in *.
  pose proof (fu_pos p) as U. pose proof (fu_24 p) as V. pose proof (eta_pos p) as E0. assert (NU : 0 <= n * fu p) by (apply Rmult_le_pos; lra).
  assert (B80 : bpow radix2 (-126) <= / 10000 * bpow radix2 (-80)).
  { apply Rle_trans with (bpow radix2 (-20) * bpow radix2 (-80)); [rewrite <- bpow_plus; apply bpow_le; lia|apply Rmult_le_compat_r; [apply bpow_ge_0|cbn; lra]]. }
  assert (ETA : eta p <= / 10000 * fu p * (A * B)).
  { eapply Rle_trans; [apply eta_u|]. rewrite Rmult_assoc, (Rmult_comm (/ 10000)), Rmult_assoc. apply Rmult_le_compat_l; lra. }
  assert (AB : 0 < A * B) by (pose proof (bpow_gt_0 radix2 (-80)); lra). assert (A0 : 0 < A) by lra. assert (B0 : 0 < B) by lra. assert (BB : 0 < B * B) by (now apply Rmult_lt_0_compat).
  set (D := B2R (fv_dot t a b)) in *. set (S := B2R (fv_squaredNorm t' b)) in *.
  assert (ED' : Rabs (D - I) <= 1011/1000 * (n * fu p) * (A * B)).
  { eapply Rle_trans; [exact ED|]. assert (Q1 : 101/100 * n * fu p * inner_abs (values a) (values b) <= 101/100 * n * fu p * (A * B)) by (apply Rmult_le_compat_l; lra).
    assert (Q2 : 102/100 * n * eta p <= 102/100 * n * (/ 10000 * fu p * (A * B))) by (apply Rmult_le_compat_l; lra).
    assert (W : 0 <= n * fu p * (A * B)) by (apply Rmult_le_pos; lra). lra. }
  set (q := n * fu p) in *. replace (1011/1000 * n * fu p) with (1011/1000 * q) in ES by (unfold q; ring).
  set (d := 1011/1000 * q) in *. assert (Hd : 0 <= d <= 1011/100000) by (unfold d; lra).
  assert (SB : 98/100 * (B * B) <= S). { assert (d * (B * B) <= 1011/100000 * (B * B)) by (apply Rmult_le_compat_r; lra). pose proof (Rle_abs (- (S - B * B))) as X. rewrite Rabs_Ropp in X. lra. }
  assert (S0 : 0 < S) by lra. set (c := I / (B * B)) in *. set (r := A / B) in *.
  assert (r0 : 0 < r) by (apply Rdiv_lt_0_compat; lra).
  assert (IC : Rabs c <= r). { unfold c, r. unfold Rdiv. rewrite Rabs_mult, (Rabs_pos_eq (/ (B * B))) by (left; now apply Rinv_0_lt_compat). replace (A * / B) with (A * B * / (B * B)) by (field; lra). apply Rmult_le_compat_r; [left; now apply Rinv_0_lt_compat|lra]. }
  assert (QC : Rabs (D / S - c) <= 21/10 * d * r).
  { assert (E1 : (D / S - c) * S = (D - I) - c * (S - B * B)) by (unfold c; field; lra).
    assert (E2 : Rabs (D / S - c) * S = Rabs ((D - I) - c * (S - B * B))) by (rewrite <- E1, Rabs_mult, (Rabs_pos_eq S) by lra; reflexivity).
    assert (E3 : Rabs ((D - I) - c * (S - B * B)) <= 2 * d * (A * B)).
    { unfold Rminus at 1. eapply Rle_trans; [apply Rabs_triang|]. rewrite Rabs_Ropp, Rabs_mult.
      assert (Rabs c * Rabs (S - B * B) <= r * (d * (B * B))) by (apply Rmult_le_compat; try apply Rabs_pos; assumption).
      replace (r * (d * (B * B))) with (d * (A * B)) in H by (unfold r; field; lra). unfold d in *. lra. }
    apply Rmult_le_reg_r with S; [exact S0|]. rewrite E2. eapply Rle_trans; [exact E3|].
    assert (21/10 * d * r * (98/100 * (B * B)) <= 21/10 * d * r * S) by (apply Rmult_le_compat_l; [apply Rmult_le_pos; [apply Rmult_le_pos; lra|left; exact r0]|exact SB]).
    replace (21/10 * d * r * (98/100 * (B * B))) with (21/10 * (98/100) * (d * (A * B))) in H by (unfold r; field; lra). assert (0 <= d * (A * B)) by (apply Rmult_le_pos; lra). lra. }
  set (f := fdiv (fv_dot t a b) (fv_squaredNorm t' b)).
  assert (RB : r <= bpow radix2 80).
  { unfold r. replace (bpow radix2 80) with (bpow radix2 40 * bpow radix2 40) by (rewrite <- bpow_plus; reflexivity). unfold Rdiv. apply Rmult_le_compat; try lra; [left; now apply Rinv_0_lt_compat|].
    replace (bpow radix2 40) with (/ bpow radix2 (-40)) by (rewrite <- bpow_opp; reflexivity). apply Rinv_le; lra. }
  assert (RL : bpow radix2 (-80) <= r).
  { unfold r. replace (bpow radix2 (-80)) with (bpow radix2 (-40) * bpow radix2 (-40)) by (rewrite <- bpow_plus; reflexivity). unfold Rdiv. apply Rmult_le_compat; try lra.
    replace (bpow radix2 (-40)) with (/ bpow radix2 40) by (rewrite <- bpow_opp; reflexivity). apply Rinv_le; lra. }
  assert (dr : d * r <= 1011/100000 * r) by (apply Rmult_le_compat_r; lra). assert (dr0 : 0 <= d * r) by (apply Rmult_le_pos; lra).
  assert (DS : Rabs (D / S) <= 103/100 * r). { replace (D / S) with ((D / S - c) + c) by ring. eapply Rle_trans; [apply Rabs_triang|]. lra. }
  destruct (fdiv_R p (fv_dot t a b) (fv_squaredNorm t' b) GD) as [Rf Gf]; [fold S; lra|fold D S; lra|]. fold f D S in Rf, Gf. pose proof (rnd_err_le p (D / S)) as ER. rewrite <- Rf in ER. set (g := B2R f) in *.
  assert (ETR : eta p <= / 10000 * fu p * r).
  { eapply Rle_trans; [apply eta_u|]. rewrite Rmult_assoc, (Rmult_comm (/ 10000)), Rmult_assoc. apply Rmult_le_compat_l; lra. }
  assert (UR : fu p * Rabs (D / S) <= fu p * (103/100 * r)) by (apply Rmult_le_compat_l; lra).
  assert (EG : Rabs (g - c) <= (21/10 * d + 104/100 * fu p) * r).
  { replace (g - c) with ((g - D / S) + (D / S - c)) by ring. eapply Rle_trans; [apply Rabs_triang|]. assert (0 <= fu p * r) by (apply Rmult_le_pos; lra). lra. }
  assert (Ur : fu p * r <= / 16777216 * r) by (apply Rmult_le_compat_r; lra).
  assert (AG : Rabs g <= 103/100 * r). { replace g with ((g - c) + c) by ring. eapply Rle_trans; [apply Rabs_triang|]. lra. }
  assert (K : forall i x, nth_error b i = Some x -> is_finite (fmul x f) = true /\ Rabs (B2R (fmul x f) - c * B2R x) <= ((21/10 * d + 208/100 * fu p) * r) * Rabs (B2R x) + eta p).
  { intros i x Hx. pose proof (coef_le_len _ i _ (values_nth p b i x Hx)) as XB. fold B in XB. set (X := B2R x) in *. pose proof (Rabs_pos X) as X0. pose proof (Rabs_pos g) as G0.
    assert (XG : Rabs (X * g) <= Rabs X * (103/100 * r)) by (rewrite Rabs_mult; now apply Rmult_le_compat_l).
    assert (XR : Rabs X * (103/100 * r) <= B * (103/100 * r)) by (apply Rmult_le_compat_r; lra). assert (BR : B * (103/100 * r) = 103/100 * A) by (unfold r; field; lra).
    assert (F40 : 4 * bpow radix2 40 <= fbig p). { change 4 with (bpow radix2 2). rewrite <- bpow_plus. apply bpow_le; destruct p; cbn; lia. }
    destruct (fmul_R p x f (all_nth p b i x Fb Hx) Gf) as [Rm Gm]; [fold X g; lra|]. split; [exact Gm|]. rewrite Rm. fold X g. pose proof (rnd_err_le p (X * g)) as E2.
    replace (rnd p (X * g) - c * X) with ((rnd p (X * g) - X * g) + X * (g - c)) by ring. eapply Rle_trans; [apply Rabs_triang|]. rewrite (Rabs_mult X (g - c)).
    assert (Q1 : Rabs X * Rabs (g - c) <= Rabs X * ((21/10 * d + 104/100 * fu p) * r)) by (now apply Rmult_le_compat_l).
    assert (Q2 : fu p * Rabs (X * g) <= fu p * (Rabs X * (103/100 * r))) by (apply Rmult_le_compat_l; lra).
    assert (Q3 : 0 <= fu p * (Rabs X * r)) by (apply Rmult_le_pos; [lra|apply Rmult_le_pos; lra]). lra. }
  replace (inner (values b) (values b)) with (B * B) by (apply len_sq). fold c. split.
  - apply Forall_forall. intros y Hy. unfold fv_projectOn, fv_mul in Hy. apply in_map_iff in Hy. destruct Hy as (x & <- & Hx). apply In_nth_error in Hx. destruct Hx as [i Hi]. now apply (K i x).
  - unfold fv_projectOn, fv_mul. fold f. eapply Rle_trans; [apply (far_map p (fun x => fmul x f) b c ((21/10 * d + 208/100 * fu p) * r) (eta p))|].
    + apply Rmult_le_pos; lra.
    + lra.
    + intros i x Hx. exact (proj2 (K i x Hx)).
    + fold B. unfold dimension. rewrite <- L. fold n. replace ((21/10 * d + 208/100 * fu p) * r * B) with ((21/10 * d + 208/100 * fu p) * A) by (unfold r; field; lra).
      assert (A80 : bpow radix2 (-80) <= bpow radix2 (-40)) by (apply bpow_le; lia).
      assert (EE : n * eta p <= n * (fu p * bpow radix2 (-126))) by (apply Rmult_le_compat_l; [lra|apply eta_u]).
      assert (EE2 : q * bpow radix2 (-126) <= q * (/ 10000 * A)) by (apply Rmult_le_compat_l; lra).
      assert (UA : 0 <= fu p * A) by (apply Rmult_le_pos; lra). assert (qA : 0 <= q * A) by (apply Rmult_le_pos; lra).
      replace (n * (fu p * bpow radix2 (-126))) with (q * bpow radix2 (-126)) in EE by (unfold q; ring).
      replace ((22/10 * n + 22/10) * fu p * A) with (22/10 * (q * A) + 22/10 * (fu p * A)) by (unfold q; ring). unfold d. lra.
Qed.
