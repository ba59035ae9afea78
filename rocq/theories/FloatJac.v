(** * FloatJac: rounding of the two factors of getJacobianOfExponentialMap. *)
From Coq Require Import ZArith Reals Lra Psatz Bool List Lia.
From Flocq Require Import IEEE754.BinarySingleNaN Core.Core.
From Verif Require Import Linalg Spec SpecFacts SpecClose ModelCommon ModelEigen CommonFacts CloseFacts ModelDiff JacFacts
  FloatModel FloatFacts FloatWrap FloatModel2 SpecFloatQ FloatQFacts FloatQProd FloatQHist FloatQRot FloatMHist FloatCast FloatModel3 SpecLibm FloatBuild FloatBuild2 FloatBuild3 FloatModel4 FloatExt FloatModel12 FloatDiff FloatDiff2 FloatDiff3 FloatModel14.
Import ListNotations.
Local Open Scope R_scope.

(** the precision of cos(norm): that of the scalar type or double *)
Definition wide (p w : prim) : Prop := w = p \/ w = F64.
Lemma wide_val p w (x : fl p) : wide p w -> B2R (fcvt w x) = B2R x /\ is_finite (fcvt w x) = is_finite x.
Proof. intros [-> | ->]; [rewrite fcvt_id; split; reflexivity|apply widen_R]. Qed.
Lemma wide_fu p w : wide p w -> fu w <= fu p /\ eta w <= eta p.
Proof. intros [-> | ->]; [split; lra|split; [apply fu64_le|apply eta64_le]]. Qed.

Lemma quot_err a b x y ea r Q : 0 < y -> Rabs (a - x) <= ea -> Rabs (b - y) <= r * y -> r <= / 100 -> Rabs x <= Q * y ->
  0 < b /\ Rabs (a / b - x / y) <= (1 + / 50) * (ea * / y + r * Q).
Proof.
  intros Y A B R X. apply Rabs_both in B as B'. assert (RY : r * y <= / 100 * y) by (apply Rmult_le_compat_r; lra).
  assert (b0 : 0 < b) by lra. split; [exact b0|]. assert (IY : 0 < / y) by (apply Rinv_0_lt_compat; exact Y).
  assert (IB : / b <= (1 + / 50) * / y).
  { apply Rmult_le_reg_l with b; [exact b0|]. rewrite Rinv_r by lra. apply Rle_trans with ((99/100 * y) * ((1 + / 50) * / y)).
    - replace ((99/100 * y) * ((1 + / 50) * / y)) with (99/100 * (1 + / 50)) by (field; lra). lra.
    - apply Rmult_le_compat_r; [|lra]. apply Rmult_le_pos; lra. }
  assert (B0 : 0 < / b) by (apply Rinv_0_lt_compat; exact b0).
  assert (e0 : 0 <= ea) by (pose proof (Rabs_pos (a - x)); lra).
  assert (Q0 : 0 <= Q). { destruct (Rle_or_lt 0 Q) as [H|H]; [exact H|]. pose proof (Rabs_pos x). assert (Q * y < 0 * y) by (apply Rmult_lt_compat_r; lra). lra. }
  replace (a / b - x / y) with ((a - x) * / b + (x * / y) * ((y - b) * / b)) by (field; lra).
  eapply Rle_trans; [apply Rabs_triang|]. rewrite !Rabs_mult, (Rabs_minus_sym y), (Rabs_pos_eq (/ b)), (Rabs_pos_eq (/ y)) by lra.
  assert (T1 : Rabs (a - x) * / b <= ea * ((1 + / 50) * / y)) by (apply Rmult_le_compat; try lra; apply Rabs_pos).
  assert (T2 : Rabs x * / y <= Q).
  { apply Rle_trans with (Q * y * / y); [apply Rmult_le_compat_r; lra|]. right. field. lra. }
  assert (T3 : Rabs (b - y) * / b <= r * (1 + / 50)).
  { apply Rle_trans with ((r * y) * ((1 + / 50) * / y)); [apply Rmult_le_compat; try lra; apply Rabs_pos|]. right. field. lra. }
  assert (T4 : Rabs x * / y * (Rabs (b - y) * / b) <= Q * (r * (1 + / 50))).
  { apply Rmult_le_compat; try assumption; apply Rmult_le_pos; try lra; apply Rabs_pos. }
  lra.
Qed.

Section Quot.
Variables (p w : prim).
Hypothesis W : wide p w.
Lemma fquot_err (a : fl w) (b : fl p) z E Z : is_finite a = true -> is_finite b = true -> B2R b <> 0 ->
  Rabs (B2R a / B2R b - z) <= E -> Rabs z <= Z -> Z + E <= bpow radix2 90 ->
  approximates (E + (2 + / 100) * (fu p * (Z + E)) + 3 * eta p) (fcvt p (fdiv a (fcvt w b))) z.
Proof.
  intros Fa Fb B0 HE HZ HB. destruct (wide_val p w b W) as [Vb Fb']. destruct (wide_fu p w W) as [UW EW].
  pose proof (fu_pos p) as U. pose proof (fu_24 p) as V. pose proof (fu_pos w) as Uw. pose proof (eta_pos p) as E0. pose proof (eta_pos w) as E1.
  set (x := B2R a / B2R b) in *.
  assert (HX : Rabs x <= Z + E) by (replace x with ((x - z) + z) by ring; eapply Rle_trans; [apply Rabs_triang|]; lra).
  pose proof (Rabs_pos x) as Px.
  assert (XB : Rabs x <= fbig w) by (eapply Rle_trans; [exact HX|]; eapply Rle_trans; [exact HB|]; eapply Rle_trans; [|apply bpow100_fbig]; apply bpow_le; lia).
  destruct (fdiv_R w a (fcvt w b) Fa) as [R Fr]; rewrite ?Vb; [exact B0|exact XB|]. rewrite Vb in R. fold x in R.
  pose proof (rnd_err_le w x) as R1. assert (T1 : fu w * Rabs x <= fu p * (Z + E)) by (apply Rmult_le_compat; lra).
  assert (UZ : fu p * (Z + E) <= / 16777216 * (Z + E)) by (apply Rmult_le_compat_r; lra).
  assert (HY : Rabs (rnd w x) <= (1 + / 1000) * (Z + E) + eta p).
  { replace (rnd w x) with ((rnd w x - x) + x) by ring. eapply Rle_trans; [apply Rabs_triang|]. lra. }
  assert (ET : eta p <= bpow radix2 0) by (eapply Rle_trans; [apply eta_tiny|apply bpow_le; lia]). change (bpow radix2 0) with 1 in ET.
  destruct (fcvt_R w p (fdiv a (fcvt w b)) Fr) as [R2 F2].
  { rewrite R. eapply Rle_trans; [exact HY|]. eapply Rle_trans; [|apply (bpow100_fbig p)]. apply Rle_trans with (bpow radix2 91); [|apply bpow_le; lia].
    replace (bpow radix2 91) with (2 * bpow radix2 90) by (change 2 with (bpow radix2 1); rewrite <- bpow_plus; reflexivity).
    assert (bpow radix2 1 <= bpow radix2 90) by (apply bpow_le; lia). change (bpow radix2 1) with 2 in *. lra. }
  split; [exact F2|]. rewrite R2, R. pose proof (rnd_err_le p (rnd w x)) as R3.
  assert (T2 : fu p * Rabs (rnd w x) <= fu p * ((1 + / 1000) * (Z + E) + eta p)) by (apply Rmult_le_compat_l; lra).
  assert (UE : fu p * eta p <= / 16777216 * eta p) by (apply Rmult_le_compat_r; lra).
  replace (rnd p (rnd w x) - z) with ((rnd p (rnd w x) - rnd w x) + ((rnd w x - x) + (x - z))) by ring.
  eapply Rle_trans; [apply Rabs_triang|]. eapply Rle_trans; [apply Rplus_le_compat_l; apply Rabs_triang|].
  assert (0 <= fu p * (Z + E)) by (apply Rmult_le_pos; lra). lra.
Qed.
End Quot.

Section Factors.
Variables (p w : prim) (L : libm).
Hypothesis W : wide p w.
Hypothesis HL : libm_ok L.
Variables (n : fl p) (N : R).
Hypothesis Fn : is_finite n = true.
Hypothesis En : Rabs (B2R n - N) <= (3 + / 20) * fu p * N.
Hypothesis N1 : / 10002 <= N.
Hypothesis N2 : N <= bpow radix2 30.
Let K := / N.
Let u := fu p.
Let v := fu w.
Lemma base : 0 < u <= / 16777216 /\ 0 < v <= u /\ 0 < eta p /\ 5 * eta p <= / 1000 * u /\ 0 < eta w <= eta p /\ 5 * eta w <= / 1000 * v.
Proof.
  destruct (wide_fu p w W). unfold u, v. pose proof (fu_pos p). pose proof (fu_pos w). pose proof (fu_24 p). pose proof (eta_pos p). pose proof (eta_pos w). pose proof (eta5_u p). pose proof (eta5_u w). lra.
Qed.
Lemma NK : 0 < N /\ 0 < K <= 10002 /\ N * K = 1 /\ bpow radix2 (-30) <= K.
Proof.
  assert (P : 0 < N) by lra. split; [exact P|]. split; [split; [apply Rinv_0_lt_compat; exact P|]|split; [unfold K; field; lra|]].
  - unfold K. rewrite <- (Rinv_inv 10002). apply Rinv_le; lra.
  - change (-30)%Z with (- (30))%Z. rewrite bpow_opp. apply Rinv_le; assumption.
Qed.
Lemma eta_K k : (0 <= k <= 3)%Z -> eta p <= / 1000 * (u * bpow radix2 (- (30) * k)).
Proof.
  intro H. eapply Rle_trans; [apply eta_u|]. unfold u. rewrite (Rmult_comm (/ 1000)), Rmult_assoc. apply Rmult_le_compat_l; [left; apply fu_pos|].
  apply Rle_trans with (bpow radix2 (- (30) * k) * bpow radix2 (-10)); [rewrite <- bpow_plus; apply bpow_le; lia|]. apply Rmult_le_compat_l; [apply bpow_ge_0|].
  change (bpow radix2 (-10)) with (/ 1024). lra.
Qed.
(** the norm, its square and its cube *)
Lemma n_pos : 99/100 * N <= B2R n <= 101/100 * N.
Proof.
  destruct NK as (P & _). destruct base as (U & _). apply Rabs_both in En. fold u in En. assert (u * N <= / 16777216 * N) by (apply Rmult_le_compat_r; lra). lra.
Qed.
Lemma eta_N2 : eta p <= / 1000 * (u * (N * N)) /\ eta p <= / 1000 * (u * (N * N * N)).
Proof.
  destruct NK as (P & _). destruct base as (U & _). assert (Q : bpow radix2 (-20) <= N) by (eapply Rle_trans; [|exact N1]; change (bpow radix2 (-20)) with (/ 1048576); lra).
  assert (B0 := bpow_gt_0 radix2 (-20)).
  assert (Q2 : bpow radix2 (-40) <= N * N) by (change (-40)%Z with (-20 + -20)%Z; rewrite bpow_plus; apply Rmult_le_compat; lra).
  assert (B1 := bpow_gt_0 radix2 (-40)).
  assert (Q3 : bpow radix2 (-60) <= N * N * N) by (change (-60)%Z with (-40 + -20)%Z; rewrite bpow_plus; apply Rmult_le_compat; lra).
  pose proof (eta_K 2 ltac:(lia)) as H. change (- (30) * 2)%Z with (-60)%Z in H.
  assert (B2 : bpow radix2 (-60) <= bpow radix2 (-40)) by (apply bpow_le; lia).
  split; (eapply Rle_trans; [exact H|]; apply Rmult_le_compat_l; [lra|]; apply Rmult_le_compat_l; lra).
Qed.
Lemma n2_ok : is_finite (fmul n n) = true /\ Rabs (B2R (fmul n n) - N * N) <= 72/10 * u * (N * N).
Proof.
  destruct NK as (P & _). destruct base as (U & _). destruct eta_N2 as [E2 _].
  assert (NN : 0 < N * N) by (apply Rmult_lt_0_compat; exact P).
  assert (N60 : N * N <= bpow radix2 60) by (change 60%Z with (30 + 30)%Z; rewrite bpow_plus; apply Rmult_le_compat; lra).
  assert (UN : u * N <= / 16777216 * N) by (apply Rmult_le_compat_r; lra).
  assert (UN0 : 0 <= u * N) by (apply Rmult_le_pos; lra).
  destruct (approx_mul p n n N N ((3 + / 20) * u * N) ((3 + / 20) * u * N) N N) as [F E]; try (split; assumption); try (rewrite Rabs_pos_eq; lra).
  { apply Rle_trans with ((bpow radix2 1 * N) * (bpow radix2 1 * N)); [change (bpow radix2 1) with 2; apply Rmult_le_compat; lra|].
    replace (bpow radix2 1 * N * (bpow radix2 1 * N)) with (bpow radix2 2 * (N * N)) by (change (bpow radix2 1) with 2; change (bpow radix2 2) with 4; ring).
    apply Rle_trans with (bpow radix2 2 * bpow radix2 60); [apply Rmult_le_compat_l; [apply bpow_ge_0|exact N60]|]. rewrite <- bpow_plus. apply bpow_le. lia. }
  split; [exact F|]. eapply Rle_trans; [exact E|]. fold u. set (y := u * (N * N)) in *. assert (y0 : 0 <= y) by (apply Rmult_le_pos; lra).
  replace (72/10 * u * (N * N)) with (72/10 * y) by (unfold y; ring).
  assert (uy : u * y <= / 16777216 * y) by (apply Rmult_le_compat_r; lra).
  assert (uuy : u * (u * y) <= / 16777216 * (u * y)) by (apply Rmult_le_compat_r; [apply Rmult_le_pos|]; lra).
  replace ((3 + / 20) * u * N * (N + (3 + / 20) * u * N) + N * ((3 + / 20) * u * N) + u * ((N + (3 + / 20) * u * N) * (N + (3 + / 20) * u * N)))
    with (2 * (3 + / 20) * y + (3 + / 20) * (3 + / 20) * (u * y) + y + 2 * (3 + / 20) * (u * y) + (3 + / 20) * (3 + / 20) * (u * (u * y))) by (unfold y; ring).
  lra.
Qed.
Lemma n3_ok : is_finite (fmul (fmul n n) n) = true /\ Rabs (B2R (fmul (fmul n n) n) - N * N * N) <= 114/10 * u * (N * N * N).
Proof.
  destruct NK as (P & _). destruct base as (U & _). destruct eta_N2 as [_ E3]. destruct n2_ok as [F2 A2].
  assert (NN : 0 < N * N) by (apply Rmult_lt_0_compat; exact P).
  assert (NNN : 0 < N * N * N) by (apply Rmult_lt_0_compat; lra).
  assert (N60 : N * N <= bpow radix2 60) by (change 60%Z with (30 + 30)%Z; rewrite bpow_plus; apply Rmult_le_compat; lra).
  assert (N90 : N * N * N <= bpow radix2 90) by (change 90%Z with (60 + 30)%Z; rewrite bpow_plus; apply Rmult_le_compat; lra).
  assert (UN : 0 <= u * N <= / 16777216 * N) by (split; [apply Rmult_le_pos; lra|apply Rmult_le_compat_r; lra]).
  assert (UN2 : 0 <= u * (N * N) <= / 16777216 * (N * N)) by (split; [apply Rmult_le_pos; lra|apply Rmult_le_compat_r; lra]).
  destruct (approx_mul p (fmul n n) n (N * N) N (72/10 * u * (N * N)) ((3 + / 20) * u * N) (N * N) N) as [F E]; try (split; assumption); try (rewrite Rabs_pos_eq; lra).
  { apply Rle_trans with ((bpow radix2 1 * (N * N)) * (bpow radix2 1 * N)); [change (bpow radix2 1) with 2; apply Rmult_le_compat; lra|].
    replace (bpow radix2 1 * (N * N) * (bpow radix2 1 * N)) with (bpow radix2 2 * (N * N * N)) by (change (bpow radix2 1) with 2; change (bpow radix2 2) with 4; ring).
    apply Rle_trans with (bpow radix2 2 * bpow radix2 90); [apply Rmult_le_compat_l; [apply bpow_ge_0|exact N90]|]. rewrite <- bpow_plus. apply bpow_le. lia. }
  split; [exact F|]. eapply Rle_trans; [exact E|]. fold u. set (y := u * (N * N * N)) in *. assert (y0 : 0 <= y) by (apply Rmult_le_pos; lra).
  replace (114/10 * u * (N * N * N)) with (114/10 * y) by (unfold y; ring).
  assert (uy : u * y <= / 16777216 * y) by (apply Rmult_le_compat_r; lra).
  assert (uuy : u * (u * y) <= / 16777216 * (u * y)) by (apply Rmult_le_compat_r; [apply Rmult_le_pos|]; lra).
  replace (72/10 * u * (N * N) * (N + (3 + / 20) * u * N) + N * N * ((3 + / 20) * u * N) + u * ((N * N + 72/10 * u * (N * N)) * (N + (3 + / 20) * u * N)))
    with ((72/10 + (3 + / 20)) * y + 72/10 * (3 + / 20) * (u * y) + y + (72/10 + (3 + / 20)) * (u * y) + 72/10 * (3 + / 20) * (u * (u * y))) by (unfold y; field).
  lra.
Qed.

(** 1 - cos(norm) *)
Lemma cos_part : is_finite (fsub (fofZ w 1) (lcos L w (fcvt w n))) = true /\
  Rabs (B2R (fsub (fofZ w 1) (lcos L w (fcvt w n))) - (1 - cos N)) <= 41/10 * v + (3 + / 20) * u * N.
Proof.
  destruct base as (U & V & _ & _ & E & E'). destruct (wide_val p w n W) as [Vn Fn']. rewrite Fn in Fn'.
  destruct (cos_accurate L HL w (fcvt w n) Fn') as [Fc Ec]. rewrite roundoff_fu, Vn in Ec. fold v in Ec. destruct (fofZ1 w) as [F1 V1].
  pose proof (cos_lipschitz (B2R n) N) as CL. pose proof (COS_bound (B2R n)) as CB. apply Rabs_both in Ec as Ec'.
  set (c := lcos L w (fcvt w n)) in *.
  assert (HB : Rabs (1 - B2R c) <= 2 + 2 * v) by (apply Rabs_le; lra).
  destruct (fsub_R w (fofZ w 1) c F1 Fc) as [R F]; rewrite ?V1. { pose proof (four_fbig w). lra. }
  split; [exact F|]. rewrite R, V1. pose proof (rnd_err_le w (1 - B2R c)) as R1. fold v in R1.
  assert (v * Rabs (1 - B2R c) <= v * (2 + 2 * v)) by (apply Rmult_le_compat_l; lra).
  assert (v * v <= / 16777216 * v) by (apply Rmult_le_compat_r; lra).
  fold u in En. replace (rnd w (1 - B2R c) - (1 - cos N)) with ((rnd w (1 - B2R c) - (1 - B2R c)) + (- (B2R c - cos (B2R n)) + - (cos (B2R n) - cos N))) by ring.
  eapply Rle_trans; [apply Rabs_triang|]. eapply Rle_trans; [apply Rplus_le_compat_l; apply Rabs_triang|]. rewrite !Rabs_Ropp. lra.
Qed.
(** norm - sin(norm) *)
Lemma sin_part : is_finite (fsub (fcvt w n) (lsin L w (fcvt w n))) = true /\
  Rabs (B2R (fsub (fcvt w n) (lsin L w (fcvt w n))) - (N - sin N)) <= 21/10 * v + 83/10 * u * N.
Proof.
  destruct NK as (P & _). pose proof n_pos as NP.
  destruct base as (U & V & _ & _ & E & E'). destruct (wide_val p w n W) as [Vn Fn']. rewrite Fn in Fn'.
  destruct (sin_accurate L HL w (fcvt w n) Fn') as [Fc Ec]. rewrite roundoff_fu, Vn in Ec. fold v in Ec.
  pose proof (sin_lipschitz (B2R n) N) as CL. pose proof (sin_abs_le (B2R n)) as SB. rewrite (Rabs_pos_eq (B2R n)) in SB by lra. apply Rabs_both in Ec as Ec'. apply Rabs_both in SB.
  set (c := lsin L w (fcvt w n)) in *.
  assert (HB : Rabs (B2R n - B2R c) <= 202/100 * N + 2 * v) by (apply Rabs_le; lra).
  destruct (fsub_R w (fcvt w n) c Fn' Fc) as [R F]; rewrite ?Vn. { apply small_big. eapply Rle_trans; [exact HB|]. apply Rle_trans with (bpow radix2 1 * bpow radix2 30 + bpow radix2 30); [|].
    - assert (bpow radix2 1 <= bpow radix2 30) by (apply bpow_le; lia). change (bpow radix2 1) with 2 in *. assert (0 < bpow radix2 30) by apply bpow_gt_0. lra.
    - replace (bpow radix2 1 * bpow radix2 30 + bpow radix2 30) with (3 * bpow radix2 30) by (change (bpow radix2 1) with 2; ring).
      apply Rle_trans with (bpow radix2 2 * bpow radix2 30); [apply Rmult_le_compat_r; [apply bpow_ge_0|change (bpow radix2 2) with 4; lra]|]. rewrite <- bpow_plus. apply bpow_le. lia. }
  split; [exact F|]. rewrite R, Vn. pose proof (rnd_err_le w (B2R n - B2R c)) as R1. fold v in R1.
  assert (T : v * Rabs (B2R n - B2R c) <= v * (202/100 * N + 2 * v)) by (apply Rmult_le_compat_l; lra).
  assert (VV : v * v <= / 16777216 * v) by (apply Rmult_le_compat_r; lra).
  assert (VN : v * N <= u * N) by (apply Rmult_le_compat_r; lra).
  assert (UN : 0 <= u * N) by (apply Rmult_le_pos; lra).
  fold u in En. replace (rnd w (B2R n - B2R c) - (N - sin N)) with ((rnd w (B2R n - B2R c) - (B2R n - B2R c)) + (- (B2R c - sin (B2R n)) + ((B2R n - N) + - (sin (B2R n) - sin N)))) by ring.
  eapply Rle_trans; [apply Rabs_triang|]. eapply Rle_trans; [apply Rplus_le_compat_l; apply Rabs_triang|].
  eapply Rle_trans; [apply Rplus_le_compat_l; apply Rplus_le_compat_l; apply Rabs_triang|]. rewrite !Rabs_Ropp. lra.
Qed.
Lemma cos_le_N : 0 <= 1 - cos N <= N.
Proof.
  destruct NK as (P & _). pose proof (cos_lipschitz 0 N) as H. rewrite cos_0, (Rabs_minus_sym 0), Rminus_0_r, (Rabs_pos_eq N) in H by lra. apply Rabs_both in H. pose proof (COS_bound N). lra.
Qed.
Lemma sin_le_2N : 0 <= N - sin N <= 2 * N.
Proof.
  destruct NK as (P & _). pose proof (sin_abs_le N) as H. rewrite (Rabs_pos_eq N) in H by lra. apply Rabs_both in H. lra.
Qed.
Lemma K_etas : eta p <= / 1000 * (u * K) /\ eta p <= / 1000 * (u * (K * K)).
Proof.
  destruct NK as (P & K0 & KN & KB). destruct base as (U & _). assert (B0 := bpow_gt_0 radix2 (-30)).
  assert (KK : bpow radix2 (-60) <= K * K) by (change (-60)%Z with (-30 + -30)%Z; rewrite bpow_plus; apply Rmult_le_compat; lra).
  pose proof (eta_K 1 ltac:(lia)) as H1. change (- (30) * 1)%Z with (-30)%Z in H1.
  pose proof (eta_K 2 ltac:(lia)) as H2. change (- (30) * 2)%Z with (-60)%Z in H2.
  split; [eapply Rle_trans; [exact H1|]|eapply Rle_trans; [exact H2|]]; (apply Rmult_le_compat_l; [lra|]; apply Rmult_le_compat_l; lra).
Qed.
Lemma vK : 0 <= v * K <= / 1000 /\ 0 <= u * K <= / 1000.
Proof.
  destruct NK as (P & K0 & KN & KB). destruct base as (U & V & _). assert (X : u * K <= / 16777216 * 10002) by (apply Rmult_le_compat; lra).
  assert (v * K <= u * K) by (apply Rmult_le_compat_r; lra). assert (0 <= v * K) by (apply Rmult_le_pos; lra). lra.
Qed.

Definition s1f : fl p := fcvt p (fdiv (fsub (fofZ w 1) (lcos L w (fcvt w n))) (fcvt w (fmul n n))).
Definition s2f : fl p := fcvt p (fdiv (fsub (fcvt w n) (lsin L w (fcvt w n))) (fcvt w (fmul (fmul n n) n))).
Lemma s1_ok : approximates (K * (43/10 * (v * K) + 127/10 * u)) s1f ((1 - cos N) / (N * N)) /\ 0 <= (1 - cos N) / (N * N) <= K.
Proof.
  destruct NK as (P & K0 & KN & KB). destruct base as (U & V & _). destruct cos_part as [Fa Ea]. destruct n2_ok as [F2 A2]. destruct K_etas as [EK _]. destruct vK as [VK UK].
  destruct cos_le_N as [C0 C1]. assert (NN : 0 < N * N) by (apply Rmult_lt_0_compat; exact P). assert (IN : / (N * N) = K * K) by (unfold K; field; lra).
  assert (BD : 0 <= (1 - cos N) / (N * N) <= K).
  { unfold Rdiv. rewrite IN. split; [apply Rmult_le_pos; [exact C0|apply Rmult_le_pos; lra]|].
    apply Rle_trans with (N * (K * K)); [apply Rmult_le_compat_r; [apply Rmult_le_pos; lra|exact C1]|]. rewrite <- Rmult_assoc, KN. lra. }
  split; [|exact BD].
  destruct (quot_err _ _ _ _ _ (72/10 * u) K NN Ea A2) as [B0 Q]; [lra| |].
  { rewrite Rabs_pos_eq by exact C0. replace (K * (N * N)) with (N * K * N) by ring. rewrite KN. lra. }
  rewrite IN in Q. set (x := u * K) in *. set (y := v * K) in *.
  assert (Q' : Rabs (B2R (fsub (fofZ w 1) (lcos L w (fcvt w n))) / B2R (fmul n n) - (1 - cos N) / (N * N)) <= K * (42/10 * y + 105/10 * u)).
  { eapply Rle_trans; [exact Q|]. replace ((41/10 * v + (3 + / 20) * u * N) * (K * K)) with (K * (41/10 * y + (3 + / 20) * u * (N * K))) by (unfold y; field). rewrite KN.
    replace ((1 + / 50) * (K * (41/10 * y + (3 + / 20) * u * 1) + 72/10 * u * K)) with (K * ((1 + / 50) * (41/10 * y + (3 + / 20) * u + 72/10 * u))) by field. apply Rmult_le_compat_l; lra. }
  assert (FB : K + K * (42/10 * y + 105/10 * u) <= bpow radix2 90).
  { apply Rle_trans with (10002 + 10002 * 1); [apply Rplus_le_compat; [lra|apply Rmult_le_compat; lra]|]. apply Rle_trans with (bpow radix2 20); [change (bpow radix2 20) with 1048576; lra|apply bpow_le; lia]. }
  eapply approx_mono; [|apply (fquot_err p w W _ _ _ _ K Fa F2 (Rgt_not_eq _ _ B0) Q'); [rewrite Rabs_pos_eq; lra|exact FB]].
  fold u. set (e := 42/10 * y + 105/10 * u) in *.
  assert (e1 : 0 <= e <= / 100) by (unfold e; lra).
  replace (u * (K + K * e)) with (K * (u * (1 + e))) by ring. 
  assert (ue : u * (1 + e) <= u * (1 + / 100)) by (apply Rmult_le_compat_l; lra).
  assert (ue' : K * (u * (1 + e)) <= K * (u * (1 + / 100))) by (apply Rmult_le_compat_l; lra).
  replace (K * (43/10 * y + 127/10 * u)) with (K * e + / 10 * (K * y) + 22/10 * x) by (unfold e, x; field).
  replace (K * (u * (1 + / 100))) with ((1 + / 100) * x) in ue' by (unfold x; ring).
  assert (0 <= K * y) by (apply Rmult_le_pos; lra). lra.
Qed.
Lemma s2_ok : approximates (K * K * (23/10 * (v * K) + 361/10 * u)) s2f ((N - sin N) / (N * N * N)) /\ 0 <= (N - sin N) / (N * N * N) <= 2 * (K * K).
Proof.
  destruct NK as (P & K0 & KN & KB). destruct base as (U & V & _). destruct sin_part as [Fa Ea]. destruct n3_ok as [F2 A2]. destruct K_etas as [_ EK]. destruct vK as [VK UK].
  destruct sin_le_2N as [C0 C1]. assert (NN : 0 < N * N * N) by (repeat apply Rmult_lt_0_compat; exact P). assert (IN : / (N * N * N) = K * K * K) by (unfold K; field; lra).
  assert (KK : 0 < K * K) by (apply Rmult_lt_0_compat; lra).
  assert (BD : 0 <= (N - sin N) / (N * N * N) <= 2 * (K * K)).
  { unfold Rdiv. rewrite IN. split; [apply Rmult_le_pos; [exact C0|apply Rmult_le_pos; lra]|].
    apply Rle_trans with (2 * N * (K * K * K)); [apply Rmult_le_compat_r; [apply Rmult_le_pos; lra|exact C1]|]. replace (2 * N * (K * K * K)) with (2 * (N * K) * (K * K)) by ring. rewrite KN. lra. }
  split; [|exact BD].
  destruct (quot_err _ _ _ _ _ (114/10 * u) (2 * (K * K)) NN Ea A2) as [B0 Q]; [lra| |].
  { rewrite Rabs_pos_eq by exact C0. replace (2 * (K * K) * (N * N * N)) with (2 * (N * K) * (N * K) * N) by ring. rewrite KN. lra. }
  rewrite IN in Q. set (x := u * (K * K)) in *. set (y := v * K) in *.
  assert (Q' : Rabs (B2R (fsub (fcvt w n) (lsin L w (fcvt w n))) / B2R (fmul (fmul n n) n) - (N - sin N) / (N * N * N)) <= K * K * (22/10 * y + 318/10 * u)).
  { eapply Rle_trans; [exact Q|]. replace ((21/10 * v + 83/10 * u * N) * (K * K * K)) with (K * K * (21/10 * y + 83/10 * u * (N * K))) by (unfold y; field). rewrite KN.
    replace ((1 + / 50) * (K * K * (21/10 * y + 83/10 * u * 1) + 114/10 * u * (2 * (K * K)))) with (K * K * ((1 + / 50) * (21/10 * y + 83/10 * u + 228/10 * u))) by field. apply Rmult_le_compat_l; lra. }
  assert (KKB : K * K <= 10002 * 10002) by (apply Rmult_le_compat; lra).
  assert (FB : 2 * (K * K) + K * K * (22/10 * y + 318/10 * u) <= bpow radix2 90).
  { apply Rle_trans with (2 * (10002 * 10002) + 10002 * 10002 * 1); [apply Rplus_le_compat; [lra|apply Rmult_le_compat; lra]|]. apply Rle_trans with (bpow radix2 30); [change (bpow radix2 30) with 1073741824; lra|apply bpow_le; lia]. }
  eapply approx_mono; [|apply (fquot_err p w W _ _ _ _ (2 * (K * K)) Fa F2 (Rgt_not_eq _ _ B0) Q'); [rewrite Rabs_pos_eq; lra|exact FB]].
  fold u. set (e := 22/10 * y + 318/10 * u) in *.
  assert (e1 : 0 <= e <= / 100) by (unfold e; lra).
  replace (u * (2 * (K * K) + K * K * e)) with (K * K * (u * (2 + e))) by ring. 
  assert (ue : u * (2 + e) <= u * (2 + / 100)) by (apply Rmult_le_compat_l; lra).
  assert (ue' : K * K * (u * (2 + e)) <= K * K * (u * (2 + / 100))) by (apply Rmult_le_compat_l; lra).
  replace (K * K * (23/10 * y + 361/10 * u)) with (K * K * e + / 10 * (K * K * y) + 43/10 * x) by (unfold e, x; field).
  replace (K * K * (u * (2 + / 100))) with ((2 + / 100) * x) in ue' by (unfold x; ring).
  assert (0 <= x) by (apply Rmult_le_pos; lra). assert (0 <= K * K * y) by (apply Rmult_le_pos; lra). lra.
Qed.
End Factors.
