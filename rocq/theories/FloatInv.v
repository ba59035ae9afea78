(** The inverse of a general float quaternion. *)
From Coq Require Import ZArith Reals Lra Psatz Bool List Lia.
From Flocq Require Import IEEE754.BinarySingleNaN Core.Core.
From Verif Require Import Linalg Spec SpecFacts ModelCommon FloatModel FloatFacts FloatModulo FloatWrap FloatModel2 SpecFloatQ FloatQFacts FloatQProd FloatQRot FloatBuild FloatJac FloatModel16.
Import ListNotations.
Local Open Scope R_scope.

Lemma bpow_inv100 : bpow radix2 (-100) * bpow radix2 100 = 1.
Proof. rewrite <- bpow_plus. reflexivity. Qed.

Lemma finv_coeff p m (s c : fl p) N : is_finite s = true -> is_finite c = true ->
  bpow radix2 (-50) <= N <= bpow radix2 50 -> Rabs (B2R s - N * N) <= (4 + / 100) * fu p * (N * N) -> Rabs (B2R c) <= N ->
  is_finite (fscale_down m s c) = true /\ Rabs (B2R (fscale_down m s c) - B2R c / (N * N)) <= (6 + / 9) * fu p * (Rabs (B2R c) / (N * N)) + / 100 * fu p * / N.
Proof.
  intros Fs Fc [L H] Hs Hc. pose proof (fu_pos p) as U. pose proof (fu_24 p) as V. pose proof (bpow_gt_0 radix2 (-50)) as P. pose proof (eta_pos p) as E0.
  assert (N0 : 0 < N) by lra. pose proof (Rabs_pos (B2R c)) as C0.
  assert (y0 : 0 < N * N) by (apply Rmult_lt_0_compat; lra).
  assert (Iv : 0 < / N) by (now apply Rinv_0_lt_compat). assert (Iy : 0 < / (N * N)) by (now apply Rinv_0_lt_compat).
  assert (yl : bpow radix2 (-100) <= N * N) by (rewrite <- bpow_m50; apply Rmult_le_compat; lra).
  assert (yh : N * N <= bpow radix2 100). { replace (bpow radix2 100) with (bpow radix2 50 * bpow radix2 50) by (rewrite <- bpow_plus; reflexivity). apply Rmult_le_compat; lra. }
  assert (Il : bpow radix2 (-50) <= / N).
  { apply Rmult_le_reg_r with N; [exact N0|]. rewrite Rinv_l by lra. rewrite <- bpow_inv50 at 1. apply Rmult_le_compat_l; lra. }
  assert (Ib : / (N * N) <= bpow radix2 100).
  { apply Rmult_le_reg_r with (N * N); [exact y0|]. rewrite Rinv_l by lra. rewrite <- bpow_inv100 at 1. rewrite Rmult_comm. pose proof (bpow_ge_0 radix2 100). apply Rmult_le_compat_l; lra. }
  assert (Ih : / N <= bpow radix2 50).
  { apply Rmult_le_reg_r with N; [exact N0|]. rewrite Rinv_l by lra. rewrite <- bpow_inv50 at 1. rewrite Rmult_comm. pose proof (bpow_ge_0 radix2 50). apply Rmult_le_compat_l; lra. }
  (* underflow *)
  pose proof (eta_u p) as T.
  assert (T1 : eta p <= / 1000000 * (fu p * / N)).
  { eapply Rle_trans; [exact T|]. rewrite <- Rmult_assoc, (Rmult_comm _ (fu p)), Rmult_assoc. apply Rmult_le_compat_l; [lra|].
    apply Rle_trans with (bpow radix2 (-20) * bpow radix2 (-50)); [rewrite <- bpow_plus; apply bpow_le; lia|]. apply Rmult_le_compat; [apply bpow_ge_0|apply bpow_ge_0|cbn; lra|exact Il]. }
  assert (T2 : N * eta p <= / 1000000 * (fu p * / N)).
  { replace (/ 1000000 * (fu p * / N)) with (N * (fu p * (/ 1000000 * / (N * N)))) by (field; lra). apply Rmult_le_compat_l; [lra|].
    eapply Rle_trans; [exact T|]. apply Rmult_le_compat_l; [lra|]. apply Rle_trans with (bpow radix2 (-20) * bpow radix2 (-100)); [rewrite <- bpow_plus; apply bpow_le; lia|].
    apply Rmult_le_compat; [apply bpow_ge_0|apply bpow_ge_0|cbn; lra|].
    apply Rmult_le_reg_r with (N * N); [exact y0|]. rewrite Rinv_l by lra. rewrite <- bpow_inv100 at 1. apply Rmult_le_compat_l; [apply bpow_ge_0|lra]. }
  set (Q := Rabs (B2R c) / (N * N)) in *.
  assert (Q0 : 0 <= Q) by (apply Rmult_le_pos; lra).
  assert (QN : Q <= / N). { unfold Q. replace (/ N) with (N / (N * N)) by (field; lra). apply Rmult_le_compat_r; lra. }
  assert (Xa : Rabs (B2R c / (N * N)) = Q) by (unfold Q, Rdiv; rewrite Rabs_mult, (Rabs_pos_eq (/ (N * N))) by lra; reflexivity).
  assert (r1 : (4 + / 100) * fu p <= / 100) by lra.
  destruct (quot_err (B2R c) (B2R s) (B2R c) (N * N) 0 ((4 + / 100) * fu p) Q y0) as [S0 QE]; [rewrite Rminus_diag_eq, Rabs_R0 by reflexivity; lra|exact Hs|exact r1|unfold Q; replace (Rabs (B2R c) / (N * N) * (N * N)) with (Rabs (B2R c)) by (field; lra); lra|].
  set (z := B2R c / (N * N)) in *. set (uN := fu p * / N) in *. assert (uN0 : 0 <= uN) by (apply Rmult_le_pos; lra).
  assert (uQ : fu p * Q <= uN) by (apply Rmult_le_compat_l; lra). assert (uQ0 : 0 <= fu p * Q) by (apply Rmult_le_pos; lra).
  set (uq := fu p * Q) in *.
  replace ((6 + / 9) * fu p * Q + / 100 * fu p * / N) with ((6 + / 9) * uq + / 100 * uN) by (unfold uq, uN; ring).
  assert (FB : bpow radix2 50 * 2 <= fbig p) by (change 2 with (bpow radix2 1); rewrite <- bpow_plus; apply bpow_le; destruct p; vm_compute; discriminate).
  assert (uqs : uq <= / 16777216 * Q) by (apply Rmult_le_compat_r; lra).
  assert (uNs : uN <= / 16777216 * / N) by (apply Rmult_le_compat_r; lra).
  destruct m; cbn [fscale_down].
  - assert (QE' : Rabs (B2R c / B2R s - z) <= 41/10 * uq).
    { eapply Rle_trans; [exact QE|]. replace ((1 + / 50) * (0 * / (N * N) + (4 + / 100) * fu p * Q)) with ((1 + / 50) * ((4 + / 100) * uq)) by (unfold uq; ring). lra. }
    assert (Y : Rabs (B2R c / B2R s) <= (1 + / 1000) * Q).
    { replace (B2R c / B2R s) with ((B2R c / B2R s - z) + z) by ring. eapply Rle_trans; [apply Rabs_triang|]. rewrite Xa. lra. }
    destruct (fdiv_R p c s Fc) as [R F]; [lra|lra|]. split; [exact F|]. rewrite R.
    pose proof (rnd_err_le p (B2R c / B2R s)) as RE.
    replace (rnd p (B2R c / B2R s) - z) with ((rnd p (B2R c / B2R s) - B2R c / B2R s) + (B2R c / B2R s - z)) by ring.
    eapply Rle_trans; [apply Rabs_triang|].
    assert (G : fu p * Rabs (B2R c / B2R s) <= fu p * ((1 + / 1000) * Q)) by (apply Rmult_le_compat_l; lra).
    replace (fu p * ((1 + / 1000) * Q)) with ((1 + / 1000) * uq) in G by (unfold uq; ring). lra.
  - destruct (fofZ1 p) as [F1 V1].
    destruct (quot_err 1 (B2R s) 1 (N * N) 0 ((4 + / 100) * fu p) (/ (N * N)) y0) as [_ Q1]; [rewrite Rminus_diag_eq, Rabs_R0 by reflexivity; lra|exact Hs|exact r1|rewrite Rabs_R1, Rinv_l by lra; lra|].
    set (k := / (N * N)) in *. set (uk := fu p * k). assert (uk0 : 0 <= uk) by (apply Rmult_le_pos; lra).
    assert (uks : uk <= / 16777216 * k) by (apply Rmult_le_compat_r; lra).
    assert (Q1' : Rabs (1 / B2R s - k) <= 41/10 * uk).
    { replace k with (1 / (N * N)) at 1 by (unfold k; field; lra). eapply Rle_trans; [exact Q1|]. replace ((1 + / 50) * (0 * k + (4 + / 100) * fu p * k)) with ((1 + / 50) * ((4 + / 100) * uk)) by (unfold uk; ring). lra. }
    assert (Y1 : Rabs (1 / B2R s) <= (1 + / 1000) * k).
    { replace (1 / B2R s) with ((1 / B2R s - k) + k) by ring. eapply Rle_trans; [apply Rabs_triang|]. rewrite (Rabs_pos_eq k) by lra. lra. }
    assert (B100 : bpow radix2 100 * 2 <= fbig p).
    { change 2 with (bpow radix2 1). rewrite <- bpow_plus. apply bpow_le. destruct p; vm_compute; discriminate. }
    destruct (fdiv_R p (fofZ p 1) s F1) as [R1 Fr1]; [lra|rewrite V1; lra|]. rewrite V1 in R1.
    set (t := fdiv (fofZ p 1) s) in *. pose proof (rnd_err_le p (1 / B2R s)) as RE1. rewrite <- R1 in RE1.
    assert (D1 : Rabs (B2R t - k) <= (5 + / 9) * uk + eta p).
    { replace (B2R t - k) with ((B2R t - 1 / B2R s) + (1 / B2R s - k)) by ring. eapply Rle_trans; [apply Rabs_triang|].
      assert (G : fu p * Rabs (1 / B2R s) <= fu p * ((1 + / 1000) * k)) by (apply Rmult_le_compat_l; lra). replace (fu p * ((1 + / 1000) * k)) with ((1 + / 1000) * uk) in G by (unfold uk; ring). lra. }
    assert (D1' : Rabs (B2R t - k) <= (51/10 + / 500) * uk + eta p).
    { replace (B2R t - k) with ((B2R t - 1 / B2R s) + (1 / B2R s - k)) by ring. eapply Rle_trans; [apply Rabs_triang|].
      assert (G : fu p * Rabs (1 / B2R s) <= fu p * ((1 + / 1000) * k)) by (apply Rmult_le_compat_l; lra). replace (fu p * ((1 + / 1000) * k)) with ((1 + / 1000) * uk) in G by (unfold uk; ring). lra. }
    assert (Zk : z = B2R c * k) by (unfold z, k; field; lra).
    assert (D2 : Rabs (B2R c * B2R t - z) <= (51/10 + / 500) * uq + / 1000000 * uN).
    { rewrite Zk. replace (B2R c * B2R t - B2R c * k) with (B2R c * (B2R t - k)) by ring. rewrite Rabs_mult.
      apply Rle_trans with (Rabs (B2R c) * ((51/10 + / 500) * uk + eta p)); [apply Rmult_le_compat_l; assumption|].
      replace (Rabs (B2R c) * ((51/10 + / 500) * uk + eta p)) with ((51/10 + / 500) * uq + Rabs (B2R c) * eta p) by (unfold uk, uq, Q, k; field; lra).
      assert (Rabs (B2R c) * eta p <= N * eta p) by (apply Rmult_le_compat_r; lra). lra. }
    assert (Y2 : Rabs (B2R c * B2R t) <= (1 + / 1000) * Q + / 1000000 * uN).
    { replace (B2R c * B2R t) with ((B2R c * B2R t - z) + z) by ring. eapply Rle_trans; [apply Rabs_triang|]. rewrite Xa. lra. }
    destruct (fmul_R p c t Fc Fr1) as [R F]; [lra|]. split; [exact F|]. rewrite R.
    pose proof (rnd_err_le p (B2R c * B2R t)) as RE.
    replace (rnd p (B2R c * B2R t) - z) with ((rnd p (B2R c * B2R t) - B2R c * B2R t) + (B2R c * B2R t - z)) by ring.
    eapply Rle_trans; [apply Rabs_triang|].
    assert (G : fu p * Rabs (B2R c * B2R t) <= fu p * ((1 + / 1000) * Q + / 1000000 * uN)) by (apply Rmult_le_compat_l; lra).
    assert (uu : fu p * uN <= / 16777216 * uN) by (apply Rmult_le_compat_r; lra).
    replace (fu p * ((1 + / 1000) * Q + / 1000000 * uN)) with ((1 + / 1000) * uq + / 1000000 * (fu p * uN)) in G by (unfold uq; ring). lra.
Qed.

Lemma finverted_err p t m (q : FQ p) : order 4 t -> qfinite q -> bpow radix2 (-50) <= qnorm (qval q) <= bpow radix2 50 ->
  qfinite (finverted t m q) /\ qdist (qval (finverted t m q)) (qscale (/ (qnorm (qval q) * qnorm (qval q))) (conj (qval q))) <= 31/5 * fu p * / qnorm (qval q).
Proof.
  intros O F L. destruct (fsqnorm_err p t q O F L) as [Fs E]. destruct (fqnorm_err p t q O F L) as (P & _ & _). rewrite <- qnorm_sq in E.
  destruct F as (A & B & C & D). unfold finverted. rewrite P. cbv zeta. set (s := fsqnorm t q) in *. pose proof (bpow_gt_0 radix2 (-50)) as P0.
  destruct (comp_le_norm (qval q)) as (Cw & Cx & Cy & Cz). set (N := qnorm (qval q)) in *. cbn [qval qw qx qy qz] in Cw, Cx, Cy, Cz.
  assert (N0 : 0 < N) by lra. assert (y0 : 0 < N * N) by (apply Rmult_lt_0_compat; lra). assert (Iy : 0 < / (N * N)) by (now apply Rinv_0_lt_compat). assert (Iv : 0 < / N) by (now apply Rinv_0_lt_compat).
  assert (NG : forall c : fl p, is_finite c = true -> Rabs (B2R c) <= N -> is_finite (fneg c) = true /\ Rabs (B2R (fneg c)) <= N) by (intros c Hc Hn; rewrite fneg_fin, fneg_val, Rabs_Ropp; auto).
  destruct (NG _ B Cx) as [B' Cx']. destruct (NG _ C Cy) as [C' Cy']. destruct (NG _ D Cz) as [D' Cz'].
  unfold fconj; cbn [fw fx fy fz].
  destruct (finv_coeff p m s (fw q) N Fs A L E Cw) as [F1 E1]. destruct (finv_coeff p m s _ N Fs B' L E Cx') as [F2 E2].
  destruct (finv_coeff p m s _ N Fs C' L E Cy') as [F3 E3]. destruct (finv_coeff p m s _ N Fs D' L E Cz') as [F4 E4].
  split; [repeat split; assumption|]. pose proof (fu_pos p) as U.
  assert (Nd : qnorm (qscale (/ (N * N)) (conj (qval q))) = / N).
  { rewrite qnorm_scale, (Rabs_pos_eq (/ (N * N))) by lra. replace (qnorm (conj (qval q))) with N by (unfold N, qnorm; f_equal; unfold qnorm2, conj; cbn [qw qx qy qz]; ring). field. lra. }
  assert (un : 0 <= fu p * / N) by (apply Rmult_le_pos; lra).
  unfold qdist. eapply Rle_trans; [apply (qnorm_mixed _ (qscale (/ (N * N)) (conj (qval q))) ((6 + / 9) * fu p) (/ 100 * fu p * / N)); try lra|].
  5: { rewrite Nd. replace ((6 + / 9) * fu p * / N + 2 * (/ 100 * fu p * / N)) with ((6 + / 9 + / 50) * (fu p * / N)) by (field; lra). rewrite Rmult_assoc. apply Rmult_le_compat_r; lra. }
  all: unfold qsub, conj, qscale, qval; cbn [qw qx qy qz fw fx fy fz]; fold (qval q); fold N.
  all: rewrite ?fneg_val in *; rewrite !(Rmult_comm (/ (N * N))), Rabs_mult, (Rabs_pos_eq (/ (N * N))) by lra; assumption.
Qed.
