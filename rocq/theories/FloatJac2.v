(** * FloatJac2: rounding of the sums of getJacobianOfExponentialMap. *)
From Coq Require Import ZArith Reals Lra Psatz Bool List Lia.
From Flocq Require Import IEEE754.BinarySingleNaN Core.Core.
From Verif Require Import Linalg Spec SpecFacts SpecClose ModelCommon ModelEigen CommonFacts CloseFacts ModelDiff JacFacts
  FloatModel FloatFacts FloatWrap FloatModel2 SpecFloatQ FloatQFacts FloatQProd FloatQHist FloatQRot FloatMHist FloatCast FloatModel3 SpecLibm FloatBuild FloatBuild2 FloatBuild3 FloatBuild4 FloatModel4 FloatExt FloatModel12 FloatDiff FloatDiff2 FloatDiff3 FloatModel14 FloatJac.
Import ListNotations.
Local Open Scope R_scope.

(** nine statements, one for each entry *)
Definition every {p} (P : fl p -> R -> Prop) (m : FM p) (z : M33) : Prop :=
  (P (gx (r0 m)) (m00 z) /\ P (gy (r0 m)) (m01 z) /\ P (gz (r0 m)) (m02 z)) /\
  (P (gx (r1 m)) (m10 z) /\ P (gy (r1 m)) (m11 z) /\ P (gz (r1 m)) (m12 z)) /\
  (P (gx (r2 m)) (m20 z) /\ P (gy (r2 m)) (m21 z) /\ P (gz (r2 m)) (m22 z)).
Lemma every_imp p (P Q : fl p -> R -> Prop) m z : (forall x y, P x y -> Q x y) -> every P m z -> every Q m z.
Proof. intros H ((A & B & C) & (D & E & F) & (G & I & J)). unfold every. repeat split; apply H; assumption. Qed.
Lemma every_close p e (m : FM p) z : every (approximates e) m z -> mfinite m /\ close (49/16 * e) (mval m) z.
Proof.
  intros (((F0 & E0) & (F1 & E1) & (F2 & E2)) & ((F3 & E3) & (F4 & E4) & (F5 & E5)) & ((F6 & E6) & (F7 & E7) & (F8 & E8))).
  split. { unfold mfinite, vfinite. repeat split; assumption. }
  replace (49/16 * e) with (7/4 * (7/4 * e)) by field. apply close_rows; apply vnorm_le3; assumption.
Qed.

Lemma dotabs_3 a0 a1 a2 b0 b1 b2 : dotabs [a0; a1; a2] [b0; b1; b2] = Rabs (a0 * b0) + Rabs (a1 * b1) + Rabs (a2 * b2).
Proof. unfold dotabs; cbn; ring. Qed.
Section Sums.
Variable p : prim.
(** the last sum *)
Lemma sum3_ok (t : dtree) (i s1 s a b : fl p) z : order 3 t -> is_finite i = true -> is_finite s1 = true -> is_finite s = true -> is_finite a = true -> is_finite b = true ->
  Rabs (B2R i) <= 1 -> Rabs (B2R s1 * B2R s) <= 101/100 -> Rabs z <= 202/100 -> Rabs (B2R a * B2R b - z) <= 82/10 * fu p ->
  approximates (204/10 * fu p) (fdot t [fofZ p 1; s1; a] [i; s; b]) (B2R i + B2R s1 * B2R s + z).
Proof.
  intros O Fi F1 Fs Fa Fb Hi H1 Hz Hab. destruct (fofZ1 p) as [Fo Vo]. pose proof (fu_pos p) as U. pose proof (fu_24 p) as V. pose proof (eta5_u p) as E5.
  assert (AB : Rabs (B2R a * B2R b) <= 203/100) by (replace (B2R a * B2R b) with ((B2R a * B2R b - z) + z) by ring; eapply Rle_trans; [apply Rabs_triang|]; lra).
  destruct (fdot3_err p t (fofZ p 1) s1 a i s b (404/100) O Fo F1 Fa Fi Fs Fb) as [F E].
  { rewrite dotabs_3, Vo, Rmult_1_l. lra. }
  { apply Rle_trans with (bpow radix2 3); [change (bpow radix2 3) with 8; lra|apply bpow_le; lia]. }
  split; [exact F|]. rewrite Vo in E. rewrite Rmult_1_l in E.
  replace (B2R (fdot t [fofZ p 1; s1; a] [i; s; b]) - (B2R i + B2R s1 * B2R s + z)) with
    ((B2R (fdot t [fofZ p 1; s1; a] [i; s; b]) - (B2R i + B2R s1 * B2R s + B2R a * B2R b)) + (B2R a * B2R b - z)) by ring.
  eapply Rle_trans; [apply Rabs_triang|]. lra.
Qed.
Lemma sum2_ok (t : dtree) (i s : fl p) : order 2 t -> is_finite i = true -> is_finite s = true -> Rabs (B2R i) <= 1 -> Rabs (B2R s) <= / 1000 ->
  approximates ((2 + / 100) * fu p) (fdot t [fofZ p 1; fhalf p] [i; s]) (B2R i + / 2 * B2R s).
Proof.
  intros O Fi Fs Hi Hs. destruct (fofZ1 p) as [Fo Vo]. destruct (fhalf_R p) as [Fh Vh]. pose proof (fu_pos p) as U. pose proof (eta5_u p) as E5.
  destruct (fdot2_err p t (fofZ p 1) (fhalf p) i s (1001/1000) O Fo Fh Fi Fs) as [F E].
  { rewrite Vo, Vh, Rmult_1_l, Rabs_mult, (Rabs_pos_eq (/ 2)) by lra. lra. }
  { apply Rle_trans with (bpow radix2 3); [change (bpow radix2 3) with 8; lra|apply bpow_le; lia]. }
  split; [exact F|]. rewrite Vo, Vh in E. rewrite Rmult_1_l in E. eapply Rle_trans; [exact E|]. lra.
Qed.
Lemma final3 o s1 (s x : FM p) a z : orders9_ok o -> is_finite s1 = true -> is_finite a = true ->
  every (fun y _ => is_finite y = true /\ Rabs (B2R s1 * B2R y) <= 101/100) s z ->
  every (fun y c => is_finite y = true /\ Rabs c <= 202/100 /\ Rabs (B2R a * B2R y - c) <= 82/10 * fu p) x z ->
  every (approximates (204/10 * fu p)) (fentries o [fofZ p 1; s1; a] [fident p; s; x]) (madd (madd mid (mscale (B2R s1) (mval s))) z).
Proof.
  intros ((O00 & O01 & O02) & (O10 & O11 & O12) & (O20 & O21 & O22)) F1 Fa
    ((S0 & S1 & S2) & (S3 & S4 & S5) & (S6 & S7 & S8)) ((X0 & X1 & X2) & (X3 & X4 & X5) & (X6 & X7 & X8)).
  destruct (fofZ1 p) as [Fo Vo].
  assert (ONE : Rabs (B2R (fofZ p 1)) <= 1) by (rewrite Vo, Rabs_R1; lra).
  assert (ZER : Rabs (B2R (@fzero p)) <= 1) by (change (B2R (@fzero p)) with 0; rewrite Rabs_R0; lra).
  assert (D : forall t, order 3 t -> forall y x z, is_finite y = true /\ Rabs (B2R s1 * B2R y) <= 101/100 -> is_finite x = true /\ Rabs z <= 202/100 /\ Rabs (B2R a * B2R x - z) <= 82/10 * fu p ->
    approximates (204/10 * fu p) (fdot t [fofZ p 1; s1; a] [fofZ p 1; y; x]) (1 + B2R s1 * B2R y + z)).
  { intros t Ot y x' z' [Hy Hy'] (Hx & Hz & Hxz). pose proof (sum3_ok t (fofZ p 1) s1 y a x' z') as G. rewrite Vo in G. apply G; try assumption. rewrite Rabs_R1. lra. }
  assert (Z : forall t, order 3 t -> forall y x z, is_finite y = true /\ Rabs (B2R s1 * B2R y) <= 101/100 -> is_finite x = true /\ Rabs z <= 202/100 /\ Rabs (B2R a * B2R x - z) <= 82/10 * fu p ->
    approximates (204/10 * fu p) (fdot t [fofZ p 1; s1; a] [fzero; y; x]) (0 + B2R s1 * B2R y + z)).
  { intros t Ot y x' z' [Hy Hy'] (Hx & Hz & Hxz). apply (sum3_ok t fzero); try assumption. reflexivity. }
  unfold every, fentries, fident. cbn [map r0 r1 r2 gx gy gz].
  unfold madd, mscale, mid, mval. cbn [m00 m01 m02 m10 m11 m12 m20 m21 m22].
  refine (Logic.conj (Logic.conj _ (Logic.conj _ _)) (Logic.conj (Logic.conj _ (Logic.conj _ _)) (Logic.conj _ (Logic.conj _ _)))); first [apply D; assumption|apply Z; assumption].
Qed.
Lemma final2 o (s : FM p) : orders3_ok 2 2 2 (ro0 o) /\ orders3_ok 2 2 2 (ro1 o) /\ orders3_ok 2 2 2 (ro2 o) ->
  every (fun y _ => is_finite y = true /\ Rabs (B2R y) <= / 1000) s mid ->
  every (approximates ((2 + / 100) * fu p)) (fentries o [fofZ p 1; fhalf p] [fident p; s]) (madd mid (mscale (/ 2) (mval s))).
Proof.
  intros ((O00 & O01 & O02) & (O10 & O11 & O12) & (O20 & O21 & O22)) ((S0 & S1 & S2) & (S3 & S4 & S5) & (S6 & S7 & S8)).
  destruct (fofZ1 p) as [Fo Vo].
  assert (ONE : Rabs (B2R (fofZ p 1)) <= 1) by (rewrite Vo, Rabs_R1; lra).
  assert (ZER : Rabs (B2R (@fzero p)) <= 1) by (change (B2R (@fzero p)) with 0; rewrite Rabs_R0; lra).
  assert (D : forall t, order 2 t -> forall y, is_finite y = true /\ Rabs (B2R y) <= / 1000 ->
    approximates ((2 + / 100) * fu p) (fdot t [fofZ p 1; fhalf p] [fofZ p 1; y]) (1 + / 2 * B2R y)).
  { intros t Ot y [Hy Hy']. pose proof (sum2_ok t (fofZ p 1) y) as G. rewrite Vo in G. apply G; try assumption. rewrite Rabs_R1. lra. }
  assert (Z : forall t, order 2 t -> forall y, is_finite y = true /\ Rabs (B2R y) <= / 1000 ->
    approximates ((2 + / 100) * fu p) (fdot t [fofZ p 1; fhalf p] [fzero; y]) (0 + / 2 * B2R y)).
  { intros t Ot y [Hy Hy']. apply (sum2_ok t fzero); try assumption. reflexivity. }
  unfold every, fentries, fident. cbn [map r0 r1 r2 gx gy gz].
  unfold madd, mscale, mid, mval. cbn [m00 m01 m02 m10 m11 m12 m20 m21 m22].
  refine (Logic.conj (Logic.conj _ (Logic.conj _ _)) (Logic.conj (Logic.conj _ (Logic.conj _ _)) (Logic.conj _ (Logic.conj _ _)))); first [apply D; assumption|apply Z; assumption].
Qed.

(** the product with the factor outside and inside *)
Section Product.
Variables (s2 : fl p) (N K : R).
Hypothesis F2 : is_finite s2 = true.
Hypothesis NK : N * K = 1.
Hypothesis N0 : 0 < N <= bpow radix2 30.
Hypothesis K0 : 0 < K <= 10002.
Hypothesis H2 : Rabs (B2R s2) <= (2 + / 100) * (K * K).
Lemma eta_big : Rabs (B2R s2) * (5 * eta p) <= / 100 * fu p /\ 9 * N * eta p <= / 1000 * fu p /\ eta p * (N * N) <= / 1000 * fu p.
Proof.
  pose proof (fu_pos p) as U. pose proof (eta_pos p) as E. pose proof (eta_u p) as EU.
  assert (K2 : K * K <= bpow radix2 28) by (apply Rle_trans with (10002 * 10002); [apply Rmult_le_compat; lra|change (bpow radix2 28) with 268435456; lra]).
  assert (N2 : N * N <= bpow radix2 60) by (change 60%Z with (30 + 30)%Z; rewrite bpow_plus; apply Rmult_le_compat; lra).
  assert (X : forall k, (k <= 62)%Z -> eta p * bpow radix2 k <= / 16777216 * fu p).
  { intros k Hk. apply Rle_trans with (fu p * bpow radix2 (-126) * bpow radix2 k); [apply Rmult_le_compat_r; [apply bpow_ge_0|exact EU]|].
    rewrite Rmult_assoc, <- bpow_plus, Rmult_comm. apply Rmult_le_compat_r; [lra|]. change (/ 16777216) with (bpow radix2 (-24)). apply bpow_le. lia. }
  pose proof (X 28%Z ltac:(lia)) as X1. pose proof (X 30%Z ltac:(lia)) as X2. pose proof (X 60%Z ltac:(lia)) as X3.
  assert (Y1 : eta p * (K * K) <= eta p * bpow radix2 28) by (apply Rmult_le_compat_l; lra).
  assert (Y2 : eta p * N <= eta p * bpow radix2 30) by (apply Rmult_le_compat_l; lra).
  assert (Y3 : eta p * (N * N) <= eta p * bpow radix2 60) by (apply Rmult_le_compat_l; lra).
  split; [|split]; [|lra|lra].
  apply Rle_trans with ((2 + / 100) * (K * K) * (5 * eta p)); [apply Rmult_le_compat_r; lra|]. lra.
Qed.
Lemma s2_NN : Rabs (B2R s2) * (N * N) <= 2 + / 100.
Proof.
  apply Rle_trans with ((2 + / 100) * (K * K) * (N * N)); [apply Rmult_le_compat_r; [apply Rmult_le_pos; lra|exact H2]|].
  replace ((2 + / 100) * (K * K) * (N * N)) with ((2 + / 100) * (N * K) * (N * K)) by ring. rewrite NK. lra.
Qed.
Section One.
Variables (t : dtree) (a0 a1 a2 b0 b1 b2 : fl p).
Hypothesis O : order 3 t.
Hypothesis A0 : is_finite a0 = true. Hypothesis A1 : is_finite a1 = true. Hypothesis A2 : is_finite a2 = true.
Hypothesis B0 : is_finite b0 = true. Hypothesis B1 : is_finite b1 = true. Hypothesis B2 : is_finite b2 = true.
Hypothesis HA : vnorm (mkV3 (B2R a0) (B2R a1) (B2R a2)) <= N.
Hypothesis HB : vnorm (mkV3 (B2R b0) (B2R b1) (B2R b2)) <= N.
Let d := B2R a0 * B2R b0 + B2R a1 * B2R b1 + B2R a2 * B2R b2.
Lemma d_bound : Rabs d <= N * N.
Proof.
  apply Rle_trans with (vnorm (mkV3 (B2R a0) (B2R a1) (B2R a2)) * vnorm (mkV3 (B2R b0) (B2R b1) (B2R b2))); [apply (vcs_abs (mkV3 (B2R a0) (B2R a1) (B2R a2)) (mkV3 (B2R b0) (B2R b1) (B2R b2)))|].
  apply Rmult_le_compat; try assumption; apply vn_nonneg.
Qed.
Lemma z_bound : Rabs (B2R s2 * d) <= 202/100.
Proof. rewrite Rabs_mult. apply Rle_trans with (Rabs (B2R s2) * (N * N)); [apply Rmult_le_compat_l; [apply Rabs_pos|apply d_bound]|]. pose proof s2_NN. lra. Qed.
Lemma da_bound : dotabs [B2R a0; B2R a1; B2R a2] [B2R b0; B2R b1; B2R b2] <= N * N.
Proof. eapply Rle_trans; [apply dotabs3|]. apply Rmult_le_compat; try assumption; apply vn_nonneg. Qed.
Lemma outside_ok : is_finite (fdot t [a0; a1; a2] [b0; b1; b2]) = true /\ Rabs (B2R s2 * d) <= 202/100 /\
  Rabs (B2R s2 * B2R (fdot t [a0; a1; a2] [b0; b1; b2]) - B2R s2 * d) <= 82/10 * fu p.
Proof.
  pose proof (fu_pos p) as U. destruct eta_big as (E1 & _).
  destruct (fdot3_err p t a0 a1 a2 b0 b1 b2 (N * N) O A0 A1 A2 B0 B1 B2) as [F E].
  { apply da_bound. } { apply Rle_trans with (bpow radix2 30 * bpow radix2 30); [apply Rmult_le_compat; lra|]. rewrite <- bpow_plus. apply bpow_le. lia. }
  split; [exact F|]. split; [apply z_bound|]. rewrite <- Rmult_minus_distr_l, Rabs_mult. fold d in E. pose proof s2_NN as SN. pose proof (Rabs_pos (B2R s2)) as S0.
  apply Rle_trans with (Rabs (B2R s2) * ((3 + / 1000) * fu p * (N * N) + 5 * eta p)); [apply Rmult_le_compat_l; assumption|].
  replace (Rabs (B2R s2) * ((3 + / 1000) * fu p * (N * N) + 5 * eta p)) with ((3 + / 1000) * (fu p * (Rabs (B2R s2) * (N * N))) + Rabs (B2R s2) * (5 * eta p)) by ring.
  assert (fu p * (Rabs (B2R s2) * (N * N)) <= fu p * (2 + / 100)) by (apply Rmult_le_compat_l; lra). lra.
Qed.
Lemma scaled_ok (a : fl p) : is_finite a = true -> Rabs (B2R a) <= N -> is_finite (fmul s2 a) = true /\ Rabs (B2R (fmul s2 a) - B2R s2 * B2R a) <= fu p * (Rabs (B2R s2) * Rabs (B2R a)) + eta p.
Proof.
  intros Fa Ha. assert (SB : Rabs (B2R s2 * B2R a) <= fbig p).
  { apply small_big. rewrite Rabs_mult. apply Rle_trans with (bpow radix2 30 * bpow radix2 30); [|rewrite <- bpow_plus; apply bpow_le; lia].
    apply Rmult_le_compat; try apply Rabs_pos; [|lra]. eapply Rle_trans; [exact H2|]. apply Rle_trans with ((2 + / 100) * (10002 * 10002)).
    - apply Rmult_le_compat_l; [lra|apply Rmult_le_compat; lra].
    - change (bpow radix2 30) with 1073741824. lra. }
  destruct (fmul_R p s2 a F2 Fa SB) as [R F]. split; [exact F|]. rewrite R, <- Rabs_mult. apply rnd_err_le.
Qed.
Lemma comp_bound a b c : vnorm (mkV3 a b c) <= N -> Rabs a <= N /\ Rabs b <= N /\ Rabs c <= N.
Proof. intro H. destruct (vcomp_le (mkV3 a b c)) as (X & Y & Z). cbn [vx vy vz] in X, Y, Z. repeat split; lra. Qed.
Lemma inside_ok : is_finite (fdot t [fmul s2 a0; fmul s2 a1; fmul s2 a2] [b0; b1; b2]) = true /\ Rabs (B2R s2 * d) <= 202/100 /\
  Rabs (B2R (fofZ p 1) * B2R (fdot t [fmul s2 a0; fmul s2 a1; fmul s2 a2] [b0; b1; b2]) - B2R s2 * d) <= 82/10 * fu p.
Proof.
  pose proof (fu_pos p) as U. pose proof (fu_24 p) as V. destruct eta_big as (E1 & E2 & E3). destruct (fofZ1 p) as [Fo Vo]. rewrite Vo, Rmult_1_l.
  destruct (comp_bound _ _ _ HA) as (C0 & C1 & C2). destruct (comp_bound _ _ _ HB) as (D0 & D1 & D2).
  destruct (scaled_ok a0 A0 C0) as [F0 M0]. destruct (scaled_ok a1 A1 C1) as [F1 M1]. destruct (scaled_ok a2 A2 C2) as [F2' M2].
  pose proof da_bound as DA. pose proof s2_NN as SN. pose proof (Rabs_pos (B2R s2)) as S0. pose proof (eta_pos p) as E0.
  assert (DE : dotabs [B2R a0; B2R a1; B2R a2] [B2R b0; B2R b1; B2R b2] = Rabs (B2R a0) * Rabs (B2R b0) + Rabs (B2R a1) * Rabs (B2R b1) + Rabs (B2R a2) * Rabs (B2R b2)) by (rewrite dotabs_3, !Rabs_mult; reflexivity).
  rewrite DE in DA. set (S := Rabs (B2R s2)) in *.
  assert (T : forall (a b : fl p), Rabs (B2R b) <= N -> Rabs (B2R (fmul s2 a) - B2R s2 * B2R a) <= fu p * (S * Rabs (B2R a)) + eta p ->
    Rabs (B2R (fmul s2 a) * B2R b - B2R s2 * B2R a * B2R b) <= fu p * (S * (Rabs (B2R a) * Rabs (B2R b))) + eta p * N).
  { intros a b Hb Hm. rewrite <- Rmult_minus_distr_r, Rabs_mult. apply Rle_trans with ((fu p * (S * Rabs (B2R a)) + eta p) * Rabs (B2R b)); [apply Rmult_le_compat_r; [apply Rabs_pos|exact Hm]|].
    assert (eta p * Rabs (B2R b) <= eta p * N) by (apply Rmult_le_compat_l; lra). lra. }
  pose proof (T a0 b0 D0 M0) as T0. pose proof (T a1 b1 D1 M1) as T1. pose proof (T a2 b2 D2 M2) as T2. clear T.
  set (q0 := Rabs (B2R a0) * Rabs (B2R b0)) in *. set (q1 := Rabs (B2R a1) * Rabs (B2R b1)) in *. set (q2 := Rabs (B2R a2) * Rabs (B2R b2)) in *.
  assert (SQ : S * (q0 + q1 + q2) <= 2 + / 100) by (eapply Rle_trans; [apply Rmult_le_compat_l; [exact S0|exact DA]|exact SN]).
  assert (Q0 : 0 <= q0) by (apply Rmult_le_pos; apply Rabs_pos). assert (Q1 : 0 <= q1) by (apply Rmult_le_pos; apply Rabs_pos). assert (Q2 : 0 <= q2) by (apply Rmult_le_pos; apply Rabs_pos).
  assert (USQ : fu p * (S * (q0 + q1 + q2)) <= fu p * (2 + / 100)) by (apply Rmult_le_compat_l; lra).
  assert (P : forall (a b : fl p) q, q = Rabs (B2R a) * Rabs (B2R b) -> Rabs (B2R (fmul s2 a) * B2R b - B2R s2 * B2R a * B2R b) <= fu p * (S * q) + eta p * N -> Rabs (B2R (fmul s2 a) * B2R b) <= S * q + (fu p * (S * q) + eta p * N)).
  { intros a b q -> Hq. replace (B2R (fmul s2 a) * B2R b) with (B2R s2 * B2R a * B2R b + (B2R (fmul s2 a) * B2R b - B2R s2 * B2R a * B2R b)) by ring.
    eapply Rle_trans; [apply Rabs_triang|]. apply Rplus_le_compat; [|exact Hq]. rewrite !Rabs_mult. fold S. right. ring. }
  pose proof (P a0 b0 q0 eq_refl T0) as P0. pose proof (P a1 b1 q1 eq_refl T1) as P1. pose proof (P a2 b2 q2 eq_refl T2) as P2. clear P.
  destruct (fdot3_err p t (fmul s2 a0) (fmul s2 a1) (fmul s2 a2) b0 b1 b2 (2 + / 50) O F0 F1 F2' B0 B1 B2) as [F E].
  { rewrite dotabs_3. lra. }
  { apply Rle_trans with (bpow radix2 3); [change (bpow radix2 3) with 8; lra|apply bpow_le; lia]. }
  split; [exact F|]. split; [apply z_bound|]. pose proof (eta5_u p) as E5.
  set (X := B2R (fdot t [fmul s2 a0; fmul s2 a1; fmul s2 a2] [b0; b1; b2])) in *.
  replace (X - B2R s2 * d) with ((X - (B2R (fmul s2 a0) * B2R b0 + B2R (fmul s2 a1) * B2R b1 + B2R (fmul s2 a2) * B2R b2)) +
    ((B2R (fmul s2 a0) * B2R b0 - B2R s2 * B2R a0 * B2R b0) + ((B2R (fmul s2 a1) * B2R b1 - B2R s2 * B2R a1 * B2R b1) + (B2R (fmul s2 a2) * B2R b2 - B2R s2 * B2R a2 * B2R b2)))) by (unfold d; ring).
  eapply Rle_trans; [apply Rabs_triang|]. eapply Rle_trans; [apply Rplus_le_compat_l; apply Rabs_triang|].
  eapply Rle_trans; [apply Rplus_le_compat_l; apply Rplus_le_compat_l; apply Rabs_triang|]. lra.
Qed.
End One.

Section Matrices.
Variables (o : orders9) (s : FM p).
Hypothesis O : orders9_ok o.
Hypothesis Fs : mfinite s.
Hypothesis RS : vnorm (vrow0 (mval s)) <= N /\ vnorm (vrow1 (mval s)) <= N /\ vnorm (vrow2 (mval s)) <= N.
Hypothesis CS : vnorm (vrow0 (mtrans (mval s))) <= N /\ vnorm (vrow1 (mtrans (mval s))) <= N /\ vnorm (vrow2 (mtrans (mval s))) <= N.
Definition third_ok (a : fl p) (y : fl p) (c : R) : Prop := is_finite y = true /\ Rabs c <= 202/100 /\ Rabs (B2R a * B2R y - c) <= 82/10 * fu p.
Lemma outside_all : every (third_ok s2) (fmm o s s) (mscale (B2R s2) (mmul (mval s) (mval s))).
Proof.
  destruct O as ((O00 & O01 & O02) & (O10 & O11 & O12) & (O20 & O21 & O22)). destruct Fs as ((F00 & F01 & F02) & (F10 & F11 & F12) & (F20 & F21 & F22)).
  destruct RS as (R0 & R1 & R2'). destruct CS as (C0 & C1 & C2).
  unfold every, third_ok, fmm, ftrans, flist, mscale, mmul. cbn [r0 r1 r2 gx gy gz m00 m01 m02 m10 m11 m12 m20 m21 m22].
  refine (Logic.conj (Logic.conj _ (Logic.conj _ _)) (Logic.conj (Logic.conj _ (Logic.conj _ _)) (Logic.conj _ (Logic.conj _ _)))); apply outside_ok; assumption.
Qed.
Lemma inside_all : every (third_ok (fofZ p 1)) (fmm o (fscale_m s2 s) s) (mscale (B2R s2) (mmul (mval s) (mval s))).
Proof.
  destruct O as ((O00 & O01 & O02) & (O10 & O11 & O12) & (O20 & O21 & O22)). destruct Fs as ((F00 & F01 & F02) & (F10 & F11 & F12) & (F20 & F21 & F22)).
  destruct RS as (R0 & R1 & R2'). destruct CS as (C0 & C1 & C2).
  unfold every, third_ok, fmm, fscale_m, ftrans, flist, mscale, mmul. cbn [r0 r1 r2 gx gy gz m00 m01 m02 m10 m11 m12 m20 m21 m22].
  refine (Logic.conj (Logic.conj _ (Logic.conj _ _)) (Logic.conj (Logic.conj _ (Logic.conj _ _)) (Logic.conj _ (Logic.conj _ _)))); apply inside_ok; assumption.
Qed.
End Matrices.
End Product.
End Sums.
