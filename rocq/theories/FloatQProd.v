(** Rounding errors of quaternion products, normalisation and histories. *)
From Coq Require Import Reals ZArith Bool List Permutation Lra Lia Psatz.
From Flocq Require Import IEEE754.BinarySingleNaN Core.Core.
From Verif Require Import Linalg Spec SpecFacts ModelCommon FloatModel FloatFacts FloatModulo FloatWrap FloatModel2 SpecFloatQ FloatQFacts.
Import ListNotations.
Local Open Scope R_scope.

Lemma qnorm_abs a0 a1 a2 a3 : qnorm (mkQ (Rabs a0) (Rabs a1) (Rabs a2) (Rabs a3)) = qnorm (mkQ a0 a1 a2 a3).
Proof.
  unfold qnorm, qnorm2; cbn [qw qx qy qz]. f_equal. rewrite <- !Rabs_mult. rewrite !Rabs_pos_eq by nra. reflexivity.
Qed.
Lemma dotabs4 a0 a1 a2 a3 b0 b1 b2 b3 :
  0 <= dotabs [a0; a1; a2; a3] [b0; b1; b2; b3] <= qnorm (mkQ a0 a1 a2 a3) * qnorm (mkQ b0 b1 b2 b3).
Proof.
  split; [apply rsum_nonneg; intro; apply Rabs_pos|].
  rewrite <- (qnorm_abs a0), <- (qnorm_abs b0).
  eapply Rle_trans; [|eapply Rle_trans; [apply Rle_abs|apply qcs]].
  unfold dotabs, qdotr; cbn. rewrite !Rabs_mult. lra.
Qed.
Lemma qnorm_le4 q m : Rabs (qw q) <= m -> Rabs (qx q) <= m -> Rabs (qy q) <= m -> Rabs (qz q) <= m -> qnorm q <= 2 * m.
Proof.
  intros A B C D. pose proof (Rabs_pos (qw q)).
  apply sq_le_le; [lra|]. rewrite qnorm_sq. unfold qnorm2.
  assert (X : forall x, Rabs x <= m -> x * x <= m * m).
  { intros x Hx. rewrite <- (Rabs_pos_eq (x * x)) by nra. rewrite Rabs_mult. pose proof (Rabs_pos x). nra. }
  pose proof (X _ A). pose proof (X _ B). pose proof (X _ C). pose proof (X _ D). lra.
Qed.

Lemma fneg_val p (a : fl p) : B2R (fneg a) = - B2R a. Proof. apply fneg_R. Qed.
Lemma fneg_fin p (a : fl p) : is_finite (fneg a) = is_finite a. Proof. apply fneg_R. Qed.
Lemma bpow_120_125 : bpow radix2 120 <= bpow radix2 125. Proof. apply bpow_le. lia. Qed.

Lemma fdot4_err p (t : dtree) (a0 a1 a2 a3 b0 b1 b2 b3 : fl p) (N : R) : order 4 t ->
  is_finite a0 = true -> is_finite a1 = true -> is_finite a2 = true -> is_finite a3 = true ->
  is_finite b0 = true -> is_finite b1 = true -> is_finite b2 = true -> is_finite b3 = true ->
  qnorm (mkQ (B2R a0) (B2R a1) (B2R a2) (B2R a3)) * qnorm (mkQ (B2R b0) (B2R b1) (B2R b2) (B2R b3)) <= N -> N <= bpow radix2 120 ->
  is_finite (fdot t [a0; a1; a2; a3] [b0; b1; b2; b3]) = true /\
  Rabs (B2R (fdot t [a0; a1; a2; a3] [b0; b1; b2; b3]) - (B2R a0 * B2R b0 + B2R a1 * B2R b1 + B2R a2 * B2R b2 + B2R a3 * B2R b3))
    <= (4 + / 1000) * fu p * N + 5 * eta p.
Proof.
  intros O A0 A1 A2 A3 B0 B1 B2 B3 HN HB.
  pose proof (dotabs4 (B2R a0) (B2R a1) (B2R a2) (B2R a3) (B2R b0) (B2R b1) (B2R b2) (B2R b3)) as D.
  pose proof bpow_120_125 as BB.
  destruct (fdot_err p t [a0; a1; a2; a3] [b0; b1; b2; b3] O eq_refl ltac:(cbn; lia)) as [F E].
  1,2: repeat constructor; assumption.
  1: cbn [vals map]; lra.
  split; [exact F|]. cbn [vals map] in E.
  replace (dot [B2R a0; B2R a1; B2R a2; B2R a3] [B2R b0; B2R b1; B2R b2; B2R b3])
    with (B2R a0 * B2R b0 + B2R a1 * B2R b1 + B2R a2 * B2R b2 + B2R a3 * B2R b3) in E by (unfold dot; cbn; ring).
  eapply Rle_trans; [exact E|]. replace (INR (length [a0; a1; a2; a3])) with 4 by (cbn; ring).
  pose proof (fu_pos p) as U.
  assert ((4 + / 1000) * fu p * dotabs [B2R a0; B2R a1; B2R a2; B2R a3] [B2R b0; B2R b1; B2R b2; B2R b3] <= (4 + / 1000) * fu p * N) by (apply Rmult_le_compat_l; lra).
  lra.
Qed.

Lemma fmult_err p (o : orders4) (a b : FQ p) : orders4_ok o -> qfinite a -> qfinite b ->
  qnorm (qval a) * qnorm (qval b) <= bpow radix2 120 ->
  qfinite (fmult o a b) /\
  qdist (qval (fmult o a b)) (hamilton (qval a) (qval b)) <= 9 * fu p * (qnorm (qval a) * qnorm (qval b)) + underflow p.
Proof.
  intros (Ow & Ox & Oy & Oz) (A0 & A1 & A2 & A3) (B0 & B1 & B2 & B3) HB.
  destruct a as [aw ax ay az], b as [bw bx by_ bz]. cbn [fw fx fy fz] in *. unfold qval in *. cbn [fw fx fy fz] in *.
  set (N := qnorm (mkQ (B2R aw) (B2R ax) (B2R ay) (B2R az)) * qnorm (mkQ (B2R bw) (B2R bx) (B2R by_) (B2R bz))) in *.
  assert (N0 : 0 <= N) by (apply Rmult_le_pos; apply qn_nonneg).
  unfold fmult. cbn [fw fx fy fz].
  destruct (fdot4_err p (ow o) aw (fneg ax) (fneg ay) (fneg az) bw bx by_ bz N) as [Fw Ew]; rewrite ?fneg_fin; try assumption.
  { right. rewrite !fneg_val. unfold N. f_equal; unfold qnorm, qnorm2; cbn; f_equal; ring. }
  destruct (fdot4_err p (ox o) aw ax ay (fneg az) bx bw bz by_ N) as [Fx Ex]; rewrite ?fneg_fin; try assumption.
  { right. rewrite !fneg_val. unfold N. f_equal; unfold qnorm, qnorm2; cbn; f_equal; ring. }
  destruct (fdot4_err p (oy o) aw ay az (fneg ax) by_ bw bx bz N) as [Fy Ey]; rewrite ?fneg_fin; try assumption.
  { right. rewrite !fneg_val. unfold N. f_equal; unfold qnorm, qnorm2; cbn; f_equal; ring. }
  destruct (fdot4_err p (oz o) aw az ax (fneg ay) bz bw by_ bx N) as [Fz Ez]; rewrite ?fneg_fin; try assumption.
  { right. rewrite !fneg_val. unfold N. f_equal; unfold qnorm, qnorm2; cbn; f_equal; ring. }
  split; [repeat split; assumption|].
  rewrite !fneg_val in *. rewrite underflow_eta. pose proof (fu_pos p) as U. pose proof (eta_pos p) as E.
  apply Rle_trans with (2 * ((4 + / 1000) * fu p * N + 5 * eta p)); [|assert (0 <= fu p * N) by nra; lra].
  apply qnorm_le4; unfold qsub, hamilton, vdot, vadd, vscale, vcross, qvec; cbn [qw qx qy qz vx vy vz].
  - eapply Rle_trans; [right|exact Ew]. f_equal. ring.
  - eapply Rle_trans; [right|exact Ex]. f_equal. ring.
  - eapply Rle_trans; [right|exact Ey]. f_equal. ring.
  - eapply Rle_trans; [right|exact Ez]. f_equal. ring.
Qed.

(** ** Conjugation and sign: exact *)
Lemma fconj_val p (q : FQ p) : qval (fconj q) = conj (qval q).
Proof. unfold qval, fconj, conj; cbn [fw fx fy fz qw qx qy qz]. now rewrite !fneg_val. Qed.
Lemma fconj_fin p (q : FQ p) : qfinite q -> qfinite (fconj q).
Proof. intros (A & B & C & D). unfold qfinite, fconj; cbn [fw fx fy fz]. rewrite !fneg_fin. auto. Qed.
Lemma fqneg_val p (q : FQ p) : qval (fqneg q) = qscale (-1) (qval q).
Proof. unfold qval, fqneg, qscale; cbn [fw fx fy fz qw qx qy qz]. rewrite !fneg_val. f_equal; ring. Qed.
Lemma fqneg_fin p (q : FQ p) : qfinite q -> qfinite (fqneg q).
Proof. intros (A & B & C & D). unfold qfinite, fqneg; cbn [fw fx fy fz]. rewrite !fneg_fin. auto. Qed.
Lemma funique_cases p (q : FQ p) : fquat_unique q = q \/ fquat_unique q = fqneg q.
Proof. unfold fquat_unique. repeat match goal with |- context [if ?c then _ else _] => destruct c end; auto. Qed.

(** ** Square root *)
Lemma fsqrt_R p (a : fl p) : is_finite a = true -> 0 <= B2R a ->
  is_finite (fsqrt a) = true /\ B2R (fsqrt a) = rnd p (sqrt (B2R a)).
Proof.
  intros F N. unfold fsqrt.
  destruct (Bsqrt_correct (fprec p) (femax p) _ _ mode_NE a) as (R & Fin & _). split.
  - rewrite Fin. destruct a as [s| |  |s m e H]; try discriminate; [reflexivity|]. destruct s; [|reflexivity].
    exfalso. cbn in N. assert (F2R (Float radix2 (Z.neg m) e) < 0) by (apply F2R_lt_0; cbn; lia). lra.
  - rewrite R. reflexivity.
Qed.
Lemma fofZ1 p : is_finite (fofZ p 1) = true /\ B2R (fofZ p 1) = 1.
Proof. destruct p; (split; [reflexivity|]); vm_compute; lra. Qed.
Lemma fofZ2 p : is_finite (fofZ p 2) = true /\ B2R (fofZ p 2) = 2.
Proof. destruct p; (split; [reflexivity|]); vm_compute; lra. Qed.

(** ** Normalisation *)
Lemma eta_u p : eta p <= fu p * bpow radix2 (-126).
Proof.
  unfold eta, fu. change (/ 2) with (bpow radix2 (-1)). rewrite <- !bpow_plus. apply bpow_le. destruct p; vm_compute; discriminate.
Qed.
Lemma bpow_m100 : bpow radix2 (-126) = / 67108864 * bpow radix2 (-100).
Proof. replace (/ 67108864) with (bpow radix2 (-26)) by (cbn; lra). rewrite <- bpow_plus. reflexivity. Qed.
Lemma bpow_m50 : bpow radix2 (-50) * bpow radix2 (-50) = bpow radix2 (-100).
Proof. rewrite <- bpow_plus. reflexivity. Qed.
Lemma bpow_inv50 : bpow radix2 (-50) * bpow radix2 50 = 1.
Proof. rewrite <- bpow_plus. reflexivity. Qed.

Lemma fsqnorm_err p t (q : FQ p) : order 4 t -> qfinite q -> bpow radix2 (-50) <= qnorm (qval q) <= bpow radix2 50 ->
  is_finite (fsqnorm t q) = true /\ Rabs (B2R (fsqnorm t q) - qnorm2 (qval q)) <= (4 + / 100) * fu p * qnorm2 (qval q).
Proof.
  intros O (A & B & C & D) [L H]. pose proof (qn_nonneg (qval q)) as N0.
  assert (H2 : qnorm (qval q) * qnorm (qval q) <= bpow radix2 120).
  { apply Rle_trans with (bpow radix2 50 * bpow radix2 50); [apply Rmult_le_compat; assumption|]. rewrite <- bpow_plus. apply bpow_le; lia. }
  destruct (fdot4_err p t (fw q) (fx q) (fy q) (fz q) (fw q) (fx q) (fy q) (fz q) (qnorm (qval q) * qnorm (qval q))) as [F E]; try assumption; [apply Rle_refl|].
  fold (fsqnorm t q) in F, E. split; [exact F|].
  change (B2R (fw q) * B2R (fw q) + B2R (fx q) * B2R (fx q) + B2R (fy q) * B2R (fy q) + B2R (fz q) * B2R (fz q)) with (qnorm2 (qval q)) in E.
  rewrite qnorm_sq in E. eapply Rle_trans; [exact E|].
  assert (L2 : bpow radix2 (-100) <= qnorm2 (qval q)).
  { rewrite <- bpow_m50, <- qnorm_sq. pose proof (bpow_ge_0 radix2 (-50)). apply Rmult_le_compat; lra. }
  pose proof (eta_u p) as T. rewrite bpow_m100 in T. pose proof (fu_pos p) as U.
  assert (fu p * (/ 67108864 * bpow radix2 (-100)) <= fu p * (/ 67108864 * qnorm2 (qval q))) by (apply Rmult_le_compat_l; lra).
  pose proof (bpow_gt_0 radix2 (-100)). assert (0 <= fu p * qnorm2 (qval q)) by (apply Rmult_le_pos; lra). lra.
Qed.

Lemma sqrt_close u N z : 0 <= u -> u <= / 1000000 -> 0 < N -> Rabs (z - N * N) <= (4 + / 100) * u * (N * N) ->
  Rabs (sqrt z - N) <= (2 + / 50) * u * N.
Proof.
  intros U V HN H. apply Rabs_le_inv in H || (assert (H' : - ((4 + / 100) * u * (N * N)) <= z - N * N <= (4 + / 100) * u * (N * N)) by (split; [pose proof (Rle_abs (- (z - N * N))) as X; rewrite Rabs_Ropp in X; lra|pose proof (Rle_abs (z - N * N)); lra]); clear H; rename H' into H).
  assert (N2 : 0 < N * N) by nra. assert (Z : 0 <= z) by nra.
  apply Rabs_le. split.
  - apply Rplus_le_reg_r with N. replace (sqrt z - N + N) with (sqrt z) by ring.
    replace (- ((2 + / 50) * u * N) + N) with (N * (1 - (2 + / 50) * u)) by ring.
    rewrite <- (sqrt_square (N * (1 - (2 + / 50) * u))) by nra. apply sqrt_le_1_alt.
    apply Rle_trans with (N * N * (1 - (4 + / 100) * u)); [|lra].
    replace (N * (1 - (2 + / 50) * u) * (N * (1 - (2 + / 50) * u))) with (N * N * ((1 - (2 + / 50) * u) * (1 - (2 + / 50) * u))) by ring.
    apply Rmult_le_compat_l; nra.
  - apply Rplus_le_reg_r with N. replace (sqrt z - N + N) with (sqrt z) by ring.
    replace ((2 + / 50) * u * N + N) with (N * (1 + (2 + / 50) * u)) by ring.
    rewrite <- (sqrt_square (N * (1 + (2 + / 50) * u))) by nra. apply sqrt_le_1_alt.
    apply Rle_trans with (N * N * (1 + (4 + / 100) * u)); [lra|].
    replace (N * (1 + (2 + / 50) * u) * (N * (1 + (2 + / 50) * u))) with (N * N * ((1 + (2 + / 50) * u) * (1 + (2 + / 50) * u))) by ring.
    apply Rmult_le_compat_l; nra.
Qed.

Lemma fqnorm_err p t (q : FQ p) : order 4 t -> qfinite q -> bpow radix2 (-50) <= qnorm (qval q) <= bpow radix2 50 ->
  flt fzero (fsqnorm t q) = true /\ is_finite (fqnorm t q) = true /\ Rabs (B2R (fqnorm t q) - qnorm (qval q)) <= (3 + / 20) * fu p * qnorm (qval q).
Proof.
  intros O F L. destruct (fsqnorm_err p t q O F L) as [Fz E]. pose proof (fu_pos p) as U. pose proof (fu_24 p) as V.
  pose proof (bpow_gt_0 radix2 (-50)) as P. assert (N0 : 0 < qnorm (qval q)) by lra. rewrite <- qnorm_sq in E.
  pose proof (sqrt_close (fu p) (qnorm (qval q)) (B2R (fsqnorm t q)) ltac:(lra) ltac:(lra) N0 E) as S1.
  set (N := qnorm (qval q)) in *. set (z := B2R (fsqnorm t q)) in *.
  assert (Z : 0 < z).
  { pose proof (Rle_abs (- (z - N * N))) as X. rewrite Rabs_Ropp in X. assert (0 < N * N) by nra. nra. }
  split. { rewrite (flt_R p) by (reflexivity || assumption). fold z. change (B2R fzero) with 0. now apply Rlt_bool_true. }
  destruct (fsqrt_R p (fsqnorm t q) Fz ltac:(fold z; lra)) as [Fs Rs]. split; [exact Fs|]. unfold fqnorm. rewrite Rs. fold z.
  pose proof (rnd_err_le p (sqrt z)) as R. pose proof (sqrt_pos z) as Sp. rewrite (Rabs_pos_eq (sqrt z)) in R by exact Sp.
  pose proof (eta_u p) as T. rewrite bpow_m100, <- bpow_m50 in T.
  assert (T2 : eta p <= fu p * (/ 67108864 * N)).
  { eapply Rle_trans; [exact T|]. apply Rmult_le_compat_l; [lra|]. apply Rmult_le_compat_l; [lra|].
    apply Rle_trans with (bpow radix2 (-50) * 1); [apply Rmult_le_compat_l; [lra|]; change 1 with (bpow radix2 0); apply bpow_le; lia|lra]. }
  replace (rnd p (sqrt z) - N) with ((rnd p (sqrt z) - sqrt z) + (sqrt z - N)) by ring.
  eapply Rle_trans; [apply Rabs_triang|]. pose proof (Rle_abs (sqrt z - N)) as X.
  assert (0 <= fu p * N) by (apply Rmult_le_pos; lra). assert (sqrt z <= (1 + / 1000) * N) by nra. assert (fu p * sqrt z <= fu p * ((1 + / 1000) * N)) by (apply Rmult_le_compat_l; lra). lra.
Qed.

Lemma quot_close u N s c : 0 <= u -> u <= / 1000000 -> 0 < N -> Rabs (s - N) <= (3 + / 20) * u * N ->
  0 < s /\ Rabs (c / s - c / N) <= (3 + / 15) * u * (Rabs c / N).
Proof.
  intros U V HN H. pose proof (Rle_abs (- (s - N))) as X. rewrite Rabs_Ropp in X.
  assert (S1 : (1 - (3 + / 20) * u) * N <= s) by lra. assert (S0 : 0 < s) by nra. split; [exact S0|].
  replace (c / s - c / N) with (c / N * ((N - s) / s)) by (field; lra). rewrite Rabs_mult. unfold Rdiv at 1. rewrite Rabs_mult, Rabs_inv, (Rabs_pos_eq N) by lra.
  fold (Rabs c / N). rewrite (Rmult_comm _ (Rabs c / N)).
  apply Rmult_le_compat_l; [apply Rmult_le_pos; [apply Rabs_pos|apply Rlt_le, Rinv_0_lt_compat, HN]|].
  unfold Rdiv. rewrite Rabs_mult, Rabs_inv, (Rabs_pos_eq s), Rabs_minus_sym by lra.
  apply Rmult_le_reg_r with s; [exact S0|]. rewrite Rmult_assoc, Rinv_l, Rmult_1_r by lra.
  apply Rle_trans with (1 := H). apply Rle_trans with ((3 + / 15) * u * ((1 - (3 + / 20) * u) * N)); [|apply Rmult_le_compat_l; nra].
  replace ((3 + / 15) * u * ((1 - (3 + / 20) * u) * N)) with (((3 + / 15) * (1 - (3 + / 20) * u)) * (u * N)) by ring.
  rewrite Rmult_assoc. apply Rmult_le_compat_r; nra.
Qed.

Lemma four_fbig p : 4 <= fbig p.
Proof. change 4 with (bpow radix2 2). apply bpow_le. destruct p; vm_compute; discriminate. Qed.
Lemma bpow100_fbig p : bpow radix2 100 <= fbig p.
Proof. apply bpow_le. destruct p; vm_compute; discriminate. Qed.

Lemma fscale_down_err p m (s c : fl p) N : is_finite s = true -> is_finite c = true ->
  bpow radix2 (-50) <= N <= bpow radix2 50 -> Rabs (B2R s - N) <= (3 + / 20) * fu p * N -> Rabs (B2R c) <= N ->
  is_finite (fscale_down m s c) = true /\ Rabs (B2R (fscale_down m s c) - B2R c / N) <= (5 + / 10) * fu p * (Rabs (B2R c) / N) + / 100 * fu p.
Proof.
  intros Fs Fc [L H] Hs Hc. pose proof (fu_pos p) as U. pose proof (fu_24 p) as V. pose proof (bpow_gt_0 radix2 (-50)) as P. pose proof (eta_pos p) as E0.
  assert (N0 : 0 < N) by lra. pose proof (Rabs_pos (B2R c)) as C0.
  destruct (quot_close (fu p) N (B2R s) (B2R c) ltac:(lra) ltac:(lra) N0 Hs) as [S0 Q].
  assert (Iv : 0 < / N) by (now apply Rinv_0_lt_compat).
  assert (X1 : Rabs (B2R c) / N <= 1) by (apply Rmult_le_reg_r with N; [exact N0|]; unfold Rdiv; rewrite Rmult_assoc, Rinv_l by lra; lra).
  assert (X0 : 0 <= Rabs (B2R c) / N) by (apply Rmult_le_pos; lra).
  assert (Xa : Rabs (B2R c / N) = Rabs (B2R c) / N) by (unfold Rdiv; rewrite Rabs_mult, Rabs_inv, (Rabs_pos_eq N) by lra; reflexivity).
  pose proof (eta_u p) as T. 
  assert (T1 : eta p <= fu p * / 1000000).
  { eapply Rle_trans; [exact T|]. apply Rmult_le_compat_l; [lra|]. apply Rle_trans with (bpow radix2 (-20)); [apply bpow_le; lia|cbn; lra]. }
  destruct m; cbn [fscale_down].
  - set (x := Rabs (B2R c) / N) in *.
    assert (Y : Rabs (B2R c / B2R s) <= (1 + / 1000) * x).
    { replace (B2R c / B2R s) with ((B2R c / B2R s - B2R c / N) + B2R c / N) by ring. eapply Rle_trans; [apply Rabs_triang|]. rewrite Xa. fold x. nra. }
    destruct (fdiv_R p c s Fc) as [R F]; [lra|pose proof (four_fbig p); lra|]. split; [exact F|]. rewrite R.
    pose proof (rnd_err_le p (B2R c / B2R s)) as RE.
    replace (rnd p (B2R c / B2R s) - B2R c / N) with ((rnd p (B2R c / B2R s) - B2R c / B2R s) + (B2R c / B2R s - B2R c / N)) by ring.
    eapply Rle_trans; [apply Rabs_triang|]. assert (fu p * Rabs (B2R c / B2R s) <= fu p * ((1 + / 1000) * x)) by (apply Rmult_le_compat_l; lra). nra.
  - destruct (fofZ1 p) as [F1 V1].
    destruct (quot_close (fu p) N (B2R s) 1 ltac:(lra) ltac:(lra) N0 Hs) as [_ Q1]. rewrite Rabs_R1 in Q1. 
    assert (Ib : / N <= bpow radix2 50).
    { apply Rmult_le_reg_r with N; [exact N0|]. rewrite Rinv_l by lra. rewrite <- bpow_inv50 at 1. rewrite Rmult_comm. pose proof (bpow_ge_0 radix2 50). apply Rmult_le_compat_l; lra. }
    assert (Y1 : Rabs (1 / B2R s) <= (1 + / 1000) * (1 / N)).
    { replace (1 / B2R s) with ((1 / B2R s - 1 / N) + 1 / N) by ring. eapply Rle_trans; [apply Rabs_triang|].
      rewrite (Rabs_pos_eq (1 / N)) by lra. nra. }
    assert (B50 : bpow radix2 50 * 2 <= fbig p).
    { change 2 with (bpow radix2 1). rewrite <- bpow_plus. apply bpow_le. destruct p; vm_compute; discriminate. }
    destruct (fdiv_R p (fofZ p 1) s F1) as [R1 Fr1]; [lra|rewrite V1; lra|]. rewrite V1 in R1.
    set (t := fdiv (fofZ p 1) s) in *. pose proof (rnd_err_le p (1 / B2R s)) as RE1. rewrite <- R1 in RE1.
    assert (D1 : Rabs (B2R t - 1 / N) <= (4 + / 13) * fu p * (1 / N) + eta p).
    { replace (B2R t - 1 / N) with ((B2R t - 1 / B2R s) + (1 / B2R s - 1 / N)) by ring. eapply Rle_trans; [apply Rabs_triang|].
      assert (fu p * Rabs (1 / B2R s) <= fu p * ((1 + / 1000) * (1 / N))) by (apply Rmult_le_compat_l; lra). assert (0 <= fu p * (1 / N)) by nra. lra. }
    assert (Ce : Rabs (B2R c) * eta p <= / 1000000 * fu p).
    { apply Rle_trans with (bpow radix2 50 * (fu p * bpow radix2 (-126))); [apply Rmult_le_compat; lra|].
      replace (bpow radix2 50 * (fu p * bpow radix2 (-126))) with (fu p * (bpow radix2 50 * bpow radix2 (-126))) by ring. rewrite <- bpow_plus.
      rewrite (Rmult_comm (/ 1000000)). apply Rmult_le_compat_l; [lra|]. apply Rle_trans with (bpow radix2 (-20)); [apply bpow_le; lia|cbn; lra]. }
    set (x := Rabs (B2R c) / N) in *.
    assert (D2 : Rabs (B2R c * B2R t - B2R c / N) <= (4 + / 13) * fu p * x + / 1000000 * fu p).
    { replace (B2R c * B2R t - B2R c / N) with (B2R c * (B2R t - 1 / N)) by (field; lra). rewrite Rabs_mult.
      apply Rle_trans with (Rabs (B2R c) * ((4 + / 13) * fu p * (1 / N) + eta p)); [apply Rmult_le_compat_l; assumption|].
      replace (Rabs (B2R c) * ((4 + / 13) * fu p * (1 / N) + eta p)) with ((4 + / 13) * fu p * x + Rabs (B2R c) * eta p) by (unfold x; field; lra). lra. }
    assert (Y2 : Rabs (B2R c * B2R t) <= (1 + / 1000) * x + / 1000000 * fu p).
    { replace (B2R c * B2R t) with ((B2R c * B2R t - B2R c / N) + B2R c / N) by ring. eapply Rle_trans; [apply Rabs_triang|]. rewrite Xa. fold x. nra. }
    destruct (fmul_R p c t Fc Fr1) as [R F]; [pose proof (four_fbig p); nra|]. split; [exact F|]. rewrite R.
    pose proof (rnd_err_le p (B2R c * B2R t)) as RE.
    replace (rnd p (B2R c * B2R t) - B2R c / N) with ((rnd p (B2R c * B2R t) - B2R c * B2R t) + (B2R c * B2R t - B2R c / N)) by ring.
    eapply Rle_trans; [apply Rabs_triang|].
    assert (fu p * Rabs (B2R c * B2R t) <= fu p * ((1 + / 1000) * x + / 1000000 * fu p)) by (apply Rmult_le_compat_l; lra). nra.
Qed.

Lemma comp_le_norm q : Rabs (qw q) <= qnorm q /\ Rabs (qx q) <= qnorm q /\ Rabs (qy q) <= qnorm q /\ Rabs (qz q) <= qnorm q.
Proof.
  pose proof (qn_nonneg q) as N. pose proof (qnorm_sq q) as S1. unfold qnorm2 in S1.
  assert (X : forall x, x * x <= qnorm q * qnorm q -> Rabs x <= qnorm q).
  { intros x Hx. apply sq_le_le; [exact N|]. rewrite <- Rabs_mult, Rabs_pos_eq by nra. exact Hx. }
  repeat split; apply X; nra.
Qed.
Lemma qnorm_mixed e d al be : 0 <= al -> 0 <= be ->
  Rabs (qw e) <= al * Rabs (qw d) + be -> Rabs (qx e) <= al * Rabs (qx d) + be ->
  Rabs (qy e) <= al * Rabs (qy d) + be -> Rabs (qz e) <= al * Rabs (qz d) + be -> qnorm e <= al * qnorm d + 2 * be.
Proof.
  intros A B W X Y Z.
  set (f := qaddr (qscale al (mkQ (Rabs (qw d)) (Rabs (qx d)) (Rabs (qy d)) (Rabs (qz d)))) (mkQ be be be be)).
  assert (E : qnorm e <= qnorm f).
  { apply sqrt_le_1_alt. unfold qnorm2, f, qaddr, qscale; cbn [qw qx qy qz].
    assert (Q : forall x y, Rabs x <= y -> x * x <= y * y).
    { intros x y Hx. rewrite <- (Rabs_pos_eq (x * x)) by nra. rewrite Rabs_mult. pose proof (Rabs_pos x). nra. }
    pose proof (Q _ _ W). pose proof (Q _ _ X). pose proof (Q _ _ Y). pose proof (Q _ _ Z). lra. }
  eapply Rle_trans; [exact E|]. eapply Rle_trans; [apply qtriang|]. rewrite qnorm_scale, qnorm_abs, (Rabs_pos_eq al) by exact A.
  replace (qnorm (mkQ be be be be)) with (2 * be). { destruct d; cbn; lra. }
  unfold qnorm, qnorm2; cbn [qw qx qy qz]. replace (be * be + be * be + be * be + be * be) with ((2 * be) * (2 * be)) by ring.
  symmetry. apply sqrt_square. lra.
Qed.

Lemma fnormalize_err p t m (q : FQ p) : order 4 t -> qfinite q -> bpow radix2 (-50) <= qnorm (qval q) <= bpow radix2 50 ->
  qfinite (fnormalize t m q) /\ qdist (qval (fnormalize t m q)) (direction (qval q)) <= 6 * fu p.
Proof.
  intros O F L. destruct (fqnorm_err p t q O F L) as (P & Fs & E). destruct F as (A & B & C & D).
  unfold fnormalize. rewrite P. fold (fqnorm t q). set (s := fqnorm t q) in *. pose proof (bpow_gt_0 radix2 (-50)) as P0.
  destruct (comp_le_norm (qval q)) as (Cw & Cx & Cy & Cz). set (N := qnorm (qval q)) in *.
  cbn [qval qw qx qy qz] in Cw, Cx, Cy, Cz.
  destruct (fscale_down_err p m s (fw q) N Fs A L E Cw) as [F1 E1]. destruct (fscale_down_err p m s (fx q) N Fs B L E Cx) as [F2 E2].
  destruct (fscale_down_err p m s (fy q) N Fs C L E Cy) as [F3 E3]. destruct (fscale_down_err p m s (fz q) N Fs D L E Cz) as [F4 E4].
  split; [repeat split; assumption|]. pose proof (fu_pos p) as U.
  assert (Nd : qnorm (direction (qval q)) = 1) by (apply direction_norm; fold N; lra).
  unfold qdist. eapply Rle_trans; [apply (qnorm_mixed _ (direction (qval q)) ((5 + / 10) * fu p) (/ 100 * fu p)); try lra|rewrite Nd; lra].
  all: unfold qsub, direction, qscale, qval; cbn [qw qx qy qz fw fx fy fz]; fold (qval q); fold N.
  all: rewrite (Rmult_comm (/ N)), Rabs_mult, Rabs_inv, (Rabs_pos_eq N) by lra; assumption.
Qed.
