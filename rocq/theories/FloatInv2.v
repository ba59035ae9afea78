(** Quaternions so small that their squared norm vanishes, or so large that it overflows. *)
From Coq Require Import ZArith Reals Lra Psatz Bool List Lia Permutation.
From Flocq Require Import IEEE754.BinarySingleNaN Core.Core.
From Verif Require Import Linalg Spec SpecFacts ModelCommon FloatModel FloatFacts FloatModulo FloatWrap FloatModel2 SpecFloatQ FloatQFacts FloatQProd FloatQRot FloatBuild FloatExt FloatVec4 FloatModel16.
Import ListNotations.
Local Open Scope R_scope.

(** ** Small *)
Lemma fin_vanish p (a : fl p) x : is_finite a = true -> B2R a = rnd p x -> Rabs x <= eta p / 2 -> B2R a = 0.
Proof.
  intros F R H. destruct (Req_dec (B2R a) 0) as [Z|Z]; [exact Z|]. pose proof (finite_nonzero p a F Z) as G. exfalso.
  pose proof (rnd_err_le p x) as E. rewrite <- R in E. pose proof (eta_pos p) as E0. pose proof (fu_pos p) as U. pose proof (fu_24 p) as V.
  assert (Rabs (B2R a) <= Rabs (B2R a - x) + Rabs x). { replace (B2R a) with ((B2R a - x) + x) at 1 by ring. apply Rabs_triang. }
  assert (fu p * Rabs x <= / 16777216 * Rabs x) by (apply Rmult_le_compat_r; [apply Rabs_pos|lra]). lra.
Qed.
Lemma eta_fbig p : eta p <= fbig p.
Proof. unfold eta. pose proof (bpow_gt_0 radix2 (femin p)). apply Rle_trans with (bpow radix2 (femin p)); [lra|]. apply bpow_le. destruct p; vm_compute; discriminate. Qed.
Lemma feval_vanish p (t : dtree) (c : nat -> fl p) : (forall i, In i (dleaves t) -> is_finite (c i) = true /\ B2R (c i) * B2R (c i) <= eta p / 2) ->
  is_finite (feval t c c) = true /\ B2R (feval t c c) = 0.
Proof.
  pose proof (eta_pos p) as E. pose proof (eta_fbig p) as B.
  induction t as [i|l IHl r IHr|i t IH]; intro H; cbn [feval dleaves] in *.
  - destruct (H i) as [F V]; [now left|]. pose proof (Rle_0_sqr (B2R (c i))) as S. unfold Rsqr in S.
    assert (A : Rabs (B2R (c i) * B2R (c i)) <= eta p / 2) by (rewrite Rabs_pos_eq; assumption).
    destruct (fmul_R p (c i) (c i) F F) as [R G]; [lra|]. split; [exact G|]. now apply (fin_vanish p _ _ G R).
  - destruct IHl as [Fl Vl]; [intros; apply H, in_or_app; auto|]. destruct IHr as [Fr Vr]; [intros; apply H, in_or_app; auto|].
    destruct (fadd_R p _ _ Fl Fr) as [R G]; [rewrite Vl, Vr, Rplus_0_r, Rabs_R0; lra|]. split; [exact G|]. apply (fin_vanish p _ _ G R). rewrite Vl, Vr, Rplus_0_r, Rabs_R0. lra.
  - destruct (H i) as [F V]; [now left|]. pose proof (Rle_0_sqr (B2R (c i))) as S. unfold Rsqr in S. destruct IH as [Ft Vt]; [intros; apply H; now right|].
    assert (A : Rabs (B2R (c i) * B2R (c i) + B2R (feval t c c)) <= eta p / 2) by (rewrite Vt, Rplus_0_r, Rabs_pos_eq; assumption).
    destruct (ffma_R p (c i) (c i) _ F F Ft) as [R G]; [lra|]. split; [exact G|]. now apply (fin_vanish p _ _ G R).
Qed.
Lemma order4_in t i : order 4 t -> In i (dleaves t) -> (i < 4)%nat.
Proof. intros O H. apply (Permutation_in i O) in H. apply in_seq in H. lia. Qed.
Lemma order4_has t i : order 4 t -> (i < 4)%nat -> In i (dleaves t).
Proof. intros O H. apply Permutation_sym in O. apply (Permutation_in i O). apply in_seq. lia. Qed.

(** ** Large *)
Lemma overflow_inf p (x : fl p) s : B2SF x = binary_overflow (fprec p) (femax p) mode_NE s -> x = B754_infinity s.
Proof. intros H. destruct x as [s'|s'| |s' m e B]; cbn in H; try discriminate H. now injection H as ->. Qed.
Lemma rnd_large p x : bpow radix2 (femax p) <= Rabs x -> Rlt_bool (Rabs (round radix2 (SpecFloat.fexp (fprec p) (femax p)) (round_mode mode_NE) x)) (bpow radix2 (femax p)) = false.
Proof.
  intro H. apply Rlt_bool_false. change (bpow radix2 (femax p) <= Rabs (rnd p x)).
  apply abs_round_ge_generic; try typeclasses eauto; [|exact H]. apply fmt_bpow. destruct p; vm_compute; discriminate.
Qed.
Lemma fmul_self_inf p (x : fl p) : is_finite x = true -> bpow radix2 (femax p) <= B2R x * B2R x -> fmul x x = B754_infinity false.
Proof.
  intros F H. pose proof (Bmult_correct (fprec p) (femax p) _ _ mode_NE x x) as C. fold (fmul x x) in C. rewrite xorb_nilpotent in C.
  rewrite rnd_large in C; [now apply overflow_inf|]. eapply Rle_trans; [exact H|apply Rle_abs].
Qed.
Lemma fadd_inf p (x : fl p) : positive x -> fadd x (B754_infinity false) = B754_infinity false /\ fadd (B754_infinity false) x = B754_infinity false.
Proof. intros [N S]. destruct x as [s|s| |s m e H]; cbn in S; try discriminate N; subst; split; reflexivity. Qed.
Lemma ffma_inf p (x z : fl p) : is_finite x = true -> positive z -> bpow radix2 (femax p) <= B2R x * B2R x -> ffma x x z = B754_infinity false.
Proof.
  intros F P H. pose proof (positive_val p z P) as Z. destruct P as [N S]. destruct (is_finite z) eqn:Fz.
  - pose proof (Bfma_correct (fprec p) (femax p) _ _ mode_NE x x z F F Fz) as C. cbv zeta in C. fold (ffma x x z) in C. pose proof (bpow_gt_0 radix2 (femax p)) as B0.
    rewrite rnd_large in C; [|eapply Rle_trans; [|apply Rle_abs]; lra]. rewrite Rlt_bool_false in C by lra. now apply overflow_inf.
  - destruct z as [s|s| |s m e Hz]; try discriminate. cbn in S. subst s. destruct x as [s|s| |s m e Hx]; try discriminate; reflexivity.
Qed.
Lemma ffma_inf_r p (x : fl p) : is_finite x = true -> ffma x x (B754_infinity false) = B754_infinity false.
Proof. intro F. destruct x as [s|s| |s m e Hx]; try discriminate; reflexivity. Qed.
Lemma feval_inf p (t : dtree) (c : nat -> fl p) i : (forall j, In j (dleaves t) -> is_finite (c j) = true) -> In i (dleaves t) ->
  bpow radix2 (femax p) <= B2R (c i) * B2R (c i) -> feval t c c = B754_infinity false.
Proof.
  intros F I H. assert (P : forall t', (forall j, In j (dleaves t') -> In j (dleaves t)) -> positive (feval t' c c)).
  { intros t' S. apply feval_self_positive. intros j Hj. now apply fin_not_nan, F, S. }
  assert (G : forall t', (forall j, In j (dleaves t') -> In j (dleaves t)) -> In i (dleaves t') -> feval t' c c = B754_infinity false); [|now apply G].
  induction t' as [k|l IHl r IHr|k t' IH]; intros S J; cbn [feval dleaves] in *.
  - destruct J as [->|[]]. apply fmul_self_inf; [apply F, I|exact H].
  - apply in_app_or in J. destruct J as [J|J].
    + rewrite IHl; [|intros; apply S, in_or_app; auto|exact J]. apply fadd_inf, P. intros; apply S, in_or_app; auto.
    + rewrite IHr; [|intros; apply S, in_or_app; auto|exact J]. apply fadd_inf, P. intros; apply S, in_or_app; auto.
  - destruct J as [->|J].
    + apply ffma_inf; [apply F, I|apply P; intros; apply S; now right|exact H].
    + rewrite IH; [|intros; apply S; now right|exact J]. apply ffma_inf_r, F, S. now left.
Qed.
Lemma fscale_down_inf p m (c : fl p) : is_finite c = true -> is_finite (fscale_down m (B754_infinity false) c) = true /\ B2R (fscale_down m (B754_infinity false) c) = 0.
Proof.
  intro F. destruct m; cbn [fscale_down].
  - destruct c as [s|s| |s m e H]; try discriminate; split; reflexivity.
  - assert (Q : exists s, fdiv (fofZ p 1) (B754_infinity false) = B754_zero s) by (destruct p; exists false; vm_compute; reflexivity). destruct Q as [s0 ->].
    destruct c as [s|s| |s m e H]; try discriminate; split; reflexivity.
Qed.

(** ** The quaternion functions *)
Lemma fsqnorm_vanish p t (q : FQ p) b : order 4 t -> qfinite q -> b * b <= eta p / 2 ->
  Rabs (B2R (fw q)) <= b -> Rabs (B2R (fx q)) <= b -> Rabs (B2R (fy q)) <= b -> Rabs (B2R (fz q)) <= b ->
  is_finite (fsqnorm t q) = true /\ B2R (fsqnorm t q) = 0.
Proof.
  intros O (A & B & C & D) E W X Y Z. unfold fsqnorm, fdot. apply feval_vanish. intros i Hi. apply (order4_in t i O) in Hi.
  assert (S : forall x, Rabs x <= b -> x * x <= eta p / 2). { intros x Hx. rewrite <- (Rabs_pos_eq (x * x)) by apply Rle_0_sqr. rewrite Rabs_mult. pose proof (Rabs_pos x). eapply Rle_trans; [apply Rmult_le_compat; eauto|exact E]. }
  destruct i as [|[|[|[|i]]]]; [| | | |lia]; cbn; auto.
Qed.
Lemma fsqnorm_inf p t (q : FQ p) b : order 4 t -> qfinite q -> 0 <= b -> bpow radix2 (femax p) <= b * b ->
  b <= Rabs (B2R (fw q)) \/ b <= Rabs (B2R (fx q)) \/ b <= Rabs (B2R (fy q)) \/ b <= Rabs (B2R (fz q)) ->
  fsqnorm t q = B754_infinity false.
Proof.
  intros O (A & B & C & D) b0 E H. unfold fsqnorm, fdot.
  assert (S : forall x, b <= Rabs x -> bpow radix2 (femax p) <= x * x). { intros x Hx. rewrite <- (Rabs_pos_eq (x * x)) by apply Rle_0_sqr. rewrite Rabs_mult. eapply Rle_trans; [exact E|]. apply Rmult_le_compat; assumption. }
  assert (F : forall j, In j (dleaves t) -> is_finite (cf fzero [fw q; fx q; fy q; fz q] j) = true).
  { intros j Hj. apply (order4_in t j O) in Hj. destruct j as [|[|[|[|j]]]]; [| | | |lia]; cbn; assumption. }
  destruct H as [H|[H|[H|H]]]; apply S in H.
  - apply (feval_inf p t _ 0%nat F); [apply order4_has; [exact O|lia]|exact H].
  - apply (feval_inf p t _ 1%nat F); [apply order4_has; [exact O|lia]|exact H].
  - apply (feval_inf p t _ 2%nat F); [apply order4_has; [exact O|lia]|exact H].
  - apply (feval_inf p t _ 3%nat F); [apply order4_has; [exact O|lia]|exact H].
Qed.
Lemma vanish_results p t m (q : FQ p) : is_finite (fsqnorm t q) = true -> B2R (fsqnorm t q) = 0 ->
  finverted t m q = mkFQ fzero fzero fzero fzero /\ fnormalize t m q = q.
Proof.
  intros F V. assert (K : flt fzero (fsqnorm t q) = false). { rewrite (flt_R p fzero _ eq_refl F), V. apply Rlt_bool_false. apply Rle_refl. }
  unfold finverted, fnormalize. cbv zeta. rewrite K. split; reflexivity.
Qed.
Lemma inf_results p t m (q : FQ p) : qfinite q -> fsqnorm t q = B754_infinity false ->
  (qfinite (finverted t m q) /\ qval (finverted t m q) = mkQ 0 0 0 0) /\ (qfinite (fnormalize t m q) /\ qval (fnormalize t m q) = mkQ 0 0 0 0).
Proof.
  intros (A & B & C & D) H. unfold finverted, fnormalize. cbv zeta. rewrite H. cbn [flt].
  change (flt fzero (B754_infinity false : fl p)) with true. cbv iota. change (fsqrt (B754_infinity false : fl p)) with (B754_infinity false : fl p).
  unfold fconj; cbn [fw fx fy fz].
  assert (NB : is_finite (fneg (fx q)) = true) by (rewrite fneg_fin; exact B). assert (NC : is_finite (fneg (fy q)) = true) by (rewrite fneg_fin; exact C). assert (ND : is_finite (fneg (fz q)) = true) by (rewrite fneg_fin; exact D).
  pose proof (fscale_down_inf p m _ A) as [FA VA]. pose proof (fscale_down_inf p m _ B) as [FB VB]. pose proof (fscale_down_inf p m _ C) as [FC VC]. pose proof (fscale_down_inf p m _ D) as [FD VD].
  pose proof (fscale_down_inf p m _ NB) as [FB' VB']. pose proof (fscale_down_inf p m _ NC) as [FC' VC']. pose proof (fscale_down_inf p m _ ND) as [FD' VD'].
  unfold qfinite, qval; cbn [fw fx fy fz]. rewrite VA, VB, VC, VD, VB', VC', VD'. repeat split; assumption.
Qed.
