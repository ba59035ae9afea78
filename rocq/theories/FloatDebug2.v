(** * FloatDebug2: debug-build histories of quaternions, the assertion on matrices,
    the axis of a quaternion with a subnormal vector part. *)
From Coq Require Import ZArith Reals Lra Psatz Bool List Lia.
From Flocq Require Import IEEE754.BinarySingleNaN Core.Core.
From Verif Require Import Linalg Spec SpecFacts SpecClose ModelCommon ModelEigen CommonFacts CloseFacts
  FloatModel FloatFacts FloatModel2 SpecFloatQ FloatQFacts FloatQProd FloatQHist FloatQRot FloatMHist FloatCast FloatWrap Claims9 FloatModel3 SpecLibm SpecBuild FloatBuild FloatBuild2 FloatBuild3 FloatBuild4 FloatModel4 FloatExt FloatExt2 FloatExt3 FloatExt4 SpecExt Claims18 FloatExt5 FloatExt6 FloatModel5 FloatModel6 FloatMat FloatModel7 SpecSix FloatSix FloatFix FloatOHist FloatModel11 SpecDebugF FloatDebug.
Import ListNotations.
Local Open Scope R_scope.

(** ** Quaternion histories *)
Lemma checked_100 p D : checked p D -> D * fu p <= / 100.
Proof. unfold checked. rewrite roundoff_fu. lra. Qed.
Lemma qjoint_le A B B' : 0 <= A -> 0 <= B <= B' -> qjoint A B <= A + (101/100 * B' + 46/5).
Proof. intros. unfold qjoint. pose proof (Rmin_r A B). lra. Qed.
Lemma qjoint_le' A B B' : 0 <= A -> 0 <= B <= B' -> qjoint B A <= A + (101/100 * B' + 46/5).
Proof. intros. unfold qjoint. pose proof (Rmin_l B A). lra. Qed.
Lemma fnormalize_stands p c D (q : FQ p) r : choices6_ok c -> stands (64/10) D (OQuat q) r -> checked p D -> exists r', stands (64/10) 6 (OQuat (fnormalize (c6_norm c) (c6_div c) q)) r'.
Proof.
  intros (_ & _ & _ & O & _) (F & N & _) C. unfold checked in C. apply Rabs_both in N.
  destruct (fnormalize_err p (c6_norm c) (c6_div c) q O F) as [F' E].
  { split; [apply Rle_trans with (bpow radix2 (-1)); [apply bpow_le; lia|cbn; lra]|apply Rle_trans with (bpow radix2 1); [cbn; lra|apply bpow_le; lia]]. }
  eexists. split; [exact F'|]. split; [|reflexivity]. rewrite roundoff_fu. pose proof (qdist_norm (qval (fnormalize (c6_norm c) (c6_div c) q)) (direction (qval q))) as X. rewrite direction_norm in X by lra. lra.
Qed.
Lemma quat_run_ok p L P (B : R) (K : nat) : 6 <= B -> checked p (B + INR K * (101/100 * B + 46/5)) ->
  forall (l : list (ocall p)) k (q : FQ p) r, ofixed_every K k l -> Forall ocall_ok l -> Forall (quat_call B) l -> stands (64/10) (B + INR k * (101/100 * B + 46/5)) (OQuat q) r ->
  d_run L P (OQuat q) (map fst l) = Done (orun L P (OQuat q) (map fst l)).
Proof.
  intros HB CK. induction l as [|c l IH]; intros k q r FE HC HQ ST; [reflexivity|].
  cbn [ofixed_every] in FE. destruct FE as [KK FE]. inversion HC as [|c' l' Hc Hl]; subst. inversion HQ as [|c' l' Qc Ql]; subst.
  assert (KN : (oproducts k c <= K)%nat) by (destruct l; cbn [ofixed_every] in FE; apply FE).
  assert (G : forall j, (j <= K)%nat -> checked p (B + INR j * (101/100 * B + 46/5))).
  { intros j J. eapply checked_le; [|exact CK]. apply Rplus_le_compat_l, Rmult_le_compat_r; [lra|]. now apply le_INR. }
  assert (N0 : forall j, 0 <= INR j * (101/100 * B + 46/5)) by (intro j; apply Rmult_le_pos; [apply pos_INR|lra]).
  assert (PR : forall ch (q' : FQ p) r', choices6_ok ch -> stands (64/10) (B + INR (oproducts k c) * (101/100 * B + 46/5)) (OQuat q') r' -> d_step L P (OQuat q) (fst (fst c)) ch = Done (OQuat q') -> snd (fst c) = ch ->
    d_run L P (OQuat q) (map fst (c :: l)) = Done (orun L P (OQuat q) (map fst (c :: l)))).
  { intros ch q' r' HCh S' D E. cbn [map d_run]. rewrite E. rewrite D. cbn [dbind]. apply d_step_done in D. cbn [orun fold_left]. rewrite E, <- D. exact (IH _ q' r' FE Hl Ql S'). }
  destruct c as [[o ch] [e b]]. destruct Hc as (HCh & B0 & HO). cbn [fst snd] in *.
  assert (MU : forall (a1 a2 : FQ p) A1 A2 r1 r2, stands (64/10) A1 (OQuat a1) r1 -> stands (64/10) A2 (OQuat a2) r2 -> A1 * fu p <= / 100 -> A2 * fu p <= / 100 -> qjoint A1 A2 <= B + INR (S k) * (101/100 * B + 46/5) -> (S k <= K)%nat ->
    exists r', stands (64/10) (B + INR (S k) * (101/100 * B + 46/5)) (OQuat (fmult (ch_mul (c6_src ch)) a1 a2)) r' /\ dchk_q ch (fmult (ch_mul (c6_src ch)) a1 a2) = Done (fmult (ch_mul (c6_src ch)) a1 a2)).
  { intros a1 a2 A1 A2 r1 r2 S1 S2 L1 L2 J KS. pose proof HCh as ((_ & _ & HM) & _). destruct (oqmult_ok p (ch_mul (c6_src ch)) (64/10) A1 A2 a1 a2 r1 r2 HM S1 S2 L1 L2) as (r' & X & _).
    exists r'. pose proof (stands_mono p _ _ _ _ _ J X) as X'. split; [exact X'|]. exact (dchk_q_ok p ch _ _ _ r' HCh X' (G _ KS)). }
  assert (BB : forall b', 0 <= b' <= B -> b' * fu p <= / 100).
  { intros b' Hb. apply checked_100. eapply checked_le; [|exact (G 0%nat ltac:(lia))]. cbn [INR]. lra. }
  destruct o as [[t|m|s]|[t|m|s]|[t|m|s]| | | |kk]; cbn [quat_call] in Qc; try contradiction; cbn [oproducts fst] in *.
  - rewrite S_INR in *. destruct (MU q t _ _ _ _ ST HO (checked_100 _ _ (G k KK)) (BB _ Qc)) as (r' & X & D).
    { eapply Rle_trans; [apply (qjoint_le _ _ B); [pose proof (N0 k); lra|exact Qc]|]. lra. } { exact KN. }
    refine (PR ch _ r' HCh X _ eq_refl). cbn [d_step d_product d_quat dbind okind_of]. rewrite D. reflexivity.
  - rewrite S_INR in *. destruct (MU t q _ _ _ _ HO ST (BB _ Qc) (checked_100 _ _ (G k KK))) as (r' & X & D).
    { eapply Rle_trans; [apply (qjoint_le' _ _ B); [pose proof (N0 k); lra|exact Qc]|]. lra. } { exact KN. }
    refine (PR ch _ r' HCh X _ eq_refl). cbn [d_step d_product d_quat dbind okind_of]. rewrite D. reflexivity.
  - refine (PR ch t e HCh _ eq_refl eq_refl). cbn [INR]. eapply stands_mono; [|exact HO]. lra.
  - pose proof ST as (F & N & E). refine (PR ch (fconj q) _ HCh _ _ eq_refl).
    + split; [now apply fconj_fin|]. rewrite fconj_val, qnorm_conj. split; [exact N|reflexivity].
    + cbn [d_step d_inverted]. rewrite (dchk_q_ok p ch (64/10) (B + INR k * (101/100 * B + 46/5)) (fconj q) (quat_rot (direction (qval (fconj q)))) HCh); [reflexivity| |exact (G k KK)].
      split; [now apply fconj_fin|]. rewrite fconj_val, qnorm_conj. split; [exact N|reflexivity].
  - refine (PR ch (fqid) mid HCh _ eq_refl eq_refl). cbn [INR]. eapply stands_mono; [|exact (proj2 (oidentity_ok p (64/10) KQuat ltac:(lra)))]. lra.
  - destruct (fnormalize_stands p ch _ q r HCh ST (G k KK)) as (r' & X). refine (PR ch _ r' HCh _ eq_refl eq_refl). cbn [INR]. eapply stands_mono; [|exact X]. lra.
Qed.

(** ** A quaternion with a subnormal vector part *)
Lemma multiple_smallest p (x : fl p) : exists m : Z, B2R x = IZR m * (2 * eta p).
Proof.
  pose proof (fmt_B2R p x) as G. unfold ffmt, generic_format in G. set (c := cexp radix2 (ffexp p) (B2R x)) in *.
  assert (C : (femin p <= c)%Z). { unfold c, cexp, ffexp, FLT_exp. apply Z.le_max_r. }
  set (k := Ztrunc (scaled_mantissa radix2 (ffexp p) (B2R x))) in *. exists (k * 2 ^ (c - femin p))%Z. rewrite G at 1. unfold F2R; cbn [Fnum Fexp]. rewrite mult_IZR.
  replace (2 * eta p) with (bpow radix2 (femin p)) by (unfold eta; field). rewrite (IZR_Zpower radix2) by lia. rewrite Rmult_assoc, <- bpow_plus. do 2 f_equal. lia.
Qed.
