(** Facts about operator== of floating-point rotation objects (C78). *)
From Coq Require Import ZArith Reals Lra Psatz Bool List Lia.
From Flocq Require Import IEEE754.BinarySingleNaN Core.Core.
From Verif Require Import Linalg Spec SpecFacts SpecClose ModelCommon ModelEigen CommonFacts CloseFacts MetricFacts TotalFacts2
  PiBounds FloatModel FloatFacts FloatModel2 SpecFloatQ FloatQFacts FloatQProd FloatQHist FloatQRot FloatModulo FloatWrap FloatCast FloatModel3 SpecLibm SpecBuild FloatBuild FloatBuild2 FloatBuild3 FloatModel4 SpecExt FloatExt FloatExt2 FloatExt3 FloatExt4 FloatExt5 FloatExt6 FloatModel5 FloatModel6 FloatModel7 SpecSix FloatSix FloatFix FloatOHist FloatModel8 SpecBox Claims9 Claims10 FloatBox FloatModel9 SpecUnique FloatUnique Claims25 SpecEqual.
Import ListNotations.
Local Open Scope R_scope.

Lemma fneg_fin p (a : fl p) : is_finite (fneg a) = is_finite a. Proof. destruct a; reflexivity. Qed.
Lemma fqneg_val p (q : FQ p) : qval (fqneg q) = qneg (qval q).
Proof. unfold qval, qneg, fqneg; cbn [fw fx fy fz qw qx qy qz]. f_equal; apply fneg_R. Qed.
Lemma fqneg_fin p (q : FQ p) : qfinite q -> qfinite (fqneg q).
Proof. intros (A & B & C & D). unfold qfinite, fqneg; cbn [fw fx fy fz]. rewrite !fneg_fin. auto. Qed.
Lemma qneg_qneg q : qneg (qneg q) = q.
Proof. destruct q; unfold qneg; cbn [Linalg.qw Linalg.qx Linalg.qy Linalg.qz]; f_equal; ring. Qed.
Lemma qnorm_neg q : qnorm (qneg q) = qnorm q.
Proof. unfold qnorm, qnorm2, qneg; cbn [Linalg.qw Linalg.qx Linalg.qy Linalg.qz]. f_equal; ring. Qed.
Lemma direction_neg q : quat_rot (direction (qneg q)) = quat_rot (direction q).
Proof.
  unfold direction. rewrite qnorm_neg. replace (qscale (/ qnorm q) (qneg q)) with (qneg (qscale (/ qnorm q) q)); [apply quat_rot_neg|].
  destruct q; unfold qneg, qscale; cbn [Linalg.qw Linalg.qx Linalg.qy Linalg.qz]; f_equal; ring.
Qed.
Lemma quat_unique_neg q : ModelRotation.quat_unique (qneg q) = ModelRotation.quat_unique q.
Proof.
  destruct q as [w x y z]. unfold ModelRotation.quat_unique, qneg; cbn [Linalg.qw Linalg.qx Linalg.qy Linalg.qz].
  destruct (Rlt_dec 0 w); destruct (Rlt_dec w 0); destruct (Rlt_dec 0 (- w)); destruct (Rlt_dec (- w) 0); try (exfalso; lra); try (f_equal; lra); try reflexivity.
  destruct (Rlt_dec 0 x); destruct (Rlt_dec x 0); destruct (Rlt_dec 0 (- x)); destruct (Rlt_dec (- x) 0); try (exfalso; lra); try (f_equal; lra); try reflexivity.
  destruct (Rlt_dec 0 y); destruct (Rlt_dec y 0); destruct (Rlt_dec 0 (- y)); destruct (Rlt_dec (- y) 0); try (exfalso; lra); try (f_equal; lra); try reflexivity.
  destruct (Rlt_dec 0 z); destruct (Rlt_dec 0 (- z)); try (exfalso; lra); f_equal; lra.
Qed.
Lemma fquat_unique_val p (q : FQ p) : qfinite q -> qfinite (fquat_unique q) /\ qval (fquat_unique q) = ModelRotation.quat_unique (qval q).
Proof.
  intros F. split. { destruct (funique_cases p q) as [-> | ->]; [exact F|now apply fqneg_fin]. }
  destruct F as (F1 & F2 & F3 & F4). unfold fquat_unique, ModelRotation.quat_unique.
  rewrite !(flt_R p) by (assumption || reflexivity). change (B2R (@fzero p)) with 0. cbn [qval Linalg.qw Linalg.qx Linalg.qy Linalg.qz].
  repeat match goal with |- context [Rlt_bool ?a ?b] => destruct (Rlt_bool_spec a b); destruct (Rlt_dec a b); try (exfalso; lra); cbn iota end; try reflexivity; apply fqneg_val.
Qed.
Lemma feq_true p (a b : fl p) : is_finite a = true -> is_finite b = true -> (feq a b = true <-> B2R a = B2R b).
Proof. intros Fa Fb. rewrite feq_R by assumption. destruct (Req_bool_spec (B2R a) (B2R b)); split; auto; discriminate. Qed.
Lemma fqeq_true p (a b : FQ p) : qfinite a -> qfinite b -> (fqeq a b = true <-> qval a = qval b).
Proof.
  intros (A1 & A2 & A3 & A4) (B1 & B2 & B3 & B4). unfold fqeq. rewrite !andb_true_iff, !feq_true by assumption. unfold qval. split.
  - intros (((-> & ->) & ->) & ->). reflexivity.
  - intro E. injection E as E1 E2 E3 E4. auto.
Qed.
Lemma fveq_true p (a b : FV p) : vfinite a -> vfinite b -> (fveq a b = true <-> vval a = vval b).
Proof.
  intros (A1 & A2 & A3) (B1 & B2 & B3). unfold fveq. rewrite !andb_true_iff, !feq_true by assumption. unfold vval. split.
  - intros ((-> & ->) & ->). reflexivity.
  - intro E. injection E as E1 E2 E3. auto.
Qed.
Lemma fmeq_true p (a b : FM p) : mfinite a -> mfinite b -> (ostored_eq (OMat a) (OMat b) = true <-> mval a = mval b).
Proof.
  intros (A0 & A1 & A2) (B0 & B1 & B2). cbn [ostored_eq]. rewrite !andb_true_iff, !fveq_true by assumption. unfold vval, mval. split.
  - intros ((E0 & E1) & E2). injection E0 as -> -> ->. injection E1 as -> -> ->. injection E2 as -> -> ->. reflexivity.
  - intro E. injection E as -> -> -> -> -> -> -> -> ->. auto.
Qed.
Lemma fteq_true p (a b c d e f : fl p) : is_finite a = true -> is_finite b = true -> is_finite c = true -> is_finite d = true -> is_finite e = true -> is_finite f = true ->
  (feq a d && feq b e && feq c f = true <-> B2R a = B2R d /\ B2R b = B2R e /\ B2R c = B2R f).
Proof. intros. rewrite !andb_true_iff, !feq_true by assumption. tauto. Qed.

(** ** getUnique() of every class *)
Lemma ounique_ok p ev c A (x : fobject p) r : choices6_ok c -> stands (64/10) A x r -> unique_safe x ->
  okind_of (ounique ev c x) = okind_of x /\
  exists r', stands (64/10) A (ounique ev c x) r' /\ close (unique_change x) r' r.
Proof.
  intros HC H S. pose proof (fu_pos p) as U. pose proof (fu_24 p) as V. pose proof (piT_close p) as PC. apply Rabs_both in PC. pose proof PI_num as PN. pose proof HC as ((_ & HE & _) & _).
  assert (B51 : 2 ^ 51 = bpow radix2 51) by (cbn; lra).
  destruct x as [q|m|[a n|v|a b d|a b d]]; cbn [ounique okind_of unique_change] in *.
  - split; [reflexivity|]. exists r. split; [|apply close_refl; lra]. destruct H as (F & N & E). cbn [stands].
    destruct (funique_cases p q) as [-> | ->]; [auto|]. rewrite fqneg_val, qnorm_neg, direction_neg. split; [now apply fqneg_fin|auto].
  - split; [reflexivity|]. exists r. split; [exact H|apply close_refl; lra].
  - destruct H as (O & <-). destruct (faa_unique_ok p ev a n (64/10) ltac:(lra) O) as (F & Fn & R & D & C). destruct (faa_unique ev a n) as [a' n']. cbn [fst snd] in *.
    split; [reflexivity|]. eexists. split; [split; [|reflexivity]|rewrite roundoff_fu; exact C].
    split; [exact F|]. split; [exact Fn|]. split; [rewrite Rabs_pos_eq; lra|]. left. unfold unique_safe in S.
    destruct D as [->|[->| ->]]; [exact S|rewrite (proj2 (proj2 (vneg_val p n))); exact S|]. destruct (funit_x_R p) as [_ ->]. rewrite (vnorm_unit ex) by lin. rewrite Rminus_diag_eq, Rabs_R0, roundoff_fu by reflexivity. lra.
  - destruct H as ((Fv & N) & <-). destruct (frv_unique_ok p ev (ch_ext (c6_src c)) v (proj1 HE) Fv ltac:(lra)) as (A1 & A2 & A3). split; [reflexivity|].
    eexists. split; [split; [|reflexivity]|unfold unique_error; rewrite roundoff_fu; exact A3]. split; [exact A1|]. lra.
  - destruct H as ((Fa & Fb & Fd) & <-). destruct S as (Ha & Hb & Hd & CL). destruct (feuler_unique ev a b d) as [[x y] z] eqn:E.
    destruct (C77_clear_lemma p ev a b d x y z Fa Fb Fd Ha Hb Hd CL E) as (X & Y & Z & _ & _ & _ & C & _). split; [reflexivity|]. eexists. split; [split; [repeat split; assumption|reflexivity]|exact C].
  - destruct H as ((Fa & Fb & Fd) & <-). destruct S as (Ha & Hb & Hd & CL). destruct (feuler_unique ev a b d) as [[x y] z] eqn:E.
    destruct (C77_clear_lemma p ev a b d x y z Fa Fb Fd Ha Hb Hd CL E) as (X & Y & Z & _ & _ & _ & _ & C). split; [reflexivity|]. eexists. split; [split; [repeat split; assumption|reflexivity]|exact C].
Qed.

(** ** The comparison of the stored numbers *)
Lemma stored_near p T T' A B (x y : fobject p) rx ry : stands T A x rx -> stands T' B y ry -> okind_of x = okind_of y -> okind_of x <> KSrc SAA -> ostored_eq x y = true ->
  close (match okind_of x with KMat => (A + B) * fu p | _ => 0 end) rx ry.
Proof.
  intros Hx Hy K NA E. destruct x as [q|m|[a n|v|a b d|a b d]], y as [q'|m'|[a' n'|v'|a' b' d'|a' b' d']]; try discriminate K; cbn [okind_of skind_of stands object_ok] in *; try congruence; rewrite ?roundoff_fu in *.
  - destruct Hx as (F & _ & <-), Hy as (F' & _ & <-). apply (fqeq_true p q q' F F') in E. rewrite E. apply close_refl; lra.
  - destruct Hx as (F & S & C), Hy as (F' & S' & C'). apply (fmeq_true p m m' F F') in E. rewrite E in C. rewrite Rmult_plus_distr_r. eapply close_trans; [apply close_sym, C|exact C'].
  - destruct Hx as ((F & _) & <-), Hy as ((F' & _) & <-). apply (fveq_true p v v' F F') in E. unfold turns; cbn [source_value]. rewrite E. apply close_refl; lra.
  - destruct Hx as ((F1 & F2 & F3) & <-), Hy as ((G1 & G2 & G3) & <-). apply fteq_true in E; try assumption. destruct E as (E1 & E2 & E3). unfold turns; cbn [source_value]. rewrite E1, E2, E3. apply close_refl; lra.
  - destruct Hx as ((F1 & F2 & F3) & <-), Hy as ((G1 & G2 & G3) & <-). apply fteq_true in E; try assumption. destruct E as (E1 & E2 & E3). unfold turns; cbn [source_value]. rewrite E1, E2, E3. apply close_refl; lra.
Qed.
(** ** AngleAxis *)
Lemma lit15_val p : 0 < B2R (flit p 1 (10 ^ 15)) <= / 10 ^ 14.
Proof.
  destruct p.
  - rewrite (B2R_of_SF F32 (flit F32 1 (10 ^ 15)) false 9444733 (-73)) by (vm_compute; reflexivity). unfold F2R; cbn [Fnum Fexp cond_Zopp].
    replace (bpow radix2 (-73)) with (/ IZR (2 ^ 73)) by reflexivity. cbn -[IZR]. lra.
  - rewrite (B2R_of_SF F64 (flit F64 1 (10 ^ 15)) false 5070602400912918 (-102)) by (vm_compute; reflexivity). unfold F2R; cbn [Fnum Fexp cond_Zopp].
    replace (bpow radix2 (-102)) with (/ IZR (2 ^ 102)) by reflexivity. cbn -[IZR]. lra.
Qed.
Lemma lit6_val p : 0 < B2R (flit p 1 (10 ^ 6)) <= 2 / 10 ^ 6.
Proof.
  destruct p.
  - rewrite (B2R_of_SF F32 (flit F32 1 (10 ^ 6)) false 8796093 (-43)) by (vm_compute; reflexivity). unfold F2R; cbn [Fnum Fexp cond_Zopp].
    replace (bpow radix2 (-43)) with (/ IZR (2 ^ 43)) by reflexivity. cbn -[IZR]. lra.
  - rewrite (B2R_of_SF F64 (flit F64 1 (10 ^ 6)) false 4722366482869645 (-72)) by (vm_compute; reflexivity). unfold F2R; cbn [Fnum Fexp cond_Zopp].
    replace (bpow radix2 (-72)) with (/ IZR (2 ^ 72)) by reflexivity. cbn -[IZR]. lra.
Qed.
Lemma four_big p : 4 <= bpow radix2 (femax p - 2).
Proof. change 4 with (bpow radix2 2). apply bpow_le. destruct p; cbn; lia. Qed.
Lemma relative_near p (a b : fl p) M : is_finite a = true -> is_finite b = true -> Rabs (B2R a) <= M -> Rabs (B2R b) <= M -> M <= 4 ->
  frelative a b = true -> Rabs (B2R a - B2R b) <= 1001 / 10 ^ 7 * M + 2 / 10 ^ 6.
Proof.
  intros Fa Fb Ha Hb HM E. pose proof (four_big p) as FB. destruct (thr_val p) as [Ft T]. pose proof (fu_pos p) as U. pose proof (fu_24 p) as V.
  destruct (C49_finite_lemma p a b (flit p 1 100) Fa Fb Ft ltac:(lra) ltac:(lra)) as [H _]. specialize (H E). cbv zeta in H. change (bpow radix2 (- fprec p)) with (fu p) in H.
  pose proof (lit15_val p) as L1. pose proof (lit6_val p) as L2. pose proof (Rabs_pos (B2R a)) as P. pose proof (Rabs_pos (B2R b)) as Q.
  assert (TR : Rabs (B2R a - B2R b) <= Rabs (B2R a) + Rabs (B2R b)). { unfold Rminus. eapply Rle_trans; [apply Rabs_triang|]. rewrite Rabs_Ropp. lra. }
  destruct H as [[H1 H2]|[[H1 H2]|[[H1 H2]|H]]].
  - lra.
  - rewrite H1, Rabs_R0 in TR. rewrite H1. lra.
  - rewrite H1, Rabs_R0 in TR. rewrite H1. lra.
  - eapply Rle_trans; [exact H|]. rewrite (Rabs_pos_eq (B2R (fmul _ _))) by lra.
    assert (MM : Rmax (Rabs (B2R a)) (Rabs (B2R b)) <= M) by (apply Rmax_lub; assumption). assert (M0 : 0 <= Rmax (Rabs (B2R a)) (Rabs (B2R b))) by (eapply Rle_trans; [exact P|apply Rmax_l]).
    set (t := B2R (fmul (flit p 1 100) (flit p 1 100))) in *. clearbody t.
    assert (UU : fu p * fu p <= / 10 ^ 7 * / 10 ^ 7) by (apply Rmult_le_compat; lra).
    assert (K : (1 + 3 * fu p) * (t + fu p * fu p) <= 1001 / 10 ^ 7).
    { apply Rle_trans with ((1 + / 10 ^ 6) * (t + fu p * fu p)); [apply Rmult_le_compat_r|]; pose proof (Rmult_le_pos (fu p) (fu p)); lra. }
    apply Rle_trans with (1001 / 10 ^ 7 * M); [|lra]. apply Rmult_le_compat; try lra. apply Rmult_le_pos; [lra|]. pose proof (Rmult_le_pos (fu p) (fu p)). lra.
Qed.
Lemma stored_near_aa p T T' A B a n b m rx ry : stands T A (OSrc (@SrcAA p a n)) rx -> stands T' B (OSrc (SrcAA b m)) ry ->
  Rabs (B2R a) <= 32/10 -> Rabs (B2R b) <= 32/10 -> Rabs (vnorm (vval n) - 1) <= 20 * fu p -> Rabs (vnorm (vval m) - 1) <= 20 * fu p ->
  ostored_eq (OSrc (SrcAA a n)) (OSrc (SrcAA b m)) = true -> close (7 / 10000) rx ry.
Proof.
  intros [(Fa & Fn & _) <-] [(Fb & Fm & _) <-] Ha Hb Nn Nm E. cbn [ostored_eq] in E. rewrite !andb_true_iff in E. destruct E as (((E1 & E2) & E3) & E4).
  pose proof (fu_pos p) as U. pose proof (fu_24 p) as V. pose proof Nn as Nn'. pose proof Nm as Nm'. apply Rabs_both in Nn', Nm'.
  assert (CO : forall k : FV p, Rabs (B2R (gx k)) <= vnorm (vval k) /\ Rabs (B2R (gy k)) <= vnorm (vval k) /\ Rabs (B2R (gz k)) <= vnorm (vval k)).
  { intro k. pose proof (vnorm_sq (vval k)) as S. pose proof (vn_nonneg (vval k)) as P.
    assert (S2 : vnorm (vval k) * vnorm (vval k) = B2R (gx k) * B2R (gx k) + B2R (gy k) * B2R (gy k) + B2R (gz k) * B2R (gz k)) by (rewrite S; unfold vnorm2, vdot, vval; cbn [Linalg.vx Linalg.vy Linalg.vz]; ring).
    pose proof (Rle_0_sqr (B2R (gx k))) as Z1. pose proof (Rle_0_sqr (B2R (gy k))) as Z2. pose proof (Rle_0_sqr (B2R (gz k))) as Z3. unfold Rsqr in Z1, Z2, Z3.
    assert (Q : forall t, t * t <= vnorm (vval k) * vnorm (vval k) -> Rabs t <= vnorm (vval k)). { intros t Ht. apply Rsqr_le_abs_0 in Ht. rewrite (Rabs_pos_eq (vnorm _)) in Ht by exact P. exact Ht. }
    repeat split; apply Q; lra. }
  destruct (CO n) as (N1 & N2 & N3). destruct (CO m) as (M1 & M2 & M3). destruct Fn as (Fx & Fy & Fz). destruct Fm as (Gx & Gy & Gz).
  pose proof (relative_near p a b (32/10) Fa Fb Ha Hb ltac:(lra) E1) as D1.
  pose proof (relative_near p (gx n) (gx m) (101/100) Fx Gx ltac:(lra) ltac:(lra) ltac:(lra) E2) as D2.
  pose proof (relative_near p (gy n) (gy m) (101/100) Fy Gy ltac:(lra) ltac:(lra) ltac:(lra) E3) as D3.
  pose proof (relative_near p (gz n) (gz m) (101/100) Fz Gz ltac:(lra) ltac:(lra) ltac:(lra) E4) as D4.
  assert (D : vdist (vval n) (vval m) <= 7/4 * (1001 / 10 ^ 7 * (101/100) + 2 / 10 ^ 6)) by (apply vnorm_le3; unfold vsub, vval; cbn [Linalg.vx Linalg.vy Linalg.vz]; assumption).
  assert (DIR : forall k : FV p, Rabs (vnorm (vval k) - 1) <= 20 * fu p -> vdist (vscale (/ vnorm (vval k)) (vval k)) (vval k) <= 20 * fu p).
  { intros k Hk. pose proof Hk as Hk'. apply Rabs_both in Hk'. unfold vdist. replace (vsub (vscale (/ vnorm (vval k)) (vval k)) (vval k)) with (vscale (/ vnorm (vval k) - 1) (vval k)) by lin.
    rewrite vnorm_vscale. rewrite <- (Rabs_pos_eq (vnorm (vval k))) at 2 by lra. rewrite <- Rabs_mult. replace ((/ vnorm (vval k) - 1) * vnorm (vval k)) with (- (vnorm (vval k) - 1)) by (field; lra). now rewrite Rabs_Ropp. }
  assert (PN : 0 < vnorm (vval n)) by lra. assert (PM : 0 < vnorm (vval m)) by lra.
  rewrite !turns_aa by assumption. pose proof (DIR n Nn) as DN. pose proof (DIR m Nm) as DM. set (e := vscale (/ vnorm (vval n)) (vval n)) in *. set (g := vscale (/ vnorm (vval m)) (vval m)) in *.
  assert (Ue : vnorm2 e = 1) by (apply vdir_unit; exact PN). assert (Ug : vnorm2 g = 1) by (apply vdir_unit; exact PM).
  assert (DEG : vdist e g <= 184 / 10 ^ 6).
  { pose proof (vdist_triang e (vval n) g) as X1. pose proof (vdist_triang (vval n) (vval m) g) as X2. replace (vdist (vval m) g) with (vdist g (vval m)) in X2 by (unfold vdist, vnorm; f_equal; lin). lra. }
  replace (7 / 10000) with (2 * (35 / 10 ^ 5)) by lra. apply from_qdist; try (apply qnorm_unit, half_quat_norm; assumption).
  pose proof (qdist_triang (half_quat (B2R a) e) (half_quat (B2R b) e) (half_quat (B2R b) g)) as X.
  pose proof (half_quat_angle (B2R a) (B2R b) e Ue) as X1. pose proof (half_quat_axis (B2R b) e g) as X2.
  assert (X3 : Rabs (sin (B2R b / 2)) * vdist e g <= 1 * (184 / 10 ^ 6)). { apply Rmult_le_compat; [apply Rabs_pos|apply vn_nonneg|apply Rabs_le, SIN_bound|exact DEG]. }
  lra.
Qed.
Lemma relative_differ p (a b : fl p) : is_finite a = true -> is_finite b = true -> Rabs (B2R a) <= 4 -> Rabs (B2R b) <= 4 ->
  Rabs (B2R a - B2R b) <= 9998 / 10 ^ 8 * Rmax (Rabs (B2R a)) (Rabs (B2R b)) -> frelative a b = true.
Proof.
  intros Fa Fb Ha Hb D. destruct (frelative a b) eqn:E; [reflexivity|exfalso]. pose proof (four_big p) as FB. destruct (thr_val p) as [Ft T]. pose proof (fu_pos p) as U. pose proof (fu_24 p) as V.
  destruct (C49_finite_lemma p a b (flit p 1 100) Fa Fb Ft ltac:(lra) ltac:(lra)) as [_ H]. destruct (H E) as [M0 K]. cbv zeta in K. change (bpow radix2 (- fprec p)) with (fu p) in K.
  set (t := B2R (fmul (flit p 1 100) (flit p 1 100))) in *. set (M := Rmax (Rabs (B2R a)) (Rabs (B2R b))) in *. clearbody t M.
  assert (UU : 0 <= fu p * fu p <= / 10 ^ 7 * / 10 ^ 7) by (split; [apply Rmult_le_pos; lra|apply Rmult_le_compat; lra]).
  assert (L : (1 - / 10 ^ 6) * (99998 / 10 ^ 9) <= (1 - 3 * fu p) * (t - fu p * fu p)) by (apply Rmult_le_compat; lra).
  assert (L2 : (1 - / 10 ^ 6) * (99998 / 10 ^ 9) * M <= (1 - 3 * fu p) * (t - fu p * fu p) * M) by (apply Rmult_le_compat_r; lra). lra.
Qed.
Lemma relative_refl p (a : fl p) : is_finite a = true -> Rabs (B2R a) <= 4 -> frelative a a = true.
Proof. intros F H. apply relative_differ; try assumption. rewrite Rminus_diag_eq, Rabs_R0 by reflexivity. pose proof (Rabs_pos (B2R a)) as P. pose proof (Rmax_l (Rabs (B2R a)) (Rabs (B2R a))). lra. Qed.

Lemma feq_sym p (a b : fl p) : feq a b = feq b a.
Proof. unfold feq, Beqb, SpecFloat.SFeqb. change (SpecFloat.SFcompare (B2SF a) (B2SF b)) with (Bcompare a b). change (SpecFloat.SFcompare (B2SF b) (B2SF a)) with (Bcompare b a). rewrite (Bcompare_swap _ _ a b). destruct (Bcompare a b) as [[]|]; reflexivity. Qed.
Lemma fabs_inj p (a b : fl p) : is_finite a = true -> is_finite b = true -> Rabs (B2R a) = Rabs (B2R b) -> fabs a = fabs b.
Proof.
  intros Fa Fb E. destruct (fabs_R p a) as [A FA]. destruct (fabs_R p b) as [B FB]. apply B2R_Bsign_inj; [congruence|congruence|now rewrite A, B|].
  destruct a, b; try discriminate; reflexivity.
Qed.
Lemma relative_sym p (a b : fl p) : is_finite a = true -> is_finite b = true -> Rabs (B2R a) <= 4 -> Rabs (B2R b) <= 4 -> frelative a b = frelative b a.
Proof.
  intros Fa Fb Ha Hb. unfold frelative, fcompareRelative. pose proof (four_fbig p) as B4. destruct (fabs_R p a) as [A FA]. destruct (fabs_R p b) as [B FB]. rewrite Fa in FA. rewrite Fb in FB.
  assert (E1 : fmax (fabs a) (fabs b) = fmax (fabs b) (fabs a)).
  { unfold fmax. rewrite !(flt_R p) by assumption. rewrite A, B. destruct (Rlt_bool_spec (Rabs (B2R a)) (Rabs (B2R b))); destruct (Rlt_bool_spec (Rabs (B2R b)) (Rabs (B2R a))); try lra; try reflexivity. apply fabs_inj; auto. lra. }
  assert (E2 : fabs (fsub a b) = fabs (fsub b a)).
  { assert (BB : 8 <= fbig p). { unfold fbig. change 8 with (bpow radix2 3). apply bpow_le. destruct p; cbn; lia. }
    assert (D1 : Rabs (B2R a - B2R b) <= fbig p). { unfold Rminus. eapply Rle_trans; [apply Rabs_triang|]. rewrite Rabs_Ropp. lra. }
    assert (D2 : Rabs (B2R b - B2R a) <= fbig p). { rewrite Rabs_minus_sym. exact D1. }
    destruct (fsub_R p a b Fa Fb D1) as [S1 G1]. destruct (fsub_R p b a Fb Fa D2) as [S2 G2]. apply fabs_inj; try assumption. rewrite S1, S2.
    replace (B2R b - B2R a) with (- (B2R a - B2R b)) by ring. unfold rnd. rewrite round_NE_opp, Rabs_Ropp. reflexivity. }
  rewrite E1, E2. set (u := (feq (fabs a) fzero && flt (fabs b) (flit p 1 (10 ^ 6)))%bool). set (v := (feq (fabs b) fzero && flt (fabs a) (flit p 1 (10 ^ 6)))%bool).
  rewrite (andb_comm (flt (fabs a) _) (flt (fabs b) _)). rewrite <- !orb_assoc, (orb_comm u v). reflexivity.
Qed.

(** the numbers of an angle-axis after getUnique() *)
Lemma unique_aa_bounds p ev (a : fl p) n : object_ok (64/10) (SrcAA a n) ->
  is_finite (fst (faa_unique ev a n)) = true /\ vfinite (snd (faa_unique ev a n)) /\ Rabs (B2R (fst (faa_unique ev a n))) <= 32/10 /\
  vnorm (vval (snd (faa_unique ev a n))) <= 5/2.
Proof.
  intros O. pose proof (fu_pos p) as U. pose proof (fu_24 p) as V. pose proof (piT_close p) as PC. apply Rabs_both in PC. pose proof PI_num as PN.
  destruct (faa_unique_ok p ev a n (64/10) ltac:(lra) O) as (F & Fn & R & D & C). split; [exact F|]. split; [exact Fn|]. split; [rewrite Rabs_pos_eq; lra|].
  assert (NN : vnorm (vval n) <= 5/2). { destruct O as (_ & _ & _ & [X|[_ X]]); [|lra]. rewrite roundoff_fu in X. apply Rabs_both in X. lra. }
  destruct D as [->|[->| ->]]; [exact NN|rewrite (proj2 (proj2 (vneg_val p n))); exact NN|]. destruct (funit_x_R p) as [_ ->]. rewrite (vnorm_unit ex) by lin. lra.
Qed.
Lemma coords_le p (k : FV p) : Rabs (B2R (gx k)) <= vnorm (vval k) /\ Rabs (B2R (gy k)) <= vnorm (vval k) /\ Rabs (B2R (gz k)) <= vnorm (vval k).
Proof.
  pose proof (vnorm_sq (vval k)) as S. pose proof (vn_nonneg (vval k)) as P.
  assert (S2 : vnorm (vval k) * vnorm (vval k) = B2R (gx k) * B2R (gx k) + B2R (gy k) * B2R (gy k) + B2R (gz k) * B2R (gz k)) by (rewrite S; unfold vnorm2, vdot, vval; cbn [Linalg.vx Linalg.vy Linalg.vz]; ring).
  pose proof (Rle_0_sqr (B2R (gx k))) as Z1. pose proof (Rle_0_sqr (B2R (gy k))) as Z2. pose proof (Rle_0_sqr (B2R (gz k))) as Z3. unfold Rsqr in Z1, Z2, Z3.
  assert (Q : forall t, t * t <= vnorm (vval k) * vnorm (vval k) -> Rabs t <= vnorm (vval k)). { intros t Ht. apply Rsqr_le_abs_0 in Ht. rewrite (Rabs_pos_eq (vnorm _)) in Ht by exact P. exact Ht. }
  repeat split; apply Q; lra.
Qed.

(** ** The matrix of a negated quaternion *)
Lemma fmul_neg_neg p (a b : fl p) : fmul (fneg a) (fneg b) = fmul a b.
Proof.
  unfold fmul, fneg. destruct a as [s|s| |s m e H], b as [s'|s'| |s' m' e' H']; cbn [Bopp Bmult]; try reflexivity; try (destruct s, s'; reflexivity).
  apply B2SF_inj. rewrite !B2SF_SF2B. destruct s, s'; reflexivity.
Qed.
Lemma ffma_neg_neg p (a b c : fl p) : ffma (fneg a) (fneg b) c = ffma a b c.
Proof.
  unfold ffma, fneg. destruct a as [s|s| |s m e H], b as [s'|s'| |s' m' e' H'], c as [t|t| |t n f G]; cbn [Bopp Bfma]; try reflexivity; try (destruct s, s', t; reflexivity).
  all: destruct s, s'; reflexivity.
Qed.
Lemma fnegR p (a : fl p) : B2R (fneg a) = - B2R a. Proof. apply fneg_R. Qed.
Lemma fmul_sign p (a b : fl p) : is_finite a = true -> is_finite b = true -> Rabs (B2R a * B2R b) <= fbig p -> Bsign (fmul a b) = xorb (Bsign a) (Bsign b).
Proof.
  intros Fa Fb H. pose proof (Bmult_correct (fprec p) (femax p) _ _ mode_NE a b) as C.
  change (round radix2 (SpecFloat.fexp (fprec p) (femax p)) (round_mode mode_NE) (B2R a * B2R b)) with (rnd p (B2R a * B2R b)) in C.
  rewrite (no_overflow p _ H), Fa, Fb in C. destruct C as (_ & F & S). apply S. unfold fmul. destruct (Bmult mode_NE a b); auto; discriminate.
Qed.
Lemma fmul_neg_r p (a b : fl p) : is_finite a = true -> is_finite b = true -> Rabs (B2R a * B2R b) <= fbig p -> fmul a (fneg b) = fneg (fmul a b).
Proof.
  intros Fa Fb H. assert (Fb' : is_finite (fneg b) = true) by now rewrite fneg_fin.
  assert (H' : Rabs (B2R a * B2R (fneg b)) <= fbig p). { rewrite fnegR. rewrite <- Ropp_mult_distr_r, Rabs_Ropp. exact H. }
  destruct (fmul_R p a b Fa Fb H) as [E F]. destruct (fmul_R p a (fneg b) Fa Fb' H') as [E' F'].
  assert (SG : forall t : fl p, is_finite t = true -> Bsign (fneg t) = negb (Bsign t)) by (intros [s|s| |s m e X]; try discriminate; reflexivity).
  apply B2R_Bsign_inj; [exact F'|now rewrite fneg_fin|rewrite E', !fnegR, E, <- Ropp_mult_distr_r; unfold rnd; apply round_NE_opp|].
  rewrite (fmul_sign p a (fneg b) Fa Fb' H'), !SG by assumption. rewrite (fmul_sign p a b Fa Fb H). destruct (Bsign a), (Bsign b); reflexivity.
Qed.
Lemma fneg_fneg p (a : fl p) : fneg (fneg a) = a. Proof. apply Bopp_involutive. Qed.
(** a sum of products does not change when both factors of some products are negated *)
Lemma feval_neg p t (a b a' b' : nat -> fl p) : (forall i, (a' i = a i /\ b' i = b i) \/ (a' i = fneg (a i) /\ b' i = fneg (b i))) -> feval t a' b' = feval t a b.
Proof.
  intros H. induction t as [i|l IHl r IHr|i t IH]; cbn [feval]; [|now rewrite IHl, IHr|rewrite IH]; destruct (H i) as [[-> ->]|[-> ->]]; try reflexivity; [apply fmul_neg_neg|apply ffma_neg_neg].
Qed.
Lemma ftoRot_neg p (o : orders9) (q : FQ p) : qfinite q -> Rabs (qnorm (qval q) - 1) <= / 50 -> ftoRot o (fqneg q) = ftoRot o q.
Proof.
  intros (F1 & F2 & F3 & F4) N. apply Rabs_both in N. destruct (fofZ2 p) as [T2 V2].
  assert (BB : 8 <= fbig p). { unfold fbig. change 8 with (bpow radix2 3). apply bpow_le. destruct p; cbn; lia. }
  assert (TW : forall t : fl p, is_finite t = true -> Rabs (B2R t) <= qnorm (qval q) -> fmul (fofZ p 2) (fneg t) = fneg (fmul (fofZ p 2) t)).
  { intros t Ft Ht. apply fmul_neg_r; try assumption. rewrite Rabs_mult, V2, (Rabs_pos_eq 2) by lra. lra. }
  assert (C : forall t, t * t <= qnorm2 (qval q) -> Rabs t <= qnorm (qval q)).
  { intros t Ht. unfold qnorm. rewrite <- sqrt_Rsqr_abs. apply sqrt_le_1_alt. exact Ht. }
  unfold qnorm2, qval in C; cbn [Linalg.qw Linalg.qx Linalg.qy Linalg.qz] in C.
  pose proof (Rle_0_sqr (B2R (fw q))) as Z1. pose proof (Rle_0_sqr (B2R (fx q))) as Z2. pose proof (Rle_0_sqr (B2R (fy q))) as Z3. pose proof (Rle_0_sqr (B2R (fz q))) as Z4. unfold Rsqr in *.
  unfold ftoRot, fqneg; cbn [fw fx fy fz].
  rewrite (TW (fx q) F2), (TW (fy q) F3), (TW (fz q) F4) by (apply C; lra).
  unfold fdot. f_equal; f_equal; apply feval_neg; intro i; unfold cf; do 4 (destruct i as [|i]; [cbn [nth]; rewrite ?fneg_fneg; auto|]); cbn [nth]; destruct i; auto.
Qed.
