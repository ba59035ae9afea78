From Coq Require Import ZArith Reals Lra Psatz Bool List Lia.
From Flocq Require Import IEEE754.BinarySingleNaN Core.Core.
From Verif Require Import Linalg Spec SpecFacts SpecClose ModelCommon ModelEigen CommonFacts CloseFacts
  FloatModel FloatFacts FloatModel2 SpecFloatQ FloatQFacts FloatQProd FloatQHist FloatQRot FloatMHist FloatCast FloatWrap Claims9 FloatModel3 SpecLibm SpecBuild FloatBuild FloatBuild2 FloatBuild3 FloatBuild4 FloatModel4 FloatExt FloatExt2 FloatExt3 FloatExt4 SpecExt Claims18 FloatExt5 FloatExt6 FloatModel5 FloatModel6 FloatMat FloatModel7 SpecSix FloatSix FloatFix FloatOHist FloatModel11 SpecDebugF FloatDebug FloatDebug2.
Import ListNotations.
Local Open Scope R_scope.

(** ** The assertion on matrices *)
Lemma tol6_val p : 9999 / 10 ^ 10 <= B2R (flit p 1 (10 ^ 6)) <= 10001 / 10 ^ 10.
Proof.
  destruct p.
  - rewrite (B2R_of_SF F32 (flit F32 1 (10 ^ 6)) false 8796093 (-43)) by (vm_compute; reflexivity).
    unfold F2R; cbn [Fnum Fexp SpecFloat.cond_Zopp]. replace (bpow radix2 (-43)) with (/ 8796093022208) by (cbn; f_equal). lra.
  - rewrite (B2R_of_SF F64 (flit F64 1 (10 ^ 6)) false 4722366482869645 (-72)) by (vm_compute; reflexivity).
    unfold F2R; cbn [Fnum Fexp SpecFloat.cond_Zopp]. replace (bpow radix2 (-72)) with (/ 4722366482869645213696) by (cbn; f_equal). lra.
Qed.
Lemma tol15_val p : B2R (flit p 1 (10 ^ 15)) <= / 10 ^ 14.
Proof.
  destruct p.
  - rewrite (B2R_of_SF F32 (flit F32 1 (10 ^ 15)) false 9444733 (-73)) by (vm_compute; reflexivity).
    unfold F2R; cbn [Fnum Fexp SpecFloat.cond_Zopp]. replace (bpow radix2 (-73)) with (/ 9444732965739290427392) by (cbn; f_equal). lra.
  - rewrite (B2R_of_SF F64 (flit F64 1 (10 ^ 15)) false 5070602400912918 (-102)) by (vm_compute; reflexivity).
    unfold F2R; cbn [Fnum Fexp SpecFloat.cond_Zopp]. replace (bpow radix2 (-102)) with (/ 5070602400912917605986812821504) by (cbn; f_equal). lra.
Qed.
Lemma fnear_zero p (x : fl p) : is_finite x = true -> Rabs (B2R x) <= bpow radix2 60 ->
  (Rabs (B2R x) <= 998 / 10 ^ 9 -> fcompareRelative x fzero (flit p 1 10000) = true) /\
  (1002 / 10 ^ 9 <= Rabs (B2R x) -> fcompareRelative x fzero (flit p 1 10000) = false).
Proof.
  intros F B. pose proof (tol6_val p) as T6. pose proof (tol15_val p) as T15. destruct (thr4_val p) as [Ft T]. pose proof (fu_pos p) as U. pose proof (fu_24 p) as V.
  destruct (fabs_R p x) as [Rx Fx]. rewrite F in Fx.
  split; intro H.
  - unfold fcompareRelative. destruct (flit_finite p) as (L1 & L2 & L3). rewrite (flt_R p (fabs x) (flit p 1 (10 ^ 6))) by assumption. rewrite Rx.
    replace (Rlt_bool (Rabs (B2R x)) (B2R (flit p 1 (10 ^ 6)))) with true by (symmetry; apply Rlt_bool_true; lra).
    replace (feq (fabs fzero) (@fzero p)) with true by (destruct p; reflexivity). now rewrite !orb_true_r.
  - destruct (C49_finite_lemma p x fzero (flit p 1 10000) F eq_refl Ft (small_le_big p _ B)) as [CA _].
    { change (B2R (@fzero p)) with 0. rewrite Rabs_R0. apply bpow_ge_0. }
    change (B2R (@fzero p)) with 0 in CA. rewrite Rabs_R0 in CA. fold (fu p) in CA. set (thr := B2R (fmul (flit p 1 10000) (flit p 1 100))) in *. set (n := B2R x) in *.
    rewrite (Rabs_pos_eq thr) in CA by lra. destruct (fcompareRelative x fzero (flit p 1 10000)) eqn:A; [exfalso|reflexivity].
    destruct (CA eq_refl) as [[X _]|[[Z X]|[[Z X]|X]]]; [lra|rewrite Z, Rabs_R0 in H; lra|lra|].
    rewrite Rmax_left in X by apply Rabs_pos. rewrite Rminus_0_r in X.
    assert (U2 : 0 <= fu p * fu p <= fu p * / 16777216) by (split; [apply Rmult_le_pos|apply Rmult_le_compat_l]; lra).
    assert (UT : 0 <= fu p * thr <= / 16777216 * thr) by (split; [apply Rmult_le_pos|apply Rmult_le_compat_r]; lra).
    assert (U3 : 0 <= fu p * (fu p * fu p) <= / 16777216 * (fu p * fu p)) by (split; [apply Rmult_le_pos|apply Rmult_le_compat_r]; lra).
    assert (K2 : (1 + 3 * fu p) * (thr + fu p * fu p) <= / 2) by lra.
    assert (Y : Rabs n <= / 2 * Rabs n) by (eapply Rle_trans; [exact X|apply Rmult_le_compat_r; [apply Rabs_pos|exact K2]]). lra.
Qed.

Lemma frow_dot p t (a b : FV p) N : order 3 t -> vfinite a -> vfinite b -> vnorm (vval a) * vnorm (vval b) <= N -> N <= bpow radix2 120 ->
  is_finite (fdot t (flist a) (flist b)) = true /\ Rabs (B2R (fdot t (flist a) (flist b)) - vdot (vval a) (vval b)) <= (3 + / 1000) * fu p * N + 5 * eta p.
Proof.
  intros O (Ax & Ay & Az) (Bx & By & Bz) HN HB.
  exact (fdot3_err p t (gx a) (gy a) (gz a) (gx b) (gy b) (gz b) N O Ax Ay Az Bx By Bz (Rle_trans _ _ _ (proj2 (dotabs3 _ _ _ _ _ _)) HN) HB).
Qed.
Lemma bpow60_120 : 1073741824 * 1073741824 <= bpow radix2 60 /\ bpow radix2 60 <= bpow radix2 120.
Proof. split; [cbn; lra|apply bpow_le; lia]. Qed.
Lemma diag_spec p t (a : FV p) : order 3 t -> vfinite a -> vnorm (vval a) <= 536870912 ->
  let near := fcompareRelative (fdot t (flist a) (flist a)) (fofZ p 1) (flit p 1 10000) in
  (Rabs (vdot (vval a) (vval a) - 1) <= 8 / 10 ^ 7 -> near = true) /\ (12 / 10 ^ 7 <= Rabs (vdot (vval a) (vval a) - 1) -> near = false).
Proof.
  intros O F H near. pose proof (fu_pos p) as U. pose proof (fu_24 p) as V. pose proof (eta_pos p) as P. pose proof (eta5_u p) as T. pose proof (vn_nonneg (vval a)) as N0. destruct bpow60_120 as [B1 B2].
  set (n := vnorm (vval a)) in *. assert (DD : vdot (vval a) (vval a) = n * n) by (unfold n; now rewrite vnorm_sqr).
  assert (NN : n * n <= 536870912 * 536870912) by (apply Rmult_le_compat; lra). assert (NP : 0 <= n * n) by (apply Rmult_le_pos; lra).
  destruct (frow_dot p t a a (n * n) O F F (Rle_refl _)) as [Fd E]; [lra|]. rewrite DD in *. set (x := fdot t (flist a) (flist a)) in *. apply Rabs_both in E.
  assert (W : 0 <= fu p * (n * n) <= / 16777216 * (n * n)) by (split; [apply Rmult_le_pos|apply Rmult_le_compat_r]; lra).
  assert (T' : 5 * eta p <= / 10 ^ 10) by lra.
  destruct (fnear_one p x Fd) as [YA YR]. { apply Rabs_le. lra. }
  split; intro G.
  - apply YA. apply Rabs_both in G. apply Rabs_le. lra.
  - apply YR. unfold Rabs in *. destruct (Rcase_abs (n * n - 1)); destruct (Rcase_abs (B2R x - 1)); lra.
Qed.
Lemma off_spec p t (a b : FV p) : order 3 t -> vfinite a -> vfinite b -> vdot (vval a) (vval a) <= 1 + 12 / 10 ^ 7 -> vdot (vval b) (vval b) <= 1 + 12 / 10 ^ 7 ->
  let near := fcompareRelative (fdot t (flist a) (flist b)) fzero (flit p 1 10000) in
  (Rabs (vdot (vval a) (vval b)) <= 8 / 10 ^ 7 -> near = true) /\ (12 / 10 ^ 7 <= Rabs (vdot (vval a) (vval b)) -> near = false).
Proof.
  intros O Fa Fb Ha Hb near. pose proof (fu_pos p) as U. pose proof (fu_24 p) as V. pose proof (eta_pos p) as P. pose proof (eta5_u p) as T. destruct bpow60_120 as [B1 B2].
  assert (NB : vnorm (vval a) * vnorm (vval b) <= 1 + 12 / 10 ^ 7).
  { pose proof (vn_nonneg (vval a)). pose proof (vn_nonneg (vval b)). pose proof (vnorm_sqr (vval a)) as QA. pose proof (vnorm_sqr (vval b)) as QB. unfold vnorm2 in *. pose proof (Rle_0_sqr (vnorm (vval a) - vnorm (vval b))) as Q. unfold Rsqr in Q. lra. }
  destruct (frow_dot p t a b _ O Fa Fb NB) as [Fd E]; [lra|]. set (x := fdot t (flist a) (flist b)) in *.
  assert (T' : 5 * eta p <= / 10 ^ 10) by lra.
  pose proof (cauchy_schwarz (vval a) (vval b)) as C1. pose proof (cauchy_schwarz (vneg (vval a)) (vval b)) as C2. rewrite vnorm_vneg in C2. replace (vdot (vneg (vval a)) (vval b)) with (- vdot (vval a) (vval b)) in C2 by lin.
  set (d := vdot (vval a) (vval b)) in *. apply Rabs_both in E.
  destruct (fnear_zero p x Fd) as [YA YR]. { apply Rabs_le. lra. }
  split; intro G.
  - apply YA. apply Rabs_both in G. apply Rabs_le. lra.
  - apply YR. unfold Rabs in *. destruct (Rcase_abs d); destruct (Rcase_abs (B2R x)); lra.
Qed.

Lemma fmat_assert_spec p o t d (m : FM p) : orders9_ok o -> order 3 t -> orders3_ok 2 2 2 d -> mfinite m ->
  vnorm (vrow0 (mval m)) <= 536870912 -> vnorm (vrow1 (mval m)) <= 536870912 -> vnorm (vrow2 (mval m)) <= 536870912 ->
  (entries_within (8 / 10 ^ 7) (mmul (mval m) (mtrans (mval m))) mid -> Rabs (mdet (mval m) - 1) <= 55 / 10 ^ 8 -> fmat_assert o t d m = true) /\
  (fmat_assert o t d m = true -> entries_within (12 / 10 ^ 7) (mmul (mval m) (mtrans (mval m))) mid /\ Rabs (mdet (mval m) - 1) <= 15 / 10 ^ 7).
Proof.
  intros ((O00 & O01 & O02) & (O10 & O11 & O12) & (O20 & O21 & O22)) OT OD (F0 & F1 & F2) N0 N1 N2. pose proof (fu_pos p) as U. pose proof (fu_24 p) as V.
  set (v0 := vval (r0 m)) in *. set (v1 := vval (r1 m)) in *. set (v2 := vval (r2 m)) in *.
  change (vrow0 (mval m)) with v0 in *. change (vrow1 (mval m)) with v1 in *. change (vrow2 (mval m)) with v2 in *.
  assert (EW : forall e, entries_within e (mmul (mval m) (mtrans (mval m))) mid <->
    (Rabs (vdot v0 v0 - 1) <= e /\ Rabs (vdot v0 v1 - 0) <= e /\ Rabs (vdot v0 v2 - 0) <= e /\ Rabs (vdot v1 v0 - 0) <= e /\ Rabs (vdot v1 v1 - 1) <= e /\ Rabs (vdot v1 v2 - 0) <= e /\ Rabs (vdot v2 v0 - 0) <= e /\ Rabs (vdot v2 v1 - 0) <= e /\ Rabs (vdot v2 v2 - 1) <= e)).
  { intro e. unfold entries_within, mentries. split.
    - intro X. repeat match goal with X : Forall2 _ (_ :: _) (_ :: _) |- _ => inversion X; clear X; subst end. tauto.
    - intros (X0 & X1 & X2 & X3 & X4 & X5 & X6 & X7 & X8). repeat (constructor; try assumption). }
  destruct (diag_spec p (o0 (ro0 o)) (r0 m) O00 F0 N0) as [A00 R00]. destruct (diag_spec p (o1 (ro1 o)) (r1 m) O11 F1 N1) as [A11 R11]. destruct (diag_spec p (o2 (ro2 o)) (r2 m) O22 F2 N2) as [A22 R22].
  fold v0 in A00, R00. fold v1 in A11, R11. fold v2 in A22, R22.
  assert (RN : forall v, Rabs (vdot v v - 1) <= 12 / 10 ^ 7 -> vdot v v <= 1 + 12 / 10 ^ 7) by (intros v X; apply Rabs_both in X; lra).
  assert (VN : forall v, Rabs (vdot v v - 1) <= 12 / 10 ^ 7 -> vnorm v <= 1001 / 1000).
  { intros v X. apply Rabs_both in X. pose proof (vn_nonneg v). pose proof (vnorm_sqr v) as Q. unfold vnorm2 in Q. destruct (Rle_or_lt (vnorm v) (1001/1000)) as [Y|Y]; [exact Y|]. exfalso. assert (1001/1000 * (1001/1000) <= vnorm v * vnorm v) by (apply Rmult_le_compat; lra). lra. }
  assert (OFF : Rabs (vdot v0 v0 - 1) <= 12 / 10 ^ 7 -> Rabs (vdot v1 v1 - 1) <= 12 / 10 ^ 7 -> Rabs (vdot v2 v2 - 1) <= 12 / 10 ^ 7 ->
    (forall t (a b : FV p), order 3 t -> (a = r0 m \/ a = r1 m \/ a = r2 m) -> (b = r0 m \/ b = r1 m \/ b = r2 m) ->
      let near := fcompareRelative (fdot t (flist a) (flist b)) fzero (flit p 1 10000) in
      (Rabs (vdot (vval a) (vval b) - 0) <= 8 / 10 ^ 7 -> near = true) /\ (near = true -> Rabs (vdot (vval a) (vval b) - 0) <= 12 / 10 ^ 7))
    /\ (is_finite (fdet t d m) = true /\ Rabs (B2R (fdet t d m) - mdet (mval m)) <= 7 * fu p)).
  { intros Q0 Q1 Q2. split.
    - intros t' a b Ot Ha Hb near. rewrite Rminus_0_r.
      assert (Fa : vfinite a /\ vdot (vval a) (vval a) <= 1 + 12 / 10 ^ 7) by (destruct Ha as [ -> | [ -> | -> ]]; (split; [assumption|now apply RN])).
      assert (Fb : vfinite b /\ vdot (vval b) (vval b) <= 1 + 12 / 10 ^ 7) by (destruct Hb as [ -> | [ -> | -> ]]; (split; [assumption|now apply RN])).
      destruct Fa as [Fa La], Fb as [Fb Lb]. destruct (off_spec p t' a b Ot Fa Fb La Lb) as [X Y]. fold near in X, Y. split; [exact X|]. intro NT. apply Rnot_lt_le. intro Z. rewrite Y in NT by lra. discriminate.
    - apply fdet_err; [exact OT|exact OD|repeat split; first [apply F0|apply F1|apply F2]|now apply VN|now apply VN|now apply VN]. }
  assert (DT : is_finite (fdet t d m) = true -> Rabs (B2R (fdet t d m)) <= bpow radix2 60 -> (Rabs (B2R (fdet t d m) - 1) <= 998 / 10 ^ 9 -> fcompareRelative (fdet t d m) (fofZ p 1) (flit p 1 10000) = true) /\ (fcompareRelative (fdet t d m) (fofZ p 1) (flit p 1 10000) = true -> Rabs (B2R (fdet t d m) - 1) <= 1002 / 10 ^ 9)).
  { intros X Y. destruct (fnear_one p _ X Y) as [Z1 Z2]. split; [exact Z1|]. intro NT. apply Rnot_lt_le. intro Z. rewrite Z2 in NT by lra. discriminate. }
  assert (DB : forall e, Rabs (vdot v0 v0 - 1) <= e -> e <= 12 / 10 ^ 7 -> Rabs (vdot v1 v1 - 1) <= e -> Rabs (vdot v2 v2 - 1) <= e -> Rabs (mdet (mval m)) <= 10).
  { intros e X0 He X1 X2. pose proof (VN v0 ltac:(lra)) as M0. pose proof (VN v1 ltac:(lra)) as M1. pose proof (VN v2 ltac:(lra)) as M2.
    assert (C : forall v : V3, vnorm v <= 1001/1000 -> Rabs (Linalg.vx v) <= 1001/1000 /\ Rabs (Linalg.vy v) <= 1001/1000 /\ Rabs (Linalg.vz v) <= 1001/1000).
    { intros v Hv. pose proof (vn_nonneg v). pose proof (vnorm_sqr v) as Q. assert (vnorm v * vnorm v <= 1001/1000 * (1001/1000)) by (apply Rmult_le_compat; lra).
      destruct v as [x y z]. unfold vnorm2, vdot in Q. cbn [Linalg.vx Linalg.vy Linalg.vz] in *. pose proof (Rle_0_sqr x). pose proof (Rle_0_sqr y). pose proof (Rle_0_sqr z). unfold Rsqr in *.
      repeat split; apply Rsqr_le_abs_0_alt || idtac; (rewrite <- (Rabs_pos_eq (1001/1000)) by lra; apply Rsqr_le_abs_0; unfold Rsqr; lra). }
    destruct (C _ M0) as (a0 & a1 & a2). destruct (C _ M1) as (b0 & b1 & b2). destruct (C _ M2) as (c0 & c1 & c2).
    replace (mdet (mval m)) with (Linalg.vx v0 * (Linalg.vy v1 * Linalg.vz v2) - Linalg.vx v0 * (Linalg.vz v1 * Linalg.vy v2) - Linalg.vy v0 * (Linalg.vx v1 * Linalg.vz v2) + Linalg.vy v0 * (Linalg.vz v1 * Linalg.vx v2) + Linalg.vz v0 * (Linalg.vx v1 * Linalg.vy v2) - Linalg.vz v0 * (Linalg.vy v1 * Linalg.vx v2)) by (unfold v0, v1, v2, mdet, mval, vval, vrow0, vrow1, vrow2, m00, m01, m02, m10, m11, m12, m20, m21, m22; cbn [Linalg.vx Linalg.vy Linalg.vz Linalg.m00 Linalg.m01 Linalg.m02 Linalg.m10 Linalg.m11 Linalg.m12 Linalg.m20 Linalg.m21 Linalg.m22]; ring).
    assert (T3 : forall x y z, Rabs x <= 1001/1000 -> Rabs y <= 1001/1000 -> Rabs z <= 1001/1000 -> - (3/2) <= x * (y * z) <= 3/2).
    { intros x y z X Y Z. apply Rabs_both. rewrite !Rabs_mult. apply Rle_trans with (1001/1000 * (1001/1000 * (1001/1000))); [|lra]. apply Rmult_le_compat; [apply Rabs_pos|apply Rmult_le_pos; apply Rabs_pos|exact X|]. apply Rmult_le_compat; first [apply Rabs_pos|assumption]. }
    pose proof (T3 _ _ _ a0 b1 c2). pose proof (T3 _ _ _ a0 b2 c1). pose proof (T3 _ _ _ a1 b0 c2). pose proof (T3 _ _ _ a1 b2 c0). pose proof (T3 _ _ _ a2 b0 c1). pose proof (T3 _ _ _ a2 b1 c0). apply Rabs_le. lra. }
  assert (B60 : 1000 <= bpow radix2 60) by (cbn; lra).
  unfold fmat_assert. cbn [fmm ftrans r0 r1 r2 gx gy gz].
  assert (TR0 : mkFV (gx (r0 m)) (gy (r0 m)) (gz (r0 m)) = r0 m) by (now destruct (r0 m)). assert (TR1 : mkFV (gx (r1 m)) (gy (r1 m)) (gz (r1 m)) = r1 m) by (now destruct (r1 m)). assert (TR2 : mkFV (gx (r2 m)) (gy (r2 m)) (gz (r2 m)) = r2 m) by (now destruct (r2 m)).
  rewrite TR0, TR1, TR2. split.
  - intros E HD. apply EW in E. destruct E as (X0 & X1 & X2 & X3 & X4 & X5 & X6 & X7 & X8).
    destruct OFF as [OFF [FD ED]]; [lra|lra|lra|]. pose proof (DB _ X0 ltac:(lra) X4 X8) as DBB. apply Rabs_both in ED. apply Rabs_both in DBB.
    destruct (DT FD) as [DA _]. { apply Rabs_le. lra. }
    rewrite (A00 X0), (A11 X4), (A22 X8). rewrite DA. 2: { apply Rabs_both in HD. apply Rabs_le. lra. }
    rewrite (proj1 (OFF (o1 (ro0 o)) (r0 m) (r1 m) O01 ltac:(tauto) ltac:(tauto)) X1).
    rewrite (proj1 (OFF (o2 (ro0 o)) (r0 m) (r2 m) O02 ltac:(tauto) ltac:(tauto)) X2).
    rewrite (proj1 (OFF (o0 (ro1 o)) (r1 m) (r0 m) O10 ltac:(tauto) ltac:(tauto)) X3).
    rewrite (proj1 (OFF (o2 (ro1 o)) (r1 m) (r2 m) O12 ltac:(tauto) ltac:(tauto)) X5).
    rewrite (proj1 (OFF (o0 (ro2 o)) (r2 m) (r0 m) O20 ltac:(tauto) ltac:(tauto)) X6).
    rewrite (proj1 (OFF (o1 (ro2 o)) (r2 m) (r1 m) O21 ltac:(tauto) ltac:(tauto)) X7). reflexivity.
  - intro H. apply andb_true_iff in H. destruct H as [H HD]. apply andb_true_iff in H. destruct H as [H X8]. apply andb_true_iff in H. destruct H as [H X7]. apply andb_true_iff in H. destruct H as [H X6]. apply andb_true_iff in H. destruct H as [H X5]. apply andb_true_iff in H. destruct H as [H X4]. apply andb_true_iff in H. destruct H as [H X3]. apply andb_true_iff in H. destruct H as [H X2]. apply andb_true_iff in H. destruct H as [X0 X1].
    assert (Y0 : Rabs (vdot v0 v0 - 1) <= 12 / 10 ^ 7). { apply Rnot_lt_le. intro Z. rewrite R00 in X0 by lra. discriminate. }
    assert (Y4 : Rabs (vdot v1 v1 - 1) <= 12 / 10 ^ 7). { apply Rnot_lt_le. intro Z. rewrite R11 in X4 by lra. discriminate. }
    assert (Y8 : Rabs (vdot v2 v2 - 1) <= 12 / 10 ^ 7). { apply Rnot_lt_le. intro Z. rewrite R22 in X8 by lra. discriminate. }
    destruct (OFF Y0 Y4 Y8) as [OF [FD ED]]. pose proof (DB _ Y0 ltac:(lra) Y4 Y8) as DBB. apply Rabs_both in ED. apply Rabs_both in DBB.
    destruct (DT FD) as [_ DA]. { apply Rabs_le. lra. } specialize (DA HD). apply Rabs_both in DA.
    split.
    + apply EW. repeat split; try assumption.
      * exact (proj2 (OF _ (r0 m) (r1 m) O01 ltac:(tauto) ltac:(tauto)) X1).
      * exact (proj2 (OF _ (r0 m) (r2 m) O02 ltac:(tauto) ltac:(tauto)) X2).
      * exact (proj2 (OF _ (r1 m) (r0 m) O10 ltac:(tauto) ltac:(tauto)) X3).
      * exact (proj2 (OF _ (r1 m) (r2 m) O12 ltac:(tauto) ltac:(tauto)) X5).
      * exact (proj2 (OF _ (r2 m) (r0 m) O20 ltac:(tauto) ltac:(tauto)) X6).
      * exact (proj2 (OF _ (r2 m) (r1 m) O21 ltac:(tauto) ltac:(tauto)) X7).
    + apply Rabs_le. lra.
Qed.

(** ** A quaternion with a subnormal vector part *)
Definition fsmallest (p : prim) : fl p := match p with F32 => fcvt F32 (fdiv (fofZ F64 1) (fofZ F64 (2 ^ 149))) | F64 => fdiv (fdiv (fofZ F64 1) (fofZ F64 (2 ^ 1000))) (fofZ F64 (2 ^ 74)) end.
Lemma fsmallest_val p : is_finite (fsmallest p) = true /\ B2R (fsmallest p) = 2 * eta p.
Proof.
  destruct p; (split; [vm_compute; reflexivity|]).
  - rewrite (B2R_of_SF F32 (fsmallest F32) false 1 (-149)) by (vm_compute; reflexivity). unfold F2R, eta, femin; cbn [Fnum Fexp SpecFloat.cond_Zopp fprec femax]. change (3 - 128 - 24)%Z with (-149)%Z. lra.
  - rewrite (B2R_of_SF F64 (fsmallest F64) false 1 (-1074)) by (vm_compute; reflexivity). unfold F2R, eta, femin; cbn [Fnum Fexp SpecFloat.cond_Zopp fprec femax]. change (3 - 1024 - 53)%Z with (-1074)%Z. lra.
Qed.
Lemma fdiv_self p (x y : fl p) : is_finite x = true -> B2R y <> 0 -> B2R x = B2R y -> is_finite (fdiv x y) = true /\ B2R (fdiv x y) = 1.
Proof.
  intros F N E. destruct (fdiv_R p x y F N) as [R Fd].
  { rewrite E. unfold Rdiv. rewrite Rinv_r, Rabs_R1 by exact N. apply Rle_trans with (bpow radix2 100); [change 1 with (bpow radix2 0); apply bpow_le; lia|apply bpow100_fbig]. }
  split; [exact Fd|]. rewrite R, E. unfold Rdiv. rewrite Rinv_r by exact N. destruct (fofZ1 p) as [_ V1]. rewrite <- V1. apply rnd_id, fmt_B2R.
Qed.
Lemma fdiv_zero p (y : fl p) : B2R y <> 0 -> is_finite (fdiv fzero y) = true /\ B2R (fdiv fzero y) = 0.
Proof.
  intros N. destruct (fdiv_R p fzero y eq_refl N) as [R Fd].
  { change (B2R (@fzero p)) with 0. unfold Rdiv. rewrite Rmult_0_l, Rabs_R0. apply bpow_ge_0. }
  split; [exact Fd|]. rewrite R. change (B2R (@fzero p)) with 0. unfold Rdiv. rewrite Rmult_0_l. apply rnd_0.
Qed.
Definition tiny_quat (p : prim) : FQ p := mkFQ (fofZ p 1) (fsmallest p) (fsmallest p) fzero.
Lemma tiny_throws p L c (q : FQ p) : libm_ok L -> choices6_ok c -> qfinite q -> B2R (fw q) = 1 -> B2R (fx q) = 2 * eta p -> B2R (fy q) = 2 * eta p -> B2R (fz q) = 0 ->
  exists n, d_convert L c (KSrc SAA) (OQuat q) = BadAxis n /\ tiny_axis L n.
Proof.
  intros HL HC (Fw & Fx & Fy & Fz) EW EX EY EZ. pose proof HC as ((_ & HX & _) & _). pose proof HX as (HXN & _).
  pose proof (eta_pos p) as P. pose proof (fu_pos p) as U. pose proof (fu_24 p) as V. pose proof (eta5_u p) as T5.
  set (b := ch_ext (c6_src c)) in *. set (v := fvec q). assert (Fv : vfinite v) by (repeat split; assumption).
  assert (N2 : vnorm (vval v) * vnorm (vval v) = 8 * (eta p * eta p)).
  { rewrite vnorm_sqr. unfold vnorm2, vdot, vval, v, fvec; cbn [Linalg.vx Linalg.vy Linalg.vz gx gy gz]. rewrite EX, EY, EZ. ring. }
  pose proof (vn_nonneg (vval v)) as N0. set (N := vnorm (vval v)) in *. 
  assert (NA : 282 / 100 * eta p <= N). { apply Rnot_lt_le. intro X. assert (N * N <= 282 / 100 * eta p * (282 / 100 * eta p)) by (apply Rmult_le_compat; lra). assert (0 < eta p * eta p) by (apply Rmult_lt_0_compat; lra). lra. }
  assert (NB : N <= 283 / 100 * eta p). { apply Rnot_lt_le. intro X. assert (283 / 100 * eta p * (283 / 100 * eta p) <= N * N) by (apply Rmult_le_compat; lra). assert (0 < eta p * eta p) by (apply Rmult_lt_0_compat; lra). lra. }
  destruct (faa_norm_err p L b v HL HXN Fv) as (Fn & E & _). { fold N. lra. } fold N in E. set (n := faa_norm L b v) in *.
  assert (UN : 0 <= fu p * N <= / 16777216 * N) by (split; [apply Rmult_le_pos|apply Rmult_le_compat_r]; lra). apply Rabs_both in E.
  destruct (multiple_smallest p n) as [m M].
  assert (M1 : m = 1%Z).
  { assert (0 < m < 2)%Z; [|lia]. split; apply lt_IZR; apply Rmult_lt_reg_r with (2 * eta p); lra. }
  rewrite M1, Rmult_1_l in M. assert (Nz : B2R n <> 0) by lra.
  destruct (fdiv_self p (fx q) n Fx Nz) as [Fqx Vqx]; [lra|]. destruct (fdiv_self p (fy q) n Fy Nz) as [Fqy Vqy]; [lra|].
  assert (DZ : is_finite (fdiv (fz q) n) = true /\ B2R (fdiv (fz q) n) = 0).
  { destruct (fdiv_R p (fz q) n Fz Nz) as [R Fd]. { rewrite EZ. unfold Rdiv. rewrite Rmult_0_l, Rabs_R0. apply bpow_ge_0. } split; [exact Fd|]. rewrite R, EZ. unfold Rdiv. rewrite Rmult_0_l. apply rnd_0. }
  destruct DZ as [Fqz Vqz].
  set (a := fvdiv Quotient v n). assert (VA : vval a = mkV3 1 1 0). { unfold vval, a, fvdiv, v, fvec; cbn [gx gy gz fscale_down]. now rewrite Vqx, Vqy, Vqz. }
  assert (AN : vnorm (vval a) * vnorm (vval a) = 2) by (rewrite vnorm_sqr, VA; unfold vnorm2, vdot; cbn [Linalg.vx Linalg.vy Linalg.vz]; ring). pose proof (vn_nonneg (vval a)) as A0.
  assert (A1 : 14 / 10 <= vnorm (vval a)). { apply Rnot_lt_le. intro X. assert (vnorm (vval a) * vnorm (vval a) <= 14 / 10 * (14 / 10)) by (apply Rmult_le_compat; lra). lra. }
  assert (A2 : vnorm (vval a) <= 15 / 10). { apply Rnot_lt_le. intro X. assert (15 / 10 * (15 / 10) <= vnorm (vval a) * vnorm (vval a)) by (apply Rmult_le_compat; lra). lra. }
  assert (AA : exists ang, faa_of_quat L b q = SrcAA ang a).
  { unfold faa_of_quat. fold v. change (faa_norm L b v) with n. rewrite (feq_R p n fzero Fn eq_refl). rewrite Req_bool_false by (change (B2R (@fzero p)) with 0; exact Nz).
    rewrite (flt_R p (fw q) fzero Fw eq_refl). rewrite Rlt_bool_false by (rewrite EW; change (B2R (@fzero p)) with 0; lra). eexists; reflexivity. }
  destruct AA as [ang AA]. exists a. split.
  - cbn [d_convert d_aa oquat]. fold b. rewrite AA. cbn [dchk_a dmap dbind]. fold b. destruct (faxis_assert_spec p (x_norm b) a HXN) as [_ R].
    { repeat split; unfold a, fvdiv, v, fvec; cbn [gx gy gz fscale_down]; assumption. }
    { split; [apply Rle_trans with 1; [change 1 with (bpow radix2 0); apply bpow_le; lia|lra]|apply Rle_trans with (bpow radix2 1); [change (bpow radix2 1) with 2; lra|apply bpow_le; lia]]. }
    rewrite R; [reflexivity|]. rewrite Rabs_pos_eq by lra. lra.
  - exists b, q, ang, a. split; [exact HX|]. split; [repeat split; assumption|]. split; [exact AA|]. split; [|now left]. fold v. fold N. split; [lra|].
    unfold tiny_length. rewrite half_smallest_eta, roundoff_fu. apply Rlt_le_trans with (1024 * eta p * 1); [lra|]. unfold Rdiv. apply Rmult_le_compat_l; [lra|]. rewrite <- Rinv_1. apply Rinv_le; lra.
Qed.
