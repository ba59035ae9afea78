(** * FloatXcast: conversion of rotation objects between float and double. *)
From Coq Require Import ZArith Reals Lra Psatz Bool List Lia.
From Flocq Require Import IEEE754.BinarySingleNaN Core.Core.
From Verif Require Import Linalg Spec SpecFacts SpecClose ModelCommon ModelEigen CommonFacts ModelRotation ConvFacts RotFacts CloseFacts RVFacts EulerNear PiBounds
  FloatModel FloatFacts FloatModel2 SpecFloatQ FloatQFacts FloatQProd FloatQHist FloatQRot FloatMHist FloatCast FloatWrap FloatModel3 SpecLibm SpecBuild FloatBuild FloatBuild2 FloatBuild3 FloatBuild4 FloatModel4 FloatExt FloatExt2 FloatExt3 FloatExt4 SpecExt Claims18 FloatExt5 FloatExt6 FloatModel5 FloatModel6 FloatMat FloatModel7 SpecSix FloatSix FloatUnique RandomFacts FloatModel21 SpecXcast.
Import ListNotations.
Local Open Scope R_scope.

(** ** One number *)
Lemma narrows_01 p q : 0 <= narrows p q <= 1. Proof. destruct p, q; cbn; lra. Qed.
Lemma cvt_err p q (a : fl p) : is_finite a = true -> Rabs (B2R a) <= bpow radix2 100 ->
  is_finite (fcvt q a) = true /\ Rabs (B2R (fcvt q a) - B2R a) <= narrows p q * fu q * Rabs (B2R a) + narrows p q * eta q.
Proof.
  intros F H. assert (X : p = F64 /\ q = F32 \/ (q = F64 \/ p = q) /\ narrows p q = 0).
  { destruct p, q; cbn; tauto. }
  destruct X as [[-> ->]|[X N]].
  - destruct (fcvt_R F64 F32 a F) as [E G]; [pose proof (bpow100_fbig F32); lra|]. split; [exact G|]. rewrite E. cbn [narrows]. rewrite !Rmult_1_l. apply rnd_err_le.
  - rewrite N, !Rmult_0_l, Rplus_0_l. destruct X as [X|X].
    + subst q. rewrite widen_val, widen_fin. split; [exact F|]. rewrite Rminus_diag_eq, Rabs_R0 by reflexivity. lra.
    + subst q. destruct (fcvt_R p p a F) as [E G]; [pose proof (bpow100_fbig p); lra|]. split; [exact G|]. rewrite E, rnd_id by apply fmt_B2R.
      rewrite Rminus_diag_eq, Rabs_R0 by reflexivity. lra.
Qed.
Lemma small_100 : 10 <= bpow radix2 100.
Proof. apply Rle_trans with (bpow radix2 4); [cbn; lra|apply bpow_le; lia]. Qed.
Lemma vcast_err p q (v : FV p) : vfinite v -> vnorm (vval v) <= 10 ->
  vfinite (fvcast q v) /\ vdist (vval (fvcast q v)) (vval v) <= narrows p q * (fu q * vnorm (vval v) + / 100 * fu q).
Proof.
  intros (Fx & Fy & Fz) N. destruct (vcomp_le (vval v)) as (Cx & Cy & Cz). cbn [vval Linalg.vx Linalg.vy Linalg.vz] in Cx, Cy, Cz. pose proof small_100 as B.
  destruct (cvt_err p q _ Fx ltac:(lra)) as [Gx Ex]. destruct (cvt_err p q _ Fy ltac:(lra)) as [Gy Ey]. destruct (cvt_err p q _ Fz ltac:(lra)) as [Gz Ez].
  split; [repeat split; assumption|]. pose proof (narrows_01 p q) as W. pose proof (fu_pos q) as U. pose proof (eta_pos q) as P. pose proof (eta_u7 q) as T7.
  assert (0 <= narrows p q * fu q) by (apply Rmult_le_pos; lra). assert (0 <= narrows p q * eta q) by (apply Rmult_le_pos; lra).
  eapply Rle_trans; [apply (vec_rel_err _ _ (narrows p q * fu q) (narrows p q * eta q)); assumption|].
  assert (7/4 * (narrows p q * eta q) <= narrows p q * (/ 100 * fu q)); [|lra].
  replace (7/4 * (narrows p q * eta q)) with (narrows p q * (7/4 * eta q)) by ring. apply Rmult_le_compat_l; lra.
Qed.
Lemma qcast_err p q (a : FQ p) : qfinite a -> qnorm (qval a) <= 10 ->
  qfinite (fqcast q a) /\ qdist (qval (fqcast q a)) (qval a) <= narrows p q * (fu q * qnorm (qval a) + / 100 * fu q).
Proof.
  intros (Fw & Fx & Fy & Fz) N. destruct (comp_le_norm (qval a)) as (Cw & Cx & Cy & Cz). cbn [qval qw qx qy qz] in Cw, Cx, Cy, Cz. pose proof small_100 as B.
  destruct (cvt_err p q _ Fw ltac:(lra)) as [Gw Ew]. destruct (cvt_err p q _ Fx ltac:(lra)) as [Gx Ex]. destruct (cvt_err p q _ Fy ltac:(lra)) as [Gy Ey]. destruct (cvt_err p q _ Fz ltac:(lra)) as [Gz Ez].
  split; [repeat split; assumption|]. pose proof (narrows_01 p q) as W. pose proof (fu_pos q) as U. pose proof (eta_pos q) as P. pose proof (eta_u7 q) as T7.
  assert (0 <= narrows p q * fu q) by (apply Rmult_le_pos; lra). assert (0 <= narrows p q * eta q) by (apply Rmult_le_pos; lra). unfold qdist.
  eapply Rle_trans; [apply (qnorm_mixed _ (qval a) (narrows p q * fu q) (narrows p q * eta q)); assumption|].
  assert (2 * (narrows p q * eta q) <= narrows p q * (/ 100 * fu q)); [|lra].
  replace (2 * (narrows p q * eta q)) with (narrows p q * (2 * eta q)) by ring. apply Rmult_le_compat_l; lra.
Qed.

(** ** Conversion to double and back *)
Lemma fvcast_back p (v : FV p) : fvcast p (fvcast F64 v) = v.
Proof. destruct v. unfold fvcast; cbn [FloatModel2.gx FloatModel2.gy FloatModel2.gz]. now rewrite !fcvt_back. Qed.
Lemma ocast_back p (x : fobject p) : ocast p (ocast F64 x) = x.
Proof.
  destruct x as [a|[m0 m1 m2]|[a n|v|z y x|x y z]]; cbn [ocast fscast]; f_equal; try apply fqcast_back; unfold fmcast; cbn [r0 r1 r2]; rewrite ?fcvt_back, ?fvcast_back; reflexivity.
Qed.

(** ** Conversion of an object *)
Lemma ratio_fu p q A : A * ratio p q * fu q = A * fu p.
Proof. unfold ratio. rewrite !roundoff_fu. pose proof (fu_pos q). field. lra. Qed.
Lemma okind_cast p q (x : fobject p) : okind_of (ocast q x) = okind_of x. Proof. destruct x as [|?|[]]; reflexivity. Qed.

Lemma cast_quat p q T A (a : FQ p) r : stands T A (OQuat a) r -> A * fu p <= / 50 ->
  exists r', stands T (cast_defect p q KQuat A) (OQuat (fqcast q a)) r' /\ close (narrows p q * (5/2) * fu q) r' r.
Proof.
  intros (F & N & R) S. rewrite roundoff_fu in N. pose proof (fu_pos q) as U. pose proof (fu_24 q) as V. pose proof (narrows_01 p q) as W. pose proof (Rabs_both _ _ N) as B.
  set (n := narrows p q) in *. destruct (unit_near p a A F N S) as (P1 & P2 & P3).
  destruct (qcast_err p q a F ltac:(lra)) as [G D]. fold n in D.
  assert (D' : qdist (qval (fqcast q a)) (qval a) <= n * (104/100 * fu q)). { eapply Rle_trans; [exact D|]. apply Rmult_le_compat_l; [lra|]. assert (fu q * qnorm (qval a) <= fu q * (103/100)) by (apply Rmult_le_compat_l; lra). lra. }
  assert (NU : 0 <= n * fu q <= fu q). { split; [apply Rmult_le_pos; lra|]. rewrite <- (Rmult_1_l (fu q)) at 2. apply Rmult_le_compat_r; lra. }
  pose proof (qdist_norm (qval (fqcast q a)) (qval a)) as DN. pose proof (Rabs_both _ _ DN) as DB.
  assert (PP : 97/100 <= qnorm (qval (fqcast q a))) by lra.
  exists (quat_rot (direction (qval (fqcast q a)))). split.
  - split; [exact G|]. split; [|reflexivity]. rewrite roundoff_fu. unfold cast_defect. fold n. rewrite Rmult_plus_distr_r, ratio_fu.
    eapply Rle_trans; [eapply Rabs_tri3; [exact DN|exact N]|]. lra.
  - rewrite <- R. eapply close_mono; [|apply (from_qdist _ _ (n * (104/100 * fu q) / (95/100))); [apply direction_norm; lra|apply direction_norm; lra|]]; [lra|].
    pose proof (direction_dist (qval (fqcast q a)) (qval a) (95/100) ltac:(lra) ltac:(lra) ltac:(lra)) as X. unfold Rdiv in *. lra.
Qed.
Lemma cast_mat p q T A (m : FM p) r : stands T A (OMat m) r -> A * fu p <= / 50 -> stands T (cast_defect p q KMat A) (OMat (fmcast q m)) r.
Proof.
  intros ((F0 & F1 & F2) & SR & C) LIM. rewrite roundoff_fu in C. pose proof (fu_pos q) as U. pose proof (narrows_01 p q) as W. set (n := narrows p q) in *.
  destruct (close_rows_bound _ _ _ SR C) as (N0 & N1 & N2).
  change (vrow0 (mval m)) with (vval (r0 m)) in N0. change (vrow1 (mval m)) with (vval (r1 m)) in N1. change (vrow2 (mval m)) with (vval (r2 m)) in N2.
  assert (G : forall v : FV p, vfinite v -> vnorm (vval v) <= 1 + A * fu p -> vfinite (fvcast q v) /\ vdist (vval (fvcast q v)) (vval v) <= n * (104/100 * fu q)).
  { intros v F N. destruct (vcast_err p q v F ltac:(lra)) as [G D]. split; [exact G|]. eapply Rle_trans; [exact D|]. fold n. apply Rmult_le_compat_l; [lra|].
    assert (fu q * vnorm (vval v) <= fu q * (103/100)) by (apply Rmult_le_compat_l; lra). lra. }
  destruct (G _ F0 N0) as [G0 D0]. destruct (G _ F1 N1) as [G1 D1]. destruct (G _ F2 N2) as [G2 D2].
  split; [repeat split; first [apply G0|apply G1|apply G2]|]. split; [exact SR|]. rewrite roundoff_fu. unfold cast_defect. fold n. rewrite Rmult_plus_distr_r, ratio_fu.
  assert (NU : 0 <= n * fu q) by (apply Rmult_le_pos; lra).
  rewrite Rplus_comm. eapply close_trans; [|exact C]. eapply close_mono; [|apply (close_rows (n * (104/100 * fu q))); [exact D0|exact D1|exact D2]]. lra.
Qed.
Lemma cast_aa p q T (a : fl p) n : T <= 7 -> object_ok T (SrcAA a n) -> axis_legal q (OSrc (SrcAA a n)) ->
  object_ok (T + 8 * fu q) (SrcAA (fcvt q a) (fvcast q n)) /\ close (narrows p q * (Rabs (B2R a) + 5/2) * fu q) (turns (SrcAA (fcvt q a) (fvcast q n))) (turns (SrcAA a n)).
Proof.
  intros HT (Fa & Fn & Ha & AO) AL. pose proof (fu_pos q) as U. pose proof (fu_24 q) as V. pose proof (fu_24 p) as Vp. pose proof (narrows_01 p q) as W. pose proof (eta_u7 q) as T7. pose proof (eta_pos q) as E.
  set (w := narrows p q) in *. cbn [axis_legal] in AL. rewrite !roundoff_fu in AL. pose proof (Rabs_pos (B2R a)) as A0.
  assert (NB : 1/2 <= vnorm (vval n) <= 5/2). { destruct AL as [K|[_ K]]; [apply Rabs_both in K; lra|lra]. }
  destruct (cvt_err p q a Fa) as [Ga Ea]; [pose proof small_100; lra|]. destruct (vcast_err p q n Fn ltac:(lra)) as [Gn En]. fold w in Ea, En.
  assert (WU : 0 <= w * fu q <= fu q). { split; [apply Rmult_le_pos; lra|]. rewrite <- (Rmult_1_l (fu q)) at 2. apply Rmult_le_compat_r; lra. }
  assert (WE : 0 <= w * eta q <= / 5000 * (w * fu q)). { split; [apply Rmult_le_pos; lra|]. replace (/ 5000 * (w * fu q)) with (w * (/ 5000 * fu q)) by ring. apply Rmult_le_compat_l; lra. }
  assert (EA : Rabs (B2R (fcvt q a) - B2R a) <= w * fu q * (Rabs (B2R a) + / 100)) by lra.
  assert (EA8 : Rabs (B2R (fcvt q a) - B2R a) <= 8 * fu q). { eapply Rle_trans; [exact EA|]. apply Rle_trans with (fu q * (7 + / 100)); [apply Rmult_le_compat; lra|lra]. }
  assert (EN : vdist (vval (fvcast q n)) (vval n) <= w * fu q * (vnorm (vval n) + / 100)) by lra.
  pose proof (vnorm_diff (vval (fvcast q n)) (vval n)) as DN. pose proof (Rabs_both _ _ DN) as DB.
  assert (EN3 : vdist (vval (fvcast q n)) (vval n) <= w * fu q * (251/100)). { eapply Rle_trans; [exact EN|]. apply Rmult_le_compat_l; lra. }
  assert (AO' : axis_ok (fcvt q a) (fvcast q n)).
  { unfold axis_ok. rewrite !roundoff_fu. destruct AL as [K|[K1 K2]].
    - left. apply Rabs_both in K. assert (w * fu q * (vnorm (vval n) + / 100) <= fu q * (103/100)) by (apply Rmult_le_compat; lra). apply Rabs_le. lra.
    - right. assert (w * fu q * (Rabs (B2R a) + / 100) <= fu q * (/ 10)) by (apply Rmult_le_compat; lra). split; [|lra].
      pose proof (Rabs_triang (B2R (fcvt q a) - B2R a) (B2R a)) as TR. replace (B2R (fcvt q a) - B2R a + B2R a) with (B2R (fcvt q a)) in TR by ring. lra. }
  split.
  - cbn [object_ok]. split; [exact Ga|]. split; [exact Gn|]. split; [|exact AO'].
    pose proof (Rabs_triang (B2R (fcvt q a) - B2R a) (B2R a)) as TR. replace (B2R (fcvt q a) - B2R a + B2R a) with (B2R (fcvt q a)) in TR by ring. lra.
  - pose proof (axis_pos _ _ _ AO) as P1. pose proof (axis_pos _ _ _ AO') as P2. rewrite !turns_aa by assumption.
    set (e' := vscale (/ vnorm (vval (fvcast q n))) (vval (fvcast q n))). set (e := vscale (/ vnorm (vval n)) (vval n)).
    assert (U1 : vnorm2 e' = 1) by (apply vdir_unit, P2). assert (U0 : vnorm2 e = 1) by (apply vdir_unit, P1).
    assert (DE : vdist e' e <= w * fu q * (104/100)).
    { set (N := vnorm (vval n)) in *. eapply Rle_trans; [apply (vdir_dist _ _ (N * (99/100))); fold N; lra|].
      assert (HN : 0 < N * (99/100)) by lra. apply Rmult_le_reg_r with (1 := HN). unfold Rdiv. rewrite Rmult_assoc, Rinv_l, Rmult_1_r by lra.
      eapply Rle_trans; [exact EN|]. apply Rle_trans with (w * fu q * (10296/10000 * N)); [apply Rmult_le_compat_l; lra|right; field]. }
    eapply close_mono; [|apply (from_qdist _ _ (w * fu q * ((Rabs (B2R a) + / 100) / 2 + 104/100))); [apply half_quat_qnorm, U1|apply half_quat_qnorm, U0|]].
    + replace (w * (Rabs (B2R a) + 5/2) * fu q) with (w * fu q * (Rabs (B2R a) + 5/2)) by ring. rewrite <- Rmult_assoc, (Rmult_comm 2), Rmult_assoc. apply Rmult_le_compat_l; lra.
    + eapply Rle_trans; [apply (qdist_triang _ (half_quat (B2R (fcvt q a)) e))|].
      pose proof (half_quat_axis (B2R (fcvt q a)) e' e) as H1. pose proof (half_quat_angle (B2R (fcvt q a)) (B2R a) e U0) as H2.
      assert (Rabs (sin (B2R (fcvt q a) / 2)) <= 1) by (apply Rabs_le, SIN_bound).
      assert (0 <= vdist e' e) by apply vn_nonneg.
      assert (Rabs (sin (B2R (fcvt q a) / 2)) * vdist e' e <= 1 * vdist e' e) by (apply Rmult_le_compat_r; lra). lra.
Qed.
Lemma cast_rv p q T (v : FV p) : T <= 7 -> object_ok T (SrcRv v) ->
  object_ok (T + 8 * fu q) (SrcRv (fvcast q v)) /\ close (narrows p q * (vnorm (vval v) + / 100) * fu q) (turns (SrcRv (fvcast q v))) (turns (SrcRv v)).
Proof.
  intros HT (Fv & Nv). pose proof (fu_pos q) as U. pose proof (narrows_01 p q) as W. destruct (vcast_err p q v Fv ltac:(lra)) as [G D]. set (w := narrows p q) in *.
  assert (D' : vdist (vval (fvcast q v)) (vval v) <= w * fu q * (vnorm (vval v) + / 100)) by lra. pose proof (vn_nonneg (vval v)) as N0.
  split.
  - split; [exact G|]. pose proof (vnorm_diff (vval (fvcast q v)) (vval v)) as DN. apply Rabs_both in DN.
    assert (w * fu q * (vnorm (vval v) + / 100) <= 1 * fu q * (7 + / 100)) by (apply Rmult_le_compat; [apply Rmult_le_pos; lra|lra|apply Rmult_le_compat_r; lra|lra]). lra.
  - unfold turns; cbn [source_value meaning]. eapply close_mono; [|apply vec_rot_lipschitz]. fold (vdist (vval (fvcast q v)) (vval v)). lra.
Qed.
Lemma cast_euler p q (a b c : fl p) : is_finite a = true /\ is_finite b = true /\ is_finite c = true -> Rabs (B2R a) <= 2 ^ 100 /\ Rabs (B2R b) <= 2 ^ 100 /\ Rabs (B2R c) <= 2 ^ 100 ->
  (is_finite (fcvt q a) = true /\ is_finite (fcvt q b) = true /\ is_finite (fcvt q c) = true) /\
  (let E := narrows p q * (Rabs (B2R a) + Rabs (B2R b) + Rabs (B2R c) + / 100) * fu q in
   close E (zyx_rot (mkZyx (B2R (fcvt q a)) (B2R (fcvt q b)) (B2R (fcvt q c)))) (zyx_rot (mkZyx (B2R a) (B2R b) (B2R c))) /\
   close E (xyz_rot (mkXyz (B2R (fcvt q a)) (B2R (fcvt q b)) (B2R (fcvt q c)))) (xyz_rot (mkXyz (B2R a) (B2R b) (B2R c)))).
Proof.
  intros (Fa & Fb & Fc) (Ha & Hb & Hc). assert (X : 2 ^ 100 = bpow radix2 100). { rewrite <- (IZR_Zpower radix2 100) by lia. rewrite pow_IZR. apply f_equal. reflexivity. }
  rewrite X in *. destruct (cvt_err p q a Fa Ha) as [Ga Ea]. destruct (cvt_err p q b Fb Hb) as [Gb Eb]. destruct (cvt_err p q c Fc Hc) as [Gc Ec].
  split; [tauto|]. intro E. pose proof (fu_pos q) as U. pose proof (narrows_01 p q) as W. pose proof (eta_u7 q) as T7. set (w := narrows p q) in *.
  assert (WE : w * eta q <= w * (/ 5000 * fu q)) by (apply Rmult_le_compat_l; lra). assert (WU : 0 <= w * fu q) by (apply Rmult_le_pos; lra).
  assert (S : (w * fu q * Rabs (B2R a) + w * eta q) + (w * fu q * Rabs (B2R b) + w * eta q) + (w * fu q * Rabs (B2R c) + w * eta q) <= E) by (unfold E; lra).
  split; eapply close_mono; [exact S|apply zyx_close; assumption|exact S|apply xyz_close; assumption].
Qed.

(** every class *)
Lemma ocast_ok p q T A (x : fobject p) r : T <= 7 -> stands T A x r -> A * fu p <= / 50 -> moderate x -> axis_legal q x ->
  exists r', stands (T + 8 * fu q) (cast_defect p q (okind_of x) A) (ocast q x) r' /\ close (cast_roundings q x * fu q) r' r.
Proof.
  intros HT H LIM MO AL. pose proof (fu_pos q) as U. destruct x as [a|m|[a n|v|a b c|a b c]]; unfold cast_roundings; cbn [okind_of ocast fscast skind_of].
  - destruct (cast_quat p q T A a r H LIM) as (r' & X & Y). exists r'. split; [|exact Y]. apply (stands_T _ T); [lra|exact X].
  - exists r. split; [|apply close_refl; lra]. apply (stands_T _ T); [lra|]. now apply cast_mat.
  - destruct H as (O & <-). destruct (cast_aa p q T a n HT O AL) as [X Y]. eexists. split; [split; [exact X|reflexivity]|exact Y].
  - destruct H as (O & <-). destruct (cast_rv p q T v HT O) as [X Y]. eexists. split; [split; [exact X|reflexivity]|exact Y].
  - destruct H as (O & <-). destruct (cast_euler p q a b c O MO) as (X & Y & _). eexists. split; [split; [exact X|reflexivity]|exact Y].
  - destruct H as (O & <-). destruct (cast_euler p q a b c O MO) as (X & _ & Y). eexists. split; [split; [exact X|reflexivity]|exact Y].
Qed.

(** ** RotationQuaternion from RotationVector, with any value for the norm *)
Lemma rv_conclude_d u d e V : 0 < u -> 0 <= V -> 0 <= d -> 0 <= e ->
  e * e <= ((3 + / 20) * u + d * V / 2) * ((3 + / 20) * u + d * V / 2)
         + ((4 + / 5) * u + d * V + (1 + / 20) * u) * ((4 + / 5) * u + d * V + (1 + / 20) * u) ->
  e <= 7 * u + 5/4 * d * V.
Proof.
  intros U HV Hd He H. assert (D : 0 <= d * V) by (apply Rmult_le_pos; lra). replace (5/4 * d * V) with (5/4 * (d * V)) by ring. set (x := d * V) in *. clearbody x.
  apply sq_le_le; [lra|]. eapply Rle_trans; [exact H|].
  assert (0 <= u * u) by (apply Rmult_le_pos; lra). assert (0 <= u * x) by (apply Rmult_le_pos; lra). assert (0 <= x * x) by (apply Rmult_le_pos; lra).
  lra.
Qed.
Lemma rv_rest_err p L t2 (theta : fl p) (v : FV p) d : libm_ok L -> order 2 t2 -> is_finite theta = true -> vfinite v -> vnorm (vval v) <= bpow radix2 50 -> 0 <= d <= / 2000 ->
  (vnorm (vval v) <= bpow radix2 (-40) /\ 0 <= B2R theta <= bpow radix2 (-38) \/ bpow radix2 (-40) <= vnorm (vval v) /\ Rabs (B2R theta - vnorm (vval v)) <= d * vnorm (vval v)) ->
  qfinite (frv_quat_rest L t2 theta v) /\ qdist (qval (frv_quat_rest L t2 theta v)) (rv_quat (vval v)) <= 7 * fu p + 5/4 * d * vnorm (vval v).
Proof.
  intros HL O2 Ft Fv HV Hd CASE. pose proof (fu_pos p) as U. pose proof (fu_24 p) as V24. pose proof (fu_53 p) as V53.
  set (V := vnorm (vval v)) in *. assert (V0 : 0 <= V) by apply vn_nonneg.
  destruct (eps4_bounds L p HL) as (Fe & (E1 & E2) & E4). set (E := B2R (leps4 L p)) in *.
  pose proof (bpow_gt_0 radix2 (-14)) as B14. pose proof (bpow_gt_0 radix2 (-40)) as B40.
  destruct CASE as [(S1 & T0 & T1)|(S1 & Et)].
  -
    assert (TL : B2R (theta) < E) by (eapply Rle_lt_trans; [exact T1|]; eapply Rle_lt_trans; [|exact E1]; apply bpow_le; lia).
    destruct (rv_real p L (theta) HL Ft) as [Fc Ec]. destruct (rv_na_small p t2 (theta) O2 Ft ltac:(lra)) as [Fn En].
    unfold frv_quat_rest. rewrite (flt_R p (theta) (leps4 L p) Ft Fe). fold E. rewrite Rlt_bool_true by exact TL.
    set (T := B2R (theta)) in *.
    assert (B38 : bpow radix2 (-38) * bpow radix2 (-38) = bpow radix2 (-23) * bpow radix2 (-53)) by (rewrite <- !bpow_plus; reflexivity).
    assert (B23 : bpow radix2 (-23) <= / 1000000) by (cbn; lra).
    assert (T2 : T * T <= / 1000000 * fu p).
    { apply Rle_trans with (bpow radix2 (-38) * bpow radix2 (-38)); [nra|]. rewrite B38. apply Rmult_le_compat; try lra; apply bpow_ge_0. }
    assert (VS : V <= bpow radix2 (-38)) by (apply Rle_trans with (1 := S1); apply bpow_le; lia).
    assert (V2 : V * V <= / 1000000 * fu p).
    { apply Rle_trans with (bpow radix2 (-38) * bpow radix2 (-38)); [nra|]. rewrite B38. apply Rmult_le_compat; try lra; apply bpow_ge_0. }
    assert (VE : V <= / 1000) by (apply Rle_trans with (1 := VS); apply Rle_trans with (bpow radix2 (-23)); [apply bpow_le; lia|lra]).
    pose proof (one_minus_cos (T / 2)) as C1. pose proof (one_minus_cos (V / 2)) as C2. pose proof (COS_bound (T / 2)) as C3. pose proof (COS_bound (V / 2)) as C4.
    assert (CC : Rabs (cos (T / 2) - cos (V / 2)) <= / 1000 * fu p) by (apply Rabs_le; lra).
    assert (SS : V * Rabs (/ 2 - rv_sinc (vval v)) <= / 1000 * fu p).
    { unfold rv_sinc. fold V. destruct (Req_EM_T V 0) as [->|NV]; [rewrite Rmult_0_l; lra|].
      rewrite <- (Rabs_pos_eq V) at 1 by lra. rewrite <- Rabs_mult. replace (V * (/ 2 - sin (V / 2) / V)) with (V / 2 - sin (V / 2)) by (field; exact NV).
      assert (R : 0 <= V / 2 <= PI) by (pose proof PI2_1; lra). pose proof (sin_lo _ R) as X1. pose proof (sin_le_self (V / 2) ltac:(lra)) as X2.
      assert (X3 : (V / 2) ^ 3 / 6 = V * V * (V / 48)) by field. assert (V * V * (V / 48) <= / 1000000 * fu p * 1) by (apply Rmult_le_compat; nra).
      apply Rabs_le. lra. }
    assert (NN : V * Rabs (B2R (fdot t2 [fofZ p 1; fneg (fmul (theta) (theta))] [fhalf p; flit p 1 48]) - rv_sinc (vval v)) <= / 100 * fu p).
    { apply Rle_trans with (V * ((1 + / 20) * fu p + (T * T / 48 + Rabs (/ 2 - rv_sinc (vval v))))).
      - apply Rmult_le_compat_l; [exact V0|]. eapply Rabs_tri3; [exact En|]. eapply Rabs_tri3; [|apply Rle_refl].
        replace (/ 2 - T * T / 48 - / 2) with (- (T * T / 48)) by ring. rewrite Rabs_Ropp, Rabs_pos_eq; [lra|]. nra.
      - assert (V * ((1 + / 20) * fu p) <= / 1000 * ((1 + / 20) * fu p)) by (apply Rmult_le_compat_r; lra).
        assert (V * (T * T / 48) <= / 1000 * (/ 1000000 * fu p)) by (apply Rmult_le_compat; try lra; nra). lra. }
    set (na := fdot t2 [fofZ p 1; fneg (fmul (theta) (theta))] [fhalf p; flit p 1 48]) in *.
    destruct (rv_assemble p _ na v ((3 + / 20) * fu p + d * V / 2) ((4 + / 5) * fu p + d * V) Fc Fn Fv) as [Fq Dq].
    + assert (0 <= d * V) by (apply Rmult_le_pos; lra). lra.
    + assert (0 <= d * V) by (apply Rmult_le_pos; lra). lra.
    + fold V. eapply Rle_trans; [eapply Rabs_tri3; [exact Ec|exact CC]|]. assert (0 <= d * V) by (apply Rmult_le_pos; lra). lra.
    + fold V. eapply Rle_trans; [exact NN|]. assert (0 <= d * V) by (apply Rmult_le_pos; lra). lra.
    + fold V. apply Rle_trans with (/ 1000 * 1); [|lra]. apply Rmult_le_compat; try lra; [apply Rabs_pos|]. apply Rabs_both in En.
      assert (0 <= T * T) by nra. apply Rabs_le. lra.
    + split; [exact Fq|]. apply (rv_conclude_d (fu p)); [exact U|exact V0|apply Hd|apply qdist_nonneg|]. exact Dq.
  - fold V in Et.
    assert (UV : 0 <= d * V <= / 2000 * V) by (split; [apply Rmult_le_pos; lra|apply Rmult_le_compat_r; lra]). apply Rabs_both in Et as Et'.
    destruct (rv_real p L (theta) HL Ft) as [Fc Ec].
    unfold frv_quat_rest. rewrite (flt_R p (theta) (leps4 L p) Ft Fe). fold E.
    set (T := B2R (theta)) in *. assert (VP : 0 < V) by lra. assert (TP : 0 < T) by lra.
    assert (CC : Rabs (cos (T / 2) - cos (V / 2)) <= d * V / 2).
    { eapply Rle_trans; [apply cos_lipschitz|]. replace (T / 2 - V / 2) with ((T - V) * / 2) by field. rewrite Rabs_mult, (Rabs_pos_eq (/ 2)) by lra. lra. }
    assert (EC : Rabs (B2R (fcvt p (lcos L F64 (fmul (fcvt F64 (theta)) (fhalf F64)))) - cos (V / 2)) <= (3 + / 20) * fu p + d * V / 2).
    { eapply Rle_trans; [eapply Rabs_tri3; [exact Ec|exact CC]|]. lra. }
    pose proof (sinc_close V T VP TP) as SC. assert (RS : rv_sinc (vval v) = sin (V / 2) / V).
    { unfold rv_sinc. fold V. destruct (Req_EM_T V 0); [lra|reflexivity]. }
    apply Rle_trans with (2 := Et) in SC. rewrite <- RS in SC.
    destruct (Rlt_or_le T E) as [B|B].
    + rewrite Rlt_bool_true by exact B. destruct (rv_na_small p t2 (theta) O2 Ft ltac:(fold T; lra)) as [Fn En]. fold T in En.
      set (na := fdot t2 [fofZ p 1; fneg (fmul (theta) (theta))] [fhalf p; flit p 1 48]) in *.
      pose proof (series_close T ltac:(lra)) as SR.
      assert (T4 : T ^ 4 <= (2 + / 500) * fu p) by (eapply Rle_trans; [apply (pow_incr T E); lra|exact E4]).
      assert (VS : V <= / 40) by lra.
      assert (NN : V * Rabs (B2R na - rv_sinc (vval v)) <= / 10 * fu p + d * V).
      { apply Rle_trans with (V * ((1 + / 20) * fu p + (T ^ 4 / 3840 + Rabs (sin (T / 2) / T - rv_sinc (vval v))))).
        - apply Rmult_le_compat_l; [exact V0|]. eapply Rabs_tri3; [exact En|]. eapply Rabs_tri3; [exact SR|apply Rle_refl].
        - assert (V * ((1 + / 20) * fu p) <= / 40 * ((1 + / 20) * fu p)) by (apply Rmult_le_compat_r; lra).
          assert (V * (T ^ 4 / 3840) <= / 40 * fu p) by (apply Rmult_le_compat; try lra; assert (0 <= T ^ 4) by (apply pow_le; lra); lra). lra. }
      destruct (rv_assemble p _ na v ((3 + / 20) * fu p + d * V / 2) ((4 + / 5) * fu p + d * V) Fc Fn Fv) as [Fq Dq].
      * lra.
      * lra.
      * exact EC.
      * fold V. lra.
      * fold V. apply Rle_trans with (/ 40 * 1); [|lra]. apply Rmult_le_compat; try lra; [apply Rabs_pos|]. apply Rabs_both in En.
        assert (0 <= T * T <= / 2500) by nra. apply Rabs_le. lra.
      * split; [exact Fq|]. apply (rv_conclude_d (fu p)); [exact U|exact V0|apply Hd|apply qdist_nonneg|exact Dq].
    + rewrite Rlt_bool_false by exact B.
      destruct (rv_na_large p L (theta) V HL Ft ltac:(fold T; lra) ltac:(lra) ltac:(fold T; lra)) as (Fn & En & Nn). fold T in En.
      set (na := fcvt p (fdiv (lsin L F64 (fmul (fcvt F64 (theta)) (fhalf F64))) (fcvt F64 (theta)))) in *.
      assert (NN : V * Rabs (B2R na - rv_sinc (vval v)) <= (4 + / 5) * fu p + d * V).
      { apply Rle_trans with (V * (Rabs (B2R na - sin (T / 2) / T) + Rabs (sin (T / 2) / T - rv_sinc (vval v)))); [|lra].
        apply Rmult_le_compat_l; [exact V0|]. eapply Rabs_tri3; apply Rle_refl. }
      destruct (rv_assemble p _ na v ((3 + / 20) * fu p + d * V / 2) ((4 + / 5) * fu p + d * V) Fc Fn Fv) as [Fq Dq].
      * lra.
      * lra.
      * exact EC.
      * exact NN.
      * exact Nn.
      * split; [exact Fq|]. apply (rv_conclude_d (fu p)); [exact U|exact V0|apply Hd|apply qdist_nonneg|exact Dq].
Qed.
