(** * FloatFix: fix() of rotation matrices and angle-axes in floating-point
    arithmetic. *)
From Coq Require Import ZArith Reals Lra Psatz Bool List Lia.
From Flocq Require Import IEEE754.BinarySingleNaN Core.Core.
From Verif Require Import Linalg Spec SpecFacts SpecClose ModelCommon ModelEigen CommonFacts ModelRotation ConvFacts RotFacts CloseFacts RVFacts EulerNear PiBounds
  FloatModel FloatFacts FloatModel2 SpecFloatQ FloatQFacts FloatQProd FloatQHist FloatQRot FloatMHist FloatCast FloatWrap FloatModel3 SpecLibm SpecBuild FloatBuild FloatBuild2 FloatBuild3 FloatBuild4 FloatModel4 FloatExt FloatExt2 FloatExt3 FloatExt4 SpecExt Claims18 FloatExt5 FloatExt6 FloatModel5 FloatModel6 FloatMat FloatModel7 SpecSix FloatSix.
Import ListNotations.
Local Open Scope R_scope.

(** ** determinants *)
Lemma mdet_rows m : mdet m = vdot (vrow0 m) (vcross (vrow1 m) (vrow2 m)).
Proof. unfold mdet, vrow0, vrow1, vrow2, vdot, vcross; cbn [vx vy vz]; ring. Qed.
Lemma triple_le a b c : Rabs (vdot a (vcross b c)) <= vnorm a * (vnorm b * vnorm c).
Proof.
  eapply Rle_trans; [apply vcs_abs|]. apply Rmult_le_compat_l; [apply vn_nonneg|]. apply vnorm_cross_le.
Qed.
Lemma mdet_diff a b d N : 0 <= d -> 0 <= N -> vnorm (vsub (vrow0 a) (vrow0 b)) <= d -> vnorm (vsub (vrow1 a) (vrow1 b)) <= d -> vnorm (vsub (vrow2 a) (vrow2 b)) <= d ->
  vnorm (vrow0 b) <= N -> vnorm (vrow1 a) <= N -> vnorm (vrow2 a) <= N -> vnorm (vrow1 b) <= N -> Rabs (mdet a - mdet b) <= 3 * (d * (N * N)).
Proof.
  intros D0 N0 D1 D2 D3 B0 A1 A2 B1.
  replace (mdet a - mdet b) with (vdot (vsub (vrow0 a) (vrow0 b)) (vcross (vrow1 a) (vrow2 a)) + (vdot (vrow0 b) (vcross (vsub (vrow1 a) (vrow1 b)) (vrow2 a)) + vdot (vrow0 b) (vcross (vrow1 b) (vsub (vrow2 a) (vrow2 b))))) by (unfold mdet, vrow0, vrow1, vrow2, vdot, vcross, vsub; cbn [vx vy vz]; ring).
  eapply Rle_trans; [apply Rabs_triang|]. eapply Rle_trans; [apply Rplus_le_compat_l, Rabs_triang|].
  pose proof (triple_le (vsub (vrow0 a) (vrow0 b)) (vrow1 a) (vrow2 a)) as T1. pose proof (triple_le (vrow0 b) (vsub (vrow1 a) (vrow1 b)) (vrow2 a)) as T2. pose proof (triple_le (vrow0 b) (vrow1 b) (vsub (vrow2 a) (vrow2 b))) as T3.
  assert (G : forall x y z X Y Z, 0 <= x <= X -> 0 <= y <= Y -> 0 <= z <= Z -> x * (y * z) <= X * (Y * Z)).
  { intros x y z X Y Z HX HY HZ. apply Rmult_le_compat; [lra|apply Rmult_le_pos; lra|lra|apply Rmult_le_compat; lra]. }
  pose proof vn_nonneg as P.
  pose proof (G _ _ _ d N N (Logic.conj (P _) D1) (Logic.conj (P _) A1) (Logic.conj (P _) A2)).
  pose proof (G _ _ _ N d N (Logic.conj (P _) B0) (Logic.conj (P _) D2) (Logic.conj (P _) A2)).
  pose proof (G _ _ _ N N d (Logic.conj (P _) B0) (Logic.conj (P _) B1) (Logic.conj (P _) D3)). lra.
Qed.
Lemma mdet_close m r d : SO3 r -> close d m r -> d <= / 1000 -> Rabs (mdet m - 1) <= 301/100 * d.
Proof.
  intros S C D. pose proof (close_nonneg _ _ _ C) as D0. destruct (close_row_norm _ _ _ C) as (R0 & R1 & R2). destruct (close_rows_bound _ _ _ S C) as (A0 & A1 & A2). destruct (SO3_rows r S) as (B0 & B1 & B2).
  replace 1 with (mdet r) by apply S. eapply Rle_trans; [apply (mdet_diff m r d (1001/1000)); try lra|].
  - exact R0.
  - exact R1.
  - exact R2.
  - lra.
Qed.
(** the computed determinant *)
Lemma fdet_err p t o (m : FM p) : order 3 t -> orders3_ok 2 2 2 o -> mfinite m ->
  vnorm (vrow0 (mval m)) <= 1001/1000 -> vnorm (vrow1 (mval m)) <= 1001/1000 -> vnorm (vrow2 (mval m)) <= 1001/1000 ->
  is_finite (fdet t o m) = true /\ Rabs (B2R (fdet t o m) - mdet (mval m)) <= 7 * fu p.
Proof.
  intros OT (Oa & Ob & Oc) ((F00 & F01 & F02) & (F10 & F11 & F12) & (F20 & F21 & F22)) N0 N1 N2.
  pose proof (fu_pos p) as U. pose proof (fu_24 p) as V. pose proof (eta5_u p) as T. set (u := fu p) in *.
  assert (B120 : 2 <= bpow radix2 120) by (change 2 with (bpow radix2 1); apply bpow_le; lia).
  set (a00 := gx (r0 m)) in *. set (a01 := gy (r0 m)) in *. set (a02 := gz (r0 m)) in *. set (a10 := gx (r1 m)) in *. set (a11 := gy (r1 m)) in *. set (a12 := gz (r1 m)) in *.
  set (a20 := gx (r2 m)) in *. set (a21 := gy (r2 m)) in *. set (a22 := gz (r2 m)) in *.
  unfold mval, vrow0, vrow1, vrow2 in N0, N1, N2. cbn [m00 m01 m02 m10 m11 m12 m20 m21 m22] in N0, N1, N2. fold a00 a01 a02 in N0. fold a10 a11 a12 in N1. fold a20 a21 a22 in N2.
  assert (CS : forall x y z w : R, x * x + y * y <= 101/100 -> z * z + w * w <= 101/100 -> Rabs (x * z) + Rabs (- y * w) <= 101/100).
  { intros x y z w H1 H2. rewrite Rabs_mult, (Rabs_mult (- y)), Rabs_Ropp.
    assert (forall s, Rabs s * Rabs s = s * s) as Q by (intro s; rewrite <- Rabs_mult; apply Rabs_pos_eq; apply Rle_0_sqr).
    pose proof (Rle_0_sqr (Rabs x - Rabs z)) as S1. pose proof (Rle_0_sqr (Rabs y - Rabs w)) as S2. unfold Rsqr in S1, S2.
    pose proof (Q x). pose proof (Q y). pose proof (Q z). pose proof (Q w). lra. }
  assert (SQ : forall v, vnorm v <= 1001/1000 -> vnorm2 v <= 101/100). { intros v H. rewrite <- vnorm_sq. pose proof (vn_nonneg v). assert (vnorm v * vnorm v <= 1001/1000 * (1001/1000)) by (apply Rmult_le_compat; lra). lra. }
  pose proof (SQ _ N1) as S1. pose proof (SQ _ N2) as S2. unfold vnorm2, vdot in S1, S2; cbn [vx vy vz] in S1, S2.
  pose proof (Rle_0_sqr (B2R a10)) as q10. pose proof (Rle_0_sqr (B2R a11)) as q11. pose proof (Rle_0_sqr (B2R a12)) as q12. pose proof (Rle_0_sqr (B2R a20)) as q20. pose proof (Rle_0_sqr (B2R a21)) as q21. pose proof (Rle_0_sqr (B2R a22)) as q22. unfold Rsqr in *.
  assert (MI : forall t' (x y z w : fl p), order 2 t' -> is_finite x = true -> is_finite y = true -> is_finite z = true -> is_finite w = true ->
    B2R x * B2R x + B2R y * B2R y <= 101/100 -> B2R z * B2R z + B2R w * B2R w <= 101/100 ->
    is_finite (fdot t' [x; fneg y] [z; w]) = true /\ Rabs (B2R (fdot t' [x; fneg y] [z; w]) - (B2R x * B2R z - B2R y * B2R w)) <= 203/100 * u).
  { intros t' x y z w O' f1 f2 f3 f4 h1 h2. destruct (fdot2_err p t' x (fneg y) z w (101/100) O' f1) as [F E]; try assumption; try (rewrite fneg_fin; assumption).
    - rewrite fneg_val. apply CS; assumption.
    - lra.
    - split; [exact F|]. rewrite fneg_val in E. fold u in E. replace (B2R x * B2R z - B2R y * B2R w) with (B2R x * B2R z + - B2R y * B2R w) by ring. eapply Rle_trans; [exact E|]. lra. }
  destruct (MI (o0 o) a11 a12 a22 a21 Oa F11 F12 F22 F21 ltac:(lra) ltac:(lra)) as [Fa Ea].
  destruct (MI (o1 o) a10 a12 a22 a20 Ob F10 F12 F22 F20 ltac:(lra) ltac:(lra)) as [Fb Eb].
  destruct (MI (o2 o) a10 a11 a21 a20 Oc F10 F11 F21 F20 ltac:(lra) ltac:(lra)) as [Fc Ec]. clear MI CS.
  set (ma := fdot (o0 o) [a11; fneg a12] [a22; a21]) in *. set (mb := fdot (o1 o) [a10; fneg a12] [a22; a20]) in *. set (mc := fdot (o2 o) [a10; fneg a11] [a21; a20]) in *.
  set (r0' := mkV3 (B2R a00) (B2R a01) (B2R a02)) in *. set (r1' := mkV3 (B2R a10) (B2R a11) (B2R a12)) in *. set (r2' := mkV3 (B2R a20) (B2R a21) (B2R a22)) in *.
  set (X := vcross r1' r2'). set (M := mkV3 (B2R ma) (- B2R mb) (B2R mc)).
  assert (NX : vnorm X <= 10021/10000). { eapply Rle_trans; [apply vnorm_cross_le|]. apply Rle_trans with (1001/1000 * (1001/1000)); [apply Rmult_le_compat; try apply vn_nonneg; assumption|lra]. }
  assert (DM : vnorm (vsub M X) <= 7/4 * (203/100 * u)).
  { apply vnorm_le3; unfold M, X, r1', r2', vsub, vcross; cbn [vx vy vz].
    - exact Ea.
    - replace (- B2R mb - (B2R a12 * B2R a20 - B2R a10 * B2R a22)) with (- (B2R mb - (B2R a10 * B2R a22 - B2R a12 * B2R a20))) by ring. rewrite Rabs_Ropp. exact Eb.
    - exact Ec. }
  assert (NM : vnorm M <= 10022/10000). { replace M with (vadd (vsub M X) X) by lin. eapply Rle_trans; [apply vnorm_triang3|]. lra. }
  assert (NM' : vnorm (mkV3 (B2R ma) (B2R mb) (B2R mc)) = vnorm M). { unfold vnorm. f_equal. unfold M. lin. }
  assert (NR : vnorm (mkV3 (B2R a00) (B2R (fneg a01)) (B2R a02)) = vnorm r0'). { rewrite fneg_val. unfold vnorm. f_equal. unfold r0'. lin. }
  destruct (fdot3_err p t a00 (fneg a01) a02 ma mb mc (1004/1000) OT) as [F E]; try assumption; try (rewrite fneg_fin; assumption).
  { eapply Rle_trans; [apply dotabs3|]. rewrite NM', NR. apply Rle_trans with (1001/1000 * (10022/10000)); [apply Rmult_le_compat; try apply vn_nonneg; assumption|lra]. }
  { lra. }
  change (fdot t [a00; fneg a01; a02] [ma; mb; mc]) with (fdet t o m) in *. split; [exact F|]. fold u in E. rewrite fneg_val in E.
  assert (DD : Rabs (vdot r0' (vsub M X)) <= 1001/1000 * (7/4 * (203/100 * u))). { eapply Rle_trans; [apply vcs_abs|]. apply Rmult_le_compat; try apply vn_nonneg; assumption. }
  replace (B2R (fdet t o m) - mdet (mval m)) with ((B2R (fdet t o m) - (B2R a00 * B2R ma + - B2R a01 * B2R mb + B2R a02 * B2R mc)) + vdot r0' (vsub M X)).
  2:{ rewrite mdet_rows. unfold mval, vrow0, vrow1, vrow2. cbn [m00 m01 m02 m10 m11 m12 m20 m21 m22]. fold a00 a01 a02 a10 a11 a12 a20 a21 a22. fold r0' r1' r2'. fold X. unfold r0', M, vdot, vsub; cbn [vx vy vz]. ring. }
  eapply Rle_trans; [apply Rabs_triang|]. lra.
Qed.

(** ** the cube root *)
Lemma ln_near D e : Rabs (D - 1) <= e -> e <= / 100 -> Rabs (ln D) <= 102/100 * e.
Proof.
  intros H E. pose proof (Rabs_both _ _ H) as B. assert (P : 0 < D) by lra.
  assert (U : ln D <= D - 1). { pose proof (exp_ineq1_le (ln D)) as X. rewrite exp_ln in X by exact P. lra. }
  assert (L : 1 - / D <= ln D). { pose proof (exp_ineq1_le (- ln D)) as X. rewrite exp_Ropp, exp_ln in X by exact P. lra. }
  assert (K : - (102/100 * e) <= 1 - / D). { assert (/ D <= 1 + 102/100 * e); [|lra]. apply Rmult_le_reg_l with D; [exact P|]. rewrite Rinv_r by lra.
    assert (e * e <= / 100 * e) by (apply Rmult_le_compat_r; lra). assert ((1 - e) * (1 + 102/100 * e) <= D * (1 + 102/100 * e)) by (apply Rmult_le_compat_r; lra). lra. }
  apply Rabs_le. lra.
Qed.
Lemma exp_near t e : Rabs t <= e -> e <= / 100 -> Rabs (exp t - 1) <= 102/100 * e.
Proof.
  intros H E. pose proof (Rabs_both _ _ H) as B. pose proof (exp_ineq1_le t) as X. pose proof (exp_ineq1_le (- t)) as Y. rewrite exp_Ropp in Y.
  pose proof (exp_pos t) as P. assert (K : exp t <= 1 + 102/100 * e).
  { apply Rmult_le_reg_r with (/ exp t); [apply Rinv_0_lt_compat, P|]. rewrite Rinv_r by lra.
    assert (e * e <= / 100 * e) by (apply Rmult_le_compat_r; lra). assert ((1 + 102/100 * e) * (1 - e) <= (1 + 102/100 * e) * / exp t) by (apply Rmult_le_compat_l; lra). lra. }
  apply Rabs_le. lra.
Qed.
Lemma inv_near x e : Rabs (x - 1) <= e -> e <= / 100 -> Rabs (/ x - 1) <= 102/100 * e.
Proof.
  intros H E. pose proof (Rabs_both _ _ H) as B. assert (P : 0 < x) by lra.
  replace (/ x - 1) with (- ((x - 1) * / x)) by (field; lra). rewrite Rabs_Ropp, Rabs_mult, (Rabs_pos_eq (/ x)) by (left; now apply Rinv_0_lt_compat). rewrite Rmult_comm.
  apply Rmult_le_compat; [left; now apply Rinv_0_lt_compat|apply Rabs_pos| |exact H].
  apply Rmult_le_reg_l with x; [exact P|]. rewrite Rinv_r by lra. lra.
Qed.
Lemma fthird_R : is_finite fthird = true /\ Rabs (B2R fthird - 1/3) <= fu F64.
Proof.
  destruct (fofZ1 F64) as [F1 V1]. assert (V3 : B2R (fofZ F64 3) = 3) by (vm_compute; lra). pose proof (fu_pos F64) as U. pose proof (eta5_u F64) as T.
  destruct (fdiv_R F64 (fofZ F64 1) (fofZ F64 3) F1) as [E F].
  - rewrite V3; lra.
  - rewrite V1, V3, Rabs_pos_eq by lra. apply Rle_trans with 4; [lra|apply four_fbig].
  - split; [exact F|]. unfold fthird. rewrite E, V1, V3. eapply Rle_trans; [apply rnd_err_le|]. rewrite (Rabs_pos_eq (1/3)) by lra. lra.
Qed.
(** the factor 1/pow(det, 1.0/3.0): the inverse of the cube root of the computed
    determinant *)
Lemma fmat_factor_err p P t o (m : FM p) e : pow_ok P -> is_finite (fdet t o m) = true -> Rabs (B2R (fdet t o m) - 1) <= e -> e <= / 200 ->
  exists h, Rabs (h - 1) <= 35/100 * e /\ Rabs (h * h * h - B2R (fdet t o m)) <= / 10 * fu p /\
  is_finite (fmat_factor P t o m) = true /\ Rabs (B2R (fmat_factor P t o m) - / h) <= 62/10 * fu p.
Proof.
  intros HP FD HD He. pose proof (fu_pos p) as U. pose proof (fu_24 p) as V. pose proof (fu_64 p) as U64. pose proof (fu_pos F64) as P64. pose proof (eta5_u p) as T. pose proof (eta5_u F64) as T64.
  destruct fthird_R as [F3 E3]. set (y := B2R fthird) in *. set (D := B2R (fdet t o m)) in *. pose proof (Rabs_both _ _ HD) as BD. pose proof (Rabs_both _ _ E3) as B3. pose proof (fu_24 F64) as V64.
  pose proof (ln_near D e HD ltac:(lra)) as HL. set (l := ln D) in *.
  assert (e0 : 0 <= e) by (pose proof (Rabs_pos (D - 1)); lra).
  destruct (HP (fcvt F64 (fdet t o m)) fthird) as [Fg Eg]; [rewrite widen_fin; exact FD|exact F3|rewrite widen_val; fold D; lra|fold y; apply Rabs_le; lra|].
  rewrite widen_val, roundoff_fu in Eg. fold D in Eg. fold y in Eg. unfold Rpower in Eg. fold l in Eg.
  set (g := P (fcvt F64 (fdet t o m)) fthird) in *. set (h := exp (y * l)) in *. exists h.
  assert (Ht : Rabs (y * l) <= 343/1000 * e).
  { rewrite Rabs_mult. apply Rle_trans with (334/1000 * (102/100 * e)); [|lra]. apply Rmult_le_compat; [apply Rabs_pos|apply Rabs_pos| |exact HL]. apply Rabs_le. lra. }
  assert (Hh : Rabs (h - 1) <= 35/100 * e) by (eapply Rle_trans; [apply (exp_near _ _ Ht); lra|lra]). split; [exact Hh|]. pose proof (Rabs_both _ _ Hh) as Bh.
  split.
  { replace (h * h * h) with (D * exp ((3 * y - 1) * l)).
    2:{ unfold h. rewrite <- !exp_plus. replace D with (exp l) by (unfold l; apply exp_ln; lra). rewrite <- exp_plus. f_equal. ring. }
    assert (H3 : Rabs ((3 * y - 1) * l) <= 2/100 * fu p).
    { rewrite Rabs_mult. apply Rle_trans with (3 * fu p * (102/100 * / 200)); [|lra]. apply Rmult_le_compat; [apply Rabs_pos|apply Rabs_pos| |lra].
      apply Rabs_le. lra. }
    pose proof (exp_near _ _ H3 ltac:(lra)) as H4.
    replace (D * exp ((3 * y - 1) * l) - D) with (D * (exp ((3 * y - 1) * l) - 1)) by ring. rewrite Rabs_mult.
    apply Rle_trans with (2 * (102/100 * (2/100 * fu p))); [|lra]. apply Rmult_le_compat; [apply Rabs_pos|apply Rabs_pos| |exact H4]. apply Rabs_le. lra. }
  destruct (fofZ1 F64) as [F1 V1]. pose proof (Rabs_both _ _ Eg) as Bg. set (G := B2R g) in *.
  assert (IG : Rabs (1 / G - / h) <= 41/10 * fu F64).
  { replace (1 / G - / h) with ((h - G) * (/ G * / h)) by (field; lra). rewrite Rabs_mult, Rabs_minus_sym.
    assert (K : 0 <= / G * / h <= 102/100).
    { assert (/ G <= 1005/1000). { apply Rmult_le_reg_l with G; [lra|]. rewrite Rinv_r by lra. lra. }
      assert (/ h <= 1005/1000). { apply Rmult_le_reg_l with h; [lra|]. rewrite Rinv_r by lra. lra. }
      assert (0 < / G) by (apply Rinv_0_lt_compat; lra). assert (0 < / h) by (apply Rinv_0_lt_compat; lra).
      split; [apply Rmult_le_pos; lra|]. apply Rle_trans with (1005/1000 * (1005/1000)); [apply Rmult_le_compat; lra|lra]. }
    rewrite (Rabs_pos_eq (_ * _)) by lra. apply Rle_trans with (4 * fu F64 * (102/100)); [|lra]. apply Rmult_le_compat; [apply Rabs_pos|lra|exact Eg|lra]. }
  pose proof (inv_near h _ Hh ltac:(lra)) as IH. pose proof (Rabs_both _ _ IH) as BI. pose proof (Rabs_both _ _ IG) as BG.
  destruct (fdiv_R F64 (fofZ F64 1) g F1) as [Q1 Q2].
  { fold G. lra. }
  { rewrite V1. fold G. apply Rle_trans with 4; [apply Rabs_le; lra|apply four_fbig]. }
  rewrite V1 in Q1. fold G in Q1. set (f64 := fdiv (fofZ F64 1) g) in *.
  assert (E1 : Rabs (B2R f64 - 1 / G) <= 1004/1000 * fu F64).
  { rewrite Q1. eapply Rle_trans; [apply rnd_err_le|]. assert (fu F64 * Rabs (1 / G) <= fu F64 * (1003/1000)); [|lra]. apply Rmult_le_compat_l; [lra|]. apply Rabs_le. lra. }
  pose proof (Rabs_both _ _ E1) as BE.
  destruct (fcvt_R F64 p f64 Q2) as [C1 C2]; [apply Rle_trans with 4; [apply Rabs_le; lra|apply four_fbig]|].
  change (fcvt p f64) with (fmat_factor P t o m) in *. split; [exact C2|].
  assert (E2 : Rabs (B2R (fmat_factor P t o m) - B2R f64) <= 1004/1000 * fu p).
  { rewrite C1. eapply Rle_trans; [apply rnd_err_le|]. assert (fu p * Rabs (B2R f64) <= fu p * (1003/1000)); [|lra]. apply Rmult_le_compat_l; [lra|]. apply Rabs_le. lra. }
  replace (B2R (fmat_factor P t o m) - / h) with ((B2R (fmat_factor P t o m) - B2R f64) + ((B2R f64 - 1 / G) + (1 / G - / h))) by ring.
  eapply Rle_trans; [apply Rabs_triang|]. eapply Rle_trans; [apply Rplus_le_compat_l, Rabs_triang|]. lra.
Qed.

(** ** RotationMatrix::fix *)
Lemma fvscale_err p (s : fl p) (v : FV p) : is_finite s = true -> vfinite v -> Rabs (B2R s) <= 2 -> vnorm (vval v) <= 2 ->
  vfinite (fvscale s v) /\ vnorm (vsub (vval (fvscale s v)) (vscale (B2R s) (vval v))) <= fu p * (Rabs (B2R s) * vnorm (vval v)) + 7/4 * eta p.
Proof.
  intros Fs (Fx & Fy & Fz) Hs Hv. pose proof (fu_pos p) as U. pose proof (eta_pos p) as T. destruct (vcomp_le (vval v)) as (Cx & Cy & Cz). cbn [vval vx vy vz] in Cx, Cy, Cz.
  assert (G : forall c : fl p, is_finite c = true -> Rabs (B2R c) <= vnorm (vval v) -> is_finite (fmul s c) = true /\ Rabs (B2R (fmul s c) - B2R s * B2R c) <= fu p * Rabs (B2R s * B2R c) + eta p).
  { intros c Fc Hc. destruct (fmul_R p s c Fs Fc) as [E F].
    - rewrite Rabs_mult. apply Rle_trans with (2 * 2); [apply Rmult_le_compat; try apply Rabs_pos; lra|]. pose proof (four_fbig p). lra.
    - split; [exact F|]. rewrite E. apply rnd_err_le. }
  destruct (G _ Fx Cx) as [Gx Ex]. destruct (G _ Fy Cy) as [Gy Ey]. destruct (G _ Fz Cz) as [Gz Ez].
  split; [repeat split; assumption|]. rewrite <- vnorm_vscale.
  apply (vec_rel_err (vval (fvscale s v)) (vscale (B2R s) (vval v)) (fu p) (eta p)); try lra; assumption.
Qed.
Lemma close_scale f m r d : SO3 r -> close d m r -> close (Rabs (f - 1) * (1 + d) + d) (mscale f m) r.
Proof.
  intros S C v. pose proof (C v) as Cv. replace (vsub (mvmul (mscale f m) v) (mvmul r v)) with (vadd (vscale (f - 1) (mvmul m v)) (vsub (mvmul m v) (mvmul r v))) by lin.
  eapply Rle_trans; [apply vnorm_triang3|]. rewrite vnorm_vscale.
  assert (vnorm (mvmul m v) <= (1 + d) * vnorm v).
  { replace (mvmul m v) with (vadd (vsub (mvmul m v) (mvmul r v)) (mvmul r v)) by lin. eapply Rle_trans; [apply vnorm_triang3|]. rewrite (SO3_vnorm r v S). lra. }
  assert (Rabs (f - 1) * vnorm (mvmul m v) <= Rabs (f - 1) * ((1 + d) * vnorm v)) by (apply Rmult_le_compat_l; [apply Rabs_pos|assumption]). lra.
Qed.
Lemma fmat_fix_err p P t o (m : FM p) r d : pow_ok P -> order 3 t -> orders3_ok 2 2 2 o -> mfinite m -> SO3 r -> close d (mval m) r -> d <= / 1000 ->
  mfinite (fmat_fix P t o m) /\ close (21/10 * d + 20 * fu p) (mval (fmat_fix P t o m)) r /\ Rabs (mdet (mval (fmat_fix P t o m)) - 1) <= 32 * fu p.
Proof.
  intros HP Ot Oo F S C D. pose proof (fu_pos p) as U. pose proof (fu_24 p) as V. pose proof (eta5_u p) as T. pose proof (eta_pos p) as T0. pose proof (close_nonneg _ _ _ C) as D0.
  destruct (close_rows_bound _ _ _ S C) as (N0 & N1 & N2). pose proof (mdet_close _ _ _ S C D) as HM.
  destruct (fdet_err p t o m Ot Oo F) as [FD ED]; try lra.
  set (M := mdet (mval m)) in *. set (e := 301/100 * d + 7 * fu p).
  assert (He : Rabs (B2R (fdet t o m) - 1) <= e). { replace (B2R (fdet t o m) - 1) with ((B2R (fdet t o m) - M) + (M - 1)) by ring. eapply Rle_trans; [apply Rabs_triang|]. unfold e. lra. }
  destruct (fmat_factor_err p P t o m e HP FD He) as (h & Hh & H3 & Ff & Ef). { unfold e. lra. }
  set (f := fmat_factor P t o m) in *. set (B := B2R (fdet t o m)) in *. pose proof (Rabs_both _ _ Hh) as Bh. pose proof (Rabs_both _ _ He) as BB.
  assert (E0 : 0 <= e <= / 300) by (unfold e; lra).
  pose proof (inv_near h _ Hh ltac:(lra)) as IH. pose proof (Rabs_both _ _ IH) as BI. pose proof (Rabs_both _ _ Ef) as Bf.
  assert (F1 : Rabs (B2R f - 1) <= 1075/1000 * d + 9 * fu p). { replace (B2R f - 1) with ((B2R f - / h) + (/ h - 1)) by ring. eapply Rle_trans; [apply Rabs_triang|]. unfold e in *. lra. }
  pose proof (Rabs_both _ _ F1) as BF.
  destruct F as (Fr0 & Fr1 & Fr2).
  assert (RW : vrow0 (mval m) = vval (r0 m) /\ vrow1 (mval m) = vval (r1 m) /\ vrow2 (mval m) = vval (r2 m)) by (repeat split). destruct RW as (W0 & W1 & W2). rewrite W0 in N0. rewrite W1 in N1. rewrite W2 in N2.
  assert (RE : forall v : FV p, vfinite v -> vnorm (vval v) <= 1 + d -> vfinite (fvscale f v) /\ vnorm (vsub (vval (fvscale f v)) (vscale (B2R f) (vval v))) <= 101/100 * fu p /\ vnorm (vscale (B2R f) (vval v)) <= 1003/1000).
  { intros v Fv Nv. assert (Hf : Rabs (B2R f) <= 10012/10000) by (apply Rabs_le; lra).
    assert (K : Rabs (B2R f) * vnorm (vval v) <= 10012/10000 * (1001/1000)) by (apply Rmult_le_compat; [apply Rabs_pos|apply vn_nonneg|exact Hf|lra]).
    destruct (fvscale_err p f v Ff Fv ltac:(lra) ltac:(lra)) as [A E]. split; [exact A|]. split; [|rewrite vnorm_vscale; lra].
    eapply Rle_trans; [exact E|]. assert (fu p * (Rabs (B2R f) * vnorm (vval v)) <= fu p * (1003/1000)) by (apply Rmult_le_compat_l; lra). lra. }
  destruct (RE _ Fr0 N0) as (A0 & E00 & K0). destruct (RE _ Fr1 N1) as (A1 & E01 & K1). destruct (RE _ Fr2 N2) as (A2 & E02 & K2). clear RE.
  split; [repeat split; (apply A0 || apply A1 || apply A2)|].
  set (X := mval (fmat_fix P t o m)). set (Y := mscale (B2R f) (mval m)).
  assert (XR : vrow0 X = vval (fvscale f (r0 m)) /\ vrow1 X = vval (fvscale f (r1 m)) /\ vrow2 X = vval (fvscale f (r2 m))) by (repeat split). destruct XR as (X0 & X1 & X2).
  assert (YR : vrow0 Y = vscale (B2R f) (vval (r0 m)) /\ vrow1 Y = vscale (B2R f) (vval (r1 m)) /\ vrow2 Y = vscale (B2R f) (vval (r2 m))) by (repeat split). destruct YR as (Y0 & Y1 & Y2).
  split.
  - eapply close_mono; [|eapply (close_trans _ _ X Y r)].
    2:{ apply (close_rows (101/100 * fu p)); [change (vrow0 (msub X Y)) with (vsub (vrow0 X) (vrow0 Y)); rewrite X0, Y0; exact E00|change (vrow1 (msub X Y)) with (vsub (vrow1 X) (vrow1 Y)); rewrite X1, Y1; exact E01|change (vrow2 (msub X Y)) with (vsub (vrow2 X) (vrow2 Y)); rewrite X2, Y2; exact E02]. }
    2:{ apply (close_scale _ _ _ d S C). }
    assert (Rabs (B2R f - 1) * (1 + d) <= (1075/1000 * d + 9 * fu p) * (1001/1000)) by (apply Rmult_le_compat; [apply Rabs_pos|lra|exact F1|lra]). lra.
  - assert (DX : Rabs (mdet X - mdet Y) <= 3 * (101/100 * fu p * (1004/1000 * (1004/1000)))).
    { assert (G : forall a b : V3, vnorm (vsub a b) <= 101/100 * fu p -> vnorm b <= 1003/1000 -> vnorm a <= 1004/1000).
      { intros a b H1 H2. replace a with (vadd (vsub a b) b) by lin. eapply Rle_trans; [apply vnorm_triang3|]. lra. }
      apply mdet_diff; rewrite ?X0, ?X1, ?X2, ?Y0, ?Y1, ?Y2; try assumption; try lra; [apply (G _ _ E01 K1)|apply (G _ _ E02 K2)]. }
    assert (DY : mdet Y = B2R f * B2R f * B2R f * M) by (unfold Y, M; lin). 
    set (w := B2R f * h).
    assert (Hw : Rabs (w - 1) <= 625/100 * fu p).
    { unfold w. replace (B2R f * h - 1) with ((B2R f - / h) * h) by (field; lra). rewrite Rabs_mult, (Rabs_pos_eq h) by lra.
      apply Rle_trans with (62/10 * fu p * (1003/1000)); [apply Rmult_le_compat; [apply Rabs_pos|lra|exact Ef|lra]|lra]. }
    pose proof (Rabs_both _ _ Hw) as Bw. set (z := M / (h * h * h)).
    assert (Hc : 99/100 <= h * h * h). { assert (9976/10000 * (9976/10000) <= h * h) by (apply Rmult_le_compat; lra). assert (9976/10000 * (9976/10000) * (9976/10000) <= h * h * h) by (apply Rmult_le_compat; lra). lra. }
    assert (Hz : Rabs (z - 1) <= 72/10 * fu p).
    { unfold z. replace (M / (h * h * h) - 1) with ((M - h * h * h) * / (h * h * h)) by (field; lra). rewrite Rabs_mult, (Rabs_pos_eq (/ _)) by (left; apply Rinv_0_lt_compat; lra).
      apply Rle_trans with (71/10 * fu p * (1011/1000)); [|lra]. apply Rmult_le_compat; [apply Rabs_pos|left; apply Rinv_0_lt_compat; lra| |].
      - replace (M - h * h * h) with (- ((h * h * h - B) + (B - M))) by ring. rewrite Rabs_Ropp. eapply Rle_trans; [apply Rabs_triang|]. lra.
      - apply Rmult_le_reg_l with (h * h * h); [lra|]. rewrite Rinv_r by lra. lra. }
    pose proof (Rabs_both _ _ Hz) as Bz.
    assert (EY : mdet Y = w * w * w * z) by (rewrite DY; unfold w, z; field; lra).
    assert (Hwww : Rabs (w * w * w * z - 1) <= 265/10 * fu p).
    { clear - Hw Hz U V Bw Bz. set (u := fu p) in *. set (a := w - 1) in *. set (b := z - 1) in *.
      assert (PR : forall x y A B, Rabs (x - 1) <= A -> Rabs (y - 1) <= B -> A <= / 1000 -> Rabs (x * y - 1) <= A + 1001/1000 * B).
      { intros x y A B HA HB S. replace (x * y - 1) with ((x - 1) + x * (y - 1)) by ring. eapply Rle_trans; [apply Rabs_triang|]. rewrite Rabs_mult.
        assert (Rabs x * Rabs (y - 1) <= 1001/1000 * B); [|lra]. apply Rmult_le_compat; [apply Rabs_pos|apply Rabs_pos| |exact HB]. apply Rabs_both in HA. apply Rabs_le. lra. }
      pose proof (PR w w _ _ Hw Hw ltac:(lra)) as H2. pose proof (PR _ w _ _ H2 Hw ltac:(lra)) as H3. pose proof (PR _ z _ _ H3 Hz ltac:(lra)) as H4. lra. }
    replace (mdet X - 1) with ((mdet X - mdet Y) + (w * w * w * z - 1)) by (rewrite EY; ring). eapply Rle_trans; [apply Rabs_triang|]. lra.
Qed.

(** ** AngleAxis::fix *)
Lemma fvnormalized_err p t dm (v : FV p) : order 3 t -> vfinite v -> 1/2 <= vnorm (vval v) <= 5/2 ->
  vfinite (fvnormalized t dm v) /\ vdist (vval (fvnormalized t dm v)) (vscale (/ vnorm (vval v)) (vval v)) <= 6 * fu p.
Proof.
  intros O Fv HV. pose proof (fu_pos p) as U. pose proof (fu_24 p) as V. set (N := vnorm (vval v)) in *.
  assert (B2 : bpow radix2 (-56) <= 1/2). { change (1/2) with (1 * / 2). replace (1 * / 2) with (bpow radix2 (-1)) by (cbn; lra). apply bpow_le; lia. }
  assert (B3 : bpow radix2 (-50) <= 1/2). { replace (1/2) with (bpow radix2 (-1)) by (cbn; lra). apply bpow_le; lia. }
  assert (B4 : 5/2 <= bpow radix2 50). { apply Rle_trans with (bpow radix2 2); [cbn; lra|apply bpow_le; lia]. }
  destruct (fvnorm_big2 p t v O Fv) as [Fn Hn]; [fold N; lra|]. fold N in Hn. pose proof (Rabs_both _ _ Hn) as Hn'.
  unfold fvnormalized. cbv zeta. set (n := fvnorm t v) in *. set (z := fdot t (flist v) (flist v)) in *.
  assert (UN : 0 <= fu p * N <= / 100000 * N). { split; [apply Rmult_le_pos; lra|apply Rmult_le_compat_r; lra]. }
  assert (Fz : is_finite z = true).
  { destruct Fv as (Fx & Fy & Fz). destruct (fdot3_err p t _ _ _ _ _ _ (N * N) O Fx Fy Fz Fx Fy Fz) as [F _]; [apply dotabs3| |exact F].
    apply Rle_trans with (bpow radix2 2 * bpow radix2 2); [change (bpow radix2 2) with 4; apply Rmult_le_compat; lra|]. rewrite <- bpow_plus. apply bpow_le; lia. }
  assert (Nz : 0 <= B2R z) by (apply fdot_squares_nonneg, Fv).
  destruct (fsqrt_R p z Fz Nz) as [_ Rz]. change (fsqrt z) with n in Rz.
  assert (Pz : 0 < B2R z). { destruct Nz as [K|K]; [exact K|]. rewrite <- K, sqrt_0, rnd_0 in Rz. lra. }
  rewrite (flt_R p fzero z eq_refl Fz), Rlt_bool_true by exact Pz. change (fsqrt z) with n.
  assert (PN : 0 < N) by lra. assert (LB : bpow radix2 (-50) <= N <= bpow radix2 50) by lra.
  assert (VC : Rabs (B2R (gx v)) <= N /\ Rabs (B2R (gy v)) <= N /\ Rabs (B2R (gz v)) <= N) by apply (vcomp_le (vval v)).
  destruct VC as (Vx & Vy & Vz). destruct Fv as (Fx & Fy & Fz').
  destruct (fscale_down_err p dm n (gx v) N Fn Fx LB Hn Vx) as [Gx Ex].
  destruct (fscale_down_err p dm n (gy v) N Fn Fy LB Hn Vy) as [Gy Ey].
  destruct (fscale_down_err p dm n (gz v) N Fn Fz' LB Hn Vz) as [Gz Ez].
  split; [repeat split; assumption|].
  eapply Rle_trans; [apply (vec_rel_err _ _ ((5 + / 10) * fu p) (/ 100 * fu p))|].
  * lra.
  * lra.
  * cbn [vval fvdiv gx vx vscale]. unfold Rdiv in Ex. rewrite Rabs_mult, (Rabs_pos_eq (/ N)) by (left; apply Rinv_0_lt_compat, PN). rewrite !(Rmult_comm (/ N)). exact Ex.
  * cbn [vval fvdiv gy vy vscale]. unfold Rdiv in Ey. rewrite Rabs_mult, (Rabs_pos_eq (/ N)) by (left; apply Rinv_0_lt_compat, PN). rewrite !(Rmult_comm (/ N)). exact Ey.
  * cbn [vval fvdiv gz vz vscale]. unfold Rdiv in Ez. rewrite Rabs_mult, (Rabs_pos_eq (/ N)) by (left; apply Rinv_0_lt_compat, PN). rewrite !(Rmult_comm (/ N)). exact Ez.
  * rewrite (vnorm_unit (vscale (/ N) (vval v))) by (apply vdir_unit, PN). lra.
Qed.
Lemma faa_fix_err p t dm (a : fl p) (n : FV p) T : order 3 t -> object_ok T (SrcAA a n) ->
  Rabs (vnorm (vval (fvnormalized t dm n)) - 1) <= 6 * fu p /\ object_ok T (SrcAA a (fvnormalized t dm n)) /\ close (25 * fu p) (turns (SrcAA a (fvnormalized t dm n))) (turns (SrcAA a n)).
Proof.
  intros O (Fa & Fn & HT & AX). pose proof (fu_pos p) as U. pose proof (fu_24 p) as V. pose proof (axis_pos p a n AX) as P.
  assert (HV : 1/2 <= vnorm (vval n) <= 5/2). { destruct AX as [H|[_ H]]; [|exact H]. rewrite roundoff_fu in H. apply Rabs_both in H. lra. }
  destruct (fvnormalized_err p t dm n O Fn HV) as [F E]. set (n' := fvnormalized t dm n) in *. set (e := vscale (/ vnorm (vval n)) (vval n)) in *.
  assert (NE : vnorm2 e = 1) by (apply vdir_unit, P). pose proof (vnorm_unit e NE) as NE1.
  assert (N' : Rabs (vnorm (vval n') - 1) <= 6 * fu p).
  { unfold vdist in E. pose proof (vnorm_le_add (vval n') e _ E) as X.
    assert (E2 : vnorm (vsub e (vval n')) <= 6 * fu p) by (replace (vnorm (vsub e (vval n'))) with (vnorm (vsub (vval n') e)) by (unfold vnorm; f_equal; lin); exact E).
    pose proof (vnorm_le_add e (vval n') _ E2) as Y. rewrite NE1 in X, Y. apply Rabs_le. lra. }
  split; [exact N'|]. split.
  { split; [exact Fa|]. split; [exact F|]. split; [exact HT|]. left. rewrite roundoff_fu. lra. }
  destruct (axis_unit (vval n') (6 * fu p) N' ltac:(lra)) as (U1 & U2 & U3). set (g := vscale (/ vnorm (vval n')) (vval n')) in *.
  assert (P' : 0 < vnorm (vval n')) by (apply Rabs_both in N'; lra).
  rewrite (turns_aa p a n' P'), (turns_aa p a n P). fold e g.
  eapply close_mono; [|apply (from_qdist _ _ (12 * fu p))].
  - lra.
  - apply half_quat_qnorm, U1.
  - apply half_quat_qnorm, NE.
  - eapply Rle_trans; [apply half_quat_axis|]. assert (DG : vdist g e <= 12 * fu p).
    { unfold vdist in *. replace (vsub g e) with (vadd (vsub g (vval n')) (vsub (vval n') e)) by lin. eapply Rle_trans; [apply vnorm_triang3|].
      replace (vnorm (vsub g (vval n'))) with (vnorm (vsub (vval n') g)) by (unfold vnorm; f_equal; lin). lra. }
    pose proof (SIN_bound (B2R a / 2)) as SB. assert (SA : Rabs (sin (B2R a / 2)) <= 1) by (apply Rabs_le; lra).
    apply Rle_trans with (1 * (12 * fu p)); [|lra]. apply Rmult_le_compat; [apply Rabs_pos|apply vn_nonneg|exact SA|exact DG].
Qed.

(** ** fix of any object *)
Lemma ofix_ok p P c T A (x : fobject p) r : pow_ok P -> choices6_ok c -> stands T A x r -> fix_limit p (okind_of x) A ->
  okind_of (ofix P c x) = okind_of x /\
  exists r', stands T (fix_defect (okind_of x) A) (ofix P c x) r' /\ close (fix_roundings (okind_of x) * fu p) r' r.
Proof.
  intros HP ((HB & (HE & _) & _) & _ & _ & ON & OD & OM) H LIM. pose proof (fu_pos p) as U. pose proof (fu_24 p) as V.
  assert (B3 : bpow radix2 (-50) <= 1/2). { replace (1/2) with (bpow radix2 (-1)) by (cbn; lra). apply bpow_le; lia. }
  assert (B4 : 2 <= bpow radix2 50). { change 2 with (bpow radix2 1). apply bpow_le; lia. }
  destruct x as [q|m|s]; cbn [stands okind_of fix_limit fix_defect fix_roundings ofix] in *; rewrite ?roundoff_fu in *.
  - split; [reflexivity|]. destruct H as (F & N & <-). destruct (unit_near p q A F N ltac:(lra)) as (PQ & DQ & _). pose proof (Rabs_both _ _ N) as BN.
    destruct (fnormalize_err p (c6_norm c) (c6_div c) q ON F ltac:(lra)) as [F' E'].
    destruct (near_unit p (fnormalize (c6_norm c) (c6_div c) q) _ 6 DQ E' ltac:(lra)) as (N1 & N2 & N3).
    eexists. split; [split; [exact F'|split; [exact N1|reflexivity]]|]. eapply close_mono; [|exact N3]. lra.
  - split; [reflexivity|]. destruct H as (F & S & C). destruct (fmat_fix_err p P (c6_det c) (c6_minor c) m r _ HP OD OM F S C LIM) as (F' & C' & _).
    exists r. split; [|apply close_refl; lra]. split; [exact F'|]. split; [exact S|]. eapply close_mono; [|exact C']. lra.
  - destruct H as (O & <-). destruct s as [a n|v|a b d|a b d]; cbn [skind_of].
    + split; [reflexivity|]. destruct (faa_fix_err p (x_norm (ch_ext (c6_src c))) (c6_div c) a n T HE O) as (_ & X & Y). eexists. split; [split; [exact X|reflexivity]|exact Y].
    + split; [reflexivity|]. eexists. split; [split; [exact O|reflexivity]|]. apply close_refl; lra.
    + split; [reflexivity|]. eexists. split; [split; [exact O|reflexivity]|]. apply close_refl; lra.
    + split; [reflexivity|]. eexists. split; [split; [exact O|reflexivity]|]. apply close_refl; lra.
Qed.
