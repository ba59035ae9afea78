(** setFromTwoVectors in floating point: the branch of nearly opposite vectors. *)
From Coq Require Import ZArith Reals Lra Psatz Bool List Lia Permutation.
From Flocq Require Import IEEE754.BinarySingleNaN Core.Core.
From Verif Require Import Linalg Spec SpecFacts SpecClose ModelCommon ModelEigen CommonFacts CloseFacts SetFacts FloatModel FloatFacts FloatWrap FloatModel2 SpecFloatQ FloatQFacts FloatQProd FloatQRot FloatModel3 SpecLibm FloatBuild FloatBuild2 FloatBuild3 FloatModel4 FloatModel5 FloatExt FloatExt2 FloatExt3 FloatExt5 FloatModel6 FloatModel7 FloatModel10 SpecVecF FloatVec FloatVec2 FloatVec3 FloatVec4 FloatModel11 FloatModel13 SpecTwo FloatTwo FloatTwo2.
Import ListNotations.
Local Open Scope R_scope.

(** w = sqrt(w2), s = sqrt(1 - w2) *)
Lemma opposite_scalars p (c : fl p) : is_finite c = true -> 1 + B2R c <= B2R (fdummy p) + fu p -> - 13 * fu p <= 1 + B2R c ->
  let w2 := fmul (fadd (fofZ p 1) (fmax c (fofZ p (-1)))) (fhalf p) in let w := fsqrt w2 in let s := fsqrt (fsub (fofZ p 1) w2) in
  is_finite w = true /\ is_finite s = true /\ 0 <= B2R w2 <= 504/1000 * B2R (fdummy p) /\ Rabs (B2R w - sqrt (B2R w2)) <= / 20 * fu p /\ Rabs (B2R s - sqrt (1 - B2R w2)) <= 17/10 * fu p.
Proof.
  intros F H L. cbv zeta. pose proof (fu_pos p) as U. pose proof (fu_24 p) as V. pose proof (eta5_u p) as E5. pose proof (eta_pos p) as E0. destruct (fofZ1 p) as [F1 V1]. destruct (fofZm1 p) as [Fm Vm].
  destruct (dummy_facts p) as (_ & _ & _ & _ & C3). set (d := B2R (fdummy p)) in *.
  set (c' := fmax c (fofZ p (-1))). assert (C' : is_finite c' = true /\ 0 <= 1 + B2R c' <= d + fu p).
  { unfold c', fmax. rewrite (flt_R p _ _ F Fm), Vm. destruct (Rlt_bool_spec (B2R c) (-1)); [rewrite Vm; split; [exact Fm|lra]|split; [exact F|lra]]. }
  destruct C' as [Fc' B']. clearbody c'.
  destruct (fadd_R p (fofZ p 1) c' F1 Fc') as [Ra Fa]. { rewrite V1, Rabs_pos_eq by lra. pose proof (four_fbig p). lra. }
  set (A := fadd (fofZ p 1) c') in *. rewrite V1 in Ra. assert (EA : Rabs (B2R A - (1 + B2R c')) <= fu p * (1 + B2R c')).
  { rewrite Ra. rewrite <- (Rabs_pos_eq (1 + B2R c')) at 3 by lra. apply rnd_add_err; [rewrite <- V1|]; apply fmt_B2R. }
  assert (fu p * (1 + B2R c') <= / 16777216 * (1 + B2R c')) by (apply Rmult_le_compat_r; lra). apply Rabs_both in EA.
  assert (A0 : 0 <= B2R A) by (rewrite Ra; apply rnd_nonneg; lra).
  destruct (fhalf_R p) as [Fh Vh].
  destruct (fmul_R p A (fhalf p) Fa Fh) as [Rw Fw]. { rewrite Vh, Rabs_pos_eq by lra. pose proof (four_fbig p). lra. }
  rewrite Vh in Rw. fold (B2R A / 2) in Rw. pose proof (rnd_half p (B2R A) (fmt_B2R p A)) as Ew. rewrite <- Rw in Ew. apply Rabs_both in Ew.
  assert (W0 : 0 <= B2R (fmul A (fhalf p))) by (rewrite Rw; apply rnd_nonneg; lra).
  set (w2 := fmul A (fhalf p)) in *. assert (W1 : B2R w2 <= 504/1000 * d) by lra.
  destruct (fsqrt_R p w2 Fw W0) as [Fs Rs]. set (r := sqrt (B2R w2)) in *. assert (r0 : 0 <= r) by apply sqrt_pos. assert (rr : r * r = B2R w2) by (apply sqrt_sqrt; exact W0).
  assert (r1 : r <= / 100) by (apply sq_le_le; lra).
  pose proof (rnd_err_le p r) as Es. rewrite <- Rs in Es. rewrite (Rabs_pos_eq r) in Es by exact r0. assert (fu p * r <= fu p * / 100) by (apply Rmult_le_compat_l; lra).
  destruct (fsub_R p (fofZ p 1) w2 F1 Fw) as [Rd Fd]. { rewrite V1, Rabs_pos_eq by lra. pose proof (four_fbig p). lra. }
  rewrite V1 in Rd. set (D := fsub (fofZ p 1) w2) in *.
  assert (ED : Rabs (B2R D - (1 - B2R w2)) <= fu p).
  { rewrite Rd. eapply Rle_trans; [apply rnd_add_err; [rewrite <- V1; apply fmt_B2R|apply fmt_opp, fmt_B2R]|]. rewrite <- (Rmult_1_r (fu p)) at 2. apply Rmult_le_compat_l; [lra|]. rewrite Rabs_pos_eq; lra. }
  apply Rabs_both in ED. destruct (fsqrt_R p D Fd) as [FS RS]; [lra|]. set (y := sqrt (B2R D)) in *. set (z := sqrt (1 - B2R w2)).
  assert (yy : y * y = B2R D) by (apply sqrt_sqrt; lra). assert (zz : z * z = 1 - B2R w2) by (apply sqrt_sqrt; lra). assert (y0 : 0 <= y) by apply sqrt_pos. assert (z0 : 0 <= z) by apply sqrt_pos.
  assert (y1 : 99/100 <= y) by (apply sq_le_le; lra). assert (z1 : 99/100 <= z) by (apply sq_le_le; lra). assert (y2 : y <= 1 + / 1000) by (apply sq_le_le; lra).
  assert (yz : Rabs (y - z) <= 6/10 * fu p).
  { apply Rmult_le_reg_r with (y + z); [lra|]. rewrite <- (Rabs_pos_eq (y + z)) at 1 by lra. rewrite <- Rabs_mult. replace ((y - z) * (y + z)) with (y * y - z * z) by ring. rewrite yy, zz.
    apply Rle_trans with (fu p); [apply Rabs_le; lra|]. assert (6/10 * fu p * (198/100) <= 6/10 * fu p * (y + z)) by (apply Rmult_le_compat_l; lra). lra. }
  pose proof (rnd_err_le p y) as Ey. rewrite <- RS in Ey. rewrite (Rabs_pos_eq y) in Ey by lra. assert (fu p * y <= fu p * (1 + / 1000)) by (apply Rmult_le_compat_l; lra).
  apply Rabs_both in yz. apply Rabs_both in Ey.
  split; [exact Fs|]. split; [exact FS|]. split; [lra|]. split; [lra|]. apply Rabs_le. lra.
Qed.

(** the exact quaternion with this scalar part and the axis [n] *)
Definition near_half (w2 : R) (n : V3) : Quat := let v := vscale (sqrt (1 - w2)) n in mkQ (sqrt w2) (vx v) (vy v) (vz v).
Lemma near_half_vec w2 n : qvec (near_half w2 n) = vscale (sqrt (1 - w2)) n. Proof. destruct n as [x y z]; reflexivity. Qed.
Lemma near_half_unit w2 n : 0 <= w2 <= 1 -> vnorm2 n = 1 -> qnorm (near_half w2 n) = 1.
Proof.
  intros W N. unfold qnorm. rewrite qnorm2_vec, near_half_vec, vnorm2_vscale, N. cbn [near_half qw]. change (qw (near_half w2 n)) with (sqrt w2). rewrite !sqrt_sqrt by lra.
  replace (w2 + (1 - w2) * 1) with 1 by ring. apply sqrt_1.
Qed.
Lemma near_half_maps w2 n a b e d : 0 <= w2 <= / 2 * d -> 0 < d <= / 5000 -> vnorm2 n = 1 -> vnorm2 a = 1 -> vnorm2 b = 1 -> Rabs (vdot n a) <= e -> 0 <= 1 + vdot a b <= d ->
  vdist (mvmul (quat_rot (near_half w2 n)) a) b <= 285/100 * sqrt d + 2 * e.
Proof.
  intros W D N A B E H. set (r := sqrt d). assert (r0 : 0 <= r) by apply sqrt_pos. assert (rr : r * r = d) by (apply sqrt_sqrt; lra). assert (r1 : r <= 15/1000) by (apply sq_le_le; lra).
  assert (N1 : vnorm n = 1) by now apply vnorm_unit. assert (A1 : vnorm a = 1) by now apply vnorm_unit.
  set (x := sqrt w2). assert (x0 : 0 <= x) by apply sqrt_pos. assert (xx : x * x = w2) by (apply sqrt_sqrt; lra). assert (x1 : x <= 7072/10000 * r).
  { apply sq_le_le; [lra|]. replace (7072 / 10000 * r * (7072 / 10000 * r)) with (7072 / 10000 * (7072/10000) * (r * r)) by ring. lra. }
  set (y := sqrt (1 - w2)). assert (y0 : 0 <= y) by apply sqrt_pos. assert (yy : y * y = 1 - w2) by (apply sqrt_sqrt; lra). assert (y1 : y <= 1) by (apply sq_le_le; lra).
  rewrite sandwich_formula, near_half_vec. change (qw (near_half w2 n)) with x. fold y.
  assert (S1 : vnorm (vadd a b) <= 1415/1000 * r).
  { apply vnorm_le_sq; [lra|]. replace (vnorm2 (vadd a b)) with (vnorm2 a + vnorm2 b + 2 * vdot a b) by (clear; lin). replace (1415/1000 * r * (1415/1000 * r)) with (1415/1000 * (1415/1000) * (r * r)) by ring. lra. }
  replace (vnorm2 (vscale y n)) with (1 - w2) by (rewrite vnorm2_vscale, N, yy; ring). rewrite xx.
  assert (Id : forall x y, vsub (vadd (vadd (vscale (w2 - (1 - w2)) a) (vscale (2 * vdot (vscale y n) a) (vscale y n))) (vscale (2 * x) (vcross (vscale y n) a))) b
    = vadd (vadd (vscale (-1) (vadd a b)) (vscale (2 * w2) a)) (vadd (vscale (2 * (y * y) * vdot n a) n) (vscale (2 * x * y) (vcross n a)))) by (clear; intros; lin).
  unfold vdist. rewrite Id. clear Id.
  eapply Rle_trans; [apply vnorm_triang|]. pose proof (vnorm_triang (vscale (-1) (vadd a b)) (vscale (2 * w2) a)) as T1. pose proof (vnorm_triang (vscale (2 * (y * y) * vdot n a) n) (vscale (2 * x * y) (vcross n a))) as T2.
  rewrite !vnorm_vscale in T1, T2. rewrite A1 in T1. rewrite N1 in T2.
  replace (Rabs (-1)) with 1 in T1 by (rewrite Rabs_left; lra). rewrite (Rabs_pos_eq (2 * w2)) in T1 by lra.
  rewrite (Rabs_mult (2 * (y * y))), (Rabs_pos_eq (2 * (y * y))) in T2 by (rewrite yy; lra). rewrite (Rabs_pos_eq (2 * x * y)) in T2 by (apply Rmult_le_pos; lra).
  pose proof (vnorm_cross_le n a) as C. rewrite N1, A1 in C. pose proof (vn_nonneg (vcross n a)) as C0. pose proof (Rabs_pos (vdot n a)).
  assert (M1 : 2 * (y * y) * Rabs (vdot n a) * 1 <= 2 * e). { rewrite yy, Rmult_1_r. apply Rle_trans with (2 * 1 * Rabs (vdot n a)); [apply Rmult_le_compat_r; lra|lra]. }
  assert (M2 : 2 * x * y * vnorm (vcross n a) <= 2 * x). { apply Rle_trans with (2 * x * 1 * 1); [|lra]. apply Rmult_le_compat; try lra; [apply Rmult_le_pos; lra|apply Rmult_le_compat_l; lra]. }
  assert (rs : r * r <= 15/1000 * r) by (apply Rmult_le_compat_r; lra). lra.
Qed.

Lemma add_norm2 (a b : V3) : vnorm2 (vadd a b) = vnorm2 a + vnorm2 b + 2 * vdot a b. Proof. lin. Qed.
Lemma add_split (a b c d : V3) : vadd c d = vadd (vadd a b) (vadd (vsub c a) (vsub d b)). Proof. lin. Qed.
Lemma scale_scale N i (v : V3) : vscale N (vscale i v) = vscale (N * i) v. Proof. lin. Qed.
Lemma scale_1 (v : V3) : vscale 1 v = v. Proof. lin. Qed.
Lemma scale_sub s N z (n : V3) : vsub (vscale s (vscale N n)) (vscale z n) = vscale (s * (N - 1) + (s - z)) n. Proof. lin. Qed.
Lemma dot_split (x v a : V3) : vdot x a = vdot x v - vdot x (vsub v a). Proof. lin. Qed.
Lemma dot_scale N (n a : V3) : vdot (vscale N n) a = N * vdot n a. Proof. lin. Qed.
Section Opposite.
Variables (p : prim) (svd : FV p -> FV p -> FV p) (o : tv_choices) (a b : FV p) (k : R).
Hypotheses (O : tv_ok o) (Fa : vfinite a) (Fb : vfinite b) (Na : ordinary (vval a)) (Nb : ordinary (vval b)) (Opp : tv_regular o a b = false)
  (K : 0 <= k) (Ku : k * fu p <= / 100) (Svd : svd_accurate p k svd).
Let ua := udir (vval a).
Let ub := udir (vval b).
Lemma two_opposite : 0 <= 1 + vdot ua ub <= B2R (fdummy p) + 14 * fu p /\
  exists q1, qfinite (ftwo_vectors svd o a b) /\ qnorm q1 = 1 /\ qdist (qval (ftwo_vectors svd o a b)) q1 <= (11/10 * k + 4) * fu p /\
    vdist (mvmul (quat_rot q1) ua) ub <= 3 * sqrt (B2R (fdummy p)) + (21/10 * k + 10) * fu p.
Proof.
  pose proof (fu_pos p) as U. pose proof (fu_24 p) as V. unfold tv_regular in Opp. apply Bool.negb_false_iff in Opp.
  destruct (branch_opposite p o a b O Fa Fb Na Nb Opp) as (B1 & B2 & B3). destruct (common_dot p o a b O Fa Fb Na Nb) as [Fc Ec].
  destruct (udir_unit _ Na) as [A2 A1]. destruct (udir_unit _ Nb) as [C2 C1]. fold ua in A1, A2, B2, Ec. fold ub in C1, C2, B2, Ec.
  destruct O as (_ & _ & O1 & O2 & _). destruct (nrm_err p _ (tv_div o) a O1 Fa Na) as (F0 & D0 & N0). destruct (nrm_err p _ (tv_div o) b O2 Fb Nb) as (F1 & D1 & N1). fold ua in D0. fold ub in D1.
  split; [exact B2|]. unfold ftwo_vectors. cbv zeta. rewrite Opp.
  set (v0 := fvnormalized (tv_norm1 o) (tv_div o) a) in *. set (v1 := fvnormalized (tv_norm2 o) (tv_div o) b) in *. set (c := fdot _ _ _) in *.
  destruct (dummy_facts p) as (_ & _ & _ & _ & C3).
  assert (SumU : vnorm (vadd ua ub) <= 15/1000).
  { apply vnorm_le_sq; [lra|]. rewrite add_norm2. lra. }
  assert (Sum : vnorm (vadd (vval v0) (vval v1)) <= / 50).
  { rewrite (add_split ua ub).
    eapply Rle_trans; [apply vnorm_triang|]. pose proof (vnorm_triang (vsub (vval v0) ua) (vsub (vval v1) ub)). unfold vdist in D0, D1. lra. }
  destruct (Svd v0 v1 F0 F1 ltac:(lra) ltac:(lra) Sum) as (Fx & Nx & X0 & X1). set (x := svd v0 v1) in *.
  destruct (opposite_scalars p c Fc B1 B3) as (Fw & Fs & W2 & Ew & Es).
  set (w2 := fmul _ _) in *. set (w := fsqrt w2) in *. set (s := fsqrt (fsub (fofZ p 1) w2)) in *. set (W := B2R w2) in *. set (d := B2R (fdummy p)) in *.
  set (n := udir (vval x)). apply Rabs_both in Nx. set (N := vnorm (vval x)) in *.
  assert (Nz : 99/100 <= N <= 101/100) by lra.
  assert (n2 : vnorm2 n = 1). { unfold n, udir. apply vnorm2_unitize. fold N. lra. }
  assert (n1 : vnorm n = 1) by now apply vnorm_unit.
  assert (xn : vval x = vscale N n). { unfold n, udir. fold N. rewrite scale_scale, Rinv_r by lra. symmetry. apply scale_1. }
  set (z := sqrt (1 - W)) in *. assert (z0 : 0 <= z) by apply sqrt_pos. assert (zz : z * z = 1 - W) by (apply sqrt_sqrt; lra). assert (z1 : z <= 1) by (apply sq_le_le; lra).
  apply Rabs_both in Es. assert (s1 : Rabs (B2R s) <= 1001/1000).
  { apply Rabs_le. lra. }
  destruct (scale_err p x s Fx Fs) as [Fv Ev]; [fold N; lra| |]. { eapply Rle_trans; [exact s1|]. apply Rle_trans with (bpow radix2 1); [cbn; lra|apply bpow_le; lia]. }
  set (v := mkFV _ _ _) in *. fold N in Ev.
  exists (near_half W n). split; [|split; [|split]].
  - destruct Fv as (G0 & G1 & G2). split; [exact Fw|]. split; [exact G0|]. split; [exact G1|exact G2].
  - apply near_half_unit; [lra|exact n2].
  - assert (Dv : vdist (vval v) (vscale z n) <= (101/100 * k + 33/10) * fu p).
    { unfold vdist in *. eapply Rle_trans; [apply (vnorm_sub_triang _ (vscale (B2R s) (vval x)))|].
      assert (Dx : vnorm (vsub (vscale (B2R s) (vval x)) (vscale z n)) <= 1002/1000 * (k * fu p) + 17/10 * fu p).
      { rewrite xn. rewrite scale_sub, vnorm_vscale, n1, Rmult_1_r.
        eapply Rle_trans; [apply Rabs_triang|]. rewrite Rabs_mult. apply Rplus_le_compat; [|apply Rabs_le; lra]. apply Rmult_le_compat; try apply Rabs_pos; [lra|apply Rabs_le; lra]. }
      assert (fu p * (Rabs (B2R s) * N) <= fu p * (1012/1000)).
      { apply Rmult_le_compat_l; [lra|]. apply Rle_trans with (1001/1000 * (101/100)); [apply Rmult_le_compat; try apply Rabs_pos; lra|lra]. }
      assert (0 <= k * fu p) by (apply Rmult_le_pos; lra).
      lra. }
    assert (k0 : 0 <= k * fu p) by (apply Rmult_le_pos; lra).
    apply sq_le_le; [lra|]. unfold qdist. eapply Rle_trans.
    + eapply (qdist_parts _ _ (B2R w) (vval v) (sqrt W) (vscale z n)); [reflexivity|reflexivity|reflexivity|apply near_half_vec|exact Ew|exact Dv].
    + set (m := (101/100 * k + 33/10) * fu p). assert (0 <= m) by (unfold m; lra). apply Rle_trans with ((/ 20 * fu p + m) * (/ 20 * fu p + m)); [nra|]. apply Rmult_le_compat; unfold m in *; lra.
  - assert (E : Rabs (vdot n ua) <= (102/100 * k + 483/100) * fu p).
    { assert (E1 : Rabs (vdot (vval x) ua) <= k * fu p + N * (4821/1000 * fu p)).
      { rewrite (dot_split (vval x) (vval v0) ua). eapply Rle_trans; [apply Rabs_triang|]. rewrite Rabs_Ropp. apply Rplus_le_compat; [exact X0|].
        eapply Rle_trans; [apply vcs_abs|]. fold N. apply Rmult_le_compat_l; [lra|exact D0]. }
      rewrite xn in E1. rewrite dot_scale, Rabs_mult, (Rabs_pos_eq N) in E1 by lra.
      apply Rmult_le_reg_l with N; [lra|]. eapply Rle_trans; [exact E1|]. replace (N * ((102/100 * k + 483/100) * fu p)) with (N * (102/100 * (k * fu p)) + N * (483/100 * fu p)) by ring.
      assert (k0 : 0 <= k * fu p) by (apply Rmult_le_pos; lra). assert (99/100 * (102/100 * (k * fu p)) <= N * (102/100 * (k * fu p))) by (apply Rmult_le_compat_r; lra).
      assert (N * (4821/1000 * fu p) <= N * (483/100 * fu p)) by (apply Rmult_le_compat_l; lra). lra. }
    eapply Rle_trans; [apply (near_half_maps W n ua ub ((102/100 * k + 483/100) * fu p) (1084/1000 * d)); [lra|lra|exact n2|exact A2|exact C2|exact E|lra]|].
    assert (R : sqrt (1084/1000 * d) <= 1042/1000 * sqrt d).
    { assert (r0 : 0 <= sqrt d) by apply sqrt_pos. apply sq_le_le; [lra|]. rewrite sqrt_sqrt by lra. replace (1042/1000 * sqrt d * (1042/1000 * sqrt d)) with (1042/1000 * (1042/1000) * (sqrt d * sqrt d)) by ring. rewrite sqrt_sqrt by lra. lra. }
    assert (r0 : 0 <= sqrt d) by apply sqrt_pos. assert (k0 : 0 <= k * fu p) by (apply Rmult_le_pos; lra). lra.
Qed.
End Opposite.

(** both branches: the direction of the result *)
Lemma turned_close q q1 a b d m : qnorm q1 = 1 -> vnorm a = 1 -> qdist q q1 <= d -> d <= / 3 -> vdist (mvmul (quat_rot q1) a) b <= m ->
  Rabs (qnorm q - 1) <= d /\ vdist (mvmul (quat_rot (direction q)) a) b <= 2 * (d / (1 - d)) + m.
Proof.
  intros Q A D L M. pose proof (qdist_norm q q1) as N. rewrite Q in N. pose proof (qdist_nonneg q q1) as D0. split; [lra|]. apply Rabs_both in N.
  pose proof (direction_close q q1 Q ltac:(lra) ltac:(lra)) as C.
  assert (C' : qdist (direction q) q1 <= d / (1 - d)).
  { eapply Rle_trans; [exact C|]. unfold Rdiv. apply Rmult_le_compat; [lra|apply Rlt_le, Rinv_0_lt_compat; lra|exact D|]. apply Rinv_le; lra. }
  assert (U : qnorm (direction q) = 1) by (apply direction_norm; lra).
  pose proof (from_qdist _ _ _ U Q C' a) as F. rewrite A in F. unfold vdist in *. eapply Rle_trans; [apply (vnorm_sub_triang _ (mvmul (quat_rot q1) a))|]. lra.
Qed.
