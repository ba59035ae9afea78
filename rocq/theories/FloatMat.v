(** Rounding errors of the conversion of a rotation matrix to a quaternion. *)
From Coq Require Import ZArith Reals Lra Psatz Bool List Lia.
From Flocq Require Import IEEE754.BinarySingleNaN Core.Core.
From Verif Require Import Linalg Spec SpecFacts SpecClose ModelCommon ModelEigen CommonFacts ModelRotation ConvFacts CloseFacts RVFacts EulerNear
  FloatModel FloatFacts FloatModel2 SpecFloatQ FloatQFacts FloatQProd FloatQHist FloatQRot FloatMHist FloatCast FloatWrap FloatModel3 SpecLibm FloatBuild FloatBuild2 FloatBuild3 FloatBuild4 FloatModel4 FloatExt FloatExt2 FloatModel5 FloatPose FloatModel6.
Import ListNotations.
Local Open Scope R_scope.

Lemma fadd_err p (x y : fl p) N : is_finite x = true -> is_finite y = true -> Rabs (B2R x + B2R y) <= N -> N <= 8 ->
  is_finite (fadd x y) = true /\ Rabs (B2R (fadd x y) - (B2R x + B2R y)) <= fu p * N.
Proof.
  intros Fx Fy H HN. destruct (fadd_R p x y Fx Fy) as [E F].
  { eapply Rle_trans; [|apply bpow100_fbig]. apply Rle_trans with (bpow radix2 3); [change (bpow radix2 3) with 8; lra|apply bpow_le; lia]. }
  split; [exact F|]. rewrite E. eapply Rle_trans; [apply rnd_add_err; apply fmt_B2R|]. apply Rmult_le_compat_l; [pose proof (fu_pos p); lra|exact H].
Qed.
Lemma fsub_err p (x y : fl p) N : is_finite x = true -> is_finite y = true -> Rabs (B2R x - B2R y) <= N -> N <= 8 ->
  is_finite (fsub x y) = true /\ Rabs (B2R (fsub x y) - (B2R x - B2R y)) <= fu p * N.
Proof.
  intros Fx Fy H HN. destruct (fsub_R p x y Fx Fy) as [E F].
  { eapply Rle_trans; [|apply bpow100_fbig]. apply Rle_trans with (bpow radix2 3); [change (bpow radix2 3) with 8; lra|apply bpow_le; lia]. }
  split; [exact F|]. rewrite E. 
  assert (Q : Rabs (rnd p (B2R x - B2R y) - (B2R x - B2R y)) <= fu p * Rabs (B2R x - B2R y)).
  { pose proof (rnd_add_err p (B2R x) (- B2R y) (fmt_B2R p _)) as T. unfold Rminus at 2 3 4. apply T. rewrite <- fneg_val. apply fmt_B2R. }
  eapply Rle_trans; [exact Q|]. apply Rmult_le_compat_l; [pose proof (fu_pos p); lra|exact H].
Qed.

(** the square root, its half, and the factor of the other three components *)
Lemma fpivot_err p (S : fl p) a ds : is_finite S = true -> 0 < a -> 98/100 <= 4 * (a * a) <= 4 -> Rabs (B2R S - 4 * (a * a)) <= ds -> ds <= / 100 ->
  let s := fsqrt S in let k := fdiv (fhalf p) s in
  is_finite (fmul (fhalf p) s) = true /\ is_finite k = true /\
  Rabs (B2R (fmul (fhalf p) s) - a) <= 26/100 * ds + 11/10 * fu p /\
  0 <= B2R k <= 53/100 /\ Rabs (4 * a * B2R k - 1) <= 53/100 * ds + 22/10 * fu p.
Proof.
  intros FS A0 A2 HS Hd s k. pose proof (fu_pos p) as U. pose proof (fu_24 p) as V. pose proof (eta_pos p) as P. pose proof (eta_u7 p) as T.
  apply Rabs_both in HS as HS'. set (x := B2R S) in *. assert (X : 97/100 <= x <= 401/100) by lra.
  destruct (fsqrt_R p S FS ltac:(fold x; lra)) as [Fs Es]. fold s x in Fs, Es. set (g := sqrt x) in *.
  assert (GG : g * g = x) by (apply sqrt_sqrt; lra). assert (G0 : 0 <= g) by apply sqrt_pos.
  assert (GB : 984/1000 <= g <= 2003/1000) by (split; nra). assert (AB : 494/1000 <= a <= 1) by (split; nra).
  assert (GA : Rabs (g - 2 * a) <= 51/100 * ds).
  { assert (E : (g - 2 * a) * (g + 2 * a) = x - 4 * (a * a)) by (rewrite <- GG; ring).
    apply Rmult_le_reg_r with (g + 2 * a); [lra|]. rewrite <- (Rabs_pos_eq (g + 2 * a)) at 1 by lra. rewrite <- Rabs_mult, E. eapply Rle_trans; [exact HS|].
    assert (0 <= ds) by lra. assert (ds * 1 <= ds * (51/100 * (g + 2 * a))) by (apply Rmult_le_compat_l; lra). lra. }
  pose proof (rnd_err_le p g) as Eg. rewrite <- Es, (Rabs_pos_eq g) in Eg by lra. set (y := B2R s) in *.
  assert (UG : fu p * g <= fu p * (2003/1000)) by (apply Rmult_le_compat_l; lra).
  apply Rabs_both in Eg as Eg'. assert (YB : 983/1000 <= y <= 2004/1000) by lra.
  destruct (half_R p s Fs) as [Fh Eh]. split; [exact Fh|].
  destruct (fhalf_R p) as [Fhf Ehf].
  assert (Ky : / 2 / y = / (2 * y)) by (field; lra).
  assert (Kb : 249/1000 <= / 2 / y <= 509/1000).
  { split; apply Rmult_le_reg_r with y; try lra; unfold Rdiv; rewrite ?Rmult_assoc, Rinv_l by lra; lra. }
  destruct (fdiv_R p (fhalf p) s Fhf) as [Ek Fk]; [fold y; lra| |].
  { fold y. rewrite Ehf, Rabs_pos_eq by lra. eapply Rle_trans; [|apply bpow100_fbig]. apply Rle_trans with (bpow radix2 0); [change (bpow radix2 0) with 1; lra|apply bpow_le; lia]. }
  fold k y in Ek, Fk. rewrite Ehf in Ek. split; [exact Fk|].
  apply Rabs_both in GA as GA'. apply Rabs_both in Eh as Eh'. fold y in Eh'.
  split. { apply Rabs_le. lra. }
  pose proof (rnd_err_le p (/ 2 / y)) as Ee. rewrite <- Ek, (Rabs_pos_eq (/ 2 / y)) in Ee by lra. set (z := / 2 / y) in *.
  assert (UZ : fu p * z <= fu p * (509/1000)) by (apply Rmult_le_compat_l; lra). apply Rabs_both in Ee as Ee'.
  split; [lra|].
  assert (ZY : z * y = / 2) by (unfold z; field; lra).
  (* 4 a k - 1 = 4 a (k - z) + 2 z (2 a - y) *)
  replace (4 * a * B2R k - 1) with (4 * a * (B2R k - z) + 2 * z * (2 * a - y)) by (replace (1) with (2 * (z * y)) by (rewrite ZY; field); ring).
  assert (YA : Rabs (2 * a - y) <= 51/100 * ds + fu p * g + eta p) by (apply Rabs_le; lra).
  eapply Rle_trans; [apply Rabs_triang|]. rewrite !Rabs_mult, (Rabs_pos_eq 4), (Rabs_pos_eq 2), (Rabs_pos_eq a), (Rabs_pos_eq z) by lra.
  (* 4 a z <= 1 + .., 2 z g <= 1 + .. *)
  assert (ZA : 4 * a * z <= 102/100) . { assert (z * (2 * a) <= z * (y + 7/1000)) by (apply Rmult_le_compat_l; lra). lra. }
  assert (ZG : 2 * z * g <= 101/100). { assert (z * g <= z * (y + / 1000)) by (apply Rmult_le_compat_l; lra). lra. }
  assert (A1 : 4 * a * Rabs (B2R k - z) <= 4 * a * (fu p * z + eta p)) by (apply Rmult_le_compat_l; lra).
  assert (A3 : 2 * z * Rabs (2 * a - y) <= 2 * z * (51/100 * ds + fu p * g + eta p)) by (apply Rmult_le_compat_l; lra).
  assert (B1 : fu p * (4 * a * z) <= fu p * (102/100)) by (apply Rmult_le_compat_l; lra).
  assert (B2 : fu p * (2 * z * g) <= fu p * (101/100)) by (apply Rmult_le_compat_l; lra).
  assert (B3 : ds * (2 * z) <= ds * (1018/1000)) by (apply Rmult_le_compat_l; lra).
  assert (B4 : eta p * (4 * a) <= eta p * 4) by (apply Rmult_le_compat_l; lra).
  assert (B5 : eta p * (2 * z) <= eta p * 2) by (apply Rmult_le_compat_l; lra). lra.
Qed.

Lemma fpart_err p (k d1 d2 d3 : fl p) a b dk dD : is_finite k = true -> is_finite d1 = true -> is_finite d2 = true -> is_finite d3 = true ->
  0 <= B2R k <= 53/100 -> Rabs (4 * a * B2R k - 1) <= dk -> vdist (mkV3 (B2R d1) (B2R d2) (B2R d3)) (vscale (4 * a) b) <= dD -> vnorm b <= 88/100 -> dk <= / 20 -> dD <= / 20 ->
  let c := mkFV (fmul d1 k) (fmul d2 k) (fmul d3 k) in
  vfinite c /\ vdist (vval c) b <= 53/100 * dD + 88/100 * dk + 101/100 * fu p.
Proof.
  intros Fk F1 F2 F3 Hk Ha HD Hb Hdk HdD c. pose proof (fu_pos p) as U. pose proof (fu_24 p) as V. pose proof (eta_pos p) as P. pose proof (eta_u7 p) as T.
  set (D := mkV3 (B2R d1) (B2R d2) (B2R d3)) in *. set (K := B2R k) in *.
  assert (E : vdist (vscale K D) b <= 53/100 * dD + 88/100 * dk).
  { unfold vdist. replace (vsub (vscale K D) b) with (vadd (vscale K (vsub D (vscale (4 * a) b))) (vscale (4 * a * K - 1) b)) by lin.
    eapply Rle_trans; [apply vnorm_triang3|]. rewrite !vnorm_vscale. rewrite (Rabs_pos_eq K) by lra. fold (vdist D (vscale (4 * a) b)).
    assert (0 <= vdist D (vscale (4 * a) b)) by apply vn_nonneg. pose proof (vn_nonneg b). pose proof (Rabs_pos (4 * a * K - 1)).
    assert (K * vdist D (vscale (4 * a) b) <= 53/100 * dD) by (apply Rmult_le_compat; lra).
    assert (Rabs (4 * a * K - 1) * vnorm b <= dk * (88/100)) by (apply Rmult_le_compat; lra). lra. }
  assert (N : vnorm (vscale K D) <= 98/100).
  { pose proof (vnorm_triang3 b (vsub (vscale K D) b)) as W. replace (vadd b (vsub (vscale K D) b)) with (vscale K D) in W by lin. unfold vdist in E. lra. }
  destruct (comp_vnorm (vscale K D)) as (C1 & C2 & C3). cbn [vscale vx vy vz D] in C1, C2, C3.
  assert (BG : 1 <= fbig p). { eapply Rle_trans; [|apply bpow100_fbig]. change 1 with (bpow radix2 0). apply bpow_le; lia. }
  destruct (fmul_R p d1 k F1 Fk) as [E1 G1]; [rewrite Rmult_comm; fold K; lra|]. destruct (fmul_R p d2 k F2 Fk) as [E2 G2]; [rewrite Rmult_comm; fold K; lra|].
  destruct (fmul_R p d3 k F3 Fk) as [E3 G3]; [rewrite Rmult_comm; fold K; lra|].
  split; [repeat split; assumption|].
  assert (R : vdist (vval c) (vscale K D) <= fu p * vnorm (vscale K D) + 7/4 * eta p).
  { apply vec_rel_err; [lra|lra| | |]; unfold vval, c, D, vscale; cbn [gx gy gz vx vy vz]; rewrite ?E1, ?E2, ?E3; fold K; rewrite Rmult_comm; apply rnd_err_le. }
  assert (fu p * vnorm (vscale K D) <= fu p * (98/100)) by (apply Rmult_le_compat_l; lra).
  unfold vdist in *. pose proof (vnorm_triang3 (vsub (vval c) (vscale K D)) (vsub (vscale K D) b)) as W.
  replace (vadd (vsub (vval c) (vscale K D)) (vsub (vscale K D) b)) with (vsub (vval c) b) in W by lin. lra.
Qed.

(** one branch of the conversion *)
Lemma fbranch_err p (S d1 d2 d3 : fl p) a b d : is_finite S = true -> is_finite d1 = true -> is_finite d2 = true -> is_finite d3 = true ->
  0 < a -> 98/100 <= 4 * (a * a) -> a * a + vnorm2 b = 1 -> 0 <= d <= / 1000 ->
  Rabs (B2R S - 4 * (a * a)) <= 3 * d + 14 * fu p -> vdist (mkV3 (B2R d1) (B2R d2) (B2R d3)) (vscale (4 * a) b) <= 245/100 * d + 36/10 * fu p ->
  let s := fsqrt S in let k := fdiv (fhalf p) s in let c := mkFV (fmul d1 k) (fmul d2 k) (fmul d3 k) in
  is_finite (fmul (fhalf p) s) = true /\ vfinite c /\
  (B2R (fmul (fhalf p) s) - a) * (B2R (fmul (fhalf p) s) - a) + vnorm2 (vsub (vval c) b) <= (3 * d + 14 * fu p) * (3 * d + 14 * fu p).
Proof.
  intros FS F1 F2 F3 A0 A1 AB Hd HS HD s k c. pose proof (fu_pos p) as U. pose proof (fu_24 p) as V.
  assert (B0 : 0 <= vnorm2 b) by (rewrite <- vnorm_sq; pose proof (vn_nonneg b); nra).
  destruct (fpivot_err p S a _ FS A0 ltac:(lra) HS ltac:(lra)) as (Fh & Fk & Eh & Kb & Ek). fold s k in Fh, Fk, Eh, Kb, Ek.
  assert (NB : vnorm b <= 88/100). { apply vnorm_le_sq; [lra|]. lra. }
  destruct (fpart_err p k d1 d2 d3 a b _ _ Fk F1 F2 F3 Kb Ek HD NB ltac:(lra) ltac:(lra)) as (Fc & Ec). fold c in Fc, Ec.
  split; [exact Fh|]. split; [exact Fc|]. rewrite <- vnorm_sq. unfold vdist in Ec. pose proof (vn_nonneg (vsub (vval c) b)) as N0.
  set (x := B2R (fmul (fhalf p) s) - a) in *. set (y := vnorm (vsub (vval c) b)) in *.
  assert (X : Rabs x <= 78/100 * d + 48/10 * fu p) by lra. assert (Y : y <= 271/100 * d + 115/10 * fu p) by lra.
  apply abs_sq in X. assert (Y2 : y * y <= (271/100 * d + 115/10 * fu p) * (271/100 * d + 115/10 * fu p)) by (apply Rmult_le_compat; lra).
  assert (0 <= d * d) by (apply Rmult_le_pos; lra). assert (0 <= d * fu p) by (apply Rmult_le_pos; lra). assert (0 <= fu p * fu p) by (apply Rmult_le_pos; lra). lra.
Qed.

(** entries of a matrix near another *)
Lemma close_entries d a b : close d a b ->
  let e := msub a b in
  (Rabs (m00 e) <= d /\ Rabs (m11 e) <= d /\ Rabs (m22 e) <= d) /\
  m01 e * m01 e + m02 e * m02 e + (m10 e * m10 e + m12 e * m12 e) + (m20 e * m20 e + m21 e * m21 e) <= 3 * (d * d).
Proof.
  intros C e. pose proof (close_nonneg _ _ _ C) as D0. destruct (close_row_norm _ _ _ C) as (R0 & R1 & R2). fold e in R0, R1, R2.
  destruct (comp_vnorm (vrow0 e)) as (A0 & _). destruct (comp_vnorm (vrow1 e)) as (_ & A1 & _). destruct (comp_vnorm (vrow2 e)) as (_ & _ & A2).
  cbn [vrow0 vrow1 vrow2 vx vy vz] in A0, A1, A2. split; [lra|].
  assert (Q : forall v, vnorm v <= d -> vnorm2 v <= d * d). { intros v H. rewrite <- vnorm_sq. apply Rmult_le_compat; try apply vn_nonneg; lra. }
  pose proof (Q _ R0) as Q0. pose proof (Q _ R1) as Q1. pose proof (Q _ R2) as Q2. unfold vnorm2, vdot in Q0, Q1, Q2. cbn [vrow0 vrow1 vrow2 vx vy vz] in Q0, Q1, Q2.
  pose proof (Rle_0_sqr (m00 e)) as S0. pose proof (Rle_0_sqr (m11 e)) as S1. pose proof (Rle_0_sqr (m22 e)) as S2. unfold Rsqr in S0, S1, S2. lra.
Qed.

Lemma off_err u d D X T : 0 <= u -> 0 <= d -> Rabs (vx D - vx X) <= u * (201/100) -> Rabs (vy D - vy X) <= u * (201/100) -> Rabs (vz D - vz X) <= u * (201/100) ->
  vnorm2 (vsub X T) <= 6 * (d * d) -> vdist D T <= 245/100 * d + 36/10 * u.
Proof.
  intros U D0 H1 H2 H3 H. unfold vdist. replace (vsub D T) with (vadd (vsub D X) (vsub X T)) by lin.
  eapply Rle_trans; [apply vnorm_triang3|].
  assert (vnorm (vsub D X) <= 7/4 * (u * (201/100))) by (apply vnorm_le3; assumption).
  assert (vnorm (vsub X T) <= 245/100 * d) by (apply vnorm_le_sq; [lra|]; assert (0 <= d * d) by (apply Rmult_le_pos; lra); lra). lra.
Qed.
Lemma sq_sum x y : (x + y) * (x + y) <= 2 * (x * x) + 2 * (y * y). Proof. pose proof (Rle_0_sqr (x - y)) as H. unfold Rsqr in H. lra. Qed.
Lemma sq_diff x y : (x - y) * (x - y) <= 2 * (x * x) + 2 * (y * y). Proof. pose proof (Rle_0_sqr (x + y)) as H. unfold Rsqr in H. lra. Qed.
Lemma quat_entries e : qnorm2 e = 1 ->
  let r := quat_rot e in let w := qw e in let x := qx e in let y := qy e in let z := qz e in
  (m00 r + m11 r + m22 r + 1 = 4 * (w * w) /\ m00 r - m11 r - m22 r + 1 = 4 * (x * x) /\ m11 r - m22 r - m00 r + 1 = 4 * (y * y) /\ m22 r - m00 r - m11 r + 1 = 4 * (z * z)) /\
  (m21 r - m12 r = 4 * w * x /\ m02 r - m20 r = 4 * w * y /\ m10 r - m01 r = 4 * w * z) /\
  (m10 r + m01 r = 4 * x * y /\ m20 r + m02 r = 4 * x * z /\ m21 r + m12 r = 4 * y * z).
Proof.
  intros E r w x y z. unfold qnorm2 in E. fold w x y z in E.
  assert (Q : r = mkM33 (w*w + x*x - y*y - z*z) (2*(x*y - w*z)) (2*(x*z + w*y)) (2*(x*y + w*z)) (w*w - x*x + y*y - z*z) (2*(y*z - w*x)) (2*(x*z - w*y)) (2*(y*z + w*x)) (w*w - x*x - y*y + z*z)).
  { unfold r, quat_rot, w, x, y, z. slin. }
  rewrite Q; cbn [m00 m01 m02 m10 m11 m12 m20 m21 m22]. repeat split; lra.
Qed.

Lemma pivot_sign p (q : FQ p) r B (f : Quat -> R) : (forall e, f (qscale (-1) e) = - f e) -> SO3 r ->
  (forall e, qnorm2 e = 1 -> quat_rot e = r -> f e <> 0) ->
  (forall e, qnorm2 e = 1 -> quat_rot e = r -> 0 < f e -> qfinite q /\ qdist (qval q) e <= B) ->
  qfinite q /\ exists e, qnorm e = 1 /\ quat_rot e = r /\ qdist (qval q) e <= B.
Proof.
  intros O HR Z H. destruct (SO3_has_quat r HR) as (e & E1 & E2).
  assert (N : forall e, qnorm2 e = 1 -> qnorm e = 1) by (intros x X; unfold qnorm; rewrite X; apply sqrt_1).
  destruct (Rtotal_order 0 (f e)) as [P|[P|P]].
  - destruct (H e E1 E2 P) as [A B0]. split; [exact A|]. exists e. auto.
  - exfalso. apply (Z e E1 E2). now symmetry.
  - assert (E1' : qnorm2 (qscale (-1) e) = 1) by (rewrite <- E1; unfold qnorm2, qscale; cbn [qw qx qy qz]; ring).
    assert (E2' : quat_rot (qscale (-1) e) = r) by (rewrite quat_rot_sign by (right; reflexivity); exact E2).
    destruct (H _ E1' E2') as [A B0]; [rewrite O; lra|]. split; [exact A|]. exists (qscale (-1) e). auto.
Qed.

Lemma dotabs_eq a b c x y z : dotabs [a; b; c] [x; y; z] = Rabs (a * x) + Rabs (b * y) + Rabs (c * z).
Proof. unfold dotabs; cbn. ring. Qed.
Lemma abs2 x y : Rabs x <= 1001/1000 -> Rabs y <= 1001/1000 -> Rabs (x + y) <= 201/100 /\ Rabs (x - y) <= 201/100.
Proof. intros H1 H2. apply Rabs_both in H1. apply Rabs_both in H2. split; apply Rabs_le; lra. Qed.
Lemma sq_pos_pivot a c : c <= 4 * (a * a) -> 0 < c -> a <> 0.
Proof. intros H1 H2 ->. lra. Qed.

Lemma fquat_of_mat_err p t (m : FM p) r d : order 3 t -> mfinite m -> SO3 r -> close d (mval m) r -> d <= / 1000 ->
  qfinite (fquat_of_mat t m) /\ exists e, qnorm e = 1 /\ quat_rot e = r /\ qdist (qval (fquat_of_mat t m)) e <= 3 * d + 14 * fu p.
Proof.
  intros O Fm HR C Hd. pose proof (fu_pos p) as U. pose proof (fu_24 p) as V. pose proof (eta_pos p) as P. pose proof (eta_u7 p) as T.
  pose proof (close_nonneg _ _ _ C) as D0.
  destruct (close_entries _ _ _ C) as ((E0 & E1 & E2) & Eo). destruct (close_rows_bound _ _ _ HR C) as (N0 & N1 & N2).
  destruct (comp_vnorm (vrow0 (mval m))) as (B00 & B01 & B02). destruct (comp_vnorm (vrow1 (mval m))) as (B10 & B11 & B12). destruct (comp_vnorm (vrow2 (mval m))) as (B20 & B21 & B22).
  destruct Fm as ((F00 & F01 & F02) & (F10 & F11 & F12) & (F20 & F21 & F22)).
  unfold mval, msub, vrow0, vrow1, vrow2 in *; cbn [vx vy vz m00 m01 m02 m10 m11 m12 m20 m21 m22] in *.
  unfold fquat_of_mat. cbv zeta.
  set (f00 := gx (r0 m)) in *. set (f01 := gy (r0 m)) in *. set (f02 := gz (r0 m)) in *.
  set (f10 := gx (r1 m)) in *. set (f11 := gy (r1 m)) in *. set (f12 := gz (r1 m)) in *.
  set (f20 := gx (r2 m)) in *. set (f21 := gy (r2 m)) in *. set (f22 := gz (r2 m)) in *.
  clear C.
  assert (G : forall x n, Rabs x <= n -> n <= 1 + d -> Rabs x <= 1001/1000) by (intros; lra).
  apply (G _ _) in B00; [|exact N0]. apply (G _ _) in B01; [|exact N0]. apply (G _ _) in B02; [|exact N0].
  apply (G _ _) in B10; [|exact N1]. apply (G _ _) in B11; [|exact N1]. apply (G _ _) in B12; [|exact N1].
  apply (G _ _) in B20; [|exact N2]. apply (G _ _) in B21; [|exact N2]. apply (G _ _) in B22; [|exact N2]. clear G N0 N1 N2.
  destruct (fofZ1 p) as [F1 V1]. set (one := fofZ p 1) in *.
  destruct (fdot3_err p t f00 f11 f22 one one one (3004/1000) O F00 F11 F22 F1 F1 F1) as [Ft Et].
  { rewrite dotabs_eq, V1, !Rmult_1_r. lra. }
  { apply Rle_trans with (bpow radix2 2); [change (bpow radix2 2) with 4; lra|apply bpow_le; lia]. }
  rewrite V1, !Rmult_1_r in Et. set (tr := fdot t [f00; f11; f22] [one; one; one]) in *.
  assert (Et' : Rabs (B2R tr - (B2R f00 + B2R f11 + B2R f22)) <= 91/10 * fu p) by lra. clear Et. apply Rabs_both in Et'.
  apply Rabs_both in E0. apply Rabs_both in E1. apply Rabs_both in E2.
  apply Rabs_both in B00 as b00. apply Rabs_both in B11 as b11. apply Rabs_both in B22 as b22.
  assert (OFF : forall x y : fl p, is_finite x = true -> is_finite y = true -> Rabs (B2R x) <= 1001/1000 -> Rabs (B2R y) <= 1001/1000 ->
    (is_finite (fadd x y) = true /\ Rabs (B2R (fadd x y) - (B2R x + B2R y)) <= fu p * (201/100)) /\
    (is_finite (fsub x y) = true /\ Rabs (B2R (fsub x y) - (B2R x - B2R y)) <= fu p * (201/100))).
  { intros x y Fx Fy Hx Hy. destruct (abs2 _ _ Hx Hy) as [X Y]. split; [apply fadd_err|apply fsub_err]; try assumption; lra. }
  assert (DG : forall x y z : fl p, is_finite x = true -> is_finite y = true -> is_finite z = true -> Rabs (B2R x) <= 1001/1000 -> Rabs (B2R y) <= 1001/1000 -> Rabs (B2R z) <= 1001/1000 ->
    is_finite (fadd (fsub (fsub x y) z) one) = true /\ Rabs (B2R (fadd (fsub (fsub x y) z) one) - (B2R x - B2R y - B2R z + 1)) <= 91/10 * fu p).
  { intros x y z Fx Fy Fz Hx Hy Hz. destruct (OFF x y Fx Fy Hx Hy) as (_ & Fs & Es). apply Rabs_both in Hx. apply Rabs_both in Hy. apply Rabs_both in Hz. apply Rabs_both in Es as Es'.
    destruct (fsub_err p (fsub x y) z (301/100) Fs Fz) as [Fs2 Es2]; [apply Rabs_le; lra|lra|]. apply Rabs_both in Es2 as Es2'.
    destruct (fadd_err p (fsub (fsub x y) z) one (402/100) Fs2 F1) as [Fs3 Es3]; [rewrite V1; apply Rabs_le; lra|lra|]. rewrite V1 in Es3. apply Rabs_both in Es3.
    split; [exact Fs3|]. apply Rabs_le. lra. }
  destruct (OFF f21 f12 F21 F12 B21 B12) as ((A21 & A21e) & (S21 & S21e)). destruct (OFF f12 f21 F12 F21 B12 B21) as ((A12 & A12e) & _).
  destruct (OFF f02 f20 F02 F20 B02 B20) as ((A02 & A02e) & (S02 & S02e)). destruct (OFF f20 f02 F20 F02 B20 B02) as ((A20 & A20e) & _).
  destruct (OFF f10 f01 F10 F01 B10 B01) as ((A10 & A10e) & (S10 & S10e)). destruct (OFF f01 f10 F01 F10 B01 B10) as ((A01 & A01e) & _). clear OFF.
  rewrite (flt_R p fzero tr eq_refl Ft), (flt_R p f00 f11 F00 F11), (flt_R p f11 f22 F11 F22), (flt_R p f00 f22 F00 F22). change (B2R (@fzero p)) with 0.
  pose proof (sq_diff (B2R f21 - m21 r) (B2R f12 - m12 r)) as Q1. pose proof (sq_diff (B2R f02 - m02 r) (B2R f20 - m20 r)) as Q2. pose proof (sq_diff (B2R f10 - m10 r) (B2R f01 - m01 r)) as Q3.
  pose proof (sq_sum (B2R f21 - m21 r) (B2R f12 - m12 r)) as P1. pose proof (sq_sum (B2R f02 - m02 r) (B2R f20 - m20 r)) as P2. pose proof (sq_sum (B2R f10 - m10 r) (B2R f01 - m01 r)) as P3.
  assert (FIN : forall (q : FQ p) e B, 0 <= B -> qnorm2 (qsub (qval q) e) <= B * B -> qdist (qval q) e <= B) by (intros q e B HB H; unfold qdist; apply sq_le_le; [exact HB|]; rewrite qnorm_sq; exact H).
  destruct (Rlt_bool_spec 0 (B2R tr)) as [HT|HT].
  - destruct (fadd_err p tr one (402/100) Ft F1) as [FS ES]; [rewrite V1; apply Rabs_le; lra|lra|]. rewrite V1 in ES. apply Rabs_both in ES.
    apply (pivot_sign p _ r _ qw); [intro e; cbn; ring|exact HR| |].
    { intros e Q1e Qr. destruct (quat_entries e Q1e) as ((K & _) & _). rewrite Qr in K. apply (sq_pos_pivot _ (98/100)); lra. }
    intros e Qe Qr Qp. destruct (quat_entries e Qe) as ((K & _) & (K1 & K2 & K3) & _). rewrite Qr in *.
    destruct (fbranch_err p (fadd tr one) (fsub f21 f12) (fsub f02 f20) (fsub f10 f01) (qw e) (mkV3 (qx e) (qy e) (qz e)) d FS S21 S02 S10 Qp) as (R1 & (R2 & R3 & R4) & R5); try lra.
    { unfold qnorm2 in Qe. unfold vnorm2, vdot; cbn [vx vy vz]. lra. }
    { apply Rabs_le. lra. }
    { apply (off_err _ _ _ (mkV3 (B2R f21 - B2R f12) (B2R f02 - B2R f20) (B2R f10 - B2R f01))); cbn [vx vy vz]; try assumption; try lra.
      unfold vnorm2, vdot, vsub, vscale; cbn [vx vy vz]. rewrite <- K1, <- K2, <- K3. lra. }
    split; [repeat split; assumption|]. apply FIN; [lra|]. unfold qnorm2, qsub, qval; cbn [qw qx qy qz fw fx fy fz].
    unfold vnorm2, vdot, vsub, vval in R5; cbn [vx vy vz gx gy gz] in R5. lra.
  - assert (BR : (if Rlt_bool (B2R f00) (B2R f11) then Rlt_bool (B2R f11) (B2R f22) else Rlt_bool (B2R f00) (B2R f22)) = true -> B2R f00 <= B2R f22 /\ B2R f11 <= B2R f22).
    { destruct (Rlt_bool_spec (B2R f00) (B2R f11)); [destruct (Rlt_bool_spec (B2R f11) (B2R f22))|destruct (Rlt_bool_spec (B2R f00) (B2R f22))]; intro X; try discriminate X; lra. }
    assert (BR' : (if Rlt_bool (B2R f00) (B2R f11) then Rlt_bool (B2R f11) (B2R f22) else Rlt_bool (B2R f00) (B2R f22)) = false ->
      if Rlt_bool (B2R f00) (B2R f11) then B2R f00 <= B2R f11 /\ B2R f22 <= B2R f11 else B2R f11 <= B2R f00 /\ B2R f22 <= B2R f00).
    { destruct (Rlt_bool_spec (B2R f00) (B2R f11)); [destruct (Rlt_bool_spec (B2R f11) (B2R f22))|destruct (Rlt_bool_spec (B2R f00) (B2R f22))]; intro X; try discriminate X; lra. }
    destruct (if Rlt_bool (B2R f00) (B2R f11) then _ else _).
    + destruct (BR eq_refl) as [M1 M2]. destruct (DG f22 f00 f11 F22 F00 F11 B22 B00 B11) as [FS ES]. apply Rabs_both in ES.
      apply (pivot_sign p _ r _ qz); [intro e; cbn; ring|exact HR| |].
      { intros e Q1e Qr. destruct (quat_entries e Q1e) as ((_ & _ & _ & K) & _). rewrite Qr in K. apply (sq_pos_pivot _ (98/100)); lra. }
      intros e Qe Qr Qp. destruct (quat_entries e Qe) as ((_ & _ & _ & K) & (K1 & K2 & K3) & (J1 & J2 & J3)). rewrite Qr in *.
      destruct (fbranch_err p _ (fsub f10 f01) (fadd f02 f20) (fadd f12 f21) (qz e) (mkV3 (qw e) (qx e) (qy e)) d FS S10 A02 A12 Qp) as (R1 & (R2 & R3 & R4) & R5); try lra.
      { unfold qnorm2 in Qe. unfold vnorm2, vdot; cbn [vx vy vz]. lra. }
      { apply Rabs_le. lra. }
      { apply (off_err _ _ _ (mkV3 (B2R f10 - B2R f01) (B2R f02 + B2R f20) (B2R f12 + B2R f21))); cbn [vx vy vz]; try assumption; try lra.
        unfold vnorm2, vdot, vsub, vscale; cbn [vx vy vz]. replace (4 * qz e * qw e) with (m10 r - m01 r) by lra. replace (4 * qz e * qx e) with (m20 r + m02 r) by lra. replace (4 * qz e * qy e) with (m21 r + m12 r) by lra. lra. }
      split; [repeat split; assumption|]. apply FIN; [lra|]. unfold qnorm2, qsub, qval; cbn [qw qx qy qz fw fx fy fz].
      unfold vnorm2, vdot, vsub, vval in R5; cbn [vx vy vz gx gy gz] in R5. lra.
    + specialize (BR' eq_refl). destruct (Rlt_bool (B2R f00) (B2R f11)).
      * destruct BR' as [M1 M2]. destruct (DG f11 f22 f00 F11 F22 F00 B11 B22 B00) as [FS ES]. apply Rabs_both in ES.
        apply (pivot_sign p _ r _ qy); [intro e; cbn; ring|exact HR| |].
        { intros e Q1e Qr. destruct (quat_entries e Q1e) as ((_ & _ & K & _) & _). rewrite Qr in K. apply (sq_pos_pivot _ (98/100)); lra. }
        intros e Qe Qr Qp. destruct (quat_entries e Qe) as ((_ & _ & K & _) & (K1 & K2 & K3) & (J1 & J2 & J3)). rewrite Qr in *.
        destruct (fbranch_err p _ (fsub f02 f20) (fadd f01 f10) (fadd f21 f12) (qy e) (mkV3 (qw e) (qx e) (qz e)) d FS S02 A01 A21 Qp) as (R1 & (R2 & R3 & R4) & R5); try lra.
        { unfold qnorm2 in Qe. unfold vnorm2, vdot; cbn [vx vy vz]. lra. }
        { apply Rabs_le. lra. }
        { apply (off_err _ _ _ (mkV3 (B2R f02 - B2R f20) (B2R f01 + B2R f10) (B2R f21 + B2R f12))); cbn [vx vy vz]; try assumption; try lra.
          unfold vnorm2, vdot, vsub, vscale; cbn [vx vy vz]. replace (4 * qy e * qw e) with (m02 r - m20 r) by lra. replace (4 * qy e * qx e) with (m10 r + m01 r) by lra. replace (4 * qy e * qz e) with (m21 r + m12 r) by lra. lra. }
        split; [repeat split; assumption|]. apply FIN; [lra|]. unfold qnorm2, qsub, qval; cbn [qw qx qy qz fw fx fy fz].
        unfold vnorm2, vdot, vsub, vval in R5; cbn [vx vy vz gx gy gz] in R5. lra.
      * destruct BR' as [M1 M2]. destruct (DG f00 f11 f22 F00 F11 F22 B00 B11 B22) as [FS ES]. apply Rabs_both in ES.
        apply (pivot_sign p _ r _ qx); [intro e; cbn; ring|exact HR| |].
        { intros e Q1e Qr. destruct (quat_entries e Q1e) as ((_ & K & _ & _) & _). rewrite Qr in K. apply (sq_pos_pivot _ (98/100)); lra. }
        intros e Qe Qr Qp. destruct (quat_entries e Qe) as ((_ & K & _ & _) & (K1 & K2 & K3) & (J1 & J2 & J3)). rewrite Qr in *.
        destruct (fbranch_err p _ (fsub f21 f12) (fadd f10 f01) (fadd f20 f02) (qx e) (mkV3 (qw e) (qy e) (qz e)) d FS S21 A10 A20 Qp) as (R1 & (R2 & R3 & R4) & R5); try lra.
        { unfold qnorm2 in Qe. unfold vnorm2, vdot; cbn [vx vy vz]. lra. }
        { apply Rabs_le. lra. }
        { apply (off_err _ _ _ (mkV3 (B2R f21 - B2R f12) (B2R f10 + B2R f01) (B2R f20 + B2R f02))); cbn [vx vy vz]; try assumption; try lra.
          unfold vnorm2, vdot, vsub, vscale; cbn [vx vy vz]. replace (4 * qx e * qw e) with (m21 r - m12 r) by lra. replace (4 * qx e * qy e) with (m10 r + m01 r) by lra. replace (4 * qx e * qz e) with (m20 r + m02 r) by lra. lra. }
        split; [repeat split; assumption|]. apply FIN; [lra|]. unfold qnorm2, qsub, qval; cbn [qw qx qy qz fw fx fy fz].
        unfold vnorm2, vdot, vsub, vval in R5; cbn [vx vy vz gx gy gz] in R5. lra.
Qed.
