(** * FloatDiff: rounding of the time derivatives of quaternions and rotation matrices. *)
From Coq Require Import ZArith Reals Lra Psatz Bool List Lia.
From Flocq Require Import IEEE754.BinarySingleNaN Core.Core.
From Verif Require Import Linalg Spec SpecFacts SpecClose ModelCommon ModelEigen CommonFacts CloseFacts
  FloatModel FloatFacts FloatModel2 SpecFloatQ FloatQFacts FloatQProd FloatQHist FloatQRot FloatMHist FloatCast FloatModel3 SpecLibm FloatBuild FloatModel5 FloatPose FloatModel6 FloatMat FloatModel12.
Import ListNotations.
Local Open Scope R_scope.

(** a vector as a quaternion *)
Definition pureq (v : V3) : Quat := mkQ 0 (vx v) (vy v) (vz v).
Lemma pureq_norm v : qnorm (pureq v) = vnorm v.
Proof. unfold qnorm, vnorm, qnorm2, vnorm2, vdot, pureq; cbn [qw qx qy qz vx vy vz]. f_equal. ring. Qed.
Lemma pureq_dist a b : qdist (pureq a) (pureq b) = vdist a b.
Proof. unfold qdist, vdist. rewrite <- pureq_norm. f_equal. unfold qsub, pureq, vsub; cbn. f_equal. ring. Qed.
Lemma qvec_norm a : vnorm (qvec a) <= qnorm a.
Proof. unfold vnorm, qnorm, vnorm2, vdot, qnorm2, qvec; cbn [vx vy vz]. apply sqrt_le_1_alt. nra. Qed.
Lemma qvec_dist a b : vdist (qvec a) (qvec b) <= qdist a b.
Proof. unfold vdist, qdist. replace (vsub (qvec a) (qvec b)) with (qvec (qsub a b)) by (unfold qsub, qvec, vsub; reflexivity). apply qvec_norm. Qed.
Lemma col_le_w q : vnorm (mkV3 (qx q) (qy q) (qz q)) <= qnorm q. Proof. apply qvec_norm. Qed.

Lemma three_le a b c d : vnorm (mkV3 a b c) <= sqrt (d * d + (a * a + b * b + c * c)).
Proof. unfold vnorm, vnorm2, vdot; cbn [vx vy vz]. apply sqrt_le_1_alt. nra. Qed.

(** one component of 0.5 * (H^T * w) *)
Lemma half_dot p t (a0 a1 a2 b0 b1 b2 : fl p) N : order 3 t ->
  is_finite a0 = true -> is_finite a1 = true -> is_finite a2 = true -> is_finite b0 = true -> is_finite b1 = true -> is_finite b2 = true ->
  vnorm (mkV3 (B2R a0) (B2R a1) (B2R a2)) * vnorm (mkV3 (B2R b0) (B2R b1) (B2R b2)) <= N -> N <= bpow radix2 100 ->
  is_finite (fmul (fhalf p) (fdot t [a0; a1; a2] [b0; b1; b2])) = true /\
  Rabs (B2R (fmul (fhalf p) (fdot t [a0; a1; a2] [b0; b1; b2])) - / 2 * (B2R a0 * B2R b0 + B2R a1 * B2R b1 + B2R a2 * B2R b2)) <= (2 + / 50) * fu p * N + 4 * eta p.
Proof.
  intros O A0 A1 A2 B0 B1 B2 HN HB. pose proof (fu_pos p) as U. pose proof (fu_24 p) as V. pose proof (eta_pos p) as E. pose proof (eta5_u p) as E5.
  assert (N0 : 0 <= N) by (eapply Rle_trans; [|exact HN]; apply Rmult_le_pos; apply vn_nonneg).
  pose proof (dotabs3 (B2R a0) (B2R a1) (B2R a2) (B2R b0) (B2R b1) (B2R b2)) as D.
  assert (BB : bpow radix2 100 <= bpow radix2 120) by (apply bpow_le; lia).
  destruct (fdot3_err p t a0 a1 a2 b0 b1 b2 N O A0 A1 A2 B0 B1 B2) as [F X]; [lra|lra|].
  set (s := B2R a0 * B2R b0 + B2R a1 * B2R b1 + B2R a2 * B2R b2) in *. set (x := fdot t [a0; a1; a2] [b0; b1; b2]) in *.
  assert (S : Rabs s <= N).
  { eapply Rle_trans; [|exact HN]. eapply Rle_trans; [|apply vcs_abs]. right. reflexivity. }
  assert (UN : fu p * N <= / 16777216 * N) by (apply Rmult_le_compat_r; lra).
  assert (XB : Rabs (B2R x) <= (1 + / 1000) * N + 5 * eta p).
  { replace (B2R x) with ((B2R x - s) + s) by ring. eapply Rle_trans; [apply Rabs_triang|]. lra. }
  destruct (fhalf_R p) as [FH VH]. pose proof (bpow100_fbig p) as BG.
  assert (E1 : 5 * eta p <= 1) by lra. assert (B1' : 1 <= bpow radix2 98) by (change 1 with (bpow radix2 0); apply bpow_le; lia).
  assert (B4 : 4 * bpow radix2 98 = bpow radix2 100) by (change 4 with (bpow radix2 2); rewrite <- bpow_plus; reflexivity).
  destruct (fmul_R p (fhalf p) x FH F) as [R Fr].
  { rewrite VH, Rabs_mult, (Rabs_pos_eq (/ 2)) by lra. lra. }
  split; [exact Fr|]. rewrite R, VH.
  replace (rnd p (/ 2 * B2R x) - / 2 * s) with ((rnd p (/ 2 * B2R x) - / 2 * B2R x) + / 2 * (B2R x - s)) by ring.
  eapply Rle_trans; [apply Rabs_triang|]. rewrite (Rabs_mult (/ 2)), (Rabs_pos_eq (/ 2)) by lra.
  pose proof (rnd_err_le p (/ 2 * B2R x)) as RE. rewrite Rabs_mult, (Rabs_pos_eq (/ 2)) in RE by lra.
  assert (K : fu p * (/ 2 * Rabs (B2R x)) <= fu p * (/ 2 * ((1 + / 1000) * N + 5 * eta p))) by (apply Rmult_le_compat_l; lra).
  assert (K2 : fu p * eta p <= / 16777216 * eta p) by (apply Rmult_le_compat_r; lra).
  assert (K3 : 0 <= fu p * N) by (apply Rmult_le_pos; lra).
  lra.
Qed.

(** The rate of the quaternion: half the product of the quaternion and the velocity. *)
Section Rate.
Variables (p : prim) (o : orders4) (q : FQ p) (w : FV p).
Hypothesis O : order 3 (ow o) /\ order 3 (ox o) /\ order 3 (oy o) /\ order 3 (oz o).
Hypothesis Fq : qfinite q.
Hypothesis Fw : vfinite w.
Hypothesis HB : qnorm (qval q) * vnorm (vval w) <= bpow radix2 100.
Lemma quatdiff_of_local_err :
  qfinite (fquatdiff_of_local o q w) /\
  qdist (qval (fquatdiff_of_local o q w)) (qscale (/ 2) (hamilton (qval q) (pureq (vval w)))) <= (4 + / 20) * fu p * (qnorm (qval q) * vnorm (vval w)) + underflow p.
Proof.
  destruct O as (Ow & Ox & Oy & Oz), Fq as (A0 & A1 & A2 & A3), Fw as (B0 & B1 & B2).
  pose proof (fu_pos p) as U. pose proof (eta_pos p) as E. pose proof (vn_nonneg (vval w)) as NW. pose proof (qn_nonneg (qval q)) as NQ.
  assert (N0 : 0 <= fu p * (qnorm (qval q) * vnorm (vval w))) by (apply Rmult_le_pos; [lra|apply Rmult_le_pos; assumption]).
  assert (C : forall v, vnorm v <= qnorm (qval q) -> vnorm v * vnorm (vval w) <= qnorm (qval q) * vnorm (vval w)) by (intros; apply Rmult_le_compat_r; assumption).
  unfold fquatdiff_of_local, fhalf_tapply, flocal_matrix, fcol, flist. cbn [q0 q1 q2 nth].
  destruct (half_dot p (ow o) (fneg (fx q)) (fneg (fy q)) (fneg (fz q)) (gx w) (gy w) (gz w) (qnorm (qval q) * vnorm (vval w))) as [F0 E0]; rewrite ?fneg_fin; try assumption.
  { apply (C (mkV3 _ _ _)). eapply Rle_trans; [apply (three_le _ _ _ (B2R (fw q)))|]. right. unfold qnorm, qnorm2, qval; cbn [qw qx qy qz]. rewrite !fneg_val. f_equal. ring. }
  destruct (half_dot p (ox o) (fw q) (fneg (fz q)) (fy q) (gx w) (gy w) (gz w) (qnorm (qval q) * vnorm (vval w))) as [F1 E1]; rewrite ?fneg_fin; try assumption.
  { apply (C (mkV3 _ _ _)). eapply Rle_trans; [apply (three_le _ _ _ (B2R (fx q)))|]. right. unfold qnorm, qnorm2, qval; cbn [qw qx qy qz]. rewrite !fneg_val. f_equal. ring. }
  destruct (half_dot p (oy o) (fz q) (fw q) (fneg (fx q)) (gx w) (gy w) (gz w) (qnorm (qval q) * vnorm (vval w))) as [F2 E2]; rewrite ?fneg_fin; try assumption.
  { apply (C (mkV3 _ _ _)). eapply Rle_trans; [apply (three_le _ _ _ (B2R (fy q)))|]. right. unfold qnorm, qnorm2, qval; cbn [qw qx qy qz]. rewrite !fneg_val. f_equal. ring. }
  destruct (half_dot p (oz o) (fneg (fy q)) (fx q) (fw q) (gx w) (gy w) (gz w) (qnorm (qval q) * vnorm (vval w))) as [F3 E3]; rewrite ?fneg_fin; try assumption.
  { apply (C (mkV3 _ _ _)). eapply Rle_trans; [apply (three_le _ _ _ (B2R (fz q)))|]. right. unfold qnorm, qnorm2, qval; cbn [qw qx qy qz]. rewrite !fneg_val. f_equal. ring. }
  match goal with |- context [mkFQ ?a ?b ?c ?d] => set (ca := a) in *; set (cb := b) in *; set (cc := c) in *; set (cd := d) in *; clearbody ca cb cc cd end.
  split; [repeat split; assumption|]. rewrite !fneg_val in *. rewrite underflow_eta.
  eapply Rle_trans; [apply (qnorm_le4 _ ((2 + / 50) * fu p * (qnorm (qval q) * vnorm (vval w)) + 4 * eta p))|lra];
    unfold qsub, qscale, hamilton, pureq, vdot, vadd, vscale, vcross, qvec, qval, vval; cbn [qw qx qy qz vx vy vz fw fx fy fz gx gy gz].
  - eapply Rle_trans; [right|exact E0]. f_equal. ring.
  - eapply Rle_trans; [right|exact E1]. f_equal. ring.
  - eapply Rle_trans; [right|exact E2]. f_equal. ring.
  - eapply Rle_trans; [right|exact E3]. f_equal. ring.
Qed.
Lemma quatdiff_of_global_err :
  qfinite (fquatdiff_of_global o q w) /\
  qdist (qval (fquatdiff_of_global o q w)) (qscale (/ 2) (hamilton (pureq (vval w)) (qval q))) <= (4 + / 20) * fu p * (qnorm (qval q) * vnorm (vval w)) + underflow p.
Proof.
  destruct O as (Ow & Ox & Oy & Oz), Fq as (A0 & A1 & A2 & A3), Fw as (B0 & B1 & B2).
  pose proof (fu_pos p) as U. pose proof (eta_pos p) as E. pose proof (vn_nonneg (vval w)) as NW. pose proof (qn_nonneg (qval q)) as NQ.
  assert (N0 : 0 <= fu p * (qnorm (qval q) * vnorm (vval w))) by (apply Rmult_le_pos; [lra|apply Rmult_le_pos; assumption]).
  assert (C : forall v, vnorm v <= qnorm (qval q) -> vnorm v * vnorm (vval w) <= qnorm (qval q) * vnorm (vval w)) by (intros; apply Rmult_le_compat_r; assumption).
  unfold fquatdiff_of_global, fhalf_tapply, fglobal_matrix, fcol, flist. cbn [q0 q1 q2 nth].
  destruct (half_dot p (ow o) (fneg (fx q)) (fneg (fy q)) (fneg (fz q)) (gx w) (gy w) (gz w) (qnorm (qval q) * vnorm (vval w))) as [F0 E0]; rewrite ?fneg_fin; try assumption.
  { apply (C (mkV3 _ _ _)). eapply Rle_trans; [apply (three_le _ _ _ (B2R (fw q)))|]. right. unfold qnorm, qnorm2, qval; cbn [qw qx qy qz]. rewrite !fneg_val. f_equal. ring. }
  destruct (half_dot p (ox o) (fw q) (fz q) (fneg (fy q)) (gx w) (gy w) (gz w) (qnorm (qval q) * vnorm (vval w))) as [F1 E1]; rewrite ?fneg_fin; try assumption.
  { apply (C (mkV3 _ _ _)). eapply Rle_trans; [apply (three_le _ _ _ (B2R (fx q)))|]. right. unfold qnorm, qnorm2, qval; cbn [qw qx qy qz]. rewrite !fneg_val. f_equal. ring. }
  destruct (half_dot p (oy o) (fneg (fz q)) (fw q) (fx q) (gx w) (gy w) (gz w) (qnorm (qval q) * vnorm (vval w))) as [F2 E2]; rewrite ?fneg_fin; try assumption.
  { apply (C (mkV3 _ _ _)). eapply Rle_trans; [apply (three_le _ _ _ (B2R (fy q)))|]. right. unfold qnorm, qnorm2, qval; cbn [qw qx qy qz]. rewrite !fneg_val. f_equal. ring. }
  destruct (half_dot p (oz o) (fy q) (fneg (fx q)) (fw q) (gx w) (gy w) (gz w) (qnorm (qval q) * vnorm (vval w))) as [F3 E3]; rewrite ?fneg_fin; try assumption.
  { apply (C (mkV3 _ _ _)). eapply Rle_trans; [apply (three_le _ _ _ (B2R (fz q)))|]. right. unfold qnorm, qnorm2, qval; cbn [qw qx qy qz]. rewrite !fneg_val. f_equal. ring. }
  match goal with |- context [mkFQ ?a ?b ?c ?d] => set (ca := a) in *; set (cb := b) in *; set (cc := c) in *; set (cd := d) in *; clearbody ca cb cc cd end.
  split; [repeat split; assumption|]. rewrite !fneg_val in *. rewrite underflow_eta.
  eapply Rle_trans; [apply (qnorm_le4 _ ((2 + / 50) * fu p * (qnorm (qval q) * vnorm (vval w)) + 4 * eta p))|lra];
    unfold qsub, qscale, hamilton, pureq, vdot, vadd, vscale, vcross, qvec, qval, vval; cbn [qw qx qy qz vx vy vz fw fx fy fz gx gy gz].
  - eapply Rle_trans; [right|exact E0]. f_equal. ring.
  - eapply Rle_trans; [right|exact E1]. f_equal. ring.
  - eapply Rle_trans; [right|exact E2]. f_equal. ring.
  - eapply Rle_trans; [right|exact E3]. f_equal. ring.
Qed.
End Rate.

Lemma qnorm_double a b c d : qnorm (mkQ (2 * a) (2 * b) (2 * c) (2 * d)) = 2 * qnorm (mkQ a b c d).
Proof.
  unfold qnorm, qnorm2; cbn [qw qx qy qz]. replace (2 * a * (2 * a) + 2 * b * (2 * b) + 2 * c * (2 * c) + 2 * d * (2 * d)) with (2 * 2 * (a * a + b * b + c * c + d * d)) by ring.
  rewrite sqrt_mult_alt by lra. rewrite sqrt_square by lra. reflexivity.
Qed.
(** one component of 2 * H * dq *)
Lemma twice_dot p t (a0 a1 a2 a3 b0 b1 b2 b3 : fl p) N : order 4 t ->
  is_finite a0 = true -> is_finite a1 = true -> is_finite a2 = true -> is_finite a3 = true ->
  is_finite b0 = true -> is_finite b1 = true -> is_finite b2 = true -> is_finite b3 = true ->
  qnorm (mkQ (B2R a0) (B2R a1) (B2R a2) (B2R a3)) <= bpow radix2 100 ->
  2 * (qnorm (mkQ (B2R a0) (B2R a1) (B2R a2) (B2R a3)) * qnorm (mkQ (B2R b0) (B2R b1) (B2R b2) (B2R b3))) <= N -> N <= bpow radix2 120 ->
  is_finite (fdot t (ftwice [a0; a1; a2; a3]) [b0; b1; b2; b3]) = true /\
  Rabs (B2R (fdot t (ftwice [a0; a1; a2; a3]) [b0; b1; b2; b3]) - 2 * (B2R a0 * B2R b0 + B2R a1 * B2R b1 + B2R a2 * B2R b2 + B2R a3 * B2R b3)) <= (4 + / 1000) * fu p * N + 5 * eta p.
Proof.
  intros O A0 A1 A2 A3 B0 B1 B2 B3 HA HN HB. unfold ftwice. cbn [map].
  assert (S : forall x y, x * x <= y * y -> 0 <= y -> Rabs x <= y) by (intros x y H1 H2; apply sq_le_le; [exact H2|]; rewrite <- Rabs_mult, Rabs_pos_eq by nra; exact H1).
  set (n := qnorm (mkQ (B2R a0) (B2R a1) (B2R a2) (B2R a3))) in *.
  assert (N0 : 0 <= n) by apply qn_nonneg. assert (NN : n * n = B2R a0 * B2R a0 + B2R a1 * B2R a1 + B2R a2 * B2R a2 + B2R a3 * B2R a3) by (unfold n; rewrite qnorm_sq; reflexivity).
  destruct (fdouble p a0 A0) as [D0 V0]; [apply Rle_trans with n; [apply S; [nra|exact N0]|exact HA]|].
  destruct (fdouble p a1 A1) as [D1 V1]; [apply Rle_trans with n; [apply S; [nra|exact N0]|exact HA]|].
  destruct (fdouble p a2 A2) as [D2 V2]; [apply Rle_trans with n; [apply S; [nra|exact N0]|exact HA]|].
  destruct (fdouble p a3 A3) as [D3 V3]; [apply Rle_trans with n; [apply S; [nra|exact N0]|exact HA]|].
  destruct (fdot4_err p t _ _ _ _ b0 b1 b2 b3 N O D0 D1 D2 D3 B0 B1 B2 B3) as [F E]; [|exact HB|].
  { rewrite V0, V1, V2, V3. eapply Rle_trans; [|exact HN]. right. rewrite <- Rmult_assoc. f_equal. unfold n.
    apply qnorm_double. }
  split; [exact F|]. rewrite V0, V1, V2, V3 in E. eapply Rle_trans; [right|exact E]. f_equal. ring.
Qed.
Section Velocity.
Variables (p : prim) (o : orders3) (q d : FQ p).
Hypothesis O : orders3_ok 4 4 4 o.
Hypothesis Fq : qfinite q.
Hypothesis Fd : qfinite d.
Hypothesis HQ : qnorm (qval q) <= bpow radix2 100.
Hypothesis HB : 2 * (qnorm (qval q) * qnorm (qval d)) <= bpow radix2 120.
Lemma local_of_quatdiff_err :
  vfinite (flocal_of_quatdiff o q d) /\
  vdist (vval (flocal_of_quatdiff o q d)) (vscale 2 (qvec (hamilton (conj (qval q)) (qval d)))) <= (14 + / 50) * fu p * (qnorm (qval q) * qnorm (qval d)) + underflow p.
Proof.
  destruct O as (O0 & O1 & O2), Fq as (A0 & A1 & A2 & A3), Fd as (B0 & B1 & B2 & B3).
  pose proof (fu_pos p) as U. pose proof (eta_pos p) as E.
  assert (N0 : 0 <= fu p * (qnorm (qval q) * qnorm (qval d))) by (apply Rmult_le_pos; [lra|apply Rmult_le_pos; apply qn_nonneg]).
  assert (QE : forall a b c e, a * a + b * b + c * c + e * e = qnorm2 (qval q) -> qnorm (mkQ a b c e) = qnorm (qval q)) by (intros a b c e H; unfold qnorm; f_equal; exact H).
  unfold flocal_of_quatdiff, ftwice_apply, flocal_matrix, fqlist. cbn [q0 q1 q2].
  destruct (twice_dot p (o0 o) (fneg (fx q)) (fw q) (fz q) (fneg (fy q)) (fw d) (fx d) (fy d) (fz d) (2 * (qnorm (qval q) * qnorm (qval d)))) as [F0 E0]; rewrite ?fneg_fin; try assumption.
  1,2: rewrite !fneg_val, QE by (unfold qnorm2, qval; cbn; ring); assumption || (right; reflexivity).
  destruct (twice_dot p (o1 o) (fneg (fy q)) (fneg (fz q)) (fw q) (fx q) (fw d) (fx d) (fy d) (fz d) (2 * (qnorm (qval q) * qnorm (qval d)))) as [F1 E1]; rewrite ?fneg_fin; try assumption.
  1,2: rewrite !fneg_val, QE by (unfold qnorm2, qval; cbn; ring); assumption || (right; reflexivity).
  destruct (twice_dot p (o2 o) (fneg (fz q)) (fy q) (fneg (fx q)) (fw q) (fw d) (fx d) (fy d) (fz d) (2 * (qnorm (qval q) * qnorm (qval d)))) as [F2 E2]; rewrite ?fneg_fin; try assumption.
  1,2: rewrite !fneg_val, QE by (unfold qnorm2, qval; cbn; ring); assumption || (right; reflexivity).
  match goal with |- context [mkFV ?a ?b ?c] => set (ca := a) in *; set (cb := b) in *; set (cc := c) in *; clearbody ca cb cc end.
  split; [repeat split; assumption|]. rewrite !fneg_val in *. rewrite underflow_eta. unfold vdist.
  eapply Rle_trans; [apply (vnorm_le3 _ ((4 + / 1000) * fu p * (2 * (qnorm (qval q) * qnorm (qval d))) + 5 * eta p))|lra];
    unfold vsub, hamilton, conj, vdot, vadd, vscale, vcross, qvec, qval, vval; cbn [qw qx qy qz vx vy vz fw fx fy fz gx gy gz].
  - eapply Rle_trans; [right|exact E0]. f_equal. ring.
  - eapply Rle_trans; [right|exact E1]. f_equal. ring.
  - eapply Rle_trans; [right|exact E2]. f_equal. ring.
Qed.
Lemma global_of_quatdiff_err :
  vfinite (fglobal_of_quatdiff o q d) /\
  vdist (vval (fglobal_of_quatdiff o q d)) (vscale 2 (qvec (hamilton (qval d) (conj (qval q))))) <= (14 + / 50) * fu p * (qnorm (qval q) * qnorm (qval d)) + underflow p.
Proof.
  destruct O as (O0 & O1 & O2), Fq as (A0 & A1 & A2 & A3), Fd as (B0 & B1 & B2 & B3).
  pose proof (fu_pos p) as U. pose proof (eta_pos p) as E.
  assert (N0 : 0 <= fu p * (qnorm (qval q) * qnorm (qval d))) by (apply Rmult_le_pos; [lra|apply Rmult_le_pos; apply qn_nonneg]).
  assert (QE : forall a b c e, a * a + b * b + c * c + e * e = qnorm2 (qval q) -> qnorm (mkQ a b c e) = qnorm (qval q)) by (intros a b c e H; unfold qnorm; f_equal; exact H).
  unfold fglobal_of_quatdiff, ftwice_apply, fglobal_matrix, fqlist. cbn [q0 q1 q2].
  destruct (twice_dot p (o0 o) (fneg (fx q)) (fw q) (fneg (fz q)) (fy q) (fw d) (fx d) (fy d) (fz d) (2 * (qnorm (qval q) * qnorm (qval d)))) as [F0 E0]; rewrite ?fneg_fin; try assumption.
  1,2: rewrite !fneg_val, QE by (unfold qnorm2, qval; cbn; ring); assumption || (right; reflexivity).
  destruct (twice_dot p (o1 o) (fneg (fy q)) (fz q) (fw q) (fneg (fx q)) (fw d) (fx d) (fy d) (fz d) (2 * (qnorm (qval q) * qnorm (qval d)))) as [F1 E1]; rewrite ?fneg_fin; try assumption.
  1,2: rewrite !fneg_val, QE by (unfold qnorm2, qval; cbn; ring); assumption || (right; reflexivity).
  destruct (twice_dot p (o2 o) (fneg (fz q)) (fneg (fy q)) (fx q) (fw q) (fw d) (fx d) (fy d) (fz d) (2 * (qnorm (qval q) * qnorm (qval d)))) as [F2 E2]; rewrite ?fneg_fin; try assumption.
  1,2: rewrite !fneg_val, QE by (unfold qnorm2, qval; cbn; ring); assumption || (right; reflexivity).
  match goal with |- context [mkFV ?a ?b ?c] => set (ca := a) in *; set (cb := b) in *; set (cc := c) in *; clearbody ca cb cc end.
  split; [repeat split; assumption|]. rewrite !fneg_val in *. rewrite underflow_eta. unfold vdist.
  eapply Rle_trans; [apply (vnorm_le3 _ ((4 + / 1000) * fu p * (2 * (qnorm (qval q) * qnorm (qval d))) + 5 * eta p))|lra];
    unfold vsub, hamilton, conj, vdot, vadd, vscale, vcross, qvec, qval, vval; cbn [qw qx qy qz vx vy vz fw fx fy fz gx gy gz].
  - eapply Rle_trans; [right|exact E0]. f_equal. ring.
  - eapply Rle_trans; [right|exact E1]. f_equal. ring.
  - eapply Rle_trans; [right|exact E2]. f_equal. ring.
Qed.
End Velocity.

(** ** Rotation matrices *)
Lemma fskew_val p (v : FV p) : vfinite v -> mfinite (fskew v) /\ mval (fskew v) = mcross (vval v).
Proof.
  intros (A & B & C). split; [unfold mfinite, vfinite, fskew; cbn; rewrite ?fneg_fin; repeat split; assumption|].
  unfold mval, fskew, mcross, mat_of, vcross, vval, ex, ey, ez; cbn [gx gy gz r0 r1 r2 vx vy vz]. rewrite !fneg_val. change (B2R (@fzero p)) with 0. f_equal; ring.
Qed.
Lemma mcross_cols w : vnorm (vrow0 (mtrans (mcross w))) <= vnorm w /\ vnorm (vrow1 (mtrans (mcross w))) <= vnorm w /\ vnorm (vrow2 (mtrans (mcross w))) <= vnorm w.
Proof. destruct w as [a b c]. unfold vnorm, vnorm2, vdot, vrow0, vrow1, vrow2, mtrans, mcross, mat_of, vcross, ex, ey, ez; cbn [vx vy vz m00 m01 m02 m10 m11 m12 m20 m21 m22]. repeat split; apply sqrt_le_1_alt; nra. Qed.
Lemma mcross_rows w : vnorm (vrow0 (mcross w)) <= vnorm w /\ vnorm (vrow1 (mcross w)) <= vnorm w /\ vnorm (vrow2 (mcross w)) <= vnorm w.
Proof. destruct w as [a b c]. unfold vnorm, vnorm2, vdot, vrow0, vrow1, vrow2, mcross, mat_of, vcross, ex, ey, ez; cbn [vx vy vz m00 m01 m02 m10 m11 m12 m20 m21 m22]. repeat split; apply sqrt_le_1_alt; nra. Qed.
Lemma mcross_opnorm w v : vnorm (mvmul (mcross w) v) <= vnorm w * vnorm v.
Proof.
  apply sq_le_le; [apply Rmult_le_pos; apply vn_nonneg|]. replace (vnorm w * vnorm v * (vnorm w * vnorm v)) with (vnorm w * vnorm w * (vnorm v * vnorm v)) by ring. rewrite !vnorm_sq.
  assert (H : vnorm2 (mvmul (mcross w) v) = vnorm2 w * vnorm2 v - vdot w v * vdot w v) by (unfold vnorm2; lin). rewrite H. nra.
Qed.
Section MatRate.
Variables (p : prim) (o : orders9) (m : FM p) (w : FV p) (r : M33) (A : R).
Hypothesis O : orders9_ok o.
Hypothesis Fm : mfinite m.
Hypothesis Fw : vfinite w.
Hypothesis Sr : SO3 r.
Hypothesis Cm : close (A * fu p) (mval m) r.
Hypothesis AU : A * fu p <= / 100.
Hypothesis HB : vnorm (vval w) <= bpow radix2 100.
Lemma rate_bound_ok x : 0 <= x <= bpow radix2 100 -> (1 + / 100) * x <= bpow radix2 120.
Proof. intro H. apply Rle_trans with (bpow radix2 1 * bpow radix2 100); [change (bpow radix2 1) with 2; lra|]. rewrite <- bpow_plus. apply bpow_le. lia. Qed.
Lemma matdiff_of_local_err :
  mfinite (fmatdiff_of_local o m w) /\ close ((94/10 + A) * fu p * vnorm (vval w) + underflow p) (mval (fmatdiff_of_local o m w)) (mmul r (mcross (vval w))).
Proof.
  pose proof (fu_pos p) as U. pose proof (eta_pos p) as E. pose proof (vn_nonneg (vval w)) as NW. pose proof (close_nonneg _ _ _ Cm) as A0.
  destruct (fskew_val p w Fw) as [Fs Vs]. destruct (close_rows_bound _ _ _ Sr Cm) as (R0 & R1 & R2). destruct (mcross_cols (vval w)) as (C0 & C1 & C2).
  unfold fmatdiff_of_local. destruct (fmm_err p o m (fskew w) (1 + / 100) (vnorm (vval w)) O Fm Fs) as [F C]; rewrite ?Vs; try lra.
  { apply rate_bound_ok. lra. }
  split; [exact F|]. rewrite Vs in C.
  pose proof (close_mmul_left _ _ _ _ _ A0 (mcross_opnorm (vval w)) Cm) as C'. pose proof (close_trans _ _ _ _ _ C C') as C''.
  eapply close_mono; [|exact C'']. rewrite underflow_eta. assert (0 <= fu p * vnorm (vval w)) by (apply Rmult_le_pos; lra). lra.
Qed.
Lemma matdiff_of_global_err :
  mfinite (fmatdiff_of_global o m w) /\ close ((94/10 + A) * fu p * vnorm (vval w) + underflow p) (mval (fmatdiff_of_global o m w)) (mmul (mcross (vval w)) r).
Proof.
  pose proof (fu_pos p) as U. pose proof (eta_pos p) as E. pose proof (vn_nonneg (vval w)) as NW. pose proof (close_nonneg _ _ _ Cm) as A0.
  destruct (fskew_val p w Fw) as [Fs Vs]. destruct (close_rows_bound _ _ _ (SO3_trans _ Sr) (close_trans_mat _ _ _ Cm)) as (R0 & R1 & R2). destruct (mcross_rows (vval w)) as (C0 & C1 & C2).
  unfold fmatdiff_of_global. destruct (fmm_err p o (fskew w) m (vnorm (vval w)) (1 + / 100) O Fs Fm) as [F C]; rewrite ?Vs; try lra.
  { rewrite Rmult_comm. apply rate_bound_ok. lra. }
  split; [exact F|]. rewrite Vs in C.
  pose proof (close_mmul_right _ _ _ _ _ NW (mcross_opnorm (vval w)) Cm) as C'. pose proof (close_trans _ _ _ _ _ C C') as C''.
  eapply close_mono; [|exact C'']. rewrite underflow_eta. assert (0 <= fu p * vnorm (vval w)) by (apply Rmult_le_pos; lra). lra.
Qed.
End MatRate.

Definition vee (m : M33) : V3 := mkV3 (m21 m) (m02 m) (m10 m).
Lemma vee_mcross w : vee (mcross w) = w. Proof. destruct w as [a b c]. unfold vee. lin. Qed.
Lemma vee_close d a b : close d a b -> vdist (vee a) (vee b) <= 7/4 * d.
Proof.
  intro H. destruct (close_row_norm _ _ _ H) as (R0 & R1 & R2). unfold vdist.
  destruct (comp_vnorm (vrow0 (msub a b))) as (_ & _ & X0). destruct (comp_vnorm (vrow1 (msub a b))) as (X1 & _ & _). destruct (comp_vnorm (vrow2 (msub a b))) as (_ & X2 & _).
  apply vnorm_le3.
  - eapply Rle_trans; [|exact R2]. exact X2.
  - eapply Rle_trans; [|exact R0]. exact X0.
  - eapply Rle_trans; [|exact R1]. exact X1.
Qed.
Lemma ftrans_val p (m : FM p) : mfinite m -> mfinite (ftrans m) /\ mval (ftrans m) = mtrans (mval m).
Proof. intros ((A & B & C) & (D & E & F) & (G & H & I)). split; [unfold mfinite, vfinite, ftrans; cbn; repeat split; assumption|reflexivity]. Qed.
Lemma opnorm_of_close F d n B : close B F d -> (forall v, vnorm (mvmul d v) <= n * vnorm v) -> forall v, vnorm (mvmul F v) <= (n + B) * vnorm v.
Proof.
  intros Cf Nd v. replace (mvmul F v) with (vadd (vsub (mvmul F v) (mvmul d v)) (mvmul d v)) by (clear; lin).
  eapply Rle_trans; [apply vnorm_triang|]. specialize (Cf v). specialize (Nd v). lra.
Qed.
Lemma mtrans_invol a : mtrans (mtrans a) = a. Proof. lin. Qed.
Lemma row_of_opnorm a k : 0 <= k -> (forall v, vnorm (mvmul a v) <= k * vnorm v) -> vnorm (vrow0 a) <= k /\ vnorm (vrow1 a) <= k /\ vnorm (vrow2 a) <= k.
Proof.
  intros K H. assert (C : close k a (mkM33 0 0 0 0 0 0 0 0 0)).
  { intro v. replace (vsub (mvmul a v) (mvmul (mkM33 0 0 0 0 0 0 0 0 0) v)) with (mvmul a v) by (clear; lin). apply H. }
  destruct (close_row_norm _ _ _ C) as (X & Y & Z).
  replace (msub a (mkM33 0 0 0 0 0 0 0 0 0)) with a in * by (clear; lin). tauto.
Qed.
Lemma opnorm_trans a k : 0 <= k -> (forall v, vnorm (mvmul a v) <= k * vnorm v) -> forall v, vnorm (mvmul (mtrans a) v) <= k * vnorm v.
Proof.
  intros K H. assert (C : close k a (mkM33 0 0 0 0 0 0 0 0 0)).
  { intro v. replace (vsub (mvmul a v) (mvmul (mkM33 0 0 0 0 0 0 0 0 0) v)) with (mvmul a v) by (clear; lin). apply H. }
  apply close_trans_mat in C. intro v. specialize (C v). replace (mvmul (mtrans a) v) with (vsub (mvmul (mtrans a) v) (mvmul (mtrans (mkM33 0 0 0 0 0 0 0 0 0)) v)) by (clear; lin). exact C.
Qed.
(** [f] is the rate [d] up to [B]; [d] has norm at most [n] *)
Section MatVelocity.
Variables (p : prim) (o : orders9) (m f : FM p) (r d : M33) (A B n : R).
Hypothesis O : orders9_ok o.
Hypothesis Fm : mfinite m.
Hypothesis Ff : mfinite f.
Hypothesis Sr : SO3 r.
Hypothesis Cm : close (A * fu p) (mval m) r.
Hypothesis AU : A * fu p <= / 100.
Hypothesis Cf : close B (mval f) d.
Hypothesis Nd : forall v, vnorm (mvmul d v) <= n * vnorm v.
Hypothesis n0 : 0 <= n.
Hypothesis HB : n + B <= bpow radix2 100.
Lemma f_opnorm v : vnorm (mvmul (mval f) v) <= (n + B) * vnorm v.
Proof. apply (opnorm_of_close _ d); assumption. Qed.
Lemma local_of_matdiff_err :
  vfinite (flocal_of_matdiff o m f) /\
  vdist (vval (flocal_of_matdiff o m f)) (vee (mmul (mtrans r) d)) <= (165/10 + 175/100 * A) * fu p * n + (18/10) * B + underflow p.
Proof.
  pose proof (fu_pos p) as U. pose proof (fu_24 p) as V. pose proof (eta_pos p) as E. pose proof (close_nonneg _ _ _ Cm) as A0. pose proof (close_nonneg _ _ _ Cf) as B0.
  destruct (ftrans_val p m Fm) as [Ft Vt]. destruct (close_rows_bound _ _ _ (SO3_trans _ Sr) (close_trans_mat _ _ _ Cm)) as (R0 & R1 & R2).
  destruct (row_of_opnorm (mtrans (mval f)) (n + B)) as (C0 & C1 & C2); [lra|apply opnorm_trans; [lra|apply f_opnorm]|].
  unfold flocal_of_matdiff. destruct (fmm_err p o (ftrans m) f (1 + / 100) (n + B) O Ft Ff) as [F C]; rewrite ?Vt; try lra.
  { apply rate_bound_ok. lra. }
  split; [destruct F as ((?&?&?) & (?&?&?) & (?&?&?)); repeat split; assumption|]. rewrite Vt in C.
  change (vval (fvee (fmm o (ftrans m) f))) with (vee (mval (fmm o (ftrans m) f))).
  pose proof (close_mmul_left _ _ _ _ _ A0 f_opnorm (close_trans_mat _ _ _ Cm)) as D1.
  pose proof (close_mul_l _ _ _ _ (SO3_trans _ Sr) Cf) as D2.
  pose proof (vee_close _ _ _ (close_trans _ _ _ _ _ C (close_trans _ _ _ _ _ D1 D2))) as X.
  eapply Rle_trans; [exact X|]. rewrite underflow_eta.
  assert (0 <= fu p * n) by (apply Rmult_le_pos; lra). assert (fu p * B <= / 16777216 * B) by (apply Rmult_le_compat_r; lra). assert (A * fu p * B <= / 100 * B) by (apply Rmult_le_compat_r; lra).
  lra.
Qed.
Lemma global_of_matdiff_err :
  vfinite (fglobal_of_matdiff o m f) /\
  vdist (vval (fglobal_of_matdiff o m f)) (vee (mmul d (mtrans r))) <= (165/10 + 175/100 * A) * fu p * n + (18/10) * B + underflow p.
Proof.
  pose proof (fu_pos p) as U. pose proof (fu_24 p) as V. pose proof (eta_pos p) as E. pose proof (close_nonneg _ _ _ Cm) as A0. pose proof (close_nonneg _ _ _ Cf) as B0.
  destruct (ftrans_val p m Fm) as [Ft Vt]. destruct (close_rows_bound _ _ _ Sr Cm) as (R0 & R1 & R2).
  destruct (row_of_opnorm (mval f) (n + B)) as (C0 & C1 & C2); [lra|apply f_opnorm|].
  unfold fglobal_of_matdiff. destruct (fmm_err p o f (ftrans m) (n + B) (1 + / 100) O Ff Ft) as [F C]; rewrite ?Vt; rewrite ?mtrans_invol; try lra.
  { rewrite Rmult_comm. apply rate_bound_ok. lra. }
  split; [destruct F as ((?&?&?) & (?&?&?) & (?&?&?)); repeat split; assumption|]. rewrite Vt in C.
  change (vval (fvee (fmm o f (ftrans m)))) with (vee (mval (fmm o f (ftrans m)))).
  pose proof (close_mmul_right _ (n + B) _ _ _ ltac:(lra) f_opnorm (close_trans_mat _ _ _ Cm)) as D1.
  pose proof (close_mul_r _ _ _ _ (SO3_trans _ Sr) Cf) as D2.
  pose proof (vee_close _ _ _ (close_trans _ _ _ _ _ C (close_trans _ _ _ _ _ D1 D2))) as X.
  eapply Rle_trans; [exact X|]. rewrite underflow_eta.
  assert (0 <= fu p * n) by (apply Rmult_le_pos; lra). assert (fu p * B <= / 16777216 * B) by (apply Rmult_le_compat_r; lra). assert (A * fu p * B <= / 100 * B) by (apply Rmult_le_compat_r; lra).
  lra.
Qed.
End MatVelocity.
