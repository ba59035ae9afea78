(** * FloatBuild2: rounding of the conversions from Euler angles and rotation vectors. *)
From Coq Require Import ZArith Reals Lra Psatz Bool List Lia.
From Flocq Require Import IEEE754.BinarySingleNaN Core.Core.
From Verif Require Import Linalg Spec SpecFacts SpecClose ModelCommon ModelEigen CommonFacts ModelRotation ConvFacts CloseFacts RVFacts
  FloatModel FloatFacts FloatModel2 SpecFloatQ FloatQFacts FloatQProd FloatQHist FloatQRot FloatCast FloatModel3 SpecLibm Claims9 FloatBuild.
Import ListNotations.
Local Open Scope R_scope.

Lemma underflow_u5 p : underflow p <= / 100 * fu p.
Proof. rewrite underflow_eta. pose proof (eta5_u p). pose proof (eta_pos p). lra. Qed.
Lemma fmult_close p o (a b : FQ p) ea eb A B : orders4_ok o -> qfinite a -> qfinite b -> qnorm ea = 1 -> qnorm eb = 1 ->
  0 <= A <= 1000 -> 0 <= B <= 1000 -> qdist (qval a) ea <= A * fu p -> qdist (qval b) eb <= B * fu p ->
  qfinite (fmult o a b) /\ qnorm (hamilton ea eb) = 1 /\ qdist (qval (fmult o a b)) (hamilton ea eb) <= (A + B + 9 + / 5) * fu p.
Proof.
  intros O Fa Fb Na Nb HA HB Da Db. pose proof (fu_pos p) as U. pose proof (fu_24 p) as V. pose proof (underflow_u5 p) as Z.
  assert (AU : 0 <= A * fu p <= / 10000) by nra. assert (BU : 0 <= B * fu p <= / 10000) by nra.
  pose proof (qdist_norm (qval a) ea) as Xa. pose proof (qdist_norm (qval b) eb) as Xb. rewrite Na in Xa. rewrite Nb in Xb.
  apply Rle_trans with (2 := Da) in Xa. apply Rle_trans with (2 := Db) in Xb. apply Rabs_both in Xa. apply Rabs_both in Xb.
  pose proof (qn_nonneg (qval a)) as Pa. pose proof (qn_nonneg (qval b)) as Pb.
  assert (PP : qnorm (qval a) * qnorm (qval b) <= 1 + / 1000) by nra.
  destruct (fmult_err p o a b O Fa Fb) as [F D].
  { apply Rle_trans with 2; [lra|]. change 2 with (bpow radix2 1). apply bpow_le. lia. }
  split; [exact F|]. split; [rewrite hamilton_qnorm, Na, Nb; ring|].
  eapply Rle_trans; [apply (qdist_triang _ (hamilton (qval a) (qval b)))|].
  eapply Rle_trans; [apply Rplus_le_compat; [exact D|apply (qdist_triang _ (hamilton ea (qval b)))]|].
  rewrite hamilton_dist_l, hamilton_dist_r, Na.
  assert (K1 : 9 * fu p * (qnorm (qval a) * qnorm (qval b)) <= 9 * fu p * (1 + / 1000)) by (apply Rmult_le_compat_l; lra).
  assert (K2 : qdist (qval a) ea * qnorm (qval b) <= A * fu p * (1 + B * fu p)) by (apply Rmult_le_compat; try lra; apply qdist_nonneg).
  assert (K3 : A * fu p * (B * fu p) <= / 10 * fu p).
  { replace (A * fu p * (B * fu p)) with ((A * B * fu p) * fu p) by ring. apply Rmult_le_compat_r; [lra|]. nra. }
  lra.
Qed.
Lemma funit_x_R p : vfinite (funit_x p) /\ vval (funit_x p) = ex.
Proof. destruct (fofZ1 p) as [F V]. split; [repeat split; exact F|]. unfold vval, funit_x, ex. cbn [gx gy gz]. rewrite V. reflexivity. Qed.
Lemma funit_y_R p : vfinite (funit_y p) /\ vval (funit_y p) = ey.
Proof. destruct (fofZ1 p) as [F V]. split; [repeat split; exact F|]. unfold vval, funit_y, ey. cbn [gx gy gz]. rewrite V. reflexivity. Qed.
Lemma funit_z_R p : vfinite (funit_z p) /\ vval (funit_z p) = ez.
Proof. destruct (fofZ1 p) as [F V]. split; [repeat split; exact F|]. unfold vval, funit_z, ez. cbn [gx gy gz]. rewrite V. reflexivity. Qed.
Lemma vnorm_unit e : vnorm2 e = 1 -> vnorm e = 1.
Proof. intro H. unfold vnorm. rewrite H. apply sqrt_1. Qed.
Lemma half_quat_qnorm a e : vnorm2 e = 1 -> qnorm (half_quat a e) = 1.
Proof. intro H. unfold qnorm. rewrite half_quat_norm by exact H. apply sqrt_1. Qed.
Lemma vdist_self a : vdist a a = 0.
Proof. unfold vdist. replace (vsub a a) with vzero by lin. apply vnorm_vzero. Qed.
Lemma faa_unit p L (angle : fl p) (v : FV p) e : libm_ok L -> is_finite angle = true -> vfinite v /\ vval v = e -> vnorm2 e = 1 ->
  qfinite (fquat_of_aa L angle v) /\ qnorm (half_quat (B2R angle) e) = 1 /\ qdist (qval (fquat_of_aa L angle v)) (half_quat (B2R angle) e) <= 4 * fu p.
Proof.
  intros HL F [Fv E] N. destruct (fquat_of_aa_err p L angle v e 0 HL F Fv (vnorm_unit _ N) ltac:(lra)) as [Q D].
  - rewrite E, vdist_self. lra.
  - split; [exact Q|]. split; [now apply half_quat_qnorm|]. lra.
Qed.
Lemma fquat_of_zyx_err p L oa ob (z y x : fl p) : libm_ok L -> orders4_ok oa -> orders4_ok ob ->
  is_finite z = true -> is_finite y = true -> is_finite x = true ->
  qfinite (fquat_of_zyx L oa ob z y x) /\ qdist (qval (fquat_of_zyx L oa ob z y x)) (zyx_to_quat (mkZyx (B2R z) (B2R y) (B2R x))) <= 31 * fu p.
Proof.
  intros HL Oa Ob Fz Fy Fx. pose proof (fu_pos p) as U.
  destruct (faa_unit p L z _ ez HL Fz (funit_z_R p) ez_unit) as (Qz & Nz & Dz).
  destruct (faa_unit p L y _ ey HL Fy (funit_y_R p) ey_unit) as (Qy & Ny & Dy).
  destruct (faa_unit p L x _ ex HL Fx (funit_x_R p) ex_unit) as (Qx & Nx & Dx).
  destruct (fmult_close p oa _ _ _ _ 4 4 Oa Qz Qy Nz Ny ltac:(lra) ltac:(lra) Dz Dy) as (F1 & N1 & D1).
  destruct (fmult_close p ob _ _ _ _ (4 + 4 + 9 + / 5) 4 Ob F1 Qx N1 Nx ltac:(lra) ltac:(lra) D1 Dx) as (F2 & N2 & D2).
  split; [exact F2|]. unfold zyx_to_quat. rewrite !e_mul_hamilton, !e_quat_of_aa_half. cbn [aangle aaxis zyaw zpitch zroll].
  eapply Rle_trans; [exact D2|]. lra.
Qed.
Lemma fquat_of_xyz_err p L oa ob (x y z : fl p) : libm_ok L -> orders4_ok oa -> orders4_ok ob ->
  is_finite x = true -> is_finite y = true -> is_finite z = true ->
  qfinite (fquat_of_xyz L oa ob x y z) /\ qdist (qval (fquat_of_xyz L oa ob x y z)) (xyz_to_quat (mkXyz (B2R x) (B2R y) (B2R z))) <= 31 * fu p.
Proof.
  intros HL Oa Ob Fx Fy Fz. pose proof (fu_pos p) as U.
  destruct (faa_unit p L z _ ez HL Fz (funit_z_R p) ez_unit) as (Qz & Nz & Dz).
  destruct (faa_unit p L y _ ey HL Fy (funit_y_R p) ey_unit) as (Qy & Ny & Dy).
  destruct (faa_unit p L x _ ex HL Fx (funit_x_R p) ex_unit) as (Qx & Nx & Dx).
  destruct (fmult_close p oa _ _ _ _ 4 4 Oa Qx Qy Nx Ny ltac:(lra) ltac:(lra) Dx Dy) as (F1 & N1 & D1).
  destruct (fmult_close p ob _ _ _ _ (4 + 4 + 9 + / 5) 4 Ob F1 Qz N1 Nz ltac:(lra) ltac:(lra) D1 Dz) as (F2 & N2 & D2).
  split; [exact F2|]. unfold xyz_to_quat. rewrite !e_mul_hamilton, !e_quat_of_aa_half. cbn [aangle aaxis xyaw xpitch xroll].
  eapply Rle_trans; [exact D2|]. lra.
Qed.
(** the matrix of a quaternion known up to A roundings *)
Lemma ftoRot_of_close p o (q : FQ p) e A : orders9_rot_ok o -> qfinite q -> qnorm e = 1 -> 0 <= A <= 50 -> qdist (qval q) e <= A * fu p ->
  mfinite (ftoRot o q) /\ close ((7 * A + 19) * fu p) (mval (ftoRot o q)) (quat_rot e).
Proof.
  intros O F E HA D. pose proof (fu_pos p) as U. pose proof (fu_24 p) as V.
  destruct (operand_facts p A q e HA E D) as [N D'].
  assert (AU : 0 <= A * fu p <= / 100000) by nra.
  destruct (ftoRot_close p o q O F ltac:(lra)) as [Fm C]. split; [exact Fm|].
  apply Rabs_both in N as N'.
  eapply close_mono; [|eapply close_trans; [exact C|apply (quat_rot_close (direction (qval q)) e); [apply direction_norm; lra|exact E]]].
  lra.
Qed.

(** a rounded sum of squares is not negative *)
Lemma nonfinite_0 p (a : fl p) : is_finite a = false -> B2R a = 0.
Proof. destruct a; intro H; try reflexivity; discriminate. Qed.
Lemma overflow_0 p (r : fl p) s : B2SF r = binary_overflow (fprec p) (femax p) mode_NE s -> B2R r = 0.
Proof. intro H. apply nonfinite_0. destruct r; cbn in H; try discriminate; reflexivity. Qed.
Lemma rnd_nonneg p x : 0 <= x -> 0 <= rnd p x.
Proof. intro H. apply rnd_ge_fmt; [apply fmt_0|exact H]. Qed.
Lemma fadd_nonneg p (a b : fl p) : 0 <= B2R a -> 0 <= B2R b -> 0 <= B2R (fadd a b).
Proof.
  intros Ha Hb. destruct (is_finite a) eqn:Fa.
  2:{ rewrite nonfinite_0; [lra|]. destruct a; try discriminate; destruct b; try reflexivity. unfold fadd, Bplus. destruct (eqb s s0); reflexivity. }
  destruct (is_finite b) eqn:Fb.
  2:{ rewrite nonfinite_0; [lra|]. destruct b; try discriminate; destruct a; try reflexivity. discriminate. }
  pose proof (Bplus_correct (fprec p) (femax p) _ _ mode_NE a b Fa Fb) as H.
  destruct (Rlt_bool _ _) in H.
  - destruct H as [H _]. unfold fadd. rewrite H. apply rnd_nonneg. lra.
  - destruct H as [H _]. unfold fadd. rewrite (overflow_0 _ _ _ H). lra.
Qed.
Lemma fsq_nonneg p (a : fl p) : 0 <= B2R (fmul a a).
Proof.
  pose proof (Bmult_correct (fprec p) (femax p) _ _ mode_NE a a) as H.
  destruct (Rlt_bool _ _) in H.
  - destruct H as [H _]. unfold fmul. rewrite H. apply rnd_nonneg. nra.
  - unfold fmul. rewrite (overflow_0 _ _ _ H). lra.
Qed.
Lemma ffma_nonneg p (a c : fl p) : is_finite a = true -> 0 <= B2R c -> 0 <= B2R (ffma a a c).
Proof.
  intros Fa Hc. destruct (is_finite c) eqn:Fc.
  2:{ rewrite nonfinite_0; [lra|]. destruct c; try discriminate; destruct a; try discriminate; reflexivity. }
  pose proof (Bfma_correct (fprec p) (femax p) _ _ mode_NE a a c Fa Fa Fc) as H. cbv zeta in H.
  destruct (Rlt_bool _ _) in H.
  - destruct H as [H _]. unfold ffma. rewrite H. apply rnd_nonneg. nra.
  - unfold ffma. rewrite (overflow_0 _ _ _ H). lra.
Qed.
Lemma feval_squares p (a : nat -> fl p) t : (forall i, is_finite (a i) = true) -> 0 <= B2R (feval t a a).
Proof.
  intro F. induction t as [i|l IHl r IHr|i t IH]; cbn [feval].
  - apply fsq_nonneg.
  - now apply fadd_nonneg.
  - now apply ffma_nonneg.
Qed.
Lemma fdot_squares_nonneg p t (v : FV p) : vfinite v -> 0 <= B2R (fdot t (flist v) (flist v)).
Proof.
  intros (Fx & Fy & Fz). apply feval_squares. intro i. unfold cf, flist. destruct i as [|[|[|[|i]]]]; cbn [nth]; try assumption; reflexivity.
Qed.

(** ** Rotation vectors: the norm *)
Lemma fvnorm_big p t (v : FV p) : order 3 t -> vfinite v -> bpow radix2 (-40) <= vnorm (vval v) <= bpow radix2 50 ->
  is_finite (fvnorm t v) = true /\ Rabs (B2R (fvnorm t v) - vnorm (vval v)) <= (3 + / 20) * fu p * vnorm (vval v).
Proof.
  intros O (Fx & Fy & Fz) [L H]. pose proof (fu_pos p) as U. pose proof (fu_24 p) as V. pose proof (bpow_gt_0 radix2 (-40)) as P0.
  set (N := vnorm (vval v)) in *. assert (N0 : 0 < N) by lra.
  destruct (fdot3_err p t _ _ _ _ _ _ (N * N) O Fx Fy Fz Fx Fy Fz) as [Fd Ed].
  { apply dotabs3. }
  { apply Rle_trans with (bpow radix2 50 * bpow radix2 50); [nra|]. rewrite <- bpow_plus. apply bpow_le. lia. }
  assert (NN : N * N = B2R (gx v) * B2R (gx v) + B2R (gy v) * B2R (gy v) + B2R (gz v) * B2R (gz v)) by (unfold N; rewrite vnorm_sq; reflexivity).
  rewrite <- NN in Ed. fold (flist v) in Fd, Ed. set (d := fdot t (flist v) (flist v)) in *.
  assert (T : eta p <= fu p * (/ 1000000 * (N * N))).
  { eapply Rle_trans; [apply eta_u|]. apply Rmult_le_compat_l; [lra|].
    apply Rle_trans with (/ 1000000 * (bpow radix2 (-40) * bpow radix2 (-40))); [|apply Rmult_le_compat_l; [lra|nra]].
    rewrite <- bpow_plus. change (-40 + -40)%Z with (-80)%Z. replace (-126)%Z with (-46 + -80)%Z by lia. rewrite bpow_plus.
    apply Rmult_le_compat_r; [apply bpow_ge_0|]. cbn; lra. }
  assert (UNN : 0 <= fu p * (N * N)) by (apply Rmult_le_pos; nra).
  assert (Ed' : Rabs (B2R d - N * N) <= (4 + / 100) * fu p * (N * N)) by lra.
  pose proof (sqrt_close (fu p) N (B2R d) ltac:(lra) ltac:(lra) N0 Ed') as S1.
  assert (Z : 0 < B2R d). { apply Rabs_both in Ed'. assert (0 < N * N) by nra. nra. }
  destruct (fsqrt_R p d Fd ltac:(lra)) as [Fs Rs]. split; [exact Fs|]. unfold fvnorm. fold d. rewrite Rs.
  pose proof (rnd_err_le p (sqrt (B2R d))) as R. pose proof (sqrt_pos (B2R d)) as Sp. rewrite (Rabs_pos_eq (sqrt (B2R d))) in R by exact Sp.
  assert (T2 : eta p <= fu p * (/ 1000000 * N)).
  { eapply Rle_trans; [apply eta_u|]. apply Rmult_le_compat_l; [lra|].
    apply Rle_trans with (/ 1000000 * bpow radix2 (-40)); [|apply Rmult_le_compat_l; lra].
    replace (-126)%Z with (-86 + -40)%Z by lia. rewrite bpow_plus. apply Rmult_le_compat_r; [apply bpow_ge_0|].
    apply Rle_trans with (bpow radix2 (-26)); [apply bpow_le; lia|cbn; lra]. }
  eapply Rle_trans; [eapply Rabs_tri3; [exact R|exact S1]|].
  assert (0 <= fu p * N) by (apply Rmult_le_pos; lra). apply Rabs_both in S1.
  assert (sqrt (B2R d) <= (1 + / 1000) * N) by nra.
  assert (fu p * sqrt (B2R d) <= fu p * ((1 + / 1000) * N)) by (apply Rmult_le_compat_l; lra). lra.
Qed.
Lemma fvnorm_small p t (v : FV p) : order 3 t -> vfinite v -> vnorm (vval v) <= bpow radix2 (-40) ->
  is_finite (fvnorm t v) = true /\ 0 <= B2R (fvnorm t v) <= bpow radix2 (-38).
Proof.
  intros O (Fx & Fy & Fz) L. pose proof (fu_pos p) as U. pose proof (fu_24 p) as V.
  set (N := vnorm (vval v)) in *. assert (N0 : 0 <= N) by apply vn_nonneg.
  destruct (fdot3_err p t _ _ _ _ _ _ (N * N) O Fx Fy Fz Fx Fy Fz) as [Fd Ed].
  { apply dotabs3. }
  { apply Rle_trans with (bpow radix2 0 * bpow radix2 0). assert (bpow radix2 (-40) <= bpow radix2 0) by (apply bpow_le; lia). nra. rewrite <- bpow_plus. apply bpow_le. lia. }
  assert (NN : N * N = B2R (gx v) * B2R (gx v) + B2R (gy v) * B2R (gy v) + B2R (gz v) * B2R (gz v)) by (unfold N; rewrite vnorm_sq; reflexivity).
  rewrite <- NN in Ed. fold (flist v) in Fd, Ed. set (d := fdot t (flist v) (flist v)) in *.
  assert (NB : N * N <= bpow radix2 (-80)). { change (-80)%Z with (-40 + -40)%Z. rewrite bpow_plus. nra. }
  assert (T : 5 * eta p <= bpow radix2 (-80)).
  { pose proof (eta_tiny p). apply Rle_trans with (bpow radix2 3 * bpow radix2 (-150)); [change (bpow radix2 3) with 8; pose proof (eta_pos p); lra|].
    rewrite <- bpow_plus. apply bpow_le. lia. }
  assert (UNN : 0 <= fu p * (N * N) <= N * N) by (split; [apply Rmult_le_pos; nra|nra]).
  apply Rabs_both in Ed.
  assert (DB : B2R d <= bpow radix2 (-76)).
  { replace (-76)%Z with (4 + -80)%Z by lia. rewrite bpow_plus. change (bpow radix2 4) with 16. lra. }
  assert (DN : 0 <= B2R d).
  { (* a rounded sum of squares is not negative *) unfold d. apply fdot_squares_nonneg. repeat split; assumption. }
  destruct (fsqrt_R p d Fd DN) as [Fs Rs]. split; [exact Fs|]. unfold fvnorm. fold d. rewrite Rs. split.
  - apply rnd_ge_fmt; [apply fmt_0|apply sqrt_pos].
  - apply rnd_le_fmt; [apply fmt_bpow; destruct p; vm_compute; discriminate|].
    rewrite <- (sqrt_square (bpow radix2 (-38))) by apply bpow_ge_0. apply sqrt_le_1_alt. rewrite <- bpow_plus. exact DB.
Qed.
