(** Claims about time derivatives of rotations and angular velocities in
    floating-point arithmetic (C82, C83). *)
From Coq Require Import ZArith Reals Lra Psatz Bool List Lia Permutation.
From Flocq Require Import IEEE754.BinarySingleNaN Core.Core.
From Verif Require Import Linalg Spec SpecFacts SpecClose SpecDiff ModelDiff DerivFacts DiffFacts DiffFacts2 ModelCommon ModelEigen CommonFacts CloseFacts
  FloatModel FloatFacts FloatWrap FloatModel2 SpecFloatQ FloatQFacts FloatQProd FloatQHist FloatQRot FloatMHist FloatCast FloatModel3 SpecLibm SpecBuild FloatBuild FloatBuild2 FloatBuild3 FloatBuild4 FloatModel4 FloatModel5 FloatExt FloatExt2 FloatExt3 FloatPose FloatModel6 FloatMat FloatModel7 SpecSix FloatSix Claims16 Claims18 Claims19 Claims22 FloatModel12 FloatDiff FloatDiff2 FloatDiff3.
Import ListNotations.
Local Open Scope R_scope.

Lemma bpow_nat n : bpow radix2 (Z.of_nat n) = 2 ^ n.
Proof. rewrite bpow_powerRZ. rewrite <- pow_powerRZ. reflexivity. Qed.
Lemma b100 : bpow radix2 100 = 2 ^ 100. Proof. exact (bpow_nat 100). Qed.
Lemma b60 : bpow radix2 60 = 2 ^ 60. Proof. exact (bpow_nat 60). Qed.
Lemma b99 : 2 * 2 ^ 99 = bpow radix2 100. Proof. rewrite b100. reflexivity. Qed.

(** the exact rates and velocities, in terms of products of quaternions *)
Lemma qd_local q w : quatdiff_of_local q w = qscale (/ 2) (hamilton q (pureq w)).
Proof. destruct q, w. unfold quatdiff_of_local, pureq, SpecFloatQ.qscale. diff_unfold. f_equal; field. Qed.
Lemma qd_global q w : quatdiff_of_global q w = qscale (/ 2) (hamilton (pureq w) q).
Proof. destruct q, w. unfold quatdiff_of_global, pureq, SpecFloatQ.qscale. diff_unfold. f_equal; field. Qed.
Lemma lv_local q d : local_of_quatdiff q d = vscale 2 (qvec (hamilton (conj q) d)).
Proof. destruct q, d. diff_unfold. f_equal; ring. Qed.
Lemma lv_global q d : global_of_quatdiff q d = vscale 2 (qvec (hamilton d (conj q))).
Proof. destruct q, d. diff_unfold. f_equal; ring. Qed.
Lemma qn1 q : qnorm q = 1 -> qnorm2 q = 1.
Proof. intro H. rewrite <- qnorm_sq, H. ring. Qed.
Lemma quat_rot_SO3' q : qnorm2 q = 1 -> SO3 (quat_rot q). Proof. apply quat_rot_SO3. Qed.
(** along a curve of unit quaternions *)
Lemma curve_local c t d w : (forall s, qnorm (c s) = 1) -> Qderiv c t d -> has_local_velocity (fun s => quat_rot (c s)) t w ->
  w = vscale 2 (qvec (hamilton (conj (c t)) d)) /\ d = qscale (/ 2) (hamilton (c t) (pureq w)) /\ qnorm d = / 2 * vnorm w.
Proof.
  intros N D H. assert (N2 : forall s, qnorm2 (c s) = 1) by (intro s; apply qn1, N).
  pose proof (local_velocity_uniq (fun s => quat_rot (c s)) t _ _ (quat_rot_SO3 _ (N2 t)) H (quat_curve_local c t d N2 D)) as E.
  assert (B : d = qscale (/ 2) (hamilton (c t) (pureq w))).
  { rewrite <- qd_local, E. symmetry. apply quatdiff_local_back; [apply N2|apply unit_curve_tangent; assumption]. }
  split; [rewrite <- lv_local; exact E|]. split; [exact B|]. rewrite B, qnorm_scale, hamilton_qnorm, N, pureq_norm, (Rabs_pos_eq (/ 2)) by lra. ring.
Qed.
Lemma curve_global c t d w : (forall s, qnorm (c s) = 1) -> Qderiv c t d -> has_global_velocity (fun s => quat_rot (c s)) t w ->
  w = vscale 2 (qvec (hamilton d (conj (c t)))) /\ d = qscale (/ 2) (hamilton (pureq w) (c t)) /\ qnorm d = / 2 * vnorm w.
Proof.
  intros N D H. assert (N2 : forall s, qnorm2 (c s) = 1) by (intro s; apply qn1, N).
  pose proof (global_velocity_uniq (fun s => quat_rot (c s)) t _ _ (quat_rot_SO3 _ (N2 t)) H (quat_curve_global c t d N2 D)) as E.
  assert (B : d = qscale (/ 2) (hamilton (pureq w) (c t))).
  { rewrite <- qd_global, E. symmetry. apply quatdiff_global_back; [apply N2|apply unit_curve_tangent; assumption]. }
  split; [rewrite <- lv_global; exact E|]. split; [exact B|]. rewrite B, qnorm_scale, hamilton_qnorm, N, pureq_norm, (Rabs_pos_eq (/ 2)) by lra. ring.
Qed.
Lemma rate_pert p A n e nq d nw : 0 <= nw -> 0 <= e -> e <= A * fu p -> A * fu p <= / 100 -> Rabs (nq - 1) <= e -> d <= (4 + / 20) * fu p * (nq * nw) + underflow p -> n <= d + / 2 * (e * nw) ->
  n <= (41/10 + A / 2) * fu p * nw + underflow p.
Proof.
  intros W E EA AU Q D N. pose proof (fu_pos p) as U. apply Rabs_both in Q.
  assert (fu p * (nq * nw) <= fu p * ((1 + / 100) * nw)) by (apply Rmult_le_compat_l; [lra|]; apply Rmult_le_compat_r; lra).
  assert (e * nw <= A * fu p * nw) by (apply Rmult_le_compat_r; lra). assert (0 <= fu p * nw) by (apply Rmult_le_pos; lra). lra.
Qed.

(** ** C82 *)
(** C82: RotationQuaternionDiff from an angular velocity, local or global. Let a
    rotation move along a curve of unit quaternions with the angular velocity w, and
    let the quaternion object be within A roundings of the quaternion of the curve.
    Then the computed rate is the derivative of the curve, up to 4.1 + A/2 roundings
    times the length of w, plus the underflow error. *)
Lemma C82_quaternion_rate_lemma : forall (p : prim) (o : orders4) (q : FQ p) (w : FV p) (c : R -> Quat) (t : R) (d : Quat) (A : R),
  orders4_three o -> qfinite q -> vfinite w -> vnorm (vval w) <= 2 ^ 99 ->
  (forall s, qnorm (c s) = 1) -> Qderiv c t d -> qdist (qval q) (c t) <= A * roundoff p -> A * roundoff p <= / 100 ->
  (has_local_velocity (fun s => quat_rot (c s)) t (vval w) ->
    qfinite (fquatdiff_of_local o q w) /\ qdist (qval (fquatdiff_of_local o q w)) d <= (41/10 + A / 2) * roundoff p * vnorm (vval w) + underflow p) /\
  (has_global_velocity (fun s => quat_rot (c s)) t (vval w) ->
    qfinite (fquatdiff_of_global o q w) /\ qdist (qval (fquatdiff_of_global o q w)) d <= (41/10 + A / 2) * roundoff p * vnorm (vval w) + underflow p).
Proof.
  intros p o q w c t d A O Fq Fw HB N D C AU. rewrite roundoff_fu in *. pose proof (vn_nonneg (vval w)) as NW.
  pose proof (qdist_norm (qval q) (c t)) as Q. rewrite N in Q. pose proof Q as Q'. apply Rabs_both in Q'. pose proof (qdist_nonneg (qval q) (c t)) as C0. pose proof (qn_nonneg (qval q)) as NQ.
  assert (B : qnorm (qval q) * vnorm (vval w) <= bpow radix2 100) by (rewrite <- b99; apply Rmult_le_compat; lra).
  split; intro H.
  - destruct (curve_local _ _ _ _ N D H) as (_ & E & _). destruct (quatdiff_of_local_err p o q w O Fq Fw B) as [F X]. split; [exact F|].
    eapply (rate_pert p A _ _ _ _ _ NW C0 C AU Q X). eapply Rle_trans; [apply (qdist_triang _ (qscale (/ 2) (hamilton (qval q) (pureq (vval w)))))|].
    apply Rplus_le_compat_l. rewrite E, qdist_scale, hamilton_dist_l, pureq_norm, (Rabs_pos_eq (/ 2)) by lra. right. reflexivity.
  - destruct (curve_global _ _ _ _ N D H) as (_ & E & _). destruct (quatdiff_of_global_err p o q w O Fq Fw B) as [F X]. split; [exact F|].
    eapply (rate_pert p A _ _ _ _ _ NW C0 C AU Q X). eapply Rle_trans; [apply (qdist_triang _ (qscale (/ 2) (hamilton (pureq (vval w)) (qval q))))|].
    apply Rplus_le_compat_l. rewrite E, qdist_scale, hamilton_dist_r, pureq_norm, (Rabs_pos_eq (/ 2)) by lra. right. ring.
Qed.
(** a body turning about its x axis, at the rotation (3/5, 4/5, 0, 0) at time 0 *)
Definition spin (s : R) : Quat := mkQ (3/5 * cos (s / 2) - 4/5 * sin (s / 2)) (4/5 * cos (s / 2) + 3/5 * sin (s / 2)) 0 0.
Lemma spin_unit s : qnorm (spin s) = 1.
Proof.
  unfold qnorm, qnorm2, spin; cbn [qw qx qy qz]. pose proof (trig1 (s / 2)) as T. replace (_ + _ + 0 * 0 + 0 * 0) with (sin (s / 2) * sin (s / 2) + cos (s / 2) * cos (s / 2)) by field. rewrite T. apply sqrt_1.
Qed.
Lemma spin_0 : spin 0 = mkQ (3/5) (4/5) 0 0.
Proof. unfold spin. replace (0 / 2) with 0 by field. rewrite cos_0, sin_0. f_equal; field. Qed.
Lemma spin_deriv : Qderiv spin 0 (mkQ (-2/5) (3/10) 0 0).
Proof.
  assert (H : Qderiv spin 0 (mkQ (3/5 * (- sin (0 * / 2) * / 2) - 4/5 * (cos (0 * / 2) * / 2)) (4/5 * (- sin (0 * / 2) * / 2) + 3/5 * (cos (0 * / 2) * / 2)) 0 0)).
  { unfold Qderiv, spin; cbn [qw qx qy qz]; unfold Rdiv. repeat split; dl_solve; ring. }
  rewrite Rmult_0_l, sin_0, cos_0 in H. replace (mkQ (-2/5) (3/10) 0 0) with (mkQ (3/5 * (- 0 * / 2) - 4/5 * (1 * / 2)) (4/5 * (- 0 * / 2) + 3/5 * (1 * / 2)) 0 0); [exact H|f_equal; field].
Qed.
Lemma spin_velocity : has_local_velocity (fun s => quat_rot (spin s)) 0 ex /\ has_global_velocity (fun s => quat_rot (spin s)) 0 ex.
Proof.
  assert (N2 : forall s, qnorm2 (spin s) = 1) by (intro s; apply qn1, spin_unit).
  pose proof (quat_curve_local spin 0 _ N2 spin_deriv) as L. pose proof (quat_curve_global spin 0 _ N2 spin_deriv) as G.
  rewrite lv_local, spin_0 in L. rewrite lv_global, spin_0 in G.
  split; [replace ex with (vscale 2 (qvec (hamilton (conj (mkQ (3/5) (4/5) 0 0)) (mkQ (-2/5) (3/10) 0 0)))); [exact L|]|replace ex with (vscale 2 (qvec (hamilton (mkQ (-2/5) (3/10) 0 0) (conj (mkQ (3/5) (4/5) 0 0))))); [exact G|]];
    unfold ex, vscale, qvec, hamilton, conj, vdot, vadd, vcross; cbn [qw qx qy qz vx vy vz qvec]; unfold vscale; cbn; f_equal; field.
Qed.
Definition std43 : orders4 := mkOrd4 leftright3 leftright3 leftright3 leftright3.
Lemma C82_quaternion_rate_ex : orders4_three std43 /\ qfinite q345 /\ vfinite (funit_x F32) /\ vnorm (vval (funit_x F32)) <= 2 ^ 99 /\
  (forall s, qnorm (spin s) = 1) /\ Qderiv spin 0 (mkQ (-2/5) (3/10) 0 0) /\ qdist (qval q345) (spin 0) <= 6 * roundoff F32 /\ 6 * roundoff F32 <= / 100 /\
  has_local_velocity (fun s => quat_rot (spin s)) 0 (vval (funit_x F32)) /\ has_global_velocity (fun s => quat_rot (spin s)) 0 (vval (funit_x F32)).
Proof.
  destruct (funit_x_R F32) as [FX VX]. rewrite VX. split; [repeat split; exact (proj1 std3_ok)|]. split; [apply q345_val|]. split; [exact FX|].
  split; [rewrite (vnorm_unit ex) by (unfold vnorm2, vdot, ex; cbn; ring); apply pow_R1_Rle; lra|]. split; [exact spin_unit|]. split; [exact spin_deriv|]. split; [rewrite spin_0; apply q345_close|].
  split; [rewrite roundoff_fu, fu_32; lra|]. apply spin_velocity.
Qed.

Lemma vel_pert p A B n e nq nf nd nw x : 0 <= nw -> nd = / 2 * nw -> 0 <= e -> e <= A * fu p -> A * fu p <= / 100 -> Rabs (nq - 1) <= e -> Rabs (nf - nd) <= B -> 0 <= nf -> x <= B ->
  0 <= x -> n <= (14 + / 50) * fu p * (nq * nf) + underflow p + 2 * (e * nf + x) -> n <= (8 + A) * fu p * nw + 21/10 * B + underflow p.
Proof.
  intros W ND E EA AU Q F NF X X0 N. pose proof (fu_pos p) as U. pose proof (fu_24 p) as V. apply Rabs_both in Q. apply Rabs_both in F.
  assert (NF' : nf <= / 2 * nw + B) by lra. assert (B0 : 0 <= B) by lra.
  assert (K1 : fu p * (nq * nf) <= fu p * ((1 + / 100) * (/ 2 * nw + B))) by (apply Rmult_le_compat_l; [lra|]; apply Rmult_le_compat; lra).
  assert (K2 : e * nf <= A * fu p * (/ 2 * nw + B)) by (apply Rmult_le_compat; lra).
  assert (K3 : fu p * B <= / 16777216 * B) by (apply Rmult_le_compat_r; lra).
  assert (K4 : A * fu p * B <= / 100 * B) by (apply Rmult_le_compat_r; lra). assert (0 <= fu p * nw) by (apply Rmult_le_pos; lra). lra.
Qed.
Lemma twice_vec_dist a b : vdist (vscale 2 (qvec a)) (vscale 2 (qvec b)) <= 2 * qdist a b.
Proof.
  unfold vdist. replace (vsub (vscale 2 (qvec a)) (vscale 2 (qvec b))) with (vscale 2 (vsub (qvec a) (qvec b))) by (unfold qvec; lin).
  rewrite vnorm_vscale, Rabs_pos_eq by lra. apply Rmult_le_compat_l; [lra|]. apply qvec_dist.
Qed.

(** C82: LocalAngularVelocity and GlobalAngularVelocity from a quaternion and its rate.
    If a rotation moves along a curve of unit quaternions with derivative d and angular
    velocity w, the quaternion object is within A roundings of the curve and the rate
    object within B of d, then the computed angular velocity is w up to 8 + A roundings
    times its length, plus 2.1 B, plus the underflow error. *)
Lemma C82_quaternion_velocity_lemma : forall (p : prim) (o : orders3) (q f : FQ p) (c : R -> Quat) (t : R) (d : Quat) (w : V3) (A B : R),
  orders3_ok 4 4 4 o -> qfinite q -> qfinite f -> vnorm w + B <= 2 ^ 99 ->
  (forall s, qnorm (c s) = 1) -> Qderiv c t d -> qdist (qval q) (c t) <= A * roundoff p -> A * roundoff p <= / 100 -> qdist (qval f) d <= B ->
  (has_local_velocity (fun s => quat_rot (c s)) t w ->
    vfinite (flocal_of_quatdiff o q f) /\ vdist (vval (flocal_of_quatdiff o q f)) w <= (8 + A) * roundoff p * vnorm w + 21/10 * B + underflow p) /\
  (has_global_velocity (fun s => quat_rot (c s)) t w ->
    vfinite (fglobal_of_quatdiff o q f) /\ vdist (vval (fglobal_of_quatdiff o q f)) w <= (8 + A) * roundoff p * vnorm w + 21/10 * B + underflow p).
Proof.
  intros p o q f c t d w A B O Fq Ff HB N D C AU CB. rewrite roundoff_fu in *. pose proof (vn_nonneg w) as NW.
  pose proof (qdist_norm (qval q) (c t)) as Q. rewrite N in Q. pose proof Q as Q'. apply Rabs_both in Q'. pose proof (qdist_nonneg (qval q) (c t)) as C0. pose proof (qn_nonneg (qval q)) as NQ.
  pose proof (Rle_trans _ _ _ (qdist_norm (qval f) d) CB) as QF. pose proof QF as QF'. apply Rabs_both in QF'. pose proof (qdist_nonneg (qval f) d) as D0. pose proof (qn_nonneg (qval f)) as NF.
  assert (P99 : 1 <= 2 ^ 99) by (apply pow_R1_Rle; lra).
  assert (B1 : qnorm (qval q) <= bpow radix2 100) by (rewrite <- b99; lra).
  assert (B2 : qnorm d = / 2 * vnorm w -> 2 * (qnorm (qval q) * qnorm (qval f)) <= bpow radix2 120).
  { intro ND. apply Rle_trans with (bpow radix2 2 * bpow radix2 100); [|rewrite <- bpow_plus; apply bpow_le; lia]. change (bpow radix2 2) with 4. rewrite <- b99.
    assert (qnorm (qval q) * qnorm (qval f) <= (1 + / 100) * 2 ^ 99) by (apply Rmult_le_compat; lra). lra. }
  split; intro H.
  - destruct (curve_local _ _ _ _ N D H) as (E & _ & ND). destruct (local_of_quatdiff_err p o q f O Fq Ff B1 (B2 ND)) as [F X]. split; [exact F|].
    eapply (vel_pert p A B _ _ _ _ _ _ _ NW ND C0 C AU Q QF NF CB D0). eapply Rle_trans; [apply (vdist_triang _ (vscale 2 (qvec (hamilton (conj (qval q)) (qval f)))))|].
    apply Rplus_le_compat; [exact X|]. rewrite E at 1. eapply Rle_trans; [apply twice_vec_dist|]. apply Rmult_le_compat_l; [lra|].
    eapply Rle_trans; [apply (qdist_triang _ (hamilton (conj (c t)) (qval f)))|]. rewrite hamilton_dist_l, hamilton_dist_r, qdist_conj, qnorm_conj, N. lra.
  - destruct (curve_global _ _ _ _ N D H) as (E & _ & ND). destruct (global_of_quatdiff_err p o q f O Fq Ff B1 (B2 ND)) as [F X]. split; [exact F|].
    eapply (vel_pert p A B _ _ _ _ _ _ _ NW ND C0 C AU Q QF NF CB D0). eapply Rle_trans; [apply (vdist_triang _ (vscale 2 (qvec (hamilton (qval f) (conj (qval q))))))|].
    apply Rplus_le_compat; [exact X|]. rewrite E at 1. eapply Rle_trans; [apply twice_vec_dist|]. apply Rmult_le_compat_l; [lra|].
    eapply Rle_trans; [apply (qdist_triang _ (hamilton (qval f) (conj (c t))))|]. rewrite hamilton_dist_l, hamilton_dist_r, qdist_conj, qnorm_conj, N. lra.
Qed.
(** the rate -2/5, 3/10 rounded to float *)
Definition rate345 : FQ F32 := mkFQ (flit F32 (-2) 5) (flit F32 3 10) fzero fzero.
Lemma rate345_val : qfinite rate345 /\ qval rate345 = mkQ (- 13421773 / 33554432) (10066330 / 33554432) 0 0.
Proof.
  split; [repeat split|]. unfold qval, rate345; cbn [fw fx fy fz].
  rewrite (B2R_of_SF F32 (flit F32 (-2) 5) true 13421773 (-25)), (B2R_of_SF F32 (flit F32 3 10) false 10066330 (-25)) by (vm_compute; reflexivity).
  change (B2R (@fzero F32)) with 0. cbn [SpecFloat.cond_Zopp]. f_equal; unfold F2R; cbn [Fnum Fexp SpecFloat.cond_Zopp bpow]; change (Z.pow_pos radix2 25) with 33554432%Z; unfold Rdiv; rewrite ?Ropp_mult_distr_l; reflexivity.
Qed.
Lemma C82_quaternion_velocity_ex : orders3_ok 4 4 4 (mkOrd3 leftright4 leftright4 leftright4) /\ qfinite q345 /\ qfinite rate345 /\ vnorm ex + 6 * roundoff F32 <= 2 ^ 99 /\
  (forall s, qnorm (spin s) = 1) /\ Qderiv spin 0 (mkQ (-2/5) (3/10) 0 0) /\ qdist (qval q345) (spin 0) <= 6 * roundoff F32 /\ 6 * roundoff F32 <= / 100 /\
  qdist (qval rate345) (mkQ (-2/5) (3/10) 0 0) <= 6 * roundoff F32 /\ has_local_velocity (fun s => quat_rot (spin s)) 0 ex /\ has_global_velocity (fun s => quat_rot (spin s)) 0 ex.
Proof.
  split; [repeat split; exact (proj1 std4_ok)|]. split; [apply q345_val|]. split; [apply rate345_val|].
  split; [rewrite (vnorm_unit ex) by (unfold vnorm2, vdot, ex; cbn; ring); rewrite roundoff_fu, fu_32; assert (2 <= 2 ^ 99) by (rewrite <- (pow_1 2) at 1; apply Rle_pow; [lra|lia]); lra|].
  split; [exact spin_unit|]. split; [exact spin_deriv|]. split; [rewrite spin_0; apply q345_close|]. split; [rewrite roundoff_fu, fu_32; lra|].
  split; [|apply spin_velocity]. rewrite (proj2 rate345_val), roundoff_fu, fu_32. eapply Rle_trans; [apply (qnorm_le4 _ (/ 16777216)); unfold qsub; cbn [qw qx qy qz]; apply Rabs_le; lra|lra].
Qed.

Lemma ham_scale_l h a b : hamilton (qscale h a) b = qscale h (hamilton a b).
Proof. destruct a as [a0 a1 a2 a3], b as [b0 b1 b2 b3]. unfold qscale, hamilton, qvec, vdot, vadd, vscale, vcross; cbn [qw qx qy qz vx vy vz]. f_equal; ring. Qed.
Lemma ham_scale_r h a b : hamilton a (qscale h b) = qscale h (hamilton a b).
Proof. destruct a as [a0 a1 a2 a3], b as [b0 b1 b2 b3]. unfold qscale, hamilton, qvec, vdot, vadd, vscale, vcross; cbn [qw qx qy qz vx vy vz]. f_equal; ring. Qed.
Lemma back_local q w : vscale 2 (qvec (hamilton (conj q) (qscale (/ 2) (hamilton q (pureq w))))) = vscale (qnorm2 q) w.
Proof.
  rewrite ham_scale_r, hamilton_assoc, hamilton_conj_l. destruct w as [a b c]. unfold pureq, qscale, hamilton, qvec, vdot, vadd, vscale, vcross; cbn [qw qx qy qz vx vy vz]. f_equal; field.
Qed.
Lemma back_global q w : vscale 2 (qvec (hamilton (qscale (/ 2) (hamilton (pureq w) q)) (conj q))) = vscale (qnorm2 q) w.
Proof.
  rewrite ham_scale_l, <- hamilton_assoc, hamilton_conj_r. destruct w as [a b c]. unfold pureq, qscale, hamilton, qvec, vdot, vadd, vscale, vcross; cbn [qw qx qy qz vx vy vz]. f_equal; field.
Qed.
(** C82: round trip. An angular velocity turned into the rate of a quaternion of norm
    1 up to A roundings and back is the same up to 16 + 2.1 A roundings. *)
Lemma C82_quaternion_roundtrip_lemma : forall (p : prim) (o : orders4) (o' : orders3) (q : FQ p) (w : FV p) (A : R),
  orders4_three o -> orders3_ok 4 4 4 o' -> qfinite q -> vfinite w -> vnorm (vval w) <= 2 ^ 99 ->
  Rabs (qnorm (qval q) - 1) <= A * roundoff p -> A * roundoff p <= / 100 ->
  (let v := flocal_of_quatdiff o' q (fquatdiff_of_local o q w) in vfinite v /\ vdist (vval v) (vval w) <= (16 + 21/10 * A) * roundoff p * vnorm (vval w) + 4 * underflow p) /\
  (let v := fglobal_of_quatdiff o' q (fquatdiff_of_global o q w) in vfinite v /\ vdist (vval v) (vval w) <= (16 + 21/10 * A) * roundoff p * vnorm (vval w) + 4 * underflow p).
Proof.
  intros p o o' q w A O O' Fq Fw HB N AU. cbv zeta. rewrite roundoff_fu in *. pose proof (vn_nonneg (vval w)) as NW. pose proof (fu_pos p) as U. pose proof (fu_24 p) as V. pose proof (underflow_u5 p) as UF.
  assert (U0 : 0 <= underflow p) by (rewrite underflow_eta; pose proof (eta_pos p); lra).
  apply Rabs_both in N. set (n := qnorm (qval q)) in *. set (k := vnorm (vval w)) in *.
  assert (A0 : 0 <= A * fu p) by lra. assert (P99 : 1 <= 2 ^ 99) by (apply pow_R1_Rle; lra).
  assert (B0 : n * k <= bpow radix2 100) by (rewrite <- b99; apply Rmult_le_compat; lra).
  assert (B1 : n <= bpow radix2 100) by (rewrite <- b99; lra).
  assert (UK : 0 <= fu p * k) by (apply Rmult_le_pos; lra).
  assert (E0 : (4 + / 20) * fu p * (n * k) <= (41/10) * (fu p * k)).
  { assert (fu p * (n * k) <= fu p * ((1 + / 100) * k)) by (apply Rmult_le_compat_l; [lra|]; apply Rmult_le_compat_r; lra). lra. }
  assert (NK : Rabs (n * n - 1) * k <= 201/100 * (A * fu p) * k).
  { apply Rmult_le_compat_r; [exact NW|]. replace (n * n - 1) with ((n - 1) * (n + 1)) by ring. rewrite Rabs_mult, (Rabs_pos_eq (n + 1)) by lra. assert (Rabs (n - 1) <= A * fu p) by (apply Rabs_le; lra).
    rewrite (Rmult_comm (201/100)). apply Rmult_le_compat; try lra. apply Rabs_pos. }
  assert (FIN : forall e f v, e <= (4 + / 20) * fu p * (n * k) + underflow p -> f <= / 2 * (n * k) + e -> 0 <= e -> 0 <= f ->
     v <= (14 + / 50) * fu p * (n * f) + underflow p + (2 * (n * e) + Rabs (n * n - 1) * k) -> v <= (16 + 21/10 * A) * fu p * k + 4 * underflow p).
  { intros e f v He Hf e0 f0 Hv. assert (nk : n * k <= (1 + / 100) * k) by (apply Rmult_le_compat_r; lra).
    assert (uk : fu p * k <= / 16777216 * k) by (apply Rmult_le_compat_r; lra).
    assert (F2 : f <= (/ 2 + / 100) * k + underflow p) by lra. assert (ne : n * e <= (1 + / 100) * (41/10 * (fu p * k) + underflow p)) by (apply Rmult_le_compat; lra).
    assert (nf : fu p * (n * f) <= fu p * ((1 + / 100) * ((/ 2 + / 100) * k + underflow p))) by (apply Rmult_le_compat_l; [lra|]; apply Rmult_le_compat; lra).
    assert (uu : fu p * underflow p <= / 16777216 * underflow p) by (apply Rmult_le_compat_r; lra).
    assert (ak : 0 <= A * fu p * k) by (apply Rmult_le_pos; lra). lra. }
  assert (NF : 2 ^ 99 * 2 <= bpow radix2 100) by (rewrite <- b99; lra).
  assert (B3 : forall f, 0 <= f -> f <= / 2 * (n * k) + ((4 + / 20) * fu p * (n * k) + underflow p) -> 2 * (n * f) <= bpow radix2 120).
  { intros f f0 Hf. apply Rle_trans with (bpow radix2 2 * bpow radix2 100); [|rewrite <- bpow_plus; apply bpow_le; lia]. change (bpow radix2 2) with 4. rewrite <- b99.
    assert (uk : fu p * k <= / 16777216 * k) by (apply Rmult_le_compat_r; lra). assert (nk : n * k <= (1 + / 100) * k) by (apply Rmult_le_compat_r; lra).
    assert (n * f <= (1 + / 100) * (2 * 2 ^ 99)) by (apply Rmult_le_compat; lra). lra. }
  split.
  - destruct (quatdiff_of_local_err p o q w O Fq Fw B0) as [F1 X1]. set (f := fquatdiff_of_local o q w) in *.
    set (g := qscale (/ 2) (hamilton (qval q) (pureq (vval w)))) in *.
    assert (Ng : qnorm g = / 2 * (n * k)) by (unfold g; rewrite qnorm_scale, hamilton_qnorm, pureq_norm, (Rabs_pos_eq (/ 2)) by lra; reflexivity).
    pose proof (qdist_norm (qval f) g) as Q. rewrite Ng in Q. apply Rabs_both in Q. pose proof (qn_nonneg (qval f)) as f0. fold n k in X1.
    destruct (local_of_quatdiff_err p o' q f O' Fq F1 B1) as [F2 X2]; [apply B3; [exact f0|lra]|]. split; [exact F2|]. fold n in X2.
    apply (FIN (qdist (qval f) g) (qnorm (qval f))); [exact X1|lra|apply qdist_nonneg|exact f0|].
    eapply Rle_trans; [apply (vdist_triang _ (vscale 2 (qvec (hamilton (conj (qval q)) (qval f)))))|]. apply Rplus_le_compat; [exact X2|].
    eapply Rle_trans; [apply (vdist_triang _ (vscale 2 (qvec (hamilton (conj (qval q)) g))))|]. apply Rplus_le_compat.
    + eapply Rle_trans; [apply twice_vec_dist|]. rewrite hamilton_dist_r, qnorm_conj. right. reflexivity.
    + right. replace (vscale 2 (qvec (hamilton (conj (qval q)) g))) with (vscale (n * n) (vval w)).
      * unfold vdist, k. rewrite <- vnorm_vscale. f_equal. clear. generalize (vval w) (n * n). intros v r. lin.
      * unfold n. rewrite qnorm_sq. symmetry. apply back_local.
  - destruct (quatdiff_of_global_err p o q w O Fq Fw B0) as [F1 X1]. set (f := fquatdiff_of_global o q w) in *.
    set (g := qscale (/ 2) (hamilton (pureq (vval w)) (qval q))) in *.
    assert (Ng : qnorm g = / 2 * (n * k)) by (unfold g; rewrite qnorm_scale, hamilton_qnorm, pureq_norm, (Rabs_pos_eq (/ 2)) by lra; fold n k; ring).
    pose proof (qdist_norm (qval f) g) as Q. rewrite Ng in Q. apply Rabs_both in Q. pose proof (qn_nonneg (qval f)) as f0. fold n k in X1.
    destruct (global_of_quatdiff_err p o' q f O' Fq F1 B1) as [F2 X2]; [apply B3; [exact f0|lra]|]. split; [exact F2|]. fold n in X2.
    apply (FIN (qdist (qval f) g) (qnorm (qval f))); [exact X1|lra|apply qdist_nonneg|exact f0|].
    eapply Rle_trans; [apply (vdist_triang _ (vscale 2 (qvec (hamilton (qval f) (conj (qval q))))))|]. apply Rplus_le_compat; [exact X2|].
    eapply Rle_trans; [apply (vdist_triang _ (vscale 2 (qvec (hamilton g (conj (qval q))))))|]. apply Rplus_le_compat.
    + eapply Rle_trans; [apply twice_vec_dist|]. rewrite hamilton_dist_l, qnorm_conj. right. fold n. ring.
    + right. replace (vscale 2 (qvec (hamilton g (conj (qval q))))) with (vscale (n * n) (vval w)).
      * unfold vdist, k. rewrite <- vnorm_vscale. f_equal. clear. generalize (vval w) (n * n). intros v r. lin.
      * unfold n. rewrite qnorm_sq. symmetry. apply back_global.
Qed.
Lemma C82_quaternion_roundtrip_ex : orders4_three std43 /\ orders3_ok 4 4 4 (mkOrd3 leftright4 leftright4 leftright4) /\ qfinite q345 /\ Rabs (qnorm (qval q345) - 1) <= 6 * roundoff F32.
Proof.
  split; [repeat split; exact (proj1 std3_ok)|]. split; [repeat split; exact (proj1 std4_ok)|]. split; [apply q345_val|]. destruct q345_close as [E D]. pose proof (qdist_norm (qval q345) (mkQ (3/5) (4/5) 0 0)) as N. rewrite E in N. lra.
Qed.

(** exact rates and velocities along a curve of rotation matrices *)
Lemma mcurve_local c t d w : (forall s, SO3 (c s)) -> Mderiv c t d -> has_local_velocity c t w -> d = mmul (c t) (mcross w) /\ vee (mmul (mtrans (c t)) d) = w.
Proof.
  intros SO D H. pose proof (Mderiv_uniq _ _ _ _ D H) as E. split; [exact E|]. rewrite E. rewrite <- (vee_mcross w) at 2. f_equal. rewrite mmul_assoc.
  rewrite (SO3_inv_l _ (SO t)). clear. generalize (mcross w). intro m. lin.
Qed.
Lemma mcurve_global c t d w : (forall s, SO3 (c s)) -> Mderiv c t d -> has_global_velocity c t w -> d = mmul (mcross w) (c t) /\ vee (mmul d (mtrans (c t))) = w.
Proof.
  intros SO D H. pose proof (Mderiv_uniq _ _ _ _ D H) as E. split; [exact E|]. rewrite E. rewrite <- (vee_mcross w) at 2. f_equal. rewrite <- mmul_assoc.
  rewrite (SO3_inv_r _ (SO t)). clear. generalize (mcross w). intro m. lin.
Qed.
Lemma cross_right_opnorm m w v : SO3 m -> vnorm (mvmul (mmul m (mcross w)) v) <= vnorm w * vnorm v.
Proof. intro H. replace (mvmul (mmul m (mcross w)) v) with (mvmul m (mvmul (mcross w) v)) by (symmetry; apply mvmul_mmul). rewrite (SO3_vnorm m _ H). apply mcross_opnorm. Qed.
Lemma cross_left_opnorm m w v : SO3 m -> vnorm (mvmul (mmul (mcross w) m) v) <= vnorm w * vnorm v.
Proof. intro H. replace (mvmul (mmul (mcross w) m) v) with (mvmul (mcross w) (mvmul m v)) by (symmetry; apply mvmul_mmul). rewrite <- (SO3_vnorm m v H). apply mcross_opnorm. Qed.

(** C82: RotationMatrixDiff from an angular velocity, local or global. Let a rotation
    move along a curve of rotation matrices with the angular velocity w, and let the
    matrix object be within A roundings of the matrix of the curve. Then the computed
    rate is the derivative of the curve up to 9.4 + A roundings times the length of w,
    plus the underflow error. *)
Lemma C82_matrix_rate_lemma : forall (p : prim) (o : orders9) (m : FM p) (w : FV p) (c : R -> M33) (t : R) (d : M33) (A : R),
  orders9_ok o -> mfinite m -> vfinite w -> vnorm (vval w) <= 2 ^ 100 ->
  (forall s, SO3 (c s)) -> Mderiv c t d -> close (A * roundoff p) (mval m) (c t) -> A * roundoff p <= / 100 ->
  (has_local_velocity c t (vval w) ->
    mfinite (fmatdiff_of_local o m w) /\ close ((94/10 + A) * roundoff p * vnorm (vval w) + underflow p) (mval (fmatdiff_of_local o m w)) d) /\
  (has_global_velocity c t (vval w) ->
    mfinite (fmatdiff_of_global o m w) /\ close ((94/10 + A) * roundoff p * vnorm (vval w) + underflow p) (mval (fmatdiff_of_global o m w)) d).
Proof.
  intros p o m w c t d A O Fm Fw HB SO D C AU. rewrite roundoff_fu in *. rewrite <- b100 in HB. split; intro H.
  - rewrite (proj1 (mcurve_local _ _ _ _ SO D H)). apply matdiff_of_local_err; auto.
  - rewrite (proj1 (mcurve_global _ _ _ _ SO D H)). apply matdiff_of_global_err; auto.
Qed.
Definition spinm (s : R) : M33 := quat_rot (spin s).
Lemma spinm_deriv : Mderiv spinm 0 (mmul (spinm 0) (mcross ex)). Proof. apply spin_velocity. Qed.
Lemma spinm_SO3 s : SO3 (spinm s). Proof. apply quat_rot_SO3, qn1, spin_unit. Qed.
Lemma spinm_close : mfinite m345 /\ close (61 * roundoff F32) (mval m345) (spinm 0).
Proof. destruct m345_stands as (F & _ & C). split; [exact F|]. unfold spinm. rewrite spin_0. exact C. Qed.
Lemma std9_ok' : orders9_ok std9. Proof. repeat split; apply Permutation_refl. Qed.
Lemma C82_matrix_rate_ex : orders9_ok std9 /\ mfinite m345 /\ vfinite (funit_x F32) /\ vnorm (vval (funit_x F32)) <= 2 ^ 100 /\
  (forall s, SO3 (spinm s)) /\ Mderiv spinm 0 (mmul (spinm 0) (mcross ex)) /\ close (61 * roundoff F32) (mval m345) (spinm 0) /\ 61 * roundoff F32 <= / 100 /\
  has_local_velocity spinm 0 (vval (funit_x F32)) /\ has_global_velocity spinm 0 (vval (funit_x F32)).
Proof.
  destruct (funit_x_R F32) as [FX VX]. rewrite VX. split; [exact std9_ok'|]. split; [apply spinm_close|]. split; [exact FX|].
  split; [rewrite (vnorm_unit ex) by (unfold vnorm2, vdot, ex; cbn; ring); apply pow_R1_Rle; lra|]. split; [exact spinm_SO3|]. split; [exact spinm_deriv|]. split; [apply spinm_close|].
  split; [rewrite roundoff_fu, fu_32; lra|]. apply spin_velocity.
Qed.

(** C82: LocalAngularVelocity and GlobalAngularVelocity from a rotation matrix and its
    rate. With the matrix object within A roundings of the curve and the rate object
    within B of its derivative, the computed angular velocity is that of the curve up
    to 16.5 + 1.75 A roundings times its length, plus 1.8 B, plus the underflow error. *)
Lemma C82_matrix_velocity_lemma : forall (p : prim) (o : orders9) (m f : FM p) (c : R -> M33) (t : R) (d : M33) (w : V3) (A B : R),
  orders9_ok o -> mfinite m -> mfinite f -> vnorm w + B <= 2 ^ 100 ->
  (forall s, SO3 (c s)) -> Mderiv c t d -> close (A * roundoff p) (mval m) (c t) -> A * roundoff p <= / 100 -> close B (mval f) d ->
  (has_local_velocity c t w ->
    vfinite (flocal_of_matdiff o m f) /\ vdist (vval (flocal_of_matdiff o m f)) w <= (165/10 + 175/100 * A) * roundoff p * vnorm w + 18/10 * B + underflow p) /\
  (has_global_velocity c t w ->
    vfinite (fglobal_of_matdiff o m f) /\ vdist (vval (fglobal_of_matdiff o m f)) w <= (165/10 + 175/100 * A) * roundoff p * vnorm w + 18/10 * B + underflow p).
Proof.
  intros p o m f c t d w A B O Fm Ff HB SO D C AU CB. rewrite roundoff_fu in *. rewrite <- b100 in HB. split; intro H.
  - destruct (mcurve_local _ _ _ _ SO D H) as [E V]. rewrite <- V at 1.
    apply (local_of_matdiff_err p o m f (c t) d A B (vnorm w)); auto; [|apply vn_nonneg]. intro v. rewrite E. now apply cross_right_opnorm.
  - destruct (mcurve_global _ _ _ _ SO D H) as [E V]. rewrite <- V at 1.
    apply (global_of_matdiff_err p o m f (c t) d A B (vnorm w)); auto; [|apply vn_nonneg]. intro v. rewrite E. now apply cross_left_opnorm.
Qed.
(** the rate computed by the library for the spinning body is itself such a rate object *)
Lemma C82_matrix_velocity_ex : let f := fmatdiff_of_local std9 m345 (funit_x F32) in let B := (94/10 + 61) * roundoff F32 * 1 + underflow F32 in
  orders9_ok std9 /\ mfinite m345 /\ mfinite f /\ vnorm ex + B <= 2 ^ 100 /\
  (forall s, SO3 (spinm s)) /\ Mderiv spinm 0 (mmul (spinm 0) (mcross ex)) /\ close (61 * roundoff F32) (mval m345) (spinm 0) /\ 61 * roundoff F32 <= / 100 /\
  close B (mval f) (mmul (spinm 0) (mcross ex)) /\ has_local_velocity spinm 0 ex /\ has_global_velocity spinm 0 ex.
Proof.
  cbv zeta. destruct C82_matrix_rate_ex as (O & Fm & Fw & Nw & SO & D & C & AU & HL & HG).
  destruct (C82_matrix_rate_lemma F32 std9 m345 (funit_x F32) spinm 0 _ 61 O Fm Fw Nw SO D C AU) as [X _]. destruct (X HL) as [Ff Cf].
  destruct (funit_x_R F32) as [_ VX]. rewrite VX in *. assert (NX : vnorm ex = 1) by (apply vnorm_unit; unfold vnorm2, vdot, ex; cbn; ring). rewrite NX in *.
  split; [exact O|]. split; [exact Fm|]. split; [exact Ff|]. split; [|split; [exact SO|]; split; [exact D|]; split; [exact C|]; split; [exact AU|]; split; [exact Cf|]; split; assumption].
  pose proof (underflow_u5 F32) as U5. rewrite roundoff_fu in *. rewrite fu_32 in *. assert (2 <= 2 ^ 100) by (rewrite <- (pow_1 2) at 1; apply Rle_pow; [lra|lia]). lra.
Qed.

(** C82: change of frame. GlobalAngularVelocity(R, local) and LocalAngularVelocity(R,
    global), for a rotation object of any of the six classes that stands for the
    rotation of the curve at time t: the computed velocity is the angular velocity of
    the curve in the other frame, up to the defect of the matrix of the object plus 6
    roundings times the length (for the local velocity with the four classes that are
    not quaternions or matrices, plus the 4200 roundings of inverted()). *)
Lemma C82_frames_lemma : forall (p : prim) (L : libm) (ch : choices6) (o : orders3) (x : fobject p) (c : R -> M33) (t T A : R) (v : FV p) (l g : V3),
  libm_ok L -> choices6_ok ch -> orders3_ok 3 3 3 o -> 64/10 <= T <= 655/100 -> stands T A x (c t) -> A * roundoff p <= / 100 -> vfinite v -> vnorm (vval v) <= 2 ^ 100 ->
  has_local_velocity c t l -> has_global_velocity c t g ->
  let defect := conv_defect (okind_of x) KMat A + 6 in
  (vval v = l -> let w := fglobal_of_local L ch o x v in vfinite w /\ vdist (vval w) g <= defect * roundoff p * vnorm l + underflow p) /\
  (vval v = g -> let w := flocal_of_global L ch o x v in vfinite w /\
     vdist (vval w) l <= (defect + match okind_of x with KSrc _ => 4200 | _ => 0 end) * roundoff p * vnorm g + underflow p).
Proof.
  intros p L ch o x c t T A v l g HL HC O HT H AU Fv Nv Hl Hg. cbv zeta.
  assert (SO : SO3 (c t)) by (apply (stands_SO3 _ _ _ _ _ H); intros _; rewrite roundoff_fu in AU; lra).
  assert (E : g = mvmul (c t) l) by (apply (global_velocity_uniq c t _ _ SO Hg); apply local_global_velocity; assumption).
  split; intro V.
  - rewrite E, <- V. apply (C74_rotate_lemma p L ch o x (c t) T A v); auto; lra.
  - destruct (C74_inverted_lemma p L ch x (c t) T A HL HC HT H) as (K & r' & S' & C').
    destruct (C74_rotate_lemma p L ch o (oinverted L ch x) r' T A v HL HC O (proj2 HT) S' AU Fv Nv) as [F D]. rewrite K in D. split; [exact F|].
    eapply Rle_trans; [apply (vdist_triang _ (mvmul r' (vval v)))|]. unfold flocal_of_global.
    assert (EL : l = mvmul (mtrans (c t)) (vval v)).
    { rewrite V, E. rewrite <- mvmul_mmul, (SO3_inv_l _ SO). clear. generalize l. intro a. lin. }
    pose proof (C' (vval v)) as CV. fold (vdist (mvmul r' (vval v)) (mvmul (mtrans (c t)) (vval v))) in CV. rewrite <- EL in CV. rewrite V in *. unfold flocal_of_global in *.
    destruct (okind_of x); lra.
Qed.
Lemma C82_frames_ex : libm_ok exact_libm /\ choices6_ok stdsix /\ orders3_ok 3 3 3 std3 /\ stands (64/10) 61 (OMat m345) (spinm 0) /\ 61 * roundoff F32 <= / 100 /\
  vfinite (funit_x F32) /\ vnorm (vval (funit_x F32)) <= 2 ^ 100 /\ has_local_velocity spinm 0 ex /\ has_global_velocity spinm 0 ex /\ vval (funit_x F32) = ex.
Proof.
  destruct C82_matrix_rate_ex as (O & Fm & Fw & Nw & SO & D & C & AU & _). split; [apply exact_libm_ok|]. split; [apply stdsix_ok|]. split; [apply std3_ok|].
  split; [unfold spinm; rewrite spin_0; apply m345_stands|]. split; [exact AU|]. split; [exact Fw|]. split; [exact Nw|]. split; [apply spin_velocity|]. split; [apply spin_velocity|]. apply funit_x_R.
Qed.

(** ** C83 *)
(** C83: angular velocities from Euler angles and their rates. Let the angles move
    along any curve that at time t goes through the stored angles with the stored
    rates, and let the rotation they stand for have the angular velocity w at time t.
    The computed velocity is w up to 22 roundings times the length of the vector of
    rates, plus the underflow error. EulerAnglesZyx, local: *)
Lemma C83_zyx_velocity_lemma : forall (p : prim) (L : libm) (o : orders3) (z y x : fl p) (d : FV p) (c : R -> Zyx) (t : R) (w : V3),
  libm_ok L -> orders3_ok 3 3 3 o -> is_finite z = true -> is_finite y = true -> is_finite x = true -> vfinite d -> vnorm (vval d) <= 2 ^ 100 ->
  c t = mkZyx (B2R z) (B2R y) (B2R x) -> Zyxderiv c t (vval d) -> has_local_velocity (fun s => zyx_rot (c s)) t w ->
  vfinite (fzyx_velocity L o z y x d) /\ vdist (vval (fzyx_velocity L o z y x d)) w <= 22 * roundoff p * vnorm (vval d) + underflow p.
Proof.
  intros p L o z y x d c t w HL HO Fz Fy Fx Fd HB C D H. rewrite roundoff_fu. rewrite <- b100 in HB.
  pose proof (zyx_curve_local c t _ D) as H'. pose proof (local_velocity_uniq _ t _ _ (zyx_rot_SO3 (c t)) H H') as ->. rewrite C. now apply zyx_velocity_err.
Qed.
(** angles (t^2, t, 2t) at time 1, rates (2, 1, 2) *)
Definition path_zyx (s : R) : Zyx := mkZyx (s * s) s (2 * s).
Definition path_xyz (s : R) : Xyz := mkXyz (s * s) s (2 * s).
Definition fvec212 : FV F32 := mkFV (fofZ F32 2) (fofZ F32 1) (fofZ F32 2).
Lemma fvec212_val : vfinite fvec212 /\ vval fvec212 = mkV3 2 1 2.
Proof. destruct (fofZ1 F32) as [F1 V1]. destruct (fofZ2 F32) as [F2 V2]. split; [repeat split; assumption|]. unfold vval, fvec212; cbn [gx gy gz]. now rewrite V1, V2. Qed.
Lemma fvec212_norm : vnorm (vval fvec212) = 3.
Proof. rewrite (proj2 fvec212_val). unfold vnorm, vnorm2, vdot; cbn [vx vy vz]. replace (2 * 2 + 1 * 1 + 2 * 2) with (3 * 3) by ring. apply sqrt_square. lra. Qed.
Lemma path_zyx_ok : path_zyx 1 = mkZyx (B2R (fofZ F32 1)) (B2R (fofZ F32 1)) (B2R (fofZ F32 2)) /\ Zyxderiv path_zyx 1 (vval fvec212).
Proof.
  rewrite (proj2 fvec212_val), (proj2 (fofZ1 F32)), (proj2 (fofZ2 F32)). split; [unfold path_zyx; f_equal; ring|].
  unfold Zyxderiv, path_zyx; cbn [zyaw zpitch zroll vx vy vz]; repeat split; dl_solve; ring.
Qed.
Lemma path_xyz_ok : path_xyz 1 = mkXyz (B2R (fofZ F32 1)) (B2R (fofZ F32 1)) (B2R (fofZ F32 2)) /\ Xyzderiv path_xyz 1 (vval fvec212).
Proof.
  rewrite (proj2 fvec212_val), (proj2 (fofZ1 F32)), (proj2 (fofZ2 F32)). split; [unfold path_xyz; f_equal; ring|].
  unfold Xyzderiv, path_xyz; cbn [xyaw xpitch xroll vx vy vz]; repeat split; dl_solve; ring.
Qed.
Lemma three_le_pow n : (2 <= n)%nat -> 3 <= 2 ^ n.
Proof. intro H. apply Rle_trans with (2 ^ 2); [lra|]. apply Rle_pow; [lra|exact H]. Qed.
Lemma C83_zyx_velocity_ex : libm_ok exact_libm /\ orders3_ok 3 3 3 std3 /\ vfinite fvec212 /\ vnorm (vval fvec212) <= 2 ^ 100 /\
  path_zyx 1 = mkZyx (B2R (fofZ F32 1)) (B2R (fofZ F32 1)) (B2R (fofZ F32 2)) /\ Zyxderiv path_zyx 1 (vval fvec212) /\ exists w, has_local_velocity (fun s => zyx_rot (path_zyx s)) 1 w.
Proof.
  split; [apply exact_libm_ok|]. split; [apply std3_ok|]. split; [apply fvec212_val|]. split; [rewrite fvec212_norm; apply three_le_pow; lia|]. split; [apply path_zyx_ok|]. split; [apply path_zyx_ok|].
  eexists. apply zyx_curve_local, path_zyx_ok.
Qed.
(** C83: EulerAnglesXyz, local and global: *)
Lemma C83_xyz_velocity_lemma : forall (p : prim) (L : libm) (o : orders3) (x y z : fl p) (d : FV p) (c : R -> Xyz) (t : R) (w : V3),
  libm_ok L -> orders3_ok 3 3 3 o -> is_finite x = true -> is_finite y = true -> is_finite z = true -> vfinite d -> vnorm (vval d) <= 2 ^ 100 ->
  c t = mkXyz (B2R x) (B2R y) (B2R z) -> Xyzderiv c t (vval d) ->
  (has_local_velocity (fun s => xyz_rot (c s)) t w ->
    vfinite (fxyz_velocity L o x y z d) /\ vdist (vval (fxyz_velocity L o x y z d)) w <= 22 * roundoff p * vnorm (vval d) + underflow p) /\
  (has_global_velocity (fun s => xyz_rot (c s)) t w ->
    vfinite (fxyz_global_velocity L o x y z d) /\ vdist (vval (fxyz_global_velocity L o x y z d)) w <= 22 * roundoff p * vnorm (vval d) + underflow p).
Proof.
  intros p L o x y z d c t w HL HO Fx Fy Fz Fd HB C D. rewrite roundoff_fu. rewrite <- b100 in HB. split; intro H.
  - pose proof (xyz_curve_local c t _ D) as H'. pose proof (local_velocity_uniq _ t _ _ (xyz_rot_SO3 (c t)) H H') as ->. rewrite C. now apply xyz_velocity_err.
  - pose proof (xyz_curve_global c t _ D) as H'. pose proof (global_velocity_uniq _ t _ _ (xyz_rot_SO3 (c t)) H H') as ->. rewrite C. now apply xyz_global_velocity_err.
Qed.
Lemma C83_xyz_velocity_ex : libm_ok exact_libm /\ orders3_ok 3 3 3 std3 /\ vfinite fvec212 /\ vnorm (vval fvec212) <= 2 ^ 100 /\
  path_xyz 1 = mkXyz (B2R (fofZ F32 1)) (B2R (fofZ F32 1)) (B2R (fofZ F32 2)) /\ Xyzderiv path_xyz 1 (vval fvec212) /\
  (exists w, has_local_velocity (fun s => xyz_rot (path_xyz s)) 1 w) /\ (exists w, has_global_velocity (fun s => xyz_rot (path_xyz s)) 1 w).
Proof.
  split; [apply exact_libm_ok|]. split; [apply std3_ok|]. split; [apply fvec212_val|]. split; [rewrite fvec212_norm; apply three_le_pow; lia|]. split; [apply path_xyz_ok|]. split; [apply path_xyz_ok|].
  split; eexists; [apply xyz_curve_local, path_xyz_ok|apply xyz_curve_global, path_xyz_ok].
Qed.

(** exact rates from the velocity *)
Lemma zyx_rates_exact c t d w : Zyxderiv c t d -> has_local_velocity (fun s => zyx_rot (c s)) t w -> cos (zpitch (c t)) <> 0 ->
  exists M, zyx_local_to_diff (c t) = Val M /\ mvmul M w = d.
Proof.
  intros D H N. destruct (zyx_local_to_diff (c t)) as [M| |] eqn:E.
  - exists M. split; [reflexivity|]. destruct (zyx_inverse _ _ E) as (_ & I & _). rewrite (local_velocity_uniq _ t _ _ (zyx_rot_SO3 (c t)) H (zyx_curve_local c t _ D)).
    rewrite <- mvmul_mmul, I. clear. lin.
  - exfalso. exact (zyx_no_nan _ E).
  - exfalso. apply N. now apply zyx_throws.
Qed.
Lemma xyz_rates_exact c t d w : Xyzderiv c t d -> has_local_velocity (fun s => xyz_rot (c s)) t w -> cos (xpitch (c t)) <> 0 ->
  exists M, xyz_local_to_diff (c t) = Val M /\ mvmul M w = d.
Proof.
  intros D H N. destruct (xyz_local_to_diff (c t)) as [M| |] eqn:E.
  - exists M. split; [reflexivity|]. destruct (xyz_local_inverse _ _ E) as (_ & I & _). rewrite (local_velocity_uniq _ t _ _ (xyz_rot_SO3 (c t)) H (xyz_curve_local c t _ D)).
    rewrite <- mvmul_mmul, I. clear. lin.
  - exfalso. exact (xyz_local_no_nan _ E).
  - exfalso. apply N. now apply xyz_local_throws.
Qed.
Lemma xyz_global_rates_exact c t d w : Xyzderiv c t d -> has_global_velocity (fun s => xyz_rot (c s)) t w -> cos (xpitch (c t)) <> 0 ->
  exists M, xyz_global_to_diff (c t) = Val M /\ mvmul M w = d.
Proof.
  intros D H N. destruct (xyz_global_to_diff (c t)) as [M| |] eqn:E.
  - exists M. split; [reflexivity|]. destruct (xyz_global_inverse _ _ E) as (_ & I & _). rewrite (global_velocity_uniq _ t _ _ (xyz_rot_SO3 (c t)) H (xyz_curve_global c t _ D)).
    rewrite <- mvmul_mmul, I. clear. lin.
  - exfalso. exact (xyz_global_no_nan _ E).
  - exfalso. apply N. now apply xyz_global_throws.
Qed.
Lemma cos_nonzero p c : 100 * fu p <= Rabs c -> c <> 0.
Proof. intros H E. rewrite E, Rabs_R0 in H. pose proof (fu_pos p). lra. Qed.
Lemma kk_eq p c n : 34 * fu p * (/ Rabs c * / Rabs c) * n + underflow p = 34 * fu p * n / (c * c) + underflow p.
Proof.
  f_equal. replace (/ Rabs c * / Rabs c) with (/ (c * c)); [unfold Rdiv; ring|]. rewrite <- Rinv_mult. f_equal. rewrite <- Rabs_mult, Rabs_pos_eq by apply Rle_0_sqr. reflexivity.
Qed.

(** C83: rates of Euler angles from an angular velocity. Away from gimbal lock (the
    cosine of the pitch is at least 100 roundings in absolute value) there is no
    exception, and the computed rates are the rates of any curve of angles that goes
    through the stored angles with the stored angular velocity, up to 34 roundings
    times the length of the velocity, divided by the square of the cosine of the pitch.
    EulerAnglesZyxDiff from a LocalAngularVelocity: *)
Lemma C83_zyx_rates_lemma : forall (p : prim) (L : libm) (o : orders3) (z y x : fl p) (w : FV p) (c : R -> Zyx) (t : R) (d : V3),
  libm_ok L -> orders3_ok 3 3 3 o -> is_finite z = true -> is_finite y = true -> is_finite x = true -> vfinite w -> vnorm (vval w) <= 2 ^ 60 ->
  c t = mkZyx (B2R z) (B2R y) (B2R x) -> Zyxderiv c t d -> has_local_velocity (fun s => zyx_rot (c s)) t (vval w) -> 100 * roundoff p <= Rabs (cos (B2R y)) ->
  exists r, fzyx_rates L o z y x w = Some r /\ vfinite r /\ vdist (vval r) d <= 34 * roundoff p * vnorm (vval w) / (cos (B2R y) * cos (B2R y)) + underflow p.
Proof.
  intros p L o z y x w c t d HL HO Fz Fy Fx Fw HB C D H K. rewrite roundoff_fu in *. rewrite <- b60 in HB.
  destruct (zyx_rates_exact c t d (vval w) D H) as (M & EM & ED); [rewrite C; exact (cos_nonzero p _ K)|]. rewrite C in EM.
  destruct (zyx_rates_err p L o HL HO x y z w Fx Fy Fz Fw HB K M EM) as (r & E & F & X). exists r. split; [exact E|]. split; [exact F|]. rewrite <- ED, <- kk_eq. exact X.
Qed.
Lemma cos1_big : 100 * roundoff F32 <= Rabs (cos (B2R (fofZ F32 1))).
Proof.
  rewrite (proj2 (fofZ1 F32)), roundoff_fu, fu_32. rewrite Rabs_pos_eq by (left; apply cos_gt_0; pose proof PI2_1; pose proof PI_RGT_0; lra).
  assert (cos (PI / 3) <= cos 1). { apply cos_decr_1; try (pose proof PI_4; pose proof PI2_1; lra). pose proof PI2_3_2. lra. }
  rewrite cos_PI3 in H. lra.
Qed.
(** a curve of angles through e with the rates d *)
Definition line_zyx (e : Zyx) (d : V3) (s : R) : Zyx := mkZyx (zyaw e + s * vx d) (zpitch e + s * vy d) (zroll e + s * vz d).
Definition line_xyz (e : Xyz) (d : V3) (s : R) : Xyz := mkXyz (xroll e + s * vx d) (xpitch e + s * vy d) (xyaw e + s * vz d).
Lemma line_zyx_ok e d : line_zyx e d 0 = e /\ Zyxderiv (line_zyx e d) 0 d.
Proof. split; [destruct e; unfold line_zyx; cbn; f_equal; ring|]. unfold Zyxderiv, line_zyx; cbn [zyaw zpitch zroll]; repeat split; dl_solve; ring. Qed.
Lemma line_xyz_ok e d : line_xyz e d 0 = e /\ Xyzderiv (line_xyz e d) 0 d.
Proof. split; [destruct e; unfold line_xyz; cbn; f_equal; ring|]. unfold Xyzderiv, line_xyz; cbn [xyaw xpitch xroll]; repeat split; dl_solve; ring. Qed.
Lemma C83_zyx_rates_ex : let e := mkZyx (B2R (fofZ F32 2)) (B2R (fofZ F32 1)) (B2R (fofZ F32 2)) in
  vfinite fvec212 /\ vnorm (vval fvec212) <= 2 ^ 60 /\ 100 * roundoff F32 <= Rabs (cos (B2R (fofZ F32 1))) /\
  exists d, line_zyx e d 0 = e /\ Zyxderiv (line_zyx e d) 0 d /\ has_local_velocity (fun s => zyx_rot (line_zyx e d s)) 0 (vval fvec212).
Proof.
  cbv zeta. split; [apply fvec212_val|]. split; [rewrite fvec212_norm; apply three_le_pow; lia|]. split; [exact cos1_big|].
  set (e := mkZyx _ _ _). destruct (zyx_local_to_diff e) as [M| |] eqn:E.
  - exists (mvmul M (vval fvec212)). destruct (line_zyx_ok e (mvmul M (vval fvec212))) as [A B]. split; [exact A|]. split; [exact B|]. pose proof (zyx_curve_local _ _ _ B) as H. rewrite A in H.
    rewrite <- mvmul_mmul, (proj2 (proj2 (zyx_inverse _ _ E))) in H. replace (mvmul mid (vval fvec212)) with (vval fvec212) in H by (generalize (vval fvec212); clear; lin). exact H.
  - exfalso. exact (zyx_no_nan _ E).
  - exfalso. apply zyx_throws in E. pose proof cos1_big as K. rewrite roundoff_fu in K. apply cos_nonzero in K. contradiction.
Qed.
(** C83: EulerAnglesXyzDiff from a LocalAngularVelocity, and the mapping from a
    GlobalAngularVelocity: *)
Lemma C83_xyz_rates_lemma : forall (p : prim) (L : libm) (o : orders3) (x y z : fl p) (w : FV p) (c : R -> Xyz) (t : R) (d : V3),
  libm_ok L -> orders3_ok 3 3 3 o -> is_finite x = true -> is_finite y = true -> is_finite z = true -> vfinite w -> vnorm (vval w) <= 2 ^ 60 ->
  c t = mkXyz (B2R x) (B2R y) (B2R z) -> Xyzderiv c t d -> 100 * roundoff p <= Rabs (cos (B2R y)) ->
  (has_local_velocity (fun s => xyz_rot (c s)) t (vval w) ->
    exists r, fxyz_rates L o x y z w = Some r /\ vfinite r /\ vdist (vval r) d <= 34 * roundoff p * vnorm (vval w) / (cos (B2R y) * cos (B2R y)) + underflow p) /\
  (has_global_velocity (fun s => xyz_rot (c s)) t (vval w) ->
    exists r, fxyz_global_rates L o x y z w = Some r /\ vfinite r /\ vdist (vval r) d <= 34 * roundoff p * vnorm (vval w) / (cos (B2R y) * cos (B2R y)) + underflow p).
Proof.
  intros p L o x y z w c t d HL HO Fx Fy Fz Fw HB C D K. rewrite roundoff_fu in *. rewrite <- b60 in HB. split; intro H.
  - destruct (xyz_rates_exact c t d (vval w) D H) as (M & EM & ED); [rewrite C; exact (cos_nonzero p _ K)|]. rewrite C in EM.
    destruct (xyz_rates_err p L o HL HO x y z w Fx Fy Fz Fw HB K M EM) as (r & E & F & X). exists r. split; [exact E|]. split; [exact F|]. rewrite <- ED, <- kk_eq. exact X.
  - destruct (xyz_global_rates_exact c t d (vval w) D H) as (M & EM & ED); [rewrite C; exact (cos_nonzero p _ K)|]. rewrite C in EM.
    destruct (xyz_global_rates_err p L o HL HO x y z w Fx Fy Fz Fw HB K M EM) as (r & E & F & X). exists r. split; [exact E|]. split; [exact F|]. rewrite <- ED, <- kk_eq. exact X.
Qed.
Lemma C83_xyz_rates_ex : let e := mkXyz (B2R (fofZ F32 2)) (B2R (fofZ F32 1)) (B2R (fofZ F32 2)) in
  vfinite fvec212 /\ vnorm (vval fvec212) <= 2 ^ 60 /\ 100 * roundoff F32 <= Rabs (cos (B2R (fofZ F32 1))) /\
  (exists d, line_xyz e d 0 = e /\ Xyzderiv (line_xyz e d) 0 d /\ has_local_velocity (fun s => xyz_rot (line_xyz e d s)) 0 (vval fvec212)) /\
  (exists d, line_xyz e d 0 = e /\ Xyzderiv (line_xyz e d) 0 d /\ has_global_velocity (fun s => xyz_rot (line_xyz e d s)) 0 (vval fvec212)).
Proof.
  cbv zeta. split; [apply fvec212_val|]. split; [rewrite fvec212_norm; apply three_le_pow; lia|]. split; [exact cos1_big|]. pose proof cos1_big as K. rewrite roundoff_fu in K. apply cos_nonzero in K.
  set (e := mkXyz _ _ _). split.
  - destruct (xyz_local_to_diff e) as [M| |] eqn:E.
    + exists (mvmul M (vval fvec212)). destruct (line_xyz_ok e (mvmul M (vval fvec212))) as [A B]. split; [exact A|]. split; [exact B|]. pose proof (xyz_curve_local _ _ _ B) as H. rewrite A in H.
      rewrite <- mvmul_mmul, (proj2 (proj2 (xyz_local_inverse _ _ E))) in H. replace (mvmul mid (vval fvec212)) with (vval fvec212) in H by (generalize (vval fvec212); clear; lin). exact H.
    + exfalso. exact (xyz_local_no_nan _ E).
    + exfalso. apply xyz_local_throws in E. contradiction.
  - destruct (xyz_global_to_diff e) as [M| |] eqn:E.
    + exists (mvmul M (vval fvec212)). destruct (line_xyz_ok e (mvmul M (vval fvec212))) as [A B]. split; [exact A|]. split; [exact B|]. pose proof (xyz_curve_global _ _ _ B) as H. rewrite A in H.
      rewrite <- mvmul_mmul, (proj2 (proj2 (xyz_global_inverse _ _ E))) in H. replace (mvmul mid (vval fvec212)) with (vval fvec212) in H by (generalize (vval fvec212); clear; lin). exact H.
    + exfalso. exact (xyz_global_no_nan _ E).
    + exfalso. apply xyz_global_throws in E. contradiction.
Qed.

(** C83: the gimbal-lock exception. The three mappings to rates throw exactly when the
    math library returns zero for the cosine of the pitch; then the true cosine is at
    most 2 roundings in absolute value, and for larger cosines there is no exception. *)
Lemma C83_gimbal_lemma : forall (p : prim) (L : libm) (o : orders3) (x y z : fl p) (w : FV p), libm_ok L -> is_finite y = true ->
  ((fzyx_rates L o z y x w = None <-> B2R (lcos L p y) = 0) /\ (fxyz_rates L o x y z w = None <-> B2R (lcos L p y) = 0) /\ (fxyz_global_rates L o x y z w = None <-> B2R (lcos L p y) = 0)) /\
  (B2R (lcos L p y) = 0 -> Rabs (cos (B2R y)) <= 2 * roundoff p).
Proof.
  intros p L o x y z w HL Fy. rewrite roundoff_fu. destruct (lcos_ok p L HL y Fy) as [FC EC]. split.
  - unfold fzyx_rates, fxyz_rates, fxyz_global_rates, fzyx_from_local, fxyz_from_local, fxyz_from_global. cbv zeta.
    rewrite <- (feq_zero p _ FC). destruct (feq (lcos L p y) fzero); cbn [option_map]; repeat split; intro; try reflexivity; try discriminate.
  - intro Z. rewrite Z in EC. rewrite <- Rabs_Ropp. replace (- cos (B2R y)) with (0 - cos (B2R y)) by ring. exact EC.
Qed.
(** a math library that returns zero for the cosine of the float nearest to pi/2 *)
Definition zero_libm : libm := mkLibm (lsin exact_libm) (fun p x => if Rle_dec (Rabs (cos (B2R x))) (2 * roundoff p) then fzero else lcos exact_libm p x) (latan2 exact_libm) (leps4 exact_libm) (lstable exact_libm).
Lemma zero_libm_ok : libm_ok zero_libm.
Proof.
  destruct exact_libm_ok as [A B C D E F]. split; try assumption. intros p x Fx. cbn [lcos zero_libm]. destruct (Rle_dec (Rabs (cos (B2R x))) (2 * roundoff p)) as [H|H]; [|now apply B].
  split; [reflexivity|]. change (B2R (@fzero p)) with 0. replace (0 - cos (B2R x)) with (- cos (B2R x)) by ring. now rewrite Rabs_Ropp.
Qed.
Definition half_pi : fl F32 := fmul (fhalf F32) (fcvt F32 fM_PI).
Lemma half_pi_val : is_finite half_pi = true /\ B2R half_pi = piT F32 / 2.
Proof.
  split; [vm_compute; reflexivity|]. rewrite (B2R_of_SF F32 half_pi false 13176795 (-23)) by (vm_compute; reflexivity). rewrite piT_val.
  cbn [SpecFloat.cond_Zopp]. unfold F2R; cbn [Fnum Fexp bpow]. change (Z.pow_pos radix2 23) with 8388608%Z. change (2 ^ 22)%Z with 4194304%Z. lra.
Qed.
Lemma half_pi_cos : Rabs (cos (B2R half_pi)) <= 2 * roundoff F32.
Proof.
  rewrite (proj2 half_pi_val), roundoff_fu. destruct (pi_consts F32) as (H & _). cbv zeta in H. pose proof (fu_pos F32). rewrite <- sin_shift.
  eapply Rle_trans; [apply sin_abs_le|]. replace (PI / 2 - piT F32 / 2) with (/ 2 * (PI - piT F32)) by field. rewrite Rabs_mult, (Rabs_pos_eq (/ 2)) by lra. lra.
Qed.
Lemma C83_gimbal_ex : libm_ok zero_libm /\ is_finite half_pi = true /\ fzyx_rates zero_libm std3 (fofZ F32 1) half_pi (fofZ F32 2) fvec212 = None /\
  libm_ok exact_libm /\ fzyx_rates exact_libm std3 (fofZ F32 1) (fofZ F32 1) (fofZ F32 2) fvec212 <> None.
Proof.
  split; [exact zero_libm_ok|]. split; [apply half_pi_val|]. split.
  - apply (C83_gimbal_lemma F32 zero_libm std3 _ half_pi _ fvec212 zero_libm_ok (proj1 half_pi_val)). cbn [lcos zero_libm].
    destruct (Rle_dec (Rabs (cos (B2R half_pi))) (2 * roundoff F32)) as [_|H]; [reflexivity|]. contradiction (H half_pi_cos).
  - split; [apply exact_libm_ok|]. intro H. destruct (C83_gimbal_lemma F32 exact_libm std3 (fofZ F32 2) (fofZ F32 1) (fofZ F32 1) fvec212 exact_libm_ok (proj1 (fofZ1 F32))) as ((Z & _) & B).
    apply Z in H. apply B in H. pose proof cos1_big as K. rewrite roundoff_fu in *. pose proof (fu_pos F32). lra.
Qed.

(** exact mappings: lengths *)
Lemma map_norm M B v : 0 <= B -> vnorm (vrow0 M) <= B -> vnorm (vrow1 M) <= B -> vnorm (vrow2 M) <= B -> vnorm (mvmul M v) <= 7/4 * B * vnorm v.
Proof.
  intros H0 A C D. assert (X : close (7/4 * B) M (mkM33 0 0 0 0 0 0 0 0 0)).
  { apply close_rows; replace (msub M (mkM33 0 0 0 0 0 0 0 0 0)) with M by (clear; lin); assumption. }
  specialize (X v). replace (vsub (mvmul M v) (mvmul (mkM33 0 0 0 0 0 0 0 0 0) v)) with (mvmul M v) in X by (clear; lin). exact X.
Qed.
Lemma zyx_map_norm e v : vnorm (mvmul (zyx_diff_to_local e) v) <= 21/8 * vnorm v.
Proof.
  replace (21/8) with (7/4 * (3/2)) by field. pose proof (trig1 (zpitch e)) as ty. pose proof (trig1 (zroll e)) as tx. unfold zyx_diff_to_local; cbv zeta.
  apply map_norm; [lra|apply vnorm_lit; [lra|]; cbn [m00 m01 m02 m10 m11 m12 m20 m21 m22]..].
  - pose proof (one_row (sin (zpitch e)) (cos (zpitch e)) ltac:(lra)). lra.
  - pose proof (trig_row (cos (zpitch e)) (sin (zpitch e)) (sin (zroll e)) (cos (zroll e)) ltac:(lra) ltac:(lra)). lra.
  - pose proof (trig_row (cos (zpitch e)) (sin (zpitch e)) (cos (zroll e)) (sin (zroll e)) ltac:(lra) ltac:(lra)). lra.
Qed.
Lemma xyz_map_norm e v : vnorm (mvmul (xyz_diff_to_local e) v) <= 21/8 * vnorm v.
Proof.
  replace (21/8) with (7/4 * (3/2)) by field. pose proof (trig1 (xpitch e)) as ty. pose proof (trig1 (xyaw e)) as tx. unfold xyz_diff_to_local; cbv zeta.
  apply map_norm; [lra|apply vnorm_lit; [lra|]; cbn [m00 m01 m02 m10 m11 m12 m20 m21 m22]..].
  - pose proof (trig_row (cos (xpitch e)) (sin (xpitch e)) (cos (xyaw e)) (sin (xyaw e)) ltac:(lra) ltac:(lra)). lra.
  - pose proof (trig_row (cos (xpitch e)) (sin (xpitch e)) (sin (xyaw e)) (cos (xyaw e)) ltac:(lra) ltac:(lra)). lra.
  - pose proof (one_row (sin (xpitch e)) (cos (xpitch e)) ltac:(lra)). lra.
Qed.
Lemma xyz_global_map_norm e v : vnorm (mvmul (xyz_diff_to_global e) v) <= 21/8 * vnorm v.
Proof.
  replace (21/8) with (7/4 * (3/2)) by field. pose proof (trig1 (xpitch e)) as ty. pose proof (trig1 (xroll e)) as tx. unfold xyz_diff_to_global; cbv zeta.
  apply map_norm; [lra|apply vnorm_lit; [lra|]; cbn [m00 m01 m02 m10 m11 m12 m20 m21 m22]..].
  - pose proof (one_row (sin (xpitch e)) (cos (xpitch e)) ltac:(lra)). lra.
  - pose proof (trig_row (cos (xpitch e)) (sin (xpitch e)) (sin (xroll e)) (cos (xroll e)) ltac:(lra) ltac:(lra)). lra.
  - pose proof (trig_row (cos (xpitch e)) (sin (xpitch e)) (cos (xroll e)) (sin (xroll e)) ltac:(lra) ltac:(lra)). lra.
Qed.
Section Inverse.
Variables (p : prim) (x y z : fl p).
Hypothesis HC : 100 * fu p <= Rabs (cos (B2R y)).
Let K := / Rabs (cos (B2R y)).
Lemma K_pos : 0 <= K. Proof. destruct (K_facts p _ HC (cos_abs1 _)) as (K1 & _). fold K in K1. lra. Qed.
Lemma zyx_inv_norm M v : zyx_local_to_diff (mkZyx (B2R z) (B2R y) (B2R x)) = Val M -> vnorm (mvmul M v) <= 7/4 * K * vnorm v.
Proof.
  intro HM. unfold zyx_local_to_diff in HM. cbv zeta in HM. cbn [zyaw zpitch zroll] in HM. destruct (Req_EM_T (cos (B2R y)) 0) as [Z|_]; [discriminate|]. injection HM as <-.
  pose proof (trig1 (B2R x)) as tx. apply map_norm; [exact K_pos|apply vnorm_lit; [exact K_pos|]; cbn [m00 m01 m02 m10 m11 m12 m20 m21 m22]; unfold K..].
  - pose proof (row_k p y HC _ _ tx). lra.
  - pose proof (row_1 p y HC _ _ tx). lra.
  - pose proof (row_t p y HC _ _ tx). lra.
Qed.
Lemma xyz_inv_norm M v : xyz_local_to_diff (mkXyz (B2R x) (B2R y) (B2R z)) = Val M -> vnorm (mvmul M v) <= 7/4 * K * vnorm v.
Proof.
  intro HM. unfold xyz_local_to_diff in HM. cbv zeta in HM. cbn [xyaw xpitch xroll] in HM. destruct (Req_EM_T (cos (B2R y)) 0) as [Z|_]; [discriminate|]. injection HM as <-.
  pose proof (trig1 (B2R z)) as tz. apply map_norm; [exact K_pos|apply vnorm_lit; [exact K_pos|]; cbn [m00 m01 m02 m10 m11 m12 m20 m21 m22]; unfold K..].
  - pose proof (row_k p y HC _ _ tz). lra.
  - pose proof (row_1 p y HC _ _ tz). lra.
  - pose proof (row_t p y HC _ _ tz). lra.
Qed.
Lemma xyz_global_inv_norm M v : xyz_global_to_diff (mkXyz (B2R x) (B2R y) (B2R z)) = Val M -> vnorm (mvmul M v) <= 7/4 * K * vnorm v.
Proof.
  intro HM. unfold xyz_global_to_diff in HM. cbv zeta in HM. cbn [xyaw xpitch xroll] in HM. destruct (Req_EM_T (cos (B2R y)) 0) as [Z|_]; [discriminate|]. injection HM as <-.
  pose proof (trig1 (B2R x)) as tx. apply map_norm; [exact K_pos|apply vnorm_lit; [exact K_pos|]; cbn [m00 m01 m02 m10 m11 m12 m20 m21 m22]; unfold K..].
  - pose proof (row_t p y HC _ _ tx). lra.
  - pose proof (row_1 p y HC _ _ tx). lra.
  - pose proof (row_k p y HC _ _ tx). lra.
Qed.
(** composition *)
Lemma trip (M T : M33) (d w r : V3) : mmul M T = mid -> (forall v, vnorm (mvmul M v) <= 7/4 * K * vnorm v) -> (forall v, vnorm (mvmul T v) <= 21/8 * vnorm v) ->
  vdist w (mvmul T d) <= 22 * fu p * vnorm d + underflow p -> vdist r (mvmul M w) <= 34 * fu p * (K * K) * vnorm w + underflow p ->
  vdist r d <= 130 * fu p * vnorm d / (cos (B2R y) * cos (B2R y)) + 4 * underflow p / Rabs (cos (B2R y)).
Proof.
  intros I NM NT DW DR. destruct (K_facts p _ HC (cos_abs1 _)) as (K1 & KU & KC & KA & KB & KN). fold K in K1, KU, KC, KA, KB. pose proof (fu_pos p) as U. pose proof (fu_24 p) as V.
  assert (U0 : 0 <= underflow p) by (rewrite underflow_eta; pose proof (eta_pos p); lra). pose proof (vn_nonneg d) as ND.
  replace (130 * fu p * vnorm d / (cos (B2R y) * cos (B2R y))) with (130 * (fu p * (K * K)) * vnorm d).
  2:{ unfold K, Rdiv. replace (/ (cos (B2R y) * cos (B2R y))) with (/ Rabs (cos (B2R y)) * / Rabs (cos (B2R y))); [ring|]. rewrite <- Rinv_mult, <- Rabs_mult, Rabs_pos_eq by apply Rle_0_sqr. reflexivity. }
  replace (4 * underflow p / Rabs (cos (B2R y))) with (4 * (K * underflow p)) by (unfold K, Rdiv; ring).
  set (k2 := fu p * (K * K)) in *. assert (KK : fu p * K <= k2) by (apply Rmult_le_compat_l; [lra|]; rewrite <- (Rmult_1_l K) at 1; apply Rmult_le_compat_r; lra).
  assert (k20 : 0 <= k2) by (apply Rle_trans with (fu p * K); [apply Rmult_le_pos; lra|exact KK]).
  assert (K2K : k2 <= / 100 * K) by (unfold k2; replace (fu p * (K * K)) with (K * fu p * K) by ring; apply Rmult_le_compat_r; lra).
  assert (NW : vnorm w <= (21/8 + 22 * fu p) * vnorm d + underflow p).
  { pose proof (row_split w (mvmul T d)) as S1. fold (vdist w (mvmul T d)) in S1. specialize (NT d). lra. }
  assert (D2 : vdist (mvmul M w) d <= 7/4 * K * (22 * fu p * vnorm d + underflow p)).
  { replace d with (mvmul M (mvmul T d)) at 1 by (rewrite <- mvmul_mmul, I; clear; lin).
    unfold vdist. replace (vsub (mvmul M w) (mvmul M (mvmul T d))) with (mvmul M (vsub w (mvmul T d))) by (generalize (mvmul T d); clear; lin).
    eapply Rle_trans; [apply NM|]. apply Rmult_le_compat_l; [lra|exact DW]. }
  eapply Rle_trans; [apply (vdist_triang _ (mvmul M w))|]. replace (34 * fu p * (K * K) * vnorm w) with (34 * (k2 * vnorm w)) in DR by (unfold k2; ring).
  assert (A1 : k2 * vnorm w <= k2 * ((21/8 + / 1000) * vnorm d + underflow p)).
  { apply Rmult_le_compat_l; [exact k20|]. assert (fu p * vnorm d <= / 16777216 * vnorm d) by (apply Rmult_le_compat_r; lra). lra. }
  assert (A2 : fu p * K * vnorm d <= k2 * vnorm d) by (apply Rmult_le_compat_r; lra).
  assert (A3 : k2 * underflow p <= / 100 * K * underflow p) by (apply Rmult_le_compat_r; lra).
  assert (A4 : 1 * underflow p <= K * underflow p) by (apply Rmult_le_compat_r; lra).
  assert (A5 : 0 <= k2 * vnorm d) by (apply Rmult_le_pos; lra).
  lra.
Qed.
End Inverse.
Lemma trip_bound p d w T : vnorm d <= 2 ^ 58 -> (forall v, vnorm (mvmul T v) <= 21/8 * vnorm v) -> vdist w (mvmul T d) <= 22 * fu p * vnorm d + underflow p -> vnorm w <= bpow radix2 60.
Proof.
  intros H NT DW. pose proof (fu_24 p) as V. pose proof (fu_pos p) as U. pose proof (underflow_u5 p) as UF. pose proof (vn_nonneg d) as ND. pose proof (row_split w (mvmul T d)) as S1. fold (vdist w (mvmul T d)) in S1. specialize (NT d).
  rewrite b60. replace (2 ^ 60) with (4 * 2 ^ 58) by (simpl; ring). assert (1 <= 2 ^ 58) by (apply pow_R1_Rle; lra).
  assert (fu p * vnorm d <= / 16777216 * vnorm d) by (apply Rmult_le_compat_r; lra). lra.
Qed.
(** C83: round trip. Rates turned into an angular velocity and back are the same up to
    130 roundings times their length, divided by the square of the cosine of the pitch
    (plus underflow), for the three pairs of mappings. *)
Lemma C83_roundtrip_lemma : forall (p : prim) (L : libm) (o o' : orders3) (x y z : fl p) (d : FV p),
  libm_ok L -> orders3_ok 3 3 3 o -> orders3_ok 3 3 3 o' -> is_finite x = true -> is_finite y = true -> is_finite z = true -> vfinite d -> vnorm (vval d) <= 2 ^ 58 ->
  100 * roundoff p <= Rabs (cos (B2R y)) ->
  let e := 130 * roundoff p * vnorm (vval d) / (cos (B2R y) * cos (B2R y)) + 4 * underflow p / Rabs (cos (B2R y)) in
  (exists r, fzyx_rates L o' z y x (fzyx_velocity L o z y x d) = Some r /\ vfinite r /\ vdist (vval r) (vval d) <= e) /\
  (exists r, fxyz_rates L o' x y z (fxyz_velocity L o x y z d) = Some r /\ vfinite r /\ vdist (vval r) (vval d) <= e) /\
  (exists r, fxyz_global_rates L o' x y z (fxyz_global_velocity L o x y z d) = Some r /\ vfinite r /\ vdist (vval r) (vval d) <= e).
Proof.
  intros p L o o' x y z d HL HO HO' Fx Fy Fz Fd HB K. cbv zeta. rewrite roundoff_fu in *. pose proof (cos_nonzero p _ K) as CN.
  assert (HB' : vnorm (vval d) <= bpow radix2 100).
  { rewrite b100. eapply Rle_trans; [exact HB|]. apply Rle_pow; [lra|lia]. }
  split; [|split].
  - destruct (zyx_velocity_err p L o HL HO x y z d Fx Fy Fz Fd HB') as [F1 E1].
    destruct (zyx_local_to_diff (mkZyx (B2R z) (B2R y) (B2R x))) as [M| |] eqn:EM; [|exfalso; exact (zyx_no_nan _ EM)|exfalso; apply zyx_throws in EM; contradiction].
    pose proof (trip_bound p _ _ _ HB (zyx_map_norm _) E1) as WB.
    destruct (zyx_rates_err p L o' HL HO' x y z _ Fx Fy Fz F1 WB K M EM) as (r & E & F & X). exists r. split; [exact E|]. split; [exact F|].
    apply (trip p y K M _ _ _ _ (proj1 (proj2 (zyx_inverse _ _ EM))) (fun v => zyx_inv_norm p x y z K M v EM) (zyx_map_norm _) E1 X).
  - destruct (xyz_velocity_err p L o HL HO x y z d Fx Fy Fz Fd HB') as [F1 E1].
    destruct (xyz_local_to_diff (mkXyz (B2R x) (B2R y) (B2R z))) as [M| |] eqn:EM; [|exfalso; exact (xyz_local_no_nan _ EM)|exfalso; apply xyz_local_throws in EM; contradiction].
    pose proof (trip_bound p _ _ _ HB (xyz_map_norm _) E1) as WB.
    destruct (xyz_rates_err p L o' HL HO' x y z _ Fx Fy Fz F1 WB K M EM) as (r & E & F & X). exists r. split; [exact E|]. split; [exact F|].
    apply (trip p y K M _ _ _ _ (proj1 (proj2 (xyz_local_inverse _ _ EM))) (fun v => xyz_inv_norm p x y z K M v EM) (xyz_map_norm _) E1 X).
  - destruct (xyz_global_velocity_err p L o HL HO x y z d Fx Fy Fz Fd HB') as [F1 E1].
    destruct (xyz_global_to_diff (mkXyz (B2R x) (B2R y) (B2R z))) as [M| |] eqn:EM; [|exfalso; exact (xyz_global_no_nan _ EM)|exfalso; apply xyz_global_throws in EM; contradiction].
    pose proof (trip_bound p _ _ _ HB (xyz_global_map_norm _) E1) as WB.
    destruct (xyz_global_rates_err p L o' HL HO' x y z _ Fx Fy Fz F1 WB K M EM) as (r & E & F & X). exists r. split; [exact E|]. split; [exact F|].
    apply (trip p y K M _ _ _ _ (proj1 (proj2 (xyz_global_inverse _ _ EM))) (fun v => xyz_global_inv_norm p x y z K M v EM) (xyz_global_map_norm _) E1 X).
Qed.
Lemma C83_roundtrip_ex : libm_ok exact_libm /\ orders3_ok 3 3 3 std3 /\ vfinite fvec212 /\ vnorm (vval fvec212) <= 2 ^ 58 /\ 100 * roundoff F32 <= Rabs (cos (B2R (fofZ F32 1))).
Proof. split; [apply exact_libm_ok|]. split; [apply std3_ok|]. split; [apply fvec212_val|]. split; [rewrite fvec212_norm; apply three_le_pow; lia|exact cos1_big]. Qed.
