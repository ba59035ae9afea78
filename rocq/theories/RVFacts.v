(** * RVFacts: rotation vector conversions, exact cases and error bounds. *)
From Coq Require Import Reals Lra Psatz Lia Bool.
From Verif Require Import Linalg Spec SpecFacts ModelCommon ModelEigen CommonFacts ModelRotation ConvFacts.
Local Open Scope R_scope.

(** ** Taylor bounds of sin *)
Lemma sin_lo x : 0 <= x <= PI -> x - x ^ 3 / 6 <= sin x.
Proof.
  intros [A B]. destruct (sin_bound x 0 A B) as [L _]. unfold sin_approx, sin_term in L.
  simpl in L. lra.
Qed.
Lemma sin_hi x : 0 <= x <= PI -> sin x <= x - x ^ 3 / 6 + x ^ 5 / 120.
Proof.
  intros [A B]. destruct (sin_bound x 0 A B) as [_ L]. unfold sin_approx, sin_term in L.
  simpl in L. lra.
Qed.

(** ** The threshold eps^(1/4) *)
Lemma epsilon_pos p : 0 < epsilon p.
Proof. destruct p; cbn [epsilon]; apply Rinv_0_lt_compat, pow_lt; lra. Qed.
Lemma eps4_pos p : 0 < eps4throot p.
Proof. unfold eps4throot, Rpower. apply exp_pos. Qed.
Lemma eps4_pow p : eps4throot p ^ 4 = epsilon p.
Proof.
  unfold eps4throot. rewrite <- Rpower_pow by apply exp_pos.
  rewrite Rpower_mult. replace (1/4 * INR 4) with 1 by (simpl; field).
  apply Rpower_1, epsilon_pos.
Qed.
Lemma epsilon_small p : epsilon p <= / 2 ^ 23.
Proof.
  destruct p; cbn [epsilon]; [lra|]. apply Rinv_le_contravar; [apply pow_lt; lra|].
  apply Rle_pow; [lra|lia].
Qed.
Lemma eps4_small p : eps4throot p < 1 / 50.
Proof.
  pose proof (eps4_pow p) as E. pose proof (epsilon_small p) as S. pose proof (eps4_pos p) as P.
  destruct (Rlt_or_le (eps4throot p) (1/50)) as [L|L]; [exact L|exfalso].
  assert ((1/50) ^ 4 <= eps4throot p ^ 4) by (apply pow_incr; lra).
  rewrite E in H. assert (/ 2 ^ 23 < (1/50)^4) by lra. lra.
Qed.
Lemma dummy_pos p : 0 < dummy_precision p.
Proof. destruct p; cbn [dummy_precision]; apply Rinv_0_lt_compat, pow_lt; lra. Qed.
Lemma dummy_small p : dummy_precision p <= / 10 ^ 5.
Proof.
  destruct p; cbn [dummy_precision]; [lra|]. apply Rinv_le_contravar; [apply pow_lt; lra|].
  apply Rle_pow; [lra|lia].
Qed.
Lemma dummy_lt_eps4 p : dummy_precision p < eps4throot p.
Proof.
  pose proof (eps4_pow p) as E. pose proof (eps4_pos p) as P.
  destruct (Rlt_or_le (dummy_precision p) (eps4throot p)) as [L|L]; [exact L|exfalso].
  assert (H : eps4throot p ^ 4 <= dummy_precision p ^ 4) by (apply pow_incr; lra).
  rewrite E in H. destruct p; cbn [epsilon dummy_precision] in *.
  - assert ((/ 10 ^ 5) ^ 4 < / 2 ^ 23) by lra. lra.
  - assert ((/ 10 ^ 12) ^ 4 < / 2 ^ 52) by lra. lra.
Qed.

(** ** Rotation vector to quaternion *)
Definition unit_of (v : V3) : V3 := vscale (/ vnorm v) v.

Lemma rv_to_quat_zero p : rv_to_quat p vzero = qid.
Proof.
  unfold rv_to_quat. rewrite vnorm_vzero. replace (0 * (1/2)) with 0 by ring. rewrite cos_0.
  lin.
Qed.
Lemma rv_to_quat_large p v : eps4throot p <= vnorm v ->
  rv_to_quat p v = half_quat (vnorm v) (unit_of v).
Proof.
  intros H. pose proof (eps4_pos p) as P. unfold rv_to_quat, rv_na, half_quat, unit_of.
  destruct (Rlt_dec (vnorm v) (eps4throot p)); [lra|].
  replace (vnorm v * (1/2)) with (vnorm v / 2) by field.
  destruct v as [x y z]; cbn [vscale vx vy vz]. f_equal; field; lra.
Qed.
Lemma rv_to_quat_exact p v : v = vzero \/ eps4throot p <= vnorm v ->
  qnorm2 (rv_to_quat p v) = 1 /\ quat_rot (rv_to_quat p v) = vec_rot v.
Proof.
  intros [-> | H].
  - rewrite rv_to_quat_zero, vec_rot_zero, quat_rot_id. split; [lin|reflexivity].
  - pose proof (eps4_pos p) as P.
    rewrite rv_to_quat_large by exact H.
    assert (U : vnorm2 (unit_of v) = 1) by (apply vnorm2_unitize; lra).
    split; [apply half_quat_norm, U|].
    rewrite half_quat_rot by exact U. symmetry. apply vec_rot_aa. lra.
Qed.

(** Truncation error of the factor: |na theta - sin(theta/2)| <= theta^5/3840 *)
Lemma rv_na_error p t : 0 <= t ->
  (eps4throot p <= t -> rv_na p t * t = sin (t / 2)) /\
  (t < eps4throot p -> 0 <= sin (t / 2) - rv_na p t * t <= t ^ 5 / 3840).
Proof.
  intros Ht. pose proof (eps4_pos p) as P. pose proof (eps4_small p) as Q.
  unfold rv_na. split; intros H.
  - destruct (Rlt_dec t (eps4throot p)); [lra|].
    replace (t * (1/2)) with (t / 2) by field. field. lra.
  - destruct (Rlt_dec t (eps4throot p)); [|lra].
    assert (R : 0 <= t / 2 <= PI) by (pose proof PI2_1; lra).
    pose proof (sin_lo _ R). pose proof (sin_hi _ R).
    replace ((t/2)^3/6) with (t * (t * t) * (1/48)) in * by field.
    replace ((t/2)^5/120) with (t ^ 5 / 3840) in * by field.
    split; lra.
Qed.

(** Distance of the computed quaternion from the exact one, and of its norm from 1. *)
Lemma rv_to_quat_error p v : vnorm v <> 0 ->
  let q' := rv_to_quat p v in
  let q := half_quat (vnorm v) (unit_of v) in
  qw q' = qw q /\
  vnorm (vsub (qvec q') (qvec q)) <= epsilon p * vnorm v / 3840 /\
  Rabs (qnorm2 q' - 1) <= epsilon p * (vnorm v * vnorm v) / 3840.
Proof.
  intros Hv q' q. pose proof (vnorm_nonneg v) as Hn.
  pose proof (epsilon_pos p) as EP.
  destruct (rv_na_error p (vnorm v) Hn) as [Hbig Hsmall].
  assert (Hw : qw q' = qw q).
  { unfold q', q, rv_to_quat, half_quat; cbn [qw]. f_equal; field. }
  assert (U : vnorm2 (unit_of v) = 1) by (apply vnorm2_unitize, Hv).
  assert (Ev : qvec q' = vscale (rv_na p (vnorm v)) v).
  { unfold q', rv_to_quat, qvec, vscale; cbn [qx qy qz]. f_equal; ring. }
  assert (Eq : qvec q = vscale (sin (vnorm v / 2) / vnorm v) v).
  { unfold q, half_quat, unit_of, qvec, vscale; cbn [qx qy qz vx vy vz]. f_equal; field; exact Hv. }
  assert (D : vnorm (vsub (qvec q') (qvec q)) = Rabs (rv_na p (vnorm v) * vnorm v - sin (vnorm v / 2))).
  { rewrite Ev, Eq.
    replace (vsub (vscale (rv_na p (vnorm v)) v) (vscale (sin (vnorm v / 2) / vnorm v) v))
      with (vscale (rv_na p (vnorm v) - sin (vnorm v / 2) / vnorm v) v)
      by (destruct v; lin_unfold; f_equal; ring).
    rewrite vnorm_vscale.
    replace (Rabs (rv_na p (vnorm v) - sin (vnorm v / 2) / vnorm v) * vnorm v)
      with (Rabs (rv_na p (vnorm v) - sin (vnorm v / 2) / vnorm v) * Rabs (vnorm v))
      by (rewrite (Rabs_right (vnorm v)); lra).
    rewrite <- Rabs_mult. f_equal. field. exact Hv. }
  assert (N : qnorm2 q' - 1 = (rv_na p (vnorm v) * vnorm v) ^ 2 - (sin (vnorm v / 2)) ^ 2).
  { rewrite qnorm2_vec, Hw, Ev, vnorm2_vscale, <- vnorm_sqr.
    unfold q, half_quat; cbn [qw]. pose proof (sin2_cos2' (vnorm v / 2)). nra. }
  split; [exact Hw|].
  destruct (Rlt_or_le (vnorm v) (eps4throot p)) as [L|L].
  - specialize (Hsmall L). clear Hbig.
    set (t := vnorm v) in *. set (s' := rv_na p t * t) in *. set (s := sin (t/2)) in *.
    assert (T4 : t ^ 4 <= epsilon p).
    { rewrite <- (eps4_pow p). apply pow_incr. lra. }
    assert (T5 : t ^ 5 <= epsilon p * t).
    { replace (t ^ 5) with (t ^ 4 * t) by ring. nra. }
    assert (S0 : 0 <= s').
    { unfold s', rv_na. destruct (Rlt_dec t (eps4throot p)); [|lra].
      pose proof (eps4_small p). assert (t * t <= 1) by nra. nra. }
    assert (S1 : s <= t / 2).
    { unfold s. assert (R : 0 <= t / 2 <= PI).
      { pose proof (eps4_small p). pose proof PI2_1. lra. }
      destruct (Req_dec t 0) as [E|E]; [rewrite E; replace (0/2) with 0 by field; rewrite sin_0; lra|].
      left. apply sin_lt_x. lra. }
    split.
    + rewrite D, Rabs_minus_sym, Rabs_right by lra. lra.
    + rewrite N. rewrite Rabs_minus_sym, Rabs_right by nra.
      assert (0 <= s) by lra. assert (s + s' <= t) by lra.
      replace (s ^ 2 - s' ^ 2) with ((s - s') * (s + s')) by ring.
      assert (s - s' <= epsilon p * t / 3840) by lra.
      nra.
  - specialize (Hbig L).
    rewrite D, N, Hbig, !Rminus_diag_eq, !Rabs_R0 by reflexivity.
    split; [|]; pose proof (Rmult_le_pos _ _ (Rlt_le _ _ EP) Hn); nra.
Qed.

(** ** Rotation vector to angle-axis *)
Lemma e_normalized_unit v : vnorm v <> 0 -> e_normalized v = unit_of v.
Proof.
  intros H. unfold e_normalized, unit_of. pose proof (vnorm_nonneg v).
  destruct (Rlt_dec 0 (vnorm2 v)) as [L|L].
  - unfold vscale. f_equal; field; exact H.
  - exfalso. apply L. rewrite <- vnorm_sqr. nra.
Qed.
Lemma rv_to_aa_exact p v : v = vzero \/ dummy_precision p <= vnorm v ->
  vnorm2 (aaxis (rv_to_aa p v)) = 1 /\ aa_rot (rv_to_aa p v) = vec_rot v.
Proof.
  intros H. pose proof (dummy_pos p) as P. unfold rv_to_aa.
  destruct H as [-> | H].
  - rewrite vnorm_vzero. destruct (Rlt_dec 0 (dummy_precision p)); [|lra].
    rewrite vec_rot_zero. split; [cbn [aaxis]; lin|].
    slin; rewrite ?cos_0, ?sin_0; ring.
  - destruct (Rlt_dec (vnorm v) (dummy_precision p)); [lra|].
    rewrite e_normalized_unit by lra. cbn [aaxis].
    split; [apply vnorm2_unitize; lra|]. symmetry; apply vec_rot_aa; lra.
Qed.
Lemma rv_to_aa_unit p v : vnorm2 (aaxis (rv_to_aa p v)) = 1.
Proof.
  pose proof (dummy_pos p). unfold rv_to_aa.
  destruct (Rlt_dec (vnorm v) (dummy_precision p)); cbn [aaxis]; [lin|].
  rewrite e_normalized_unit by lra. apply vnorm2_unitize; lra.
Qed.

(** ** Quaternion to rotation vector *)
Definition quat_angle_regular (p : prim) (q : Quat) : Prop :=
  qvec q = vzero \/ dummy_precision p <= 1 - qw q * qw q.

Lemma quat_to_rv_exact p q : qnorm2 q = 1 -> quat_angle_regular p q ->
  exists v, quat_to_rv p q = Val v /\ vec_rot v = quat_rot q /\ vnorm v <= 2 * PI.
Proof.
  intros H Hr. pose proof (dummy_pos p) as P. pose proof (qvec_norm_unit q H) as Hn.
  pose proof PI_RGT_0 as HP. pose proof (vnorm_nonneg (qvec q)) as Nn.
  unfold quat_to_rv.
  destruct Hr as [Hr|Hr].
  - assert (W : qw q * qw q = 1).
    { rewrite Hr, vnorm_vzero in Hn. lra. }
    destruct (Rlt_dec (1 - qw q * qw q) (dummy_precision p)); [|lra].
    assert (Rq : quat_rot q = mid).
    { rewrite quat_rot_entries. destruct q as [w x y z]; lin_unfold.
      injection Hr; intros; subst. f_equal; lra. }
    assert (Z : forall s, vscale s (qvec q) = vzero) by (intros; rewrite Hr; lin).
    rewrite !Z, Rq.
    destruct (Rlt_dec 0 (qw q)); exists vzero; (split; [reflexivity|]);
      rewrite vec_rot_zero, vnorm_vzero; split; lra || reflexivity.
  - destruct (Rlt_dec (1 - qw q * qw q) (dummy_precision p)) as [Hlt|Hlt]; [lra|].
    set (n := vnorm (qvec q)) in *.
    assert (Np : n <> 0) by (intro E; rewrite E in Hn; lra).
    unfold cdiv. destruct (Req_EM_T n 0); [contradiction|]. cbn [obind].
    eexists; split; [reflexivity|].
    destruct (atan2_unit n (qw q)) as [C S]; [lra|].
    pose proof (atan2_nonneg n (qw q) Nn). pose proof (atan2_range n (qw q)).
    set (t := atan2 n (qw q)) in *.
    assert (U : vnorm2 (unit_of (qvec q)) = 1) by (apply vnorm2_unitize; exact Np).
    assert (E : vscale (2 * t / n) (qvec q) = vscale (2 * t) (unit_of (qvec q))).
    { unfold unit_of. fold n. unfold vscale; cbn [vx vy vz]. f_equal; field; exact Np. }
    rewrite E. split.
    + rewrite vec_rot_scaled by exact U. rewrite <- half_quat_rot by exact U.
      f_equal. unfold half_quat. replace (2 * t / 2) with t by field. rewrite C, S.
      unfold unit_of. fold n. destruct q as [w x y z]; cbn [qvec vscale vx vy vz qw qx qy qz].
      f_equal; field; exact Np.
    + rewrite vnorm_vscale. replace (vnorm (unit_of (qvec q))) with 1
        by (symmetry; apply vnorm_unit, U).
      rewrite Rabs_right by lra. lra.
Qed.

(** No NaN for any unit quaternion, and relative error bound in the
    truncated branch: the exact logarithm [u] is approximated with relative
    error at most dummy_precision. *)
Lemma quat_to_rv_error p q : qnorm2 q = 1 ->
  exists v u, quat_to_rv p q = Val v /\ vec_rot u = quat_rot q /\
     vnorm (vsub v u) <= dummy_precision p * vnorm u.
Proof.
  intros H.
  destruct (Rlt_or_le (1 - qw q * qw q) (dummy_precision p)) as [L|L].
  2:{ destruct (quat_to_rv_exact p q H) as (v & E & Rv & _); [right; exact L|].
      exists v, v. split; [exact E|]. split; [exact Rv|].
      replace (vsub v v) with vzero by lin. rewrite vnorm_vzero.
      apply Rmult_le_pos; [left; apply dummy_pos|apply vnorm_nonneg]. }
  pose proof (dummy_pos p) as P. pose proof (dummy_small p) as Q.
  pose proof (qvec_norm_unit q H) as Hn.
  pose proof PI_RGT_0 as HP. pose proof (vnorm_nonneg (qvec q)) as Nn.
  set (n := vnorm (qvec q)) in *.
  unfold quat_to_rv. destruct (Rlt_dec (1 - qw q * qw q) (dummy_precision p)); [|lra].
  set (sg := if Rlt_dec 0 (qw q) then 1 else -1).
  assert (SG : (sg = 1 /\ 0 < qw q) \/ (sg = -1 /\ qw q < 0)).
  { unfold sg. destruct (Rlt_dec 0 (qw q)); [left; split; lra|right; split; [reflexivity|]].
    destruct (Req_dec (qw q) 0) as [E|E]; [|lra]. rewrite E in *. lra. }
  assert (EV : (if Rlt_dec 0 (qw q) then Val (vscale 2 (qvec q)) else Val (vscale (-2) (qvec q)))
     = Val (vscale (2 * sg) (qvec q))).
  { unfold sg. destruct (Rlt_dec 0 (qw q)); f_equal; unfold vscale; f_equal; ring. }
  rewrite EV.
  destruct (Req_dec n 0) as [E0|E0].
  { assert (V : qvec q = vzero) by (apply vnorm_zero; exact E0).
    destruct (quat_to_rv_exact p q H) as (v & E & Rv & _); [left; exact V|].
    unfold quat_to_rv in E. destruct (Rlt_dec (1 - qw q * qw q) (dummy_precision p)); [|lra].
    rewrite EV in E. exists v, v. split; [exact E|]. split; [exact Rv|].
    replace (vsub v v) with vzero by lin. rewrite vnorm_vzero.
    apply Rmult_le_pos; [lra|apply vnorm_nonneg]. }
  set (phi := atan2 n (Rabs (qw q))).
  assert (Aq : Rabs (qw q) * Rabs (qw q) = qw q * qw q).
  { pose proof (Rsqr_abs (qw q)) as RA. unfold Rsqr in RA. lra. }
  destruct (atan2_unit n (Rabs (qw q))) as [C S]; [lra|]. fold phi in C, S.
  pose proof (atan2_pos n (Rabs (qw q)) ltac:(lra)) as [PH0 _].
  pose proof (atan2_right n (Rabs (qw q)) (Rabs_pos _)) as [_ PH1]. fold phi in PH0, PH1.
  assert (U : vnorm2 (unit_of (qvec q)) = 1) by (apply vnorm2_unitize; exact E0).
  assert (U1 : vnorm (unit_of (qvec q)) = 1) by (apply vnorm_unit, U).
  exists (vscale (2 * sg) (qvec q)), (vscale (2 * phi * sg) (unit_of (qvec q))).
  split; [reflexivity|]. split.
  - rewrite vec_rot_scaled by exact U. rewrite <- half_quat_rot by exact U.
    assert (HQ : half_quat (2 * phi * sg) (unit_of (qvec q)) = q \/
                 half_quat (2 * phi * sg) (unit_of (qvec q)) = qneg q).
    { unfold half_quat. replace (2 * phi * sg / 2) with (phi * sg) by field.
      unfold unit_of; fold n.
      destruct SG as [[-> W]|[-> W]]; [left|right].
      - replace (phi * 1) with phi by ring. rewrite C, S, Rabs_right by lra.
        destruct q as [w x y z]; cbn [qvec vscale vx vy vz qw qx qy qz]. f_equal; field; exact E0.
      - replace (phi * -1) with (- phi) by ring. rewrite cos_neg, sin_neg, C, S, Rabs_left by lra.
        destruct q as [w x y z]; unfold qneg, vscale, qvec; cbn [vx vy vz qw qx qy qz]. f_equal; field; exact E0. }
    destruct HQ as [-> | ->]; [reflexivity|apply quat_rot_neg].
  - assert (SA : Rabs (2 * sg) = 2).
    { destruct SG as [[-> _]|[-> _]]; [rewrite Rabs_right|rewrite Rabs_left]; lra. }
    replace (vsub (vscale (2 * sg) (qvec q)) (vscale (2 * phi * sg) (unit_of (qvec q))))
      with (vscale ((2 * sg) * (n - phi)) (unit_of (qvec q))).
    2:{ unfold unit_of; fold n. destruct q as [w x y z]; unfold vsub, vscale, qvec; cbn [vx vy vz qx qy qz].
        f_equal; field; exact E0. }
    rewrite !vnorm_vscale, U1, Rabs_mult, SA.
    replace (Rabs (2 * phi * sg)) with (2 * phi).
    2:{ replace (2 * phi * sg) with ((2 * sg) * phi) by ring.
        rewrite Rabs_mult, SA, (Rabs_right phi) by lra. reflexivity. }
    rewrite <- S.
    assert (PB : 0 <= phi <= PI) by lra.
    pose proof (sin_lo phi PB) as SL.
    assert (SX : sin phi < phi) by (apply sin_lt_x; exact PH0).
    rewrite Rabs_left by lra.
    assert (PI4 : PI <= 4) by apply PI_4.
    assert (PI32 : phi * phi <= 6 * dummy_precision p).
    { (* sin phi >= phi (1 - phi^2/6) >= phi/3 since phi <= 2 *)
      assert (phi * phi <= 4) by nra.
      assert (sin phi >= phi / 3) by nra.
      assert (H2 : n * n < dummy_precision p) by lra.
      rewrite <- S in H2.
      destruct (Rlt_or_le (6 * dummy_precision p) (phi * phi)) as [G|G]; [exfalso|exact G].
      (* first get a coarse bound, then refine *)
      assert (C1 : phi * phi <= 9 * dummy_precision p) by nra.
      assert (sin phi >= phi * (99/100)) by nra.
      nra. }
    nra.
Qed.
