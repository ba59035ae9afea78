(** * RoundTrip: quaternion -> matrix -> quaternion on quaternions that are not
    exactly of unit length. *)
From Coq Require Import Reals Lra Psatz Bool List.
From Verif Require Import Linalg Spec SpecFacts ModelCommon ModelEigen ModelRotation CommonFacts ConvFacts RVFacts Windows RotFacts ModelHistory SpecClose CloseFacts NearUnit.
Local Open Scope R_scope.

Definition b2 (q : Quat) : R := qx q * qx q + qy q * qy q + qz q * qz q.
Lemma trace_toRot q : mtrace (e_toRotationMatrix q) = 3 - 4 * b2 q.
Proof. destruct q; unfold e_toRotationMatrix, b2; lin_unfold. ring. Qed.

Lemma rt_low q : b2 q < 3/4 ->
  let w := sqrt (1 - b2 q) in
  e_quat_of_matrix (e_toRotationMatrix q) = Val (mkQ w (qw q * qx q / w) (qw q * qy q / w) (qw q * qz q / w)).
Proof.
  intros H w. unfold e_quat_of_matrix. rewrite trace_toRot. destruct (Rlt_dec 0 (3 - 4 * b2 q)); [|lra].
  unfold csqrt. destruct (Rlt_dec (3 - 4 * b2 q + 1) 0); [lra|]. cbn [obind].
  assert (W : 0 < w) by (apply sqrt_lt_R0; lra).
  replace (sqrt (3 - 4 * b2 q + 1)) with (2 * w).
  2: { unfold w. replace (3 - 4 * b2 q + 1) with (2 * 2 * (1 - b2 q)) by ring.
       rewrite sqrt_mult by lra. rewrite sqrt_square by lra. reflexivity. }
  unfold cdiv. destruct (Req_EM_T (2 * w) 0); [lra|]. cbn [obind]. f_equal.
  destruct q as [a x y z]. unfold e_toRotationMatrix. cbn [qw qx qy qz m00 m01 m02 m10 m11 m12 m20 m21 m22]. f_equal; field; lra.
Qed.
Lemma rt_high q : 3/4 <= b2 q ->
  e_quat_of_matrix (e_toRotationMatrix q) = Val q \/ e_quat_of_matrix (e_toRotationMatrix q) = Val (qneg q).
Proof.
  intros H. unfold e_quat_of_matrix. rewrite trace_toRot. destruct (Rlt_dec 0 (3 - 4 * b2 q)); [lra|].
  destruct q as [a x y z]. unfold b2 in H. cbn [qx qy qz] in H.
  assert (S : forall t, t <> 0 -> sqrt (4 * (t * t)) = 2 * t \/ sqrt (4 * (t * t)) = 2 * - t).
  { intros t T. destruct (Rlt_dec 0 t); [left|right].
    - replace (4 * (t * t)) with ((2 * t) * (2 * t)) by ring. apply sqrt_square; lra.
    - replace (4 * (t * t)) with ((2 * - t) * (2 * - t)) by ring. apply sqrt_square; lra. }
  unfold e_toRotationMatrix; cbn [qw qx qy qz m00 m01 m02 m10 m11 m12 m20 m21 m22].
  assert (G : forall t tt, t <> 0 -> tt = 4 * (t * t) -> forall f : R -> R -> outcome Quat,
     (forall s, s = t \/ s = - t -> f (2 * s) (1 / 2 / (2 * s)) = Val (mkQ a x y z) \/ f (2 * s) (1 / 2 / (2 * s)) = Val (qneg (mkQ a x y z))) ->
     (t1 <- csqrt tt;; t2 <- cdiv (1 / 2) t1;; f t1 t2) = Val (mkQ a x y z) \/
     (t1 <- csqrt tt;; t2 <- cdiv (1 / 2) t1;; f t1 t2) = Val (qneg (mkQ a x y z))).
  { intros t tt T -> f Hf. unfold csqrt. destruct (Rlt_dec (4 * (t * t)) 0) as [N|N]; [nra|]. cbn [obind].
    destruct (S t T) as [-> | ->]; unfold cdiv; match goal with |- context [Req_EM_T ?u 0] => destruct (Req_EM_T u 0); [lra|] end;
      cbn [obind]; apply Hf; auto. }
  assert (P : forall s t u : R, t <> 0 -> (s = t \/ s = - t) -> u * t * (1 / 2 / (2 * s)) = u / 4 \/ u * t * (1/2 / (2 * s)) = - (u / 4)).
  { intros s t u T [-> | ->]; [left|right]; field; lra. }
  destruct (Rlt_dec _ _) as [A|A]; destruct (Rlt_dec _ _) as [B|B].
  - apply (G z); [nra|ring|]. intros s Hs. destruct Hs as [-> | ->]; [left|right]; unfold qneg; cbn [qw qx qy qz]; f_equal; f_equal; field; nra.
  - apply (G y); [nra|ring|]. intros s Hs. destruct Hs as [-> | ->]; [left|right]; unfold qneg; cbn [qw qx qy qz]; f_equal; f_equal; field; nra.
  - apply (G z); [nra|ring|]. intros s Hs. destruct Hs as [-> | ->]; [left|right]; unfold qneg; cbn [qw qx qy qz]; f_equal; f_equal; field; nra.
  - apply (G x); [nra|ring|]. intros s Hs. destruct Hs as [-> | ->]; [left|right]; unfold qneg; cbn [qw qx qy qz]; f_equal; f_equal; field; nra.
Qed.
(** the norm after one round trip *)
Lemma rt_norm q q' : b2 q < 3/4 -> e_quat_of_matrix (e_toRotationMatrix q) = Val q' ->
  qnorm2 q' - 1 = (qnorm2 q - 1) * (b2 q / (1 - b2 q)).
Proof.
  intros H E. rewrite rt_low in E by exact H. injection E as <-.
  set (w := sqrt (1 - b2 q)). assert (W : w * w = 1 - b2 q) by (apply sqrt_sqrt; lra).
  assert (W0 : 0 < w) by (apply sqrt_lt_R0; lra). unfold qnorm2; cbn [qw qx qy qz].
  replace (w * w + qw q * qx q / w * (qw q * qx q / w) + qw q * qy q / w * (qw q * qy q / w) + qw q * qz q / w * (qw q * qz q / w))
    with (w * w + qw q * qw q * b2 q / (w * w)) by (unfold b2; field; lra).
  rewrite W. replace (qw q * qw q + qx q * qx q + qy q * qy q + qz q * qz q) with (qw q * qw q + b2 q) by (unfold b2; ring).
  field. lra.
Qed.

Lemma rot_of_close_id r : 0 < qnorm2 r -> close (2 * vnorm (qvec r) / qnorm r) (rot_of r) mid.
Proof.
  intros N v. assert (S : 0 < qnorm r) by (apply sqrt_lt_R0, N). pose proof (qnorm_sqr r) as Q.
  pose proof (vnorm_nonneg v). pose proof (vnorm_nonneg (qvec r)).
  apply vnorm_le_sq. { apply Rmult_le_pos; [|assumption]. apply Rmult_le_pos; [lra|left; apply Rinv_0_lt_compat, S]. }
  assert (E : vnorm2 (vsub (mvmul (rot_of r) v) (mvmul mid v)) = 4 * vnorm2 (vcross (qvec r) v) / qnorm2 r).
  { unfold rot_of. rewrite quat_rot_entries. destruct r as [a x y z], v as [v1 v2 v3].
    unfold qnorm2 in *; cbn [qw qx qy qz] in *. lin_unfold. field. lra. }
  rewrite E. pose proof (vnorm_cross_le (qvec r) v) as C. pose proof (vnorm_nonneg (vcross (qvec r) v)) as C0.
  rewrite <- vnorm_sqr. set (c := vnorm (vcross (qvec r) v)) in *. set (u := vnorm (qvec r)) in *. set (n := vnorm v) in *. rewrite <- Q.
  replace (2 * u / qnorm r * n * (2 * u / qnorm r * n)) with (4 * ((u * n) * (u * n)) / (qnorm r * qnorm r)) by (field; lra).
  apply Rmult_le_compat_r; [left; apply Rinv_0_lt_compat; nra|]. nra.
Qed.

Lemma rt_near q nu : Rabs (qnorm2 q - 1) <= nu -> nu <= 1/100 ->
  exists q', e_quat_of_matrix (e_toRotationMatrix q) = Val q' /\ Rabs (qnorm2 q' - 1) <= 3 * nu /\
    close (4 * nu) (rot_of q') (rot_of q).
Proof.
  intros U HN. assert (N0 : 0 < qnorm2 q) by (revert U; unfold Rabs; destruct (Rcase_abs _); lra).
  assert (NU : 0 <= nu) by (pose proof (Rabs_pos (qnorm2 q - 1)); lra).
  destruct (Rlt_or_le (b2 q) (3/4)) as [H|H].
  2: { destruct (rt_high q H) as [E|E]; rewrite E; eexists; (split; [reflexivity|]); rewrite ?qnorm2_neg, ?rot_of_neg;
       (split; [lra|apply close_refl; lra]). }
  eexists. split; [apply rt_low, H|]. set (q' := mkQ _ _ _ _).
  assert (B0 : 0 <= b2 q) by (unfold b2; nra). split.
  - assert (E : qnorm2 q' - 1 = (qnorm2 q - 1) * (b2 q / (1 - b2 q))) by (apply rt_norm; [exact H|apply rt_low, H]).
    rewrite E, Rabs_mult. rewrite (Rabs_pos_eq (b2 q / (1 - b2 q))).
    2: { apply Rmult_le_pos; [lra|left; apply Rinv_0_lt_compat; lra]. }
    assert (b2 q / (1 - b2 q) <= 3). { apply Rmult_le_reg_r with (1 - b2 q); [lra|]. replace (b2 q / (1 - b2 q) * (1 - b2 q)) with (b2 q) by (field; lra). lra. }
    pose proof (Rabs_pos (qnorm2 q - 1)). nra.
  - set (w := sqrt (1 - b2 q)) in *. assert (W : w * w = 1 - b2 q) by (apply sqrt_sqrt; lra).
    assert (W0 : 0 < w) by (apply sqrt_lt_R0; lra).
    set (dl := 1 - qnorm2 q). set (r := mkQ (qw q) (- dl * qx q) (- dl * qy q) (- dl * qz q)).
    assert (A : qnorm2 q = qw q * qw q + b2 q) by (unfold b2, qnorm2; ring).
    assert (WQ : 6/25 <= qw q * qw q) by (revert U; unfold Rabs; destruct (Rcase_abs _); lra).
    assert (R : mkQ (qnorm2 q * w * qw q') (qnorm2 q * w * qx q') (qnorm2 q * w * qy q') (qnorm2 q * w * qz q') = e_mul r q).
    { unfold e_mul, r, q'; cbn [qw qx qy qz]. f_equal.
      - replace (qnorm2 q * w * w) with (qnorm2 q * (w * w)) by ring. rewrite W. unfold dl. rewrite A. unfold b2. ring.
      - unfold dl. field_simplify; [rewrite A; unfold b2; ring|lra].
      - unfold dl. field_simplify; [rewrite A; unfold b2; ring|lra].
      - unfold dl. field_simplify; [rewrite A; unfold b2; ring|lra]. }
    assert (WR : qnorm2 r = qw q * qw q + dl * dl * b2 q) by (unfold r, b2, qnorm2; cbn; ring).
    assert (NR : 6/25 <= qnorm2 r) by (rewrite WR; assert (0 <= dl * dl) by nra; nra).
    assert (Q' : 0 < qnorm2 q') by (unfold qnorm2, q'; cbn [qw qx qy qz]; nra).
    rewrite <- (rot_of_scale (qnorm2 q * w) q') by nra. rewrite R, rot_of_mul by lra.
    rewrite <- (mmul_id_l (rot_of q)) at 2. apply close_mul_r; [apply rot_of_SO3, N0|].
    eapply close_mono; [|apply rot_of_close_id; lra].
    assert (S : 0 < qnorm r) by (apply sqrt_lt_R0; lra). pose proof (qnorm_sqr r) as Q.
    apply Rmult_le_reg_r with (qnorm r); [exact S|].
    replace (2 * vnorm (qvec r) / qnorm r * qnorm r) with (2 * vnorm (qvec r)) by (field; lra).
    assert (VR : vnorm2 (qvec r) = dl * dl * b2 q) by (unfold r, b2; lin_unfold; ring).
    replace (2 * vnorm (qvec r)) with (2 * vnorm (qvec r)) by ring.
    assert (V1 : vnorm (qvec r) <= Rabs dl * (7/8)).
    { apply vnorm_le_sq; [pose proof (Rabs_pos dl); lra|]. rewrite VR.
      assert (AA : Rabs dl * Rabs dl = dl * dl) by (rewrite <- Rabs_mult; apply Rabs_pos_eq; nra).
      assert (0 <= dl * dl) by nra. nra. }
    assert (DL : Rabs dl <= nu) by (unfold dl; rewrite Rabs_minus_sym; exact U).
    assert (QN : 12/25 <= qnorm r) by nra. pose proof (Rabs_pos dl). nra.
Qed.

(** ** the round trip is unstable for rotation angles between 90 and 120
    degrees *)
Definition on_curve (d : R) (q : Quat) : Prop :=
  0 < qw q /\ 0 < qx q /\ qy q = 0 /\ qz q = 0 /\ qx q * qx q = 7/10 - d /\ (qw q * qw q) * (qx q * qx q) = 21/100.
Lemma curve_exists d : 0 <= d <= 2/5 -> exists q, on_curve d q.
Proof.
  intros H. set (x := sqrt (7/10 - d)). assert (X : x * x = 7/10 - d) by (apply sqrt_sqrt; lra).
  assert (X0 : 0 < x) by (apply sqrt_lt_R0; lra).
  set (w := sqrt (21/100 / (7/10 - d))).
  assert (P : 0 < 21/100 / (7/10 - d)) by (apply Rmult_lt_0_compat; [lra|apply Rinv_0_lt_compat; lra]).
  assert (W : w * w = 21/100 / (7/10 - d)) by (apply sqrt_sqrt; lra).
  assert (W0 : 0 < w) by (apply sqrt_lt_R0; lra).
  exists (mkQ w x 0 0). unfold on_curve; cbn [qw qx qy qz]. repeat split; try assumption. rewrite W, X. field. lra.
Qed.
Lemma curve_matrix d q : on_curve d q ->
  e_toRotationMatrix q = mkM33 1 0 0 0 (-2/5 + 2 * d) (- 2 * sqrt (21/100)) 0 (2 * sqrt (21/100)) (-2/5 + 2 * d).
Proof.
  intros (W & X & Y & Z & B & P). assert (E : qw q * qx q = sqrt (21/100)).
  { rewrite <- P. replace (qw q * qw q * (qx q * qx q)) with ((qw q * qx q) * (qw q * qx q)) by ring. rewrite sqrt_square; [reflexivity|]. nra. }
  destruct q as [w x y z]; cbn [qw qx qy qz] in *. subst y z. unfold e_toRotationMatrix; cbn [qw qx qy qz]. rewrite <- E.
  f_equal; try ring; lra.
Qed.
Lemma curve_step d q : 0 < d < 2/5 -> on_curve d q ->
  exists q', e_quat_of_matrix (e_toRotationMatrix q) = Val q' /\ on_curve (7/10 * d / (3/10 + d)) q'.
Proof.
  intros D (W & X & Y & Z & B & P).
  assert (B2 : b2 q = 7/10 - d) by (unfold b2; rewrite Y, Z, B; ring).
  eexists. split; [apply rt_low; rewrite B2; lra|]. rewrite B2. replace (1 - (7/10 - d)) with (3/10 + d) by field.
  set (w := sqrt (3/10 + d)). assert (WW : w * w = 3/10 + d) by (apply sqrt_sqrt; lra). assert (W0 : 0 < w) by (apply sqrt_lt_R0; lra).
  unfold on_curve; cbn [qw qx qy qz]. rewrite Y, Z.
  assert (XX : qw q * qx q / w * (qw q * qx q / w) = 21/100 / (3/10 + d)).
  { rewrite <- WW, <- P. field. lra. }
  split; [exact W0|]. split; [apply Rmult_lt_0_compat; [apply Rmult_lt_0_compat; assumption|apply Rinv_0_lt_compat, W0]|].
  split; [unfold Rdiv; ring|]. split; [unfold Rdiv; ring|]. rewrite XX, WW. split; field; lra.
Qed.
Lemma curve_run p n : forall d q, 0 < d < 2/5 -> on_curve d q ->
  exists q' d', round_trips p n q = Val q' /\
    rrun p (RotMat (e_toRotationMatrix q)) (repeat (OpMulRight (RotQuat qid)) n) = Val (RotMat (e_toRotationMatrix q')) /\
    on_curve d' q' /\ 0 < d' < 2/5 /\ (1/5 <= d' \/ (7/5) ^ n * d <= d').
Proof.
  induction n as [|n IH]; intros d q D C.
  - exists q, d. cbn. repeat split; try assumption; try apply D; try apply C. right. lra.
  - destruct (curve_step d q D C) as (q1 & E & C1). set (d1 := 7/10 * d / (3/10 + d)) in *.
    assert (D1 : 0 < d1 < 2/5).
    { unfold d1. split; [apply Rmult_lt_0_compat; [lra|apply Rinv_0_lt_compat; lra]|].
      apply Rmult_lt_reg_r with (3/10 + d); [lra|]. replace (7/10 * d / (3/10 + d) * (3/10 + d)) with (7/10 * d) by (field; lra). lra. }
    assert (G : 1/5 <= d1 \/ 7/5 * d <= d1).
    { assert (M : d1 * (3/10 + d) = 7/10 * d) by (unfold d1; field; lra).
      destruct (Rle_or_lt (1/5) d) as [L|L]; [left|right]; nra. }
    destruct (IH d1 q1 D1 C1) as (q' & d' & E1 & E2 & C' & D' & G').
    exists q', d'. cbn [round_trips to_mat to_quat obind repeat rrun rstep mult]. rewrite E. cbn [obind convert kind_of to_mat omap].
    assert (Q : e_mul q1 qid = q1) by (destruct q1; unfold e_mul, qid; cbn; f_equal; ring). rewrite Q.
    split; [exact E1|]. split; [exact E2|]. split; [exact C'|]. split; [exact D'|].
    assert (PN : 1 <= (7/5) ^ n) by (apply pow_R1_Rle; lra).
    destruct G' as [G'|G']; [left; exact G'|]. destruct G as [G|G]; [left; nra|right]. cbn [pow]. nra.
Qed.
Lemma curve_escapes p d q : 0 < d < 2/5 -> on_curve d q ->
  exists n q' d', round_trips p n q = Val q' /\
    rrun p (RotMat (e_toRotationMatrix q)) (repeat (OpMulRight (RotQuat qid)) n) = Val (RotMat (e_toRotationMatrix q')) /\
    on_curve d' q' /\ 1/5 <= d' < 2/5.
Proof.
  intros D C. destruct (Pow_x_infinity (7/5) ltac:(rewrite Rabs_pos_eq; lra) (1/5 / d)) as (n & Hn).
  destruct (curve_run p n d q D C) as (q' & d' & E1 & E2 & C' & D' & G). exists n, q', d'.
  split; [exact E1|]. split; [exact E2|]. split; [exact C'|]. split; [|lra]. destruct G as [G|G]; [exact G|].
  specialize (Hn n (le_n n)). rewrite Rabs_pos_eq in Hn by (apply pow_le; lra).
  assert (1/5 <= (7/5) ^ n * d); [|lra].
  apply Rmult_le_reg_r with (/ d); [apply Rinv_0_lt_compat; lra|]. rewrite Rmult_assoc, Rinv_r, Rmult_1_r by lra. lra.
Qed.
