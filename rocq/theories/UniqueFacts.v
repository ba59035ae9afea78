(** * UniqueFacts: getUnique and operator== of quaternion, angle-axis,
    rotation vector and matrix. *)
From Coq Require Import Reals Lra Psatz Bool.
From Verif Require Import Linalg Spec SpecFacts ModelCommon ModelEigen ModelRotation CommonFacts ConvFacts RVFacts Windows RotFacts.
Local Open Scope R_scope.

Lemma vneg_vneg v : vneg (vneg v) = v.
Proof. destruct v; lin. Qed.
Lemma qneg_qneg v : qneg (qneg v) = v.
Proof. destruct v; lin. Qed.
Lemma vnorm2_vneg v : vnorm2 (vneg v) = vnorm2 v.
Proof. destruct v; lin. Qed.
Lemma lexpos_or n : n <> vzero -> lexpos n \/ lexpos (vneg n).
Proof.
  intros H. unfold lexpos, vneg; destruct n as [x y z]; cbn [vx vy vz].
  destruct (Rtotal_order x 0) as [A|[A|A]]; [right; left; lra| |left; left; lra].
  destruct (Rtotal_order y 0) as [B|[B|B]]; [right; right; lra| |left; right; lra].
  destruct (Rtotal_order z 0) as [C|[C|C]]; [right; right; lra| |left; right; lra].
  exfalso; apply H; subst; reflexivity.
Qed.
Lemma lexpos_neg n : lexpos n -> lexpos (vneg n) -> False.
Proof. unfold lexpos, vneg; destruct n as [x y z]; cbn [vx vy vz]. lra. Qed.
Lemma lexpos_scale s n : 0 < s -> (lexpos (vscale s n) <-> lexpos n).
Proof.
  intros H. unfold lexpos, vscale; destruct n as [x y z]; cbn [vx vy vz].
  split; intros D.
  - destruct D as [D|[D1 [D|[D2 D]]]].
    + left. nra.
    + right. split; [nra|left; nra].
    + right. split; [nra|right; split; nra].
  - destruct D as [D|[D1 [D|[D2 D]]]].
    + left. nra.
    + right. split; [nra|left; nra].
    + right. split; [nra|right; split; nra].
Qed.

(** ** Quaternion *)
Lemma quat_unique_pm q : quat_unique q = q \/ quat_unique q = qneg q.
Proof.
  unfold quat_unique. repeat (destruct (Rlt_dec _ _); [auto|]). auto.
Qed.
Lemma quat_unique_canonical q : qnorm2 q = 1 -> canonical_quat (quat_unique q).
Proof.
  intros H. unfold quat_unique, canonical_quat, lexpos, qneg, qvec; destruct q as [w x y z];
    lin_unfold.
  assert (N : w = 0 -> x = 0 -> y = 0 -> z = 0 -> False) by (intros -> -> -> ->; lra).
  repeat (destruct (Rlt_dec _ _); cbn [qw qx qy qz]; [lra|]).
  cbn [qw qx qy qz]. assert (z <> 0) by (intro; apply N; lra). lra.
Qed.
Lemma quat_unique_fix q : canonical_quat q -> quat_unique q = q.
Proof.
  unfold quat_unique, canonical_quat, lexpos, qvec; destruct q as [w x y z]; cbn [qw qx qy qz vx vy vz].
  intros H. repeat (destruct (Rlt_dec _ _); try reflexivity; try lra).
Qed.
Lemma canonical_quat_neg q : canonical_quat q -> canonical_quat (qneg q) -> False.
Proof.
  unfold canonical_quat, lexpos, qneg, qvec; destruct q as [w x y z]; cbn [qw qx qy qz vx vy vz]. lra.
Qed.
Lemma canonical_quat_eq a b : qnorm2 a = 1 -> qnorm2 b = 1 -> canonical_quat a -> canonical_quat b ->
  quat_rot a = quat_rot b -> a = b.
Proof.
  intros Ha Hb Ca Cb E. destruct (quat_rot_eq a b Ha Hb E) as [K|K]; [exact K|exfalso].
  apply (canonical_quat_neg b Cb). rewrite <- K. exact Ca.
Qed.
Lemma qnorm2_qneg q : qnorm2 (qneg q) = qnorm2 q.
Proof. destruct q; lin. Qed.
Lemma quat_unique_ok q : qnorm2 (quat_unique q) = qnorm2 q /\ quat_rot (quat_unique q) = quat_rot q.
Proof.
  destruct (quat_unique_pm q) as [-> | ->]; [auto|]. rewrite qnorm2_qneg, quat_rot_neg. auto.
Qed.

(** ** Angle-axis *)
Lemma aa_rot_same a b n : same_angle a b -> aa_rot (mkAA a n) = aa_rot (mkAA b n).
Proof. intros H. destruct (same_angle_trig a b H) as [S C]. slin; rewrite S, C; ring. Qed.
Lemma aa_rot_flip a n : aa_rot (mkAA (- a) (vneg n)) = aa_rot (mkAA a n).
Proof. slin; rewrite ?cos_neg, ?sin_neg; ring. Qed.
Lemma aa_rot_pi_flip n : aa_rot (mkAA PI (vneg n)) = aa_rot (mkAA PI n).
Proof. slin; rewrite ?cos_PI, ?sin_PI; ring. Qed.
Lemma aa_rot_0 n m : aa_rot (mkAA 0 n) = aa_rot (mkAA 0 m).
Proof. slin; rewrite ?cos_0, ?sin_0; ring. Qed.
Lemma aa_rot_0_id n : aa_rot (mkAA 0 n) = mid.
Proof. slin; rewrite ?cos_0, ?sin_0; ring. Qed.

Lemma aa_unique_ok a : vnorm2 (aaxis a) = 1 ->
  vnorm2 (aaxis (aa_unique a)) = 1 /\ aa_rot (aa_unique a) = aa_rot a /\ canonical_aa (aa_unique a).
Proof.
  intros U. destruct a as [t n]. unfold aa_unique; cbn [aangle aaxis] in *.
  pose proof (wrapPosNegPI_range t) as WR. pose proof (wrapPosNegPI_same t) as WS.
  set (w := wrapPosNegPI t) in *. pose proof PI_RGT_0 as HP.
  assert (RW : aa_rot (mkAA w n) = aa_rot (mkAA t n)) by (apply aa_rot_same, WS).
  assert (Nz : n <> vzero) by (intros ->; unfold vnorm2 in U; lin_unfold; lra).
  unfold canonical_aa.
  destruct (Rlt_dec 0 w) as [A|A]; cbn [aangle aaxis].
  { split; [exact U|]. split; [exact RW|]. right; left; lra. }
  destruct (Rlt_dec w 0) as [B|B]; cbn [aangle aaxis].
  2:{ assert (w = 0) as W0 by lra. rewrite W0 in RW. split; [lin|]. split; [rewrite <- RW; apply aa_rot_0|]. left; auto. }
  unfold Reqb. destruct (Req_EM_T w (- PI)) as [C|C]; cbn [negb].
  2:{ cbn [aangle aaxis]. split; [rewrite vnorm2_vneg; exact U|].
      split; [rewrite aa_rot_flip; exact RW|]. right; left; lra. }
  replace (- w) with PI by lra.
  assert (RP : aa_rot (mkAA PI n) = aa_rot (mkAA t n)).
  { rewrite <- RW. apply aa_rot_same. exists 1%Z. lra. }
  assert (RN : aa_rot (mkAA PI (vneg n)) = aa_rot (mkAA t n)) by (rewrite aa_rot_pi_flip; exact RP).
  assert (UN : vnorm2 (vneg n) = 1) by (rewrite vnorm2_vneg; exact U).
  destruct n as [x y z]; unfold lexpos, vneg; cbn [vx vy vz] in *.
  repeat (destruct (Rlt_dec _ _); cbn [aangle aaxis vx vy vz];
    [solve [split; [assumption|split; [assumption|right; right; split; [reflexivity|lra]]]]|]).
  split; [assumption|split; [assumption|right; right; split; [reflexivity|]]]. cbn [vx vy vz].
  assert (x = 0 /\ y = 0) as [-> ->] by lra.
  assert (z <> 0) by (intros ->; apply Nz; reflexivity). lra.
Qed.

Lemma aa_unique_fix a : canonical_aa a -> aa_unique a = a.
Proof.
  destruct a as [t n]. intros H. pose proof PI_RGT_0 as HP. unfold aa_unique; cbn [aangle aaxis].
  destruct H as [[E1 E2]|[H|[E1 E2]]]; cbn [aangle aaxis] in *.
  - subst t n. rewrite wrapPosNegPI_id by lra.
    destruct (Rlt_dec 0 0); [lra|]. reflexivity.
  - rewrite wrapPosNegPI_id by lra. destruct (Rlt_dec 0 t); [reflexivity|lra].
  - subst t. replace (wrapPosNegPI PI) with (- PI).
    2:{ rewrite <- (wrapPosNegPI_id (- PI)) by lra. apply wrapPosNegPI_eq. exists (-1)%Z. lra. }
    destruct (Rlt_dec 0 (- PI)); [lra|]. destruct (Rlt_dec (- PI) 0); [|lra].
    unfold Reqb. destruct (Req_EM_T (- PI) (- PI)); [|contradiction]. cbn [negb].
    rewrite Ropp_involutive. destruct n as [x y z]; unfold lexpos in E2; cbn [vx vy vz] in *.
    repeat (destruct (Rlt_dec _ _); try reflexivity; try lra).
Qed.

Lemma canonical_aa_range a : canonical_aa a -> 0 <= aangle a <= PI.
Proof. pose proof PI_RGT_0. intros [[E _]|[H1|[E _]]]; lra. Qed.

Lemma canonical_aa_eq a b : vnorm2 (aaxis a) = 1 -> vnorm2 (aaxis b) = 1 ->
  canonical_aa a -> canonical_aa b -> aa_rot a = aa_rot b -> a = b.
Proof.
  intros Ua Ub Ca Cb E.
  pose proof (canonical_aa_range a Ca) as Ra. pose proof (canonical_aa_range b Cb) as Rb.
  destruct a as [s m], b as [t n]; cbn [aangle aaxis] in *.
  rewrite <- !half_quat_rot in E by assumption.
  pose proof PI_RGT_0 as HP.
  assert (Cs : 0 <= cos (s/2)) by (apply cos_ge_0; lra).
  assert (Ct : 0 <= cos (t/2)) by (apply cos_ge_0; lra).
  assert (AX : forall x y z x' y' z' k, k <> 0 -> k * x = k * x' -> k * y = k * y' -> k * z = k * z' ->
     mkV3 x y z = mkV3 x' y' z').
  { intros x y z x' y' z' k K E1 E2 E3. f_equal; eapply Rmult_eq_reg_l; eassumption. }
  destruct (quat_rot_eq _ _ (half_quat_norm _ _ Ua) (half_quat_norm _ _ Ub) E) as [K|K];
    unfold half_quat, qneg in K; cbn [qw qx qy qz] in K; injection K as K1 K2 K3 K4.
  - assert (s = t).
    { assert (s / 2 = t / 2) by (apply cos_inj; lra). lra. }
    subst t. f_equal.
    destruct Ca as [[E1 E2]|Ca'], Cb as [[F1 F2]|Cb']; cbn [aangle aaxis] in *; try lra; try congruence.
    assert (S0 : 0 < sin (s/2)) by (apply sin_gt_0; lra).
    destruct m as [x y z], n as [x' y' z']; cbn [vx vy vz] in *.
    apply (AX _ _ _ _ _ _ (sin (s/2))); lra.
  - assert (Z1 : cos (s/2) = 0) by lra. assert (Z2 : cos (t/2) = 0) by lra.
    assert (s = PI).
    { assert (s / 2 = PI / 2) by (apply cos_inj; [lra|lra|rewrite cos_PI2; exact Z1]). lra. }
    assert (t = PI).
    { assert (t / 2 = PI / 2) by (apply cos_inj; [lra|lra|rewrite cos_PI2; exact Z2]). lra. }
    subst s t. rewrite sin_PI2 in *.
    destruct Ca as [[E1 E2]|[E1|[_ E2]]], Cb as [[F1 F2]|[F1|[_ F2]]]; cbn [aangle aaxis] in *; try lra.
    exfalso. apply (lexpos_neg n F2). replace (vneg n) with m; [exact E2|].
    destruct m as [x y z], n as [x' y' z']; unfold vneg; cbn [vx vy vz] in *. f_equal; lra.
Qed.

(** ** Rotation vector *)
Lemma rv_unique_ok p v : v = vzero \/ dummy_precision p <= vnorm v ->
  vec_rot (rv_unique p v) = vec_rot v /\ canonical_vec (rv_unique p v).
Proof.
  intros H. destruct (rv_to_aa_exact p v H) as [U R].
  destruct (aa_unique_ok _ U) as (U' & R' & C).
  unfold rv_unique, aa_to_rv. split.
  - rewrite vec_rot_scaled by exact U'. rewrite <- R, <- R'. destruct (aa_unique (rv_to_aa p v)); reflexivity.
  - unfold canonical_vec. pose proof (canonical_aa_range _ C) as RG. pose proof PI_RGT_0 as HP.
    rewrite vnorm_vscale, Rabs_right by lra.
    rewrite (proj2 (vnorm_unit _) U'), Rmult_1_r.
    destruct C as [[E _]|[E|[E L]]]; [left; lra|left; lra|right].
    split; [exact E|]. apply lexpos_scale; [lra|exact L].
Qed.
(** a canonical vector as a canonical angle-axis *)
Definition aa_of_vec (v : V3) : AA :=
  if Req_EM_T (vnorm v) 0 then mkAA 0 (mkV3 1 0 0) else mkAA (vnorm v) (unit_of v).
Lemma aa_of_vec_ok v : canonical_vec v ->
  vnorm2 (aaxis (aa_of_vec v)) = 1 /\ aa_rot (aa_of_vec v) = vec_rot v /\ canonical_aa (aa_of_vec v) /\
  aa_to_rv (aa_of_vec v) = v.
Proof.
  intros C. unfold aa_of_vec. destruct (Req_EM_T (vnorm v) 0) as [Z|Z].
  - apply vnorm_zero in Z. subst v. rewrite vec_rot_zero. cbn [aaxis].
    split; [lin|]. split; [apply aa_rot_0_id|]. split; [left; auto|]. unfold aa_to_rv; cbn; lin.
  - assert (U : vnorm2 (unit_of v) = 1) by (apply vnorm2_unitize, Z). cbn [aaxis].
    pose proof (vnorm_nonneg v) as Nn.
    split; [exact U|]. split; [symmetry; apply vec_rot_aa, Z|]. split.
    + destruct C as [C|[C L]]; [right; left; cbn; lra|right; right; cbn [aangle aaxis]].
      split; [exact C|]. apply lexpos_scale; [|exact L]. apply Rinv_0_lt_compat; lra.
    + unfold aa_to_rv, unit_of; cbn [aangle aaxis]. destruct v as [x y z]; unfold vscale; cbn [vx vy vz].
      f_equal; field; exact Z.
Qed.
Lemma canonical_vec_eq v w : canonical_vec v -> canonical_vec w -> vec_rot v = vec_rot w -> v = w.
Proof.
  intros Cv Cw E. destruct (aa_of_vec_ok v Cv) as (U & R & C & B). destruct (aa_of_vec_ok w Cw) as (U' & R' & C' & B').
  rewrite <- B, <- B'. f_equal. apply canonical_aa_eq; try assumption. congruence.
Qed.
Lemma rv_unique_fix p v : v = vzero \/ dummy_precision p <= vnorm v -> canonical_vec v -> rv_unique p v = v.
Proof.
  intros H C. destruct (rv_unique_ok p v H) as [R C']. apply canonical_vec_eq; assumption.
Qed.
Lemma rv_unique_small p v : vnorm v < dummy_precision p -> rv_unique p v = vzero.
Proof.
  intros H. unfold rv_unique, rv_to_aa. destruct (Rlt_dec _ _); [|lra].
  rewrite aa_unique_fix by (left; auto). unfold aa_to_rv; cbn; lin.
Qed.
Lemma canonical_vec_norm v : canonical_vec v -> vnorm v <= PI.
Proof. intros [H|[H _]]; lra. Qed.

(** ** operator== *)
Lemma Reqb_true a b : Reqb a b = true <-> a = b.
Proof. unfold Reqb. destruct (Req_EM_T a b); split; congruence. Qed.
Lemma qeqb_true a b : qeqb a b = true <-> a = b.
Proof.
  unfold qeqb. rewrite !andb_true_iff, !Reqb_true. destruct a, b; cbn. split.
  - intros [[[-> ->] ->] ->]; reflexivity.
  - intros E; injection E; auto.
Qed.
Lemma veqb_true a b : veqb a b = true <-> a = b.
Proof.
  unfold veqb. rewrite !andb_true_iff, !Reqb_true. destruct a, b; cbn. split.
  - intros [[-> ->] ->]; reflexivity.
  - intros E; injection E; auto.
Qed.
Lemma meqb_true a b : meqb a b = true <-> a = b.
Proof.
  unfold meqb. rewrite !andb_true_iff, !Reqb_true. destruct a, b; cbn. split.
  - intros H; decompose [and] H; subst; reflexivity.
  - intros E; injection E; intros; subst; tauto.
Qed.
