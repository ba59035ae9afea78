(** * RotFacts: conversions and group operations of the rotation classes. *)
From Coq Require Import Reals Lra Psatz.
From Verif Require Import Linalg Spec SpecFacts ModelCommon ModelEigen ModelRotation CommonFacts ConvFacts RVFacts Windows.
Local Open Scope R_scope.

Lemma dummy_le_eps4 p : dummy_precision p <= eps4throot p.
Proof.
  pose proof (eps4_pow p) as E. pose proof (eps4_pos p) as P. pose proof (dummy_pos p) as D.
  destruct (Rle_or_lt (dummy_precision p) (eps4throot p)) as [H|H]; [exact H|exfalso].
  assert (K : eps4throot p ^ 4 <= dummy_precision p ^ 4) by (apply pow_incr; lra).
  rewrite E in K. destruct p; unfold epsilon, dummy_precision in K; lra.
Qed.

Lemma exact_operand_conversion p k r : exact_operand p r -> exact_result p k (meaning r) ->
  exact_conversion p k r.
Proof.
  intros H1 H2. pose proof (dummy_le_eps4 p).
  destruct r, k; cbn in *; try exact I; try exact H1; try (apply H2; reflexivity);
    destruct H1 as [H1|H1]; [left; exact H1|right; lra|left; exact H1|right; lra].
Qed.

Lemma quat_trace q : qnorm2 q = 1 -> (3 - mtrace (quat_rot q)) / 4 = 1 - qw q * qw q.
Proof. intros H. rewrite quat_rot_entries. destruct q; lin_unfold. lra. Qed.

Lemma regular_quat p q : qnorm2 q = 1 -> regular_angle p (quat_rot q) -> quat_angle_regular p q.
Proof.
  intros H [E|E].
  - left. destruct (quat_rot_eq_id q H E) as [-> | ->]; lin.
  - right. rewrite quat_trace in E by exact H. exact E.
Qed.

Lemma to_quat_exact p r : valid r -> exact_operand p r ->
  exists q, to_quat p r = Val q /\ qnorm2 q = 1 /\ quat_rot q = meaning r.
Proof.
  intros V X. destruct r; cbn [to_quat meaning valid exact_operand] in *.
  - eexists; repeat split; exact V.
  - eexists; split; [reflexivity|]. rewrite e_quat_of_aa_half. split.
    + apply half_quat_norm, V.
    + rewrite half_quat_rot by exact V. destruct a; reflexivity.
  - eexists; split; [reflexivity|]. apply rv_to_quat_exact, X.
  - apply e_quat_of_matrix_ok, V.
  - eexists; split; [reflexivity|]. apply zyx_to_quat_ok.
  - eexists; split; [reflexivity|]. apply xyz_to_quat_ok.
Qed.

Lemma convert_quat p k q : qnorm2 q = 1 -> exact_result p k (quat_rot q) ->
  exists r', convert p k (RotQuat q) = Val r' /\ kind_of r' = k /\ valid r' /\ meaning r' = quat_rot q.
Proof.
  intros H X. destruct k; cbn [convert to_quat to_aa to_rv to_mat to_zyx to_xyz omap obind].
  - eexists; repeat split; exact H.
  - eexists; split; [reflexivity|]. split; [reflexivity|]. apply e_aa_of_quat_rot, H.
  - destruct (quat_to_rv_exact p q H) as (v & E & M & _).
    { apply regular_quat; [exact H|apply X; reflexivity]. }
    rewrite E. eexists; repeat split; exact M.
  - eexists; split; [reflexivity|]. split; [reflexivity|]. cbn [valid meaning].
    rewrite e_toRotationMatrix_unit by exact H. split; [apply quat_rot_SO3, H|reflexivity].
  - eexists; repeat split. cbn [meaning]. apply quat_to_zyx_ok, H.
  - eexists; repeat split. cbn [meaning]. apply quat_to_xyz_ok, H.
Qed.

Lemma convert_exact p k r : valid r -> exact_conversion p k r ->
  exists r', convert p k r = Val r' /\ kind_of r' = k /\ valid r' /\ meaning r' = meaning r.
Proof.
  intros V X.
  assert (D : forall q, qnorm2 q = 1 -> quat_rot q = meaning r -> k <> KVec ->
     exists r', convert p k (RotQuat q) = Val r' /\ kind_of r' = k /\ valid r' /\ meaning r' = meaning r).
  { intros q Hq E N. rewrite <- E. apply convert_quat; [exact Hq|]. intro; contradiction. }
  destruct r as [q|a|v|m|e|e].
  - apply convert_quat; [exact V|]. intros ->. exact X.
  - destruct (to_quat_exact p (RotAA a) V I) as (q & E & Hq & M). cbn [to_quat] in E. injection E as E.
    destruct k; try (specialize (D q Hq M ltac:(discriminate)); subst q; exact D).
    + eexists; repeat split; exact V.
    + cbn. eexists; repeat split. cbn [meaning]. unfold aa_to_rv.
      rewrite vec_rot_scaled by exact V. destruct a; reflexivity.
    + cbn [convert to_mat omap]. eexists; split; [reflexivity|]. split; [reflexivity|].
      cbn [valid meaning]. rewrite e_aa_toRotationMatrix_spec. split; [|reflexivity].
      destruct a as [a n]. apply aa_rot_SO3, V.
  - destruct k; cbn [exact_conversion] in X.
    + pose proof (rv_to_quat_exact p v X) as [H1 H2]. cbn. eexists; repeat split; assumption.
    + pose proof (rv_to_aa_exact p v X) as [H1 H2]. cbn. eexists; repeat split; assumption.
    + cbn. eexists; repeat split.
    + pose proof (rv_to_quat_exact p v X) as [H1 H2].
      specialize (D _ H1 H2 ltac:(discriminate)). exact D.
    + pose proof (rv_to_quat_exact p v X) as [H1 H2].
      specialize (D _ H1 H2 ltac:(discriminate)). exact D.
    + pose proof (rv_to_aa_exact p v X) as [H1 H2].
      destruct (to_quat_exact p (RotAA (rv_to_aa p v)) H1 I) as (q & E & Hq & M).
      injection E as E. cbn [meaning] in M. rewrite H2 in M.
      specialize (D _ Hq M ltac:(discriminate)). subst q. exact D.
  - destruct (e_quat_of_matrix_ok m V) as (q & E & Hq & M).
    destruct k; cbn [convert to_quat to_aa to_rv to_mat to_zyx to_xyz omap obind].
    + rewrite E. eexists; repeat split; assumption.
    + unfold e_aa_of_matrix. rewrite E. apply (D q Hq M). discriminate.
    + rewrite E. cbn [obind].
      destruct (quat_to_rv_exact p q Hq) as (w & Ew & Mw & _).
      { apply regular_quat; [exact Hq|]. rewrite M. exact X. }
      rewrite Ew. eexists; repeat split. cbn [meaning]. rewrite Mw. exact M.
    + eexists; repeat split; apply V.
    + rewrite E. apply (D q Hq M). discriminate.
    + rewrite E. apply (D q Hq M). discriminate.
  - pose proof (zyx_to_quat_ok e) as [Hq M].
    destruct k; try (specialize (D _ Hq M ltac:(discriminate)); exact D).
    + pose proof (e_aa_of_quat_rot _ Hq) as [A1 A2].
      cbn. eexists; repeat split. cbn [meaning]. unfold aa_to_rv.
      rewrite vec_rot_scaled by exact A1. rewrite <- M, <- A2.
      destruct (e_aa_of_quat (zyx_to_quat e)); reflexivity.
    + eexists; repeat split.
  - pose proof (xyz_to_quat_ok e) as [Hq M].
    destruct k; try (specialize (D _ Hq M ltac:(discriminate)); exact D).
    + pose proof (e_aa_of_quat_rot _ Hq) as [A1 A2].
      cbn. eexists; repeat split. cbn [meaning]. unfold aa_to_rv.
      rewrite vec_rot_scaled by exact A1. rewrite <- M, <- A2.
      destruct (e_aa_of_quat (xyz_to_quat e)); reflexivity.
    + eexists; repeat split.
Qed.

(** No conversion of a legal value produces NaN or throws, truncated or not. *)
Lemma quat_to_rv_total p q : qnorm2 q = 1 -> exists v, quat_to_rv p q = Val v.
Proof. intros H. destruct (quat_to_rv_error p q H) as (v & _ & E & _). eauto. Qed.
Lemma convert_total p k r : valid r -> exists r', convert p k r = Val r' /\ kind_of r' = k.
Proof.
  intros V. destruct r as [q|a|v|m|e|e]; destruct k; cbn;
    try (eexists; split; reflexivity);
    try (destruct (quat_to_rv_total p q V) as (v & ->); eexists; split; reflexivity);
    destruct (e_quat_of_matrix_ok m V) as (q & E & Hq & M);
    unfold e_aa_of_matrix; rewrite ?E; cbn;
    try (destruct (quat_to_rv_total p q Hq) as (v & ->)); cbn; eexists; split; reflexivity.
Qed.

(** ** Group operations *)
Lemma mult_exact p l r : valid l -> valid r -> exact_operand p l -> exact_operand p r ->
  exact_result p (kind_of l) (mmul (meaning l) (meaning r)) ->
  exists s, mult p l r = Val s /\ kind_of s = kind_of l /\ valid s /\
            meaning s = mmul (meaning l) (meaning r).
Proof.
  intros Vl Vr Xl Xr Y.
  destruct (to_quat_exact p l Vl Xl) as (a & Ea & Ha & Ma).
  destruct (to_quat_exact p r Vr Xr) as (b & Eb & Hb & Mb).
  assert (Hab : qnorm2 (e_mul a b) = 1).
  { rewrite e_mul_hamilton, hamilton_norm, Ha, Hb. ring. }
  assert (Mab : quat_rot (e_mul a b) = mmul (meaning l) (meaning r)).
  { rewrite e_mul_hamilton, quat_rot_hamilton, Ma, Mb. reflexivity. }
  assert (G : exists s, convert p (kind_of l) (RotQuat (e_mul a b)) = Val s /\ kind_of s = kind_of l /\
     valid s /\ meaning s = mmul (meaning l) (meaning r)).
  { rewrite <- Mab. apply convert_quat; [exact Hab|]. rewrite Mab. exact Y. }
  assert (F : (match l, r with RotMat _, RotMat _ => False | _, _ => True end) ->
     mult p l r = convert p (kind_of l) (RotQuat (e_mul a b))).
  { intros N. destruct l, r; cbn [mult]; try contradiction; rewrite Ea, Eb; reflexivity. }
  destruct l, r; try (rewrite F by exact I; exact G).
  cbn [mult]. eexists; repeat split; cbn [valid meaning] in *; apply SO3_mmul; assumption.
Qed.

Lemma aa_inverted_ok a : vnorm2 (aaxis a) = 1 ->
  vnorm2 (aaxis (aa_inverted a)) = 1 /\ aa_rot (aa_inverted a) = mtrans (aa_rot a).
Proof.
  intros H. unfold aa_inverted, e_aa_inverse. cbn [aangle aaxis]. rewrite Ropp_involutive. split.
  - rewrite <- H. destruct (aaxis a); lin.
  - destruct a as [a n]. cbn [aangle aaxis]. slin; ring.
Qed.
Lemma vec_rot_neg v : vec_rot (vneg v) = mtrans (vec_rot v).
Proof.
  assert (N : vnorm (vneg v) = vnorm v).
  { replace (vneg v) with (vscale (-1) v) by (destruct v; lin). rewrite vnorm_vscale, Rabs_left by lra. lra. }
  destruct (Req_dec (vnorm v) 0) as [Z|Z].
  - apply vnorm_zero in Z. subst v. replace (vneg vzero) with vzero by lin.
    rewrite vec_rot_zero. lin.
  - rewrite !vec_rot_aa by (rewrite ?N; exact Z). rewrite N.
    assert (U : vnorm2 (unit_of v) = 1) by (apply vnorm2_unitize, Z).
    unfold unit_of in U.
    assert (H := proj2 (aa_inverted_ok (mkAA (vnorm v) (vscale (/ vnorm v) v)) U)).
    rewrite <- H. unfold aa_inverted, e_aa_inverse; cbn [aangle aaxis].
    rewrite Ropp_involutive. f_equal. f_equal. destruct v; lin.
Qed.

Lemma inverted_exact r : valid r ->
  exists s, inverted r = Val s /\ kind_of s = kind_of r /\ valid s /\ meaning s = mtrans (meaning r).
Proof.
  intros V. destruct r as [q|a|v|m|e|e]; cbn [inverted]; eexists; (split; [reflexivity|]);
    (split; [reflexivity|]); cbn [valid meaning] in *.
  - rewrite e_conjugate_conj. rewrite <- V. split; [apply qnorm2_conj|apply quat_rot_conj].
  - apply aa_inverted_ok, V.
  - split; [exact I|apply vec_rot_neg].
  - split; [apply SO3_trans, V|reflexivity].
  - split; [exact I|]. pose proof (zyx_to_quat_ok e) as [Hq M].
    rewrite e_conjugate_conj, quat_to_zyx_ok by (rewrite qnorm2_conj; exact Hq).
    rewrite quat_rot_conj, M. reflexivity.
  - split; [exact I|]. pose proof (xyz_to_quat_ok e) as [Hq M].
    rewrite e_conjugate_conj, quat_to_xyz_ok by (rewrite qnorm2_conj; exact Hq).
    rewrite quat_rot_conj, M. reflexivity.
Qed.

Lemma to_mat_exact p r : valid r -> exact_operand p r -> to_mat p r = Val (meaning r).
Proof.
  intros V X.
  destruct (convert_exact p KMat r V) as (r' & E & K & V' & M).
  { apply exact_operand_conversion; [exact X|intro; discriminate]. }
  cbn [convert] in E. destruct (to_mat p r) as [m| |]; cbn [omap] in E; try discriminate.
  injection E as <-. cbn [meaning] in M. rewrite M. reflexivity.
Qed.
Lemma rotate_exact p r v : valid r -> exact_operand p r -> rotate p r v = Val (mvmul (meaning r) v).
Proof. intros V X. unfold rotate. rewrite to_mat_exact by assumption. reflexivity. Qed.
Lemma inverted_operand p r s : inverted r = Val s -> exact_operand p r -> exact_operand p s.
Proof.
  destruct r; cbn [inverted]; intros E; injection E as <-; cbn [exact_operand]; try (intros; exact I).
  intros [->|H]; [left; lin|right].
  replace (vneg v) with (vscale (-1) v) by (destruct v; lin). rewrite vnorm_vscale, Rabs_left by lra. lra.
Qed.
Lemma inverseRotate_exact p r v : valid r -> exact_operand p r ->
  inverseRotate p r v = Val (mvmul (mtrans (meaning r)) v).
Proof.
  intros V X. unfold inverseRotate. destruct (inverted_exact r V) as (s & E & K & Vs & M).
  rewrite E. cbn [obind]. rewrite rotate_exact by (try exact Vs; eapply inverted_operand; eassumption).
  rewrite M. reflexivity.
Qed.
