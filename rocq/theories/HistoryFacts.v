From Coq Require Import Reals Lra Psatz Bool List.
From Verif Require Import Linalg Spec SpecFacts ModelCommon ModelEigen ModelRotation ModelHistory SpecHistory CommonFacts ConvFacts RVFacts Windows RotFacts UniqueFacts MetricFacts EulerFacts EqFacts SetFacts.
Import ListNotations.
Local Open Scope R_scope.

Lemma clear_operand p r : clear_angle p (meaning r) -> exact_operand p r.
Proof.
  destruct r as [q|a|v|m|e|e]; cbn [exact_operand]; auto. cbn [meaning]. intros [C|C].
  - destruct (Rlt_dec (vnorm v) (eps4throot p)) as [L|L]; [|right; lra]. left.
    apply vnorm_zero. assert (T : mtrace (vec_rot v) = 3) by (rewrite C; lin_unfold; ring).
    rewrite vec_rot_trace in T. assert (Cv : cos (vnorm v) = cos 0) by (rewrite cos_0; lra).
    apply cos_inj in Cv; [exact Cv| |].
    + pose proof (vnorm_nonneg v). pose proof (eps4_small p). pose proof PI2_1. lra.
    + pose proof PI2_1. lra.
  - right. rewrite vec_rot_trace in C. apply Rnot_lt_le; intros L.
    assert (cos (eps4throot p) < cos (vnorm v)); [|lra].
    apply cos_decreasing_1; try exact L; pose proof (vnorm_nonneg v); pose proof (eps4_small p); pose proof PI2_1; lra.
Qed.
Lemma non_vec_operand p r : kind_of r <> KVec -> exact_operand p r.
Proof. destruct r; cbn; auto; congruence. Qed.
Lemma operand_of_clear p r : (kind_of r = KVec -> clear_angle p (meaning r)) -> exact_operand p r.
Proof.
  intros H. destruct (kind_of r) eqn:K; try (apply non_vec_operand; congruence).
  apply clear_operand, H; reflexivity.
Qed.
Lemma pitch_clear_sin b : Rabs (sin b) < cos (/ 10 ^ 3) -> pitch_clear b.
Proof.
  intros H. unfold pitch_clear. apply Rnot_le_lt; intros B.
  pose proof (wrapPosNegPI_range b) as R. destruct (same_angle_trig _ _ (wrapPosNegPI_same b)) as [S _].
  rewrite <- S in H. set (w := wrapPosNegPI b) in *. clearbody w. clear S b.
  assert (A : Rabs (sin w) = cos (Rabs (Rabs w - PI/2))).
  { assert (E : Rabs (sin w) = sin (Rabs w)).
    { destruct (Rle_dec 0 w) as [P|P].
      - rewrite !Rabs_right; try lra. apply Rle_ge, sin_ge_0; lra.
      - rewrite (Rabs_left w) by lra. rewrite sin_neg. rewrite Rabs_left1; [reflexivity|].
        assert (0 <= sin (- w)) by (apply sin_ge_0; lra). rewrite sin_neg in *. lra. }
    rewrite E. rewrite <- (cos_shift (Rabs w)). unfold Rabs at 2. destruct (Rcase_abs _); [f_equal; ring|].
    rewrite <- cos_neg. f_equal. ring. }
  rewrite A in H. assert (cos (/ 10 ^ 3) <= cos (Rabs (Rabs w - PI/2))); [|lra].
  pose proof PI2_1. apply cos_decr_1; try lra. apply Rabs_pos.
Qed.
Lemma zyx_m20 e : m20 (zyx_rot e) = - sin (zpitch e).
Proof. destruct e as [a b c]; spec_unfold. ring. Qed.
Lemma xyz_m02 e : m02 (xyz_rot e) = sin (xpitch e).
Proof. destruct e as [a b c]; spec_unfold. ring. Qed.
Lemma identity_ok p k : kind_of (identity k) = k /\ valid (identity k) /\ meaning (identity k) = mid /\ exact_operand p (identity k).
Proof.
  split; [destruct k; reflexivity|]. split; [|split].
  - destruct k; cbn [identity valid aaxis]; auto; try (lin_unfold; lra); exact SO3_mid.
  - destruct k; cbn [identity meaning]; [exact quat_rot_id|apply aa_rot_0_id|exact vec_rot_zero|reflexivity| |];
      spec_unfold; rewrite !sin_0, !cos_0; f_equal; ring.
  - destruct k; cbn; auto.
Qed.

Lemma rstep_ok p s o : valid s -> exact_operand p s -> step_ok p (kind_of s) (meaning s) o ->
  exists t, rstep p s o = Val t /\ kind_of t = kind_of s /\ valid t /\ exact_operand p t /\
            meaning t = spec_step (meaning s) o.
Proof.
  intros V X [C O].
  assert (R : forall m, (kind_of s = KVec -> clear_angle p m) -> exact_result p (kind_of s) m).
  { intros m H E. apply clear_regular, H, E. }
  assert (F : forall t, kind_of t = kind_of s -> meaning t = spec_step (meaning s) o -> exact_operand p t).
  { intros t K M. apply operand_of_clear. rewrite K, M. exact C. }
  destruct o as [| |r|r|r| |]; cbn [rstep spec_step] in *.
  - destruct (identity_ok p (kind_of s)) as (K & Vi & M & Xi). eexists. split; [reflexivity|]. auto 8.
  - destruct (inverted_exact s V) as (t & E & K & Vt & M). exists t. auto 8.
  - destruct O as [Vr Xr]. destruct (mult_exact p s r V Vr X Xr (R _ C)) as (t & E & K & Vt & M).
    exists t. auto 8.
  - destruct O as [[Vr Xr] Cr].
    destruct (mult_exact p r s Vr V Xr X) as (t & E & K & Vt & M).
    { intros H. apply clear_regular, Cr, H. }
    rewrite E. cbn [obind].
    assert (Xt : exact_operand p t). { apply operand_of_clear. rewrite K, M. exact Cr. }
    destruct (convert_exact p (kind_of s) t Vt) as (u & E2 & K2 & V2 & M2).
    { apply exact_operand_conversion; [exact Xt|]. rewrite M. apply R, C. }
    exists u. repeat split; try assumption; [apply F; [exact K2|congruence]|congruence].
  - destruct O as [Vr Xr]. destruct (convert_exact p (kind_of s) r Vr) as (u & E2 & K2 & V2 & M2).
    { apply exact_operand_conversion; [exact Xr|]. apply R, C. }
    exists u. auto 8.
  - destruct O as [O1 O2]. destruct (get_unique_exact p s V) as (K & Vt & M).
    { destruct s as [q|a|v|m|e|e]; cbn [unique_exact]; auto; cbn [kind_of meaning exact_operand] in *.
      - destruct X as [X|X]; [left; exact X|right]. pose proof (dummy_le_eps4 p). lra.
      - apply pitch_clear_sin. specialize (O1 eq_refl). rewrite zyx_m20, Rabs_Ropp in O1. exact O1.
      - apply pitch_clear_sin. specialize (O2 eq_refl). rewrite xyz_m02 in O2. exact O2. }
    eexists. split; [reflexivity|]. auto 8.
  - rewrite fix_valid by exact V. exists s. auto 8.
Qed.
Lemma rrun_ok p os : forall s, valid s -> exact_operand p s -> steps_ok p (kind_of s) (meaning s) os ->
  exists t, rrun p s os = Val t /\ kind_of t = kind_of s /\ valid t /\
            meaning t = fold_left spec_step os (meaning s).
Proof.
  induction os as [|o os IH]; intros s V X O; cbn [rrun fold_left].
  - exists s. auto 8.
  - cbn [steps_ok] in O. destruct O as [O1 O2].
    destruct (rstep_ok p s o V X O1) as (t & E & K & Vt & Xt & M). rewrite E. cbn [obind].
    destruct (IH t Vt Xt) as (u & E' & K' & V' & M').
    { rewrite K, M. exact O2. }
    exists u. rewrite M in M'. repeat split; try assumption. congruence.
Qed.
