(** Claims C57-C63: proofs (statements are copied to Prop11.v). *)
From Coq Require Import Reals Lra Psatz Bool List ZArith Lia.
From Verif Require Import Linalg Spec SpecFacts ModelCommon ModelEigen ModelRotation CommonFacts ConvFacts RVFacts Windows RotFacts UniqueFacts MetricFacts EulerFacts EqFacts SetFacts ModelHistory SpecHistory HistoryFacts SpecClose CloseFacts NearUnit EulerNear RoundTrip TotalFacts TotalFacts2.
Local Open Scope R_scope.
Import ListNotations.

(** ** C57 *)
Lemma mod_facts P x : 0 < P -> exists k : Z, floatingPointModulo x P = x - P * IZR k /\ 0 <= floatingPointModulo x P < P.
Proof. intros H. destruct (mod_spec x P ltac:(lra)) as (k & E & R). exists k. split; [exact E|]. lra. Qed.
Lemma mod_shift P x (k : Z) : 0 < P -> floatingPointModulo (x + P * IZR k) P = floatingPointModulo x P.
Proof.
  intros H. destruct (mod_facts P x H) as (j & E & R). apply (mod_unique _ _ _ (k + j)%Z).
  - rewrite E, plus_IZR. ring.
  - left. split; [exact H|exact R].
Qed.
Lemma mod_neg P x : 0 < P -> floatingPointModulo (- x) P = (if Req_EM_T (floatingPointModulo x P) 0 then 0 else P - floatingPointModulo x P).
Proof.
  intros H. destruct (mod_facts P x H) as (j & E & R). destruct (Req_EM_T (floatingPointModulo x P) 0) as [Z|Z].
  - apply (mod_unique _ _ _ (- j)%Z); [|left; lra]. rewrite opp_IZR. lra.
  - apply (mod_unique _ _ _ (- j - 1)%Z); [|left; lra]. rewrite minus_IZR, opp_IZR. lra.
Qed.
Lemma IZR_le_0 (k : Z) : (k <= 0)%Z -> IZR k <= 0.
Proof. apply (IZR_le k 0). Qed.
Lemma IZR_ge_1 (k : Z) : (0 < k)%Z -> 1 <= IZR k.
Proof. intros. apply (IZR_le 1 k). lia. Qed.
Lemma near_multiple_mod tol P a : 0 < P ->
  (near_multiple tol P a <-> P - tol < floatingPointModulo a P \/ floatingPointModulo a P < tol).
Proof.
  intros H. destruct (mod_facts P a H) as (j & E & R). set (f := floatingPointModulo a P) in *. split.
  - intros (k & K). destruct (Z_le_gt_dec k j) as [L|L].
    + right. assert (0 <= IZR (j - k)) by (apply (IZR_le 0); lia). rewrite minus_IZR in *. revert K. unfold Rabs; destruct (Rcase_abs _); nra.
    + left. assert (1 <= IZR (k - j)) by (apply IZR_ge_1; lia). rewrite minus_IZR in *. revert K. unfold Rabs; destruct (Rcase_abs _); nra.
  - intros [K|K].
    + exists (j + 1)%Z. rewrite plus_IZR. replace (a - P * (IZR j + 1)) with (f - P) by lra. unfold Rabs; destruct (Rcase_abs _); lra.
    + exists j. rewrite <- E. rewrite Rabs_pos_eq; lra.
Qed.
Lemma is_multiple_mod P a : 0 < P -> (is_multiple P a <-> floatingPointModulo a P = 0).
Proof.
  intros H. destruct (mod_facts P a H) as (j & E & R). split.
  - intros (k & K). apply (mod_unique _ _ _ k); [lra|left; lra].
  - intros K. exists j. lra.
Qed.
Lemma just_above_mod tol P a : 0 < P -> (just_above_multiple tol P a <-> floatingPointModulo a P < tol).
Proof.
  intros H. destruct (mod_facts P a H) as (j & E & R). set (f := floatingPointModulo a P) in *. split.
  - intros (k & K1 & K2). destruct (Z_le_gt_dec k j) as [L|L].
    + assert (0 <= IZR (j - k)) by (apply (IZR_le 0); lia). rewrite minus_IZR in *. nra.
    + assert (1 <= IZR (k - j)) by (apply IZR_ge_1; lia). rewrite minus_IZR in *. nra.
  - intros K. exists j. lra.
Qed.
Lemma circ_min P a b : 0 < P ->
  is_circular_distance P a b (Rmin (floatingPointModulo (a - b) P) (floatingPointModulo (b - a) P)).
Proof.
  intros H. replace (b - a) with (- (a - b)) by ring. rewrite mod_neg by exact H.
  destruct (mod_facts P (a - b) H) as (j & E & R). set (f := floatingPointModulo (a - b) P) in *.
  unfold is_circular_distance. destruct (Req_EM_T f 0) as [Z|Z].
  - rewrite Z, Rmin_left by lra. split; [lra|]. exists j. rewrite <- E, Z, Rabs_R0. reflexivity.
  - unfold Rmin. destruct (Rle_dec f (P - f)) as [L|L]; (split; [lra|]).
    + exists j. rewrite <- E. apply Rabs_pos_eq; lra.
    + exists (j + 1)%Z. rewrite plus_IZR. replace (a - b - P * (IZR j + 1)) with (- (P - f)) by lra. rewrite Rabs_Ropp. apply Rabs_pos_eq; lra.
Qed.
Lemma circ_unique P a b d e : 0 < P -> is_circular_distance P a b d -> is_circular_distance P a b e -> d = e.
Proof.
  intros H [R1 (k1 & K1)] [R2 (k2 & K2)].
  assert (G : k1 = k2 \/ Rabs (IZR k1 - IZR k2) = 1 \/ 2 <= Rabs (IZR k1 - IZR k2)).
  { rewrite <- minus_IZR. destruct (Z.eq_dec k1 k2); [auto|right]. rewrite <- abs_IZR.
    assert (1 <= Z.abs (k1 - k2))%Z by lia. destruct (Z.eq_dec (Z.abs (k1 - k2)) 1) as [O|O]; [left; rewrite O; reflexivity|right].
    apply (IZR_le 2). lia. }
  destruct G as [-> | [G|G]]; [congruence| |]; revert K1 K2 G; unfold Rabs; repeat destruct (Rcase_abs _); intros; nra.
Qed.

Lemma Rltb_iff a b : Rltb a b = true <-> a < b.
Proof. destruct (Rltb_spec a b); split; auto; discriminate. Qed.
Lemma Reqb_iff a b : Reqb a b = true <-> a = b.
Proof. destruct (Reqb_spec a b); split; auto; discriminate. Qed.
(** C57: what compareRelativePeriodic decides, for every positive period. *)
Lemma C57_compare_periodic_lemma : forall (a b P percent : R), 0 < P ->
  exists c, compareRelativePeriodic a b P percent = Val c /\
    (c = true <->
       (exists d, is_circular_distance P a b d /\ d <= percent / 100 * P) \/
       (near_multiple (/ 10 ^ 15) P a /\ near_multiple (/ 10 ^ 15) P b) \/
       (is_multiple P a /\ just_above_multiple (/ 10 ^ 6) P b) \/
       (is_multiple P b /\ just_above_multiple (/ 10 ^ 6) P a)).
Proof.
  intros a b P t H. pose proof (circ_min P a b H) as CM.
  enough (X : exists c, compareRelativePeriodic a b P t = Val c /\
    (c = true <-> (exists d, is_circular_distance P a b d /\ d <= t / 100 * P) \/
       ((P - / 10 ^ 15 < floatingPointModulo a P \/ floatingPointModulo a P < / 10 ^ 15) /\
        (P - / 10 ^ 15 < floatingPointModulo b P \/ floatingPointModulo b P < / 10 ^ 15)) \/
       (floatingPointModulo a P = 0 /\ floatingPointModulo b P < / 10 ^ 6) \/
       (floatingPointModulo b P = 0 /\ floatingPointModulo a P < / 10 ^ 6))).
  { destruct X as (c & E & X). exists c. split; [exact E|]. rewrite X.
    rewrite (near_multiple_mod _ P a H), (near_multiple_mod _ P b H), (is_multiple_mod P a H), (is_multiple_mod P b H),
    (just_above_mod _ P a H), (just_above_mod _ P b H). reflexivity. }
  unfold compareRelativePeriodic.
  set (fa := floatingPointModulo a P). set (fb := floatingPointModulo b P).
  set (d := Rmin _ _) in *.
  match goal with |- context [if ?c then Val true else _] => set (cond := c) end.
  assert (B : cond = true <-> ((P - / 10 ^ 15 < fa \/ fa < / 10 ^ 15) /\ (P - / 10 ^ 15 < fb \/ fb < / 10 ^ 15)) \/
       (fa = 0 /\ fb < / 10 ^ 6) \/ (fb = 0 /\ fa < / 10 ^ 6)).
  { unfold cond. rewrite !orb_true_iff, !andb_true_iff, !orb_true_iff, !Rltb_iff, !Reqb_iff. tauto. }
  clearbody cond. destruct cond.
  { exists true. split; [reflexivity|]. split; [intros _; right; apply B|]; reflexivity. }
  unfold cdiv. destruct (Req_EM_T P 0); [lra|]. cbn [obind]. eexists; split; [reflexivity|].
  destruct (Rltb_spec (t * / 10 ^ 2) (d / P)) as [L|L]; split; intros X; try discriminate X; try reflexivity.
  - exfalso. destruct X as [(d' & D & B')|X]; [|apply B in X; discriminate].
    rewrite (circ_unique P a b d' d H D CM) in B'.
    assert (d / P <= t * / 10 ^ 2); [|lra].
    apply Rmult_le_reg_r with P; [exact H|]. replace (d / P * P) with d by (field; lra). lra.
  - left. exists d. split; [exact CM|]. apply Rnot_lt_le in L.
    apply Rmult_le_compat_r with (r := P) in L; [|lra]. replace (d / P * P) with d in L by (field; lra). lra.
Qed.
(** C57: the comparison is symmetric, does not see whole periods, and is
    reflexive for a non-negative tolerance. *)
Lemma C57_periodic_symmetry_lemma : forall (a b P percent : R), 0 < P ->
  compareRelativePeriodic a b P percent = compareRelativePeriodic b a P percent /\
  (forall k l : Z, compareRelativePeriodic (a + P * IZR k) (b + P * IZR l) P percent = compareRelativePeriodic a b P percent) /\
  (0 <= percent -> compareRelativePeriodic a a P percent = Val true).
Proof.
  intros a b P t H. split; [|split].
  - unfold compareRelativePeriodic. rewrite (Rmin_comm (floatingPointModulo (b - a) P)).
    rewrite (andb_comm (_ || _) (Rltb (P - / 10 ^ 15) (floatingPointModulo b P) || _)).
    rewrite <- !orb_assoc. rewrite (orb_comm (Reqb (floatingPointModulo a P) 0 && _)). reflexivity.
  - intros k l. unfold compareRelativePeriodic. rewrite !(mod_shift P _ k H), !(mod_shift P _ l H).
    replace (a + P * IZR k - (b + P * IZR l)) with (a - b + P * IZR (k - l)) by (rewrite minus_IZR; ring).
    replace (b + P * IZR l - (a + P * IZR k)) with (b - a + P * IZR (l - k)) by (rewrite minus_IZR; ring).
    rewrite !(mod_shift P _ _ H). reflexivity.
  - intros T. destruct (C57_compare_periodic_lemma a a P t H) as (c & E & I). rewrite E. f_equal. apply I. left. exists 0. split.
    + split; [lra|]. exists 0%Z. replace (a - a - P * 0) with 0 by ring. apply Rabs_R0.
    + assert (0 <= t / 100) by lra. nra.
Qed.
(** C57 refuted part: it does depend on the sign - reflecting both arguments can
    change the answer (the 1e-6 test only looks above multiples). *)
Lemma C57_periodic_reflection_refuted_lemma : exists a b P percent, 0 < P /\ 0 <= percent /\
  compareRelativePeriodic a b P percent = Val true /\ compareRelativePeriodic (- a) (- b) P percent = Val false.
Proof.
  exists 0, (/ 10 ^ 7), 1, 0. split; [lra|]. split; [lra|].
  destruct (C57_compare_periodic_lemma 0 (/ 10 ^ 7) 1 0 ltac:(lra)) as (c & E & I1).
  destruct (C57_compare_periodic_lemma (- 0) (- / 10 ^ 7) 1 0 ltac:(lra)) as (c' & E' & I2).
  rewrite E, E'. split.
  - f_equal. apply I1. right. right. left. split; [exists 0%Z; ring|]. exists 0%Z. rewrite Rmult_0_r, Rminus_0_r. lra.
  - f_equal. apply not_true_is_false. intros T. apply I2 in T. clear - T.
    assert (M1 : forall r : R, -1 < r < 0 -> forall k : Z, r = IZR k -> False).
    { intros r R k ->. assert (-1 < k)%Z by (apply lt_IZR; lra). assert (k < 0)%Z by (apply lt_IZR; lra). lia. }
    destruct T as [(d & [D0 (k & K)] & D)|[[_ T]|[[_ T]|[T _]]]].
    + assert (Z0 : d = 0) by lra. rewrite Z0 in K. assert (X : - 0 - - / 10 ^ 7 - 1 * IZR k = 0) by (revert K; unfold Rabs; destruct (Rcase_abs _); lra).
      apply (M1 (- / 10 ^ 7) ltac:(lra) (- k)%Z). rewrite opp_IZR. lra.
    + destruct T as (k & K). assert (G : -1 < IZR k < 1) by (revert K; unfold Rabs; destruct (Rcase_abs _); lra).
      assert (k = 0)%Z. { assert (-1 < k)%Z by (apply lt_IZR; lra). assert (k < 1)%Z by (apply lt_IZR; lra). lia. }
      subst k. revert K; unfold Rabs; destruct (Rcase_abs _); lra.
    + destruct T as (k & K). assert (G : -2 < IZR k < 0) by lra.
      assert (k = -1)%Z. { assert (-2 < k)%Z by (apply lt_IZR; lra). assert (k < 0)%Z by (apply lt_IZR; lra). lia. }
      subst k. lra.
    + destruct T as (k & K). apply (M1 (- / 10 ^ 7) ltac:(lra) k). lra.
Qed.
Lemma C57_compare_periodic_ex : compareRelativePeriodic (1/100) (99/100) 1 3 = Val true /\ compareRelativePeriodic (1/4) (3/4) 1 3 = Val false.
Proof.
  split.
  - destruct (C57_compare_periodic_lemma (1/100) (99/100) 1 3 ltac:(lra)) as (c & E & I). rewrite E. f_equal. apply I. left.
    exists (2/100). split; [|lra]. split; [lra|]. exists (-1)%Z. rewrite Rabs_pos_eq; lra.
  - destruct (C57_compare_periodic_lemma (1/4) (3/4) 1 3 ltac:(lra)) as (c & E & I). rewrite E. f_equal. apply not_true_is_false. intros T.
    apply I in T.
    assert (Q : is_circular_distance 1 (1/4) (3/4) (1/2)).
    { split; [lra|]. exists 0%Z. replace (1/4 - 3/4 - 1 * 0) with (- (1/2)) by lra. rewrite Rabs_Ropp. apply Rabs_pos_eq; lra. }
    assert (N : forall k : Z, IZR k <= 0 \/ 1 <= IZR k).
    { intros k. destruct (Z_le_gt_dec k 0); [left; apply (IZR_le _ 0); lia|right; apply (IZR_le 1); lia]. }
    destruct T as [(d & D & B)|[[T _]|[[T _]|[T _]]]].
    + rewrite (circ_unique 1 _ _ d (1/2) ltac:(lra) D Q) in B. lra.
    + destruct T as (k & K). destruct (N k); revert K; unfold Rabs; destruct (Rcase_abs _); lra.
    + destruct T as (k & K). destruct (N k); lra.
    + destruct T as (k & K). destruct (N k); lra.
Qed.
