From Coq Require Import Reals Lra Psatz Bool.
From Verif Require Import Linalg Spec SpecFacts ModelCommon ModelEigen ModelRotation ModelQuaternion ModelDebug CommonFacts ConvFacts RVFacts Windows RotFacts UniqueFacts MetricFacts EqFacts SetFacts.
Local Open Scope R_scope.

Lemma e_inverse_ok q : q <> mkQ 0 0 0 0 ->
  hamilton q (e_inverse q) = qid /\ hamilton (e_inverse q) q = qid.
Proof.
  intros H.
  assert (P : 0 < qnorm2 q).
  { destruct (Req_dec (qnorm2 q) 0) as [Z|Z].
    - exfalso. apply H. destruct q as [w x y z]; unfold qnorm2 in Z; cbn [qw qx qy qz] in *.
      assert (w = 0) by nra. assert (x = 0) by nra. assert (y = 0) by nra. assert (z = 0) by nra. congruence.
    - pose proof (qnorm2_nonneg q). lra. }
  unfold e_inverse. destruct (Rlt_dec 0 (qnorm2 q)); [|lra].
  assert (N : qnorm2 q <> 0) by lra.
  destruct q as [w x y z]; unfold hamilton, qid, qvec, vadd, vscale, vcross, vdot in *; cbv zeta;
    cbn [qw qx qy qz vx vy vz] in *. unfold qnorm2 in *; cbn [qw qx qy qz] in *.
  split; f_equal; field; exact N.
Qed.
Lemma e_inverse_zero : e_inverse (mkQ 0 0 0 0) = mkQ 0 0 0 0.
Proof. unfold e_inverse. destruct (Rlt_dec 0 (qnorm2 (mkQ 0 0 0 0))) as [L|L]; [|reflexivity]. exfalso; lin_unfold; lra. Qed.
Lemma qnorm_mult a b : qnorm (hamilton a b) = qnorm a * qnorm b.
Proof. unfold qnorm. rewrite hamilton_norm. apply sqrt_mult; apply qnorm2_nonneg. Qed.
Lemma m44_left q p : m44_apply (getQuaternionMatrix q) p = hamilton q p.
Proof.
  destruct q as [w x y z], p as [a b c d]; unfold m44_apply, getQuaternionMatrix, qdot, hamilton, qvec, vadd, vscale, vcross, vdot;
    cbv zeta; cbn [qw qx qy qz vx vy vz row0 row1 row2 row3]. f_equal; ring.
Qed.
Lemma m44_right q p : m44_apply (getConjugateQuaternionMatrix p) q = hamilton q p.
Proof.
  destruct q as [w x y z], p as [a b c d]; unfold m44_apply, getConjugateQuaternionMatrix, qdot, hamilton, qvec, vadd, vscale, vcross, vdot;
    cbv zeta; cbn [qw qx qy qz vx vy vz row0 row1 row2 row3]. f_equal; ring.
Qed.

(** ** Debug assertions *)
Lemma compareRelative_one a t : 0 <= a -> 0 <= t ->
  (compareRelative a 1 t = true <-> Rabs (a - 1) <= t / 10 ^ 2 * Rmax a 1).
Proof.
  intros Ha Ht. unfold compareRelative, Reqb. rewrite (Rabs_right 1), (Rabs_right a) by lra.
  unfold Rltb at 1 2 3 4. destruct (Rlt_dec 1 (/ 10 ^ 15)); [lra|]. destruct (Rlt_dec 1 (/ 10 ^ 6)); [lra|].
  destruct (Req_EM_T 1 0); [lra|]. rewrite !andb_false_r. cbn [orb andb].
  pose proof (Rmax_r a 1) as M. set (x := Rmax a 1) in *.
  unfold Rltb. destruct (Rlt_dec _ _) as [L|L].
  - split; [discriminate|intros K; exfalso].
    apply (Rmult_lt_compat_r x) in L; [|lra]. unfold Rdiv in L.
    rewrite (Rmult_assoc (Rabs (a-1))), Rinv_l, Rmult_1_r in L by lra. unfold Rdiv in K. lra.
  - split; [intros _|reflexivity]. apply Rnot_lt_le in L.
    apply (Rmult_le_compat_r x) in L; [|lra]. unfold Rdiv in L.
    rewrite (Rmult_assoc (Rabs (a-1))), Rinv_l, Rmult_1_r in L by lra. exact L.
Qed.
Lemma qnorm_nonneg q : 0 <= qnorm q.
Proof. apply sqrt_pos. Qed.
Lemma assert_near_iff {A} (a t : R) (k : A) : 0 <= a -> 0 <= t ->
  (assert_scalar_near a 1 t (Val k) = Val k <-> Rabs (a - 1) <= t / 10 ^ 2 * Rmax a 1) /\
  (assert_scalar_near a 1 t (Val k) = Throws <-> ~ Rabs (a - 1) <= t / 10 ^ 2 * Rmax a 1).
Proof.
  intros Ha Ht. pose proof (compareRelative_one a t Ha Ht) as C. unfold assert_scalar_near.
  destruct (compareRelative a 1 t).
  - split; split; intros H; try reflexivity; try discriminate; [apply C; reflexivity|].
    exfalso; apply H, C; reflexivity.
  - split; split; intros H; try discriminate; try reflexivity.
    + apply C in H; discriminate.
    + intros K; apply C in K; discriminate.
Qed.
Lemma compareRelative_zero a t : 0 <= t < 10 ^ 2 ->
  (compareRelative a 0 t = true <-> Rabs a < / 10 ^ 6).
Proof.
  intros Ht. unfold compareRelative, Reqb. rewrite Rabs_R0.
  destruct (Req_EM_T 0 0) as [_|N]; [|lra].
  unfold Rltb. pose proof (Rabs_pos a) as Pa.
  destruct (Rlt_dec 0 (/ 10 ^ 15)) as [_|N]; [|lra]. destruct (Rlt_dec 0 (/ 10 ^ 6)) as [_|N]; [|lra].
  rewrite !andb_true_r, !andb_true_l.
  destruct (Rlt_dec (Rabs a) (/ 10 ^ 6)) as [L|L]; [rewrite !orb_true_r; split; auto|].
  rewrite orb_false_r.
  destruct (Rlt_dec (Rabs a) (/ 10 ^ 15)) as [L1|_]; [lra|].
  destruct (Req_EM_T (Rabs a) 0) as [L1|_]; [lra|]. cbn [orb].
  rewrite Rmax_left by lra. replace (a - 0) with a by ring.
  replace (Rabs a / Rabs a) with 1 by (field; lra).
  destruct (Rlt_dec (t * / 10 ^ 2) 1) as [_|N]; [|exfalso; lra]. split; [discriminate|lra].
Qed.
Lemma compareRelative_one' a t : 0 <= t -> t < 10 ^ 2 ->
  (compareRelative a 1 t = true <-> Rabs (a - 1) <= t / 10 ^ 2 * Rmax (Rabs a) 1).
Proof.
  intros Ht Ht'. unfold compareRelative, Reqb. rewrite (Rabs_right 1) by lra.
  unfold Rltb at 1 2 3 4. destruct (Rlt_dec 1 (/ 10 ^ 15)); [lra|]. destruct (Rlt_dec 1 (/ 10 ^ 6)); [lra|].
  destruct (Req_EM_T 1 0); [lra|]. rewrite !andb_false_r. cbn [orb andb].
  pose proof (Rmax_r (Rabs a) 1) as M. set (x := Rmax (Rabs a) 1) in *.
  unfold Rltb. destruct (Rlt_dec _ _) as [L|L].
  - split; [discriminate|intros K; exfalso].
    apply (Rmult_lt_compat_r x) in L; [|lra]. unfold Rdiv in L.
    rewrite (Rmult_assoc (Rabs (a-1))), Rinv_l, Rmult_1_r in L by lra. unfold Rdiv in K. lra.
  - split; [intros _|reflexivity]. apply Rnot_lt_le in L.
    apply (Rmult_le_compat_r x) in L; [|lra]. unfold Rdiv in L.
    rewrite (Rmult_assoc (Rabs (a-1))), Rinv_l, Rmult_1_r in L by lra. exact L.
Qed.
(** near [a] of 1 within relative 1e-6 *)
Definition near1 (a : R) : Prop := Rabs (a - 1) <= / 10 ^ 6 * Rmax (Rabs a) 1.
Lemma compareRelative_one6 a : compareRelative a 1 (/ 10 ^ 4) = true <-> near1 a.
Proof.
  rewrite compareRelative_one' by lra. unfold near1.
  replace (/ 10 ^ 4 / 10 ^ 2) with (/ 10 ^ 6) by (field; lra). reflexivity.
Qed.
Definition nearly_orthogonal (m : M33) : Prop :=
  let g := mmul m (mtrans m) in
  near1 (m00 g) /\ near1 (m11 g) /\ near1 (m22 g) /\
  Rabs (m01 g) < / 10 ^ 6 /\ Rabs (m02 g) < / 10 ^ 6 /\ Rabs (m12 g) < / 10 ^ 6.
Lemma gram_sym m : let g := mmul m (mtrans m) in m10 g = m01 g /\ m20 g = m02 g /\ m21 g = m12 g.
Proof. destruct m; lin_unfold. repeat split; ring. Qed.
Lemma dbg_mat_iff m :
  (dbg_mat_ctor m = Val m <-> nearly_orthogonal m /\ near1 (mdet m)) /\
  (dbg_mat_ctor m = Throws <-> ~ (nearly_orthogonal m /\ near1 (mdet m))).
Proof.
  assert (E : forall b1 b2 : bool, forall P1 P2 : Prop, (b1 = true <-> P1) -> (b2 = true <-> P2) ->
    ((if b1 then (if b2 then Val m else Throws) else Throws) = Val m <-> P1 /\ P2) /\
    ((if b1 then (if b2 then Val m else Throws) else Throws) = Throws <-> ~ (P1 /\ P2))).
  { intros b1 b2 P1 P2 H1 H2. destruct b1, b2;
      (split; split; intros H; try reflexivity; try discriminate;
       try (rewrite <- H1, <- H2; split; reflexivity);
       try (rewrite <- H1, <- H2 in H; exfalso; first [apply H; split; reflexivity | destruct H; discriminate]);
       try (rewrite <- H1, <- H2; intros [? ?]; discriminate)). }
  unfold dbg_mat_ctor, assert_matrix_near, assert_scalar_near. apply E; [|apply compareRelative_one6].
  unfold nearly_orthogonal. cbv zeta.
  pose proof (gram_sym m) as (G1 & G2 & G3). cbv zeta in *. set (g := mmul m (mtrans m)) in *.
  unfold mid; cbn [m00 m01 m02 m10 m11 m12 m20 m21 m22].
  rewrite !andb_true_iff, !compareRelative_one6, !compareRelative_zero by lra. rewrite G1, G2, G3. tauto.
Qed.
Lemma near1_1 : near1 1.
Proof. unfold near1. rewrite Rminus_diag_eq, Rabs_R0 by reflexivity. rewrite Rmax_right; rewrite ?Rabs_R1; lra. Qed.
Lemma dbg_ctor_valid r : valid r -> dbg_ctor r = Val r.
Proof.
  intros V. destruct r as [q|a|v|m|e|e]; cbn [dbg_ctor valid] in *; try reflexivity.
  - unfold dbg_quat_ctor. apply (f_equal (omap RotQuat)) with (y := Val q).
    apply (proj1 (assert_near_iff (qnorm q) (/ 10 ^ 2) q (qnorm_nonneg q) ltac:(lra))).
    apply qnorm_unit in V. rewrite V, Rminus_diag_eq, Rabs_R0 by reflexivity. rewrite ?Rabs_R1, Rmax_left by lra. lra.
  - unfold dbg_aa_ctor. apply (f_equal (omap RotAA)) with (y := Val a).
    apply (proj1 (assert_near_iff (vnorm (aaxis a)) (/ 10 ^ 4) a (vnorm_nonneg (aaxis a)) ltac:(lra))).
    apply vnorm_unit in V. rewrite V, Rminus_diag_eq, Rabs_R0 by reflexivity. rewrite ?Rabs_R1, Rmax_left by lra. lra.
  - rewrite (proj2 (proj1 (dbg_mat_iff m))); [reflexivity|]. destruct V as [O D]. rewrite D.
    split; [|apply near1_1]. unfold nearly_orthogonal. rewrite O. unfold mid; cbv zeta; cbn [m00 m01 m02 m10 m11 m12 m20 m21 m22].
    rewrite Rabs_R0. pose proof near1_1. repeat split; try assumption; lra.
Qed.
