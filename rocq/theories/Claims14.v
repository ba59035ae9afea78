(** Claim C64: proofs (statements are copied to Prop14.v). *)
From Coq Require Import Reals Lra Psatz Bool List ZArith Lia.
From Verif Require Import Linalg Spec SpecFacts ModelCommon ModelEigen ModelRotation CommonFacts ConvFacts RVFacts Windows RotFacts UniqueFacts MetricFacts EulerFacts EqFacts SetFacts ModelHistory SpecHistory HistoryFacts ModelDebug ModelDebug2 QuatDebugFacts SpecClose CloseFacts NearUnit EulerNear RoundTrip TotalFacts TotalFacts2 DebugFacts.
Local Open Scope R_scope.
Import ListNotations.

(** C64: for all objects, legal or not, and all histories of calls: a debug
    build either throws or gives exactly the value of the release build. *)
Lemma C64_debug_never_differs_lemma : forall (p : prim) (l r : rotation) (k : kind) (v : V3) (t : R) (os : list rop),
  let agrees := fun (A : Type) (d x : outcome A) => d = x \/ d = Throws in
  agrees _ (dbg_convert p k l) (convert p k l) /\
  agrees _ (dbg_mult p l r) (mult p l r) /\
  agrees _ (dbg_inverted p l) (inverted l) /\
  agrees _ (dbg_get_unique p l) (Val (get_unique p l)) /\
  agrees _ (dbg_fix l) (fix_rot l) /\
  agrees _ (dbg_rotate p l v) (rotate p l v) /\
  agrees _ (dbg_inverseRotate p l v) (inverseRotate p l v) /\
  agrees _ (dbg_isNear p l r t) (isNear p l r t) /\
  agrees _ (dbg_disparity p l r) (disparity p l r) /\
  agrees _ (dbg_logarithmicMap p l) (logarithmicMap p l) /\
  agrees _ (dbg_boxMinus p l r) (boxMinus p l r) /\
  agrees _ (dbg_boxPlus p l v) (boxPlus p l v) /\
  agrees _ (dbg_interpolate p l r t) (interpolate p l r t) /\
  (forall d, dbg_is_equal p l r = Some d -> exists x, is_equal p l r = Some x /\ agrees _ d x) /\
  agrees _ (dbg_run p l os) (rrun p l os).
Proof.
  intros p l r k v t os. cbv zeta.
  split; [apply ref_convert|]. split; [apply ref_mult|]. split; [apply ref_inverted|]. split; [apply ref_get_unique|].
  split; [apply ref_fix|]. split; [apply ref_rotate|]. split; [apply ref_inverseRotate|]. split; [apply ref_isNear|].
  split; [apply ref_disparity|]. split; [apply ref_log|]. split; [apply ref_boxMinus|]. split; [apply ref_boxPlus|].
  split; [apply ref_interpolate|]. split; [|apply ref_run].
  intros d E. pose proof (ref_is_equal p l r) as H. rewrite E in H. unfold ref_opt in H.
  destruct (is_equal p l r) as [x|]; [|contradiction]. exists x. split; [reflexivity|exact H].
Qed.
Lemma C64_debug_never_differs_ex : forall p,
  dbg_mult p (RotQuat (mkQ 2 0 0 0)) (RotQuat (mkQ 0 0 3 0)) = Throws /\
  mult p (RotQuat (mkQ 2 0 0 0)) (RotQuat (mkQ 0 0 3 0)) = Val (RotQuat (mkQ 0 0 6 0)).
Proof.
  intros p. assert (M : e_mul (mkQ 2 0 0 0) (mkQ 0 0 3 0) = mkQ 0 0 6 0) by (unfold e_mul; cbn; f_equal; ring).
  cbn [dbg_mult mult dbg_to_quat to_quat obind kind_of convert omap]. rewrite M. split; [|reflexivity].
  assert (N : qnorm (mkQ 0 0 6 0) = 6).
  { unfold qnorm. replace (qnorm2 (mkQ 0 0 6 0)) with (6 * 6) by (unfold qnorm2; cbn; ring). apply sqrt_square; lra. }
  unfold dbg_quat_ctor. rewrite (proj2 (proj2 (assert_near_iff (qnorm (mkQ 0 0 6 0)) (/ 10 ^ 2) (mkQ 0 0 6 0) ltac:(rewrite N; lra) ltac:(lra)))); [reflexivity|].
  rewrite N. rewrite (Rabs_pos_eq (6 - 1)), Rmax_left by lra. lra.
Qed.

(** C64: on legal rotations no assertion fires: every operation gives in the
    debug build the result of the release build. *)
Lemma C64_legal_operations_lemma : forall (p : prim) (l r : rotation) (k : kind) (v : V3) (t : R), valid l -> valid r ->
  dbg_ctor l = Val l /\
  dbg_convert p k l = convert p k l /\
  dbg_mult p l r = mult p l r /\
  dbg_inverted p l = inverted l /\
  dbg_get_unique p l = Val (get_unique p l) /\
  dbg_fix l = fix_rot l /\
  dbg_rotate p l v = rotate p l v /\
  dbg_inverseRotate p l v = inverseRotate p l v /\
  dbg_isNear p l r t = isNear p l r t /\
  dbg_disparity p l r = disparity p l r /\
  dbg_is_equal p l r = is_equal p l r /\
  dbg_exponentialMap p k v = exponentialMap p k v /\
  dbg_logarithmicMap p l = logarithmicMap p l /\
  dbg_boxMinus p l r = boxMinus p l r /\
  dbg_boxPlus p l v = boxPlus p l v /\
  dbg_interpolate p l r t = interpolate p l r t.
Proof.
  intros p l r k v t Vl Vr. pose proof (tame_valid p l Vl) as T. pose proof (valid_tame_aa l Vl) as A.
  split; [apply dbg_ctor_valid, Vl|]. split; [apply tame_convert, T|]. split; [apply dbg_mult_valid; assumption|].
  split; [apply tame_inverted; assumption|]. split; [apply tame_unique; assumption|]. split; [apply (tame_fix p); assumption|].
  split; [apply tame_rotate, T|]. split.
  { unfold dbg_inverseRotate, inverseRotate. rewrite dbg_inverted_valid by exact Vl. destruct (inverted_valid l Vl) as (i & -> & Vi).
    cbn [obind]. apply tame_rotate, tame_valid, Vi. }
  split. { unfold dbg_isNear, isNear. rewrite dbg_disparity_valid by assumption. reflexivity. }
  split; [apply dbg_disparity_valid; assumption|]. split; [apply dbg_is_equal_valid; assumption|].
  split; [apply tame_convert, tame_vec|]. split; [apply tame_log, T|]. split; [apply dbg_boxMinus_valid; assumption|].
  split; [apply dbg_boxPlus_valid, Vl|apply dbg_interpolate_valid; assumption].
Qed.
Lemma C64_legal_operations_ex : valid (RotAA (mkAA 7 (mkV3 0 (3/5) (-4/5)))) /\ valid (RotMat (Rot_x 2)) /\ valid (RotVec (mkV3 1 2 3)).
Proof. split; [cbn; lin_unfold; field|]. split; [apply Rot_x_SO3|exact I]. Qed.

(** C64: conversions to AngleAxis, and conversions of a quaternion to any
    class, never throw, not even on illegal objects. *)
Lemma C64_unchecked_conversions_lemma : forall (p : prim) (k : kind) (r : rotation),
  (k = KAA \/ kind_of r = KQuat \/ kind_of r = KVec \/ kind_of r = KZyx \/ kind_of r = KXyz) ->
  dbg_convert p k r = convert p k r.
Proof.
  intros p k r H. destruct H as [-> | H]; [cbn [dbg_convert convert]; rewrite dbg_to_aa_total; reflexivity|].
  destruct r as [q|a|v|m|e|e]; cbn [kind_of] in H; try (exfalso; intuition discriminate).
  - apply dbg_convert_quat.
  - apply tame_convert, tame_vec.
  - apply tame_convert, tame_valid; exact I.
  - apply tame_convert, tame_valid; exact I.
Qed.

Lemma C64_unchecked_conversions_ex : forall p, dbg_convert p KMat (RotQuat (mkQ 2 0 0 0)) = Val (RotMat mid) /\ ~ valid (RotQuat (mkQ 2 0 0 0)).
Proof.
  intros p. split; [cbn; unfold e_toRotationMatrix, mid; cbn; f_equal; f_equal; f_equal; ring|].
  cbn. unfold qnorm2; cbn. lra.
Qed.

(** C64: setFromVectors never trips an assertion (its own "zero length" check
    is active in both builds). [svd_null]: what is assumed of Eigen's SVD. *)
Lemma C64_set_from_vectors_lemma : forall (p : prim) (svd : V3 -> V3 -> V3) (k : kind) (a b : V3), svd_null svd ->
  dbg_setFromVectors p svd k a b = setFromVectors p svd k a b.
Proof. exact dbg_setFromVectors_ok. Qed.

(** C64: histories. An object built from legal coefficients and mutated by any
    number of calls with legal operands (100000 for a quaternion object) never
    trips an assertion: the debug build returns what the release build
    returns. *)
Lemma C64_legal_history_lemma : forall (p : prim) (s : rotation) (os : list rop), valid s -> kind_of s <> KMat ->
  Forall (op_total (kind_of s)) os -> (kind_of s = KQuat -> INR (length os) <= 10 ^ 5) ->
  exists t, dbg_run p s os = Val t /\ rrun p s os = Val t.
Proof.
  intros p s os V K F L. pose proof (eta_pos p) as EP. pose proof (epsilon_pos p) as EPS.
  pose proof (pos_INR (length os)) as L0. pose proof (meaning_SO3 s V) as S.
  assert (N0 : near 0 0 s (meaning s)) by (apply valid_near; [lra|exact V|apply close_refl; lra]).
  destruct (kind_of s) eqn:Ks.
  1: { specialize (L eq_refl). assert (X : 3 * eta p * INR (length os) <= epsilon p / 2) by (unfold eta; nra).
       assert (K' : kind_of s <> KMat) by congruence.
       destruct (rrun_near p os 0 0 s (meaning s)) as (t & E & _); [lra|lra|exact K'|exact S|exact N0|rewrite Ks; exact F|].
       exists t. split; [|exact E]. rewrite <- E. apply (dbg_run_near p os 0 0 s (meaning s)); try lra; try assumption. rewrite Ks; exact F. }
  3: congruence.
  all: assert (K' : kind_of s <> KMat) by congruence; assert (KQ : kind_of s <> KQuat) by congruence; rewrite <- Ks in F;
    destruct (rrun_near_nonquat p os 0 s (meaning s) K' KQ S N0 F) as (t & E & _);
    exists t; (split; [|exact E]); rewrite <- E; apply (dbg_run_near_nonquat p os 0 s (meaning s) K' KQ S N0 F).
Qed.
Lemma C64_legal_history_ex : forall p,
  let s := RotQuat (mkQ (3/5) 0 0 (4/5)) in
  let os := [OpMulRight (RotMat (Rot_x 2)); OpMulLeft (RotAA (mkAA 2 (mkV3 0 1 0))); OpInvert; OpSetUnique; OpMulLeft (RotZyx (mkZyx 1 2 3));
             OpAssign (RotVec (mkV3 0 (machine_eps p) 0)); OpFix] in
  valid s /\ kind_of s <> KMat /\ Forall (op_total (kind_of s)) os /\ (kind_of s = KQuat -> INR (length os) <= 10 ^ 5).
Proof.
  intros p s os. split; [cbn; unfold qnorm2; cbn; field|]. split; [discriminate|]. split.
  - repeat constructor; cbn; try discriminate; try apply Rot_x_SO3; unfold vnorm2, vdot; cbn; ring.
  - intros _. cbn. lra.
Qed.
(** C64: the same for every class, matrices included, on the histories of C52. *)
Lemma C64_exact_history_lemma : forall (p : prim) (os : list rop) (s : rotation),
  valid s -> exact_operand p s -> steps_ok p (kind_of s) (meaning s) os ->
  exists t, dbg_run p s os = Val t /\ rrun p s os = Val t.
Proof.
  intros p os s V X H. destruct (rrun_ok p os s V X H) as (t & E & _). exists t. split; [|exact E]. rewrite <- E. apply dbg_run_exact; assumption.
Qed.
Lemma C64_exact_history_ex : forall p,
  let s := RotMat (Rot_x 2) in
  let os := [OpMulRight (RotQuat (mkQ (3/5) 0 0 (4/5))); OpMulLeft (RotAA (mkAA 2 (mkV3 0 1 0))); OpInvert; OpMulLeft (RotMat (Rot_x 1)); OpSetUnique; OpFix] in
  valid s /\ exact_operand p s /\ steps_ok p (kind_of s) (meaning s) os.
Proof.
  intros p s os. split; [apply Rot_x_SO3|]. split; [exact I|].
  assert (U : qnorm2 (mkQ (3/5) 0 0 (4/5)) = 1) by (unfold qnorm2; cbn; field).
  assert (W : vnorm2 (mkV3 0 1 0) = 1) by (unfold vnorm2, vdot; cbn; ring).
  pose proof (Rot_x_SO3 1) as R1.
  cbn. unfold step_ok, operand_ok. cbn. repeat split; try discriminate; try exact U; try exact W; try apply R1; auto.
Qed.

(** C64: what the checks accept is not closed under the operations: the square
    of an accepted quaternion can be rejected. *)
Lemma C64_accepted_not_closed_lemma : forall p : prim,
  exists q, dbg_ctor (RotQuat q) = Val (RotQuat q) /\ dbg_mult p (RotQuat q) (RotQuat q) = Throws /\
            exists s, mult p (RotQuat q) (RotQuat q) = Val s.
Proof.
  intros p. set (a := 1 + 9 / 10 ^ 5). exists (mkQ a 0 0 0).
  assert (N : forall x, 0 <= x -> qnorm (mkQ x 0 0 0) = x).
  { intros x X. unfold qnorm. replace (qnorm2 (mkQ x 0 0 0)) with (x * x) by (unfold qnorm2; cbn; ring). apply sqrt_square, X. }
  assert (A : 1 < a) by (unfold a; lra).
  split; [|split; [|eexists; reflexivity]].
  - cbn [dbg_ctor]. unfold dbg_quat_ctor.
    rewrite (proj2 (proj1 (assert_near_iff (qnorm (mkQ a 0 0 0)) (/ 10 ^ 2) (mkQ a 0 0 0) ltac:(apply qnorm_nonneg) ltac:(lra)))); [reflexivity|].
    rewrite N by lra. rewrite Rabs_pos_eq, Rmax_left by lra. unfold a. lra.
  - cbn [dbg_mult dbg_to_quat obind].
    assert (M : e_mul (mkQ a 0 0 0) (mkQ a 0 0 0) = mkQ (a * a) 0 0 0) by (unfold e_mul; cbn; f_equal; ring). rewrite M.
    assert (AA : 1 + 18 / 10 ^ 5 < a * a) by (unfold a; lra). assert (AB : a * a < 1 + 19 / 10 ^ 5) by (unfold a; lra).
    unfold dbg_quat_ctor.
    rewrite (proj2 (proj2 (assert_near_iff (qnorm (mkQ (a * a) 0 0 0)) (/ 10 ^ 2) (mkQ (a * a) 0 0 0) ltac:(apply qnorm_nonneg) ltac:(lra)))); [reflexivity|].
    rewrite N by lra. rewrite Rabs_pos_eq, Rmax_left by lra. lra.
Qed.

Lemma curve_throws d q : 1/6 <= d <= 35/100 -> on_curve d q -> dbg_quat_ctor q = Throws.
Proof.
  intros D (W & X & Y & Z & B & P).
  assert (N : qnorm2 q <= 1 - 1/100).
  { unfold qnorm2. rewrite Y, Z. nra. }
  unfold dbg_quat_ctor. apply (proj2 (proj2 (assert_near_iff (qnorm q) (/ 10 ^ 2) q (qnorm_nonneg q) ltac:(lra)))).
  pose proof (qnorm_nonneg q) as Q0. pose proof (qnorm_sqr q) as Q. assert (L : qnorm q <= 1 - 1/1000) by nra.
  rewrite Rabs_left, Rmax_right by lra. lra.
Qed.
Lemma curve_run_throws p N : forall d q, 0 < d <= 28/100 -> 1/10 <= (7/4) ^ N * d -> on_curve d q ->
  exists n, dbg_run p (RotMat (e_toRotationMatrix q)) (repeat (OpMulRight (RotQuat qid)) n) = Throws.
Proof.
  induction N as [|N IH]; intros d q D H C.
  - cbn [pow] in H. destruct (curve_step d q ltac:(lra) C) as (q1 & E & C1). exists 1%nat.
    cbn [repeat dbg_run dbg_step dbg_mult]. cbn [dbg_to_quat to_quat]. rewrite E. cbn [obind].
    rewrite (curve_throws _ q1) with (2 := C1); [reflexivity|].
    assert (M : 7/10 * d / (3/10 + d) * (3/10 + d) = 7/10 * d) by (field; lra). set (d1 := 7/10 * d / (3/10 + d)) in *. split; nra.
  - destruct (Rle_or_lt (1/10) d) as [L|L].
    + apply (IH d q D); [|exact C]. assert (1 <= (7/4) ^ N) by (apply pow_R1_Rle; lra). nra.
    + destruct (curve_step d q ltac:(lra) C) as (q1 & E & C1).
      assert (M : 7/10 * d / (3/10 + d) * (3/10 + d) = 7/10 * d) by (field; lra). set (d1 := 7/10 * d / (3/10 + d)) in *.
      assert (D1 : 7/4 * d <= d1) by nra. assert (D2 : d1 <= 28/100) by nra.
      destruct (IH d1 q1) as (n & En); [lra| |exact C1|].
      { cbn [pow] in H. assert (0 <= (7/4) ^ N) by (apply pow_le; lra). nra. }
      assert (Q : e_mul q1 qid = q1) by (destruct q1; unfold e_mul, qid; cbn; f_equal; ring).
      destruct (dbg_step p (RotMat (e_toRotationMatrix q)) (OpMulRight (RotQuat qid))) as [t| |] eqn:St.
      * exists (S n). cbn [repeat dbg_run]. rewrite St. cbn [obind].
        destruct (ref_step p (RotMat (e_toRotationMatrix q)) (OpMulRight (RotQuat qid))) as [X|X]; rewrite St in X; [|discriminate].
        cbn [rstep mult to_quat] in X. rewrite E in X. cbn [obind convert kind_of to_mat omap] in X. rewrite Q in X. injection X as ->. exact En.
      * exfalso. destruct (ref_step p (RotMat (e_toRotationMatrix q)) (OpMulRight (RotQuat qid))) as [X|X]; rewrite St in X; [|discriminate].
        cbn [rstep mult to_quat] in X. rewrite E in X. cbn [obind convert kind_of to_mat omap] in X. discriminate.
      * exists 1%nat. cbn [repeat dbg_run]. rewrite St. reflexivity.
Qed.
(** C64: and closeness to a rotation is not enough for a matrix object: for
    every [eps] there are a rotation [R] and a matrix [eps]-close to it, accepted by
    the constructor, that makes the debug build throw after finitely many
    products with the identity quaternion (the release build goes on; C58). *)
Lemma C64_matrix_history_throws_lemma : forall (p : prim) (eps : R), 0 < eps ->
  exists (R m : M33) (n : nat), SO3 R /\ close eps m R /\ dbg_ctor (RotMat m) = Val (RotMat m) /\
    dbg_run p (RotMat m) (repeat (OpMulRight (RotQuat qid)) n) = Throws /\
    exists t, rrun p (RotMat m) (repeat (OpMulRight (RotQuat qid)) n) = Val t.
Proof.
  intros p eps He. set (d := Rmin (eps / 2) (1 / 10 ^ 7)).
  assert (D : 0 < d <= 1 / 10 ^ 7 /\ d <= eps / 2).
  { unfold d, Rmin. destruct (Rle_dec (eps/2) (1 / 10 ^ 7)); lra. }
  destruct (curve_exists 0) as (q0 & C0); [lra|]. destruct (curve_exists d) as (q & C); [lra|].
  destruct (Pow_x_infinity (7/4) ltac:(rewrite Rabs_pos_eq; lra) (1/10 / d)) as (N & HN). specialize (HN N (le_n N)).
  rewrite Rabs_pos_eq in HN by (apply pow_le; lra).
  assert (HN' : 1/10 <= (7/4) ^ N * d).
  { apply Rmult_le_reg_r with (/ d); [apply Rinv_0_lt_compat; lra|]. rewrite Rmult_assoc, Rinv_r, Rmult_1_r by lra. lra. }
  destruct (curve_run_throws p N d q ltac:(lra) HN' C) as (n & En).
  exists (e_toRotationMatrix q0), (e_toRotationMatrix q), n.
  assert (U0 : qnorm2 q0 = 1).
  { destruct C0 as (W & X & Y & Z & B & P). unfold qnorm2. rewrite Y, Z. nra. }
  split; [rewrite e_toRotationMatrix_unit by exact U0; apply (meaning_SO3 (RotQuat q0) U0)|].
  split.
  { intros v. assert (DM : vsub (mvmul (e_toRotationMatrix q) v) (mvmul (e_toRotationMatrix q0) v) = mkV3 0 (2 * d * vy v) (2 * d * vz v)).
    { rewrite (curve_matrix _ _ C), (curve_matrix _ _ C0). set (c := sqrt (21/100)). destruct v; lin_unfold. f_equal; field. }
    rewrite DM. apply vnorm_le_sq; [pose proof (vnorm_nonneg v); nra|].
    replace (eps * vnorm v * (eps * vnorm v)) with (eps * eps * (vnorm v * vnorm v)) by ring. rewrite vnorm_sqr.
    destruct v as [a b c]; unfold vnorm2, vdot; cbn [vx vy vz].
    assert (4 * (d * d) <= eps * eps) by nra. pose proof (Rle_0_sqr a). pose proof (Rle_0_sqr b). pose proof (Rle_0_sqr c). unfold Rsqr in *.
    assert (0 <= eps * eps) by nra. nra. }
  split.
  { cbn [dbg_ctor]. rewrite (proj2 (proj1 (dbg_mat_iff (e_toRotationMatrix q)))); [reflexivity|].
    rewrite (curve_matrix _ _ C). assert (SS : sqrt (21/100) * sqrt (21/100) = 21/100) by (apply sqrt_sqrt; lra). set (c := sqrt (21/100)) in *.
    assert (NR : forall x, x = 1 - 16/10 * d + 4 * d * d -> near1 x).
    { intros x ->. unfold near1. pose proof (Rmax_r (Rabs (1 - 16/10 * d + 4 * d * d)) 1). rewrite (Rabs_left1 (1 - 16/10 * d + 4 * d * d - 1)) by nra. nra. }
    unfold nearly_orthogonal. cbv zeta.
    assert (G : mmul (mkM33 1 0 0 0 (-2/5 + 2 * d) (-2 * c) 0 (2 * c) (-2/5 + 2 * d)) (mtrans (mkM33 1 0 0 0 (-2/5 + 2 * d) (-2 * c) 0 (2 * c) (-2/5 + 2 * d))) =
                mkM33 1 0 0 0 (1 - 16/10 * d + 4 * d * d) 0 0 0 (1 - 16/10 * d + 4 * d * d)).
    { lin_unfold. f_equal; try ring; nra. }
    rewrite G. cbn [m00 m01 m02 m10 m11 m12 m20 m21 m22]. rewrite Rabs_R0. pose proof near1_1.
    split; [|apply NR; lin_unfold; nra]. repeat split; try assumption; try (apply NR; ring); lra. }
  split; [exact En|].
  destruct (curve_run p n d q ltac:(lra) C) as (q' & d' & _ & E2 & _). eauto.
Qed.

(** C64: what the assertions do detect.  A quaternion off unit length by more
    than 1e-2 percent makes inversion, every product with an (exactly
    representable) legal rotation, the disparity angle, boxMinus and isNear
    throw; getUnique throws only if it negates.  An axis off unit length by
    more than 1e-4 percent makes AngleAxis inversion, getUnique and == throw;
    fix() repairs it, unless the axis is zero, where it throws. *)
Lemma C64_illegal_detected_lemma : forall (p : prim) (q : Quat) (a : AA) (r : rotation) (t : R),
  valid r -> exact_operand p r ->
  (~ Rabs (qnorm q - 1) <= / 10 ^ 4 * Rmax (qnorm q) 1 ->
     dbg_ctor (RotQuat q) = Throws /\
     dbg_inverted p (RotQuat q) = Throws /\
     dbg_mult p (RotQuat q) r = Throws /\
     dbg_mult p r (RotQuat q) = Throws /\
     dbg_disparity p r (RotQuat q) = Throws /\
     dbg_isNear p r (RotQuat q) t = Throws /\
     dbg_boxMinus p r (RotQuat q) = Throws /\
     dbg_boxMinus p (RotQuat q) (RotQuat q) = Throws /\
     dbg_interpolate p (RotQuat q) r t = Throws /\
     (qw q < 0 -> dbg_get_unique p (RotQuat q) = Throws) /\
     (0 < qw q -> dbg_get_unique p (RotQuat q) = Val (RotQuat q))) /\
  (~ Rabs (vnorm (aaxis a) - 1) <= / 10 ^ 6 * Rmax (vnorm (aaxis a)) 1 ->
     dbg_ctor (RotAA a) = Throws /\
     dbg_inverted p (RotAA a) = Throws /\
     dbg_get_unique p (RotAA a) = Throws /\
     dbg_is_equal p (RotAA a) (RotAA a) = Some Throws /\
     dbg_disparity p r (RotAA a) = Throws /\
     dbg_boxMinus p r (RotAA a) = Throws /\
     (aaxis a <> vzero -> exists n, vnorm n = 1 /\ dbg_fix (RotAA a) = Val (RotAA (mkAA (aangle a) n))) /\
     (aaxis a = vzero -> dbg_fix (RotAA a) = Throws)).
Proof.
  intros p q a r t V X.
  assert (CT : forall u, ~ Rabs (qnorm u - 1) <= / 10 ^ 4 * Rmax (qnorm u) 1 -> dbg_quat_ctor u = Throws).
  { intros u H. unfold dbg_quat_ctor. apply (proj2 (assert_near_iff (qnorm u) (/ 10 ^ 2) u (qnorm_nonneg _) ltac:(lra))).
    replace (/ 10 ^ 2 / 10 ^ 2) with (/ 10 ^ 4) by lra. exact H. }
  assert (AT : forall b, ~ Rabs (vnorm (aaxis b) - 1) <= / 10 ^ 6 * Rmax (vnorm (aaxis b)) 1 -> dbg_aa_ctor b = Throws).
  { intros b H. unfold dbg_aa_ctor. apply (proj2 (assert_near_iff (vnorm (aaxis b)) (/ 10 ^ 4) b (sqrt_pos _) ltac:(lra))).
    replace (/ 10 ^ 4 / 10 ^ 2) with (/ 10 ^ 6) by lra. exact H. }
  destruct (to_quat_exact p r V X) as (u & E & U & _).
  assert (DE : dbg_to_quat p r = Val u) by (rewrite (tame_quat p r (tame_valid p r V)); exact E).
  split; intros H.
  - assert (NC : qnorm (e_conjugate q) = qnorm q).
    { unfold qnorm; f_equal; destruct q; unfold e_conjugate, qnorm2; cbn; ring. }
    assert (NN : qnorm (qneg q) = qnorm q).
    { unfold qnorm; f_equal; destruct q; unfold qneg, qnorm2; cbn; ring. }
    assert (UN : qnorm u = 1) by (unfold qnorm; rewrite U; apply sqrt_1).
    assert (I : dbg_inverted p (RotQuat q) = Throws).
    { cbn [dbg_inverted]. rewrite CT; [reflexivity|rewrite NC; exact H]. }
    assert (L : dbg_mult p (RotQuat q) r = Throws).
    { transitivity (ql <- dbg_to_quat p (RotQuat q) ;; qr <- dbg_to_quat p r ;; q0 <- dbg_quat_ctor (e_mul ql qr) ;;
                    dbg_convert p (kind_of (RotQuat q)) (RotQuat q0)); [destruct r; reflexivity|].
      rewrite DE. cbn [dbg_to_quat obind]. rewrite CT; [reflexivity|].
      rewrite e_mul_hamilton, qnorm_mult, UN, Rmult_1_r. exact H. }
    assert (Rr : dbg_mult p r (RotQuat q) = Throws).
    { transitivity (ql <- dbg_to_quat p r ;; qr <- dbg_to_quat p (RotQuat q) ;; q0 <- dbg_quat_ctor (e_mul ql qr) ;;
                    dbg_convert p (kind_of r) (RotQuat q0)); [destruct r; reflexivity|].
      rewrite DE. cbn [dbg_to_quat obind]. rewrite CT; [reflexivity|].
      rewrite e_mul_hamilton, qnorm_mult, UN, Rmult_1_l. exact H. }
    repeat match goal with |- _ /\ _ => split end.
    + cbn [dbg_ctor]. rewrite CT by exact H. reflexivity.
    + exact I.
    + exact L.
    + exact Rr.
    + unfold dbg_disparity. rewrite I. reflexivity.
    + unfold dbg_isNear, dbg_disparity. rewrite I. reflexivity.
    + unfold dbg_boxMinus. rewrite I. reflexivity.
    + unfold dbg_boxMinus. rewrite I. reflexivity.
    + unfold dbg_interpolate, dbg_boxMinus. rewrite I. reflexivity.
    + intros W. cbn [dbg_get_unique]. unfold dbg_quat_unique.
      destruct (Rlt_dec 0 (qw q)); [lra|]. destruct (Rlt_dec (qw q) 0); [|lra].
      rewrite CT; [reflexivity|rewrite NN; exact H].
    + intros W. cbn [dbg_get_unique]. unfold dbg_quat_unique. destruct (Rlt_dec 0 (qw q)); [reflexivity|lra].
  - assert (I : dbg_inverted p (RotAA a) = Throws).
    { cbn [dbg_inverted]. rewrite AT; [reflexivity|]. replace (vnorm (aaxis (aa_inverted a))) with (vnorm (aaxis a)); [exact H|].
      unfold vnorm; f_equal. destruct a as [w [x y z]]; unfold aa_inverted; cbn; lin. }
    assert (G : dbg_get_unique p (RotAA a) = Throws).
    { cbn [dbg_get_unique]. unfold dbg_aa_unique. rewrite AT; [reflexivity|exact H]. }
    repeat match goal with |- _ /\ _ => split end.
    + cbn [dbg_ctor]. rewrite AT by exact H. reflexivity.
    + exact I.
    + exact G.
    + unfold dbg_is_equal. rewrite G. reflexivity.
    + unfold dbg_disparity. rewrite I. reflexivity.
    + unfold dbg_boxMinus. rewrite I. reflexivity.
    + intros Z. exists (e_normalized (aaxis a)).
      assert (N1 : vnorm (e_normalized (aaxis a)) = 1).
      { destruct (fix_aa a Z) as (a' & E' & U' & _). cbn in E'. injection E' as <-. cbn in U'. apply vnorm_unit, U'. }
      split; [exact N1|]. cbn [dbg_fix]. rewrite aactor_unit; [reflexivity|]. cbn [aaxis].
      apply vnorm_unit, N1.
    + intros Z. cbn [dbg_fix]. rewrite AT; [reflexivity|]. cbn [aaxis].
      replace (e_normalized (aaxis a)) with (aaxis a); [exact H|].
      rewrite Z. unfold e_normalized. destruct (Rlt_dec 0 (vnorm2 vzero)) as [K|K]; [|reflexivity].
      exfalso; unfold vzero, vnorm2, vdot in K; cbn in K; lra.
Qed.
Lemma C64_illegal_detected_ex :
  ~ Rabs (qnorm (mkQ 2 0 0 0) - 1) <= / 10 ^ 4 * Rmax (qnorm (mkQ 2 0 0 0)) 1 /\
  valid (RotMat mid) /\ (forall p, exact_operand p (RotMat mid)).
Proof.
  split; [|split; [split; lin|intros; exact I]].
  assert (N : qnorm (mkQ 2 0 0 0) = 2).
  { unfold qnorm. replace (qnorm2 (mkQ 2 0 0 0)) with (2 * 2) by (unfold qnorm2; cbn; ring). apply sqrt_square; lra. }
  rewrite N, Rabs_right, Rmax_left by lra. lra.
Qed.
