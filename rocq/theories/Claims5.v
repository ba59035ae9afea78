(** * Claims5: poses, twists, wrenches (C39-C42, C54, C55). *)
From Coq Require Import Reals Lra Psatz Bool List.
From Verif Require Import Linalg Spec SpecFacts SpecDiff ModelCommon ModelEigen ModelRotation ModelQuaternion ModelDiff ModelPose SpecPose CommonFacts ConvFacts RVFacts Windows RotFacts UniqueFacts MetricFacts EqFacts HistoryFacts DerivFacts DiffFacts DiffFacts2 Claims1.
Import ListNotations.
Local Open Scope R_scope.

Lemma transform_exact p T x : pose_ok p T -> transform p T x = Val (pose_motion T x).
Proof. intros [V X]. unfold transform. rewrite rotate_exact by assumption. reflexivity. Qed.
Lemma inverseTransform_exact p T x : pose_ok p T ->
  inverseTransform p T x = Val (mvmul (mtrans (meaning (prot T))) (vsub x (ppos T))).
Proof. intros [V X]. unfold inverseTransform. apply inverseRotate_exact; assumption. Qed.
Lemma motion_comp A s B t x : motion A s (motion B t x) = motion (mmul A B) (vadd s (mvmul A t)) x.
Proof. unfold motion. lin. Qed.
Lemma motion_sub A t x y : vsub (motion A t x) (motion A t y) = mvmul A (vsub x y).
Proof. unfold motion. lin. Qed.
Lemma pose_mult_exact p A B : pose_ok p A -> pose_ok p B ->
  exact_result p (kind_of (prot A)) (mmul (meaning (prot A)) (meaning (prot B))) ->
  exists AB, pose_mult p A B = Val AB /\ kind_of (prot AB) = kind_of (prot A) /\ valid (prot AB) /\
    meaning (prot AB) = mmul (meaning (prot A)) (meaning (prot B)) /\
    ppos AB = vadd (ppos A) (mvmul (meaning (prot A)) (ppos B)).
Proof.
  intros [Va Xa] [Vb Xb] Y. unfold pose_mult. rewrite rotate_exact by assumption. cbn [obind].
  destruct (mult_exact p (prot A) (prot B) Va Vb Xa Xb Y) as (s & E & K & Vs & M).
  rewrite E. cbn [obind]. exists (mkPose (vadd (ppos A) (mvmul (meaning (prot A)) (ppos B))) s).
  cbn [ppos prot]. auto 8.
Qed.
Lemma non_vec_result p r m : kind_of r <> KVec -> exact_result p (kind_of r) m.
Proof. intros N E. contradiction. Qed.
Lemma pose_mult_motion p A B AB : pose_mult p A B = Val AB -> pose_ok p A -> pose_ok p B ->
  exact_result p (kind_of (prot A)) (mmul (meaning (prot A)) (meaning (prot B))) ->
  forall x, pose_motion AB x = pose_motion A (pose_motion B x).
Proof.
  intros E OA OB Y x. destruct (pose_mult_exact p A B OA OB Y) as (AB' & E' & K & V & M & P).
  assert (AB' = AB) by congruence. subst AB'. unfold pose_motion at 1. rewrite M, P.
  unfold pose_motion. rewrite motion_comp. reflexivity.
Qed.
Lemma pose_identity_ok p k : pose_ok p (pose_identity k) /\ kind_of (prot (pose_identity k)) = k /\
  forall x, pose_motion (pose_identity k) x = x.
Proof.
  destruct (identity_ok p k) as (K & V & M & X). repeat split; try assumption.
  intros x. unfold pose_motion, pose_identity; cbn [ppos prot]. rewrite M. unfold motion. lin.
Qed.

(** C39: transform(x) = R x + t, and it is a rigid motion: it preserves
    distances and orientation (cross products of differences). *)
Lemma C39_rigid_motion_lemma : forall (p : prim) (T : pose), pose_ok p T ->
  SO3 (meaning (prot T)) /\
  forall x y z, exists x' y' z',
    transform p T x = Val x' /\ transform p T y = Val y' /\ transform p T z = Val z' /\
    x' = vadd (mvmul (meaning (prot T)) x) (ppos T) /\
    dist x' y' = dist x y /\
    vcross (vsub x' z') (vsub y' z') = mvmul (meaning (prot T)) (vcross (vsub x z) (vsub y z)).
Proof.
  intros p T O. destruct O as [V X] eqn:EO. pose proof (meaning_SO3 _ V) as S. split; [exact S|].
  intros x y z. do 3 eexists. rewrite !transform_exact by assumption. repeat split.
  - unfold dist, pose_motion. rewrite motion_sub. apply (rigid_SO3 _ S (vsub x y) (vsub x y)).
  - unfold pose_motion. rewrite !motion_sub. apply (rigid_SO3 _ S).
Qed.
Lemma C39_rigid_motion_ex : forall p,
  pose_ok p (mkPose (mkV3 1 2 3) (RotAA (mkAA 7 (mkV3 0 (3/5) (4/5))))).
Proof. intros p. split; cbn; [|exact I]. unfold vnorm2, vdot; cbn; field. Qed.

(** C39: concatenation of poses (any mix of rotation classes) is composition
    of the motions; the result has the left class. *)
Lemma C39_composition_lemma : forall (p : prim) (A B : pose), pose_ok p A -> pose_ok p B ->
  exact_result p (kind_of (prot A)) (mmul (meaning (prot A)) (meaning (prot B))) ->
  exists AB, pose_mult p A B = Val AB /\ kind_of (prot AB) = kind_of (prot A) /\ valid (prot AB) /\
    forall x, exists bx, transform p B x = Val bx /\
      transform p A bx = Val (vadd (mvmul (meaning (prot AB)) x) (ppos AB)) /\
      (pose_ok p AB -> transform p AB x = transform p A bx).
Proof.
  intros p A B OA OB Y. destruct (pose_mult_exact p A B OA OB Y) as (AB & E & K & V & M & P).
  exists AB. repeat split; try assumption. intros x. exists (pose_motion B x).
  pose proof (pose_mult_motion p A B AB E OA OB Y x) as H.
  rewrite !transform_exact by assumption. rewrite <- H. split; [reflexivity|]. split; [reflexivity|].
  intros O. apply transform_exact; exact O.
Qed.
Lemma C39_composition_ex : forall p,
  let A := mkPose (mkV3 1 2 3) (RotQuat (mkQ (3/5) (4/5) 0 0)) in
  let B := mkPose (mkV3 0 0 1) (RotVec (mkV3 0 0 5)) in
  pose_ok p A /\ pose_ok p B /\ exact_result p (kind_of (prot A)) (mmul (meaning (prot A)) (meaning (prot B))).
Proof.
  intros p A B. destruct (C11_assoc_identity_ex p) as (Va & _ & Vc & Xa & _ & Xc & N & _).
  repeat split; try assumption. apply non_vec_result, N.
Qed.

(** C39: associativity and neutrality of Identity(); no window exists when the
    left rotation classes are not RotationVector. *)
Lemma C39_group_lemma : forall (p : prim) (A B C : pose),
  pose_ok p A -> pose_ok p B -> pose_ok p C -> kind_of (prot A) <> KVec -> kind_of (prot B) <> KVec ->
  (exists AB BC L R, pose_mult p A B = Val AB /\ pose_mult p AB C = Val L /\
     pose_mult p B C = Val BC /\ pose_mult p A BC = Val R /\
     valid (prot L) /\ valid (prot R) /\ ppos L = ppos R /\ meaning (prot L) = meaning (prot R)) /\
  (forall k, exists AI IA, pose_mult p A (pose_identity k) = Val AI /\ ppos AI = ppos A /\
     meaning (prot AI) = meaning (prot A) /\
     (k <> KVec -> pose_mult p (pose_identity k) A = Val IA /\ ppos IA = ppos A /\
        meaning (prot IA) = meaning (prot A) /\ kind_of (prot IA) = k)).
Proof.
  intros p A B C OA OB OC NA NB. split.
  - destruct (pose_mult_exact p A B OA OB (non_vec_result _ _ _ NA)) as (AB & E1 & K1 & V1 & M1 & P1).
    destruct (pose_mult_exact p B C OB OC (non_vec_result _ _ _ NB)) as (BC & E2 & K2 & V2 & M2 & P2).
    assert (O1 : pose_ok p AB). { split; [exact V1|]. apply non_vec_operand. congruence. }
    assert (O2 : pose_ok p BC). { split; [exact V2|]. apply non_vec_operand. congruence. }
    destruct (pose_mult_exact p AB C O1 OC) as (L & E3 & K3 & V3' & M3 & P3).
    { apply non_vec_result. congruence. }
    destruct (pose_mult_exact p A BC OA O2 (non_vec_result _ _ _ NA)) as (Rr & E4 & K4 & V4 & M4 & P4).
    exists AB, BC, L, Rr. repeat split; try assumption.
    + rewrite P3, P4, M1, P1, P2. clear. generalize (meaning (prot A)), (meaning (prot B)), (ppos A), (ppos B), (ppos C). lin.
    + rewrite M3, M4, M1, M2. symmetry. apply mmul_assoc.
  - intros k. destruct (pose_identity_ok p k) as (Oi & Ki & _).
    destruct (identity_ok p k) as (_ & _ & Mi & _).
    destruct (pose_mult_exact p A (pose_identity k) OA Oi (non_vec_result _ _ _ NA)) as (AI & E1 & K1 & V1 & M1 & P1).
    cbn [pose_identity prot ppos] in M1, P1. rewrite Mi, mmul_id_r in M1.
    assert (H : k = KVec \/ k <> KVec) by (destruct (kind_eq_dec k KVec); auto).
    destruct H as [H|H].
    + exists AI, A. repeat split; try assumption; try contradiction.
      rewrite P1. clear. generalize (meaning (prot A)), (ppos A). lin.
    + destruct (pose_mult_exact p (pose_identity k) A Oi OA) as (IA & E2 & K2 & V2 & M2 & P2).
      { apply non_vec_result. congruence. }
      cbn [pose_identity prot ppos] in M2, P2. rewrite Mi in P2. rewrite Mi, mmul_id_l in M2.
      exists AI, IA. repeat split; try assumption.
      * rewrite P1. clear. generalize (meaning (prot A)), (ppos A). lin.
      * rewrite P2. clear. generalize (ppos A). lin.
      * congruence.
Qed.

(** C39: a chain T * T1 * ... * Tn of any length acts as the composition of the
    motions, outermost first. *)
Lemma C39_chain_lemma : forall (p : prim) (ts : list pose) (T : pose),
  pose_ok p T -> kind_of (prot T) <> KVec -> (forall U, In U ts -> pose_ok p U) ->
  exists C, pose_chain p T ts = Val C /\ pose_ok p C /\ kind_of (prot C) = kind_of (prot T) /\
    forall x, transform p C x = Val (fold_right pose_motion x (T :: ts)).
Proof.
  intros p ts. induction ts as [|U ts IH]; intros T O N H.
  - exists T. repeat split; try apply O. intros x. cbn [fold_right]. apply transform_exact, O.
  - destruct (pose_mult_exact p T U O (H U (or_introl eq_refl)) (non_vec_result _ _ _ N)) as (TU & E & K & V & M & P).
    assert (O' : pose_ok p TU). { split; [exact V|]. apply non_vec_operand. congruence. }
    destruct (IH TU O') as (C & E' & OC & KC & T').
    { congruence. } { intros W HW. apply H. right. exact HW. }
    exists C. unfold pose_chain in *. cbn [fold_left obind]. rewrite E. repeat split; try apply OC; try exact E'.
    { congruence. }
    intros x. rewrite T'. cbn [fold_right]. f_equal.
    apply (pose_mult_motion p T U TU E O (H U (or_introl eq_refl)) (non_vec_result _ _ _ N)).
Qed.
Lemma C39_chain_ex : forall p,
  let T := mkPose (mkV3 1 2 3) (RotMat (Rot_z 1)) in
  let U := mkPose (mkV3 0 0 1) (RotXyz (mkXyz 1 2 3)) in
  pose_ok p T /\ kind_of (prot T) <> KVec /\ (forall W, In W [U; T; U] -> pose_ok p W).
Proof.
  intros p T U.
  assert (HT : pose_ok p T). { split; [apply Rot_z_SO3|exact I]. }
  assert (HU : pose_ok p U). { split; exact I. }
  repeat split; try apply HT; try discriminate; match goal with H : In _ _ |- _ => rename H into HW end; destruct HW as [<-|[<-|[<-|[]]]];
    first [apply HT|apply HU].
Qed.

(** C39: the 4x4 matrix acts on homogeneous coordinates as transform, and the
    matrix of a product is the product of the matrices. *)
Lemma C39_matrix_lemma : forall (p : prim) (A : pose), pose_ok p A ->
  exists MA, getTransformationMatrix p A = Val MA /\
    (forall x, exists y, transform p A x = Val y /\ m44_act MA x = mkQ (vx y) (vy y) (vz y) 1) /\
    (meaning (prot A) = mid -> ppos A = vzero -> MA = m44_id) /\
    (forall B AB MB MAB, pose_ok p B -> pose_mult p A B = Val AB -> pose_ok p AB ->
       exact_result p (kind_of (prot A)) (mmul (meaning (prot A)) (meaning (prot B))) ->
       getTransformationMatrix p B = Val MB -> getTransformationMatrix p AB = Val MAB ->
       MAB = m44_mul MA MB).
Proof.
  intros p A OA.
  assert (T : forall X, pose_ok p X -> getTransformationMatrix p X =
     Val (mkM44 (mkQ (m00 (meaning (prot X))) (m01 (meaning (prot X))) (m02 (meaning (prot X))) (vx (ppos X)))
                (mkQ (m10 (meaning (prot X))) (m11 (meaning (prot X))) (m12 (meaning (prot X))) (vy (ppos X)))
                (mkQ (m20 (meaning (prot X))) (m21 (meaning (prot X))) (m22 (meaning (prot X))) (vz (ppos X)))
                (mkQ 0 0 0 1))).
  { intros X [V E]. unfold getTransformationMatrix. rewrite to_mat_exact by assumption. reflexivity. }
  eexists. split; [apply T, OA|]. repeat split.
  - intros x. exists (pose_motion A x). split; [apply transform_exact, OA|].
    unfold pose_motion, motion. generalize (meaning (prot A)), (ppos A). clear.
    intros m t. destruct m, t, x. unfold m44_act, row_dot; cbn. f_equal; ring.
  - intros M P. rewrite M, P. reflexivity.
  - intros B AB MB MAB OB E OAB Y EB EAB. rewrite T in EB by exact OB. rewrite T in EAB by exact OAB.
    assert (MB = _) by (symmetry; apply Val_inj, EB). subst MB.
    assert (MAB = _) by (symmetry; apply Val_inj, EAB). subst MAB.
    destruct (pose_mult_exact p A B OA OB Y) as (AB' & E' & K & V & M & P).
    assert (AB' = AB) by congruence. subst AB'. rewrite M, P. clear.
    generalize (meaning (prot A)), (ppos A), (meaning (prot B)), (ppos B). intros a s b t.
    destruct a, s, b, t. unfold m44_mul, row_mul, row_dot, col44; cbn. f_equal; f_equal; ring.
Qed.

(** C40 *)
Lemma C40_inverse_transform_lemma : forall (p : prim) (T : pose), pose_ok p T -> forall x,
  (exists y, transform p T x = Val y /\ inverseTransform p T y = Val x) /\
  (exists y, inverseTransform p T x = Val y /\ transform p T y = Val x) /\
  (forall y, inverseTransform p T x = Val y -> y = mvmul (mtrans (meaning (prot T))) (vsub x (ppos T))).
Proof.
  intros p T O x. pose proof (meaning_SO3 _ (proj1 O)) as S. split; [|split].
  - exists (pose_motion T x). split; [apply transform_exact, O|].
    rewrite inverseTransform_exact by exact O. f_equal. unfold pose_motion, motion.
    replace (vsub (vadd (mvmul (meaning (prot T)) x) (ppos T)) (ppos T)) with (mvmul (meaning (prot T)) x)
      by (clear; generalize (meaning (prot T)), (ppos T); lin).
    rewrite <- mvmul_mmul, SO3_inv_l, mvmul_id by exact S. reflexivity.
  - eexists. split; [apply inverseTransform_exact, O|].
    rewrite transform_exact by exact O. f_equal. unfold pose_motion, motion.
    rewrite <- mvmul_mmul, SO3_inv_r, mvmul_id by exact S. clear. generalize (ppos T). lin.
  - intros y E. rewrite inverseTransform_exact in E by exact O. symmetry. apply Val_inj, E.
Qed.
Lemma C40_inverse_transform_ex : forall p, pose_ok p (mkPose (mkV3 1 2 3) (RotVec (mkV3 1 2 3))).
Proof. intros p. destruct (C05_rotate_is_meaning_ex p) as (V & X & _). split; assumption. Qed.

(** C54: comparing poses. [==] is true exactly when the positions are equal and
    the rotations compare equal; hence, for quaternion poses, exactly when the
    two poses are the same motion (q and -q identified). [!=] is the negation. *)
Lemma C54_pose_equality_lemma : forall (p : prim) (A B : pose),
  (forall c, pose_is_equal p A B = Some (Val c) ->
     pose_not_equal p A B = Some (Val (negb c)) /\
     (c = true <-> ppos A = ppos B /\ is_equal p (prot A) (prot B) = Some (Val true))) /\
  (forall a b, prot A = RotQuat a -> prot B = RotQuat b -> qnorm a = 1 -> qnorm b = 1 ->
     exists c, pose_is_equal p A B = Some (Val c) /\
       (c = true <-> forall x, transform p A x = transform p B x)).
Proof.
  assert (VE : forall a b, veqb a b = true <-> a = b).
  { intros a b. apply veqb_true. }
  intros p A B. split.
  - intros c E. unfold pose_not_equal. rewrite E. cbn [obind]. split; [reflexivity|].
    unfold pose_is_equal in E. destruct (is_equal p (prot A) (prot B)) as [o|] eqn:EI; [|discriminate].
    specialize (VE (ppos A) (ppos B)). destruct (veqb (ppos A) (ppos B)).
    + assert (o = Val c) by congruence. subst o. split.
      * intros ->. split; [apply VE; reflexivity|reflexivity].
      * intros [_ H]. congruence.
    + assert (c = false) by congruence. subst c. split; [discriminate|].
      intros [H _]. apply VE in H. discriminate.
  - intros a b EA EB Ha Hb. unfold pose_is_equal. rewrite EA, EB.
    apply qnorm_unit in Ha, Hb.
    destruct (quat_equal p a b Ha Hb) as (c & E & C). rewrite E.
    assert (T : forall x, transform p A x = Val (pose_motion A x) /\ transform p B x = Val (pose_motion B x)).
    { intros x. split; apply transform_exact; split; rewrite ?EA, ?EB; cbn; auto. }
    assert (Q : (quat_rot a = quat_rot b /\ ppos A = ppos B) <-> forall x, transform p A x = transform p B x).
    { split.
      - intros [H1 H2] x. destruct (T x) as [-> ->]. unfold pose_motion. rewrite EA, EB; cbn [meaning].
        rewrite H1, H2. reflexivity.
      - intros H. assert (G : forall x, pose_motion A x = pose_motion B x).
        { intros x. specialize (H x). destruct (T x) as [HA HB]. rewrite HA, HB in H. apply Val_inj, H. }
        assert (P : ppos A = ppos B).
        { specialize (G vzero). unfold pose_motion, motion in G.
          assert (Z : forall m t, vadd (mvmul m vzero) t = t) by lin. rewrite !Z in G. exact G. }
        split; [|exact P]. apply mvmul_ext. intros v. specialize (G v). unfold pose_motion, motion in G.
        rewrite EA, EB, P in G. cbn [meaning] in G.
        assert (Z : forall u t, vsub (vadd u t) t = u) by lin.
        rewrite <- (Z (mvmul (quat_rot a) v) (ppos B)), G. apply Z. }
    specialize (VE (ppos A) (ppos B)). destruct (veqb (ppos A) (ppos B)).
    + exists c. split; [reflexivity|]. rewrite <- Q, C. split; [|tauto]. intros H; split; [exact H|apply VE; reflexivity].
    + exists false. split; [reflexivity|]. rewrite <- Q. split; [discriminate|]. intros [_ H]. apply VE in H. discriminate.
Qed.

(** C55: constructing a pose of another rotation class keeps the motion. *)
Lemma C55_pose_conversion_lemma : forall (p : prim) (k : kind) (A : pose),
  valid (prot A) -> exact_conversion p k (prot A) ->
  exists B, pose_convert p k A = Val B /\ kind_of (prot B) = k /\ valid (prot B) /\ ppos B = ppos A /\
    meaning (prot B) = meaning (prot A) /\
    (pose_ok p A -> pose_ok p B -> forall x, transform p B x = transform p A x).
Proof.
  intros p k A V X. destruct (convert_exact p k (prot A) V X) as (r & E & K & Vr & M).
  unfold pose_convert. rewrite E. cbn [obind]. exists (mkPose (ppos A) r). cbn [ppos prot].
  repeat split; try assumption. intros OA OB x. rewrite !transform_exact by assumption.
  unfold pose_motion; cbn [ppos prot]. rewrite M. reflexivity.
Qed.

(** C41: twists and six-vectors: linear velocity first, angular velocity last;
    setVector and the constructor from a vector are inverse to getVector and
    forget the previous value; Zero() is the zero vector. *)
Lemma C41_twist_vector_lemma :
  (forall v t,
     local_twist_getVector (local_twist_of_vector v) = Some v /\
     local_twist_getVector (local_twist_setVector t v) = Some v /\
     global_twist_getVector (global_twist_of_vector v) = Some v /\
     global_twist_getVector (global_twist_setVector t v) = Some v) /\
  (forall lin ang t,
     (exists v, local_twist_getVector (mkTwist lin (DLocal ang)) = Some v /\
        coeffs v = coeffs3 lin ++ coeffs3 ang /\
        local_twist_of_vector v = mkTwist lin (DLocal ang) /\
        local_twist_setVector t v = mkTwist lin (DLocal ang)) /\
     (exists v, global_twist_getVector (mkTwist lin (DGlobal ang)) = Some v /\
        coeffs v = coeffs3 lin ++ coeffs3 ang /\
        global_twist_of_vector v = mkTwist lin (DGlobal ang) /\
        global_twist_setVector t v = mkTwist lin (DGlobal ang))) /\
  local_twist_getVector (twist_zero KDLocal) = Some (mkV6 0 0 0 0 0 0) /\
  global_twist_getVector (twist_zero KDGlobal) = Some (mkV6 0 0 0 0 0 0).
Proof.
  split; [|split].
  - intros v t. destruct v as [a b c d e f]. repeat split; reflexivity.
  - intros l a t. destruct l as [l0 l1 l2], a as [a0 a1 a2].
    split; eexists; repeat split; reflexivity.
  - split; reflexivity.
Qed.

(** C41: getVector(rotation) leaves the linear velocity as it is and expresses
    the angular velocity in the local frame of [rotation]; it exists for global
    angular velocities with every rotation class. *)
Lemma C41_twist_in_frame_lemma : forall (p : prim) (r : rotation) (lin w : V3),
  valid r -> exact_operand p r ->
  exists v, twist_getVector_rot p (mkTwist lin (DGlobal w)) r = Some (Val v) /\
    coeffs v = coeffs3 lin ++ coeffs3 (mvmul (mtrans (meaning r)) w) /\
    twist_getVector_rot p (mkTwist lin (DLocal w)) r = None.
Proof.
  intros p r l w V X. unfold twist_getVector_rot; cbn [trot tlin].
  assert (E : diff_convert p KDLocal r (DGlobal w) = Some (Val (DLocal (mvmul (mtrans (meaning r)) w)))).
  { cbn [diff_convert]. rewrite inverseRotate_exact by assumption. reflexivity. }
  rewrite E. cbn [obind]. eexists. split; [reflexivity|]. split; [reflexivity|].
  destruct r; reflexivity.
Qed.
Lemma C41_twist_in_frame_ex : forall p,
  valid (RotXyz (mkXyz 1 2 3)) /\ exact_operand p (RotXyz (mkXyz 1 2 3)).
Proof. intros p. split; exact I. Qed.

Lemma Vderiv_motion c pos t w v x : has_global_velocity c t w -> Vderiv pos t v ->
  Vderiv (fun s => motion (c s) (pos s) x) t (vadd v (vcross w (mvmul (c t) x))).
Proof.
  intros ((A1&A2&A3)&(A4&A5&A6)&(A7&A8&A9)) (B1&B2&B3).
  destruct x as [x0 x1 x2].
  unfold Vderiv, motion. cbn [vadd mvmul vx vy vz].
  repeat split; dl_solve; cbn; ring.
Qed.
(** C56: the twist of a moving pose gives the velocity of every body point. For
    every differentiable curve of quaternion poses with linear velocity [v] and
    quaternion derivative [d], the six-vector of the twist (v,d) is (v, wl)
    where [wl] is the angular velocity in body coordinates, and the body point
    [x] moves with velocity v + R (wl x x). *)
Lemma C56_twist_point_velocity_lemma : forall (p : prim) (pos : R -> V3) (c : R -> Quat) (t : R) (v : V3) (d : Quat),
  (forall s, qnorm (c s) = 1) -> Vderiv pos t v -> Qderiv c t d ->
  exists u wl, twist_getVector_rot p (mkTwist v (DQuat d)) (RotQuat (c t)) = Some (Val u) /\
    coeffs u = coeffs3 v ++ coeffs3 wl /\
    forall x y, (forall s, transform p (mkPose (pos s) (RotQuat (c s))) x = Val (y s)) ->
      Vderiv y t (vadd v (mvmul (quat_rot (c t)) (vcross wl x))).
Proof.
  intros p pos c t v d U HP HQ.
  assert (U' : forall s, qnorm2 (c s) = 1) by (intros s; apply qnorm_unit, U).
  exists (blocks6 v (local_of_quatdiff (c t) d)), (local_of_quatdiff (c t) d).
  split; [reflexivity|]. split; [reflexivity|]. intros x y Y.
  assert (E : forall s, y s = motion (quat_rot (c s)) (pos s) x).
  { intros s. specialize (Y s). rewrite transform_exact in Y; [symmetry; apply Val_inj, Y|].
    split; cbn; auto. }
  pose proof (quat_curve_local c t d U' HQ) as L.
  assert (S : SO3 (quat_rot (c t))) by (apply quat_rot_SO3, U').
  apply (local_global_velocity (fun s => quat_rot (c s)) t) in L; [|exact S]. cbn beta in L.
  pose proof (Vderiv_motion (fun s => quat_rot (c s)) pos t _ v x L HP) as D. cbv beta in D.
  destruct (rigid_SO3 _ S (local_of_quatdiff (c t) d) x) as (_ & _ & C).
  rewrite C in D. destruct D as (D1 & D2 & D3).
  split; [|split]; (eapply dl_ext; [|eassumption]; intros s; cbv beta; rewrite E; reflexivity).
Qed.
Lemma C56_twist_point_velocity_ex :
  (forall s, qnorm (mkQ (cos s) (sin s) 0 0) = 1) /\
  Vderiv (fun s => mkV3 s (s * s) 0) 1 (mkV3 1 2 0) /\
  Qderiv (fun s => mkQ (cos s) (sin s) 0 0) 1 (mkQ (- sin 1) (cos 1) 0 0).
Proof.
  split; [|split].
  - intros s. apply qnorm_unit. unfold qnorm2; cbn. pose proof (sin2_cos2' s). lra.
  - repeat split; cbn; dl_solve; cbn; ring.
  - repeat split; cbn; dl_solve; cbn; ring.
Qed.

(** C42: wrenches: force first, round trips. *)
Lemma C42_wrench_vector_lemma :
  (forall f t, coeffs (wrench_getVector (mkWrench f t)) = coeffs3 f ++ coeffs3 t) /\
  (forall v w, wrench_getVector (wrench_of_vector v) = v /\ wrench_getVector (wrench_setVector w v) = v) /\
  (forall w w', wrench_of_vector (wrench_getVector w) = w /\ wrench_setVector w' (wrench_getVector w) = w) /\
  (forall w f, wforce (wrench_setForce w f) = f /\ wtorque (wrench_setForce w f) = wtorque w /\
               wtorque (wrench_setTorque w f) = f /\ wforce (wrench_setTorque w f) = wforce w) /\
  coeffs (wrench_getVector wrench_zero) = repeat 0 6.
Proof.
  repeat split.
  - destruct v as [a b c d e f]; reflexivity.
  - destruct v as [a b c d e f]; reflexivity.
  - destruct w as [[a b c] [d e f]]; reflexivity.
  - destruct w as [[a b c] [d e f]]; reflexivity.
Qed.

(** C42: the vector space laws, the compound assignments, exact equality;
    every coefficient is the coefficientwise operation. *)
Lemma C42_wrench_space_lemma : forall (a b c : wrench) (f g : R),
  coeffs (wrench_getVector (wrench_add a b)) =
    map (fun xy => fst xy + snd xy) (combine (coeffs (wrench_getVector a)) (coeffs (wrench_getVector b))) /\
  coeffs (wrench_getVector (wrench_sub a b)) =
    map (fun xy => fst xy - snd xy) (combine (coeffs (wrench_getVector a)) (coeffs (wrench_getVector b))) /\
  coeffs (wrench_getVector (wrench_mul a f)) = map (fun x => x * f) (coeffs (wrench_getVector a)) /\
  coeffs (wrench_getVector (wrench_neg a)) = map Ropp (coeffs (wrench_getVector a)) /\
  (f <> 0 -> exists q, wrench_div a f = Val q /\
     coeffs (wrench_getVector q) = map (fun x => x / f) (coeffs (wrench_getVector a)) /\ wrench_mul q f = a /\
     wrench_div_assign a f = Val q) /\
  wrench_div a 0 = NaN /\ wrench_div_assign a 0 = NaN /\
  wrench_add a b = wrench_add b a /\ wrench_add (wrench_add a b) c = wrench_add a (wrench_add b c) /\
  wrench_add a wrench_zero = a /\ wrench_add a (wrench_neg a) = wrench_zero /\
  wrench_sub a b = wrench_add a (wrench_neg b) /\
  wrench_mul a 1 = a /\ wrench_mul (wrench_mul a f) g = wrench_mul a (f * g) /\
  wrench_mul (wrench_add a b) f = wrench_add (wrench_mul a f) (wrench_mul b f) /\
  wrench_mul a (f + g) = wrench_add (wrench_mul a f) (wrench_mul a g) /\
  wrench_add_assign a b = wrench_add a b /\ wrench_sub_assign a b = wrench_sub a b /\
  wrench_mul_assign a f = wrench_mul a f /\
  (wrench_eq a b = true <-> a = b).
Proof.
  intros a b c f g.
  assert (EQ : wrench_eq a b = true <-> a = b).
  { unfold wrench_eq. rewrite andb_true_iff, !veqb_true. destruct a as [f1 t1], b as [f2 t2]; cbn.
    split; [intros [-> ->]; reflexivity|]. intros E. split; congruence. }
  assert (DV : f <> 0 -> exists q, wrench_div a f = Val q /\
     coeffs (wrench_getVector q) = map (fun x => x / f) (coeffs (wrench_getVector a)) /\ wrench_mul q f = a /\
     wrench_div_assign a f = Val q).
  { intros N. unfold wrench_div, wrench_div_assign, vdiv. destruct (Req_EM_T f 0) as [E|_]; [contradiction|].
    cbn. eexists. split; [reflexivity|]. split; [reflexivity|]. split; [|reflexivity].
    destruct a as [[a0 a1 a2] [a3 a4 a5]]. unfold wrench_mul, vscale; cbn.
    f_equal; f_equal; field; exact N. }
  assert (D0 : wrench_div a 0 = NaN /\ wrench_div_assign a 0 = NaN).
  { unfold wrench_div, wrench_div_assign, vdiv. destruct (Req_EM_T 0 0) as [_|N]; [split; reflexivity|contradiction]. }
  destruct D0 as [D0 D0'].
  destruct a as [[a0 a1 a2] [a3 a4 a5]], b as [[b0 b1 b2] [b3 b4 b5]], c as [[c0' c1' c2'] [c3' c4' c5']].
  repeat match goal with |- _ /\ _ => split end; try assumption;
    unfold wrench_add_assign, wrench_sub_assign, wrench_mul_assign, wrench_setForce, wrench_setTorque,
      wrench_add, wrench_sub, wrench_mul, wrench_neg, wrench_zero, wrench_getVector, coeffs, vadd, vsub, vscale, vneg; cbn;
    repeat match goal with |- _ :: _ = _ :: _ => f_equal end; try reflexivity; try ring;
    try (f_equal; f_equal; ring); try apply EQ.
Qed.
Lemma C42_wrench_space_ex : wrench_eq (mkWrench (mkV3 1 2 3) (mkV3 4 5 6)) (mkWrench (mkV3 1 2 3) (mkV3 4 5 7)) = false /\
  exists q, wrench_div (mkWrench (mkV3 1 2 3) (mkV3 4 5 6)) 2 = Val q /\ vx (wforce q) = 1 / 2.
Proof.
  destruct (C42_wrench_space_lemma (mkWrench (mkV3 1 2 3) (mkV3 4 5 6)) (mkWrench (mkV3 1 2 3) (mkV3 4 5 7))
     (mkWrench vzero vzero) 2 1) as (_ & _ & _ & _ & D & H). split.
  - destruct (wrench_eq _ _) eqn:E; [|reflexivity]. exfalso.
    apply (C42_wrench_space_lemma _ _ (mkWrench vzero vzero) 2 1) in E. injection E. lra.
  - unfold wrench_div, vdiv. destruct (Req_EM_T 2 0); [lra|]. cbn. eexists. split; reflexivity.
Qed.
