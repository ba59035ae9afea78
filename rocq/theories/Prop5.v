(** Generated by tools/genprops.py from Claims5.v: the property theorems only. *)
From Coq Require Import Reals Lra Psatz Bool List.
From Verif Require Import Linalg Spec SpecFacts SpecDiff ModelCommon ModelEigen ModelRotation ModelQuaternion ModelDiff ModelPose SpecPose CommonFacts ConvFacts RVFacts Windows RotFacts UniqueFacts MetricFacts EqFacts HistoryFacts DerivFacts DiffFacts DiffFacts2 Claims1.
Import ListNotations.
Local Open Scope R_scope.
From Verif Require Import Claims5.

(** C39: transform(x) = R x + t, and it is a rigid motion: it preserves
    distances and orientation (cross products of differences). *)
Theorem C39_rigid_motion : forall (p : prim) (T : pose), pose_ok p T ->
  SO3 (meaning (prot T)) /\
  forall x y z, exists x' y' z',
    transform p T x = Val x' /\ transform p T y = Val y' /\ transform p T z = Val z' /\
    x' = vadd (mvmul (meaning (prot T)) x) (ppos T) /\
    dist x' y' = dist x y /\
    vcross (vsub x' z') (vsub y' z') = mvmul (meaning (prot T)) (vcross (vsub x z) (vsub y z)).
Proof. exact C39_rigid_motion_lemma. Qed.
Print Assumptions C39_rigid_motion.

Example C39_rigid_motion_ex : forall p,
  pose_ok p (mkPose (mkV3 1 2 3) (RotAA (mkAA 7 (mkV3 0 (3/5) (4/5))))).
Proof. exact Claims5.C39_rigid_motion_ex. Qed.

(** C39: concatenation of poses (any mix of rotation classes) is composition
    of the motions; the result has the left class. *)
Theorem C39_composition : forall (p : prim) (A B : pose), pose_ok p A -> pose_ok p B ->
  exact_result p (kind_of (prot A)) (mmul (meaning (prot A)) (meaning (prot B))) ->
  exists AB, pose_mult p A B = Val AB /\ kind_of (prot AB) = kind_of (prot A) /\ valid (prot AB) /\
    forall x, exists bx, transform p B x = Val bx /\
      transform p A bx = Val (vadd (mvmul (meaning (prot AB)) x) (ppos AB)) /\
      (pose_ok p AB -> transform p AB x = transform p A bx).
Proof. exact C39_composition_lemma. Qed.
Print Assumptions C39_composition.

Example C39_composition_ex : forall p,
  let A := mkPose (mkV3 1 2 3) (RotQuat (mkQ (3/5) (4/5) 0 0)) in
  let B := mkPose (mkV3 0 0 1) (RotVec (mkV3 0 0 5)) in
  pose_ok p A /\ pose_ok p B /\ exact_result p (kind_of (prot A)) (mmul (meaning (prot A)) (meaning (prot B))).
Proof. exact Claims5.C39_composition_ex. Qed.

(** C39: associativity and neutrality of Identity(); no window exists when the
    left rotation classes are not RotationVector. *)
Theorem C39_group : forall (p : prim) (A B C : pose),
  pose_ok p A -> pose_ok p B -> pose_ok p C -> kind_of (prot A) <> KVec -> kind_of (prot B) <> KVec ->
  (exists AB BC L R, pose_mult p A B = Val AB /\ pose_mult p AB C = Val L /\
     pose_mult p B C = Val BC /\ pose_mult p A BC = Val R /\
     valid (prot L) /\ valid (prot R) /\ ppos L = ppos R /\ meaning (prot L) = meaning (prot R)) /\
  (forall k, exists AI IA, pose_mult p A (pose_identity k) = Val AI /\ ppos AI = ppos A /\
     meaning (prot AI) = meaning (prot A) /\
     (k <> KVec -> pose_mult p (pose_identity k) A = Val IA /\ ppos IA = ppos A /\
        meaning (prot IA) = meaning (prot A) /\ kind_of (prot IA) = k)).
Proof. exact C39_group_lemma. Qed.
Print Assumptions C39_group.

(** C39: a chain T * T1 * ... * Tn of any length acts as the composition of the
    motions, outermost first. *)
Theorem C39_chain : forall (p : prim) (ts : list pose) (T : pose),
  pose_ok p T -> kind_of (prot T) <> KVec -> (forall U, In U ts -> pose_ok p U) ->
  exists C, pose_chain p T ts = Val C /\ pose_ok p C /\ kind_of (prot C) = kind_of (prot T) /\
    forall x, transform p C x = Val (fold_right pose_motion x (T :: ts)).
Proof. exact C39_chain_lemma. Qed.
Print Assumptions C39_chain.

Example C39_chain_ex : forall p,
  let T := mkPose (mkV3 1 2 3) (RotMat (Rot_z 1)) in
  let U := mkPose (mkV3 0 0 1) (RotXyz (mkXyz 1 2 3)) in
  pose_ok p T /\ kind_of (prot T) <> KVec /\ (forall W, In W [U; T; U] -> pose_ok p W).
Proof. exact Claims5.C39_chain_ex. Qed.

(** C39: the 4x4 matrix acts on homogeneous coordinates as transform, and the
    matrix of a product is the product of the matrices. *)
Theorem C39_matrix : forall (p : prim) (A : pose), pose_ok p A ->
  exists MA, getTransformationMatrix p A = Val MA /\
    (forall x, exists y, transform p A x = Val y /\ m44_act MA x = mkQ (vx y) (vy y) (vz y) 1) /\
    (meaning (prot A) = mid -> ppos A = vzero -> MA = m44_id) /\
    (forall B AB MB MAB, pose_ok p B -> pose_mult p A B = Val AB -> pose_ok p AB ->
       exact_result p (kind_of (prot A)) (mmul (meaning (prot A)) (meaning (prot B))) ->
       getTransformationMatrix p B = Val MB -> getTransformationMatrix p AB = Val MAB ->
       MAB = m44_mul MA MB).
Proof. exact C39_matrix_lemma. Qed.
Print Assumptions C39_matrix.

(** C40 *)
Theorem C40_inverse_transform : forall (p : prim) (T : pose), pose_ok p T -> forall x,
  (exists y, transform p T x = Val y /\ inverseTransform p T y = Val x) /\
  (exists y, inverseTransform p T x = Val y /\ transform p T y = Val x) /\
  (forall y, inverseTransform p T x = Val y -> y = mvmul (mtrans (meaning (prot T))) (vsub x (ppos T))).
Proof. exact C40_inverse_transform_lemma. Qed.
Print Assumptions C40_inverse_transform.

Example C40_inverse_transform_ex : forall p, pose_ok p (mkPose (mkV3 1 2 3) (RotVec (mkV3 1 2 3))).
Proof. exact Claims5.C40_inverse_transform_ex. Qed.

(** C54: comparing poses. [==] is true exactly when the positions are equal and
    the rotations compare equal; hence, for quaternion poses, exactly when the
    two poses are the same motion (q and -q identified). [!=] is the negation. *)
Theorem C54_pose_equality : forall (p : prim) (A B : pose),
  (forall c, pose_is_equal p A B = Some (Val c) ->
     pose_not_equal p A B = Some (Val (negb c)) /\
     (c = true <-> ppos A = ppos B /\ is_equal p (prot A) (prot B) = Some (Val true))) /\
  (forall a b, prot A = RotQuat a -> prot B = RotQuat b -> qnorm a = 1 -> qnorm b = 1 ->
     exists c, pose_is_equal p A B = Some (Val c) /\
       (c = true <-> forall x, transform p A x = transform p B x)).
Proof. exact C54_pose_equality_lemma. Qed.
Print Assumptions C54_pose_equality.

(** C55: constructing a pose of another rotation class keeps the motion. *)
Theorem C55_pose_conversion : forall (p : prim) (k : kind) (A : pose),
  valid (prot A) -> exact_conversion p k (prot A) ->
  exists B, pose_convert p k A = Val B /\ kind_of (prot B) = k /\ valid (prot B) /\ ppos B = ppos A /\
    meaning (prot B) = meaning (prot A) /\
    (pose_ok p A -> pose_ok p B -> forall x, transform p B x = transform p A x).
Proof. exact C55_pose_conversion_lemma. Qed.
Print Assumptions C55_pose_conversion.

(** C41: twists and six-vectors: linear velocity first, angular velocity last;
    setVector and the constructor from a vector are inverse to getVector and
    forget the previous value; Zero() is the zero vector. *)
Theorem C41_twist_vector :
  (forall v t,
     local_twist_getVector (local_twist_of_vector v) = Some v /\
     local_twist_getVector (local_twist_setVector t v) = Some v /\
     global_twist_getVector (global_twist_of_vector v) = Some v /\
     global_twist_getVector (global_twist_setVector t v) = Some v) /\
  (forall lin ang t,
     (exists v, local_twist_getVector (mkTwist lin (DLocal ang)) = Some v /\
        coeffs v = coeffs3 lin ++ coeffs3 ang /\
        local_twist_of_vector v = mkTwist lin (DLocal ang) /\
        local_twist_setVector t v = mkTwist lin (DLocal ang)) /\
     (exists v, global_twist_getVector (mkTwist lin (DGlobal ang)) = Some v /\
        coeffs v = coeffs3 lin ++ coeffs3 ang /\
        global_twist_of_vector v = mkTwist lin (DGlobal ang) /\
        global_twist_setVector t v = mkTwist lin (DGlobal ang))) /\
  local_twist_getVector (twist_zero KDLocal) = Some (mkV6 0 0 0 0 0 0) /\
  global_twist_getVector (twist_zero KDGlobal) = Some (mkV6 0 0 0 0 0 0).
Proof. exact C41_twist_vector_lemma. Qed.
Print Assumptions C41_twist_vector.

(** C41: getVector(rotation) leaves the linear velocity as it is and expresses
    the angular velocity in the local frame of [rotation]; it exists for global
    angular velocities with every rotation class. *)
Theorem C41_twist_in_frame : forall (p : prim) (r : rotation) (lin w : V3),
  valid r -> exact_operand p r ->
  exists v, twist_getVector_rot p (mkTwist lin (DGlobal w)) r = Some (Val v) /\
    coeffs v = coeffs3 lin ++ coeffs3 (mvmul (mtrans (meaning r)) w) /\
    twist_getVector_rot p (mkTwist lin (DLocal w)) r = None.
Proof. exact C41_twist_in_frame_lemma. Qed.
Print Assumptions C41_twist_in_frame.

Example C41_twist_in_frame_ex : forall p,
  valid (RotXyz (mkXyz 1 2 3)) /\ exact_operand p (RotXyz (mkXyz 1 2 3)).
Proof. exact Claims5.C41_twist_in_frame_ex. Qed.

(** C56: the twist of a moving pose gives the velocity of every body point. For
    every differentiable curve of quaternion poses with linear velocity [v] and
    quaternion derivative [d], the six-vector of the twist (v,d) is (v, wl)
    where [wl] is the angular velocity in body coordinates, and the body point
    [x] moves with velocity v + R (wl x x). *)
Theorem C56_twist_point_velocity : forall (p : prim) (pos : R -> V3) (c : R -> Quat) (t : R) (v : V3) (d : Quat),
  (forall s, qnorm (c s) = 1) -> Vderiv pos t v -> Qderiv c t d ->
  exists u wl, twist_getVector_rot p (mkTwist v (DQuat d)) (RotQuat (c t)) = Some (Val u) /\
    coeffs u = coeffs3 v ++ coeffs3 wl /\
    forall x y, (forall s, transform p (mkPose (pos s) (RotQuat (c s))) x = Val (y s)) ->
      Vderiv y t (vadd v (mvmul (quat_rot (c t)) (vcross wl x))).
Proof. exact C56_twist_point_velocity_lemma. Qed.
Print Assumptions C56_twist_point_velocity.

Example C56_twist_point_velocity_ex :
  (forall s, qnorm (mkQ (cos s) (sin s) 0 0) = 1) /\
  Vderiv (fun s => mkV3 s (s * s) 0) 1 (mkV3 1 2 0) /\
  Qderiv (fun s => mkQ (cos s) (sin s) 0 0) 1 (mkQ (- sin 1) (cos 1) 0 0).
Proof. exact Claims5.C56_twist_point_velocity_ex. Qed.

(** C42: wrenches: force first, round trips. *)
Theorem C42_wrench_vector :
  (forall f t, coeffs (wrench_getVector (mkWrench f t)) = coeffs3 f ++ coeffs3 t) /\
  (forall v w, wrench_getVector (wrench_of_vector v) = v /\ wrench_getVector (wrench_setVector w v) = v) /\
  (forall w w', wrench_of_vector (wrench_getVector w) = w /\ wrench_setVector w' (wrench_getVector w) = w) /\
  (forall w f, wforce (wrench_setForce w f) = f /\ wtorque (wrench_setForce w f) = wtorque w /\
               wtorque (wrench_setTorque w f) = f /\ wforce (wrench_setTorque w f) = wforce w) /\
  coeffs (wrench_getVector wrench_zero) = repeat 0 6.
Proof. exact C42_wrench_vector_lemma. Qed.
Print Assumptions C42_wrench_vector.

(** C42: the vector space laws, the compound assignments, exact equality;
    every coefficient is the coefficientwise operation. *)
Theorem C42_wrench_space : forall (a b c : wrench) (f g : R),
  coeffs (wrench_getVector (wrench_add a b)) =
    map (fun xy => fst xy + snd xy) (combine (coeffs (wrench_getVector a)) (coeffs (wrench_getVector b))) /\
  coeffs (wrench_getVector (wrench_sub a b)) =
    map (fun xy => fst xy - snd xy) (combine (coeffs (wrench_getVector a)) (coeffs (wrench_getVector b))) /\
  coeffs (wrench_getVector (wrench_mul a f)) = map (fun x => x * f) (coeffs (wrench_getVector a)) /\
  coeffs (wrench_getVector (wrench_neg a)) = map Ropp (coeffs (wrench_getVector a)) /\
  (f <> 0 -> exists q, wrench_div a f = Val q /\
     coeffs (wrench_getVector q) = map (fun x => x / f) (coeffs (wrench_getVector a)) /\ wrench_mul q f = a /\
     wrench_div_assign a f = Val q) /\
  wrench_div a 0 = NaN /\ wrench_div_assign a 0 = NaN /\
  wrench_add a b = wrench_add b a /\ wrench_add (wrench_add a b) c = wrench_add a (wrench_add b c) /\
  wrench_add a wrench_zero = a /\ wrench_add a (wrench_neg a) = wrench_zero /\
  wrench_sub a b = wrench_add a (wrench_neg b) /\
  wrench_mul a 1 = a /\ wrench_mul (wrench_mul a f) g = wrench_mul a (f * g) /\
  wrench_mul (wrench_add a b) f = wrench_add (wrench_mul a f) (wrench_mul b f) /\
  wrench_mul a (f + g) = wrench_add (wrench_mul a f) (wrench_mul a g) /\
  wrench_add_assign a b = wrench_add a b /\ wrench_sub_assign a b = wrench_sub a b /\
  wrench_mul_assign a f = wrench_mul a f /\
  (wrench_eq a b = true <-> a = b).
Proof. exact C42_wrench_space_lemma. Qed.
Print Assumptions C42_wrench_space.

Example C42_wrench_space_ex : wrench_eq (mkWrench (mkV3 1 2 3) (mkV3 4 5 6)) (mkWrench (mkV3 1 2 3) (mkV3 4 5 7)) = false /\
  exists q, wrench_div (mkWrench (mkV3 1 2 3) (mkV3 4 5 6)) 2 = Val q /\ vx (wforce q) = 1 / 2.
Proof. exact Claims5.C42_wrench_space_ex. Qed.
