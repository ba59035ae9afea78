(** Claims C14-C29, C48: proofs (statements are copied to Prop2.v). *)
From Coq Require Import Reals Lra Psatz Bool List.
From Verif Require Import Linalg Spec SpecFacts ModelCommon ModelEigen ModelRotation ModelQuaternion ModelDebug CommonFacts ConvFacts RVFacts Windows RotFacts UniqueFacts MetricFacts EulerFacts EqFacts SetFacts QuatDebugFacts Claims1.
Local Open Scope R_scope.

(** C14: getUnique keeps the rotation, lands in the documented range, is
    idempotent. *)
Lemma C14_get_unique_lemma : forall p : prim,
  (forall q, qnorm q = 1 -> exists q', get_unique p (RotQuat q) = RotQuat q' /\ qnorm q' = 1 /\
     quat_rot q' = quat_rot q /\ 0 <= qw q' /\ get_unique p (RotQuat q') = RotQuat q') /\
  (forall a, vnorm (aaxis a) = 1 -> exists a', get_unique p (RotAA a) = RotAA a' /\ vnorm (aaxis a') = 1 /\
     aa_rot a' = aa_rot a /\ 0 <= aangle a' <= PI /\ get_unique p (RotAA a') = RotAA a') /\
  (forall v, v = vzero \/ dummy_precision p <= vnorm v ->
     exists v', get_unique p (RotVec v) = RotVec v' /\ vec_rot v' = vec_rot v /\ vnorm v' <= PI /\
       (v' = vzero \/ dummy_precision p <= vnorm v' -> get_unique p (RotVec v') = RotVec v')) /\
  (forall m, get_unique p (RotMat m) = RotMat m).
Proof.
  intros p. split; [|split; [|split]].
  - intros q H. apply qnorm_unit in H. exists (quat_unique q). cbn [get_unique].
    destruct (quat_unique_ok q) as [N R]. pose proof (quat_unique_canonical q H) as C.
    repeat split; try assumption.
    + apply qnorm_unit. congruence.
    + destruct C as [C|[C _]]; lra.
    + rewrite quat_unique_fix by exact C. reflexivity.
  - intros a H. apply vnorm_unit in H. exists (aa_unique a). cbn [get_unique].
    destruct (aa_unique_ok a H) as (N & R & C). split; [reflexivity|]. split; [apply vnorm_unit, N|].
    split; [exact R|]. split; [apply canonical_aa_range, C|]. rewrite aa_unique_fix by exact C. reflexivity.
  - intros v H. exists (rv_unique p v). cbn [get_unique]. destruct (rv_unique_ok p v H) as (R & C).
    split; [reflexivity|]. split; [exact R|]. split; [apply canonical_vec_norm, C|].
    intros W. rewrite rv_unique_fix by assumption. reflexivity.
  - reflexivity.
Qed.
(** C14: a rotation vector slightly longer than a full turn (by less than the
    tolerance) has a getUnique that is not a fixed point of getUnique. *)
Lemma C14_rotation_vector_idempotence_refuted_lemma : forall p : prim, exists v v' : V3,
  dummy_precision p <= vnorm v /\ get_unique p (RotVec v) = RotVec v' /\ get_unique p (RotVec v') <> RotVec v'.
Proof.
  intros p. pose proof (dummy_pos p) as D. pose proof (dummy_small p) as D'. pose proof PI2_1 as P.
  set (d := dummy_precision p / 2). assert (Hd : 0 < d < dummy_precision p) by (unfold d; lra).
  assert (N : forall t, 0 <= t -> vnorm (mkV3 t 0 0) = t).
  { intros t Ht. unfold vnorm. replace (vnorm2 (mkV3 t 0 0)) with (t * t) by lin. apply sqrt_square, Ht. }
  exists (mkV3 (2 * PI + d) 0 0), (mkV3 d 0 0). rewrite (N (2 * PI + d)) by lra.
  split; [lra|]. split.
  - cbn [get_unique]. f_equal.
    assert (L : dummy_precision p <= vnorm (mkV3 (2 * PI + d) 0 0)) by (rewrite N; lra).
    unfold rv_unique, rv_to_aa. destruct (Rlt_dec _ _) as [L'|_]; [lra|].
    rewrite e_normalized_unit by lra. unfold unit_of. rewrite N by lra. unfold aa_unique; cbn [aangle aaxis].
    assert (W : wrapPosNegPI (2 * PI + d) = d).
    { rewrite wrapPosNegPI_as. apply (wrapAngle_unique _ _ _ _ 1%Z); [lra|]. ring. }
    rewrite W. destruct (Rlt_dec 0 d); [|lra]. unfold aa_to_rv, vscale; cbn [aangle aaxis vx vy vz].
    f_equal; field; lra.
  - cbn [get_unique]. rewrite rv_unique_small by (rewrite N; lra). intros H. injection H as H. lra.
Qed.

(** C15: two values of the same class have the same getUnique iff they denote
    the same rotation. *)
Lemma C15_get_unique_canonical_lemma : forall p : prim,
  (forall a b, qnorm a = 1 -> qnorm b = 1 ->
     (get_unique p (RotQuat a) = get_unique p (RotQuat b) <-> quat_rot a = quat_rot b)) /\
  (forall a b, vnorm (aaxis a) = 1 -> vnorm (aaxis b) = 1 ->
     (get_unique p (RotAA a) = get_unique p (RotAA b) <-> aa_rot a = aa_rot b)) /\
  (forall a b, (a = vzero \/ dummy_precision p <= vnorm a) -> (b = vzero \/ dummy_precision p <= vnorm b) ->
     (get_unique p (RotVec a) = get_unique p (RotVec b) <-> vec_rot a = vec_rot b)) /\
  (forall a b, get_unique p (RotMat a) = get_unique p (RotMat b) <-> a = b) /\
  (forall a b, pitch_clear (zpitch a) -> pitch_clear (zpitch b) ->
     (get_unique p (RotZyx a) = get_unique p (RotZyx b) <-> zyx_rot a = zyx_rot b)) /\
  (forall a b, pitch_clear (xpitch a) -> pitch_clear (xpitch b) ->
     (get_unique p (RotXyz a) = get_unique p (RotXyz b) <-> xyz_rot a = xyz_rot b)).
Proof.
  intros p. cbn [get_unique]. split; [|split; [|split; [|split; [|split]]]].
  - intros a b Ha Hb. apply qnorm_unit in Ha. apply qnorm_unit in Hb.
    destruct (quat_unique_ok a) as [Na Ra]. destruct (quat_unique_ok b) as [Nb Rb]. split.
    + intros E. assert (E' : quat_unique a = quat_unique b) by congruence. congruence.
    + intros E. f_equal. apply canonical_quat_eq; try congruence; try (apply quat_unique_canonical; assumption).
  - intros a b Ha Hb. apply vnorm_unit in Ha. apply vnorm_unit in Hb.
    destruct (aa_unique_ok a Ha) as (Na & Ra & Ca). destruct (aa_unique_ok b Hb) as (Nb & Rb & Cb). split.
    + intros E. assert (E' : aa_unique a = aa_unique b) by congruence. congruence.
    + intros E. f_equal. apply canonical_aa_eq; try assumption. congruence.
  - intros a b Ha Hb.
    destruct (rv_unique_ok p a Ha) as (Ra & Ca). destruct (rv_unique_ok p b Hb) as (Rb & Cb). split.
    + intros E. assert (E' : rv_unique p a = rv_unique p b) by congruence. congruence.
    + intros E. f_equal. apply canonical_vec_eq; try assumption. congruence.
  - intros a b. split; intros E; congruence.
  - intros a b Ha Hb. pose proof (zyx_unique_canonical a b Ha Hb) as H. split; intros E.
    + apply H. congruence.
    + f_equal. apply H, E.
  - intros a b Ha Hb. pose proof (xyz_unique_canonical a b Ha Hb) as H. split; intros E.
    + apply H. congruence.
    + f_equal. apply H, E.
Qed.
(** instances: two different angle-axis pairs for the same half turn, two
    different quaternions for the same rotation *)
Lemma C15_get_unique_canonical_ex :
  let a := mkAA PI ex in let b := mkAA (3 * PI) (vneg ex) in
  vnorm (aaxis a) = 1 /\ vnorm (aaxis b) = 1 /\ a <> b /\ aa_rot a = aa_rot b.
Proof.
  cbv zeta. cbn [aaxis]. repeat split.
  - apply vnorm_unit. lin.
  - apply vnorm_unit. lin.
  - intros E. apply (f_equal aangle) in E. cbn in E. pose proof PI_RGT_0. lra.
  - rewrite (aa_rot_same (3 * PI) PI) by (exists 1%Z; ring). symmetry; apply aa_rot_pi_flip.
Qed.

(** C16: operator== within one class. *)
Lemma C16_equality_same_class_lemma : forall p : prim,
  (forall a b, qnorm a = 1 -> qnorm b = 1 ->
     exists c, is_equal p (RotQuat a) (RotQuat b) = Some (Val c) /\ (c = true <-> quat_rot a = quat_rot b)) /\
  (forall a b, exists c, is_equal p (RotMat a) (RotMat b) = Some (Val c) /\ (c = true <-> a = b)) /\
  (forall a b, (a = vzero \/ dummy_precision p <= vnorm a) -> (b = vzero \/ dummy_precision p <= vnorm b) ->
     exists c, is_equal p (RotVec a) (RotVec b) = Some (Val c) /\ (c = true <-> vec_rot a = vec_rot b)) /\
  (forall a b, pitch_clear (zpitch a) -> pitch_clear (zpitch b) ->
     exists c, is_equal p (RotZyx a) (RotZyx b) = Some (Val c) /\ (c = true <-> zyx_rot a = zyx_rot b)) /\
  (forall a b, pitch_clear (xpitch a) -> pitch_clear (xpitch b) ->
     exists c, is_equal p (RotXyz a) (RotXyz b) = Some (Val c) /\ (c = true <-> xyz_rot a = xyz_rot b)).
Proof.
  intros p. split; [|split; [|split; [|split]]].
  - intros a b Ha Hb. apply qnorm_unit in Ha. apply qnorm_unit in Hb. apply quat_equal; assumption.
  - intros a b. cbn [is_equal get_unique to_mat obind]. apply bool_iff_val, meqb_true.
  - intros a b Ha Hb. apply vec_equal; assumption.
  - apply zyx_equal.
  - apply xyz_equal.
Qed.
Lemma C16_equality_same_class_ex : pitch_clear 1 /\ pitch_clear (-3).
Proof.
  pose proof PI2_1. pose proof PI_4. pose proof PI2_3_2 as Q. unfold pitch_clear.
  rewrite !wrapPosNegPI_id by lra. split.
  - rewrite (Rabs_right 1) by lra. rewrite Rabs_left by lra. lra.
  - rewrite (Rabs_left (-3)) by lra. rewrite Rabs_right by lra. lra.
Qed.

(** C17: Euler getUnique.  [pitch_clear b]: the wrapped pitch is further than
    1e-3 from +-pi/2. *)
Lemma C17_euler_unique_lemma : forall p : prim,
  (forall e, pitch_clear (zpitch e) -> exists e', get_unique p (RotZyx e) = RotZyx e' /\
     zyx_rot e' = zyx_rot e /\ - PI <= zyaw e' < PI /\ - (PI/2) < zpitch e' < PI/2 /\ - PI <= zroll e' < PI /\
     get_unique p (RotZyx e') = RotZyx e') /\
  (forall e, pitch_clear (xpitch e) -> exists e', get_unique p (RotXyz e) = RotXyz e' /\
     xyz_rot e' = xyz_rot e /\ - PI <= xroll e' < PI /\ - (PI/2) < xpitch e' < PI/2 /\ - PI <= xyaw e' < PI /\
     get_unique p (RotXyz e') = RotXyz e').
Proof.
  intros p. split; intros e H; cbn [get_unique].
  - destruct (zyx_unique_clear e H) as [R (A & B & C)]. exists (zyx_unique e). cbn [vx vy vz] in *.
    split; [reflexivity|]. split; [exact R|]. split; [exact A|]. split; [exact B|]. split; [exact C|].
    rewrite zyx_unique_idem by exact H. reflexivity.
  - destruct (xyz_unique_clear e H) as [R (A & B & C)]. exists (xyz_unique e). cbn [vx vy vz] in *.
    split; [reflexivity|]. split; [exact R|]. split; [exact A|]. split; [exact B|]. split; [exact C|].
    rewrite xyz_unique_idem by exact H. reflexivity.
Qed.
(** C17: EulerAnglesXyz inside the gimbal bands: the yaw becomes zero, the
    rotation changes by at most twice the distance of the pitch to +-pi/2
    (<= 2e-3), hence not at all at gimbal lock. *)
Lemma C17_xyz_gimbal_lemma : forall (p : prim) (s : R) (e : Xyz), s = 1 \/ s = -1 ->
  let delta := Rabs (wrapPosNegPI (xpitch e) - s * (PI/2)) in
  delta <= / 10 ^ 3 ->
  exists e' d, get_unique p (RotXyz e) = RotXyz e' /\ xyaw e' = 0 /\
    is_rotation_angle (mmul (xyz_rot e') (mtrans (xyz_rot e))) d /\ d <= 2 * delta /\
    (delta = 0 -> xyz_rot e' = xyz_rot e).
Proof.
  intros p s e Hs. cbv zeta. intros B.
  destruct (xyz_unique_band s e Hs B) as (d & A & D). exists (xyz_unique e), d. cbn [get_unique].
  split; [reflexivity|]. split; [|split; [exact A|split; [exact D|]]].
  - unfold xyz_unique. cbn [xyaw]. destruct Hs as [-> | ->].
    + rewrite euler_unique_band_plus; [reflexivity|]. rewrite Rmult_1_l in B. exact B.
    + rewrite euler_unique_band_minus; [reflexivity|].
      replace (wrapPosNegPI (xpitch e) + PI/2) with (wrapPosNegPI (xpitch e) - -1 * (PI/2)) by ring. exact B.
  - intros Z. apply (xyz_unique_lock s); [exact Hs|].
    assert (W : wrapPosNegPI (xpitch e) = s * (PI/2)).
    { apply Rminus_diag_uniq. destruct (Req_dec (wrapPosNegPI (xpitch e) - s * (PI/2)) 0) as [E|E]; [exact E|].
      apply Rabs_no_R0 in E. contradiction. }
    rewrite <- W. apply same_angle_sym, wrapPosNegPI_same.
Qed.
Lemma C17_xyz_gimbal_ex : Rabs (wrapPosNegPI (PI/2 + / 10 ^ 4) - 1 * (PI/2)) <= / 10 ^ 3.
Proof.
  pose proof PI2_1. rewrite wrapPosNegPI_id by lra. replace (PI/2 + / 10 ^ 4 - 1 * (PI/2)) with (/ 10 ^ 4) by ring.
  rewrite Rabs_right; lra.
Qed.

(** C18: EulerAnglesZyx::getUnique at gimbal lock keeps the rotation iff
    sin(roll) = 0; so it changes the rotation for almost every roll. *)
Lemma C18_zyx_gimbal_characterised_lemma : forall (p : prim) (s : R) (e : Zyx), s = 1 \/ s = -1 ->
  same_angle (zpitch e) (s * (PI/2)) ->
  exists e', get_unique p (RotZyx e) = RotZyx e' /\ zroll e' = 0 /\
    (zyx_rot e' = zyx_rot e <-> sin (zroll e) = 0).
Proof.
  intros p s e Hs A. exists (zyx_unique e). split; [reflexivity|]. split; [|apply (zyx_unique_lock s); assumption].
  assert (W : wrapPosNegPI (zpitch e) = s * (PI/2)).
  { apply wrapPosNegPI_eq in A. rewrite A. apply wrap_half, Hs. }
  unfold zyx_unique; cbn [zroll]. destruct Hs as [-> | ->].
  - rewrite euler_unique_band_plus; [reflexivity|]. rewrite W, Rmult_1_l, Rminus_diag_eq, Rabs_R0 by reflexivity. lra.
  - rewrite euler_unique_band_minus; [reflexivity|]. rewrite W.
    replace (-1 * (PI/2) + PI/2) with 0 by ring. rewrite Rabs_R0. lra.
Qed.
(** C18 refuted: the documented claim "getUnique is the same rotation" fails,
    and operator== is wrong in both directions. *)
Lemma C18_zyx_gimbal_refuted_lemma : forall p : prim, exists a b c : Zyx,
  (exists e', get_unique p (RotZyx a) = RotZyx e' /\ zyx_rot e' <> zyx_rot a) /\
  (zyx_rot a <> zyx_rot b /\ is_equal p (RotZyx a) (RotZyx b) = Some (Val true)) /\
  (zyx_rot a = zyx_rot c /\ is_equal p (RotZyx a) (RotZyx c) = Some (Val false)).
Proof.
  intros p. pose proof PI_RGT_0 as P. pose proof PI2_1 as P1.
  exists (mkZyx 0 (PI/2) (PI/2)), (mkZyx (PI/2) (PI/2) 0), (mkZyx (- (PI/2)) (PI/2) 0).
  assert (W : wrapPosNegPI (PI/2) = PI/2) by (apply wrapPosNegPI_id; lra).
  assert (W0 : wrapPosNegPI 0 = 0) by (apply wrapPosNegPI_id; lra).
  assert (Wm : wrapPosNegPI (- (PI/2)) = - (PI/2)) by (apply wrapPosNegPI_id; lra).
  assert (B : Rabs (wrapPosNegPI (PI/2) - PI/2) <= / 10 ^ 3).
  { rewrite W, Rminus_diag_eq, Rabs_R0 by reflexivity. lra. }
  assert (Ua : zyx_unique (mkZyx 0 (PI/2) (PI/2)) = mkZyx (PI/2) (PI/2) 0).
  { unfold zyx_unique; cbn [zyaw zpitch zroll]. rewrite euler_unique_band_plus by exact B. rewrite W, W0. cbn [vx vy vz]. f_equal. ring. }
  assert (Ub : zyx_unique (mkZyx (PI/2) (PI/2) 0) = mkZyx (PI/2) (PI/2) 0).
  { unfold zyx_unique; cbn [zyaw zpitch zroll]. rewrite euler_unique_band_plus by exact B. rewrite W, W0. cbn [vx vy vz]. f_equal. ring. }
  assert (Uc : zyx_unique (mkZyx (- (PI/2)) (PI/2) 0) = mkZyx (- (PI/2)) (PI/2) 0).
  { unfold zyx_unique; cbn [zyaw zpitch zroll]. rewrite euler_unique_band_plus by exact B. rewrite W, W0, Wm. cbn [vx vy vz]. f_equal. ring. }
  assert (D : zyx_rot (mkZyx 0 (PI/2) (PI/2)) <> zyx_rot (mkZyx (PI/2) (PI/2) 0)).
  { intros E. apply (f_equal m01) in E. spec_unfold. rewrite !sin_0, !cos_0, !sin_PI2, !cos_PI2 in E. lra. }
  split; [|split].
  - exists (mkZyx (PI/2) (PI/2) 0). cbn [get_unique]. rewrite Ua. split; [reflexivity|]. intros E; apply D. congruence.
  - split; [exact D|]. unfold is_equal. cbn [get_unique]. rewrite Ua, Ub. cbn [to_zyx obind zyaw zpitch zroll].
    do 2 f_equal. apply veqb_true. reflexivity.
  - split.
    + spec_unfold. rewrite !sin_0, !cos_0, !sin_neg, !cos_neg, !sin_PI2, !cos_PI2. f_equal; ring.
    + unfold is_equal. cbn [get_unique]. rewrite Ua, Uc. cbn [to_zyx obind zyaw zpitch zroll].
      do 2 f_equal. destruct (veqb _ _) eqn:E; [|reflexivity]. apply veqb_true in E. apply (f_equal vx) in E. cbn [vx] in E. lra.
Qed.

(** C19: AngleAxis operator== accepts every equal pair ... *)
Lemma C19_angle_axis_equality_complete_lemma : forall (p : prim) (a b : AA),
  vnorm (aaxis a) = 1 -> vnorm (aaxis b) = 1 -> aa_rot a = aa_rot b ->
  is_equal p (RotAA a) (RotAA b) = Some (Val true).
Proof. intros p a b Ha Hb. apply vnorm_unit in Ha. apply vnorm_unit in Hb. apply aa_equal_complete; assumption. Qed.
(** ... but also unequal ones, and it is not transitive. *)
Lemma C19_angle_axis_equality_refuted_lemma : forall p : prim, exists a b c : AA,
  vnorm (aaxis a) = 1 /\ vnorm (aaxis b) = 1 /\ vnorm (aaxis c) = 1 /\
  is_equal p (RotAA a) (RotAA b) = Some (Val true) /\ aa_rot a <> aa_rot b /\
  is_equal p (RotAA b) (RotAA c) = Some (Val true) /\
  is_equal p (RotAA a) (RotAA c) = Some (Val false).
Proof.
  intros p. exists (mkAA 1 ex), (mkAA (1 + 8 / 10 ^ 5) ex), (mkAA (1 + 16 / 10 ^ 5) ex). cbn [aaxis].
  assert (U : vnorm ex = 1) by (apply vnorm_unit; lin).
  split; [exact U|]. split; [exact U|]. split; [exact U|]. exact (aa_not_transitive p).
Qed.

(** C20: where operator== across classes is exact. *)
Lemma C20_cross_class_equality_exact_lemma : forall p : prim,
  (forall m r, valid r -> unique_exact p r -> exact_operand p (get_unique p r) ->
     exists c, is_equal p (RotMat m) r = Some (Val c) /\ (c = true <-> m = meaning r)) /\
  (forall v a, vnorm (aaxis a) = 1 -> (v = vzero \/ dummy_precision p <= vnorm v) ->
     exists c, is_equal p (RotVec v) (RotAA a) = Some (Val c) /\ (c = true <-> vec_rot v = aa_rot a)) /\
  (forall v q, qnorm q = 1 -> (v = vzero \/ dummy_precision p <= vnorm v) -> regular_angle p (quat_rot q) ->
     exists c, is_equal p (RotVec v) (RotQuat q) = Some (Val c) /\ (c = true <-> vec_rot v = quat_rot q)).
Proof.
  intros p. split; [|split].
  - intros m r V U X. apply mat_equal; assumption.
  - intros v a H W. apply vnorm_unit in H. apply vec_aa_equal; assumption.
  - intros v q H W G. apply qnorm_unit in H. apply vec_quat_equal; assumption.
Qed.
(** C20 refuted: RotationVector == RotationMatrix can be false for the same
    rotation; EulerAngles == (any other class) is never true when the unique
    first angle is negative. *)
Lemma C20_cross_class_equality_refuted_lemma : forall p : prim,
  (exists v m, SO3 m /\ vec_rot v = m /\ is_equal p (RotVec v) (RotMat m) = Some (Val false)) /\
  (forall e r, kind_of r <> KZyx -> zyaw (zyx_unique e) < 0 -> is_equal p (RotZyx e) r <> Some (Val true)) /\
  (forall e r, kind_of r <> KXyz -> xroll (xyz_unique e) < 0 -> is_equal p (RotXyz e) r <> Some (Val true)) /\
  (exists e m, SO3 m /\ zyx_rot e = m /\ is_equal p (RotZyx e) (RotMat m) <> Some (Val true)).
Proof.
  intros p. split; [|split; [|split]].
  - destruct (vec_mat_counterexample p) as (A & B & C). eexists; eexists. split; [exact B|]. split; [exact A|exact C].
  - intros e r K L E. exact (zyx_mixed_never p e r K L E).
  - intros e r K L E. exact (xyz_mixed_never p e r K L E).
  - exists (mkZyx (-1) 0 0). exists (zyx_rot (mkZyx (-1) 0 0)). split; [apply zyx_rot_SO3|]. split; [reflexivity|].
    intros E. refine (zyx_mixed_never p _ _ _ _ E); [discriminate|].
    pose proof PI2_1. pose proof PI_RGT_0. unfold zyx_unique, euler_unique; cbn [zyaw zpitch zroll].
    fold (wrapPosNegPI (-1)) (wrapPosNegPI 0). rewrite !wrapPosNegPI_id by lra.
    destruct (Rlt_dec 0 (- PI / 2 - / 10 ^ 3)); [lra|].
    destruct (Rleb_spec (- PI / 2 - / 10 ^ 3) 0); [|lra]. destruct (Rleb_spec 0 (- PI / 2 + / 10 ^ 3)); [lra|].
    destruct (Rltb_spec (- PI / 2 + / 10 ^ 3) 0); [|lra]. destruct (Rltb_spec 0 (PI / 2 - / 10 ^ 3)); [|lra].
    cbn [andb vx]. lra.
Qed.

(** C21: getDisparityAngle is the rotation angle of a b^-1. *)
Lemma C21_disparity_lemma : forall (p : prim) (a b : rotation), valid a -> valid b -> comparable p a b ->
  exists d, disparity p a b = Val d /\ 0 <= d <= PI /\
    2 * cos d = mtrace (mmul (meaning a) (mtrans (meaning b))) - 1.
Proof.
  intros p a b Va Vb (Xa & Xb & Xr). destruct (disparity_exact p a b Va Vb Xa Xb Xr) as (d & E & A & B).
  exists d. split; [exact E|]. split; [exact A|exact B].
Qed.
(** C21: it is a bi-invariant metric on rotations. *)
Lemma C21_metric_lemma : forall (p : prim) (a b c : rotation), valid a -> valid b -> valid c ->
  comparable p a b -> comparable p b a -> comparable p b c -> comparable p a c ->
  exists dab dba dbc dac,
    disparity p a b = Val dab /\ disparity p b a = Val dba /\
    disparity p b c = Val dbc /\ disparity p a c = Val dac /\
    dab = dba /\ (dab = 0 <-> meaning a = meaning b) /\ dac <= dab + dbc.
Proof.
  intros p a b c Va Vb Vc (X1 & X2 & X3) (_ & _ & X4) (_ & X5 & X6) (_ & _ & X7).
  pose proof (meaning_SO3 a Va) as Sa. pose proof (meaning_SO3 b Vb) as Sb. pose proof (meaning_SO3 c Vc) as Sc.
  destruct (disparity_exact p a b Va Vb X1 X2 X3) as (dab & E1 & A1).
  destruct (disparity_exact p b a Vb Va X2 X1 X4) as (dba & E2 & A2).
  destruct (disparity_exact p b c Vb Vc X2 X5 X6) as (dbc & E3 & A3).
  destruct (disparity_exact p a c Va Vc X1 X5 X7) as (dac & E4 & A4).
  exists dab, dba, dbc, dac. repeat split; try assumption.
  - apply angle_trans in A2. rewrite mtrans_mmul, mtrans_mtrans in A2. exact (angle_unique _ _ _ A1 A2).
  - intros ->. apply angle_zero in A1; [|apply SO3_mmul; [exact Sa|apply SO3_trans, Sb]].
    rewrite <- (mmul_cancel (meaning a) (meaning b) Sb), A1. apply mmul_id_l.
  - intros E. rewrite E, SO3_inv_r in A1 by exact Sb. apply (angle_unique mid); [exact A1|].
    apply angle_zero; [exact SO3_mid|reflexivity].
  - apply (angle_subadd (mmul (meaning a) (mtrans (meaning b))) (mmul (meaning b) (mtrans (meaning c)))); try assumption;
      try (apply SO3_mmul; [assumption|apply SO3_trans; assumption]).
    rewrite mmul_assoc, <- (mmul_assoc (meaning a)), SO3_inv_l, mmul_id_r by exact Sb. exact A4.
Qed.
Lemma C21_invariance_lemma : forall (p : prim) (a b g : rotation), valid a -> valid b -> valid g ->
  exact_operand p g -> exact_operand p a -> exact_operand p b ->
  kind_of a <> KVec -> kind_of b <> KVec -> kind_of g <> KVec ->
  exists d ag bg ga gb, disparity p a b = Val d /\
    mult p a g = Val ag /\ mult p b g = Val bg /\ mult p g a = Val ga /\ mult p g b = Val gb /\
    disparity p ag bg = Val d /\ disparity p ga gb = Val d.
Proof.
  intros p a b g Va Vb Vg Xg Xa Xb Ka Kb Kg.
  pose proof (meaning_SO3 a Va) as Sa. pose proof (meaning_SO3 b Vb) as Sb. pose proof (meaning_SO3 g Vg) as Sg.
  assert (NO : forall r, kind_of r <> KVec -> exact_operand p r) by (intros [q|x|x|x|x|x] H; cbn in *; auto; congruence).
  assert (NR : forall r m, kind_of r <> KVec -> exact_result p (kind_of r) m) by (intros r m H E; congruence).
  destruct (disparity_exact p a b Va Vb Xa Xb (NR a _ Ka)) as (d & E & A).
  destruct (mult_exact p a g Va Vg Xa Xg (NR a _ Ka)) as (ag & E1 & K1 & V1 & M1).
  destruct (mult_exact p b g Vb Vg Xb Xg (NR b _ Kb)) as (bg & E2 & K2 & V2 & M2).
  destruct (mult_exact p g a Vg Va Xg Xa (NR g _ Kg)) as (ga & E3 & K3 & V3 & M3).
  destruct (mult_exact p g b Vg Vb Xg Xb (NR g _ Kg)) as (gb & E4 & K4 & V4 & M4).
  assert (N1 : kind_of ag <> KVec) by congruence. assert (N2 : kind_of bg <> KVec) by congruence.
  assert (N3 : kind_of ga <> KVec) by congruence. assert (N4 : kind_of gb <> KVec) by congruence.
  destruct (disparity_exact p ag bg V1 V2 (NO _ N1) (NO _ N2) (NR ag _ N1)) as (d1 & F1 & A1).
  destruct (disparity_exact p ga gb V3 V4 (NO _ N3) (NO _ N4) (NR ga _ N3)) as (d2 & F2 & A2).
  exists d, ag, bg, ga, gb. repeat split; try assumption.
  - rewrite F1. f_equal. apply (angle_unique _ _ _ A1). rewrite M1, M2, mtrans_mmul.
    rewrite <- mmul_assoc, (mmul_assoc (meaning g)), SO3_inv_r, mmul_id_l by exact Sg. exact A.
  - rewrite F2. f_equal. apply (angle_unique _ _ _ A2). rewrite M3, M4, mtrans_mmul.
    rewrite <- mmul_assoc, (mmul_assoc (meaning a)). apply angle_conj; assumption.
Qed.
Lemma C21_metric_ex : forall p,
  let a := RotVec (mkV3 1 0 0) in let b := RotMat (Rot_x 2) in
  valid a /\ valid b /\ comparable p a b /\ comparable p b a.
Proof.
  intros p. cbv zeta. pose proof PI2_1. pose proof PI_RGT_0. pose proof (eps4_small p). pose proof (dummy_small p).
  assert (N : vnorm (mkV3 1 0 0) = 1) by (apply vnorm_unit; lin).
  split; [exact I|]. split; [apply Rot_x_SO3|].
  assert (X : exact_operand p (RotVec (mkV3 1 0 0))) by (right; rewrite N; lra).
  split; (split; [try exact X; exact I|split; [try exact X; exact I|]]); [|intros E; discriminate].
  intros _. right. cbn [meaning].
  assert (V : vec_rot (mkV3 1 0 0) = Rot_x 1).
  { rewrite vec_rot_aa, N by lra. rewrite Rot_x_aa. f_equal. f_equal. lin_unfold. f_equal; field. }
  rewrite V, <- Rot_x_neg, <- Rot_x_plus. replace (1 + - (2)) with (- (1)) by ring.
  unfold mtrace, Rot_x; cbn [m00 m11 m22]. rewrite cos_neg.
  assert (C : cos 1 < 1 - 1/4).
  { pose proof (sin_lo (1/2)) as SL. rewrite (double_cos 1). pose proof (sin2_cos2' (1/2)).
    assert (1/2 - (1/2)^3/6 <= sin (1/2)) by (apply SL; lra). nra. }
  lra.
Qed.

(** C22 *)
Lemma C22_is_near_lemma : forall (p : prim) (a b : rotation) (tol : R), valid a -> valid b -> comparable p a b ->
  exists d c, is_rotation_angle (mmul (meaning a) (mtrans (meaning b))) d /\
    isNear p a b tol = Val c /\ (c = true <-> d <= tol).
Proof.
  intros p a b tol Va Vb (Xa & Xb & Xr). destruct (disparity_exact p a b Va Vb Xa Xb Xr) as (d & E & A).
  exists d, (Rleb d tol). split; [exact A|]. unfold isNear. rewrite E. cbn [obind]. split; [reflexivity|].
  destruct (Rleb_spec d tol); split; intros; try assumption; try reflexivity; try discriminate; contradiction.
Qed.

(** C23: exponentialMap of any vector is the rotation about it by its norm;
    logarithmicMap returns a vector of norm <= pi (the rotation angle) with
    that rotation; they are inverse to each other. *)
Lemma C23_exp_log_lemma : forall (p : prim) (k : kind),
  (forall v, exact_conversion p k (RotVec v) ->
     exists r, exponentialMap p k v = Val r /\ kind_of r = k /\ valid r /\ meaning r = vec_rot v) /\
  (forall r, valid r -> regular_angle p (meaning r) ->
     exists v, logarithmicMap p r = Val v /\ vec_rot v = meaning r /\ is_rotation_angle (meaning r) (vnorm v)) /\
  (forall r, valid r -> clear_angle p (meaning r) ->
     exists v r', logarithmicMap p r = Val v /\ exponentialMap p k v = Val r' /\ valid r' /\ meaning r' = meaning r) /\
  (forall v, exact_operand p (RotVec v) -> vnorm v < PI ->
     exists r, exponentialMap p k v = Val r /\ logarithmicMap p r = Val v).
Proof.
  intros p k. split; [|split; [|split]].
  - intros v. apply exp_exact.
  - intros r V G. destruct (log_exact p r V G) as (v & E & M & C). exists v. split; [exact E|]. split; [exact M|].
    rewrite <- M. apply canonical_vec_angle, C.
  - intros r V C. destruct (log_exact p r V (clear_regular p _ C)) as (v & E & M & Cv).
    rewrite <- M in C. assert (X : exact_operand p (RotVec v)) by (apply clear_vec; assumption).
    destruct (exp_exact p k v) as (r' & E' & K & V' & M').
    { apply exact_operand_conversion; [exact X|]. intros _. apply clear_regular, C. }
    exists v, r'. repeat split; try assumption. congruence.
  - intros v X L. assert (G : regular_angle p (vec_rot v)) by (apply exact_vec_regular; [exact X|lra]).
    destruct (exp_exact p k v) as (r & E & K & V & M).
    { apply exact_operand_conversion; [exact X|]. intros _. exact G. }
    exists r. split; [exact E|]. rewrite <- M in G. destruct (log_exact p r V G) as (u & E' & M' & C').
    rewrite E'. f_equal. apply canonical_vec_eq; [exact C'|left; exact L|congruence].
Qed.
Lemma C23_exp_log_ex : forall p, exact_operand p (RotVec (mkV3 0 2 0)) /\ vnorm (mkV3 0 2 0) < PI.
Proof.
  intros p. assert (N : vnorm (mkV3 0 2 0) = 2).
  { unfold vnorm. replace (vnorm2 (mkV3 0 2 0)) with (2 * 2) by lin. apply sqrt_square; lra. }
  pose proof (eps4_small p). pose proof PI2_3_2. split; [right|]; rewrite N; lra.
Qed.

(** C24: boxPlus / boxMinus axioms. *)
Lemma C24_boxplus_boxminus_lemma : forall (p : prim),
  (forall a b, valid a -> valid b -> exact_operand p a -> exact_operand p b ->
     clear_angle p (mmul (meaning b) (mtrans (meaning a))) -> exact_result p (kind_of a) (meaning b) ->
     exists v s, boxMinus p b a = Val v /\ boxPlus p a v = Val s /\ kind_of s = kind_of a /\ valid s /\
                 meaning s = meaning b) /\
  (forall a v, valid a -> exact_operand p a -> exact_operand p (RotVec v) -> vnorm v < PI ->
     kind_of a <> KVec -> exists s, boxPlus p a v = Val s /\ boxMinus p s a = Val v) /\
  (forall a, valid a -> exact_operand p a -> boxMinus p a a = Val vzero) /\
  (forall a, valid a -> exact_operand p a -> exact_result p (kind_of a) (meaning a) ->
     exists s, boxPlus p a vzero = Val s /\ kind_of s = kind_of a /\ valid s /\ meaning s = meaning a) /\
  (forall a b, valid a -> valid b -> comparable p a b -> regular_angle p (mmul (meaning a) (mtrans (meaning b))) ->
     exists v d, boxMinus p a b = Val v /\ disparity p a b = Val d /\ vnorm v = d).
Proof.
  intros p. split; [|split; [|split; [|split]]].
  - intros a b. apply boxPlus_boxMinus.
  - intros a v V X Xv L K. apply boxMinus_boxPlus; try assumption.
    + intros E; congruence.
    + intros s E. assert (Ks : kind_of s <> KVec).
      { destruct (boxPlus_exact p a v V X Xv) as (s' & E' & K' & _); [intros H; congruence|]. congruence. }
      destruct s; cbn in *; auto; congruence.
    + apply exact_vec_regular; [exact Xv|lra].
  - intros a V X. pose proof (meaning_SO3 a V) as S.
    destruct (boxMinus_exact p a a V V X X) as (v & E & M & C).
    { rewrite SO3_inv_r by exact S. left; reflexivity. }
    rewrite E. f_equal. rewrite SO3_inv_r in M by exact S. apply canonical_vec_eq; [exact C| |rewrite vec_rot_zero; exact M].
    left. rewrite vnorm_vzero. apply PI_RGT_0.
  - intros a V X Xr. destruct (boxPlus_exact p a vzero V X) as (s & E & K & Vs & M).
    + left; reflexivity.
    + rewrite vec_rot_zero, mmul_id_l. exact Xr.
    + exists s. rewrite vec_rot_zero, mmul_id_l in M. repeat split; assumption.
  - intros a b Va Vb (Xa & Xb & Xr) G.
    destruct (boxMinus_exact p a b Va Vb Xa Xb G) as (v & E & M & C).
    destruct (disparity_exact p a b Va Vb Xa Xb Xr) as (d & E' & A). exists v, d.
    split; [exact E|]. split; [exact E'|]. apply (angle_unique (vec_rot v)); [apply canonical_vec_angle, C|].
    rewrite M. exact A.
Qed.

(** C25: interpolate = exp(clamp(ratio) * log(b a^-1)) a; the boundary cases
    and the constant rate. *)
Lemma C25_interpolate_lemma : forall (p : prim) (a b : rotation) (ratio : R),
  valid a -> valid b -> exact_operand p a -> exact_operand p b ->
  regular_angle p (mmul (meaning b) (mtrans (meaning a))) ->
  (forall v, boxMinus p b a = Val v ->
     exact_operand p (RotVec (vscale (Rmax 0 (Rmin 1 ratio)) v)) /\
     exact_result p (kind_of a) (mmul (vec_rot (vscale (Rmax 0 (Rmin 1 ratio)) v)) (meaning a))) ->
  exists s d, interpolate p a b ratio = Val s /\ kind_of s = kind_of a /\ valid s /\
    is_rotation_angle (mmul (meaning b) (mtrans (meaning a))) d /\
    is_rotation_angle (mmul (meaning s) (mtrans (meaning a))) (Rmax 0 (Rmin 1 ratio) * d) /\
    (ratio <= 0 -> meaning s = meaning a) /\ (1 <= ratio -> meaning s = meaning b).
Proof.
  intros p a b ratio Va Vb Xa Xb G W.
  destruct (interpolate_exact p a b ratio Va Vb Xa Xb G) as (v & s & E & C & M & Ei & K & V & Ms & A).
  { intros v E. rewrite clamp01_Rmax. apply W, E. }
  exists s, (vnorm v). split; [exact Ei|]. split; [exact K|]. split; [exact V|].
  split; [rewrite <- M; apply canonical_vec_angle, C|]. rewrite <- clamp01_Rmax. split; [exact A|]. rewrite Ms. split; intros H.
  - assert (Z : clamp01 ratio = 0).
    { rewrite clamp01_Rmax. rewrite Rmin_right, Rmax_left by lra. reflexivity. }
    rewrite Z. replace (vscale 0 v) with vzero by lin. rewrite vec_rot_zero. apply mmul_id_l.
  - assert (Z : clamp01 ratio = 1).
    { rewrite clamp01_Rmax. rewrite Rmin_left, Rmax_right by lra. reflexivity. }
    rewrite Z. replace (vscale 1 v) with v by lin. rewrite M. apply mmul_cancel, meaning_SO3, Va.
Qed.

Lemma C25_interpolate_ex : forall p,
  let a := RotQuat (mkQ 1 0 0 0) in let b := RotAA (mkAA 1 ex) in let ratio := 1/2 in
  valid a /\ valid b /\ exact_operand p a /\ exact_operand p b /\
  regular_angle p (mmul (meaning b) (mtrans (meaning a))) /\
  (forall v, boxMinus p b a = Val v ->
     exact_operand p (RotVec (vscale (Rmax 0 (Rmin 1 ratio)) v)) /\
     exact_result p (kind_of a) (mmul (vec_rot (vscale (Rmax 0 (Rmin 1 ratio)) v)) (meaning a))).
Proof.
  intros p. cbv zeta. pose proof PI2_1. pose proof (eps4_small p). pose proof (dummy_small p).
  assert (Va : valid (RotQuat (mkQ 1 0 0 0))) by (cbn [valid]; lin).
  assert (U : vnorm2 ex = 1) by lin.
  assert (Vb : valid (RotAA (mkAA 1 ex))) by exact U.
  assert (M : mmul (meaning (RotAA (mkAA 1 ex))) (mtrans (meaning (RotQuat (mkQ 1 0 0 0)))) = vec_rot (vscale 1 ex)).
  { rewrite vec_rot_scaled by exact U. cbn [meaning]. fold qid. rewrite quat_rot_id, mtrans_mid, mmul_id_r. reflexivity. }
  assert (N : vnorm (vscale 1 ex) = 1) by (apply vnorm_unit; lin).
  assert (G : regular_angle p (vec_rot (vscale 1 ex))).
  { apply exact_vec_regular; [right; rewrite N; lra|rewrite N; lra]. }
  split; [exact Va|]. split; [exact Vb|]. split; [exact I|]. split; [exact I|]. split; [rewrite M; exact G|].
  intros v E. split; [|intros K; discriminate].
  destruct (boxMinus_exact p (RotAA (mkAA 1 ex)) (RotQuat (mkQ 1 0 0 0)) Vb Va I I) as (v' & E' & M' & C).
  { rewrite M. exact G. }
  assert (v' = v) as -> by congruence. rewrite M in M'.
  apply canonical_vec_eq in M'; [|exact C|left; rewrite N; lra]. rewrite M'.
  right. rewrite Rmin_right, Rmax_right by lra. rewrite vnorm_vscale, N, Rabs_right by lra. lra.
Qed.

(** C26: setFromVectors.  [svd_null]: what is assumed of Eigen's SVD in the
    nearly-opposite branch (a unit vector orthogonal to both inputs). *)
Lemma C26_set_from_vectors_lemma : forall (p : prim) (svd : V3 -> V3 -> V3) (k : kind) (a b : V3), svd_null svd ->
  (setFromVectors p svd k a b = Throws <-> a = vzero \/ b = vzero) /\
  (a <> vzero -> b <> vzero -> k <> KVec ->
   let ua := vscale (/ vnorm a) a in let ub := vscale (/ vnorm b) b in
   exists r, setFromVectors p svd k a b = Val r /\ kind_of r = k /\ valid r /\
     (vdot ub ua = -1 \/ -1 + dummy_precision p <= vdot ub ua -> rotate p r ua = Val ub) /\
     exists u, rotate p r ua = Val u /\ vnorm2 (vsub u ub) <= 8 * dummy_precision p).
Proof.
  intros p svd k a b S. split; [apply setFromVectors_zero|].
  intros Ha Hb K. cbv zeta.
  assert (NO : forall r, kind_of r = k -> exact_operand p r) by (intros [q|x|x|x|x|x] H; cbn in *; auto; congruence).
  destruct (setFromVectors_near p svd k a b S Ha Hb K) as (r & E & Kr & V & B).
  exists r. split; [exact E|]. split; [exact Kr|]. split; [exact V|]. split.
  - intros C. destruct (setFromVectors_exact p svd k a b S Ha Hb C) as (r' & E' & K' & V' & M).
    { intros m _ H; congruence. }
    assert (r' = r) as -> by congruence. rewrite rotate_exact by (auto). f_equal. exact M.
  - exists (mvmul (meaning r) (vscale (/ vnorm a) a)). split; [apply rotate_exact; auto|exact B].
Qed.
(** such an SVD axis exists for every pair, e.g. for opposite vectors along x *)
Lemma C26_set_from_vectors_ex : exists svd, svd_null svd.
Proof.
  pose (pick := fun u : V3 => if Req_EM_T (vx u) 0 then ex else mkV3 (- vy u) (vx u) 0).
  pose (f := fun a b : V3 =>
    let n := if Req_EM_T (vnorm (vcross a b)) 0 then (if Req_EM_T (vnorm a) 0 then pick b else pick a) else vcross a b in
    vscale (/ vnorm n) n).
  exists f. intros a b.
  assert (Pk : forall u, pick u <> vzero /\ vdot (pick u) u = 0).
  { intros [x y z]. unfold pick; cbn [vx vy vz]. destruct (Req_EM_T x 0) as [->|X].
    - split; [intros E; apply (f_equal vx) in E; cbn in E; lra|lin].
    - split; [intros E; apply (f_equal vy) in E; cbn in E; lra|lin]. }
  assert (G : forall n, n <> vzero -> vdot n a = 0 -> vdot n b = 0 ->
    vnorm2 (vscale (/ vnorm n) n) = 1 /\ vdot (vscale (/ vnorm n) n) a = 0 /\ vdot (vscale (/ vnorm n) n) b = 0).
  { intros n N Na Nb. split; [apply vnorm2_unitize; intros E; apply N, vnorm_zero, E|].
    replace (vdot (vscale (/ vnorm n) n) a) with (/ vnorm n * vdot n a) by (generalize (/ vnorm n); intros; lin).
    replace (vdot (vscale (/ vnorm n) n) b) with (/ vnorm n * vdot n b) by (generalize (/ vnorm n); intros; lin).
    rewrite Na, Nb. split; ring. }
  unfold f. cbv zeta. destruct (Req_EM_T (vnorm (vcross a b)) 0) as [Z|Z].
  - apply vnorm_zero in Z. destruct (Req_EM_T (vnorm a) 0) as [A|A].
    + apply vnorm_zero in A. apply G; [apply Pk| |apply Pk]. rewrite A. generalize (pick b). lin.
    + apply G; [apply Pk|apply Pk|].
      assert (E : vscale (vnorm2 a) b = vscale (vdot a b) a).
      { assert (T : vcross a (vcross a b) = vsub (vscale (vdot a b) a) (vscale (vnorm2 a) b)) by (clear; lin).
        rewrite Z in T. clear - T. destruct a as [a1 a2 a3], b as [b1 b2 b3]. lin_unfold. injection T; intros. f_equal; lra. }
      assert (D : vnorm2 a * vdot (pick a) b = vdot a b * vdot (pick a) a).
      { apply (f_equal (vdot (pick a))) in E. revert E. generalize (pick a). clear. intros n. lin_destruct. lin_unfold. intros E. lra. }
      rewrite (proj2 (Pk a)), Rmult_0_r in D. apply Rmult_integral in D. destruct D as [D|D]; [|exact D].
      exfalso. apply A. unfold vnorm. rewrite D. apply sqrt_0.
  - apply G.
    + intros E. apply Z. rewrite E. apply vnorm_vzero.
    + clear; lin.
    + clear; lin.
Qed.

(** C27: fix(). *)
Lemma C27_fix_lemma :
  (forall r, valid r -> fix_rot r = Val r) /\
  (forall q, q <> quat_zero -> exists q', fix_rot (RotQuat q) = Val (RotQuat q') /\ qnorm q' = 1 /\
     exists k, 0 < k /\ q' = mkQ (k * qw q) (k * qx q) (k * qy q) (k * qz q)) /\
  (forall a, aaxis a <> vzero -> exists a', fix_rot (RotAA a) = Val (RotAA a') /\ vnorm (aaxis a') = 1 /\
     aangle a' = aangle a /\ exists k, 0 < k /\ aaxis a' = vscale k (aaxis a)) /\
  (forall m, 0 < mdet m -> exists m' k, fix_rot (RotMat m) = Val (RotMat m') /\ 0 < k /\ m' = mscale k m /\ mdet m' = 1 /\
     (SO3 m' <-> exists s, s <> 0 /\ mmul m (mtrans m) = mscale s mid)) /\
  (forall m, mdet m <= 0 -> fix_rot (RotMat m) = NaN) /\
  fix_rot (RotQuat quat_zero) = Val (RotQuat quat_zero) /\
  (forall t, fix_rot (RotAA (mkAA t vzero)) = Val (RotAA (mkAA t vzero))).
Proof.
  split; [exact fix_valid|]. split; [|split; [|split; [|split; [|split]]]].
  - intros q H. destruct (fix_quat q) as (q' & E & U & K).
    { destruct (Req_dec (qnorm2 q) 0) as [Z|Z].
      - exfalso. apply H. destruct q as [w x y z]; unfold qnorm2 in Z; cbn [qw qx qy qz] in *. unfold quat_zero.
        assert (w = 0) by nra. assert (x = 0) by nra. assert (y = 0) by nra. assert (z = 0) by nra. congruence.
      - pose proof (qnorm2_nonneg q). lra. }
    exists q'. split; [exact E|]. split; [apply qnorm_unit, U|exact K].
  - intros a H. destruct (fix_aa a H) as (a' & E & U & A & K). exists a'. split; [exact E|].
    split; [apply vnorm_unit, U|]. split; [exact A|exact K].
  - intros m H. destruct (fix_mat_det m H) as (m' & k & E & D & K & M). exists m', k.
    split; [exact E|]. split; [exact K|]. split; [exact M|]. split; [exact D|]. exact (fix_mat_iff m m' E).
  - intros m H. unfold fix_rot. destruct (Rlt_dec 0 (mdet m)); [lra|reflexivity].
  - unfold fix_rot, e_qnormalize. destruct (Rlt_dec 0 (qnorm2 quat_zero)) as [L|L]; [|reflexivity].
    exfalso; unfold quat_zero, qnorm2 in L; cbn in L; lra.
  - intros t. unfold fix_rot, e_normalized; cbn [aangle aaxis]. destruct (Rlt_dec 0 (vnorm2 vzero)) as [L|L]; [|reflexivity].
    exfalso; unfold vzero, vnorm2, vdot in L; cbn in L; lra.
Qed.
(** C27 refuted for matrices: fix() of an invertible matrix of determinant 1
    can return a matrix that is not a rotation. *)
Lemma C27_matrix_fix_refuted_lemma : exists m m', 0 < mdet m /\ fix_rot (RotMat m) = Val (RotMat m') /\ ~ SO3 m'.
Proof.
  destruct fix_mat_counterexample as (A & B & C). eexists; eexists. split; [|split; [exact A|exact C]].
  rewrite B. lra.
Qed.

(** C28: setRandom on any drawn vector. *)
Lemma C28_set_random_lemma : forall (p : prim) (k : kind) (u : V3),
  exists r, set_random p k u = Val r /\ kind_of r = k /\
    (k <> KQuat -> k <> KMat -> valid r) /\
    (u = vzero \/ eps4throot p <= vnorm u -> valid r /\ meaning r = vec_rot u) /\
    (forall q, r = RotQuat q -> Rabs (qnorm2 q - 1) <= epsilon p).
Proof.
  intros p k u. destruct (convert_total p k (RotVec u) I) as (r & E & K). exists r.
  split; [exact E|]. split; [exact K|]. split; [|split].
  - intros N1 N2. destruct k; try congruence; destruct r as [q|a|v|m|e|e]; cbn [kind_of] in K; try discriminate; try exact I.
    cbn [convert to_aa omap] in E. injection E as E. subst a. apply rv_to_aa_unit.
  - intros H. destruct (convert_exact p k (RotVec u) I) as (r' & E' & K' & V & M); [|unfold set_random in E; assert (r' = r) by congruence; subst r'; split; assumption].
    destruct k; cbn [exact_conversion]; auto; destruct H as [H|H]; auto; right; pose proof (dummy_le_eps4 p); lra.
  - intros q ->. destruct k; cbn [kind_of] in K; try discriminate. cbn [convert to_quat omap] in E. injection E as E. subst q.
    pose proof (epsilon_pos p). destruct (Req_dec (vnorm u) 0) as [Z|Z].
    + apply vnorm_zero in Z. subst u. rewrite rv_to_quat_zero. replace (qnorm2 qid - 1) with 0 by lin. rewrite Rabs_R0. lra.
    + destruct (Rlt_dec (vnorm u) (eps4throot p)) as [L|L].
      * destruct (rv_to_quat_error p u Z) as (_ & _ & B). cbv zeta in B.
        pose proof (vnorm_nonneg u). pose proof (eps4_small p). eapply Rle_trans; [exact B|].
        assert (vnorm u * vnorm u <= 1) by nra. nra.
      * destruct (rv_to_quat_exact p u) as [U _]; [right; lra|]. rewrite U, Rminus_diag_eq, Rabs_R0 by reflexivity. lra.
Qed.

(** C29: debug-build assertions of the constructors. *)
Lemma C29_debug_assertions_lemma :
  (forall q, (dbg_quat_ctor q = Val q <-> Rabs (qnorm q - 1) <= / 10 ^ 4 * Rmax (qnorm q) 1) /\
             (dbg_quat_ctor q = Throws <-> ~ Rabs (qnorm q - 1) <= / 10 ^ 4 * Rmax (qnorm q) 1)) /\
  (forall q, (dbg_quat_assign q = Val q <-> Rabs (qnorm q - 1) <= / 10 ^ 6 * Rmax (qnorm q) 1) /\
             (dbg_quat_assign q = Throws <-> ~ Rabs (qnorm q - 1) <= / 10 ^ 6 * Rmax (qnorm q) 1)) /\
  (forall a, (dbg_aa_ctor a = Val a <-> Rabs (vnorm (aaxis a) - 1) <= / 10 ^ 6 * Rmax (vnorm (aaxis a)) 1) /\
             (dbg_aa_ctor a = Throws <-> ~ Rabs (vnorm (aaxis a) - 1) <= / 10 ^ 6 * Rmax (vnorm (aaxis a)) 1)) /\
  (forall m, (dbg_mat_ctor m = Val m <-> nearly_orthogonal m /\ near1 (mdet m)) /\
             (dbg_mat_ctor m = Throws <-> ~ (nearly_orthogonal m /\ near1 (mdet m)))) /\
  (forall r, valid r -> dbg_ctor r = Val r) /\
  (forall p u, exists q, convert p KQuat (RotVec u) = Val (RotQuat q) /\ dbg_quat_ctor q = Val q).
Proof.
  assert (Q : forall q, (dbg_quat_ctor q = Val q <-> Rabs (qnorm q - 1) <= / 10 ^ 4 * Rmax (qnorm q) 1) /\
             (dbg_quat_ctor q = Throws <-> ~ Rabs (qnorm q - 1) <= / 10 ^ 4 * Rmax (qnorm q) 1)).
  { intros q. replace (/ 10 ^ 4) with (/ 10 ^ 2 / 10 ^ 2) by (field; lra). apply assert_near_iff; [apply qnorm_nonneg|lra]. }
  split; [exact Q|]. split; [|split; [|split; [|split]]].
  - intros q. replace (/ 10 ^ 6) with (/ 10 ^ 4 / 10 ^ 2) by (field; lra). apply assert_near_iff; [apply qnorm_nonneg|lra].
  - intros a. replace (/ 10 ^ 6) with (/ 10 ^ 4 / 10 ^ 2) by (field; lra). apply assert_near_iff; [apply vnorm_nonneg|lra].
  - exact dbg_mat_iff.
  - exact dbg_ctor_valid.
  - intros p u. destruct (C28_set_random_lemma p KQuat u) as (r & E & K & _ & _ & B).
    destruct r as [q|a|v|m|e|e]; cbn [kind_of] in K; try discriminate. exists q. split; [exact E|].
    apply Q. specialize (B q eq_refl). pose proof (epsilon_small p) as S. pose proof (epsilon_pos p).
    pose proof (qnorm_nonneg q) as N. pose proof (qnorm_sqr q) as Sq. pose proof (Rmax_r (qnorm q) 1) as Mx.
    assert (T : Rabs (qnorm q - 1) <= Rabs (qnorm2 q - 1)).
    { rewrite <- Sq. replace (qnorm q * qnorm q - 1) with ((qnorm q - 1) * (qnorm q + 1)) by ring.
      rewrite Rabs_mult, (Rabs_right (qnorm q + 1)) by lra. pose proof (Rabs_pos (qnorm q - 1)). nra. }
    assert (/ 2 ^ 23 <= / 10 ^ 4) by (apply Rinv_le_contravar; lra). nra.
Qed.

(** C48 refuted: UnitQuaternion::setIdentity() leaves the zero quaternion,
    which is not the identity and not even a unit quaternion. *)
Lemma C48_unit_quaternion_setIdentity_refuted_lemma : forall q : Quat,
  unit_setIdentity q <> unit_identity /\ quat_norm (unit_setIdentity q) = 0 /\ dbg_quat_ctor (unit_setIdentity q) = Throws.
Proof.
  intros q. assert (N : qnorm (unit_setIdentity q) = 0).
  { unfold qnorm. replace (qnorm2 (unit_setIdentity q)) with 0 by (unfold unit_setIdentity; lin). apply sqrt_0. }
  split; [intros E; apply (f_equal qw) in E; cbn in E; lra|]. split; [exact N|].
  apply C29_debug_assertions_lemma. rewrite N, Rmax_right by lra. rewrite Rabs_left by lra. lra.
Qed.
