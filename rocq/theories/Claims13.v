(** Claims C20 (mixed classes): proofs (statements are copied to Prop13.v). *)
From Coq Require Import Reals Lra Psatz Bool.
From Verif Require Import Linalg Spec SpecFacts ModelCommon ModelEigen ModelRotation CommonFacts ConvFacts RVFacts Windows RotFacts UniqueFacts MetricFacts EulerFacts EqFacts MixedEq.
Local Open Scope R_scope.

(** C20: a true answer of operator== implies that the two objects denote the
    same rotation, for any two classes for which == instantiates except an
    AngleAxis left operand (C19), outside the tolerance windows. *)
Lemma C20_cross_class_sound_lemma : forall (p : prim) (l r : rotation), kind_of l <> KAA -> valid l -> valid r ->
  unique_exact p l -> unique_exact p r -> exact_conversion p (kind_of l) (get_unique p r) ->
  is_equal p l r = Some (Val true) -> meaning l = meaning r.
Proof. exact equal_sound. Qed.
Lemma C20_cross_class_sound_ex : forall p,
  is_equal p (RotMat mid) (RotZyx (mkZyx 0 0 0)) = Some (Val true) /\ unique_exact p (RotZyx (mkZyx 0 0 0)) /\
  exact_conversion p KMat (get_unique p (RotZyx (mkZyx 0 0 0))).
Proof.
  intros p. pose proof PI2_1 as H. assert (U : unique_exact p (RotZyx (mkZyx 0 0 0))).
  { cbn. unfold pitch_clear. pose proof PI_RGT_0. rewrite wrapPosNegPI_id by lra. rewrite Rabs_R0, Rminus_0_l, Rabs_Ropp, Rabs_pos_eq by lra. lra. }
  split; [|split; [exact U|exact I]].
  destruct (mat_equal p mid (RotZyx (mkZyx 0 0 0)) I U I) as (c & E & C). rewrite E. do 2 f_equal. apply C.
  cbn [meaning]. unfold zyx_rot, Rot_z, Rot_y, Rot_x; cbn [zyaw zpitch zroll]. rewrite sin_0, cos_0. lin.
Qed.

(** C20: EulerAngles (out of the gimbal bands) compared with a rotation of any
    other class is true exactly when both denote the same rotation and the
    unique first angle is not negative (and, for EulerAnglesZyx, the unique roll
    is not -pi). *)
Lemma C20_euler_left_lemma : forall (p : prim) (r : rotation), valid r -> unique_exact p r ->
  (forall e, pitch_clear (zpitch e) -> kind_of r <> KZyx -> exact_conversion p KZyx (get_unique p r) ->
     exists c u, is_equal p (RotZyx e) r = Some (Val c) /\ get_unique p (RotZyx e) = RotZyx u /\
       (c = true <-> zyx_rot e = meaning r /\ 0 <= zyaw u /\ zroll u <> - PI)) /\
  (forall e, pitch_clear (xpitch e) -> kind_of r <> KXyz -> exact_conversion p KXyz (get_unique p r) ->
     exists c u, is_equal p (RotXyz e) r = Some (Val c) /\ get_unique p (RotXyz e) = RotXyz u /\
       (c = true <-> xyz_rot e = meaning r /\ 0 <= xroll u)).
Proof.
  intros p r V X. split; intros e He K Y.
  - destruct (zyx_mixed p e r He V X K Y) as (c & E & C). exists c, (zyx_unique e). split; [exact E|]. split; [reflexivity|exact C].
  - destruct (xyz_mixed p e r He V X K Y) as (c & E & C). exists c, (xyz_unique e). split; [exact E|]. split; [reflexivity|exact C].
Qed.
Lemma C20_euler_left_ex : forall p, let r := RotMat (zyx_rot (mkZyx 1 0 (1/2))) in
  valid r /\ unique_exact p r /\ pitch_clear 0 /\ exact_conversion p KZyx (get_unique p r) /\
  is_equal p (RotZyx (mkZyx 1 0 (1/2))) r = Some (Val true).
Proof.
  intros p r. pose proof PI2_1 as H. pose proof PI_RGT_0 as HP.
  assert (V : valid r) by apply zyx_rot_SO3.
  assert (P : pitch_clear 0).
  { unfold pitch_clear. rewrite wrapPosNegPI_id by lra. rewrite Rabs_R0, Rminus_0_l, Rabs_Ropp, Rabs_pos_eq by lra. lra. }
  split; [exact V|]. split; [exact I|]. split; [exact P|]. split; [exact I|].
  destruct (zyx_mixed p (mkZyx 1 0 (1/2)) r P V I ltac:(discriminate) I) as (c & E & C). rewrite E. do 2 f_equal. apply C.
  split; [reflexivity|].
  unfold zyx_unique, euler_unique; cbn [zyaw zpitch zroll].
  change (floatingPointModulo (1 + PI) (2 * PI) - PI) with (wrapPosNegPI 1).
  change (floatingPointModulo (0 + PI) (2 * PI) - PI) with (wrapPosNegPI 0).
  change (floatingPointModulo (1/2 + PI) (2 * PI) - PI) with (wrapPosNegPI (1/2)).
  rewrite !wrapPosNegPI_id by lra.
  destruct (Rlt_dec 0 (- PI / 2 - / 10 ^ 3)); [lra|].
  destruct (Rleb_spec (- PI / 2 - / 10 ^ 3) 0); [|lra]. destruct (Rleb_spec 0 (- PI / 2 + / 10 ^ 3)); [lra|].
  destruct (Rltb_spec (- PI / 2 + / 10 ^ 3) 0); [|lra]. destruct (Rltb_spec 0 (PI / 2 - / 10 ^ 3)); [|lra].
  cbn [andb vx vz]. lra.
Qed.

(** C20: a RotationVector on the left is compared exactly with a matrix whose
    rotation angle is below 120 degrees (positive trace) and with Euler angles
    whose rotation angle is not pi (trace above -1). *)
Lemma C20_vector_left_lemma : forall (p : prim) (v : V3), v = vzero \/ dummy_precision p <= vnorm v ->
  (forall m, SO3 m -> regular_angle p m -> 0 < mtrace m ->
     exists c, is_equal p (RotVec v) (RotMat m) = Some (Val c) /\ (c = true <-> vec_rot v = m)) /\
  (forall r, kind_of r = KZyx \/ kind_of r = KXyz -> unique_exact p r -> -1 < mtrace (meaning r) ->
     exists c, is_equal p (RotVec v) r = Some (Val c) /\ (c = true <-> vec_rot v = meaning r)).
Proof.
  intros p v X. split.
  - intros m S Y T. apply vec_mat_equal; assumption.
  - intros r K Y T. apply vec_euler_equal; assumption.
Qed.
Lemma C20_vector_left_ex : forall p, regular_angle p mid /\ 0 < mtrace mid.
Proof. intros p. split; [left; reflexivity|lin_unfold; lra]. Qed.
