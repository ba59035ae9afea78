(** Claim C52: proofs (statements are copied to Prop3.v). *)
From Coq Require Import Reals Lra Psatz Bool List.
From Verif Require Import Linalg Spec SpecFacts ModelCommon ModelEigen ModelRotation ModelHistory SpecHistory CommonFacts ConvFacts RVFacts Windows RotFacts UniqueFacts MetricFacts EulerFacts EqFacts SetFacts HistoryFacts.
Local Open Scope R_scope.
Import ListNotations.

(** C52: after any sequence of calls the object has its class, is legal and
    denotes exactly the rotation prescribed by the history. *)
Lemma C52_any_history_lemma : forall (p : prim) (os : list rop) (s : rotation),
  valid s -> exact_operand p s -> steps_ok p (kind_of s) (meaning s) os ->
  exists t, rrun p s os = Val t /\ kind_of t = kind_of s /\ valid t /\
            meaning t = fold_left spec_step os (meaning s).
Proof. exact rrun_ok. Qed.
(** C52, for the classes without windows no side condition on the state is
    needed: only the operands must be legal and exact. *)
Lemma C52_quaternion_matrix_angle_axis_history_lemma : forall (p : prim) (os : list rop) (s : rotation),
  (kind_of s = KQuat \/ kind_of s = KMat \/ kind_of s = KAA) -> valid s ->
  (forall r, In (OpMulRight r) os \/ In (OpAssign r) os -> valid r /\ exact_operand p r) ->
  (forall r, In (OpMulLeft r) os -> valid r /\ exact_operand p r /\ kind_of r <> KVec) ->
  exists t, rrun p s os = Val t /\ kind_of t = kind_of s /\ valid t /\
            meaning t = fold_left spec_step os (meaning s).
Proof.
  intros p os s K V H1 H2.
  assert (NK : kind_of s <> KVec /\ kind_of s <> KZyx /\ kind_of s <> KXyz)
    by (destruct K as [K|[K|K]]; rewrite K; repeat split; discriminate).
  apply rrun_ok; [exact V|apply non_vec_operand, NK|]. revert H1 H2. generalize (meaning s). clear V K.
  induction os as [|o os IH]; intros m H1 H2; cbn [steps_ok]; [exact I|]. split.
  - split; [intros E; destruct NK; contradiction|].
    destruct o as [| |r|r|r| |]; auto.
    + apply H1. left; left; reflexivity.
    + destruct (H2 r) as (A & B & C); [left; reflexivity|]. split; [split; assumption|]. intros E; contradiction.
    + apply H1. right; left; reflexivity.
    + destruct NK as (_ & N1 & N2). split; intros E; contradiction.
  - apply IH; intros r Hr.
    + apply H1. destruct Hr as [Hr|Hr]; [left|right]; right; exact Hr.
    + apply H2. right; exact Hr.
Qed.
(** a history with every operation, on an EulerAnglesZyx object *)
Lemma C52_any_history_ex : forall p,
  let s := RotZyx (mkZyx 1 0 2) in
  let os := [OpInvert; OpSetIdentity; OpMulRight (RotAA (mkAA 2 ez)); OpMulLeft (RotMat (Rot_z 1)); OpSetUnique; OpFix;
             OpAssign (RotXyz (mkXyz 1 2 3)); OpMulRight (RotVec vzero)] in
  valid s /\ exact_operand p s /\ steps_ok p (kind_of s) (meaning s) os /\
  fold_left spec_step os (meaning s) = xyz_rot (mkXyz 1 2 3).
Proof.
  intros p. cbv zeta. split; [exact I|]. split; [exact I|]. split.
  - cbn [steps_ok kind_of].
    assert (U : vnorm2 ez = 1) by lin.
    repeat match goal with |- _ /\ _ => split | |- step_ok _ _ _ _ => split; [intros E; discriminate|] | |- operand_ok _ _ => split end; try exact I;
      try (intros E; discriminate); try exact U; try (apply Rot_z_SO3); try (left; reflexivity).
    intros _. cbn [spec_step meaning]. rewrite mmul_id_l. spec_unfold.
    replace (Rabs _) with 0; [apply cos_gt_0; pose proof PI2_1; lra|]. symmetry.
    match goal with |- Rabs ?x = 0 => replace x with 0 by ring end. apply Rabs_R0.
  - cbn [fold_left spec_step meaning]. rewrite vec_rot_zero. apply mmul_id_r.
Qed.
