(** Generated by tools/genprops.py from Claims3.v: the property theorems only. *)
From Coq Require Import Reals Lra Psatz Bool List.
From Verif Require Import Linalg Spec SpecFacts ModelCommon ModelEigen ModelRotation ModelHistory SpecHistory CommonFacts ConvFacts RVFacts Windows RotFacts UniqueFacts MetricFacts EulerFacts EqFacts SetFacts HistoryFacts.
Local Open Scope R_scope.
Import ListNotations.
From Verif Require Import Claims3.

(** C52: after any sequence of calls the object has its class, is legal and
    denotes exactly the rotation prescribed by the history. *)
Theorem C52_any_history : forall (p : prim) (os : list rop) (s : rotation),
  valid s -> exact_operand p s -> steps_ok p (kind_of s) (meaning s) os ->
  exists t, rrun p s os = Val t /\ kind_of t = kind_of s /\ valid t /\
            meaning t = fold_left spec_step os (meaning s).
Proof. exact C52_any_history_lemma. Qed.
Print Assumptions C52_any_history.

(** C52, for the classes without windows no side condition on the state is
    needed: only the operands must be legal and exact. *)
Theorem C52_quaternion_matrix_angle_axis_history : forall (p : prim) (os : list rop) (s : rotation),
  (kind_of s = KQuat \/ kind_of s = KMat \/ kind_of s = KAA) -> valid s ->
  (forall r, In (OpMulRight r) os \/ In (OpAssign r) os -> valid r /\ exact_operand p r) ->
  (forall r, In (OpMulLeft r) os -> valid r /\ exact_operand p r /\ kind_of r <> KVec) ->
  exists t, rrun p s os = Val t /\ kind_of t = kind_of s /\ valid t /\
            meaning t = fold_left spec_step os (meaning s).
Proof. exact C52_quaternion_matrix_angle_axis_history_lemma. Qed.
Print Assumptions C52_quaternion_matrix_angle_axis_history.

(** a history with every operation, on an EulerAnglesZyx object *)
Example C52_any_history_ex : forall p,
  let s := RotZyx (mkZyx 1 0 2) in
  let os := [OpInvert; OpSetIdentity; OpMulRight (RotAA (mkAA 2 ez)); OpMulLeft (RotMat (Rot_z 1)); OpSetUnique; OpFix;
             OpAssign (RotXyz (mkXyz 1 2 3)); OpMulRight (RotVec vzero)] in
  valid s /\ exact_operand p s /\ steps_ok p (kind_of s) (meaning s) os /\
  fold_left spec_step os (meaning s) = xyz_rot (mkXyz 1 2 3).
Proof. exact Claims3.C52_any_history_ex. Qed.
