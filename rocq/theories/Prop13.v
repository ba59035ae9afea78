(** Generated by tools/genprops.py from Claims13.v: the property theorems only. *)
From Coq Require Import Reals Lra Psatz Bool.
From Verif Require Import Linalg Spec SpecFacts ModelCommon ModelEigen ModelRotation CommonFacts ConvFacts RVFacts Windows RotFacts UniqueFacts MetricFacts EulerFacts EqFacts MixedEq.
Local Open Scope R_scope.
From Verif Require Import Claims13.

(** C20: a true answer of operator== implies that the two objects denote the
    same rotation, for any two classes for which == instantiates except an
    AngleAxis left operand (C19), outside the tolerance windows. *)
Theorem C20_cross_class_sound : forall (p : prim) (l r : rotation), kind_of l <> KAA -> valid l -> valid r ->
  unique_exact p l -> unique_exact p r -> exact_conversion p (kind_of l) (get_unique p r) ->
  is_equal p l r = Some (Val true) -> meaning l = meaning r.
Proof. exact C20_cross_class_sound_lemma. Qed.
Print Assumptions C20_cross_class_sound.

Example C20_cross_class_sound_ex : forall p,
  is_equal p (RotMat mid) (RotZyx (mkZyx 0 0 0)) = Some (Val true) /\ unique_exact p (RotZyx (mkZyx 0 0 0)) /\
  exact_conversion p KMat (get_unique p (RotZyx (mkZyx 0 0 0))).
Proof. exact Claims13.C20_cross_class_sound_ex. Qed.

(** C20: EulerAngles (out of the gimbal bands) compared with a rotation of any
    other class is true exactly when both denote the same rotation and the
    unique first angle is not negative (and, for EulerAnglesZyx, the unique roll
    is not -pi). *)
Theorem C20_euler_left : forall (p : prim) (r : rotation), valid r -> unique_exact p r ->
  (forall e, pitch_clear (zpitch e) -> kind_of r <> KZyx -> exact_conversion p KZyx (get_unique p r) ->
     exists c u, is_equal p (RotZyx e) r = Some (Val c) /\ get_unique p (RotZyx e) = RotZyx u /\
       (c = true <-> zyx_rot e = meaning r /\ 0 <= zyaw u /\ zroll u <> - PI)) /\
  (forall e, pitch_clear (xpitch e) -> kind_of r <> KXyz -> exact_conversion p KXyz (get_unique p r) ->
     exists c u, is_equal p (RotXyz e) r = Some (Val c) /\ get_unique p (RotXyz e) = RotXyz u /\
       (c = true <-> xyz_rot e = meaning r /\ 0 <= xroll u)).
Proof. exact C20_euler_left_lemma. Qed.
Print Assumptions C20_euler_left.

Example C20_euler_left_ex : forall p, let r := RotMat (zyx_rot (mkZyx 1 0 (1/2))) in
  valid r /\ unique_exact p r /\ pitch_clear 0 /\ exact_conversion p KZyx (get_unique p r) /\
  is_equal p (RotZyx (mkZyx 1 0 (1/2))) r = Some (Val true).
Proof. exact Claims13.C20_euler_left_ex. Qed.

(** C20: a RotationVector on the left is compared exactly with a matrix whose
    rotation angle is below 120 degrees (positive trace) and with Euler angles
    whose rotation angle is not pi (trace above -1). *)
Theorem C20_vector_left : forall (p : prim) (v : V3), v = vzero \/ dummy_precision p <= vnorm v ->
  (forall m, SO3 m -> regular_angle p m -> 0 < mtrace m ->
     exists c, is_equal p (RotVec v) (RotMat m) = Some (Val c) /\ (c = true <-> vec_rot v = m)) /\
  (forall r, kind_of r = KZyx \/ kind_of r = KXyz -> unique_exact p r -> -1 < mtrace (meaning r) ->
     exists c, is_equal p (RotVec v) r = Some (Val c) /\ (c = true <-> vec_rot v = meaning r)).
Proof. exact C20_vector_left_lemma. Qed.
Print Assumptions C20_vector_left.

Example C20_vector_left_ex : forall p, regular_angle p mid /\ 0 < mtrace mid.
Proof. exact Claims13.C20_vector_left_ex. Qed.
