From Coq Require Import Reals Lra Psatz Bool List ZArith Lia.
From Verif Require Import Linalg Spec SpecAccess ModelCommon ModelEigen ModelRotation ModelDebug ModelAccess CommonFacts QuatDebugFacts.
Local Open Scope R_scope.
Import ListNotations.

Lemma last_write_app a b f v : last_write (a ++ b) f v = last_write b f (last_write a f v).
Proof. revert v; induction a as [|[g x] a IH]; intros v; cbn; [reflexivity|apply IH]. Qed.

Definition addr (c : cls) (f : field) : nat :=
  match c, f with
  | _, Real => 3 | _, ImagI => 0 | _, ImagJ => 1 | _, ImagK => 2
  | _, Angle => 3 | _, Axis1 => 0 | _, Axis2 => 1 | _, Axis3 => 2
  | _, Entry1 => 0 | _, Entry2 => 1 | _, Entry3 => 2
  | CZyx, Yaw => 0 | _, Yaw => 2 | _, Pitch => 1
  | CZyx, Roll => 2 | _, Roll => 0
  | _, Row i j => i + 3 * j
  end%nat.
Definition fields (c : cls) : list field :=
  match c with
  | CQuaternion | CUnitQuaternion | CRotQuat => [Real; ImagI; ImagJ; ImagK]
  | CAngleAxis => [Angle; Axis1; Axis2; Axis3]
  | CRotVec => [Entry1; Entry2; Entry3]
  | CRotMat => [Row 0 0; Row 0 1; Row 0 2; Row 1 0; Row 1 1; Row 1 2; Row 2 0; Row 2 1; Row 2 2]
  | CZyx => [Yaw; Pitch; Roll]
  | CXyz => [Roll; Pitch; Yaw]
  end.
Lemma get_addr {c} (g : getter c) m : get g m = map (fun f => m (addr c f)) (names g).
Proof. destruct g; reflexivity. Qed.
Lemma names_fields {c} (g : getter c) f : In f (names g) -> In f (fields c).
Proof. destruct g; cbn; intuition. Qed.
Definition full (c : cls) : getter c :=
  match c with
  | CQuaternion => Quaternion_vector | CUnitQuaternion => Unit_vector | CRotQuat => RotQuat_vector
  | CAngleAxis => AA_vector | CRotVec => RV_vector | CRotMat => Mat_matrix | CZyx => Zyx_vector | CXyz => Xyz_vector
  end.
Lemma full_fields c : names (full c) = fields c.
Proof. destruct c; reflexivity. Qed.
Ltac cells :=
  repeat match goal with H : In _ (fields _) |- _ => cbn in H | H : _ \/ _ |- _ => destruct H | H : False |- _ => destruct H end;
  subst; cbn; reflexivity.
Lemma set_addr {c} (s : setter c) m f : In f (fields c) ->
  set s m (addr c f) = last_write (assigns s) f (m (addr c f)).
Proof. intros H. destruct s; cells. Qed.
Lemma build_addr {c} (k : ctor c) m f d : In f (fields c) ->
  build k m (addr c f) = last_write (given k) f d.
Proof. intros H. destruct k; cells. Qed.
Lemma set_all_addr {c} (hs : list (setter c)) : forall m f, In f (fields c) ->
  set_all hs m (addr c f) = last_write (flat_map assigns hs) f (m (addr c f)).
Proof.
  induction hs as [|s hs IH]; intros m f H; [reflexivity|].
  unfold set_all in *. cbn. rewrite IH, set_addr, last_write_app by exact H. reflexivity.
Qed.
Lemma map_point {A B} (u v : A -> B) l : map u l = map v l -> forall x, In x l -> u x = v x.
Proof.
  induction l as [|a l IH]; cbn; [tauto|]. intros E x [->|I]; [injection E; auto|injection E; auto].
Qed.
Lemma before_addr c m before : (forall g : getter c, get g m = map before (names g)) ->
  forall f, In f (fields c) -> m (addr c f) = before f.
Proof.
  intros H f I. pose proof (H (full c)) as E. rewrite get_addr, full_fields in E.
  exact (map_point _ _ _ E f I).
Qed.
Lemma object_denotes c m : meaning (object c m) = denotes c (fun f => m (addr c f)).
Proof. destruct c; reflexivity. Qed.
Lemma denotes_ext c u v : (forall f, In f (fields c) -> u f = v f) -> denotes c u = denotes c v.
Proof. intros H. destruct c; cbn in *; repeat rewrite H by auto 12; reflexivity. Qed.
