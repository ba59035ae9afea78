(** * SpecExt: AngleAxis, RotationVector and Euler angle objects holding
    floating-point numbers, the calls on them, and what they mean. *)
From Coq Require Import Reals ZArith List.
From Flocq Require Import IEEE754.BinarySingleNaN Core.Core.
From Verif Require Import Linalg Spec ModelCommon FloatModel FloatModel2 FloatModel3 FloatModel4 SpecFloatQ SpecBuild.
Import ListNotations.
Local Open Scope R_scope.

(** The axis has length one up to 20 roundings; or the angle is at most 10
    roundings and the axis has some length between 1/2 and 5/2. *)
Definition axis_ok {p} (a : fl p) (n : FV p) : Prop :=
  Rabs (vnorm (vval n) - 1) <= 20 * roundoff p \/ (Rabs (B2R a) <= 10 * roundoff p /\ 1/2 <= vnorm (vval n) <= 5/2).
(** No NaN, no infinity; angles of an AngleAxis and lengths of rotation vectors are
    at most [T]. *)
Definition object_ok {p} (T : R) (s : fsource p) : Prop :=
  match s with
  | SrcAA a n => is_finite a = true /\ vfinite n /\ Rabs (B2R a) <= T /\ axis_ok a n
  | SrcRv v => vfinite v /\ vnorm (vval v) <= T
  | SrcZyx a b c | SrcXyz a b c => is_finite a = true /\ is_finite b = true /\ is_finite c = true
  end.
(** the rotation the object stands for *)
Definition turns {p} (s : fsource p) : M33 := meaning (source_value s).

(** Roundings in an object of class [k] constructed from a quaternion that is [A]
    roundings off a unit quaternion *)
Definition extract_roundings (k : skind) (A : R) : R :=
  match k with SAA => 2 * A + 18 | SRv => 2 * A + 52 | SZyx | SXyz => 112 * A + 476 end.
(** how many roundings [A] may be: rotation vectors cannot be extracted from
    quaternions that are further off *)
Definition extract_limit (k : skind) : R := match k with SRv => 76 | SAA | SZyx | SXyz => 1200 end.
(** conversions that replace rotation vectors shorter than 1e-5 (float), 1e-12
    (double) by the identity *)
Definition drops_short (from to : skind) : bool := match from, to with SRv, SAA | SRv, SXyz => true | _, _ => false end.
Definition short_length (p : prim) : R := match p with F32 => / 10 ^ 5 | F64 => / 10 ^ 12 end.

(** ** Histories *)
Definition sop_ok {p} (c : sop p * choices) : Prop :=
  choices_ok (snd c) /\
  match fst c with SMulRight t | SMulLeft t | SAssign t => object_ok (64/10) t | SInvert | SSetIdentity | SConvert _ => True end.
Definition sexact_step {p} (m : M33) (c : sop p * choices) : M33 :=
  match fst c with
  | SMulRight t => mmul m (turns t)
  | SMulLeft t => mmul (turns t) m
  | SAssign t => turns t
  | SInvert => mtrans m
  | SSetIdentity => mid
  | SConvert _ => m
  end.
Definition sexact {p} (m : M33) (l : list (sop p * choices)) : M33 := fold_left sexact_step l m.
(** the class of the object *)
Definition skind_step {p} (k : skind) (c : sop p * choices) : skind := match fst c with SConvert k' => k' | _ => k end.
(** calls in which a rotation vector is converted to angle-axis or xyz-Euler angles *)
Definition sdrops_step {p} (k : skind) (c : sop p * choices) : nat :=
  match fst c with
  | SMulLeft t | SAssign t => if drops_short (skind_of t) k then 1 else 0
  | SConvert k' => if drops_short k k' then 1 else 0
  | _ => 0
  end%nat.
Fixpoint sdrops {p} (k : skind) (l : list (sop p * choices)) : nat :=
  match l with [] => 0 | c :: l => sdrops_step k c + sdrops (skind_step k c) l end%nat.
