(** * SpecXcast: how far a rotation object may move when it is constructed from an
    object holding numbers of another primitive type (float, double). *)
From Coq Require Import Reals ZArith List.
From Flocq Require Import IEEE754.BinarySingleNaN Core.Core.
From Verif Require Import Linalg Spec SpecClose ModelCommon FloatModel FloatModel2 FloatModel3 FloatModel4 FloatModel7 SpecFloatQ SpecLibm SpecBuild SpecExt SpecSix.
Local Open Scope R_scope.

(** 1 for the conversion from double to float, which rounds; the others are exact *)
Definition narrows (p q : prim) : R := match p, q with F64, F32 => 1 | _, _ => 0 end.
(** one rounding of type [p], in roundings of type [q] *)
Definition ratio (p q : prim) : R := roundoff p / roundoff q.
(** Angles and coefficients are not enormous (beyond the range of float) *)
Definition moderate {p} (x : fobject p) : Prop :=
  match x with
  | OSrc (SrcZyx a b c) | OSrc (SrcXyz a b c) => Rabs (B2R a) <= 2 ^ 100 /\ Rabs (B2R b) <= 2 ^ 100 /\ Rabs (B2R c) <= 2 ^ 100
  | _ => True
  end.
(** The axis of an AngleAxis is still legal, measured in roundings of type [q]. *)
Definition axis_legal {p} (q : prim) (x : fobject p) : Prop :=
  match x with
  | OSrc (SrcAA a n) => Rabs (vnorm (vval n) - 1) <= 18 * roundoff q \/ (Rabs (B2R a) <= 9 * roundoff q /\ 51/100 <= vnorm (vval n) <= 249/100)
  | _ => True
  end.
(** the defect of the converted object, in roundings of type [q] *)
Definition cast_defect (p q : prim) (k : okind) (A : R) : R :=
  match k with KQuat => A * ratio p q + 11/10 * narrows p q | KMat => A * ratio p q + 2 * narrows p q | KSrc _ => 0 end.
(** how far the rotation moves, in roundings of type [q] *)
Definition cast_roundings {p} (q : prim) (x : fobject p) : R :=
  narrows p q *
  match x with
  | OQuat _ => 5/2
  | OMat _ => 0
  | OSrc (SrcAA a _) => Rabs (B2R a) + 5/2
  | OSrc (SrcRv v) => vnorm (vval v) + / 100
  | OSrc (SrcZyx a b c) | OSrc (SrcXyz a b c) => Rabs (B2R a) + Rabs (B2R b) + Rabs (B2R c) + / 100
  end.
(** classes for which the numbers are converted first and everything else happens in
    the destination type *)
Definition casts_first (from to : okind) : bool :=
  match from, to with
  | KSrc SRv, KSrc SRv => true
  | KSrc SRv, _ => false
  | KQuat, KSrc SRv | KQuat, KSrc SZyx | KQuat, KSrc SXyz => false
  | _, _ => true
  end.
(** Euler angles computed in the source type and converted last *)
Definition casts_last (from to : okind) : bool :=
  match from, to with KSrc SRv, KSrc SZyx | KQuat, KSrc SZyx | KQuat, KSrc SXyz => true | _, _ => false end.
(** the numbers an object holds *)
Definition vnumbers {p} (v : FV p) : list (fl p) := (gx v :: gy v :: gz v :: nil)%list.
Definition numbers {p} (x : fobject p) : list (fl p) :=
  (match x with
   | OQuat a => fw a :: fx a :: fy a :: fz a :: nil
   | OMat m => vnumbers (r0 m) ++ vnumbers (r1 m) ++ vnumbers (r2 m)
   | OSrc (SrcAA a n) => a :: vnumbers n
   | OSrc (SrcRv v) => vnumbers v
   | OSrc (SrcZyx a b c) | OSrc (SrcXyz a b c) => a :: b :: c :: nil
   end)%list.
(** defect of a quaternion constructed from a rotation vector of the other type *)
Definition rv_defect (p q : prim) : R := 7 + 18 * narrows p q + 26 * ratio p q.
(** A double object ready for conversion to float: the axis has length one up to 20
    roundings; Euler angles add up to at most 100 *)
Definition float_ready (x : fobject F64) : Prop :=
  match x with
  | OSrc (SrcAA a n) => Rabs (vnorm (vval n) - 1) <= 20 * roundoff F64
  | OSrc (SrcZyx a b c) | OSrc (SrcXyz a b c) => Rabs (B2R a) + Rabs (B2R b) + Rabs (B2R c) <= 100
  | _ => True
  end.
