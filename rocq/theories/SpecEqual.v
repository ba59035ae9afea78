(** * SpecEqual: what operator== of floating-point rotation objects depends on. *)
From Coq Require Import Reals ZArith.
From Flocq Require Import IEEE754.BinarySingleNaN Core.Core.
From Verif Require Import Linalg Spec SpecClose ModelCommon FloatModel FloatModel2 FloatModel3 FloatModel4 FloatModel7 SpecFloatQ SpecLibm SpecBuild SpecExt SpecSix SpecBox SpecUnique.
Local Open Scope R_scope.

(** getUnique() keeps the rotation of the object: Euler angles up to 2^51 whose middle
    angle is further than 1e-3 from every odd multiple of pi/2; angle-axes with an axis
    of length one up to 20 roundings. *)
Definition clear_pitch (p : prim) (b : R) : Prop :=
  forall s k, s = 1 \/ s = -1 -> pitch_off b s k > / 1000 + wrap_error p b + 2 * roundoff F64.
Definition unique_safe {p} (x : fobject p) : Prop :=
  match x with
  | OQuat _ | OMat _ | OSrc (SrcRv _) => True
  | OSrc (SrcAA a n) => Rabs (vnorm (vval n) - 1) <= 20 * roundoff p
  | OSrc (SrcZyx a b c) | OSrc (SrcXyz a b c) =>
      Rabs (B2R a) <= 2 ^ 51 /\ Rabs (B2R b) <= 2 ^ 51 /\ Rabs (B2R c) <= 2 ^ 51 /\ clear_pitch p (B2R b)
  end.
(** how far it may move the rotation *)
Definition unique_change {p} (x : fobject p) : R :=
  match x with
  | OQuat _ | OMat _ => 0
  | OSrc (SrcAA _ _) => 132 * roundoff p
  | OSrc (SrcRv _) => unique_error p
  | OSrc (SrcZyx a b c) | OSrc (SrcXyz a b c) => euler_error p (B2R a) (B2R b) (B2R c)
  end.
(** what the comparison of the stored numbers leaves open: two matrices with the same
    numbers stand for rotations as far apart as their defects allow *)
Definition compare_error (p : prim) (kx ky : okind) (A B : R) : R :=
  conv_error p ky kx B + match kx with KMat => (A + conv_defect ky KMat B) * roundoff p | _ => 0 end.
