(** * SpecRates: the named rates of a time derivative of a rotation, and what
    the calls on such an object are documented to do with them. *)
From Coq Require Import Reals List Bool.
From Verif Require Import Linalg Spec.
Import ListNotations.
Local Open Scope R_scope.

(** The names under which rates are read and written: w(), x(), y(), z(),
    yaw(), pitch(), roll(), and the entry (i,j) of matrix(). *)
Inductive rate := W | X | Y | Z | Yaw' | Pitch' | Roll' | Entry (i j : nat).
(** The classes of derivatives. *)
Inductive dclass := QuatDiff | MatDiff | ZyxDiff | XyzDiff | LocalVel | GlobalVel.
(** The parameter a name stands for: for Euler angle rates z, y, x are other
    names of yaw, pitch, roll. *)
Definition parameter (c : dclass) (n : rate) : rate :=
  match c, n with
  | (ZyxDiff | XyzDiff), Z => Yaw'
  | (ZyxDiff | XyzDiff), Y => Pitch'
  | (ZyxDiff | XyzDiff), X => Roll'
  | _, _ => n
  end.
(** The names a class has. *)
Definition has_rate (c : dclass) (n : rate) : bool :=
  match c, n with
  | QuatDiff, (W | X | Y | Z) => true
  | MatDiff, Entry i j => (i <? 3)%nat && (j <? 3)%nat
  | (ZyxDiff | XyzDiff), (X | Y | Z | Yaw' | Pitch' | Roll') => true
  | (LocalVel | GlobalVel), (X | Y | Z) => true
  | _, _ => false
  end.
Definition rate_eq_dec (a b : rate) : {a = b} + {a <> b}.
Proof. decide equality; apply PeanoNat.Nat.eq_dec. Defined.
(** What vector() lists, in order. *)
Definition vector_order (c : dclass) : list rate :=
  match c with
  | QuatDiff => [W; X; Y; Z]
  | MatDiff => []
  | ZyxDiff => [Yaw'; Pitch'; Roll']
  | XyzDiff => [Roll'; Pitch'; Yaw']
  | LocalVel | GlobalVel => [X; Y; Z]
  end.
