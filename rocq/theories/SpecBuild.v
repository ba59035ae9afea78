(** * SpecBuild: what a rotation object holding floating-point numbers stands for. *)
From Coq Require Import Reals ZArith List.
From Flocq Require Import IEEE754.BinarySingleNaN Core.Core.
From Verif Require Import Linalg Spec ModelCommon FloatModel FloatModel2 FloatModel3 SpecFloatQ.
Import ListNotations.
Local Open Scope R_scope.

(** The real rotation object with the same numbers; the axis of an angle-axis is
    scaled to length one. *)
Definition source_value {p} (s : fsource p) : rotation :=
  match s with
  | SrcAA a n => RotAA (mkAA (B2R a) (vscale (/ vnorm (vval n)) (vval n)))
  | SrcRv v => RotVec (vval v)
  | SrcZyx z y x => RotZyx (mkZyx (B2R z) (B2R y) (B2R x))
  | SrcXyz x y z => RotXyz (mkXyz (B2R x) (B2R y) (B2R z))
  end.
(** Finite numbers; the axis has length one up to [B] roundings, a rotation
    vector has length at most [V]. *)
Definition source_ok {p} (B V : R) (s : fsource p) : Prop :=
  match s with
  | SrcAA a n => is_finite a = true /\ vfinite n /\ Rabs (vnorm (vval n) - 1) <= B * roundoff p
  | SrcRv v => vfinite v /\ vnorm (vval v) <= V
  | SrcZyx a b c | SrcXyz a b c => is_finite a = true /\ is_finite b = true /\ is_finite c = true
  end.
(** number of roundings in the quaternion and in the matrix *)
Definition quat_roundings {p} (B : R) (s : fsource p) : R :=
  match s with SrcAA _ _ => B + 4 | SrcRv v => 7 + 4 * vnorm (vval v) | _ => 31 end.
Definition mat_roundings {p} (B : R) (s : fsource p) : R :=
  match s with SrcAA _ _ => 56 + 16 * B | SrcRv v => 68 + 28 * vnorm (vval v) | _ => 236 end.

(** ** Histories in exact arithmetic *)
Definition bop_ok {p} (B V : R) (c : bop p) : Prop :=
  match c with
  | BMulRight o b s | BMulLeft o b s => orders4_ok o /\ build_ok b /\ source_ok B V s
  | BAssign b s => build_ok b /\ source_ok B V s
  | BFix t _ => order 4 t
  | BInvert | BSetUnique => True
  end.
Definition bexact_step {p} (m : M33) (c : bop p) : M33 :=
  match c with
  | BMulRight _ _ s => mmul m (meaning (source_value s))
  | BMulLeft _ _ s => mmul (meaning (source_value s)) m
  | BAssign _ s => meaning (source_value s)
  | BInvert => mtrans m
  | BSetUnique | BFix _ _ => m
  end.
Definition bexact {p} (m : M33) (l : list (bop p)) : M33 := fold_left bexact_step l m.
(** number of products since the last fix() or assignment *)
Definition bproducts_step {p} (k : nat) (c : bop p) : nat :=
  match c with BMulRight _ _ _ | BMulLeft _ _ _ => S k | BAssign _ _ | BFix _ _ => 0%nat | BInvert | BSetUnique => k end.
Definition bproducts {p} (k : nat) (l : list (bop p)) : nat := fold_left bproducts_step l k.
(** at most [K] products between two calls of fix() or assignments *)
Fixpoint bfixed_every {p} (K k : nat) (l : list (bop p)) : Prop :=
  (k <= K)%nat /\ match l with [] => True | c :: l => bfixed_every K (bproducts_step k c) l end.

Definition bmop_ok {p} (B V : R) (c : bmop p) : Prop :=
  match c with
  | BMMulRight o b s | BMMulLeft o b s => orders9_ok o /\ build_ok b /\ source_ok B V s
  | BMAssign b s => build_ok b /\ source_ok B V s
  | BMInvert => True
  end.
Definition bmexact_step {p} (m : M33) (c : bmop p) : M33 :=
  match c with
  | BMMulRight _ _ s => mmul m (meaning (source_value s))
  | BMMulLeft _ _ s => mmul (meaning (source_value s)) m
  | BMAssign _ s => meaning (source_value s)
  | BMInvert => mtrans m
  end.
Definition bmexact {p} (m : M33) (l : list (bmop p)) : M33 := fold_left bmexact_step l m.
