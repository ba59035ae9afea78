(** * SpecFloatQ: specification vocabulary for statements about rounding.
    Distances of real quaternions and vectors; the unit roundoff; the real
    value of a tuple of floating-point numbers. *)
From Coq Require Import Reals ZArith List.
From Flocq Require Import IEEE754.BinarySingleNaN Core.Core.
From Verif Require Import Linalg Spec SpecClose ModelCommon FloatModel FloatModel2.
Import ListNotations.
Local Open Scope R_scope.

(** unit roundoff: 2^-24 for float, 2^-53 for double *)
Definition roundoff (p : prim) : R := match p with F32 => / 2 ^ 24 | F64 => / 2 ^ 53 end.
(** what underflow can add: 2^-145 for float, 2^-1070 for double *)
Definition underflow (p : prim) : R := match p with F32 => bpow radix2 (-145) | F64 => bpow radix2 (-1070) end.

Definition qsub (a b : Quat) : Quat := mkQ (qw a - qw b) (qx a - qx b) (qy a - qy b) (qz a - qz b).
Definition qscale (s : R) (a : Quat) : Quat := mkQ (s * qw a) (s * qx a) (s * qy a) (s * qz a).
(** Euclidean distance *)
Definition qdist (a b : Quat) : R := qnorm (qsub a b).
Definition vdist (a b : V3) : R := vnorm (vsub a b).
(** the unit quaternion in the direction of [a] *)
Definition direction (a : Quat) : Quat := qscale (/ qnorm a) a.

(** real values *)
Definition qval {p} (q : FQ p) : Quat := mkQ (B2R (fw q)) (B2R (fx q)) (B2R (fy q)) (B2R (fz q)).
Definition qfinite {p} (q : FQ p) : Prop :=
  is_finite (fw q) = true /\ is_finite (fx q) = true /\ is_finite (fy q) = true /\ is_finite (fz q) = true.
Definition vval {p} (v : FV p) : V3 := mkV3 (B2R (gx v)) (B2R (gy v)) (B2R (gz v)).
Definition vfinite {p} (v : FV p) : Prop := is_finite (gx v) = true /\ is_finite (gy v) = true /\ is_finite (gz v) = true.
Definition mval {p} (m : FM p) : M33 :=
  mkM33 (B2R (gx (r0 m))) (B2R (gy (r0 m))) (B2R (gz (r0 m)))
        (B2R (gx (r1 m))) (B2R (gy (r1 m))) (B2R (gz (r1 m)))
        (B2R (gx (r2 m))) (B2R (gy (r2 m))) (B2R (gz (r2 m))).
Definition mfinite {p} (m : FM p) : Prop := vfinite (r0 m) /\ vfinite (r1 m) /\ vfinite (r2 m).

(** [a] and the unit quaternion [e] stand for the same rotation, up to an error
    [d] in the direction of the quaternion (quaternions of either sign stand for
    the same rotation). *)
Definition turned_like (d : R) (a e : Quat) : Prop :=
  exists s : R, (s = 1 \/ s = -1) /\ qdist (direction a) (qscale s e) <= d.

(** ** Histories of a floating-point quaternion object.
    Each call comes with the unit quaternion its operand is meant to be; the
    operand itself is that quaternion up to [A] roundings. *)
Definition fcall (p : prim) : Type := (fop p * Quat)%type.
Definition fcall_ok {p} (A : R) (c : fcall p) : Prop :=
  match c with
  | (FMulRight o b, e) | (FMulLeft o b, e) =>
      orders4_ok o /\ qfinite b /\ qnorm e = 1 /\ qdist (qval b) e <= A * roundoff p
  | (FAssign b, e) => qfinite b /\ qnorm e = 1 /\ qdist (qval b) e <= A * roundoff p
  | (FFix t _, _) => order 4 t
  | _ => True
  end.
(** the same calls on the intended quaternions, in exact arithmetic *)
Definition intended_step {p} (e : Quat) (c : fcall p) : Quat :=
  match c with
  | (FMulRight _ _, b) => hamilton e b
  | (FMulLeft _ _, b) => hamilton b e
  | (FAssign _, b) => b
  | (FInvert, _) => conj e
  | (FSetUnique, _) | (FFix _ _, _) => e
  end.
Definition intended {p} (e : Quat) (l : list (fcall p)) : Quat := fold_left intended_step l e.
(** number of products since the last fix() or assignment *)
Definition products_step {p} (k : nat) (c : fcall p) : nat :=
  match fst c with FMulRight _ _ | FMulLeft _ _ => S k | FAssign _ | FFix _ _ => 0%nat | _ => k end.
Definition products {p} (k : nat) (l : list (fcall p)) : nat := fold_left products_step l k.
(** at most [K] products between two calls of fix() or assignments *)
Fixpoint fixed_every {p} (K k : nat) (l : list (fcall p)) : Prop :=
  (k <= K)%nat /\ match l with [] => True | c :: l => fixed_every K (products_step k c) l end.

(** ** Histories of a floating-point rotation matrix object: each call comes with
    the rotation matrix its operand is meant to be, up to [A] roundings. *)
Definition fmcall (p : prim) : Type := (fmop p * M33)%type.
Definition fmcall_ok {p} (A : R) (c : fmcall p) : Prop :=
  match c with
  | (MMulRight o b, e) | (MMulLeft o b, e) => orders9_ok o /\ mfinite b /\ SO3 e /\ close (A * roundoff p) (mval b) e
  | (MAssign b, e) => mfinite b /\ SO3 e /\ close (A * roundoff p) (mval b) e
  | (MInvert, _) => True
  end.
Definition mintended_step {p} (e : M33) (c : fmcall p) : M33 :=
  match c with
  | (MMulRight _ _, b) => mmul e b
  | (MMulLeft _ _, b) => mmul b e
  | (MAssign _, b) => b
  | (MInvert, _) => mtrans e
  end.
Definition mintended {p} (e : M33) (l : list (fmcall p)) : M33 := fold_left mintended_step l e.
