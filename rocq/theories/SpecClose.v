(** * SpecClose: specification vocabulary for accuracy statements.
    Two matrices are [close d] when they send every vector to images that are
    at most [d] times the length of the vector apart (operator norm of the
    difference at most [d]). *)
From Coq Require Import Reals List.
From Verif Require Import Linalg Spec ModelCommon ModelRotation ModelHistory.
Local Open Scope R_scope.

Definition close (d : R) (a b : M33) : Prop :=
  forall v : V3, vnorm (vsub (mvmul a v) (mvmul b v)) <= d * vnorm v.

(** The object [r] rotates every vector as the matrix [m] does, up to a
    relative error [d]. *)
Definition rotates_like (p : prim) (d : R) (r : rotation) (m : M33) : Prop :=
  forall v : V3, exists u : V3, rotate p r v = Val u /\ vnorm (vsub u (mvmul m v)) <= d * vnorm v.

(** ** Histories without side conditions on the state.
    Calls allowed on an object of class [k]: every operand is a legal rotation
    of any class; excluded are only setUnique on Euler angles (C18: it is wrong
    at gimbal lock) and a matrix times a quaternion object (C58). *)
Definition op_total (k : kind) (o : rop) : Prop :=
  match o with
  | OpMulRight r => valid r
  | OpMulLeft r => valid r /\ (kind_of r = KMat -> k <> KQuat)
  | OpAssign r => valid r
  | OpSetUnique => k <> KZyx /\ k <> KXyz
  | _ => True
  end.
(** Calls on a quaternion object whose left operands are quaternions *)
Definition op_quat (o : rop) : Prop :=
  match o with OpMulRight r => valid r | OpAssign r => valid r | OpMulLeft r => valid r /\ kind_of r = KQuat | _ => True end.

(** Converting a quaternion object to a matrix object and back, [n] times *)
Fixpoint round_trips (p : prim) (n : nat) (q : Quat) : outcome Quat :=
  match n with
  | O => Val q
  | S n => m <- to_mat p (RotQuat q) ;; q' <- to_quat p (RotMat m) ;; round_trips p n q'
  end.

(** ** Periodic quantities: the distance of [a] and [b] on the circle of
    circumference [P]; multiples of the period. *)
Definition is_circular_distance (P a b d : R) : Prop :=
  0 <= d <= P / 2 /\ exists k : Z, Rabs (a - b - P * IZR k) = d.
Definition is_multiple (P a : R) : Prop := exists k : Z, a = P * IZR k.
Definition near_multiple (tol P a : R) : Prop := exists k : Z, Rabs (a - P * IZR k) < tol.
Definition just_above_multiple (tol P a : R) : Prop := exists k : Z, 0 <= a - P * IZR k < tol.

(** Documented accuracies: 1e-12 (double) and 1e-5 (float) for the truncated
    branches, 2^-52 and 2^-23 for the rounding unit. *)
Definition tolerance (p : prim) : R := match p with F32 => / 10 ^ 5 | F64 => / 10 ^ 12 end.
Definition machine_eps (p : prim) : R := match p with F32 => / 2 ^ 23 | F64 => / 2 ^ 52 end.
