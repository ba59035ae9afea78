(** * SpecPose: rigid motions of space, six-vectors. *)
From Coq Require Import Reals Lra List.
From Verif Require Import Linalg Spec ModelCommon ModelRotation ModelQuaternion Windows ModelPose.
Import ListNotations.
Local Open Scope R_scope.

(** The rigid motion x |-> A x + t. *)
Definition motion (A : M33) (t : V3) (x : V3) : V3 := vadd (mvmul A x) t.
(** What a pose denotes. *)
Definition pose_motion (T : pose) : V3 -> V3 := motion (meaning (prot T)) (ppos T).
(** A legal pose: its rotation is legal and outside the truncation window of
    short rotation vectors (no restriction for the five other classes). *)
Definition pose_ok (p : prim) (T : pose) : Prop := valid (prot T) /\ exact_operand p (prot T).
(** Distance of two points. *)
Definition dist (x y : V3) : R := vnorm (vsub x y).

(** Product of 4x4 matrices and action on homogeneous coordinates (x,1). *)
Definition row_dot (a b : Quat) : R := qw a * qw b + qx a * qx b + qy a * qy b + qz a * qz b.
Definition col44 (m : M44) (f : Quat -> R) : Quat := mkQ (f (row0 m)) (f (row1 m)) (f (row2 m)) (f (row3 m)).
Definition row_mul (r : Quat) (m : M44) : Quat :=
  mkQ (row_dot r (col44 m qw)) (row_dot r (col44 m qx)) (row_dot r (col44 m qy)) (row_dot r (col44 m qz)).
Definition m44_mul (a b : M44) : M44 :=
  mkM44 (row_mul (row0 a) b) (row_mul (row1 a) b) (row_mul (row2 a) b) (row_mul (row3 a) b).
Definition m44_act (m : M44) (x : V3) : Quat :=
  let h := mkQ (vx x) (vy x) (vz x) 1 in
  mkQ (row_dot (row0 m) h) (row_dot (row1 m) h) (row_dot (row2 m) h) (row_dot (row3 m) h).
Definition m44_id : M44 := mkM44 (mkQ 1 0 0 0) (mkQ 0 1 0 0) (mkQ 0 0 1 0) (mkQ 0 0 0 1).

(** The six coefficients in order. *)
Definition coeffs (v : V6) : list R := [c0 v; c1 v; c2 v; c3 v; c4 v; c5 v].
Definition coeffs3 (v : V3) : list R := [vx v; vy v; vz v].
