(** * SpecSecond: the matrix between the rates of Euler angles and the angular
    velocity, without looking at the code. *)
From Coq Require Import Reals.
From Verif Require Import Linalg Spec SpecDiff.
Local Open Scope R_scope.

(** [A e] takes the rates of the angles (roll, pitch, yaw) to the angular velocity in
    local coordinates, whatever the motion through [e] *)
Definition gives_local (A : Xyz -> M33) : Prop :=
  forall (c : R -> Xyz) (t : R) (d : V3), Xyzderiv c t d -> has_local_velocity (fun s => xyz_rot (c s)) t (mvmul (A (c t)) d).
Definition gives_global (A : Xyz -> M33) : Prop :=
  forall (c : R -> Xyz) (t : R) (d : V3), Xyzderiv c t d -> has_global_velocity (fun s => xyz_rot (c s)) t (mvmul (A (c t)) d).
(** [B e] is the inverse of [A e] wherever there is one *)
Definition inverts (B A : Xyz -> M33) : Prop := forall e, cos (xpitch e) <> 0 -> mmul (B e) (A e) = mid.
