(** * SpecTrip: converting a RotationQuaternion to a RotationMatrix and back, again
    and again. *)
From Coq Require Import Reals.
From Verif Require Import Linalg Spec ModelCommon ModelRotation.
Local Open Scope R_scope.

Definition vec_part (q : Quat) : V3 := mkV3 (qx q) (qy q) (qz q).
(** squared sine of half the rotation angle, for a unit quaternion *)
Definition half_sine2 (q : Quat) : R := vnorm2 (vec_part q).
(** [n] times: RotationMatrix m(q); q = RotationQuaternion(m); in exact arithmetic *)
Fixpoint round_trips (p : prim) (n : nat) (r : rotation) : outcome rotation :=
  match n with
  | O => Val r
  | S n => m <- convert p ModelRotation.KMat r ;; q <- convert p ModelRotation.KQuat m ;; round_trips p n q
  end.
