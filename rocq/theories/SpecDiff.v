(** * SpecDiff: what angular velocities and derivatives of rotations mean.

    Derivatives are the standard library's [derivable_pt_lim] (the epsilon-
    delta derivative of a real function), taken coefficient by coefficient
    along a curve of values. Nothing here looks at the code. *)
From Coq Require Import Reals Lra.
From Verif Require Import Linalg Spec.
Local Open Scope R_scope.

(** [c] has derivative [d] at time [t]. *)
Definition Vderiv (c : R -> V3) (t : R) (d : V3) : Prop :=
  derivable_pt_lim (fun s => vx (c s)) t (vx d) /\
  derivable_pt_lim (fun s => vy (c s)) t (vy d) /\
  derivable_pt_lim (fun s => vz (c s)) t (vz d).
Definition Qderiv (c : R -> Quat) (t : R) (d : Quat) : Prop :=
  derivable_pt_lim (fun s => qw (c s)) t (qw d) /\
  derivable_pt_lim (fun s => qx (c s)) t (qx d) /\
  derivable_pt_lim (fun s => qy (c s)) t (qy d) /\
  derivable_pt_lim (fun s => qz (c s)) t (qz d).
Definition Mderiv (c : R -> M33) (t : R) (d : M33) : Prop :=
  (derivable_pt_lim (fun s => m00 (c s)) t (m00 d) /\
   derivable_pt_lim (fun s => m01 (c s)) t (m01 d) /\
   derivable_pt_lim (fun s => m02 (c s)) t (m02 d)) /\
  (derivable_pt_lim (fun s => m10 (c s)) t (m10 d) /\
   derivable_pt_lim (fun s => m11 (c s)) t (m11 d) /\
   derivable_pt_lim (fun s => m12 (c s)) t (m12 d)) /\
  (derivable_pt_lim (fun s => m20 (c s)) t (m20 d) /\
   derivable_pt_lim (fun s => m21 (c s)) t (m21 d) /\
   derivable_pt_lim (fun s => m22 (c s)) t (m22 d)).
(** yaw, pitch, roll have the rates [d] in storage order. *)
Definition Zyxderiv (c : R -> Zyx) (t : R) (d : V3) : Prop :=
  derivable_pt_lim (fun s => zyaw (c s)) t (vx d) /\
  derivable_pt_lim (fun s => zpitch (c s)) t (vy d) /\
  derivable_pt_lim (fun s => zroll (c s)) t (vz d).
(** roll, pitch, yaw have the rates [d] in storage order. *)
Definition Xyzderiv (c : R -> Xyz) (t : R) (d : V3) : Prop :=
  derivable_pt_lim (fun s => xroll (c s)) t (vx d) /\
  derivable_pt_lim (fun s => xpitch (c s)) t (vy d) /\
  derivable_pt_lim (fun s => xyaw (c s)) t (vz d).

(** The rotating frame [c] (rotation from local to global coordinates) has, at
    time [t], the angular velocity [w] expressed in local coordinates:
    c' = c [w]x ... *)
Definition has_local_velocity (c : R -> M33) (t : R) (w : V3) : Prop :=
  Mderiv c t (mmul (c t) (mcross w)).
(** ... or in global coordinates: c' = [w]x c. *)
Definition has_global_velocity (c : R -> M33) (t : R) (w : V3) : Prop :=
  Mderiv c t (mmul (mcross w) (c t)).
