(** Floating-point model of twists (poses/Twist.hpp) for PrimType_ float or double. *)
From Coq Require Import ZArith Bool List.
From Flocq Require Import IEEE754.BinarySingleNaN Core.Core.
From Verif Require Import ModelCommon FloatModel FloatModel2 FloatModel3 FloatModel4 FloatModel7 FloatModel10 FloatModel12.
Import ListNotations.
Local Open Scope Z_scope.

(** the RotationDiff_ of a twist: angular velocities and the derivatives of a rotation
    quaternion and of a rotation matrix *)
Inductive frotdiff (p : prim) : Type := FLocal (w : FV p) | FGlobal (w : FV p) | FQuatDiff (d : FQ p) | FMatDiff (d : FM p).
Arguments FLocal {p}. Arguments FGlobal {p}. Arguments FQuatDiff {p}. Arguments FMatDiff {p}.
(** Twist.hpp:40-56: a translational velocity and a RotationDiff *)
Record ftwist (p : prim) : Type := mkFT { ftlin : FV p; ftrot : frotdiff p }.
Arguments mkFT {p}. Arguments ftlin {p}. Arguments ftrot {p}.
(** Eigen's head<3>() and tail<3>() of a 6-vector; Vector6::Zero() and two block<3,1> *)
Definition fhead3 {p} (v : fvec p) : FV p := mkFV (nth 0 v fzero) (nth 1 v fzero) (nth 2 v fzero).
Definition ftail3 {p} (v : fvec p) : FV p := mkFV (nth 3 v fzero) (nth 4 v fzero) (nth 5 v fzero).
Definition fblocks6 {p} (a b : FV p) : fvec p := [gx a; gy a; gz a; gx b; gy b; gz b].
(** getVector(rotation), Twist.hpp:73-80: the linear velocity, and
    LocalAngularVelocity(rotation, getRotationalVelocity()); [None]: no such conversion *)
Definition ftwist_getVector_rot {p} (L : libm) (c : choices6) (o o4 : orders3) (o9 : orders9) (t : ftwist p) (x : fobject p) : option (fvec p) :=
  match ftrot t, x with
  | FGlobal w, _ => Some (fblocks6 (ftlin t) (flocal_of_global L c o x w))
  | FQuatDiff d, OQuat q => Some (fblocks6 (ftlin t) (flocal_of_quatdiff o4 q d))
  | FMatDiff d, OMat m => Some (fblocks6 (ftlin t) (flocal_of_matdiff o9 m d))
  | _, _ => None
  end.
(** local and global twists: constructor from a 6-vector, getVector(), setVector(),
    Zero(), setZero(): Twist.hpp:92-103, 162-188, 225-251 *)
Definition flocal_twist_of_vector {p} (v : fvec p) : ftwist p := mkFT (fhead3 v) (FLocal (ftail3 v)).
Definition fglobal_twist_of_vector {p} (v : fvec p) : ftwist p := mkFT (fhead3 v) (FGlobal (ftail3 v)).
Definition flocal_twist_getVector {p} (t : ftwist p) : option (fvec p) := match ftrot t with FLocal w => Some (fblocks6 (ftlin t) w) | _ => None end.
Definition fglobal_twist_getVector {p} (t : ftwist p) : option (fvec p) := match ftrot t with FGlobal w => Some (fblocks6 (ftlin t) w) | _ => None end.
Definition flocal_twist_setVector {p} (t : ftwist p) (v : fvec p) : ftwist p := let t1 := mkFT (fhead3 v) (ftrot t) in mkFT (ftlin t1) (FLocal (ftail3 v)).
Definition fglobal_twist_setVector {p} (t : ftwist p) (v : fvec p) : ftwist p := let t1 := mkFT (fhead3 v) (ftrot t) in mkFT (ftlin t1) (FGlobal (ftail3 v)).
Definition fvzero3 (p : prim) : FV p := mkFV fzero fzero fzero.
Definition flocal_twist_zero (p : prim) : ftwist p := mkFT (fvzero3 p) (FLocal (fvzero3 p)).
Definition fglobal_twist_zero (p : prim) : ftwist p := mkFT (fvzero3 p) (FGlobal (fvzero3 p)).
