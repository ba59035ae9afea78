(** * ModelRates: calls on the time-derivative classes (rotations/*Diff.hpp,
    rotations/*AngularVelocity.hpp): accessors, writing accessors, +, -, +=,
    -=, scaling, setZero, constructors. *)
From Coq Require Import Reals List Bool.
From Verif Require Import Linalg Spec SpecRates ModelCommon ModelEigen ModelRotation ModelDiff.
Import ListNotations.
Local Open Scope R_scope.

Definition class_of (d : diff) : dclass :=
  match d with
  | DQuat _ => QuatDiff | DMat _ => MatDiff | DZyx _ => ZyxDiff | DXyz _ => XyzDiff
  | DLocal _ => LocalVel | DGlobal _ => GlobalVel
  end.
Definition kind_of_diff (d : diff) : dkind :=
  match d with
  | DQuat _ => KDQuat | DMat _ => KDMat | DZyx _ => KDZyx | DXyz _ => KDXyz
  | DLocal _ => KDLocal | DGlobal _ => KDGlobal
  end.
(** coefficient (i,j) of an Eigen 3x3 matrix *)
Definition mget (m : M33) (i j : nat) : option R :=
  match i, j with
  | 0, 0 => Some (m00 m) | 0, 1 => Some (m01 m) | 0, 2 => Some (m02 m)
  | 1, 0 => Some (m10 m) | 1, 1 => Some (m11 m) | 1, 2 => Some (m12 m)
  | 2, 0 => Some (m20 m) | 2, 1 => Some (m21 m) | 2, 2 => Some (m22 m)
  | _, _ => None
  end%nat.
Definition mset (m : M33) (i j : nat) (v : R) : option M33 :=
  let '(mkM33 a b c d e f g h k) := m in
  match i, j with
  | 0, 0 => Some (mkM33 v b c d e f g h k) | 0, 1 => Some (mkM33 a v c d e f g h k) | 0, 2 => Some (mkM33 a b v d e f g h k)
  | 1, 0 => Some (mkM33 a b c v e f g h k) | 1, 1 => Some (mkM33 a b c d v f g h k) | 1, 2 => Some (mkM33 a b c d e v g h k)
  | 2, 0 => Some (mkM33 a b c d e f v h k) | 2, 1 => Some (mkM33 a b c d e f g v k) | 2, 2 => Some (mkM33 a b c d e f g h v)
  | _, _ => None
  end%nat.
(** Index in the stored 3-vector.  EulerAnglesZyxDiff.hpp:137-220,
    EulerAnglesXyzDiff.hpp:137-220, Vector x()/y()/z() (VectorBase.hpp /
    Vector.hpp) for the velocities. *)
Definition zyx_index (n : rate) : option nat :=
  match n with Yaw' | Z => Some 0 | Pitch' | Y => Some 1 | Roll' | X => Some 2 | _ => None end%nat.
Definition xyz_index (n : rate) : option nat :=
  match n with Roll' | X => Some 0 | Pitch' | Y => Some 1 | Yaw' | Z => Some 2 | _ => None end%nat.
Definition vel_index (n : rate) : option nat :=
  match n with X => Some 0 | Y => Some 1 | Z => Some 2 | _ => None end%nat.
Definition vget (v : V3) (i : nat) : R := match i with 0%nat => vx v | 1%nat => vy v | _ => vz v end.
Definition vset (v : V3) (i : nat) (x : R) : V3 :=
  match i with 0%nat => mkV3 x (vy v) (vz v) | 1%nat => mkV3 (vx v) x (vz v) | _ => mkV3 (vx v) (vy v) x end.
(** Reading accessors *)
Definition dread (d : diff) (n : rate) : option R :=
  match d, n with
  (* Quaternion.hpp:170-184, inherited by RotationQuaternionDiff *)
  | DQuat q, W => Some (qw q) | DQuat q, X => Some (qx q) | DQuat q, Y => Some (qy q) | DQuat q, Z => Some (qz q)
  (* RotationMatrixDiff.hpp:112-145 *)
  | DMat m, Entry i j => mget m i j
  | DZyx v, n => option_map (vget v) (zyx_index n)
  | DXyz v, n => option_map (vget v) (xyz_index n)
  | (DLocal v | DGlobal v), n => option_map (vget v) (vel_index n)
  | _, _ => None
  end.
(** vector(): RotationQuaternionDiff (inherited, Quaternion.hpp:208-215),
    EulerAnglesZyxDiff.hpp:123-129, EulerAnglesXyzDiff.hpp:123-129,
    LocalAngularVelocity.hpp:110-116, GlobalAngularVelocity.hpp:116-122 *)
Definition dvector (d : diff) : list R :=
  match d with
  | DQuat q => [qw q; qx q; qy q; qz q]
  | DMat _ => []
  | DZyx v | DXyz v | DLocal v | DGlobal v => [vx v; vy v; vz v]
  end.
(** Writing accessors *)
Definition dwrite (d : diff) (n : rate) (x : R) : option diff :=
  match d, n with
  (* Quaternion.hpp:186-200 *)
  | DQuat q, W => Some (DQuat (mkQ x (qx q) (qy q) (qz q)))
  | DQuat q, X => Some (DQuat (mkQ (qw q) x (qy q) (qz q)))
  | DQuat q, Y => Some (DQuat (mkQ (qw q) (qx q) x (qz q)))
  | DQuat q, Z => Some (DQuat (mkQ (qw q) (qx q) (qy q) x))
  | DMat m, Entry i j => option_map DMat (mset m i j x)
  | DZyx v, n => option_map (fun i => DZyx (vset v i x)) (zyx_index n)
  | DXyz v, n => option_map (fun i => DXyz (vset v i x)) (xyz_index n)
  | DLocal v, n => option_map (fun i => DLocal (vset v i x)) (vel_index n)
  | DGlobal v, n => option_map (fun i => DGlobal (vset v i x)) (vel_index n)
  | _, _ => None
  end.
(** v += u, v -= u coefficient by coefficient (Vector.hpp operator+=, -=) *)
Definition vadd_to (v u : V3) : V3 := mkV3 (vx v + vx u) (vy v + vy u) (vz v + vz u).
Definition vsub_from (v u : V3) : V3 := mkV3 (vx v - vx u) (vy v - vy u) (vz v - vz u).

Inductive dcall : Type :=
| CallPlus (d : diff)          (* x = x + d *)
| CallMinus (d : diff)         (* x = x - d *)
| CallPlusAssign (d : diff)    (* x += d *)
| CallMinusAssign (d : diff)   (* x -= d *)
| CallTimes (f : R)            (* x = x * f, x = f * x *)
| CallSetZero                  (* x.setZero(), x = Zero() *)
| CallWrite (n : rate) (v : R) (* x.n() = v *)
| CallAssign (d : diff).       (* x = d *)
(** [None]: the call does not compile or link (RotationDiffBase declares += and
    -= for every class, RotationDiffBase.hpp:137-150, but defines them for none;
    only the velocity classes have their own: LocalAngularVelocity.hpp:163-179,
    GlobalAngularVelocity.hpp:169-185). *)
Definition dstep (x : diff) (c : dcall) : option diff :=
  match c with
  | CallPlus d => diff_add x d
  | CallMinus d => diff_sub x d
  | CallPlusAssign d =>
      match x, d with
      | DLocal v, (DLocal u | DGlobal u) => Some (DLocal (vadd_to v u))
      | DGlobal v, (DLocal u | DGlobal u) => Some (DGlobal (vadd_to v u))
      | _, _ => None
      end
  | CallMinusAssign d =>
      match x, d with
      | DLocal v, (DLocal u | DGlobal u) => Some (DLocal (vsub_from v u))
      | DGlobal v, (DLocal u | DGlobal u) => Some (DGlobal (vsub_from v u))
      | _, _ => None
      end
  | CallTimes f =>
      match x with
      | DLocal v => Some (DLocal (local_scale v f))
      | DGlobal v => Some (DGlobal (local_scale v f))
      | _ => None
      end
  | CallSetZero => Some (diff_zero (kind_of_diff x))
  | CallWrite n v => dwrite x n v
  | CallAssign d =>
      match x, d with
      | DQuat _, DQuat _ | DMat _, DMat _ | DZyx _, DZyx _ | DXyz _, DXyz _ | DLocal _, DLocal _ | DGlobal _, DGlobal _ => Some d
      | _, _ => None
      end
  end.
Fixpoint drun (x : diff) (l : list dcall) : option diff :=
  match l with
  | [] => Some x
  | c :: l => match dstep x c with Some y => drun y l | None => None end
  end.
