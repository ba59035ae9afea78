(** * SpecAccess: the named parameters of an object and what its setters and
    accessors are documented to do with them.  Nothing here mentions where a
    parameter is stored. *)
From Coq Require Import Reals List Bool Arith.
From Verif Require Import Linalg Spec.
Import ListNotations.
Local Open Scope R_scope.

(** The classes with named parameters. *)
Inductive cls := CQuaternion | CUnitQuaternion | CRotQuat | CAngleAxis | CRotVec | CRotMat | CZyx | CXyz.

(** The parameters. *)
Inductive field :=
| Real | ImagI | ImagJ | ImagK          (* quaternions: w + x i + y j + z k *)
| Angle | Axis1 | Axis2 | Axis3         (* angle axis *)
| Entry1 | Entry2 | Entry3              (* rotation vector *)
| Yaw | Pitch | Roll                    (* Euler angles *)
| Row (i j : nat).                      (* entry in row i, column j *)
Definition field_eq_dec (f g : field) : {f = g} + {f <> g}.
Proof. decide equality; apply Nat.eq_dec. Defined.

(** The calls that write parameters. *)
Inductive setter : cls -> Type :=
| Quaternion_w (v : R) : setter CQuaternion
| Quaternion_x (v : R) : setter CQuaternion
| Quaternion_y (v : R) : setter CQuaternion
| Quaternion_z (v : R) : setter CQuaternion
| Quaternion_setZero : setter CQuaternion
| Quaternion_assign (q : Quat) : setter CQuaternion        (* = and () *)
| Unit_w (v : R) : setter CUnitQuaternion
| Unit_x (v : R) : setter CUnitQuaternion
| Unit_y (v : R) : setter CUnitQuaternion
| Unit_z (v : R) : setter CUnitQuaternion
| Unit_assign (q : Quat) : setter CUnitQuaternion          (* = and () UnitQuaternion *)
| Unit_paren (q : Quat) : setter CUnitQuaternion           (* () Quaternion *)
| RotQuat_w (v : R) : setter CRotQuat
| RotQuat_x (v : R) : setter CRotQuat
| RotQuat_y (v : R) : setter CRotQuat
| RotQuat_z (v : R) : setter CRotQuat
| RotQuat_setValues (w x y z : R) : setter CRotQuat
| RotQuat_setParts (re : R) (im : V3) : setter CRotQuat
| RotQuat_assign (q : Quat) : setter CRotQuat              (* = and () UnitQuaternion *)
| RotQuat_paren (q : Quat) : setter CRotQuat               (* () Quaternion *)
| RotQuat_setIdentity : setter CRotQuat
| AA_setAngle (v : R) : setter CAngleAxis
| AA_setAxis (v : V3) : setter CAngleAxis
| AA_setAxis3 (a b c : R) : setter CAngleAxis
| AA_setVector (angle a b c : R) : setter CAngleAxis
| AA_setIdentity : setter CAngleAxis
| RV_setX (v : R) : setter CRotVec
| RV_setY (v : R) : setter CRotVec
| RV_setZ (v : R) : setter CRotVec
| RV_setVector3 (x y z : R) : setter CRotVec
| RV_setVector (v : V3) : setter CRotVec
| RV_setIdentity : setter CRotVec
| Mat_setMatrix (m : M33) : setter CRotMat
| Mat_setMatrix9 (r11 r12 r13 r21 r22 r23 r31 r32 r33 : R) : setter CRotMat
| Mat_setIdentity : setter CRotMat
| Zyx_setYaw (v : R) : setter CZyx
| Zyx_setPitch (v : R) : setter CZyx
| Zyx_setRoll (v : R) : setter CZyx
| Zyx_setZ (v : R) : setter CZyx
| Zyx_setY (v : R) : setter CZyx
| Zyx_setX (v : R) : setter CZyx
| Zyx_setIdentity : setter CZyx
| Xyz_setRoll (v : R) : setter CXyz
| Xyz_setPitch (v : R) : setter CXyz
| Xyz_setYaw (v : R) : setter CXyz
| Xyz_setX (v : R) : setter CXyz
| Xyz_setY (v : R) : setter CXyz
| Xyz_setZ (v : R) : setter CXyz
| Xyz_setIdentity : setter CXyz.

(** The calls that read parameters. *)
Inductive getter : cls -> Type :=
| Quaternion_get_w : getter CQuaternion | Quaternion_get_x : getter CQuaternion
| Quaternion_get_y : getter CQuaternion | Quaternion_get_z : getter CQuaternion
| Quaternion_real : getter CQuaternion | Quaternion_imaginary : getter CQuaternion
| Quaternion_vector : getter CQuaternion
| Unit_get_w : getter CUnitQuaternion | Unit_get_x : getter CUnitQuaternion
| Unit_get_y : getter CUnitQuaternion | Unit_get_z : getter CUnitQuaternion
| Unit_real : getter CUnitQuaternion | Unit_imaginary : getter CUnitQuaternion
| Unit_vector : getter CUnitQuaternion
| RotQuat_get_w : getter CRotQuat | RotQuat_get_x : getter CRotQuat
| RotQuat_get_y : getter CRotQuat | RotQuat_get_z : getter CRotQuat
| RotQuat_real : getter CRotQuat | RotQuat_imaginary : getter CRotQuat
| RotQuat_vector : getter CRotQuat
| AA_angle : getter CAngleAxis | AA_axis : getter CAngleAxis | AA_vector : getter CAngleAxis
| RV_x : getter CRotVec | RV_y : getter CRotVec | RV_z : getter CRotVec | RV_vector : getter CRotVec
| Mat_matrix : getter CRotMat                               (* listed row by row *)
| Zyx_yaw : getter CZyx | Zyx_pitch : getter CZyx | Zyx_roll : getter CZyx
| Zyx_z : getter CZyx | Zyx_y : getter CZyx | Zyx_x : getter CZyx | Zyx_vector : getter CZyx
| Xyz_roll : getter CXyz | Xyz_pitch : getter CXyz | Xyz_yaw : getter CXyz
| Xyz_x : getter CXyz | Xyz_y : getter CXyz | Xyz_z : getter CXyz | Xyz_vector : getter CXyz.

Definition quat_fields (q : Quat) : list (field * R) :=
  [(Real, qw q); (ImagI, qx q); (ImagJ, qy q); (ImagK, qz q)].
Definition mat_fields (m : M33) : list (field * R) :=
  [(Row 0 0, m00 m); (Row 0 1, m01 m); (Row 0 2, m02 m);
   (Row 1 0, m10 m); (Row 1 1, m11 m); (Row 1 2, m12 m);
   (Row 2 0, m20 m); (Row 2 1, m21 m); (Row 2 2, m22 m)].
(** Which parameters a call writes, and with what. *)
Definition assigns {c : cls} (s : setter c) : list (field * R) :=
  match s with
  | Quaternion_w v | Unit_w v | RotQuat_w v => [(Real, v)]
  | Quaternion_x v | Unit_x v | RotQuat_x v => [(ImagI, v)]
  | Quaternion_y v | Unit_y v | RotQuat_y v => [(ImagJ, v)]
  | Quaternion_z v | Unit_z v | RotQuat_z v => [(ImagK, v)]
  | Quaternion_setZero => quat_fields (mkQ 0 0 0 0)
  | Quaternion_assign q | Unit_assign q | Unit_paren q | RotQuat_assign q | RotQuat_paren q => quat_fields q
  | RotQuat_setValues w x y z => quat_fields (mkQ w x y z)
  | RotQuat_setParts re im => [(Real, re); (ImagI, vx im); (ImagJ, vy im); (ImagK, vz im)]
  | RotQuat_setIdentity => quat_fields (mkQ 1 0 0 0)
  | AA_setAngle v => [(Angle, v)]
  | AA_setAxis v => [(Axis1, vx v); (Axis2, vy v); (Axis3, vz v)]
  | AA_setAxis3 a b c => [(Axis1, a); (Axis2, b); (Axis3, c)]
  | AA_setVector t a b c => [(Angle, t); (Axis1, a); (Axis2, b); (Axis3, c)]
  | AA_setIdentity => [(Angle, 0); (Axis1, 1); (Axis2, 0); (Axis3, 0)]
  | RV_setX v => [(Entry1, v)]
  | RV_setY v => [(Entry2, v)]
  | RV_setZ v => [(Entry3, v)]
  | RV_setVector3 x y z => [(Entry1, x); (Entry2, y); (Entry3, z)]
  | RV_setVector v => [(Entry1, vx v); (Entry2, vy v); (Entry3, vz v)]
  | RV_setIdentity => [(Entry1, 0); (Entry2, 0); (Entry3, 0)]
  | Mat_setMatrix m => mat_fields m
  | Mat_setMatrix9 a b c d e f g h i => mat_fields (mkM33 a b c d e f g h i)
  | Mat_setIdentity => mat_fields mid
  | Zyx_setYaw v | Zyx_setZ v | Xyz_setYaw v | Xyz_setZ v => [(Yaw, v)]
  | Zyx_setPitch v | Zyx_setY v | Xyz_setPitch v | Xyz_setY v => [(Pitch, v)]
  | Zyx_setRoll v | Zyx_setX v | Xyz_setRoll v | Xyz_setX v => [(Roll, v)]
  | Zyx_setIdentity | Xyz_setIdentity => [(Yaw, 0); (Pitch, 0); (Roll, 0)]
  end.
(** Which parameters a call returns, in order. *)
Definition names {c : cls} (g : getter c) : list field :=
  match g with
  | Quaternion_get_w | Unit_get_w | RotQuat_get_w | Quaternion_real | Unit_real | RotQuat_real => [Real]
  | Quaternion_get_x | Unit_get_x | RotQuat_get_x => [ImagI]
  | Quaternion_get_y | Unit_get_y | RotQuat_get_y => [ImagJ]
  | Quaternion_get_z | Unit_get_z | RotQuat_get_z => [ImagK]
  | Quaternion_imaginary | Unit_imaginary | RotQuat_imaginary => [ImagI; ImagJ; ImagK]
  | Quaternion_vector | Unit_vector | RotQuat_vector => [Real; ImagI; ImagJ; ImagK]
  | AA_angle => [Angle]
  | AA_axis => [Axis1; Axis2; Axis3]
  | AA_vector => [Angle; Axis1; Axis2; Axis3]
  | RV_x => [Entry1] | RV_y => [Entry2] | RV_z => [Entry3]
  | RV_vector => [Entry1; Entry2; Entry3]
  | Mat_matrix => [Row 0 0; Row 0 1; Row 0 2; Row 1 0; Row 1 1; Row 1 2; Row 2 0; Row 2 1; Row 2 2]
  | Zyx_yaw | Zyx_z | Xyz_yaw | Xyz_z => [Yaw]
  | Zyx_pitch | Zyx_y | Xyz_pitch | Xyz_y => [Pitch]
  | Zyx_roll | Zyx_x | Xyz_roll | Xyz_x => [Roll]
  | Zyx_vector => [Yaw; Pitch; Roll]
  | Xyz_vector => [Roll; Pitch; Yaw]
  end.

(** The last value written to parameter [f] by a sequence of assignments, the
    value [v] from before if there was none. *)
Fixpoint last_write (ws : list (field * R)) (f : field) (v : R) : R :=
  match ws with
  | [] => v
  | (g, x) :: ws => last_write ws f (if field_eq_dec g f then x else v)
  end.

(** The rotation denoted by the named parameters (rotation classes). *)
Definition denotes (c : cls) (f : field -> R) : M33 :=
  match c with
  | CQuaternion | CUnitQuaternion | CRotQuat => quat_rot (mkQ (f Real) (f ImagI) (f ImagJ) (f ImagK))
  | CAngleAxis => aa_rot (mkAA (f Angle) (mkV3 (f Axis1) (f Axis2) (f Axis3)))
  | CRotVec => vec_rot (mkV3 (f Entry1) (f Entry2) (f Entry3))
  | CRotMat => mkM33 (f (Row 0 0)%nat) (f (Row 0 1)%nat) (f (Row 0 2)%nat)
                     (f (Row 1 0)%nat) (f (Row 1 1)%nat) (f (Row 1 2)%nat)
                     (f (Row 2 0)%nat) (f (Row 2 1)%nat) (f (Row 2 2)%nat)
  | CZyx => zyx_rot (mkZyx (f Yaw) (f Pitch) (f Roll))
  | CXyz => xyz_rot (mkXyz (f Roll) (f Pitch) (f Yaw))
  end.

(** Constructors from parameters, and default constructors. *)
Inductive ctor : cls -> Type :=
| Quaternion_default : ctor CQuaternion
| Quaternion_ctor4 (w x y z : R) : ctor CQuaternion
| Quaternion_ctor_parts (re : R) (im : V3) : ctor CQuaternion
| Quaternion_ctor_vec (v0 v1 v2 v3 : R) : ctor CQuaternion
| Unit_default : ctor CUnitQuaternion
| Unit_ctor4 (w x y z : R) : ctor CUnitQuaternion
| Unit_ctor_parts (re : R) (im : V3) : ctor CUnitQuaternion
| Unit_ctor_vec (v0 v1 v2 v3 : R) : ctor CUnitQuaternion
| RotQuat_default : ctor CRotQuat
| RotQuat_ctor4 (w x y z : R) : ctor CRotQuat
| RotQuat_ctor_parts (re : R) (im : V3) : ctor CRotQuat
| RotQuat_ctor_vec (v0 v1 v2 v3 : R) : ctor CRotQuat
| AA_default : ctor CAngleAxis
| AA_ctor4 (angle a b c : R) : ctor CAngleAxis
| AA_ctor_parts (angle : R) (axis : V3) : ctor CAngleAxis
| AA_ctor_vec (v0 v1 v2 v3 : R) : ctor CAngleAxis
| RV_default : ctor CRotVec
| RV_ctor3 (x y z : R) : ctor CRotVec
| RV_ctor_vec (v : V3) : ctor CRotVec
| Mat_default : ctor CRotMat
| Mat_ctor9 (r11 r12 r13 r21 r22 r23 r31 r32 r33 : R) : ctor CRotMat
| Mat_ctor (m : M33) : ctor CRotMat
| Zyx_default : ctor CZyx
| Zyx_ctor3 (yaw pitch roll : R) : ctor CZyx
| Zyx_ctor_vec (v : V3) : ctor CZyx
| Xyz_default : ctor CXyz
| Xyz_ctor3 (roll pitch yaw : R) : ctor CXyz
| Xyz_ctor_vec (v : V3) : ctor CXyz.
(** The parameters a constructor is given. *)
Definition given {c : cls} (k : ctor c) : list (field * R) :=
  match k with
  | Quaternion_default => quat_fields (mkQ 0 0 0 0)
  | Unit_default | RotQuat_default => quat_fields (mkQ 1 0 0 0)
  | Quaternion_ctor4 w x y z | Unit_ctor4 w x y z | RotQuat_ctor4 w x y z => quat_fields (mkQ w x y z)
  | Quaternion_ctor_parts re im | Unit_ctor_parts re im | RotQuat_ctor_parts re im =>
      [(Real, re); (ImagI, vx im); (ImagJ, vy im); (ImagK, vz im)]
  | Quaternion_ctor_vec a b c d | Unit_ctor_vec a b c d | RotQuat_ctor_vec a b c d =>
      [(Real, a); (ImagI, b); (ImagJ, c); (ImagK, d)]
  | AA_default => [(Angle, 0); (Axis1, 1); (Axis2, 0); (Axis3, 0)]
  | AA_ctor4 t a b c | AA_ctor_vec t a b c => [(Angle, t); (Axis1, a); (Axis2, b); (Axis3, c)]
  | AA_ctor_parts t v => [(Angle, t); (Axis1, vx v); (Axis2, vy v); (Axis3, vz v)]
  | RV_default => [(Entry1, 0); (Entry2, 0); (Entry3, 0)]
  | RV_ctor3 x y z => [(Entry1, x); (Entry2, y); (Entry3, z)]
  | RV_ctor_vec v => [(Entry1, vx v); (Entry2, vy v); (Entry3, vz v)]
  | Mat_default => mat_fields mid
  | Mat_ctor9 a b c d e f g h i => mat_fields (mkM33 a b c d e f g h i)
  | Mat_ctor m => mat_fields m
  | Zyx_default | Xyz_default => [(Yaw, 0); (Pitch, 0); (Roll, 0)]
  | Zyx_ctor3 a b c => [(Yaw, a); (Pitch, b); (Roll, c)]
  | Zyx_ctor_vec v => [(Yaw, vx v); (Pitch, vy v); (Roll, vz v)]
  | Xyz_ctor3 a b c => [(Roll, a); (Pitch, b); (Yaw, c)]
  | Xyz_ctor_vec v => [(Roll, vx v); (Pitch, vy v); (Yaw, vz v)]
  end.

(** The calls whose argument a debug build rejects: axis off unit length by
    more than 1e-4 percent (AngleAxis), quaternion off unit length by more than
    1e-4 percent (RotationQuaternion) or 1e-2 percent (UnitQuaternion) *)
Definition rejected {c : cls} (s : setter c) : Prop :=
  match s with
  | AA_setAxis v => ~ Rabs (vnorm v - 1) <= / 10 ^ 6 * Rmax (vnorm v) 1
  | AA_setAxis3 x y z => ~ Rabs (vnorm (mkV3 x y z) - 1) <= / 10 ^ 6 * Rmax (vnorm (mkV3 x y z)) 1
  | AA_setVector _ x y z => ~ Rabs (vnorm (mkV3 x y z) - 1) <= / 10 ^ 6 * Rmax (vnorm (mkV3 x y z)) 1
  | RotQuat_paren q => ~ Rabs (qnorm q - 1) <= / 10 ^ 6 * Rmax (qnorm q) 1
  | Unit_paren q => ~ Rabs (qnorm q - 1) <= / 10 ^ 4 * Rmax (qnorm q) 1
  | _ => False
  end.
