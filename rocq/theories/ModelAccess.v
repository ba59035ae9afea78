(** * ModelAccess: constructors, accessors and setters on the stored
    coefficients.  An object is a block of memory [nat -> R]; the layout is the
    one of the Eigen object it contains. *)
From Coq Require Import Reals List Bool Arith.
From Verif Require Import Linalg Spec SpecAccess ModelCommon ModelEigen ModelRotation ModelDebug.
Import ListNotations.
Local Open Scope R_scope.

Definition mem := nat -> R.
Definition write (i : nat) (v : R) (m : mem) : mem := fun j => if Nat.eqb i j then v else m j.

(** Eigen::Quaternion stores x,y,z,w in this order *)
Definition eq_x := 0%nat.
Definition eq_y := 1%nat.
Definition eq_z := 2%nat.
Definition eq_w := 3%nat.
(** Eigen::AngleAxis: m_axis (3 scalars), then m_angle *)
Definition ea_axis (i : nat) := i.
Definition ea_angle := 3%nat.
(** Eigen::Matrix<T,3,3>: column major *)
Definition em (i j : nat) := (i + 3 * j)%nat.
(** writing an Eigen 3-vector, a comma initialiser of a vector, of a 3x3 matrix
    (row by row) *)
Definition write3 (o : nat) (a b c : R) (m : mem) : mem :=
  write (o + 2) c (write (o + 1) b (write o a m)).
Definition write9 (a b c d e f g h i : R) (m : mem) : mem :=
  write (em 2 2) i (write (em 2 1) h (write (em 2 0) g
  (write (em 1 2) f (write (em 1 1) e (write (em 1 0) d
  (write (em 0 2) c (write (em 0 1) b (write (em 0 0) a m)))))))).
(** Eigen: Implementation(w,x,y,z) assigned to an Eigen quaternion *)
Definition writeq (w x y z : R) (m : mem) : mem :=
  write eq_w w (write eq_z z (write eq_y y (write eq_x x m))).

(** ** Setters *)
Definition set {c : cls} (s : setter c) : mem -> mem :=
  match s with
  (* Quaternion.hpp:186-200: references to the Eigen coefficients *)
  | Quaternion_w v => write eq_w v
  | Quaternion_x v => write eq_x v
  | Quaternion_y v => write eq_y v
  | Quaternion_z v => write eq_z v
  (* Quaternion.hpp:229-235 *)
  | Quaternion_setZero => fun m => write eq_z 0 (write eq_y 0 (write eq_x 0 (write eq_w 0 m)))
  (* Quaternion.hpp:129-134 (copy), 141-159 (one coefficient after the other) *)
  | Quaternion_assign q => fun m => write eq_z (qz q) (write eq_y (qy q) (write eq_x (qx q) (write eq_w (qw q) m)))
  (* UnitQuaternion, Quaternion.hpp:412-426 *)
  | Unit_w v => write eq_w v
  | Unit_x v => write eq_x v
  | Unit_y v => write eq_y v
  | Unit_z v => write eq_z v
  (* Quaternion.hpp:357-367, 370-379 *)
  | Unit_assign q | Unit_paren q => fun m => write eq_z (qz q) (write eq_y (qy q) (write eq_x (qx q) (write eq_w (qw q) m)))
  (* RotationQuaternion.hpp:160-174 *)
  | RotQuat_w v => write eq_w v
  | RotQuat_x v => write eq_x v
  | RotQuat_y v => write eq_y v
  | RotQuat_z v => write eq_z v
  (* RotationQuaternion.hpp:190-195 *)
  | RotQuat_setValues w x y z => fun m => write eq_z z (write eq_y y (write eq_x x (write eq_w w m)))
  (* RotationQuaternion.hpp:197-202 *)
  | RotQuat_setParts re im => fun m => write eq_z (vz im) (write eq_y (vy im) (write eq_x (vx im) (write eq_w re m)))
  (* RotationQuaternion.hpp:231-234, 261-264 *)
  | RotQuat_assign q => writeq (qw q) (qx q) (qy q) (qz q)
  (* RotationQuaternion.hpp:272-276 *)
  | RotQuat_paren q => writeq (qw q) (qx q) (qy q) (qz q)
  (* RotationQuaternion.hpp:321-327 *)
  | RotQuat_setIdentity => fun m => write eq_z 0 (write eq_y 0 (write eq_x 0 (write eq_w 1 m)))
  (* AngleAxis.hpp:197-199 *)
  | AA_setAngle v => write ea_angle v
  (* AngleAxis.hpp:210-213 *)
  | AA_setAxis v => write3 (ea_axis 0) (vx v) (vy v) (vz v)
  (* AngleAxis.hpp:217-220 *)
  | AA_setAxis3 a b c => write3 (ea_axis 0) a b c
  (* AngleAxis.hpp:224-227 *)
  | AA_setVector t a b c => fun m => write3 (ea_axis 0) a b c (write ea_angle t m)
  (* AngleAxis.hpp:242-246 *)
  | AA_setIdentity => fun m => write3 (ea_axis 0) 1 0 0 (write ea_angle 0 m)
  (* RotationVector.hpp:224-238 *)
  | RV_setX v => write 0 v
  | RV_setY v => write 1 v
  | RV_setZ v => write 2 v
  (* RotationVector.hpp:191-199 *)
  | RV_setVector3 x y z => write3 0 x y z
  | RV_setVector v => write3 0 (vx v) (vy v) (vz v)
  (* RotationVector.hpp:167-170 *)
  | RV_setIdentity => write3 0 0 0 0
  (* RotationMatrix.hpp:205-207: coefficient by coefficient, both column major *)
  | Mat_setMatrix x => fun m =>
      write (em 2 2) (m22 x) (write (em 1 2) (m12 x) (write (em 0 2) (m02 x)
      (write (em 2 1) (m21 x) (write (em 1 1) (m11 x) (write (em 0 1) (m01 x)
      (write (em 2 0) (m20 x) (write (em 1 0) (m10 x) (write (em 0 0) (m00 x) m))))))))
  (* RotationMatrix.hpp:211-217 *)
  | Mat_setMatrix9 a b c d e f g h i => write9 a b c d e f g h i
  (* RotationMatrix.hpp:222-225, Eigen setIdentity: zero, then the diagonal *)
  | Mat_setIdentity => fun m => write (em 2 2) 1 (write (em 1 1) 1 (write (em 0 0) 1 (write9 0 0 0 0 0 0 0 0 0 m)))
  (* EulerAnglesZyx.hpp:208-222 *)
  | Zyx_setYaw v => write 0 v
  | Zyx_setPitch v => write 1 v
  | Zyx_setRoll v => write 2 v
  (* EulerAnglesZyx.hpp:248-264 *)
  | Zyx_setZ v => write 0 v
  | Zyx_setY v => write 1 v
  | Zyx_setX v => write 2 v
  (* EulerAnglesZyx.hpp:269-272 *)
  | Zyx_setIdentity => write3 0 0 0 0
  (* EulerAnglesXyz.hpp:189-203 *)
  | Xyz_setRoll v => write 0 v
  | Xyz_setPitch v => write 1 v
  | Xyz_setYaw v => write 2 v
  (* EulerAnglesXyz.hpp:228-242 *)
  | Xyz_setX v => write 0 v
  | Xyz_setY v => write 1 v
  | Xyz_setZ v => write 2 v
  (* EulerAnglesXyz.hpp:247-250 *)
  | Xyz_setIdentity => write3 0 0 0 0
  end.
Definition set_all {c : cls} (hs : list (setter c)) (m : mem) : mem := fold_left (fun m s => set s m) hs m.

(** ** Accessors.  A returned Eigen vector is listed from index 0, a returned
    Eigen matrix row by row. *)
Definition get {c : cls} (g : getter c) (m : mem) : list R :=
  match g with
  (* Quaternion.hpp:170-184 *)
  | Quaternion_get_w => [m eq_w] | Quaternion_get_x => [m eq_x]
  | Quaternion_get_y => [m eq_y] | Quaternion_get_z => [m eq_z]
  (* Quaternion.hpp:202-215 *)
  | Quaternion_real => [m eq_w]
  | Quaternion_imaginary => [m eq_x; m eq_y; m eq_z]
  | Quaternion_vector => [m eq_w; m eq_x; m eq_y; m eq_z]
  (* UnitQuaternion, Quaternion.hpp:396-440 *)
  | Unit_get_w => [m eq_w] | Unit_get_x => [m eq_x]
  | Unit_get_y => [m eq_y] | Unit_get_z => [m eq_z]
  | Unit_real => [m eq_w]
  | Unit_imaginary => [m eq_x; m eq_y; m eq_z]
  | Unit_vector => [m eq_w; m eq_x; m eq_y; m eq_z]
  (* RotationQuaternion.hpp:144-188 *)
  | RotQuat_get_w => [m eq_w] | RotQuat_get_x => [m eq_x]
  | RotQuat_get_y => [m eq_y] | RotQuat_get_z => [m eq_z]
  | RotQuat_real => [m eq_w]
  | RotQuat_imaginary => [m eq_x; m eq_y; m eq_z]
  | RotQuat_vector => [m eq_w; m eq_x; m eq_y; m eq_z]
  (* AngleAxis.hpp:191-193, 204-206, 231-236 *)
  | AA_angle => [m ea_angle]
  | AA_axis => [m (ea_axis 0); m (ea_axis 1); m (ea_axis 2)]
  | AA_vector => [m ea_angle; m (ea_axis 0); m (ea_axis 1); m (ea_axis 2)]
  (* RotationVector.hpp:182-184, 204-220 *)
  | RV_x => [m 0%nat] | RV_y => [m 1%nat] | RV_z => [m 2%nat]
  | RV_vector => [m 0%nat; m 1%nat; m 2%nat]
  (* RotationMatrix.hpp:199-201 *)
  | Mat_matrix => [m (em 0 0); m (em 0 1); m (em 0 2);
                   m (em 1 0); m (em 1 1); m (em 1 2);
                   m (em 2 0); m (em 2 1); m (em 2 2)]
  (* EulerAnglesZyx.hpp:188-204, 227-243, 167-169 *)
  | Zyx_yaw => [m 0%nat] | Zyx_pitch => [m 1%nat] | Zyx_roll => [m 2%nat]
  | Zyx_z => [m 0%nat] | Zyx_y => [m 1%nat] | Zyx_x => [m 2%nat]
  | Zyx_vector => [m 0%nat; m 1%nat; m 2%nat]
  (* EulerAnglesXyz.hpp:169-185, 208-224, 148-150 *)
  | Xyz_roll => [m 0%nat] | Xyz_pitch => [m 1%nat] | Xyz_yaw => [m 2%nat]
  | Xyz_x => [m 0%nat] | Xyz_y => [m 1%nat] | Xyz_z => [m 2%nat]
  | Xyz_vector => [m 0%nat; m 1%nat; m 2%nat]
  end.

(** ** The value of [Spec.rotation] an object is, as used by the rest of the
    model (same layouts) *)
Definition object (c : cls) (m : mem) : rotation :=
  match c with
  | CQuaternion | CUnitQuaternion | CRotQuat => RotQuat (mkQ (m eq_w) (m eq_x) (m eq_y) (m eq_z))
  | CAngleAxis => RotAA (mkAA (m ea_angle) (mkV3 (m (ea_axis 0)) (m (ea_axis 1)) (m (ea_axis 2))))
  | CRotVec => RotVec (mkV3 (m 0%nat) (m 1%nat) (m 2%nat))
  | CRotMat => RotMat (mkM33 (m (em 0 0)) (m (em 0 1)) (m (em 0 2))
                             (m (em 1 0)) (m (em 1 1)) (m (em 1 2))
                             (m (em 2 0)) (m (em 2 1)) (m (em 2 2)))
  | CZyx => RotZyx (mkZyx (m 0%nat) (m 1%nat) (m 2%nat))
  | CXyz => RotXyz (mkXyz (m 0%nat) (m 1%nat) (m 2%nat))
  end.

(** ** Constructors from parameters and default constructors.  [m]: the uninitialised memory the object is built in *)
Definition build {c : cls} (k : ctor c) : mem -> mem :=
  match k with
  (* Quaternion.hpp:69-71, 79-96; Eigen::Quaternion(w,x,y,z) *)
  | Quaternion_default => writeq 0 0 0 0
  | Quaternion_ctor4 w x y z => writeq w x y z
  | Quaternion_ctor_parts re im => writeq re (vx im) (vy im) (vz im)
  | Quaternion_ctor_vec a b c d => writeq a b c d
  (* Quaternion.hpp:307-309, 318-340 *)
  | Unit_default => writeq 1 0 0 0
  | Unit_ctor4 w x y z => writeq w x y z
  | Unit_ctor_parts re im => writeq re (vx im) (vy im) (vz im)
  | Unit_ctor_vec a b c d => writeq a b c d
  (* RotationQuaternion.hpp:83-85, 94-116 *)
  | RotQuat_default => writeq 1 0 0 0
  | RotQuat_ctor4 w x y z => writeq w x y z
  | RotQuat_ctor_parts re im => writeq re (vx im) (vy im) (vz im)
  | RotQuat_ctor_vec a b c d => writeq a b c d
  (* AngleAxis.hpp:83-85, 94-117; Eigen::AngleAxis(angle, axis), Identity() is 0, UnitX *)
  | AA_default => fun m => write ea_angle 0 (write3 (ea_axis 0) 1 0 0 m)
  | AA_ctor4 t a b c => fun m => write ea_angle t (write3 (ea_axis 0) a b c m)
  | AA_ctor_parts t v => fun m => write ea_angle t (write3 (ea_axis 0) (vx v) (vy v) (vz v) m)
  | AA_ctor_vec t a b c => fun m => write ea_angle t (write3 (ea_axis 0) a b c m)
  (* RotationVector.hpp:84-105 *)
  | RV_default => write3 0 0 0 0
  | RV_ctor3 x y z => write3 0 x y z
  | RV_ctor_vec v => write3 0 (vx v) (vy v) (vz v)
  (* RotationMatrix.hpp:71-73, 87-109 *)
  | Mat_default => set Mat_setIdentity
  | Mat_ctor9 a b c d e f g h i => write9 a b c d e f g h i
  | Mat_ctor x => set (Mat_setMatrix x)
  (* EulerAnglesZyx.hpp:100-118 *)
  | Zyx_default => write3 0 0 0 0
  | Zyx_ctor3 a b c => write3 0 a b c
  | Zyx_ctor_vec v => write3 0 (vx v) (vy v) (vz v)
  (* EulerAnglesXyz.hpp:82-100 *)
  | Xyz_default => write3 0 0 0 0
  | Xyz_ctor3 a b c => write3 0 a b c
  | Xyz_ctor_vec v => write3 0 (vx v) (vy v) (vz v)
  end.

(** ** The same setters without NDEBUG: the assertion comes after the write.
    Result: the memory, and whether std::runtime_error was thrown. *)
Definition after {A} (o : outcome A) : bool := match o with Throws => true | _ => false end.
Definition dbg_set {c : cls} (s : setter c) (m : mem) : mem * bool :=
  let m' := set s m in
  let axis := mkV3 (m' (ea_axis 0)) (m' (ea_axis 1)) (m' (ea_axis 2)) in
  let q := mkQ (m' eq_w) (m' eq_x) (m' eq_y) (m' eq_z) in
  (m', match s with
       (* AngleAxis.hpp:212, 219, and 226 / 244 through setAxis *)
       | AA_setAxis _ | AA_setAxis3 _ _ _ | AA_setVector _ _ _ _ | AA_setIdentity =>
           after (assert_scalar_near (vnorm axis) 1 (/ 10 ^ 4) (Val tt))
       (* Quaternion.hpp:377 *)
       | Unit_paren _ => after (dbg_quat_ctor q)
       (* RotationQuaternion.hpp:274 *)
       | RotQuat_paren _ => after (dbg_quat_assign q)
       | _ => false
       end).
