(** * ModelDebug: the assertions compiled in when NDEBUG is not defined. *)
From Coq Require Import Reals Lra Bool.
From Verif Require Import Linalg Spec ModelCommon ModelEigen ModelRotation.
Local Open Scope R_scope.

(** KINDR_ASSERT_SCALAR_NEAR_DBG, assert_macros_eigen.hpp:131-141 *)
Definition assert_scalar_near {A : Type} (a b percent : R) (k : outcome A) : outcome A :=
  if compareRelative a b percent then k else Throws.
(** KINDR_ASSERT_MATRIX_NEAR_DBG, assert_macros_eigen.hpp:103-130, on 3x3
    matrices (the size checks are static) *)
Definition assert_matrix_near {A : Type} (a b : M33) (percent : R) (k : outcome A) : outcome A :=
  if (compareRelative (m00 a) (m00 b) percent && compareRelative (m01 a) (m01 b) percent &&
      compareRelative (m02 a) (m02 b) percent && compareRelative (m10 a) (m10 b) percent &&
      compareRelative (m11 a) (m11 b) percent && compareRelative (m12 a) (m12 b) percent &&
      compareRelative (m20 a) (m20 b) percent && compareRelative (m21 a) (m21 b) percent &&
      compareRelative (m22 a) (m22 b) percent)%bool
  then k else Throws.

(** UnitQuaternion constructors (Quaternion.hpp:318-355), UnitQuaternion
    operator()(Quaternion) (370-379) and RotationQuaternion constructors
    (RotationQuaternion.hpp:94-134): tolerance 1e-2 percent *)
Definition dbg_quat_ctor (q : Quat) : outcome Quat :=
  assert_scalar_near (qnorm q) 1 (/ 10 ^ 2) (Val q).
(** RotationQuaternion::operator()(Quaternion), RotationQuaternion.hpp:271-276:
    tolerance 1e-4 percent *)
Definition dbg_quat_assign (q : Quat) : outcome Quat :=
  assert_scalar_near (qnorm q) 1 (/ 10 ^ 4) (Val q).
(** AngleAxis constructors and setAxis, AngleAxis.hpp:94-126,210-220 *)
Definition dbg_aa_ctor (a : AA) : outcome AA :=
  assert_scalar_near (vnorm (aaxis a)) 1 (/ 10 ^ 4) (Val a).
(** RotationMatrix constructors, RotationMatrix.hpp:87-109 *)
Definition dbg_mat_ctor (m : M33) : outcome M33 :=
  assert_matrix_near (mmul m (mtrans m)) mid (/ 10 ^ 4)
    (assert_scalar_near (mdet m) 1 (/ 10 ^ 4) (Val m)).

(** The legality check the debug build applies to a value of each class when
    it is built from its coefficients (rotation vectors and Euler angles have
    none). *)
Definition dbg_ctor (r : rotation) : outcome rotation :=
  match r with
  | RotQuat q => omap RotQuat (dbg_quat_ctor q)
  | RotAA a => omap RotAA (dbg_aa_ctor a)
  | RotMat m => omap RotMat (dbg_mat_ctor m)
  | _ => Val r
  end.
