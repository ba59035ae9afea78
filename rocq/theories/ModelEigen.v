(** * ModelEigen: the Eigen functions kindr delegates to.

    Eigen itself is not in /repo (external dependency, Eigen 3.3).  These
    definitions transcribe Eigen/src/Geometry/{Quaternion,AngleAxis,
    EulerAngles}.h and the C library's atan2 from their published sources and
    are part of the trusted base. *)
From Coq Require Import Reals Lra.
From Verif Require Import Linalg Spec ModelCommon.
Local Open Scope R_scope.

(** std::atan2 on reals.  atan2(0,0) = 0 as in C99 for +0 arguments; signed
    zeros (atan2(-0,-1) = -pi) do not exist in this model. Used at
    RotationVector.hpp:343 and inside Eigen. *)
Definition atan2 (y x : R) : R :=
  if Rlt_dec 0 x then atan (y / x)
  else if Rlt_dec x 0 then
    if Rle_dec 0 y then atan (y / x) + PI else atan (y / x) - PI
  else if Rlt_dec 0 y then PI / 2
  else if Rlt_dec y 0 then - (PI / 2)
  else 0.

(** Eigen::Quaternion operator* (Quaternion.h, quat_product). Used at
    RotationImpl.hpp:79-82, QuaternionBase.hpp:49-51. *)
Definition e_mul (a b : Quat) : Quat :=
  mkQ (qw a * qw b - qx a * qx b - qy a * qy b - qz a * qz b)
      (qw a * qx b + qx a * qw b + qy a * qz b - qz a * qy b)
      (qw a * qy b + qy a * qw b + qz a * qx b - qx a * qz b)
      (qw a * qz b + qz a * qw b + qx a * qy b - qy a * qx b).

(** Eigen::Quaternion::conjugate. Used at Quaternion.hpp:119-126. *)
Definition e_conjugate (q : Quat) : Quat := mkQ (qw q) (- qx q) (- qy q) (- qz q).

(** Eigen::Quaternion::inverse: conj / |q|^2, and the zero quaternion if
    |q|^2 is not positive. Used at Quaternion.hpp:105-113. *)
Definition e_inverse (q : Quat) : Quat :=
  if Rlt_dec 0 (qnorm2 q) then
    mkQ (qw q / qnorm2 q) (- qx q / qnorm2 q) (- qy q / qnorm2 q) (- qz q / qnorm2 q)
  else mkQ 0 0 0 0.

(** Eigen normalize/normalized on quaternions (3.3: no change if the squared
    norm is not positive). Used at RotationQuaternion.hpp:617,
    Quaternion.hpp:225-246. *)
Definition e_qnormalize (q : Quat) : Quat :=
  if Rlt_dec 0 (qnorm2 q) then
    mkQ (qw q / qnorm q) (qx q / qnorm q) (qy q / qnorm q) (qz q / qnorm q)
  else q.

(** Eigen Vector3::normalized. Used at AngleAxis.hpp:378,456. *)
Definition e_normalized (v : V3) : V3 :=
  if Rlt_dec 0 (vnorm2 v) then mkV3 (vx v / vnorm v) (vy v / vnorm v) (vz v / vnorm v) else v.

(** Eigen::Quaternion::toRotationMatrix. Used at RotationMatrix.hpp:334. *)
Definition e_toRotationMatrix (q : Quat) : M33 :=
  let tx := 2 * qx q in let ty := 2 * qy q in let tz := 2 * qz q in
  let twx := tx * qw q in let twy := ty * qw q in let twz := tz * qw q in
  let txx := tx * qx q in let txy := ty * qx q in let txz := tz * qx q in
  let tyy := ty * qy q in let tyz := tz * qy q in let tzz := tz * qz q in
  mkM33 (1 - (tyy + tzz)) (txy - twz) (txz + twy)
        (txy + twz) (1 - (txx + tzz)) (tyz - twx)
        (txz - twy) (tyz + twx) (1 - (txx + tyy)).

(** Eigen::Quaternion(Matrix3) (quaternionbase_assign_impl, Shoemake). Used
    at RotationQuaternion.hpp:563. The coefficient order of the generic branch
    (i,j,k cyclic) is written out for i = 0,1,2. *)
Definition e_quat_of_matrix (m : M33) : outcome Quat :=
  let t := mtrace m in
  if Rlt_dec 0 t then
    t1 <- csqrt (t + 1) ;;
    t2 <- cdiv (1/2) t1 ;;
    Val (mkQ ((1/2) * t1) ((m21 m - m12 m) * t2) ((m02 m - m20 m) * t2) ((m10 m - m01 m) * t2))
  else
    let i := if Rlt_dec (m00 m) (m11 m)
             then (if Rlt_dec (m11 m) (m22 m) then 2%nat else 1%nat)
             else (if Rlt_dec (m00 m) (m22 m) then 2%nat else 0%nat) in
    match i with
    | 0%nat =>
        t1 <- csqrt (m00 m - m11 m - m22 m + 1) ;;
        t2 <- cdiv (1/2) t1 ;;
        Val (mkQ ((m21 m - m12 m) * t2) ((1/2) * t1) ((m10 m + m01 m) * t2) ((m20 m + m02 m) * t2))
    | 1%nat =>
        t1 <- csqrt (m11 m - m22 m - m00 m + 1) ;;
        t2 <- cdiv (1/2) t1 ;;
        Val (mkQ ((m02 m - m20 m) * t2) ((m01 m + m10 m) * t2) ((1/2) * t1) ((m21 m + m12 m) * t2))
    | _ =>
        t1 <- csqrt (m22 m - m00 m - m11 m + 1) ;;
        t2 <- cdiv (1/2) t1 ;;
        Val (mkQ ((m10 m - m01 m) * t2) ((m02 m + m20 m) * t2) ((m12 m + m21 m) * t2) ((1/2) * t1))
    end.

(** Eigen::Quaternion(AngleAxis). Used at RotationQuaternion.hpp:499. *)
Definition e_quat_of_aa (a : AA) : Quat :=
  let ha := (1/2) * aangle a in
  mkQ (cos ha) (sin ha * vx (aaxis a)) (sin ha * vy (aaxis a)) (sin ha * vz (aaxis a)).

(** Eigen::AngleAxis(Quaternion), 3.3: vec().norm(); if it is below epsilon it
    is recomputed as stableNorm (same value on reals). Used at
    AngleAxis.hpp:387. *)
Definition e_aa_of_quat (q : Quat) : AA :=
  let n := vnorm (qvec q) in
  if Req_EM_T n 0 then mkAA 0 (mkV3 1 0 0)
  else
    let angle := 2 * atan2 n (Rabs (qw q)) in
    let n' := if Rlt_dec (qw q) 0 then - n else n in
    mkAA angle (mkV3 (qx q / n') (qy q / n') (qz q / n')).

(** Eigen::AngleAxis(Matrix3): via the quaternion. Used at AngleAxis.hpp:396. *)
Definition e_aa_of_matrix (m : M33) : outcome AA := omap e_aa_of_quat (e_quat_of_matrix m).

(** Eigen::AngleAxis::inverse. Used at AngleAxis.hpp:160. *)
Definition e_aa_inverse (a : AA) : AA := mkAA (- aangle a) (aaxis a).

(** Eigen::AngleAxis::toRotationMatrix. Used at RotationMatrix.hpp:316. *)
Definition e_aa_toRotationMatrix (a : AA) : M33 :=
  let n := aaxis a in
  let s := vscale (sin (aangle a)) n in
  let c := cos (aangle a) in
  let c1 := vscale (1 - c) n in
  let t01 := vx c1 * vy n in
  let t02 := vx c1 * vz n in
  let t12 := vy c1 * vz n in
  mkM33 (vx c1 * vx n + c) (t01 - vz s) (t02 + vy s)
        (t01 + vz s) (vy c1 * vy n + c) (t12 - vx s)
        (t02 - vy s) (t12 + vx s) (vz c1 * vz n + c).

(** Eigen's MatrixBase::eulerAngles(a0,a1,a2) for a0 <> a2 (EulerAngles.h,
    3.3).  Used with (2,1,0) at EulerAnglesZyx.hpp:563 and with (0,1,2) at
    EulerAnglesXyz.hpp:513; [odd] and the entries selected by i,j,k are the
    parameters. *)
Definition e_eulerAngles_core (odd : bool) (mjk mkk mii mij mik mki mji mjj mkj : R) : V3 :=
  let r0 := atan2 mjk mkk in
  let c2 := sqrt (mii * mii + mij * mij) in
  let flip := if odd then (if Rlt_dec r0 0 then true else false)
              else (if Rlt_dec 0 r0 then true else false) in
  let r0' := if flip then (if Rlt_dec 0 r0 then r0 - PI else r0 + PI) else r0 in
  let r1 := if flip then atan2 (- mik) (- c2) else atan2 (- mik) c2 in
  let s1 := sin r0' in let c1 := cos r0' in
  let r2 := atan2 (s1 * mki - c1 * mji) (c1 * mjj - s1 * mkj) in
  if odd then mkV3 r0' r1 r2 else mkV3 (- r0') (- r1) (- r2).

(** eulerAngles(2,1,0): odd = 1, i = 2, j = 1, k = 0 *)
Definition e_eulerAngles_210 (m : M33) : V3 :=
  e_eulerAngles_core true (m10 m) (m00 m) (m22 m) (m21 m) (m20 m) (m02 m) (m12 m) (m11 m) (m01 m).
(** eulerAngles(0,1,2): odd = 0, i = 0, j = 1, k = 2 *)
Definition e_eulerAngles_012 (m : M33) : V3 :=
  e_eulerAngles_core false (m12 m) (m22 m) (m00 m) (m01 m) (m02 m) (m20 m) (m10 m) (m11 m) (m21 m).
