(** * ModelDiff: angular velocities and time derivatives of rotations
    (rotations/*Diff*.hpp, rotations/*AngularVelocity.hpp). *)
From Coq Require Import Reals Lra Bool.
From Verif Require Import Linalg Spec ModelCommon ModelEigen ModelRotation.
Local Open Scope R_scope.

(** The six classes of time derivatives with their data: RotationQuaternionDiff
    [w;x;y;z] (RotationQuaternionDiff.hpp:51), RotationMatrixDiff
    (RotationMatrixDiff.hpp:51), EulerAnglesZyxDiff [yaw;pitch;roll]
    (EulerAnglesZyxDiff.hpp:58-60), EulerAnglesXyzDiff [roll;pitch;yaw]
    (EulerAnglesXyzDiff.hpp:58-60), LocalAngularVelocity, GlobalAngularVelocity
    (3-vectors). *)
Inductive diff : Type :=
| DQuat (d : Quat) | DMat (d : M33) | DZyx (d : V3) | DXyz (d : V3)
| DLocal (w : V3) | DGlobal (w : V3).
Inductive dkind : Type := KDQuat | KDMat | KDZyx | KDXyz | KDLocal | KDGlobal.

(** getSkewMatrixFromVector, LinearAlgebra.hpp:40-45 *)
Definition getSkewMatrixFromVector (v : V3) : M33 :=
  mkM33 0 (- vz v) (vy v) (vz v) 0 (- vx v) (- vy v) (vx v) 0.
(** getVectorFromSkewMatrix, LinearAlgebra.hpp:52-55 *)
Definition getVectorFromSkewMatrix (m : M33) : V3 := mkV3 (m21 m) (m02 m) (m10 m).

(** 3x4 matrices by rows, acting on [w;x;y;z] *)
Record M34 : Type := mkM34 { r340 : Quat; r341 : Quat; r342 : Quat }.
Definition dot4 (a b : Quat) : R := qw a * qw b + qx a * qx b + qy a * qy b + qz a * qz b.
Definition m34_apply (m : M34) (q : Quat) : V3 :=
  mkV3 (dot4 (r340 m) q) (dot4 (r341 m) q) (dot4 (r342 m) q).
Definition m34_tapply (m : M34) (v : V3) : Quat :=
  mkQ (qw (r340 m) * vx v + qw (r341 m) * vy v + qw (r342 m) * vz v)
      (qx (r340 m) * vx v + qx (r341 m) * vy v + qx (r342 m) * vz v)
      (qy (r340 m) * vx v + qy (r341 m) * vy v + qy (r342 m) * vz v)
      (qz (r340 m) * vx v + qz (r341 m) * vy v + qz (r342 m) * vz v).
(** getGlobalQuaternionDiffMatrix, RotationQuaternion.hpp:400-406 *)
Definition getGlobalQuaternionDiffMatrix (q : Quat) : M34 :=
  mkM34 (mkQ (- qx q) (qw q) (- qz q) (qy q))
        (mkQ (- qy q) (qz q) (qw q) (- qx q))
        (mkQ (- qz q) (- qy q) (qx q) (qw q)).
(** getLocalQuaternionDiffMatrix, RotationQuaternion.hpp:411-417 *)
Definition getLocalQuaternionDiffMatrix (q : Quat) : M34 :=
  mkM34 (mkQ (- qx q) (qw q) (qz q) (- qy q))
        (mkQ (- qy q) (- qz q) (qw q) (qx q))
        (mkQ (- qz q) (qy q) (- qx q) (qw q)).
Definition qscale (s : R) (q : Quat) : Quat := mkQ (s * qw q) (s * qx q) (s * qy q) (s * qz q).

(** RotationQuaternionDiff(q, LocalAngularVelocity), RotationQuaternionDiff.hpp:206-212 *)
Definition quatdiff_of_local (q : Quat) (w : V3) : Quat :=
  qscale (1/2) (m34_tapply (getLocalQuaternionDiffMatrix q) w).
(** RotationQuaternionDiff(q, GlobalAngularVelocity), RotationQuaternionDiff.hpp:214-220 *)
Definition quatdiff_of_global (q : Quat) (w : V3) : Quat :=
  qscale (1/2) (m34_tapply (getGlobalQuaternionDiffMatrix q) w).
(** LocalAngularVelocity(q, RotationQuaternionDiff), LocalAngularVelocity.hpp:228-234 *)
Definition local_of_quatdiff (q dq : Quat) : V3 :=
  m34_apply (mkM34 (qscale 2 (r340 (getLocalQuaternionDiffMatrix q)))
                   (qscale 2 (r341 (getLocalQuaternionDiffMatrix q)))
                   (qscale 2 (r342 (getLocalQuaternionDiffMatrix q)))) dq.
(** GlobalAngularVelocity(q, RotationQuaternionDiff), GlobalAngularVelocity.hpp:232-238 *)
Definition global_of_quatdiff (q dq : Quat) : V3 :=
  m34_apply (mkM34 (qscale 2 (r340 (getGlobalQuaternionDiffMatrix q)))
                   (qscale 2 (r341 (getGlobalQuaternionDiffMatrix q)))
                   (qscale 2 (r342 (getGlobalQuaternionDiffMatrix q)))) dq.

(** RotationMatrixDiff(R, Local / Global), RotationMatrixDiff.hpp:184-198 *)
Definition matdiff_of_local (m : M33) (w : V3) : M33 := mmul m (getSkewMatrixFromVector w).
Definition matdiff_of_global (m : M33) (w : V3) : M33 := mmul (getSkewMatrixFromVector w) m.
(** LocalAngularVelocity(R, RotationMatrixDiff), LocalAngularVelocity.hpp:237-243;
    inverted() of a RotationMatrix is the transpose (RotationMatrix.hpp:144-148) *)
Definition local_of_matdiff (m dm : M33) : V3 := getVectorFromSkewMatrix (mmul (mtrans m) dm).
(** GlobalAngularVelocity(R, RotationMatrixDiff), GlobalAngularVelocity.hpp:241-247 *)
Definition global_of_matdiff (m dm : M33) : V3 := getVectorFromSkewMatrix (mmul dm (mtrans m)).

(** EulerAnglesZyx::getMappingFromDiffToLocalAngularVelocity, EulerAnglesZyx.hpp:421-437 *)
Definition zyx_diff_to_local (e : Zyx) : M33 :=
  let x := zroll e in let y := zpitch e in
  let t2 := cos x in let t3 := cos y in let t4 := sin x in
  mkM33 (- sin y)  0     1
        (t3 * t4)  t2    0
        (t2 * t3)  (- t4) 0.
(** EulerAnglesZyx::getMappingFromLocalAngularVelocityToDiff, EulerAnglesZyx.hpp:439-461 *)
Definition zyx_local_to_diff (e : Zyx) : outcome M33 :=
  let x := zroll e in let y := zpitch e in
  let t2 := cos y in let t3 := 1 / t2 in
  if Req_EM_T t2 0 then Throws else
  let t4 := cos x in let t5 := sin x in let t6 := sin y in
  Val (mkM33 0 (t3 * t5) (t3 * t4)
             0 t4 (- t5)
             1 (t3 * t5 * t6) (t3 * t4 * t6)).

(** EulerAnglesXyz::getMappingFromDiffToLocalAngularVelocity, EulerAnglesXyz.hpp:330-349 *)
Definition xyz_diff_to_local (e : Xyz) : M33 :=
  let y := xpitch e in let z := xyaw e in
  let t2 := cos y in let t3 := sin z in let t4 := cos z in
  mkM33 (t2 * t4)   t3 0
        (- t2 * t3) t4 0
        (sin y)     0  1.
(** EulerAnglesXyz::getMappingFromLocalAngularVelocityToDiff, EulerAnglesXyz.hpp:351-374 *)
Definition xyz_local_to_diff (e : Xyz) : outcome M33 :=
  let y := xpitch e in let z := xyaw e in
  let t2 := cos y in
  if Req_EM_T t2 0 then Throws else
  let t3 := 1 / t2 in let t4 := sin z in let t5 := cos z in let t6 := sin y in
  Val (mkM33 (t3 * t5) (- t3 * t4) 0
             t4 t5 0
             (- t3 * t5 * t6) (t3 * t4 * t6) 1).
(** EulerAnglesXyz::getMappingFromGlobalAngularVelocityToDiff, EulerAnglesXyz.hpp:376-397 *)
Definition xyz_global_to_diff (e : Xyz) : outcome M33 :=
  let x := xroll e in let y := xpitch e in
  let t2 := cos y in
  if Req_EM_T t2 0 then Throws else
  let t3 := 1 / t2 in let t4 := sin y in let t5 := cos x in let t6 := sin x in
  Val (mkM33 1 (t3 * t4 * t6) (- t3 * t4 * t5)
             0 t5 t6
             0 (- t3 * t6) (t3 * t5)).
(** EulerAnglesXyz::getMappingFromDiffToGlobalAngularVelocity, EulerAnglesXyz.hpp:400-417 *)
Definition xyz_diff_to_global (e : Xyz) : M33 :=
  let x := xroll e in let y := xpitch e in
  let t2 := sin x in let t3 := cos x in let t4 := cos y in
  mkM33 1 0 (sin y)
        0 t3 (- t2 * t4)
        0 t2 (t3 * t4).

(** EulerAnglesXyzDiff::getMappingFromLocalAngularVelocityToSecondDiff,
    EulerAnglesXyzDiff.hpp:239-265; [d] are the rates [roll;pitch;yaw] *)
Definition xyz_local_to_second (d : V3) (e : Xyz) : outcome M33 :=
  let y := xpitch e in let z := xyaw e in
  let dy := vy d in let dz := vz d in
  let t2 := cos y in
  if Req_EM_T t2 0 then Throws else
  let t3 := 1 / t2 in let t4 := cos z in let t5 := 1 / (t2 * t2) in
  let t6 := sin y in let t7 := sin z in let t8 := t6 * t6 in
  Val (mkM33 (- dz * t3 * t7 + dy * t4 * t5 * t6) (- dz * t3 * t4 - dy * t5 * t6 * t7) 0
             (dz * t4) (- dz * t7) 0
             (- dy * (t4 + t4 * t5 * t8) + dz * t3 * t6 * t7)
             (dy * (t7 + t5 * t7 * t8) + dz * t3 * t4 * t6) 0).
(** EulerAnglesXyzDiff::getMappingFromSecondDiffToLocalAngularVelocity,
    EulerAnglesXyzDiff.hpp:267-287 *)
Definition xyz_second_to_local (d : V3) (e : Xyz) : M33 :=
  let y := xpitch e in let z := xyaw e in
  let dy := vy d in let dz := vz d in
  let t2 := cos z in let t3 := cos y in let t4 := sin y in let t5 := sin z in
  mkM33 (- dy * t2 * t4 - dz * t3 * t5) (dz * t2) 0
        (dy * t4 * t5 - dz * t2 * t3) (- dz * t5) 0
        (dy * t3) 0 0.
(** EulerAnglesXyzDiff::getMappingFromGlobalAngularVelocityToSecondDiff,
    EulerAnglesXyzDiff.hpp:289-316 *)
Definition xyz_global_to_second (d : V3) (e : Xyz) : outcome M33 :=
  let x := xroll e in let y := xpitch e in
  let dx := vx d in let dy := vy d in
  let t2 := sin x in let t3 := sin y in let t4 := cos y in let t5 := cos x in
  if Req_EM_T t4 0 then Throws else
  let t6 := 1 / (t4 * t4) in let t7 := t3 * t3 in let t8 := 1 / t4 in
  Val (mkM33 0 (dy * (t2 + t2 * t6 * t7) + dx * t3 * t5 * t8) (- dy * (t5 + t5 * t6 * t7) + dx * t2 * t3 * t8)
             0 (- dx * t2) (dx * t5)
             0 (- dx * t5 * t8 - dy * t2 * t3 * t6) (- dx * t2 * t8 + dy * t3 * t5 * t6)).
(** EulerAnglesXyzDiff::getMappingFromSecondDiffToGlobalAngularVelocity,
    EulerAnglesXyzDiff.hpp:318-337 *)
Definition xyz_second_to_global (d : V3) (e : Xyz) : M33 :=
  let x := xroll e in let y := xpitch e in
  let dx := vx d in let dy := vy d in
  let t2 := cos y in let t3 := sin x in let t4 := cos x in let t5 := sin y in
  mkM33 0 0 (dy * t2)
        0 (- dx * t3) (- dx * t2 * t4 + dy * t3 * t5)
        0 (dx * t4) (- dx * t2 * t3 - dy * t4 * t5).

Section WithPrim.
Context (p : prim).

(** The constructors Dest(rotation, other): RotationDiffConversionTraits.
    [None]: there is no such specialisation, or it does not compile
    (GlobalAngularVelocity from EulerAnglesZyxDiff calls a member that
    EulerAnglesZyx does not have, GlobalAngularVelocity.hpp:250-258).
    LocalAngularVelocity.hpp:220-264, GlobalAngularVelocity.hpp:223-267,
    RotationQuaternionDiff.hpp:204-220, RotationMatrixDiff.hpp:182-198,
    EulerAnglesZyxDiff.hpp:271-277, EulerAnglesXyzDiff.hpp:363-369. *)
Definition diff_convert (k : dkind) (r : rotation) (d : diff) : option (outcome diff) :=
  match k, d, r with
  | KDLocal, DGlobal w, _ => Some (omap DLocal (inverseRotate p r w))
  | KDLocal, DQuat dq, RotQuat q => Some (Val (DLocal (local_of_quatdiff q dq)))
  | KDLocal, DMat dm, RotMat m => Some (Val (DLocal (local_of_matdiff m dm)))
  | KDLocal, DZyx de, RotZyx e => Some (Val (DLocal (mvmul (zyx_diff_to_local e) de)))
  | KDLocal, DXyz de, RotXyz e => Some (Val (DLocal (mvmul (xyz_diff_to_local e) de)))
  | KDGlobal, DLocal w, _ => Some (omap DGlobal (rotate p r w))
  | KDGlobal, DQuat dq, RotQuat q => Some (Val (DGlobal (global_of_quatdiff q dq)))
  | KDGlobal, DMat dm, RotMat m => Some (Val (DGlobal (global_of_matdiff m dm)))
  | KDGlobal, DXyz de, RotXyz e => Some (Val (DGlobal (mvmul (xyz_diff_to_global e) de)))
  | KDQuat, DLocal w, RotQuat q => Some (Val (DQuat (quatdiff_of_local q w)))
  | KDQuat, DGlobal w, RotQuat q => Some (Val (DQuat (quatdiff_of_global q w)))
  | KDMat, DLocal w, RotMat m => Some (Val (DMat (matdiff_of_local m w)))
  | KDMat, DGlobal w, RotMat m => Some (Val (DMat (matdiff_of_global m w)))
  | KDZyx, DLocal w, RotZyx e =>
      Some (omap (fun m => DZyx (mvmul m w)) (zyx_local_to_diff e))
  | KDXyz, DLocal w, RotXyz e =>
      Some (omap (fun m => DXyz (mvmul m w)) (xyz_local_to_diff e))
  | _, _, _ => None
  end.

(** operator*(RotationBase, RotationDiffBase) and (RotationDiffBase,
    RotationBase), RotationDiff.hpp:62-76: quaternion products. The one-argument
    constructor of RotationQuaternionDiff used there exists only for
    RotationQuaternionDiff operands. *)
Definition rot_times_quatdiff (r : rotation) (dq : Quat) : outcome Quat :=
  q <- to_quat p r ;; Val (e_mul q dq).
Definition quatdiff_times_rot (dq : Quat) (r : rotation) : outcome Quat :=
  q <- to_quat p r ;; Val (e_mul dq q).
End WithPrim.

(** operator+ / operator- of two derivatives of the same class
    (RotationDiffBase.hpp:176-193 for Euler rates and matrices - for matrices
    only through a reference to the RotationDiffBase, a plain a + b is ambiguous
    between the two base classes -,
    LocalAngularVelocity.hpp:142-154, GlobalAngularVelocity.hpp:148-160), and of
    the two angular velocity classes mixed (their templated operators use
    other.toBase(), so the raw coordinates are added). [None]: does not compile
    (Eigen::Quaternion has no operator+; the mixed traits of
    RotationDiffBase.hpp:158-173 call one-argument constructors that do not
    exist). *)
Definition diff_add (a b : diff) : option diff :=
  match a, b with
  | DMat x, DMat y => Some (DMat (madd x y))
  | DZyx x, DZyx y => Some (DZyx (vadd x y))
  | DXyz x, DXyz y => Some (DXyz (vadd x y))
  | DLocal x, (DLocal y | DGlobal y) => Some (DLocal (vadd x y))
  | DGlobal x, (DLocal y | DGlobal y) => Some (DGlobal (vadd x y))
  | _, _ => None
  end.
Definition diff_sub (a b : diff) : option diff :=
  match a, b with
  | DMat x, DMat y => Some (DMat (msub x y))
  | DZyx x, DZyx y => Some (DZyx (vsub x y))
  | DXyz x, DXyz y => Some (DXyz (vsub x y))
  | DLocal x, (DLocal y | DGlobal y) => Some (DLocal (vsub x y))
  | DGlobal x, (DLocal y | DGlobal y) => Some (DGlobal (vsub x y))
  | _, _ => None
  end.
(** operator* with a scalar on either side, LocalAngularVelocity.hpp:156-161,
    197-202 and GlobalAngularVelocity.hpp:162-167,204-209 *)
Definition local_scale (w : V3) (f : R) : V3 := vscale f w.
(** Zero()/setZero() of every class: RotationQuaternionDiff.hpp:172-182,
    RotationMatrixDiff.hpp:150-160, EulerAnglesZyxDiff.hpp:225-235,
    EulerAnglesXyzDiff.hpp:223-233, LocalAngularVelocity.hpp:184-194,
    GlobalAngularVelocity.hpp:190-200 *)
Definition diff_zero (k : dkind) : diff :=
  match k with
  | KDQuat => DQuat (mkQ 0 0 0 0) | KDMat => DMat mzero
  | KDZyx => DZyx vzero | KDXyz => DXyz vzero
  | KDLocal => DLocal vzero | KDGlobal => DGlobal vzero
  end.

(** getJacobianOfExponentialMap, RotationDiff.hpp:83-91 *)
Definition getJacobianOfExponentialMap (v : V3) : M33 :=
  let norm := vnorm v in
  let S := getSkewMatrixFromVector v in
  if Rlt_dec norm (/ 10 ^ 4) then madd mid (mscale (1/2) S)
  else madd (madd mid (mscale ((1 - cos norm) / (norm * norm)) S))
            (mscale ((norm - sin norm) / (norm * norm * norm)) (mmul S S)).
