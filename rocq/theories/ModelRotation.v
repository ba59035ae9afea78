(** * ModelRotation: the six rotation classes and the generic RotationBase
    interface (include/kindr/rotations).  Release build (NDEBUG): the debug
    assertions of the constructors are modelled in [ModelDebug.v]. *)
From Coq Require Import Reals Lra Bool.
From Verif Require Import Linalg Spec ModelCommon ModelEigen.
Local Open Scope R_scope.

(** Which class a value belongs to (the C++ template argument). *)
Inductive kind : Type := KQuat | KAA | KVec | KMat | KZyx | KXyz.
Definition kind_of (r : rotation) : kind :=
  match r with
  | RotQuat _ => KQuat | RotAA _ => KAA | RotVec _ => KVec
  | RotMat _ => KMat | RotZyx _ => KZyx | RotXyz _ => KXyz
  end.

Section WithPrim.
Context (p : prim).   (* PrimType_ *)

(** isLessThenEpsilons4thRoot, RotationQuaternion.hpp:504-508 *)
Definition eps4throot : R := Rpower (epsilon p) (1/4).

(** RotationQuaternion <- RotationVector, RotationQuaternion.hpp:510-549.
    The factor na (lines 532-542): truncated series below the threshold. *)
Definition rv_na (theta : R) : R :=
  if Rlt_dec theta eps4throot then 1/2 - (theta * theta) * (1/48)
  else sin (theta * (1/2)) / theta.   (* theta >= eps4throot > 0 here *)
Definition rv_to_quat (v : V3) : Quat :=
  let theta := vnorm v in
  let na := rv_na theta in
  mkQ (cos (theta * (1/2))) (vx v * na) (vy v * na) (vz v * na).

(** RotationQuaternion <- EulerAnglesZyx, RotationQuaternion.hpp:578-587 *)
Definition zyx_to_quat (e : Zyx) : Quat :=
  e_mul (e_mul (e_quat_of_aa (mkAA (zyaw e) (mkV3 0 0 1)))
               (e_quat_of_aa (mkAA (zpitch e) (mkV3 0 1 0))))
        (e_quat_of_aa (mkAA (zroll e) (mkV3 1 0 0))).
(** RotationQuaternion <- EulerAnglesXyz, RotationQuaternion.hpp:567-576 *)
Definition xyz_to_quat (e : Xyz) : Quat :=
  e_mul (e_mul (e_quat_of_aa (mkAA (xroll e) (mkV3 1 0 0)))
               (e_quat_of_aa (mkAA (xpitch e) (mkV3 0 1 0))))
        (e_quat_of_aa (mkAA (xyaw e) (mkV3 0 0 1))).

(** RotationQuaternion(RotationBase<Other>), RotationQuaternion.hpp:139-142,
    495-587: the conversion traits selected by Other *)
Definition to_quat (r : rotation) : outcome Quat :=
  match r with
  | RotQuat q => Val q
  | RotAA a => Val (e_quat_of_aa a)
  | RotVec v => Val (rv_to_quat v)
  | RotMat m => e_quat_of_matrix m
  | RotZyx e => Val (zyx_to_quat e)
  | RotXyz e => Val (xyz_to_quat e)
  end.

(** RotationMatrix(RotationBase<Other>), RotationMatrix.hpp:311-367 *)
Definition to_mat (r : rotation) : outcome M33 :=
  match r with
  | RotQuat q => Val (e_toRotationMatrix q)
  | RotAA a => Val (e_aa_toRotationMatrix a)
  | RotVec v => Val (e_toRotationMatrix (rv_to_quat v))
  | RotMat m => Val m
  | RotZyx e => Val (e_toRotationMatrix (zyx_to_quat e))
  | RotXyz e => Val (e_toRotationMatrix (xyz_to_quat e))
  end.

(** AngleAxis <- RotationVector, AngleAxis.hpp:364-380 *)
Definition rv_to_aa (v : V3) : AA :=
  let norm := vnorm v in
  if Rlt_dec norm (dummy_precision p) then mkAA 0 (mkV3 1 0 0)
  else mkAA norm (e_normalized v).

(** AngleAxis(RotationBase<Other>), AngleAxis.hpp:355-423 *)
Definition to_aa (r : rotation) : outcome AA :=
  match r with
  | RotQuat q => Val (e_aa_of_quat q)
  | RotAA a => Val a
  | RotVec v => Val (rv_to_aa v)
  | RotMat m => e_aa_of_matrix m
  | RotZyx e => Val (e_aa_of_quat (zyx_to_quat e))
  | RotXyz e => Val (e_aa_of_quat (xyz_to_quat e))
  end.

(** RotationVector <- RotationQuaternion, RotationVector.hpp:323-344 *)
Definition quat_to_rv (q : Quat) : outcome V3 :=
  let n2 := 1 - qw q * qw q in
  if Rlt_dec n2 (dummy_precision p) then
    if Rlt_dec 0 (qw q) then Val (vscale 2 (qvec q)) else Val (vscale (-2) (qvec q))
  else
    let n := vnorm (qvec q) in
    f <- cdiv (2 * atan2 n (qw q)) n ;;
    Val (vscale f (qvec q)).

(** RotationVector <- AngleAxis, RotationVector.hpp:313-320 *)
Definition aa_to_rv (a : AA) : V3 := vscale (aangle a) (aaxis a).

(** RotationVector(RotationBase<Other>), RotationVector.hpp:304-363; the
    generic trait (Euler angles) goes through AngleAxis *)
Definition to_rv (r : rotation) : outcome V3 :=
  match r with
  | RotQuat q => quat_to_rv q
  | RotAA a => Val (aa_to_rv a)
  | RotVec v => Val v
  | RotMat m => q <- e_quat_of_matrix m ;; quat_to_rv q
  | RotZyx _ | RotXyz _ => a <- to_aa r ;; Val (aa_to_rv a)
  end.

(** EulerAnglesZyx <- RotationQuaternion, EulerAnglesZyx.hpp:559-566 *)
Definition quat_to_zyx (q : Quat) : Zyx :=
  let v := e_eulerAngles_210 (e_toRotationMatrix q) in mkZyx (vx v) (vy v) (vz v).
(** EulerAnglesXyz <- RotationQuaternion, EulerAnglesXyz.hpp:509-516 *)
Definition quat_to_xyz (q : Quat) : Xyz :=
  let v := e_eulerAngles_012 (e_toRotationMatrix q) in mkXyz (vx v) (vy v) (vz v).

(** EulerAnglesZyx(RotationBase<Other>), EulerAnglesZyx.hpp:535-582 *)
Definition to_zyx (r : rotation) : outcome Zyx :=
  match r with
  | RotZyx e => Val e
  | _ => q <- to_quat r ;; Val (quat_to_zyx q)
  end.
(** EulerAnglesXyz(RotationBase<Other>), EulerAnglesXyz.hpp:492-540; the
    rotation vector goes through AngleAxis (line 505) *)
Definition to_xyz (r : rotation) : outcome Xyz :=
  match r with
  | RotXyz e => Val e
  | RotVec v => Val (quat_to_xyz (e_quat_of_aa (rv_to_aa v)))
  | _ => q <- to_quat r ;; Val (quat_to_xyz q)
  end.

(** Constructing class [k] from any rotation *)
Definition convert (k : kind) (r : rotation) : outcome rotation :=
  match k with
  | KQuat => omap RotQuat (to_quat r)
  | KAA => omap RotAA (to_aa r)
  | KVec => omap RotVec (to_rv r)
  | KMat => omap RotMat (to_mat r)
  | KZyx => omap RotZyx (to_zyx r)
  | KXyz => omap RotXyz (to_xyz r)
  end.

(** Identity() and setIdentity(): RotationQuaternion.hpp:321-335,
    AngleAxis.hpp:242-253, RotationVector.hpp:167-177, RotationMatrix.hpp:
    222-233, EulerAnglesZyx.hpp:269-280, EulerAnglesXyz.hpp:247-257 *)
Definition identity (k : kind) : rotation :=
  match k with
  | KQuat => RotQuat (mkQ 1 0 0 0)
  | KAA => RotAA (mkAA 0 (mkV3 1 0 0))
  | KVec => RotVec (mkV3 0 0 0)
  | KMat => RotMat (mkM33 1 0 0 0 1 0 0 0 1)
  | KZyx => RotZyx (mkZyx 0 0 0)
  | KXyz => RotXyz (mkXyz 0 0 0)
  end.

(** AngleAxis::inverted, AngleAxis.hpp:159-164: Eigen's inverse, then both
    the angle and the axis are negated *)
Definition aa_inverted (a : AA) : AA :=
  let i := e_aa_inverse a in mkAA (- aangle i) (vneg (aaxis i)).

(** inverted(): RotationQuaternion.hpp:291-293 (+ QuaternionBase.hpp:185-187),
    AngleAxis.hpp:159, RotationVector.hpp:138-140, RotationMatrix.hpp:144-148,
    EulerAnglesZyx.hpp:152-154, EulerAnglesXyz.hpp:133-135 *)
Definition inverted (r : rotation) : outcome rotation :=
  match r with
  | RotQuat q => Val (RotQuat (e_conjugate q))
  | RotAA a => Val (RotAA (aa_inverted a))
  | RotVec v => Val (RotVec (vneg v))
  | RotMat m => Val (RotMat (mtrans m))
  | RotZyx e => Val (RotZyx (quat_to_zyx (e_conjugate (zyx_to_quat e))))
  | RotXyz e => Val (RotXyz (quat_to_xyz (e_conjugate (xyz_to_quat e))))
  end.

(** ** getUnique *)
(** RotationQuaternion::getUnique, RotationQuaternion.hpp:340-367 *)
Definition quat_unique (q : Quat) : Quat :=
  if Rlt_dec 0 (qw q) then q
  else if Rlt_dec (qw q) 0 then qneg q
  else if Rlt_dec 0 (qx q) then q
  else if Rlt_dec (qx q) 0 then qneg q
  else if Rlt_dec 0 (qy q) then q
  else if Rlt_dec (qy q) 0 then qneg q
  else if Rlt_dec 0 (qz q) then q
  else qneg q.

(** AngleAxis::getUnique, AngleAxis.hpp:259-299 *)
Definition aa_unique (a : AA) : AA :=
  let w := wrapPosNegPI (aangle a) in
  let n := aaxis a in
  if Rlt_dec 0 w then mkAA w n
  else if Rlt_dec w 0 then
    if negb (Reqb w (- PI)) then mkAA (- w) (vneg n)
    else if Rlt_dec (vx n) 0 then mkAA (- w) (vneg n)
    else if Rlt_dec 0 (vx n) then mkAA (- w) n
    else if Rlt_dec (vy n) 0 then mkAA (- w) (vneg n)
    else if Rlt_dec 0 (vy n) then mkAA (- w) n
    else if Rlt_dec (vz n) 0 then mkAA (- w) (vneg n)
    else mkAA (- w) n
  else mkAA 0 (mkV3 1 0 0).

(** RotationVector::getUnique, RotationVector.hpp:244-248 *)
Definition rv_unique (v : V3) : V3 := aa_to_rv (aa_unique (rv_to_aa v)).

(** The common body of EulerAnglesZyx::getUnique (EulerAnglesZyx.hpp:353-410)
    and EulerAnglesXyz::getUnique (EulerAnglesXyz.hpp:263-320) on the stored
    triple: [a] first, [b] middle, [c] last angle. *)
Definition euler_unique (a b c : R) : V3 :=
  let x := floatingPointModulo (a + PI) (2 * PI) - PI in
  let y := floatingPointModulo (b + PI) (2 * PI) - PI in
  let z := floatingPointModulo (c + PI) (2 * PI) - PI in
  let tol := / 10 ^ 3 in
  let flip t := if Rlt_dec t 0 then t + PI else t - PI in
  if Rlt_dec y (- PI / 2 - tol) then mkV3 (flip x) (- (y + PI)) (flip z)
  else if (Rleb (- PI / 2 - tol) y && Rleb y (- PI / 2 + tol))%bool then mkV3 (x - z) y 0
  else if (Rltb (- PI / 2 + tol) y && Rltb y (PI / 2 - tol))%bool then mkV3 x y z
  else if (Rleb (PI / 2 - tol) y && Rleb y (PI / 2 + tol))%bool then mkV3 (x + z) y 0
  else mkV3 (flip x) (- (y - PI)) (flip z).
(** In Zyx the stored triple is [yaw,pitch,roll] (zyx.x() is the yaw). *)
Definition zyx_unique (e : Zyx) : Zyx :=
  let v := euler_unique (zyaw e) (zpitch e) (zroll e) in mkZyx (vx v) (vy v) (vz v).
Definition xyz_unique (e : Xyz) : Xyz :=
  let v := euler_unique (xroll e) (xpitch e) (xyaw e) in mkXyz (vx v) (vy v) (vz v).

(** getUnique()/setUnique() of every class; RotationMatrix.hpp:239-241 *)
Definition get_unique (r : rotation) : rotation :=
  match r with
  | RotQuat q => RotQuat (quat_unique q)
  | RotAA a => RotAA (aa_unique a)
  | RotVec v => RotVec (rv_unique v)
  | RotMat m => RotMat m
  | RotZyx e => RotZyx (zyx_unique e)
  | RotXyz e => RotXyz (xyz_unique e)
  end.

(** ** RotationBase operations *)
(** Concatenation operator, RotationBase.hpp:254-257 + MultiplicationTraits,
    RotationImpl.hpp:73-99 and RotationMatrix.hpp:373-381 *)
Definition mult (l r : rotation) : outcome rotation :=
  match l, r with
  | RotMat a, RotMat b => Val (RotMat (mmul a b))
  | _, _ =>
      ql <- to_quat l ;;
      qr <- to_quat r ;;
      convert (kind_of l) (RotQuat (e_mul ql qr))
  end.

(** rotate(vector), RotationImpl.hpp:106-120 *)
Definition rotate (r : rotation) (v : V3) : outcome V3 :=
  m <- to_mat r ;; Val (mvmul m v).
(** rotate(Matrix3X<Cols>): column by column, RotationImpl.hpp:110-113 *)
Definition rotate_cols (r : rotation) (vs : list V3) : outcome (list V3) :=
  m <- to_mat r ;; Val (List.map (mvmul m) vs).
(** inverseRotate, RotationBase.hpp:309-312,325-328 *)
Definition inverseRotate (r : rotation) (v : V3) : outcome V3 :=
  i <- inverted r ;; rotate i v.

(** ComparisonTraits::isEqual: exact for all classes (RotationImpl.hpp:
    129-135, RotationQuaternion.hpp:600-609) except AngleAxis x AngleAxis
    (AngleAxis.hpp:438-448, relative tolerance 0.01 percent) *)
Definition veqb (a b : V3) : bool :=
  (Reqb (vx a) (vx b) && Reqb (vy a) (vy b) && Reqb (vz a) (vz b))%bool.
Definition qeqb (a b : Quat) : bool :=
  (Reqb (qw a) (qw b) && Reqb (qx a) (qx b) && Reqb (qy a) (qy b) && Reqb (qz a) (qz b))%bool.
Definition meqb (a b : M33) : bool :=
  (Reqb (m00 a) (m00 b) && Reqb (m01 a) (m01 b) && Reqb (m02 a) (m02 b) &&
   Reqb (m10 a) (m10 b) && Reqb (m11 a) (m11 b) && Reqb (m12 a) (m12 b) &&
   Reqb (m20 a) (m20 b) && Reqb (m21 a) (m21 b) && Reqb (m22 a) (m22 b))%bool.
Definition aa_isEqual (a b : AA) : bool :=
  (compareRelative (aangle a) (aangle b) (/ 10 ^ 2) &&
   compareRelative (vx (aaxis a)) (vx (aaxis b)) (/ 10 ^ 2) &&
   compareRelative (vy (aaxis a)) (vy (aaxis b)) (/ 10 ^ 2) &&
   compareRelative (vz (aaxis a)) (vz (aaxis b)) (/ 10 ^ 2))%bool.

(** operator==, RotationBase.hpp:262-265: both sides are made unique, then
    the (unique) right operand is converted to the left class and compared.
    [None]: no such instantiation - Eigen 3.3 has no operator== for
    Eigen::Quaternion and Eigen::AngleAxis, so a quaternion or angle-axis left
    operand compiles only against its own class. *)
Definition is_equal (l r : rotation) : option (outcome bool) :=
  match get_unique l with
  | RotQuat a =>
      match get_unique r with RotQuat b => Some (Val (qeqb a b)) | _ => None end
  | RotAA a =>
      match get_unique r with RotAA b => Some (Val (aa_isEqual a b)) | _ => None end
  | RotVec a => Some (b <- to_rv (get_unique r) ;; Val (veqb a b))
  | RotMat a => Some (b <- to_mat (get_unique r) ;; Val (meqb a b))
  | RotZyx a =>
      Some (b <- to_zyx (get_unique r) ;;
            Val (veqb (mkV3 (zyaw a) (zpitch a) (zroll a)) (mkV3 (zyaw b) (zpitch b) (zroll b))))
  | RotXyz a =>
      Some (b <- to_xyz (get_unique r) ;;
            Val (veqb (mkV3 (xroll a) (xpitch a) (xyaw a)) (mkV3 (xroll b) (xpitch b) (xyaw b))))
  end.

(** getDisparityAngle, RotationImpl.hpp:210-224 *)
Definition disparity (l r : rotation) : outcome R :=
  ri <- inverted r ;;
  d <- mult l ri ;;
  a <- to_aa d ;;
  Val (Rabs (floatingPointModulo (aangle a + PI) (2 * PI) - PI)).
(** isNear, RotationBase.hpp:291-295 *)
Definition isNear (l r : rotation) (tol : R) : outcome bool :=
  d <- disparity l r ;; Val (Rleb d tol).

(** exponentialMap / logarithmicMap, RotationImpl.hpp:141-154 *)
Definition exponentialMap (k : kind) (v : V3) : outcome rotation := convert k (RotVec v).
Definition logarithmicMap (r : rotation) : outcome V3 :=
  v <- to_rv r ;; Val (rv_unique v).
(** boxMinus / boxPlus, RotationImpl.hpp:160-170 *)
Definition boxMinus (l r : rotation) : outcome V3 :=
  ri <- inverted r ;; d <- mult l ri ;; logarithmicMap d.
Definition boxPlus (r : rotation) (v : V3) : outcome rotation :=
  e <- exponentialMap (kind_of r) v ;;
  s <- mult e r ;;
  convert (kind_of r) s.
(** interpolate, RotationBase.hpp:365-373 *)
Definition interpolate (r other : rotation) (ratio : R) : outcome rotation :=
  let ratio := if Rlt_dec 1 ratio then 1 else if Rlt_dec ratio 0 then 0 else ratio in
  d <- boxMinus other r ;;
  boxPlus r (vscale ratio d).

(** fix(): RotationQuaternion.hpp:614-620, AngleAxis.hpp:453-459,
    RotationMatrix.hpp:402-417 (pow(det,1/3) of a negative number is NaN,
    1/pow(0,1/3) is infinite); default no-op RotationBase.hpp:128-134 *)
Definition fix_rot (r : rotation) : outcome rotation :=
  match r with
  | RotQuat q => Val (RotQuat (e_qnormalize q))
  | RotAA a => Val (RotAA (mkAA (aangle a) (e_normalized (aaxis a))))
  | RotMat m =>
      if Rlt_dec 0 (mdet m)
      then Val (RotMat (mscale (1 / Rpower (mdet m) (1/3)) m))
      else NaN
  | _ => Val r
  end.

(** RandomTraits::set_random, RotationImpl.hpp:229-238: [u] is the vector drawn
    by setUniformRandom (common.hpp:109-117), an arbitrary point of
    [-pi,pi)^3 *)
Definition set_random (k : kind) (u : V3) : outcome rotation := convert k (RotVec u).

(** Eigen::Quaternion::setFromTwoVectors (3.3). The nearly opposite case takes
    the axis from an SVD; [svd_axis] stands for that column of V (assumed: a
    unit vector orthogonal to both inputs - stated in the theorems). *)
Definition e_setFromTwoVectors (svd_axis : V3 -> V3 -> V3) (a b : V3) : outcome Quat :=
  let v0 := e_normalized a in
  let v1 := e_normalized b in
  let c := vdot v1 v0 in
  if Rlt_dec c (-1 + dummy_precision p) then
    let c' := Rmax c (-1) in
    let axis := svd_axis v0 v1 in
    let w2 := (1 + c') * (1/2) in
    w <- csqrt w2 ;;
    s <- csqrt (1 - w2) ;;
    Val (mkQ w (vx axis * s) (vy axis * s) (vz axis * s))
  else
    let axis := vcross v0 v1 in
    s <- csqrt ((1 + c) * 2) ;;
    invs <- cdiv 1 s ;;
    Val (mkQ (s * (1/2)) (vx axis * invs) (vy axis * invs) (vz axis * invs)).
(** setFromVectors, RotationImpl.hpp:178-201 *)
Definition setFromVectors (svd_axis : V3 -> V3 -> V3) (k : kind) (v1 v2 : V3) : outcome rotation :=
  if Req_EM_T (vnorm v1 * vnorm v2) 0 then Throws
  else
    q <- e_setFromTwoVectors svd_axis v1 v2 ;;
    convert k (RotQuat q).
End WithPrim.
