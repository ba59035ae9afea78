(** * ModelDebug2: the rotation interface as compiled without NDEBUG.
    Every function is the one of [ModelRotation.v] with the assertions of the
    constructors it calls (the constructors themselves: [ModelDebug.v]).
    Copying an object of the same class and primitive type uses the implicit
    copy constructor / assignment and is not checked. *)
From Coq Require Import Reals Lra Bool List.
From Verif Require Import Linalg Spec ModelCommon ModelEigen ModelRotation ModelDebug ModelHistory.
Import ListNotations.
Local Open Scope R_scope.

Section WithPrim.
Context (p : prim).

(** RotationQuaternion <- other: every trait ends in a checked constructor
    (RotationQuaternion.hpp:495-587) *)
Definition dbg_to_quat (r : rotation) : outcome Quat :=
  match r with
  | RotQuat q => Val q
  | _ => q <- to_quat p r ;; dbg_quat_ctor q
  end.
(** AngleAxis <- other (AngleAxis.hpp:355-423): checked constructor, except
    for the default constructor used on short rotation vectors (line 376) *)
Definition dbg_to_aa (r : rotation) : outcome AA :=
  match r with
  | RotAA a => Val a
  | RotVec v => if Rlt_dec (vnorm v) (dummy_precision p) then Val (mkAA 0 (mkV3 1 0 0))
                else dbg_aa_ctor (mkAA (vnorm v) (e_normalized v))
  | _ => a <- to_aa p r ;; dbg_aa_ctor a
  end.
(** RotationMatrix <- other (RotationMatrix.hpp:311-367): the matrix itself is
    written unchecked, but rotation vectors and Euler angles go through a
    checked quaternion *)
Definition dbg_to_mat (r : rotation) : outcome M33 :=
  match r with
  | RotVec _ | RotZyx _ | RotXyz _ => q <- dbg_to_quat r ;; Val (e_toRotationMatrix q)
  | _ => to_mat p r
  end.
(** RotationVector <- other (RotationVector.hpp:304-363) *)
Definition dbg_to_rv (r : rotation) : outcome V3 :=
  match r with
  | RotMat _ => q <- dbg_to_quat r ;; quat_to_rv p q
  | RotZyx _ | RotXyz _ => a <- dbg_to_aa r ;; Val (aa_to_rv a)
  | _ => to_rv p r
  end.
(** EulerAnglesZyx <- other (EulerAnglesZyx.hpp:535-582) *)
Definition dbg_to_zyx (r : rotation) : outcome Zyx :=
  match r with
  | RotZyx e => Val e
  | _ => q <- dbg_to_quat r ;; Val (quat_to_zyx q)
  end.
(** EulerAnglesXyz <- other (EulerAnglesXyz.hpp:492-540) *)
Definition dbg_to_xyz (r : rotation) : outcome Xyz :=
  match r with
  | RotXyz e => Val e
  | RotVec _ => a <- dbg_to_aa r ;; q <- dbg_to_quat (RotAA a) ;; Val (quat_to_xyz q)
  | _ => q <- dbg_to_quat r ;; Val (quat_to_xyz q)
  end.
Definition dbg_convert (k : kind) (r : rotation) : outcome rotation :=
  match k with
  | KQuat => omap RotQuat (dbg_to_quat r)
  | KAA => omap RotAA (dbg_to_aa r)
  | KVec => omap RotVec (dbg_to_rv r)
  | KMat => omap RotMat (dbg_to_mat r)
  | KZyx => omap RotZyx (dbg_to_zyx r)
  | KXyz => omap RotXyz (dbg_to_xyz r)
  end.

(** operator*, RotationImpl.hpp:73-99 and RotationMatrix.hpp:373-381: both
    quaternions and their product are checked *)
Definition dbg_mult (l r : rotation) : outcome rotation :=
  match l, r with
  | RotMat a, RotMat b => Val (RotMat (mmul a b))
  | _, _ =>
      ql <- dbg_to_quat l ;;
      qr <- dbg_to_quat r ;;
      q <- dbg_quat_ctor (e_mul ql qr) ;;
      dbg_convert (kind_of l) (RotQuat q)
  end.
(** inverted(): RotationQuaternion.hpp:291-293 (through UnitQuaternion::inverted
    and two checked constructors), AngleAxis.hpp:159-164, RotationVector.hpp:
    138-140, RotationMatrix.hpp:144-148, EulerAnglesZyx.hpp:152-154,
    EulerAnglesXyz.hpp:133-135 *)
Definition dbg_inverted (r : rotation) : outcome rotation :=
  match r with
  | RotQuat q => q' <- dbg_quat_ctor (e_conjugate q) ;; Val (RotQuat q')
  | RotAA a => a' <- dbg_aa_ctor (aa_inverted a) ;; Val (RotAA a')
  | RotZyx e => q <- dbg_to_quat r ;; q' <- dbg_quat_ctor (e_conjugate q) ;; Val (RotZyx (quat_to_zyx q'))
  | RotXyz e => q <- dbg_to_quat r ;; q' <- dbg_quat_ctor (e_conjugate q) ;; Val (RotXyz (quat_to_xyz q'))
  | _ => inverted r
  end.
(** RotationQuaternion::getUnique, RotationQuaternion.hpp:340-367: "return
    *this" is unchecked, the negated value goes through a checked constructor *)
Definition dbg_quat_unique (q : Quat) : outcome Quat :=
  if Rlt_dec 0 (qw q) then Val q
  else if Rlt_dec (qw q) 0 then dbg_quat_ctor (qneg q)
  else if Rlt_dec 0 (qx q) then Val q
  else if Rlt_dec (qx q) 0 then dbg_quat_ctor (qneg q)
  else if Rlt_dec 0 (qy q) then Val q
  else if Rlt_dec (qy q) 0 then dbg_quat_ctor (qneg q)
  else if Rlt_dec 0 (qz q) then Val q
  else dbg_quat_ctor (qneg q).
(** AngleAxis::getUnique, AngleAxis.hpp:259-299: the wrapped copy (line 261)
    and the returned value are built by checked constructors, except for
    "return aa" and the default constructor *)
Definition dbg_aa_unique (a : AA) : outcome AA :=
  a' <- dbg_aa_ctor (mkAA (wrapPosNegPI (aangle a)) (aaxis a)) ;;
  let w := aangle a' in
  let n := aaxis a' in
  if Rlt_dec 0 w then Val a'
  else if Rlt_dec w 0 then
    if negb (Reqb w (- PI)) then dbg_aa_ctor (mkAA (- w) (vneg n))
    else if Rlt_dec (vx n) 0 then dbg_aa_ctor (mkAA (- w) (vneg n))
    else if Rlt_dec 0 (vx n) then dbg_aa_ctor (mkAA (- w) n)
    else if Rlt_dec (vy n) 0 then dbg_aa_ctor (mkAA (- w) (vneg n))
    else if Rlt_dec 0 (vy n) then dbg_aa_ctor (mkAA (- w) n)
    else if Rlt_dec (vz n) 0 then dbg_aa_ctor (mkAA (- w) (vneg n))
    else dbg_aa_ctor (mkAA (- w) n)
  else Val (mkAA 0 (mkV3 1 0 0)).
(** getUnique() of every class; RotationVector.hpp:244-248 *)
Definition dbg_get_unique (r : rotation) : outcome rotation :=
  match r with
  | RotQuat q => omap RotQuat (dbg_quat_unique q)
  | RotAA a => omap RotAA (dbg_aa_unique a)
  | RotVec v => a <- dbg_to_aa r ;; u <- dbg_aa_unique a ;; Val (RotVec (aa_to_rv u))
  | _ => Val (get_unique p r)
  end.
(** fix(): RotationQuaternion.hpp:614-620 (writes the implementation,
    unchecked), AngleAxis.hpp:453-459 (checked setAxis), RotationMatrix.hpp:
    402-417 (unchecked setMatrix) *)
Definition dbg_fix (r : rotation) : outcome rotation :=
  match r with
  | RotAA a => a' <- dbg_aa_ctor (mkAA (aangle a) (e_normalized (aaxis a))) ;; Val (RotAA a')
  | _ => fix_rot r
  end.
(** setIdentity(): AngleAxis.hpp:242-246 goes through the checked setAxis *)
Definition dbg_identity (k : kind) : outcome rotation :=
  match k with
  | KAA => omap RotAA (dbg_aa_ctor (mkAA 0 (mkV3 1 0 0)))
  | _ => Val (identity k)
  end.

(** rotate / inverseRotate, RotationImpl.hpp:106-120, RotationBase.hpp:309-328 *)
Definition dbg_rotate (r : rotation) (v : V3) : outcome V3 :=
  m <- dbg_to_mat r ;; Val (mvmul m v).
Definition dbg_inverseRotate (r : rotation) (v : V3) : outcome V3 :=
  i <- dbg_inverted r ;; dbg_rotate i v.
(** operator==, RotationBase.hpp:262-265 *)
Definition dbg_is_equal (l r : rotation) : option (outcome bool) :=
  match l with
  | RotQuat _ =>
      match r with
      | RotQuat _ => Some (a <- dbg_get_unique l ;; b <- dbg_get_unique r ;;
                           match a, b with RotQuat a, RotQuat b => Val (qeqb a b) | _, _ => NaN end)
      | _ => None
      end
  | RotAA _ =>
      match r with
      | RotAA _ => Some (a <- dbg_get_unique l ;; b <- dbg_get_unique r ;;
                         match a, b with RotAA a, RotAA b => Val (aa_isEqual a b) | _, _ => NaN end)
      | _ => None
      end
  | _ =>
      Some (a <- dbg_get_unique l ;;
            r' <- dbg_get_unique r ;;
            b <- dbg_convert (kind_of l) r' ;;
            match a, b with
            | RotVec a, RotVec b => Val (veqb a b)
            | RotMat a, RotMat b => Val (meqb a b)
            | RotZyx a, RotZyx b => Val (veqb (mkV3 (zyaw a) (zpitch a) (zroll a)) (mkV3 (zyaw b) (zpitch b) (zroll b)))
            | RotXyz a, RotXyz b => Val (veqb (mkV3 (xroll a) (xpitch a) (xyaw a)) (mkV3 (xroll b) (xpitch b) (xyaw b)))
            | _, _ => NaN   (* not reached: both have the class of l *)
            end)
  end.
(** getDisparityAngle, RotationImpl.hpp:210-224; isNear, RotationBase.hpp:291-295 *)
Definition dbg_disparity (l r : rotation) : outcome R :=
  ri <- dbg_inverted r ;;
  d <- dbg_mult l ri ;;
  a <- dbg_to_aa d ;;
  Val (Rabs (floatingPointModulo (aangle a + PI) (2 * PI) - PI)).
Definition dbg_isNear (l r : rotation) (tol : R) : outcome bool :=
  d <- dbg_disparity l r ;; Val (Rleb d tol).
(** exponentialMap / logarithmicMap / boxMinus / boxPlus, RotationImpl.hpp:
    141-170; interpolate, RotationBase.hpp:365-373 *)
Definition dbg_exponentialMap (k : kind) (v : V3) : outcome rotation := dbg_convert k (RotVec v).
Definition dbg_logarithmicMap (r : rotation) : outcome V3 :=
  v <- dbg_to_rv r ;;
  u <- dbg_get_unique (RotVec v) ;;
  match u with RotVec u => Val u | _ => NaN end.
Definition dbg_boxMinus (l r : rotation) : outcome V3 :=
  ri <- dbg_inverted r ;; d <- dbg_mult l ri ;; dbg_logarithmicMap d.
Definition dbg_boxPlus (r : rotation) (v : V3) : outcome rotation :=
  e <- dbg_exponentialMap (kind_of r) v ;;
  s <- dbg_mult e r ;;
  dbg_convert (kind_of r) s.
Definition dbg_interpolate (r other : rotation) (ratio : R) : outcome rotation :=
  let ratio := if Rlt_dec 1 ratio then 1 else if Rlt_dec ratio 0 then 0 else ratio in
  d <- dbg_boxMinus other r ;;
  dbg_boxPlus r (vscale ratio d).
(** setFromVectors, RotationImpl.hpp:178-201: the quaternion of setFromTwoVectors
    goes through a checked constructor *)
Definition dbg_setFromVectors (svd_axis : V3 -> V3 -> V3) (k : kind) (v1 v2 : V3) : outcome rotation :=
  if Req_EM_T (vnorm v1 * vnorm v2) 0 then Throws
  else
    q <- e_setFromTwoVectors p svd_axis v1 v2 ;;
    q' <- dbg_quat_ctor q ;;
    dbg_convert k (RotQuat q').

(** A history of calls on one object, as [ModelHistory.rstep] *)
Definition dbg_step (s : rotation) (o : rop) : outcome rotation :=
  match o with
  | OpSetIdentity => dbg_identity (kind_of s)
  | OpInvert => dbg_inverted s
  | OpMulRight r => dbg_mult s r
  | OpMulLeft r => t <- dbg_mult r s ;; dbg_convert (kind_of s) t
  | OpAssign r => dbg_convert (kind_of s) r
  | OpSetUnique => dbg_get_unique s
  | OpFix => dbg_fix s
  end.
Fixpoint dbg_run (s : rotation) (os : list rop) : outcome rotation :=
  match os with
  | [] => Val s
  | o :: os' => t <- dbg_step s o ;; dbg_run t os'
  end.
End WithPrim.
