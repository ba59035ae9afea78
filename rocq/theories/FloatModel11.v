(** Floating-point model of the rotation classes as compiled without NDEBUG: the
    functions of FloatModel7 with the assertions of the constructors they call. *)
From Coq Require Import ZArith Bool List.
From Flocq Require Import IEEE754.BinarySingleNaN Core.Core.
From Verif Require Import ModelCommon FloatModel FloatModel2 FloatModel3 FloatModel4 FloatModel5 FloatModel6 FloatModel7.
Import ListNotations.
Local Open Scope Z_scope.

(** The call returns, or an assertion throws std::runtime_error on a quaternion or on
    a rotation axis *)
Inductive dres (p : prim) (A : Type) : Type := Done (a : A) | BadQuat (q : FQ p) | BadAxis (n : FV p).
Arguments Done {p A}. Arguments BadQuat {p A}. Arguments BadAxis {p A}.
Definition dbind {p A B} (x : dres p A) (f : A -> dres p B) : dres p B :=
  match x with Done a => f a | BadQuat q => BadQuat q | BadAxis n => BadAxis n end.
Definition dmap {p A B} (f : A -> B) (x : dres p A) : dres p B := dbind x (fun a => Done (f a)).

(** KINDR_ASSERT_SCALAR_NEAR_DBG in the constructors of UnitQuaternion and
    RotationQuaternion, Quaternion.hpp:318-355, RotationQuaternion.hpp:90-134 *)
Definition dchk_q {p} (c : choices6) (q : FQ p) : dres p (FQ p) := if fquat_assert (c6_norm c) q then Done q else BadQuat q.
(** KINDR_ASSERT_SCALAR_NEAR_DBG in the constructors of AngleAxis and in setAxis
    (1e-4 percent), AngleAxis.hpp:94-126, 210-220 *)
Definition faxis_assert {p} (t : dtree) (n : FV p) : bool := fcompareRelative (fvnorm t n) (fofZ p 1) (flit p 1 10000).
Definition dchk_a {p} (c : choices6) (s : fsource p) : dres p (fsource p) :=
  match s with
  | SrcAA _ n => if faxis_assert (x_norm (ch_ext (c6_src c))) n then Done s else BadAxis n
  | _ => Done s
  end.
(** KINDR_ASSERT_MATRIX_NEAR_DBG (M * M^T against the identity) and
    KINDR_ASSERT_SCALAR_NEAR_DBG (determinant against 1) in the constructors of
    RotationMatrix, RotationMatrix.hpp:87-109, assert_macros_eigen.hpp:103-141. The
    macro evaluates the product anew for every coefficient: [o] may differ per entry. *)
Definition fmat_assert {p} (o : orders9) (t : dtree) (d : orders3) (m : FM p) : bool :=
  let a := fmm o m (ftrans m) in
  let near x y := fcompareRelative x y (flit p 1 10000) in
  let one := fofZ p 1 in
  near (gx (r0 a)) one && near (gy (r0 a)) fzero && near (gz (r0 a)) fzero &&
  near (gx (r1 a)) fzero && near (gy (r1 a)) one && near (gz (r1 a)) fzero &&
  near (gx (r2 a)) fzero && near (gy (r2 a)) fzero && near (gz (r2 a)) one &&
  near (fdet t d m) one.

Section Debug.
Context {p : prim} (L : libm) (c : choices6).

(** RotationQuaternion(x): copies are not checked; every conversion ends in a checked
    constructor, RotationQuaternion.hpp:495-590 *)
Definition d_quat (x : fobject p) : dres p (FQ p) := match x with OQuat q => Done q | _ => dchk_q c (oquat L c x) end.
(** AngleAxis(x): the checked constructor, except for copies and for the default
    constructor used on short rotation vectors (line 376), AngleAxis.hpp:355-423. The
    quaternions of Euler angles and matrices are Eigen's, not checked. *)
Definition d_aa (x : fobject p) : dres p (fsource p) :=
  match x with
  | OSrc (SrcAA a n) => Done (SrcAA a n)
  | OSrc (SrcRv v) => if flt (fvnorm (x_norm (ch_ext (c6_src c))) v) (fdummy p) then Done (SrcAA fzero (funit_x p)) else dchk_a c (faa_of_rv (ch_ext (c6_src c)) v)
  | _ => dchk_a c (faa_of_quat L (ch_ext (c6_src c)) (oquat L c x))
  end.
(** RotationMatrix(x): the matrix is not checked; rotation vectors and Euler angles go
    through a RotationQuaternion, RotationMatrix.hpp:312-368 *)
Definition d_mat (x : fobject p) : dres p (FM p) :=
  match x with
  | OSrc (SrcRv _) | OSrc (SrcZyx _ _ _) | OSrc (SrcXyz _ _ _) => dbind (d_quat x) (fun _ => Done (omat L c x))
  | _ => Done (omat L c x)
  end.
(** RotationVector(x): matrices go through a RotationQuaternion, Euler angles through
    an AngleAxis, RotationVector.hpp:304-363 *)
Definition d_rv (x : fobject p) : dres p (fsource p) :=
  match x with
  | OQuat q => Done (frv_of_quat L (ch_ext (c6_src c)) q)
  | OMat _ => dbind (d_quat x) (fun q => Done (frv_of_quat L (ch_ext (c6_src c)) q))
  | OSrc (SrcAA a n) => Done (frv_of_aa a n)
  | OSrc (SrcRv v) => Done (SrcRv v)
  | OSrc _ => dbind (d_aa x) (fun s => match s with SrcAA a n => Done (frv_of_aa a n) | s' => Done s' end)
  end.
(** EulerAnglesZyx(x): through a RotationQuaternion, EulerAnglesZyx.hpp:535-582 *)
Definition d_zyx (x : fobject p) : dres p (fsource p) :=
  match x with
  | OSrc (SrcZyx z y x) => Done (SrcZyx z y x)
  | _ => dbind (d_quat x) (fun q => Done (fzyx_of_quat L (ch_ext (c6_src c)) q))
  end.
(** EulerAnglesXyz(x): through a RotationQuaternion; rotation vectors through an
    AngleAxis and a RotationQuaternion, EulerAnglesXyz.hpp:492-540 *)
Definition d_xyz (x : fobject p) : dres p (fsource p) :=
  match x with
  | OSrc (SrcXyz x y z) => Done (SrcXyz x y z)
  | OSrc (SrcRv _) => dbind (d_aa x) (fun a => dbind (d_quat (OSrc a)) (fun q => Done (fxyz_of_quat L (ch_ext (c6_src c)) q)))
  | _ => dbind (d_quat x) (fun q => Done (fxyz_of_quat L (ch_ext (c6_src c)) q))
  end.
Definition d_convert (k : okind) (x : fobject p) : dres p (fobject p) :=
  match k with
  | KQuat => dmap OQuat (d_quat x)
  | KMat => dmap OMat (d_mat x)
  | KSrc SAA => dmap OSrc (d_aa x)
  | KSrc SRv => dmap OSrc (d_rv x)
  | KSrc SZyx => dmap OSrc (d_zyx x)
  | KSrc SXyz => dmap OSrc (d_xyz x)
  end.
(** l * r: both quaternions and their product are checked, RotationImpl.hpp:73-99; two
    matrices are multiplied unchecked, RotationMatrix.hpp:373-381 *)
Definition d_product (l r : fobject p) : dres p (fobject p) :=
  match l, r with
  | OMat a, OMat b => Done (OMat (fmm (c6_mm c) a b))
  | _, _ =>
      dbind (d_quat l) (fun ql => dbind (d_quat r) (fun qr =>
      dbind (dchk_q c (fmult (ch_mul (c6_src c)) ql qr)) (fun q => d_convert (okind_of l) (OQuat q))))
  end.
(** inverted(): RotationQuaternion.hpp:288-316 (checked constructors), AngleAxis.hpp:
    159-164 (checked constructor), EulerAnglesZyx.hpp:152-154, EulerAnglesXyz.hpp:
    133-135 (through a RotationQuaternion and its inverse), RotationVector.hpp:138-140,
    RotationMatrix.hpp:144-148 (unchecked) *)
Definition d_inverted (x : fobject p) : dres p (fobject p) :=
  match x with
  | OQuat q => dmap OQuat (dchk_q c (fconj q))
  | OMat m => Done (OMat (ftrans m))
  | OSrc (SrcAA a n) => dmap OSrc (dchk_a c (SrcAA (fneg (fneg a)) (fvneg n)))
  | OSrc (SrcRv v) => Done (OSrc (SrcRv (fvneg v)))
  | OSrc (SrcZyx _ _ _) => dbind (d_quat x) (fun q => dbind (dchk_q c (fconj q)) (fun q' => Done (OSrc (fzyx_of_quat L (ch_ext (c6_src c)) q'))))
  | OSrc (SrcXyz _ _ _) => dbind (d_quat x) (fun q => dbind (dchk_q c (fconj q)) (fun q' => Done (OSrc (fxyz_of_quat L (ch_ext (c6_src c)) q'))))
  end.
(** fix(): the quaternion and the matrix are written unchecked, RotationQuaternion.hpp:
    614-620, RotationMatrix.hpp:402-417; the axis goes through setAxis, AngleAxis.hpp:453-459 *)
Definition d_fix (P : fl F64 -> fl F64 -> fl F64) (x : fobject p) : dres p (fobject p) :=
  match x with
  | OSrc (SrcAA a n) => dmap OSrc (dchk_a c (SrcAA a (fvnormalized (x_norm (ch_ext (c6_src c))) (c6_div c) n)))
  | _ => Done (ofix P c x)
  end.
(** setIdentity(): AngleAxis.hpp:242-246 goes through setAxis *)
Definition d_identity (k : okind) : dres p (fobject p) :=
  match k with
  | KSrc SAA => dmap OSrc (dchk_a c (SrcAA fzero (funit_x p)))
  | _ => Done (oidentity k)
  end.
End Debug.

(** Calls on one object, as [ostep] and [orun] *)
Definition d_step {p} (L : libm) (P : fl F64 -> fl F64 -> fl F64) (x : fobject p) (o : oop p) (c : choices6) : dres p (fobject p) :=
  match o with
  | OMulRight t => d_product L c x t
  | OMulLeft t => dbind (d_product L c t x) (d_convert L c (okind_of x))
  | OAssign t => d_convert L c (okind_of x) t
  | OInvert => d_inverted L c x
  | OSetIdentity => d_identity c (okind_of x)
  | OFix => d_fix c P x
  | OConvert k => d_convert L c k x
  end.
Fixpoint d_run {p} (L : libm) (P : fl F64 -> fl F64 -> fl F64) (x : fobject p) (l : list (oop p * choices6)) : dres p (fobject p) :=
  match l with
  | [] => Done x
  | o :: l => dbind (d_step L P x (fst o) (snd o)) (fun y => d_run L P y l)
  end.
