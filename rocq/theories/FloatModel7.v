(** Floating-point model of rotation objects of all six classes, of mixed
    products, conversions, rotate, inverted and fix(). *)
From Coq Require Import ZArith Bool List.
From Flocq Require Import IEEE754.BinarySingleNaN Core.Core.
From Verif Require Import ModelCommon FloatModel FloatModel2 FloatModel3 FloatModel4 FloatModel5 FloatModel6.
Import ListNotations.
Local Open Scope Z_scope.

(** A RotationQuaternion, a RotationMatrix, or an object of one of the other four
    classes *)
Inductive fobject (p : prim) : Set := OQuat (q : FQ p) | OMat (m : FM p) | OSrc (s : fsource p).
Arguments OQuat {p}. Arguments OMat {p}. Arguments OSrc {p}.
Inductive okind : Set := KQuat | KMat | KSrc (k : skind).
Definition okind_of {p} (x : fobject p) : okind := match x with OQuat _ => KQuat | OMat _ => KMat | OSrc s => KSrc (skind_of s) end.

(** The compiler's choices: those of the four classes (FloatModel4), the product of
    two matrices, the trace of a matrix, the squared norm and the division in
    normalize(), the determinant (sum, minors) *)
Record choices6 : Set := mkC6 { c6_src : choices; c6_mm : orders9; c6_trace : dtree; c6_norm : dtree; c6_div : divmode; c6_det : dtree; c6_minor : orders3 }.
Definition choices6_ok (c : choices6) : Prop :=
  choices_ok (c6_src c) /\ orders9_ok (c6_mm c) /\ order 3 (c6_trace c) /\ order 4 (c6_norm c) /\ order 3 (c6_det c) /\ orders3_ok 2 2 2 (c6_minor c).

(** RotationQuaternion(x), RotationQuaternion.hpp:103-108, 495-590 *)
Definition oquat {p} (L : libm) (c : choices6) (x : fobject p) : FQ p :=
  match x with OQuat q => q | OMat m => fquat_of_mat (c6_trace c) m | OSrc s => fquat_of L (ch_build (c6_src c)) s end.
(** RotationMatrix(x), RotationMatrix.hpp:312-368 *)
Definition omat {p} (L : libm) (c : choices6) (x : fobject p) : FM p :=
  match x with OQuat q => ftoRot (b_rot (ch_build (c6_src c))) q | OMat m => m | OSrc s => fmat_of L (ch_build (c6_src c)) s end.
(** Construction of an object of class [k] from [x]: RotationQuaternion.hpp:495-590,
    RotationMatrix.hpp:312-368, AngleAxis.hpp:355-423, RotationVector.hpp:304-363,
    EulerAnglesZyx.hpp:535-582, EulerAnglesXyz.hpp:492-540 *)
Definition oconvert {p} (L : libm) (c : choices6) (k : okind) (x : fobject p) : fobject p :=
  match k, x with
  | KQuat, _ => OQuat (oquat L c x)
  | KMat, _ => OMat (omat L c x)
  | KSrc k, OQuat q => OSrc (fsource_of_quat L (ch_ext (c6_src c)) k q)
  | KSrc k, OMat m => OSrc (fsource_of_mat L (c6_trace c) (ch_ext (c6_src c)) k m)
  | KSrc k, OSrc s => OSrc (fconvert L (ch_build (c6_src c)) (ch_ext (c6_src c)) k s)
  end.
(** l * r: two matrices are multiplied (RotationMatrix.hpp:374-381); otherwise both
    operands are converted to quaternions and the product of the quaternions is
    converted to the class of l (RotationImpl.hpp:73-99) *)
Definition oproduct {p} (L : libm) (c : choices6) (l r : fobject p) : fobject p :=
  match l, r with
  | OMat a, OMat b => OMat (fmm (c6_mm c) a b)
  | _, _ => oconvert L c (okind_of l) (OQuat (fmult (ch_mul (c6_src c)) (oquat L c l) (oquat L c r)))
  end.
(** x.rotate(v), RotationImpl.hpp:107-123 *)
Definition orotate {p} (L : libm) (c : choices6) (o : orders3) (x : fobject p) (v : FV p) : FV p := fmv o (omat L c x) v.
(** inverted(): RotationQuaternion.hpp:288-316, RotationMatrix.hpp:142-158, and
    [finverted] *)
Definition oinverted {p} (L : libm) (c : choices6) (x : fobject p) : fobject p :=
  match x with OQuat q => OQuat (fconj q) | OMat m => OMat (ftrans m) | OSrc s => OSrc (finverted L (ch_build (c6_src c)) (ch_ext (c6_src c)) s) end.
(** Identity() *)
Definition oidentity {p} (k : okind) : fobject p := match k with KQuat => OQuat fqid | KMat => OMat fmid | KSrc k => OSrc (fidentity k) end.

(** Eigen determinant of a 3x3 matrix (determinant_impl, bruteforce_det3_helper):
    m00*(m11*m22 - m12*m21) - m01*(m10*m22 - m12*m20) + m02*(m10*m21 - m11*m20),
    RotationMatrix.hpp:178-180 *)
Definition fdet {p} (t : dtree) (o : orders3) (m : FM p) : fl p :=
  let m00 := gx (r0 m) in let m01 := gy (r0 m) in let m02 := gz (r0 m) in
  let m10 := gx (r1 m) in let m11 := gy (r1 m) in let m12 := gz (r1 m) in
  let m20 := gx (r2 m) in let m21 := gy (r2 m) in let m22 := gz (r2 m) in
  fdot t [m00; fneg m01; m02]
         [fdot (o0 o) [m11; fneg m12] [m22; m21]; fdot (o1 o) [m10; fneg m12] [m22; m20]; fdot (o2 o) [m10; fneg m11] [m21; m20]].
(** RotationMatrix::fix(), RotationMatrix.hpp:402-418: factor = 1/pow(det, 1.0/3.0);
    [P] is pow(double, double), the quotient is a double, converted to Scalar *)
Definition fthird : fl F64 := fdiv (fofZ F64 1) (fofZ F64 3).
Definition fmat_factor {p} (P : fl F64 -> fl F64 -> fl F64) (t : dtree) (o : orders3) (m : FM p) : fl p :=
  fcvt p (fdiv (fofZ F64 1) (P (fcvt F64 (fdet t o m)) fthird)).
Definition fmat_fix {p} (P : fl F64 -> fl F64 -> fl F64) (t : dtree) (o : orders3) (m : FM p) : FM p :=
  let f := fmat_factor P t o m in mkFM (fvscale f (r0 m)) (fvscale f (r1 m)) (fvscale f (r2 m)).
(** AngleAxis::fix(): setAxis(axis().normalized()), AngleAxis.hpp:453-459 *)
Definition fvnormalized {p} (t : dtree) (m : divmode) (v : FV p) : FV p :=
  let z := fdot t (flist v) (flist v) in if flt fzero z then fvdiv m v (fsqrt z) else v.
(** fix(): RotationQuaternion.hpp:614-620; rotation vectors and Euler angles are not
    changed, RotationBase.hpp:128-134, 386-388 *)
Definition ofix {p} (P : fl F64 -> fl F64 -> fl F64) (c : choices6) (x : fobject p) : fobject p :=
  match x with
  | OQuat q => OQuat (fnormalize (c6_norm c) (c6_div c) q)
  | OMat m => OMat (fmat_fix P (c6_det c) (c6_minor c) m)
  | OSrc (SrcAA a n) => OSrc (SrcAA a (fvnormalized (x_norm (ch_ext (c6_src c))) (c6_div c) n))
  | OSrc s => OSrc s
  end.

(** ** Calls on one object *)
Inductive oop (p : prim) : Set :=
  | OMulRight (t : fobject p)   (* x = x * t *)
  | OMulLeft (t : fobject p)    (* x = t * x: the product has the class of t, the assignment converts it *)
  | OAssign (t : fobject p)     (* x = t, converted *)
  | OInvert                     (* x.invert() *)
  | OSetIdentity                (* x.setIdentity() *)
  | OFix                        (* x.fix() *)
  | OConvert (k : okind).       (* a new object of class k constructed from x *)
Arguments OMulRight {p}. Arguments OMulLeft {p}. Arguments OAssign {p}. Arguments OInvert {p}. Arguments OSetIdentity {p}. Arguments OFix {p}. Arguments OConvert {p}.
Definition ostep {p} (L : libm) (P : fl F64 -> fl F64 -> fl F64) (x : fobject p) (o : oop p) (c : choices6) : fobject p :=
  match o with
  | OMulRight t => oproduct L c x t
  | OMulLeft t => oconvert L c (okind_of x) (oproduct L c t x)
  | OAssign t => oconvert L c (okind_of x) t
  | OInvert => oinverted L c x
  | OSetIdentity => oidentity (okind_of x)
  | OFix => ofix P c x
  | OConvert k => oconvert L c k x
  end.
Definition orun {p} (L : libm) (P : fl F64 -> fl F64 -> fl F64) (x : fobject p) (l : list (oop p * choices6)) : fobject p :=
  fold_left (fun x o => ostep L P x (fst o) (snd o)) l x.
