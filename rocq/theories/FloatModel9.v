(** Floating-point model of getUnique() of the Euler angle classes and of
    RotationQuaternion, and of operator== of the six classes. *)
From Coq Require Import ZArith Bool List.
From Flocq Require Import IEEE754.BinarySingleNaN Core.Core.
From Verif Require Import ModelCommon FloatModel FloatModel2 FloatModel3 FloatModel4 FloatModel5 FloatModel6 FloatModel7 FloatModel8.
Import ListNotations.
Local Open Scope Z_scope.

(** floatingPointModulo(a+M_PI,2*M_PI)-M_PI: M_PI is a double, so the modulo and the
    sums are double; the result is converted to Scalar in the constructor of the
    vector. EulerAnglesZyx.hpp:354-356, EulerAnglesXyz.hpp:264-266 *)
Definition fwrap_in_double {p} (ev : evaluation) (a : fl p) : fl p :=
  fcvt p (fsub (fmodulo ev (fadd (fcvt F64 a) fM_PI) (fmul (fofZ F64 2) fM_PI)) fM_PI).
(** if(t < 0) t = t + M_PI else t = t - M_PI; EulerAnglesZyx.hpp:363-367 *)
Definition fhalf_turn {p} (t : fl p) : fl p :=
  if flt t fzero then fcvt p (fadd (fcvt F64 t) fM_PI) else fcvt p (fsub (fcvt F64 t) fM_PI).
(** const double tol = 1e-3 *)
Definition feuler_tol : fl F64 := flit F64 1 1000.
(** M_PI/2 and -M_PI/2 *)
Definition fhalf_pi : fl F64 := fdiv fM_PI (fofZ F64 2).
Definition fmhalf_pi : fl F64 := fdiv (fneg fM_PI) (fofZ F64 2).
(** The common body of EulerAnglesZyx::getUnique (EulerAnglesZyx.hpp:353-410) and
    EulerAnglesXyz::getUnique (EulerAnglesXyz.hpp:263-320) on the stored triple: the
    comparisons of the middle angle are in double, x -= z and x += z in Scalar. *)
Definition feuler_unique {p} (ev : evaluation) (a b c : fl p) : fl p * fl p * fl p :=
  let x := fwrap_in_double ev a in
  let y := fwrap_in_double ev b in
  let z := fwrap_in_double ev c in
  let yd := fcvt F64 y in
  if flt yd (fsub fmhalf_pi feuler_tol) then (fhalf_turn x, fcvt p (fneg (fadd yd fM_PI)), fhalf_turn z)
  else if (fle (fsub fmhalf_pi feuler_tol) yd && fle yd (fadd fmhalf_pi feuler_tol))%bool then (fsub x z, y, fzero)
  else if (flt (fadd fmhalf_pi feuler_tol) yd && flt yd (fsub fhalf_pi feuler_tol))%bool then (x, y, z)
  else if (fle (fsub fhalf_pi feuler_tol) yd && fle yd (fadd fhalf_pi feuler_tol))%bool then (fadd x z, y, fzero)
  else (fhalf_turn x, fcvt p (fneg (fsub yd fM_PI)), fhalf_turn z).

(** getUnique() of every class: RotationQuaternion.hpp:340-367 ([fquat_unique] of
    FloatModel2), RotationMatrix.hpp:239-241, and the functions above *)
Definition ounique {p} (ev : evaluation) (c : choices6) (x : fobject p) : fobject p :=
  match x with
  | OQuat q => OQuat (fquat_unique q)
  | OMat m => OMat m
  | OSrc (SrcAA a n) => let (a', n') := faa_unique ev a n in OSrc (SrcAA a' n')
  | OSrc (SrcRv v) => OSrc (SrcRv (frv_unique ev (ch_ext (c6_src c)) v))
  | OSrc (SrcZyx z y x) => match feuler_unique ev z y x with (z', y', x') => OSrc (SrcZyx z' y' x') end
  | OSrc (SrcXyz x y z) => match feuler_unique ev x y z with (x', y', z') => OSrc (SrcXyz x' y' z') end
  end.

(** Comparison of the stored numbers: Eigen's operator== of matrices and vectors
    (RotationImpl.hpp:132-134), RotationQuaternion.hpp:601-609, and compareRelative
    with 0.01 percent for AngleAxis (AngleAxis.hpp:439-448). Objects of different
    classes: false (not called). *)
Definition fveq {p} (a b : FV p) : bool := feq (gx a) (gx b) && feq (gy a) (gy b) && feq (gz a) (gz b).
Definition fqeq {p} (a b : FQ p) : bool := feq (fw a) (fw b) && feq (fx a) (fx b) && feq (fy a) (fy b) && feq (fz a) (fz b).
Definition frelative {p} (a b : fl p) : bool := fcompareRelative a b (flit p 1 100).
Definition ostored_eq {p} (x y : fobject p) : bool :=
  match x, y with
  | OQuat a, OQuat b => fqeq a b
  | OMat a, OMat b => fveq (r0 a) (r0 b) && fveq (r1 a) (r1 b) && fveq (r2 a) (r2 b)
  | OSrc (SrcAA a n), OSrc (SrcAA b m) => frelative a b && frelative (gx n) (gx m) && frelative (gy n) (gy m) && frelative (gz n) (gz m)
  | OSrc (SrcRv a), OSrc (SrcRv b) => fveq a b
  | OSrc (SrcZyx a b c), OSrc (SrcZyx d e f) => feq a d && feq b e && feq c f
  | OSrc (SrcXyz a b c), OSrc (SrcXyz d e f) => feq a d && feq b e && feq c f
  | _, _ => false
  end.
(** operator==, RotationBase.hpp:262-265: both sides are made unique, the right
    operand is converted to the class of the left one. [None]: Eigen has no operator==
    for quaternions and angle-axes, these classes compare only with themselves. [c] and
    [d] are the compiler's choices for the left and the right operand. *)
Definition oequal {p} (L : libm) (c d : choices6) (ev : evaluation) (x y : fobject p) : option bool :=
  match okind_of x, okind_of y with
  | KQuat, KQuat | KSrc SAA, KSrc SAA => Some (ostored_eq (ounique ev c x) (ounique ev d y))
  | KQuat, _ | KSrc SAA, _ => None
  | k, _ => Some (ostored_eq (ounique ev c x) (oconvert L d k (ounique ev d y)))
  end.
