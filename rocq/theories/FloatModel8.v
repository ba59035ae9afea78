(** Floating-point model of getUnique() of AngleAxis and RotationVector, of
    getDisparityAngle, isNear, exponentialMap, logarithmicMap, boxPlus, boxMinus and
    interpolate, on objects of all six classes. *)
From Coq Require Import ZArith Bool List.
From Flocq Require Import IEEE754.BinarySingleNaN Core.Core.
From Verif Require Import ModelCommon FloatModel FloatModel2 FloatModel3 FloatModel4 FloatModel5 FloatModel6 FloatModel7.
Import ListNotations.
Local Open Scope Z_scope.

(** AngleAxis::getUnique(), AngleAxis.hpp:259-298: [fgetUnique] of FloatModel *)
Definition faa_unique {p} (ev : evaluation) (a : fl p) (n : FV p) : fl p * FV p :=
  match fgetUnique ev (a, (gx n, gy n, gz n)) with (a', (x, y, z)) => (a', mkFV x y z) end.
(** RotationVector::getUnique(): RotationVector(AngleAxis( *this).getUnique()),
    RotationVector.hpp:244-248 *)
Definition frv_unique {p} (ev : evaluation) (b : ext_orders) (v : FV p) : FV p :=
  match faa_of_rv b v with
  | SrcAA a n => let (a', n') := faa_unique ev a n in fvscale a' n'
  | _ => v
  end.

(** left.getDisparityAngle(right): the angle of AngleAxis(left * right.inverted()),
    wrapped: std::abs(floatingPointModulo(angle + Scalar(M_PI), Scalar(2.0*M_PI)) -
    M_PI), RotationImpl.hpp:220-223; the difference is a double, the result is
    converted to Scalar *)
Definition fdifference {p} (L : libm) (c : choices6) (x y : fobject p) : fobject p := oproduct L c x (oinverted L c y).
Definition fangle_of {p} (x : fobject p) : fl p := match x with OSrc (SrcAA a _) => a | _ => fzero end.
Definition fabs_wrapped {p} (ev : evaluation) (a : fl p) : fl p :=
  fcvt p (fabs (fsub (fcvt F64 (fmodulo ev (fadd a (fcvt p fM_PI)) (fcvt p (fmul (fofZ F64 2) fM_PI)))) fM_PI)).
Definition fdisparity {p} (L : libm) (c : choices6) (ev : evaluation) (x y : fobject p) : fl p :=
  fabs_wrapped ev (fangle_of (oconvert L c (KSrc SAA) (fdifference L c x y))).
(** left.isNear(right, tol), RotationBase.hpp:291-295 *)
Definition fis_near {p} (L : libm) (c : choices6) (ev : evaluation) (x y : fobject p) (tol : fl p) : bool := fle (fdisparity L c ev x y) tol.

(** exponentialMap(v): Rotation(RotationVector(v)), RotationImpl.hpp:144-147 *)
Definition fexp {p} (L : libm) (c : choices6) (k : okind) (v : FV p) : fobject p := oconvert L c k (OSrc (SrcRv v)).
(** x.logarithmicMap(): RotationVector(x).getUnique(), RotationImpl.hpp:149-152 *)
Definition flog {p} (L : libm) (c : choices6) (ev : evaluation) (x : fobject p) : FV p :=
  match oconvert L c (KSrc SRv) x with OSrc (SrcRv v) => frv_unique ev (ch_ext (c6_src c)) v | _ => mkFV fzero fzero fzero end.
(** x.boxMinus(y): (x * y.inverted()).logarithmicMap(), RotationImpl.hpp:163-165 *)
Definition fbox_minus {p} (L : libm) (c : choices6) (ev : evaluation) (x y : fobject p) : FV p := flog L c ev (fdifference L c x y).
(** x.boxPlus(v): exponentialMap(v) * x, RotationImpl.hpp:167-169 *)
Definition fbox_plus {p} (L : libm) (c : choices6) (x : fobject p) (v : FV p) : fobject p := oproduct L c (fexp L c (okind_of x) v) x.
(** x.interpolate(y, ratio), RotationBase.hpp:365-373: the ratio is a double, clamped
    to [0,1], converted to Scalar when the vector is multiplied by it *)
Definition fclamp (r : fl F64) : fl F64 := if flt (fofZ F64 1) r then fofZ F64 1 else if flt r fzero then fzero else r.
Definition finterpolate {p} (L : libm) (c : choices6) (ev : evaluation) (x y : fobject p) (ratio : fl F64) : fobject p :=
  fbox_plus L c x (fvscale (fcvt p (fclamp ratio)) (fbox_minus L c ev y x)).
