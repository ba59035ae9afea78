(** Floating-point model of the inverse of a general Quaternion and of the products of
    a rotation and a time derivative *)
From Coq Require Import ZArith Bool List.
From Flocq Require Import IEEE754.BinarySingleNaN Core.Core.
From Verif Require Import ModelCommon FloatModel FloatModel2 FloatModel3 FloatModel7.
Import ListNotations.
Local Open Scope Z_scope.

(** Quaternion::inverted and invert, Quaternion.hpp:102-114: Eigen's inverse(), the
    conjugate divided by the squared norm, or zero if the squared norm is not positive *)
Definition finverted {p} (t : dtree) (m : divmode) (q : FQ p) : FQ p :=
  let n := fsqnorm t q in
  if flt fzero n then
    let c := fconj q in mkFQ (fscale_down m n (fw c)) (fscale_down m n (fx c)) (fscale_down m n (fy c)) (fscale_down m n (fz c))
  else mkFQ fzero fzero fzero fzero.
(** Quaternion::normalized, normalize and toUnitQuaternion, Quaternion.hpp:220-246,
    264-268, are [fnormalize]; Quaternion * Quaternion, UnitQuaternion * Quaternion
    (QuaternionBase.hpp:131-134, 205-220) are [fmult]. *)

(** rotation * derivative and derivative * rotation, RotationDiff.hpp:62-76: the rotation
    of any class is converted to a RotationQuaternion, the derivative is a
    RotationQuaternionDiff (the other derivatives have no such constructor). *)
Definition frot_times_quatdiff {p} (L : libm) (c : choices6) (o : orders4) (x : fobject p) (d : FQ p) : FQ p :=
  match oconvert L c KQuat x with OQuat a => fmult o a d | _ => d end.
Definition fquatdiff_times_rot {p} (L : libm) (c : choices6) (o : orders4) (d : FQ p) (x : fobject p) : FQ p :=
  match oconvert L c KQuat x with OQuat a => fmult o d a | _ => d end.
