(** Floating-point model of the conversion of a RotationMatrix to the other
    parameterizations, and of objects of all six classes. *)
From Coq Require Import ZArith Bool List.
From Flocq Require Import IEEE754.BinarySingleNaN Core.Core.
From Verif Require Import ModelCommon FloatModel FloatModel2 FloatModel3 FloatModel4.
Import ListNotations.
Local Open Scope Z_scope.

(** Eigen::Quaternion(Matrix3), quaternionbase_assign_impl (Eigen 3.3), called at
    RotationQuaternion.hpp:560-565:
      t = mat.trace();
      if (t > 0) { t = sqrt(t + 1); w = 0.5*t; t = 0.5/t;
                   x = (m21 - m12)*t; y = (m02 - m20)*t; z = (m10 - m01)*t; }
      else { i = 0; if (m11 > m00) i = 1; if (m22 > mii) i = 2; j = (i+1)%3; k = (j+1)%3;
             t = sqrt(mii - mjj - mkk + 1); q_i = 0.5*t; t = 0.5/t;
             w = (mkj - mjk)*t; q_j = (mji + mij)*t; q_k = (mki + mik)*t; }
    [t] is the order of the three additions of the trace, each diagonal entry
    multiplied with 1 (exact). The branch is written out for i = 0, 1, 2. *)
Definition fquat_of_mat {p} (t : dtree) (m : FM p) : FQ p :=
  let one := fofZ p 1 in
  let m00 := gx (r0 m) in let m01 := gy (r0 m) in let m02 := gz (r0 m) in
  let m10 := gx (r1 m) in let m11 := gy (r1 m) in let m12 := gz (r1 m) in
  let m20 := gx (r2 m) in let m21 := gy (r2 m) in let m22 := gz (r2 m) in
  let tr := fdot t [m00; m11; m22] [one; one; one] in
  let pivot d := fsqrt (fadd d one) in
  let diag a b c := fsub (fsub a b) c in
  if flt fzero tr then
    let s := pivot tr in let k := fdiv (fhalf p) s in
    mkFQ (fmul (fhalf p) s) (fmul (fsub m21 m12) k) (fmul (fsub m02 m20) k) (fmul (fsub m10 m01) k)
  else if (if flt m00 m11 then flt m11 m22 else flt m00 m22) then
    let s := pivot (diag m22 m00 m11) in let k := fdiv (fhalf p) s in
    mkFQ (fmul (fsub m10 m01) k) (fmul (fadd m02 m20) k) (fmul (fadd m12 m21) k) (fmul (fhalf p) s)
  else if flt m00 m11 then
    let s := pivot (diag m11 m22 m00) in let k := fdiv (fhalf p) s in
    mkFQ (fmul (fsub m02 m20) k) (fmul (fadd m01 m10) k) (fmul (fhalf p) s) (fmul (fadd m21 m12) k)
  else
    let s := pivot (diag m00 m11 m22) in let k := fdiv (fhalf p) s in
    mkFQ (fmul (fsub m21 m12) k) (fmul (fhalf p) s) (fmul (fadd m10 m01) k) (fmul (fadd m20 m02) k).

(** AngleAxis from RotationMatrix, AngleAxis.hpp:392-399 (Eigen: through the
    quaternion), RotationVector.hpp:356-363, EulerAnglesZyx.hpp:544-549,
    EulerAnglesXyz.hpp:520-525 *)
Definition fsource_of_mat {p} (L : libm) (t : dtree) (b : ext_orders) (k : skind) (m : FM p) : fsource p :=
  fsource_of_quat L b k (fquat_of_mat t m).
