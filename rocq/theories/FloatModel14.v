(** Floating-point model of getJacobianOfExponentialMap (RotationDiff.hpp:83-91) *)
From Coq Require Import ZArith Bool List.
From Flocq Require Import IEEE754.BinarySingleNaN Core.Core.
From Verif Require Import ModelCommon FloatModel FloatModel2 FloatModel3 FloatModel4 FloatModel12.
Import ListNotations.
Local Open Scope Z_scope.

(** The compiler's choices: the squared norm; whether Eigen multiplies the scalar into
    the first factor of the matrix product (Eigen 3.3: s*(A*B) becomes (s*A)*B) or
    multiplies the product by it; the matrix product; the nine sums of the result in
    the small-norm branch (two terms) and in the other one (three terms) *)
Record jac_choices : Set := mkJC { jc_norm : dtree; jc_into : bool; jc_mm : orders9; jc_two : orders9; jc_three : orders9 }.
Definition jac_ok (o : jac_choices) : Prop :=
  order 3 (jc_norm o) /\ orders9_ok (jc_mm o) /\
  (orders3_ok 2 2 2 (ro0 (jc_two o)) /\ orders3_ok 2 2 2 (ro1 (jc_two o)) /\ orders3_ok 2 2 2 (ro2 (jc_two o))) /\
  orders9_ok (jc_three o).

(** the nine sums of products, one for each entry *)
Definition fentries {p} (o : orders9) (a : list (fl p)) (b : list (FM p)) : FM p :=
  let e (t : dtree) (get : FM p -> fl p) := fdot t a (map get b) in
  mkFM (mkFV (e (o0 (ro0 o)) (fun m => gx (r0 m))) (e (o1 (ro0 o)) (fun m => gy (r0 m))) (e (o2 (ro0 o)) (fun m => gz (r0 m))))
       (mkFV (e (o0 (ro1 o)) (fun m => gx (r1 m))) (e (o1 (ro1 o)) (fun m => gy (r1 m))) (e (o2 (ro1 o)) (fun m => gz (r1 m))))
       (mkFV (e (o0 (ro2 o)) (fun m => gx (r2 m))) (e (o1 (ro2 o)) (fun m => gy (r2 m))) (e (o2 (ro2 o)) (fun m => gz (r2 m)))).
(** Matrix3::Identity() *)
Definition fident (p : prim) : FM p :=
  let i := fofZ p 1 in mkFM (mkFV i fzero fzero) (mkFV fzero i fzero) (mkFV fzero fzero i).
(** scalar times matrix *)
Definition fscale_m {p} (s : fl p) (m : FM p) : FM p :=
  let row (v : FV p) := mkFV (fmul s (gx v)) (fmul s (gy v)) (fmul s (gz v)) in
  mkFM (row (r0 m)) (row (r1 m)) (row (r2 m)).

(** getJacobianOfExponentialMap(vector), RotationDiff.hpp:83-91. The functions are
    called as cos(norm), sin(norm): which overload is found for a float depends on the
    headers, so that the differences and quotients are evaluated in the precision [w],
    which is that of the scalar type or double; the quotient is converted to the scalar
    type before it multiplies the matrix. norm < 1.0e-4 compares doubles. *)
Definition fjacobian {p} (L : libm) (w : prim) (o : jac_choices) (v : FV p) : FM p :=
  let norm := fvnorm (jc_norm o) v in
  let skew := fskew v in
  if flt (fcvt F64 norm) (flit F64 1 10000) then fentries (jc_two o) [fofZ p 1; fhalf p] [fident p; skew]
  else
    let nw := fcvt w norm in
    let n2 := fmul norm norm in
    let n3 := fmul n2 norm in
    let s1 := fcvt p (fdiv (fsub (fofZ w 1) (lcos L w nw)) (fcvt w n2)) in
    let s2 := fcvt p (fdiv (fsub nw (lsin L w nw)) (fcvt w n3)) in
    if jc_into o then fentries (jc_three o) [fofZ p 1; s1; fofZ p 1] [fident p; skew; fmm (jc_mm o) (fscale_m s2 skew) skew]
    else fentries (jc_three o) [fofZ p 1; s1; s2] [fident p; skew; fmm (jc_mm o) skew skew].
