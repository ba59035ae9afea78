(** Floating-point model of setFromVectors (RotationBase.hpp:370-382,
    RotationImpl.hpp:178-201) for the six rotation classes. *)
From Coq Require Import ZArith Bool List.
From Flocq Require Import IEEE754.BinarySingleNaN Core.Core.
From Verif Require Import ModelCommon FloatModel FloatModel2 FloatModel3 FloatModel4 FloatModel5 FloatModel6 FloatModel7 FloatModel10 FloatModel11.
Import ListNotations.
Local Open Scope Z_scope.

(** The compiler's choices: the two norms of the assertion, the two squared norms and
    the division of normalized(), the dot and the cross product *)
Record tv_choices : Set := mkTV { tv_len1 : dtree; tv_len2 : dtree; tv_norm1 : dtree; tv_norm2 : dtree; tv_div : divmode; tv_dot : dtree; tv_cross : orders3 }.
Definition tv_ok (o : tv_choices) : Prop :=
  order 3 (tv_len1 o) /\ order 3 (tv_len2 o) /\ order 3 (tv_norm1 o) /\ order 3 (tv_norm2 o) /\ order 3 (tv_dot o) /\ orders3_ok 2 2 2 (tv_cross o).

(** Eigen::Quaternion::setFromTwoVectors(a, b), Eigen 3.3:
      v0 = a.normalized(); v1 = b.normalized(); c = v1.dot(v0);
      if (c < Scalar(-1) + dummy_precision()) {
        c = maxi(c, Scalar(-1)); m << v0^T, v1^T; axis = JacobiSVD(m).matrixV().col(2);
        w2 = (Scalar(1) + c)*Scalar(0.5); w = sqrt(w2); vec = axis * sqrt(Scalar(1) - w2);
      } else {
        axis = v0.cross(v1); s = sqrt((Scalar(1) + c)*Scalar(2)); invs = Scalar(1)/s;
        vec = axis * invs; w = s * Scalar(0.5);
      }
    [svd v0 v1] is the third column of V. The product w2 is exact, so that fusing it
    with the subtraction makes no difference. *)
Definition ftwo_vectors {p} (svd : FV p -> FV p -> FV p) (o : tv_choices) (a b : FV p) : FQ p :=
  let one := fofZ p 1 in
  let v0 := fvnormalized (tv_norm1 o) (tv_div o) a in
  let v1 := fvnormalized (tv_norm2 o) (tv_div o) b in
  let c := fdot (tv_dot o) (flist v1) (flist v0) in
  if flt c (fadd (fofZ p (-1)) (fdummy p)) then
    let c' := fmax c (fofZ p (-1)) in
    let axis := svd v0 v1 in
    let w2 := fmul (fadd one c') (fhalf p) in
    let s := fsqrt (fsub one w2) in
    mkFQ (fsqrt w2) (fmul (gx axis) s) (fmul (gy axis) s) (fmul (gz axis) s)
  else
    let axis := fv_cross (tv_cross o) v0 v1 in
    let s := fsqrt (fmul (fadd one c) (fofZ p 2)) in
    let invs := fdiv one s in
    mkFQ (fmul s (fhalf p)) (fmul (gx axis) invs) (fmul (gy axis) invs) (fmul (gz axis) invs).

(** x.setFromVectors(v1, v2) of an object of class [k], RotationImpl.hpp:178-201: None
    is the exception (KINDR_ASSERT_TRUE, in every build) for v1.norm()*v2.norm() == 0;
    otherwise the quaternion is converted to the class. *)
Definition fset_from_vectors {p} (L : libm) (ch : choices6) (svd : FV p -> FV p -> FV p) (o : tv_choices) (k : okind) (a b : FV p) : option (fobject p) :=
  if feq (fmul (fvnorm (tv_len1 o) a) (fvnorm (tv_len2 o) b)) fzero then None
  else Some (oconvert L ch k (OQuat (ftwo_vectors svd o a b))).
(** the same in a build without NDEBUG: the RotationQuaternion is checked
    (RotationQuaternion.hpp:117-122), then converted *)
Definition d_set_from_vectors {p} (L : libm) (ch : choices6) (svd : FV p -> FV p -> FV p) (o : tv_choices) (k : okind) (a b : FV p) : option (dres p (fobject p)) :=
  if feq (fmul (fvnorm (tv_len1 o) a) (fvnorm (tv_len2 o) b)) fzero then None
  else Some (dbind (dchk_q ch (ftwo_vectors svd o a b)) (fun q => d_convert L ch k (OQuat q))).
