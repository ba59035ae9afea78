(** Floating-point model of the constructions of quaternions and matrices from
    angle-axis, rotation vectors and Euler angles. The scalar type of source and
    destination is the same ([template cast<>] to the same type is the identity). *)
From Coq Require Import ZArith Bool List.
From Flocq Require Import IEEE754.BinarySingleNaN Core.Core.
From Verif Require Import ModelCommon FloatModel FloatModel2.
Import ListNotations.
Local Open Scope Z_scope.

(** The C math library: sin, cos, atan2 of float and double (the overload chosen
    by the argument type), and the constant
    pow(std::numeric_limits<Scalar>::epsilon(), 1.0/4.0) of
    isLessThenEpsilons4thRoot, RotationQuaternion.hpp:505-509; and Eigen's
    stableNorm() of a 3-vector (the norm computed with scaling; how the
    coefficients are split into blocks depends on their alignment). *)
Record libm : Set := mkLibm {
  lsin : forall p, fl p -> fl p;
  lcos : forall p, fl p -> fl p;
  latan2 : forall p, fl p -> fl p -> fl p;
  leps4 : forall p, fl p;
  lstable : forall p, fl p -> fl p -> fl p -> fl p
}.

(** Scalar(0.5) *)
Definition fhalf (p : prim) : fl p := flit p 1 2.

(** Eigen::Quaternion(AngleAxis): ha = 0.5*angle; w = cos(ha); vec = sin(ha)*axis.
    RotationQuaternion.hpp:495-501 *)
Definition fquat_of_aa {p} (L : libm) (angle : fl p) (axis : FV p) : FQ p :=
  let ha := fmul (fhalf p) angle in
  let s := lsin L p ha in
  mkFQ (lcos L p ha) (fmul s (gx axis)) (fmul s (gy axis)) (fmul s (gz axis)).
(** Eigen::Matrix<Scalar,3,1>::UnitX() ... *)
Definition funit_x (p : prim) : FV p := mkFV (fofZ p 1) fzero fzero.
Definition funit_y (p : prim) : FV p := mkFV fzero (fofZ p 1) fzero.
Definition funit_z (p : prim) : FV p := mkFV fzero fzero (fofZ p 1).
(** RotationQuaternion from EulerAnglesZyx, RotationQuaternion.hpp:582-590: the
    product of three Eigen::AngleAxis is evaluated from the left, as a product of
    quaternions *)
Definition fquat_of_zyx {p} (L : libm) (oa ob : orders4) (z y x : fl p) : FQ p :=
  fmult ob (fmult oa (fquat_of_aa L z (funit_z p)) (fquat_of_aa L y (funit_y p))) (fquat_of_aa L x (funit_x p)).
(** RotationQuaternion from EulerAnglesXyz, RotationQuaternion.hpp:570-578 *)
Definition fquat_of_xyz {p} (L : libm) (oa ob : orders4) (x y z : fl p) : FQ p :=
  fmult ob (fmult oa (fquat_of_aa L x (funit_x p)) (fquat_of_aa L y (funit_y p))) (fquat_of_aa L z (funit_z p)).

(** Eigen norm() of a 3-vector *)
Definition fvnorm {p} (t : dtree) (v : FV p) : fl p := fsqrt (fdot t (flist v) (flist v)).
(** RotationQuaternion from RotationVector, RotationQuaternion.hpp:511-548.
    [t]: order of the squared norm; [t2]: Scalar(0.5) - (theta*theta)*one_over_48,
    with or without fused multiply-add. theta*0.5 is a double, so sin, cos and the
    quotient are taken in double and converted back to Scalar. *)
Definition fquat_of_rv {p} (L : libm) (t t2 : dtree) (v : FV p) : FQ p :=
  let theta := fvnorm t v in
  let half_d := fmul (fcvt F64 theta) (fhalf F64) in
  let na :=
    if flt theta (leps4 L p)
    then fdot t2 [fofZ p 1; fneg (fmul theta theta)] [fhalf p; flit p 1 48]
    else fcvt p (fdiv (lsin L F64 half_d) (fcvt F64 theta)) in
  mkFQ (fcvt p (lcos L F64 half_d)) (fmul (gx v) na) (fmul (gy v) na) (fmul (gz v) na).

(** Eigen::AngleAxis::toRotationMatrix, RotationMatrix.hpp:312-319. Each entry off
    the diagonal is (1-c)*n_i*n_j -+ s*n_k, on the diagonal (1-c)*n_i*n_i + c; the
    two products may be fused with the sum. *)
Definition fmat_of_aa {p} (L : libm) (o : orders9) (angle : fl p) (axis : FV p) : FM p :=
  let one := fofZ p 1 in
  let s := lsin L p angle in let c := lcos L p angle in
  let k := fsub one c in
  let kx := fmul k (gx axis) in let ky := fmul k (gy axis) in let kz := fmul k (gz axis) in
  let nx := gx axis in let ny := gy axis in let nz := gz axis in
  mkFM
   (mkFV (fdot (o0 (ro0 o)) [kx; c] [nx; one])
         (fdot (o1 (ro0 o)) [kx; fneg s] [ny; nz])
         (fdot (o2 (ro0 o)) [kx; s] [nz; ny]))
   (mkFV (fdot (o0 (ro1 o)) [kx; s] [ny; nz])
         (fdot (o1 (ro1 o)) [ky; c] [ny; one])
         (fdot (o2 (ro1 o)) [ky; fneg s] [nz; nx]))
   (mkFV (fdot (o0 (ro2 o)) [kx; fneg s] [nz; ny])
         (fdot (o1 (ro2 o)) [ky; s] [nz; nx])
         (fdot (o2 (ro2 o)) [kz; c] [nz; one])).
Definition orders9_aa_ok (o : orders9) : Prop := orders3_ok 2 2 2 (ro0 o) /\ orders3_ok 2 2 2 (ro1 o) /\ orders3_ok 2 2 2 (ro2 o).
(** RotationMatrix from RotationVector and from Euler angles: through the
    quaternion, RotationMatrix.hpp:321-328, 349-368 *)
Definition fmat_of_rv {p} (L : libm) (t t2 : dtree) (o : orders9) (v : FV p) : FM p := ftoRot o (fquat_of_rv L t t2 v).
Definition fmat_of_zyx {p} (L : libm) (oa ob : orders4) (o : orders9) (z y x : fl p) : FM p := ftoRot o (fquat_of_zyx L oa ob z y x).
Definition fmat_of_xyz {p} (L : libm) (oa ob : orders4) (o : orders9) (x y z : fl p) : FM p := ftoRot o (fquat_of_xyz L oa ob x y z).

(** ** Objects of the other parameterizations *)
(** An AngleAxis, RotationVector, EulerAnglesZyx or EulerAnglesXyz object holding
    floating-point numbers. *)
Inductive fsource (p : prim) : Set :=
  | SrcAA (angle : fl p) (axis : FV p)
  | SrcRv (v : FV p)
  | SrcZyx (z y x : fl p)
  | SrcXyz (x y z : fl p).
Arguments SrcAA {p}. Arguments SrcRv {p}. Arguments SrcZyx {p}. Arguments SrcXyz {p}.
(** the compiler's choices in the conversions: products of quaternions, squared
    norm, Scalar(0.5) - (theta*theta)*one_over_48, matrix of a quaternion, matrix
    of an angle-axis *)
Record build_orders : Set := mkBuild { b_first : orders4; b_second : orders4; b_norm : dtree; b_taylor : dtree; b_rot : orders9; b_aa : orders9 }.
Definition build_ok (b : build_orders) : Prop :=
  orders4_ok (b_first b) /\ orders4_ok (b_second b) /\ order 3 (b_norm b) /\ order 2 (b_taylor b) /\ orders9_rot_ok (b_rot b) /\ orders9_aa_ok (b_aa b).
(** RotationQuaternion(src), RotationQuaternion.hpp:103-108, 495-590 *)
Definition fquat_of {p} (L : libm) (b : build_orders) (s : fsource p) : FQ p :=
  match s with
  | SrcAA a n => fquat_of_aa L a n
  | SrcRv v => fquat_of_rv L (b_norm b) (b_taylor b) v
  | SrcZyx z y x => fquat_of_zyx L (b_first b) (b_second b) z y x
  | SrcXyz x y z => fquat_of_xyz L (b_first b) (b_second b) x y z
  end.
(** RotationMatrix(src), RotationMatrix.hpp:312-368 *)
Definition fmat_of {p} (L : libm) (b : build_orders) (s : fsource p) : FM p :=
  match s with
  | SrcAA a n => fmat_of_aa L (b_aa b) a n
  | SrcRv v => fmat_of_rv L (b_norm b) (b_taylor b) (b_rot b) v
  | SrcZyx z y x => fmat_of_zyx L (b_first b) (b_second b) (b_rot b) z y x
  | SrcXyz x y z => fmat_of_xyz L (b_first b) (b_second b) (b_rot b) x y z
  end.
(** src.rotate(v): RotationMatrix(src).toImplementation() * v, RotationImpl.hpp:107-123 *)
Definition frotate {p} (L : libm) (b : build_orders) (o : orders3) (s : fsource p) (v : FV p) : FV p := fmv o (fmat_of L b s) v.

(** A call on a RotationQuaternion object whose operand is an object of another
    parameterization: q = q * src (RotationImpl.hpp:73-84), q = q2(src) * q,
    q = src; or a call without operand. *)
Inductive bop (p : prim) : Set :=
  | BMulRight (o : orders4) (b : build_orders) (s : fsource p)
  | BMulLeft (o : orders4) (b : build_orders) (s : fsource p)
  | BAssign (b : build_orders) (s : fsource p)
  | BInvert
  | BSetUnique
  | BFix (t : dtree) (m : divmode).
Arguments BMulRight {p}. Arguments BMulLeft {p}. Arguments BAssign {p}. Arguments BInvert {p}. Arguments BSetUnique {p}. Arguments BFix {p}.
Definition bstep {p} (L : libm) (q : FQ p) (c : bop p) : FQ p :=
  match c with
  | BMulRight o b s => fmult o q (fquat_of L b s)
  | BMulLeft o b s => fmult o (fquat_of L b s) q
  | BAssign b s => fquat_of L b s
  | BInvert => fconj q
  | BSetUnique => fquat_unique q
  | BFix t m => fnormalize t m q
  end.
Definition brun {p} (L : libm) (q : FQ p) (l : list (bop p)) : FQ p := fold_left (bstep L) l q.
(** The same on a RotationMatrix object: m = m * RotationMatrix(src),
    RotationMatrix.hpp:374-381, ... *)
Inductive bmop (p : prim) : Set :=
  | BMMulRight (o : orders9) (b : build_orders) (s : fsource p)
  | BMMulLeft (o : orders9) (b : build_orders) (s : fsource p)
  | BMAssign (b : build_orders) (s : fsource p)
  | BMInvert.
Arguments BMMulRight {p}. Arguments BMMulLeft {p}. Arguments BMAssign {p}. Arguments BMInvert {p}.
Definition bmstep {p} (L : libm) (m : FM p) (c : bmop p) : FM p :=
  match c with
  | BMMulRight o b s => fmm o m (fmat_of L b s)
  | BMMulLeft o b s => fmm o (fmat_of L b s) m
  | BMAssign b s => fmat_of L b s
  | BMInvert => ftrans m
  end.
Definition bmrun {p} (L : libm) (m : FM p) (l : list (bmop p)) : FM p := fold_left (bmstep L) l m.
