(** Floating-point model of the conversions from quaternions and matrices to the
    other parameterizations, and of the calls on objects of those classes. *)
From Coq Require Import ZArith Bool List.
From Flocq Require Import IEEE754.BinarySingleNaN Core.Core.
From Verif Require Import ModelCommon FloatModel FloatModel2 FloatModel3.
Import ListNotations.
Local Open Scope Z_scope.

(** The compiler's choices: squared norms, division of a vector by a scalar,
    1 - w*w, the matrix of a quaternion, the two-term sums of the Euler angle
    extraction, the trace. *)
Record ext_orders : Set := mkExt {
  x_norm : dtree; x_div : divmode; x_one : dtree; x_rot : orders9; x_c2 : dtree; x_num : dtree; x_den : dtree }.
Definition ext_ok (b : ext_orders) : Prop :=
  order 3 (x_norm b) /\ order 2 (x_one b) /\ orders9_rot_ok (x_rot b) /\ order 2 (x_c2 b) /\ order 2 (x_num b) /\ order 2 (x_den b).

(** internal::NumTraits<Scalar>::dummy_precision(), common.hpp:181-192 *)
Definition fdummy (p : prim) : fl p := match p with F32 => flit F32 1 (10 ^ 5) | F64 => flit F64 1 (10 ^ 12) end.
Definition fvec {p} (q : FQ p) : FV p := mkFV (fx q) (fy q) (fz q).
(** std::numeric_limits<Scalar>::epsilon() *)
Definition fepsilon (p : prim) : fl p := match p with F32 => flit F32 1 (2 ^ 23) | F64 => flit F64 1 (2 ^ 52) end.
(** vector / scalar *)
Definition fvdiv {p} (m : divmode) (v : FV p) (s : fl p) : FV p := mkFV (fscale_down m s (gx v)) (fscale_down m s (gy v)) (fscale_down m s (gz v)).
(** scalar * vector *)
Definition fvscale {p} (s : fl p) (v : FV p) : FV p := mkFV (fmul s (gx v)) (fmul s (gy v)) (fmul s (gz v)).
Definition fvneg {p} (v : FV p) : FV p := mkFV (fneg (gx v)) (fneg (gy v)) (fneg (gz v)).

(** AngleAxis from RotationQuaternion, AngleAxis.hpp:382-389: Eigen 3.3
    AngleAxis::operator=(Quaternion):
      n = q.vec().norm(); if(n < epsilon) n = q.vec().stableNorm();
      if (n != 0) { angle = 2*atan2(n, abs(q.w())); if(q.w() < 0) n = -n; axis = q.vec()/n; }
      else { angle = 0; axis = (1,0,0); } *)
Definition faa_norm {p} (L : libm) (b : ext_orders) (v : FV p) : fl p :=
  let n := fvnorm (x_norm b) v in if flt n (fepsilon p) then lstable L p (gx v) (gy v) (gz v) else n.
Definition faa_of_quat {p} (L : libm) (b : ext_orders) (q : FQ p) : fsource p :=
  let n := faa_norm L b (fvec q) in
  if feq n fzero then SrcAA fzero (funit_x p)
  else
    let angle := fmul (fofZ p 2) (latan2 L p n (fabs (fw q))) in
    let n' := if flt (fw q) fzero then fneg n else n in
    SrcAA angle (fvdiv Quotient (fvec q) n').

(** RotationVector from RotationQuaternion, RotationVector.hpp:323-344 *)
Definition frv_of_quat {p} (L : libm) (b : ext_orders) (q : FQ p) : fsource p :=
  let w := fw q in
  let s := fdot (x_one b) [fofZ p 1; fneg w] [fofZ p 1; w] in
  if flt s (fdummy p) then
    (if flt fzero w then SrcRv (fvscale (fofZ p 2) (fvec q)) else SrcRv (fvscale (fofZ p (-2)) (fvec q)))
  else
    let n := fvnorm (x_norm b) (fvec q) in
    SrcRv (fvscale (fdiv (fmul (fofZ p 2) (latan2 L p n w)) n) (fvec q)).

(** Eigen 3.3 MatrixBase::eulerAngles(a0,a1,a2), a0 <> a2, called at
    EulerAnglesZyx.hpp:563 with (2,1,0) and at EulerAnglesXyz.hpp:513 with
    (0,1,2). The entries selected by i, j, k are the parameters. *)
Definition fEIGEN_PI (p : prim) : fl p := fcvt p fM_PI.
Definition feuler_core {p} (L : libm) (b : ext_orders) (odd : bool) (mjk mkk mii mij mik mki mji mjj mkj : fl p) : fl p * fl p * fl p :=
  let r0 := latan2 L p mjk mkk in
  let c2 := fsqrt (fdot (x_c2 b) [mii; mij] [mii; mij]) in
  let flip := if odd then flt r0 fzero else flt fzero r0 in
  let r0' := if flip then (if flt fzero r0 then fsub r0 (fEIGEN_PI p) else fadd r0 (fEIGEN_PI p)) else r0 in
  let r1 := if flip then latan2 L p (fneg mik) (fneg c2) else latan2 L p (fneg mik) c2 in
  let s1 := lsin L p r0' in let c1 := lcos L p r0' in
  let r2 := latan2 L p (fdot (x_num b) [s1; fneg c1] [mki; mji]) (fdot (x_den b) [c1; fneg s1] [mjj; mkj]) in
  if odd then (r0', r1, r2) else (fneg r0', fneg r1, fneg r2).
(** EulerAnglesZyx from RotationQuaternion, EulerAnglesZyx.hpp:559-566 *)
Definition fzyx_of_quat {p} (L : libm) (b : ext_orders) (q : FQ p) : fsource p :=
  let m := ftoRot (x_rot b) q in
  match feuler_core L b true (gx (r1 m)) (gx (r0 m)) (gz (r2 m)) (gy (r2 m)) (gx (r2 m)) (gz (r0 m)) (gz (r1 m)) (gy (r1 m)) (gy (r0 m)) with
  | (a, b, c) => SrcZyx a b c
  end.
(** EulerAnglesXyz from RotationQuaternion, EulerAnglesXyz.hpp:509-516 *)
Definition fxyz_of_quat {p} (L : libm) (b : ext_orders) (q : FQ p) : fsource p :=
  let m := ftoRot (x_rot b) q in
  match feuler_core L b false (gz (r1 m)) (gz (r2 m)) (gx (r0 m)) (gy (r0 m)) (gz (r0 m)) (gx (r2 m)) (gx (r1 m)) (gy (r1 m)) (gy (r2 m)) with
  | (a, b, c) => SrcXyz a b c
  end.

(** The four classes *)
Inductive skind : Set := SAA | SRv | SZyx | SXyz.
Definition skind_of {p} (s : fsource p) : skind := match s with SrcAA _ _ => SAA | SrcRv _ => SRv | SrcZyx _ _ _ => SZyx | SrcXyz _ _ _ => SXyz end.
Definition fsource_of_quat {p} (L : libm) (b : ext_orders) (k : skind) (q : FQ p) : fsource p :=
  match k with SAA => faa_of_quat L b q | SRv => frv_of_quat L b q | SZyx => fzyx_of_quat L b q | SXyz => fxyz_of_quat L b q end.

(** AngleAxis from RotationVector, AngleAxis.hpp:364-380; vector.normalized()
    divides by the square root of the squared norm if that is positive *)
Definition faa_of_rv {p} (b : ext_orders) (v : FV p) : fsource p :=
  let n := fvnorm (x_norm b) v in
  if flt n (fdummy p) then SrcAA fzero (funit_x p)
  else
    let z := fdot (x_norm b) (flist v) (flist v) in
    SrcAA n (if flt fzero z then fvdiv (x_div b) v (fsqrt z) else v).
(** RotationVector from AngleAxis: angle*axis, RotationVector.hpp:313-320 *)
Definition frv_of_aa {p} (angle : fl p) (axis : FV p) : fsource p := SrcRv (fvscale angle axis).

(** Construction of class [k] from an object of any of the four classes:
    AngleAxis.hpp:355-423 (Euler angles: through the quaternion),
    RotationVector.hpp:304-352 (Euler angles: through AngleAxis),
    EulerAnglesZyx.hpp:535-582 (through the quaternion),
    EulerAnglesXyz.hpp:492-540 (rotation vector: through AngleAxis, line 505) *)
Definition fconvert {p} (L : libm) (c : build_orders) (b : ext_orders) (k : skind) (s : fsource p) : fsource p :=
  match k, s with
  | SAA, SrcAA _ _ | SRv, SrcRv _ | SZyx, SrcZyx _ _ _ | SXyz, SrcXyz _ _ _ => s
  | SAA, SrcRv v => faa_of_rv b v
  | SRv, SrcAA a n => frv_of_aa a n
  | SRv, _ => match faa_of_quat L b (fquat_of L c s) with SrcAA a n => frv_of_aa a n | s' => s' end
  | SXyz, SrcRv v => fxyz_of_quat L b (fquat_of L c (faa_of_rv b v))
  | _, _ => fsource_of_quat L b k (fquat_of L c s)
  end.

(** l * r: both operands are converted to quaternions, the product is converted
    to the class of the left operand, RotationImpl.hpp:73-99 *)
Definition fproduct {p} (L : libm) (c : build_orders) (b : ext_orders) (o : orders4) (l r : fsource p) : fsource p :=
  fsource_of_quat L b (skind_of l) (fmult o (fquat_of L c l) (fquat_of L c r)).
(** inverted(): AngleAxis.hpp:159-164 (the angle is negated twice, the axis
    once), RotationVector.hpp:138-140, EulerAnglesZyx.hpp:152-154,
    EulerAnglesXyz.hpp:133-135 (through the quaternion) *)
Definition finverted {p} (L : libm) (c : build_orders) (b : ext_orders) (s : fsource p) : fsource p :=
  match s with
  | SrcAA a n => SrcAA (fneg (fneg a)) (fvneg n)
  | SrcRv v => SrcRv (fvneg v)
  | SrcZyx _ _ _ => fzyx_of_quat L b (fconj (fquat_of L c s))
  | SrcXyz _ _ _ => fxyz_of_quat L b (fconj (fquat_of L c s))
  end.
(** Identity(), AngleAxis.hpp:242-253, RotationVector.hpp:167-177,
    EulerAnglesZyx.hpp:269-280, EulerAnglesXyz.hpp:247-257 *)
Definition fidentity {p} (k : skind) : fsource p :=
  match k with SAA => SrcAA fzero (funit_x p) | SRv => SrcRv (mkFV fzero fzero fzero) | SZyx => SrcZyx fzero fzero fzero | SXyz => SrcXyz fzero fzero fzero end.

(** ** Calls on one object of any of the four classes *)
Record choices : Set := mkChoices { ch_build : build_orders; ch_ext : ext_orders; ch_mul : orders4 }.
Definition choices_ok (c : choices) : Prop := build_ok (ch_build c) /\ ext_ok (ch_ext c) /\ orders4_ok (ch_mul c).
Inductive sop (p : prim) : Set :=
  | SMulRight (t : fsource p)   (* s = s * t *)
  | SMulLeft (t : fsource p)    (* s = t * s: the product has the class of t, the assignment converts it *)
  | SAssign (t : fsource p)     (* s = t, converted *)
  | SInvert                     (* s.invert() *)
  | SSetIdentity                (* s.setIdentity() *)
  | SConvert (k : skind).       (* a new object of class k constructed from s *)
Arguments SMulRight {p}. Arguments SMulLeft {p}. Arguments SAssign {p}. Arguments SInvert {p}. Arguments SSetIdentity {p}. Arguments SConvert {p}.
Definition sstep {p} (L : libm) (s : fsource p) (o : sop p * choices) : fsource p :=
  let c := ch_build (snd o) in let b := ch_ext (snd o) in let m := ch_mul (snd o) in
  match fst o with
  | SMulRight t => fproduct L c b m s t
  | SMulLeft t => fconvert L c b (skind_of s) (fproduct L c b m t s)
  | SAssign t => fconvert L c b (skind_of s) t
  | SInvert => finverted L c b s
  | SSetIdentity => fidentity (skind_of s)
  | SConvert k => fconvert L c b k s
  end.
Definition srun {p} (L : libm) (s : fsource p) (l : list (sop p * choices)) : fsource p := fold_left (sstep L) l s.
