(** Generated by tools/genprops.py from Claims18.v: the property theorems only. *)
From Coq Require Import Reals ZArith Bool List Permutation Lra Lia Psatz.
From Flocq Require Import IEEE754.BinarySingleNaN Core.Core.
From Verif Require Import Linalg Spec SpecFacts SpecClose CloseFacts ModelCommon ModelEigen ModelRotation ConvFacts RotFacts FloatModel FloatFacts FloatModulo FloatWrap FloatModel2 FloatModel3
  SpecFloatQ SpecLibm SpecBuild FloatQFacts FloatQProd FloatQHist FloatQRot FloatMHist FloatBuild FloatBuild2 FloatBuild3 FloatBuild4 Claims16.
Import ListNotations.
Local Open Scope R_scope.
From Verif Require Import Claims18.

(** C70: the quaternion constructed from an AngleAxis, RotationVector,
    EulerAnglesZyx or EulerAnglesXyz object: finite and within the stated number
    of roundings of a unit quaternion of exactly the rotation the source stands
    for: 4 more than the axis for angle-axes, 7 + 4|v| for a rotation vector v, 31
    for Euler angles of any size. sin, cos are those of a math library that is
    accurate to two roundings. *)
Theorem C70_quaternion : forall (p : prim) (L : libm) (b : build_orders) (s : fsource p) (B : R),
  libm_ok L -> build_ok b -> 0 <= B <= 1000 -> source_ok B (2 ^ 50) s ->
  qfinite (fquat_of L b s) /\
  exists e, qnorm e = 1 /\ quat_rot e = meaning (source_value s) /\ qdist (qval (fquat_of L b s)) e <= quat_roundings B s * roundoff p.
Proof. exact C70_quaternion_lemma. Qed.
Print Assumptions C70_quaternion.

Example C70_quaternion_ex : libm_ok exact_libm /\ build_ok stdbuild /\ source_ok 6 (2 ^ 50) aa345.
Proof. exact Claims18.C70_quaternion_ex. Qed.

(** C70: the rotation matrix constructed from such an object is within the stated
    number of roundings of the rotation the object stands for, and so are the
    vectors the object rotates. *)
Theorem C70_matrix : forall (p : prim) (L : libm) (b : build_orders) (s : fsource p) (B : R),
  libm_ok L -> build_ok b -> 0 <= B <= 50 -> source_ok B 10 s ->
  mfinite (fmat_of L b s) /\ SO3 (meaning (source_value s)) /\
  close (mat_roundings B s * roundoff p) (mval (fmat_of L b s)) (meaning (source_value s)) /\
  forall (o : orders3) (v : FV p), orders3_ok 3 3 3 o -> vfinite v -> vnorm (vval v) <= bpow radix2 100 ->
    vfinite (frotate L b o s v) /\
    vdist (vval (frotate L b o s v)) (mvmul (meaning (source_value s)) (vval v)) <= (mat_roundings B s + 6) * roundoff p * vnorm (vval v) + underflow p.
Proof. exact C70_matrix_lemma. Qed.
Print Assumptions C70_matrix.

Example C70_matrix_ex : libm_ok exact_libm /\ build_ok stdbuild /\ source_ok 6 10 aa345.
Proof. exact Claims18.C70_matrix_ex. Qed.

(** C70: end to end. A quaternion object is constructed from an object of another
    parameterization, then multiplied from either side with such objects,
    reassigned, inverted, normalized, n calls in all, and rotates a vector: the
    result is within the stated number of roundings of what exact arithmetic
    gives for the exact rotations, k being the number of products since the last
    fix(). No exact input other than the floating-point numbers of the objects. *)
Theorem C70_history : forall (p : prim) (L : libm) (b : build_orders) (s : fsource p) (l : list (bop p)) (K : nat) (o : orders9) (o' : orders3) (v : FV p),
  libm_ok L -> build_ok b -> source_ok 40 10 s -> Forall (bop_ok 40 10) l -> bfixed_every K 0 l -> 57 * roundoff p * (INR K + 1) <= / 100 ->
  orders9_rot_ok o -> orders3_ok 3 3 3 o' -> vfinite v -> vnorm (vval v) <= bpow radix2 100 ->
  let n := INR (length l) in let k := INR (bproducts 0 l) in
  let w := fquat_rotate o o' (brun L (fquat_of L b s) l) v in
  vfinite w /\
  vdist (vval w) (mvmul (bexact (meaning (source_value s)) l) (vval v)) <= roundoff p * (24 + 57 * (5 * (k + 1) + 2 * (n + 1))) * vnorm (vval v) + underflow p.
Proof. exact C70_history_lemma. Qed.
Print Assumptions C70_history.

Example C70_history_ex :
  let l : list (bop F32) := [BMulRight std4 stdbuild aa345; BInvert; BMulLeft std4 stdbuild (SrcZyx (fofZ F32 1) (fofZ F32 2) (fofZ F32 3)); BFix leftright4 Reciprocal;
    BMulRight std4 stdbuild (SrcRv (mkFV (fofZ F32 1) (fofZ F32 2) fzero)); BSetUnique] in
  Forall (bop_ok 40 10) l /\ bfixed_every 2 0 l /\ 57 * roundoff F32 * (INR 2 + 1) <= / 100.
Proof. exact Claims18.C70_history_ex. Qed.

(** C70: the same for a rotation matrix object. *)
Theorem C70_matrix_history : forall (p : prim) (L : libm) (b : build_orders) (s : fsource p) (l : list (bmop p)) (o : orders3) (v : FV p),
  libm_ok L -> build_ok b -> source_ok 40 10 s -> Forall (bmop_ok 40 10) l -> 719 * roundoff p * INR (length l) <= / 100 ->
  orders3_ok 3 3 3 o -> vfinite v -> vnorm (vval v) <= bpow radix2 100 ->
  let n := INR (length l) in let m := bmrun L (fmat_of L b s) l in
  mfinite m /\ close (719 * roundoff p * (n + 1)) (mval m) (bmexact (meaning (source_value s)) l) /\
  vfinite (fmv o m v) /\
  vdist (vval (fmv o m v)) (mvmul (bmexact (meaning (source_value s)) l) (vval v)) <= roundoff p * (6 + 719 * (n + 1)) * vnorm (vval v) + underflow p.
Proof. exact C70_matrix_history_lemma. Qed.
Print Assumptions C70_matrix_history.

Example C70_matrix_history_ex :
  let l : list (bmop F64) := [BMMulRight std9 stdbuild (SrcXyz (fofZ F64 1) (fofZ F64 2) (fofZ F64 100)); BMInvert; BMMulLeft std9 stdbuild (SrcRv (mkFV fzero fzero fzero)); BMAssign stdbuild (SrcZyx fzero (fofZ F64 1) fzero)] in
  Forall (bmop_ok 40 10) l /\ 719 * roundoff F64 * INR (length l) <= / 100.
Proof. exact Claims18.C70_matrix_history_ex. Qed.
