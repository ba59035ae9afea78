(** Generated by tools/genprops.py from Claims19.v: the property theorems only. *)
From Coq Require Import ZArith Reals Lra Psatz Bool List Lia Permutation.
From Flocq Require Import IEEE754.BinarySingleNaN Core.Core.
From Verif Require Import Linalg Spec SpecFacts SpecClose ModelCommon ModelEigen CommonFacts ModelRotation ConvFacts RotFacts CloseFacts RVFacts EulerNear PiBounds
  FloatModel FloatFacts FloatModel2 SpecFloatQ FloatQFacts FloatQProd FloatQHist FloatQRot FloatMHist FloatCast FloatWrap FloatModel3 SpecLibm SpecBuild FloatBuild FloatBuild2 FloatBuild3 FloatBuild4 FloatModel4 FloatExt FloatExt2 FloatExt3 FloatExt4 SpecExt Claims16 Claims18 FloatExt5 FloatExt6.
Import ListNotations.
Local Open Scope R_scope.
From Verif Require Import Claims19.

(** C71: an AngleAxis, RotationVector, EulerAnglesZyx or EulerAnglesXyz object
    constructed from a quaternion that is within A <= 1200 roundings (A <= 76 for
    RotationVector) of a unit quaternion holds finite numbers and stands for that quaternion's rotation up to
    2A + 18, 2A + 52 and 112A + 476 roundings, also at the Euler singularities. *)
Theorem C71_from_quaternion : forall (p : prim) (L : libm) (b : ext_orders) (k : skind) (q : FQ p) (e : Quat) (A : R),
  libm_ok L -> ext_ok b -> qfinite q -> qnorm e = 1 -> 0 <= A <= extract_limit k -> qdist (qval q) e <= A * roundoff p ->
  let s := fsource_of_quat L b k q in
  skind_of s = k /\ object_ok (64/10) s /\ close (extract_roundings k A * roundoff p) (turns s) (quat_rot e).
Proof. exact C71_from_quaternion_lemma. Qed.
Print Assumptions C71_from_quaternion.

Example C71_from_quaternion_ex : libm_ok exact_libm /\ ext_ok stdext /\ qfinite q345 /\ qnorm (mkQ (3/5) (4/5) 0 0) = 1 /\ qdist (qval q345) (mkQ (3/5) (4/5) 0 0) <= 6 * roundoff F32.
Proof. exact Claims19.C71_from_quaternion_ex. Qed.

(** C71: constructing an object of one of the four classes from an object of
    another changes the rotation by at most 4300 roundings, plus 1.01e-5 (float),
    1.01e-12 (double) when a rotation vector is converted to angle-axis or to
    xyz-Euler angles. *)
Theorem C71_convert : forall (p : prim) (L : libm) (c : build_orders) (b : ext_orders) (k : skind) (s : fsource p) (T : R),
  libm_ok L -> build_ok c -> ext_ok b -> 64/10 <= T <= 655/100 -> object_ok T s ->
  let r := fconvert L c b k s in
  skind_of r = k /\ object_ok (T + 160 * roundoff p) r /\
  close (4300 * roundoff p + (if drops_short (skind_of s) k then 101/100 * short_length p else 0)) (turns r) (turns s).
Proof. exact C71_convert_lemma. Qed.
Print Assumptions C71_convert.

Example C71_convert_ex : libm_ok exact_libm /\ build_ok stdbuild /\ ext_ok stdext /\ object_ok (64/10) aa345 /\
  fconvert exact_libm stdbuild stdext SRv aa345 = SrcRv (mkFV (fmul (fofZ F32 3) (flit F32 3 5)) (fmul (fofZ F32 3) (flit F32 4 5)) fzero).
Proof. exact Claims19.C71_convert_ex. Qed.

(** C71: the product of two such objects, of any of the four classes, is an object
    of the class of the left operand and stands for the product of the rotations up
    to 170, 204 and 8988 roundings. *)
Theorem C71_product : forall (p : prim) (L : libm) (c : build_orders) (b : ext_orders) (o : orders4) (l r : fsource p),
  libm_ok L -> build_ok c -> ext_ok b -> orders4_ok o -> object_ok (655/100) l -> object_ok (655/100) r ->
  let s := fproduct L c b o l r in
  skind_of s = skind_of l /\ object_ok (64/10) s /\
  close (match skind_of l with SAA => 170 | SRv => 204 | SZyx | SXyz => 8988 end * roundoff p) (turns s) (mmul (turns l) (turns r)).
Proof. exact C71_product_lemma. Qed.
Print Assumptions C71_product.

Example C71_product_ex : object_ok (655/100) aa345 /\ object_ok (655/100) euler123 /\ orders4_ok std4.
Proof. exact Claims19.C71_product_ex. Qed.

(** C71: inverted() *)
Theorem C71_inverted : forall (p : prim) (L : libm) (c : build_orders) (b : ext_orders) (s : fsource p) (T : R),
  libm_ok L -> build_ok c -> ext_ok b -> 64/10 <= T <= 655/100 -> object_ok T s ->
  let r := finverted L c b s in
  skind_of r = skind_of s /\ object_ok T r /\ close (4200 * roundoff p) (turns r) (mtrans (turns s)).
Proof. exact C71_inverted_lemma. Qed.
Print Assumptions C71_inverted.

Example C71_inverted_ex : object_ok (64/10) aa345 /\ finverted exact_libm stdbuild stdext aa345 = SrcAA (fofZ F32 3) (mkFV (fneg (flit F32 3 5)) (fneg (flit F32 4 5)) (fneg fzero)).
Proof. exact Claims19.C71_inverted_ex. Qed.

(** C71: any sequence of calls on one object: *, assignment with conversion,
    invert(), setIdentity() and construction of an object of another class, where
    the operands are objects of any of the four classes. The numbers stay finite,
    and after n calls the object stands for the exact product up to n * 13300
    roundings plus 1.01e-5 (float), 1.01e-12 (double) per conversion that drops
    short rotation vectors. *)
Theorem C71_history : forall (p : prim) (L : libm) (s : fsource p) (l : list (sop p * choices)),
  libm_ok L -> object_ok (64/10) s -> Forall sop_ok l -> INR (length l) * (1100 * roundoff p) <= 1 ->
  let r := srun L s l in
  skind_of r = fold_left skind_step l (skind_of s) /\ object_ok (655/100) r /\
  close (INR (length l) * (13300 * roundoff p) + INR (sdrops (skind_of s) l) * (101/100 * short_length p)) (turns r) (sexact (turns s) l).
Proof. exact C71_history_lemma. Qed.
Print Assumptions C71_history.

Example C71_history_ex :
  let l : list (sop F32 * choices) := [(SMulRight euler123, stdchoices); (SConvert SRv, stdchoices); (SMulLeft aa345, stdchoices); (SInvert, stdchoices); (SConvert SXyz, stdchoices); (SAssign aa345, stdchoices)] in
  Forall sop_ok l /\ object_ok (64/10) aa345 /\ INR (length l) * (1100 * roundoff F32) <= 1 /\ sdrops (skind_of aa345) l = 1%nat.
Proof. exact Claims19.C71_history_ex. Qed.

(** C71: the bound A <= 76 is needed for rotation vectors: the finite
    single-precision quaternion (1 - 88 * 2^-24, 0, 0, 0), 88 roundings off the
    identity, becomes a rotation vector of three NaNs, whatever the math library
    and the order of evaluation: 1 - w*w is not below 1e-5, and the code divides
    by the norm of a zero vector. *)
Theorem C71_short_quaternion_nan : forall (L : libm) (b : ext_orders), libm_ok L -> ext_ok b ->
  exists q : FQ F32, qfinite q /\ qdist (qval q) qid <= 88 * roundoff F32 /\
    frv_of_quat L b q = SrcRv (mkFV B754_nan B754_nan B754_nan).
Proof. exact C71_short_quaternion_nan_lemma. Qed.
Print Assumptions C71_short_quaternion_nan.

(** C71: the axis of an AngleAxis object constructed from a quaternion need not be
    near length one: for the single-precision quaternion (1, h, h, 0), h = 2^-149,
    within one rounding of the identity, the axis is (1, 1, 0), of length sqrt 2,
    whatever the math library and the order of evaluation. *)
Theorem C71_axis_not_unit : forall (L : libm) (b : ext_orders), libm_ok L -> ext_ok b ->
  exists q : FQ F32, qfinite q /\ qdist (qval q) qid <= roundoff F32 /\ exists a n, faa_of_quat L b q = SrcAA a n /\ vval n = mkV3 1 1 0.
Proof. exact C71_axis_not_unit_lemma. Qed.
Print Assumptions C71_axis_not_unit.
