(** Generated by tools/genprops.py from Claims22.v: the property theorems only. *)
From Coq Require Import ZArith Reals Lra Psatz Bool List Lia Permutation.
From Flocq Require Import IEEE754.BinarySingleNaN Core.Core.
From Verif Require Import Linalg Spec SpecFacts SpecClose ModelCommon ModelEigen CommonFacts ModelRotation ConvFacts RotFacts CloseFacts RVFacts EulerNear PiBounds
  FloatModel FloatFacts FloatModel2 SpecFloatQ FloatQFacts FloatQProd FloatQHist FloatQRot FloatMHist FloatCast FloatWrap FloatModel3 SpecLibm SpecBuild FloatBuild FloatBuild2 FloatBuild3 FloatBuild4 FloatModel4 FloatExt FloatExt2 FloatExt3 FloatExt4 SpecExt Claims16 Claims18 FloatExt5 FloatExt6 Claims19 FloatModel6 FloatMat Claims21 FloatModel7 SpecSix FloatSix FloatFix FloatOHist.
Import ListNotations.
Local Open Scope R_scope.
From Verif Require Import Claims22.

(** C74: an object of any of the six classes constructed from an object of any of
    the six classes holds finite numbers and stands for the same rotation, up to the
    defect [conv_defect] and the error [conv_error] of the two classes. *)
Theorem C74_convert : forall (p : prim) (L : libm) (c : choices6) (k : okind) (x : fobject p) (r : M33) (T A : R),
  libm_ok L -> choices6_ok c -> 64/10 <= T <= 655/100 -> stands T A x r -> conv_limit p (okind_of x) k A ->
  let y := oconvert L c k x in
  okind_of y = k /\
  exists r', stands (T + 160 * roundoff p) (conv_defect (okind_of x) k A) y r' /\ close (conv_error p (okind_of x) k A) r' r.
Proof. exact C74_convert_lemma. Qed.
Print Assumptions C74_convert.

Example C74_convert_ex : libm_ok exact_libm /\ choices6_ok stdsix /\
  (stands (64/10) 6 (OQuat q345) (quat_rot (direction (qval q345))) /\ conv_limit F32 KQuat (KSrc SRv) 6) /\
  (stands (64/10) 61 (OMat m345) (quat_rot (mkQ (3/5) (4/5) 0 0)) /\ conv_limit F32 KMat (KSrc SZyx) 61 /\ conv_limit F32 KMat KQuat 61) /\
  (stands (64/10) 0 (OSrc aa345) (turns aa345) /\ conv_limit F32 (KSrc SAA) KMat 0).
Proof. exact Claims22.C74_convert_ex. Qed.

(** C74: the product of two objects of any of the six classes has the class of the
    left operand, holds finite numbers and stands for the product of the rotations,
    up to [prod_defect] and [prod_error]. *)
Theorem C74_product : forall (p : prim) (L : libm) (c : choices6) (x y : fobject p) (rx ry : M33) (T A B : R),
  libm_ok L -> choices6_ok c -> 64/10 <= T <= 655/100 -> stands T A x rx -> stands T B y ry -> prod_limit p (okind_of x) (okind_of y) A B ->
  let z := oproduct L c x y in
  okind_of z = okind_of x /\
  exists r', stands (T + 160 * roundoff p) (prod_defect (okind_of x) (okind_of y) A B) z r' /\ close (prod_error p (okind_of x) (okind_of y) A B) r' (mmul rx ry).
Proof. exact C74_product_lemma. Qed.
Print Assumptions C74_product.

Example C74_product_ex : stands (64/10) 6 (OQuat q345) (quat_rot (direction (qval q345))) /\ stands (64/10) 61 (OMat m345) (quat_rot (mkQ (3/5) (4/5) 0 0)) /\
  prod_limit F32 KQuat KMat 6 61 /\ prod_limit F32 KMat KQuat 61 6 /\ prod_limit F32 (KSrc SZyx) KMat 0 61 /\ prod_limit F32 (KSrc SRv) (KSrc SAA) 0 0.
Proof. exact Claims22.C74_product_ex. Qed.

(** C74: inverted(): exact for quaternions and matrices, up to 4200 roundings for the
    other four classes. *)
Theorem C74_inverted : forall (p : prim) (L : libm) (c : choices6) (x : fobject p) (r : M33) (T A : R),
  libm_ok L -> choices6_ok c -> 64/10 <= T <= 655/100 -> stands T A x r ->
  let y := oinverted L c x in
  okind_of y = okind_of x /\
  exists r', stands T A y r' /\ close (match okind_of x with KSrc _ => 4200 * roundoff p | _ => 0 end) r' (mtrans r).
Proof. exact C74_inverted_lemma. Qed.
Print Assumptions C74_inverted.

Example C74_inverted_ex : libm_ok exact_libm /\ choices6_ok stdsix /\ stands (64/10) 61 (OMat m345) (quat_rot (mkQ (3/5) (4/5) 0 0)).
Proof. exact Claims22.C74_inverted_ex. Qed.

(** C74: after fix() a quaternion has norm one up to 6 roundings, a matrix
    determinant one up to 32 roundings, an axis length one up to 6 roundings, however
    large the defect was before (up to 1/100 for quaternions, 1/1000 for matrices).
    The rotation changes by at most 13 and 25 roundings for quaternions and
    angle-axes. A matrix that was within A roundings of a rotation R is still within
    2.1 A + 20 roundings of R: fix() restores the determinant, not orthogonality. *)
Theorem C74_fix : forall (p : prim) (P : fl F64 -> fl F64 -> fl F64) (c : choices6) (x : fobject p) (r : M33) (T A : R),
  pow_ok P -> choices6_ok c -> stands T A x r -> fix_limit p (okind_of x) A ->
  let y := ofix P c x in
  okind_of y = okind_of x /\
  match y with
  | OQuat q => Rabs (qnorm (qval q) - 1) <= 6 * roundoff p
  | OMat m => Rabs (mdet (mval m) - 1) <= 32 * roundoff p
  | OSrc (SrcAA _ n) => Rabs (vnorm (vval n) - 1) <= 6 * roundoff p
  | OSrc _ => y = x
  end /\
  exists r', stands T (fix_defect (okind_of x) A) y r' /\ close (fix_roundings (okind_of x) * roundoff p) r' r.
Proof. exact C74_fix_lemma. Qed.
Print Assumptions C74_fix.

Example C74_fix_ex : pow_ok exact_pow /\ choices6_ok stdsix /\
  (stands (64/10) 61 (OMat m345) (quat_rot (mkQ (3/5) (4/5) 0 0)) /\ fix_limit F32 KMat 61) /\
  (stands (64/10) 6 (OQuat q345) (quat_rot (direction (qval q345))) /\ fix_limit F32 KQuat 6).
Proof. exact Claims22.C74_fix_ex. Qed.

(** C74: rotate() of an object of any of the six classes agrees with the rotation
    the object stands for, up to the defect of its matrix plus 6 roundings times the
    length of the vector, and the underflow error. *)
Theorem C74_rotate : forall (p : prim) (L : libm) (c : choices6) (o : orders3) (x : fobject p) (r : M33) (T A : R) (v : FV p),
  libm_ok L -> choices6_ok c -> orders3_ok 3 3 3 o -> T <= 655/100 -> stands T A x r -> A * roundoff p <= / 100 -> vfinite v -> vnorm (vval v) <= 2 ^ 100 ->
  let w := orotate L c o x v in
  vfinite w /\ vdist (vval w) (mvmul r (vval v)) <= (conv_defect (okind_of x) KMat A + 6) * roundoff p * vnorm (vval v) + underflow p.
Proof. exact C74_rotate_lemma. Qed.
Print Assumptions C74_rotate.

Example C74_rotate_ex : libm_ok exact_libm /\ choices6_ok stdsix /\ orders3_ok 3 3 3 std3 /\ stands (64/10) 0 (OSrc aa345) (turns aa345) /\ 0 * roundoff F32 <= / 100 /\
  vfinite (funit_y F32) /\ vnorm (vval (funit_y F32)) <= 2 ^ 100.
Proof. exact Claims22.C74_rotate_ex. Qed.

(** C74: any sequence of calls on one object, whose class may change on the way: *,
    assignment, invert(), setIdentity(), fix() and conversions, with operands of all
    six classes. As long as the defects stay below the limits of the calls
    ([acc_ok]), the object holds finite numbers, has the defect of the account and
    stands for the exact product up to the error of the account. *)
Theorem C74_history : forall (p : prim) (L : libm) (P : fl F64 -> fl F64 -> fl F64) (x : fobject p) (r : M33) (A : R) (l : list (ocall p)),
  libm_ok L -> pow_ok P -> stands (64/10) A x r -> 0 <= A -> A * roundoff p <= / 40 -> Forall ocall_ok l -> INR (length l) * (3200 * roundoff p) <= 1 ->
  acc_ok (mkAcc (okind_of x) A 0) l ->
  let y := orun L P x (map fst l) in let b := acc_run (mkAcc (okind_of x) A 0) l in
  okind_of y = acc_class b /\ exists r', stands (65/10) (acc_defect b) y r' /\ SO3 r' /\ SO3 (oexact r l) /\ close (acc_error b) r' (oexact r l).
Proof. exact C74_history_lemma. Qed.
Print Assumptions C74_history.

(** matrix * Euler angles; fix; as quaternion; * matrix; inverse; as rotation vector *)
Example C74_history_ex :
  let l : list (ocall F32) :=
    [(OMulRight eul, stdsix, (turns euler123, 0)); (OFix, stdsix, (mid, 0)); (OConvert KQuat, stdsix, (mid, 0)); (OMulRight (OMat m345), stdsix, (quat_rot (mkQ (3/5) (4/5) 0 0), 61));
     (OInvert, stdsix, (mid, 0)); (OFix, stdsix, (mid, 0)); (OConvert (KSrc SRv), stdsix, (mid, 0))] in
  Forall ocall_ok l /\ INR (length l) * (3200 * roundoff F32) <= 1 /\ acc_ok (mkAcc KMat 0 0) l /\ acc_class (acc_run (mkAcc KMat 0 0) l) = KSrc SRv /\
  acc_defect (acc_run (mkAcc KMat 0 0) l) = 0.
Proof. exact Claims22.C74_history_ex. Qed.

(** C74: an angle-axis, rotation vector or Euler angle object after n calls (products,
    assignment, invert(), setIdentity(), fix(), conversions between these four
    classes) with operands of all six classes (quaternions of norm one up to 33
    roundings, matrices within 6 roundings of a rotation matrix; a rotation vector is
    not multiplied by a matrix from the left): the object holds finite numbers and
    stands for the exact product up to n * (134000 roundings + 1.01e-5 (float),
    1.01e-12 (double)). *)
Theorem C74_mixed_history : forall (p : prim) (L : libm) (P : fl F64 -> fl F64 -> fl F64) (s : fsource p) (l : list (ocall p)),
  libm_ok L -> pow_ok P -> object_ok (64/10) s -> Forall ocall_ok l -> plain_calls (skind_of s) l -> INR (length l) * (3200 * roundoff p) <= 1 ->
  exists s' : fsource p, orun L P (OSrc s) (map fst l) = OSrc s' /\ skind_of s' = fold_left plain_class l (skind_of s) /\ object_ok (65/10) s' /\
    close (INR (length l) * (134000 * roundoff p + 101/100 * short_length p)) (turns s') (oexact (turns s) l).
Proof. exact C74_mixed_history_lemma. Qed.
Print Assumptions C74_mixed_history.

Example C74_mixed_history_ex :
  let l : list (ocall F32) :=
    [(OMulRight (OQuat q345), stdsix, (quat_rot (direction (qval q345)), 6)); (OMulLeft (OMat (cyclic F32)), stdsix, (mkM33 0 0 1 1 0 0 0 1 0, 0)); (OConvert (KSrc SRv), stdsix, (mid, 0));
     (OMulLeft (OQuat q345), stdsix, (quat_rot (direction (qval q345)), 6)); (OMulRight (OMat (cyclic F32)), stdsix, (mkM33 0 0 1 1 0 0 0 1 0, 0)); (OFix, stdsix, (mid, 0))] in
  Forall ocall_ok l /\ plain_calls (skind_of euler123) l /\ INR (length l) * (3200 * roundoff F32) <= 1 /\ object_ok (64/10) euler123 /\ fold_left plain_class l (skind_of euler123) = SRv.
Proof. exact Claims22.C74_mixed_history_ex. Qed.
