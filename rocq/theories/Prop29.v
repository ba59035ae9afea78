(** Generated by tools/genprops.py from Claims29.v: the property theorems only. *)
From Coq Require Import ZArith Reals Lra Psatz Bool List Lia Permutation.
From Flocq Require Import IEEE754.BinarySingleNaN Core.Core.
From Verif Require Import Linalg Spec SpecFacts SpecClose ModelCommon ModelEigen CommonFacts CloseFacts RVFacts
  FloatModel FloatFacts FloatModel2 SpecFloatQ FloatQFacts FloatQProd FloatQHist FloatQRot FloatMHist FloatCast FloatWrap FloatModel3 SpecLibm SpecBuild FloatBuild FloatBuild2 FloatBuild3 FloatBuild4 FloatModel4 FloatExt FloatExt2 FloatExt3 FloatExt4 SpecExt Claims16 Claims18 FloatExt5 FloatExt6 Claims19 FloatModel6 FloatMat Claims21 FloatModel7 SpecSix FloatSix FloatFix FloatOHist Claims22 FloatModel11 SpecDebugF FloatDebug FloatDebug2 FloatDebug3.
Import ListNotations.
Local Open Scope R_scope.
From Verif Require Import Claims29.

(** C81: a build with assertions returns, whenever it does not throw, the same object
    bit for bit as the release build: for every object (also with NaNs), every
    sequence of calls, every compiler and every math library. *)
Theorem C81_same : forall (p : prim) (L : libm) (P : fl F64 -> fl F64 -> fl F64) (x y : fobject p) (l : list (oop p * choices6)),
  d_run L P x l = Done y -> y = orun L P x l.
Proof. exact C81_same_lemma. Qed.
Print Assumptions C81_same.

Example C81_same_ex : forall L P, exists y, d_run L P (OQuat q345) [(OMulRight (OQuat q345), stdsix); (OInvert, stdsix); (OFix, stdsix); (OConvert KMat, stdsix); (OMulLeft (OMat m345), stdsix)] = Done y.
Proof. exact Claims29.C81_same_ex. Qed.

(** C81: the assertion on the axis of an AngleAxis accepts every finite axis whose
    length is one up to 8e-7 and rejects every axis off by 12e-7 or more (up to length
    2^50), in every order of summation. *)
Theorem C81_axis : forall (p : prim) (t : dtree) (n : FV p), order 3 t -> vfinite n -> bpow radix2 (-50) <= vnorm (vval n) <= bpow radix2 50 ->
  (Rabs (vnorm (vval n) - 1) <= 8 / 10 ^ 7 -> faxis_assert t n = true) /\ (12 / 10 ^ 7 <= Rabs (vnorm (vval n) - 1) -> faxis_assert t n = false).
Proof. exact C81_axis_lemma. Qed.
Print Assumptions C81_axis.

Example C81_axis_ex : order 3 leftright3 /\ vfinite axis345 /\ faxis_assert leftright3 axis345 = true /\ faxis_assert leftright3 (mkFV (flit F32 600002 1000000) (flit F32 4 5) fzero) = false.
Proof. exact Claims29.C81_axis_ex. Qed.

(** C81: the assertions of the RotationMatrix constructors accept every finite matrix
    M with M * M^T within 8e-7 of the identity in every coefficient and determinant
    within 5.5e-7 of one; what they accept has M * M^T within 12e-7 of the identity and
    determinant within 15e-7 of one (rows up to length 2^29). *)
Theorem C81_matrix : forall (p : prim) (o : orders9) (t : dtree) (d : orders3) (m : FM p), orders9_ok o -> order 3 t -> orders3_ok 2 2 2 d -> mfinite m ->
  vnorm (vrow0 (mval m)) <= 2 ^ 29 -> vnorm (vrow1 (mval m)) <= 2 ^ 29 -> vnorm (vrow2 (mval m)) <= 2 ^ 29 ->
  (entries_within (8 / 10 ^ 7) (mmul (mval m) (mtrans (mval m))) mid -> Rabs (mdet (mval m) - 1) <= 55 / 10 ^ 8 -> fmat_assert o t d m = true) /\
  (fmat_assert o t d m = true -> entries_within (12 / 10 ^ 7) (mmul (mval m) (mtrans (mval m))) mid /\ Rabs (mdet (mval m) - 1) <= 15 / 10 ^ 7).
Proof. exact C81_matrix_lemma. Qed.
Print Assumptions C81_matrix.

Example C81_matrix_ex : orders9_ok std9 /\ order 3 leftright3 /\ orders3_ok 2 2 2 minor2 /\ mfinite (cyclic F32) /\ fmat_assert std9 leftright3 minor2 (cyclic F32) = true /\
  fquat_assert leftright4 slightly_long = true /\ fmat_assert std9 leftright3 minor2 (ftoRot stdrot slightly_long) = false /\
  fmat_assert std9 leftright3 minor2 (diagonal F32 (fofZ F32 (2 ^ 100))) = true.
Proof. exact Claims29.C81_matrix_ex. Qed.

(** C81: histories of calls on one object whose class may change, with operands of all
    six classes, in a debug build. Under the limits of the release build ([acc_ok]) and
    as long as the account keeps the quaternions within 9.9e-5 of unit length
    ([dbg_limits]) and the axes of AngleAxis operands are legal, the only assertion that
    can throw is the one on the axis of an AngleAxis computed from a quaternion whose
    vector part is shorter than 2^-116 (float) or 2^-1012 (double); otherwise the
    result is the object of the release build. *)
Theorem C81_history : forall (p : prim) (L : libm) (P : fl F64 -> fl F64 -> fl F64) (x : fobject p) (r : M33) (A : R) (l : list (ocall p)),
  libm_ok L -> pow_ok P -> stands (64/10) A x r -> axis_legal x -> 0 <= A -> A * roundoff p <= / 40 -> Forall ocall_ok l -> Forall operand_legal l -> INR (length l) * (3200 * roundoff p) <= 1 ->
  acc_ok (mkAcc (okind_of x) A 0) l -> dbg_limits (mkAcc (okind_of x) A 0) l ->
  d_run L P x (map fst l) = Done (orun L P x (map fst l)) \/ exists n, d_run L P x (map fst l) = BadAxis n /\ tiny_axis L n.
Proof. exact C81_history_lemma. Qed.
Print Assumptions C81_history.

Example C81_history_ex :
  let l : list (ocall F32) :=
    [(OConvert KQuat, stdsix, (mid, 0)); (OMulRight (OMat m345), stdsix, (quat_rot (mkQ (3/5) (4/5) 0 0), 61));
     (OInvert, stdsix, (mid, 0)); (OFix, stdsix, (mid, 0)); (OConvert (KSrc SAA), stdsix, (mid, 0)); (OMulRight eul, stdsix, (turns euler123, 0));
     (OAssign (OSrc aa345), stdsix, (turns aa345, 0)); (OMulLeft (OMat (cyclic F32)), stdsix, (mkM33 0 0 1 1 0 0 0 1 0, 0))] in
  Forall ocall_ok l /\ Forall operand_legal l /\ INR (length l) * (3200 * roundoff F32) <= 1 /\ stands (64/10) 0 (OMat (cyclic F32)) (mkM33 0 0 1 1 0 0 0 1 0) /\ acc_ok (mkAcc KMat 0 0) l /\ dbg_limits (mkAcc KMat 0 0) l.
Proof. exact Claims29.C81_history_ex. Qed.

(** C81: one RotationQuaternion with quaternion operands whose norms are one up to [B]
    roundings: with at most [K] products between two calls of fix(), assignments or
    setIdentity(), where [B + K (1.01 B + 9.2)] roundings stay within 9.9e-5, no
    assertion throws, however long the history, for every math library. In float with
    operands as they come from fix() (B = 6): K = 100. *)
Theorem C81_quaternions : forall (p : prim) (L : libm) (P : fl F64 -> fl F64 -> fl F64) (B : R) (K : nat) (q : FQ p) (r : M33) (l : list (ocall p)),
  6 <= B -> checked p (B + INR K * (101/100 * B + 46/5)) -> stands (64/10) B (OQuat q) r ->
  Forall ocall_ok l -> Forall (quat_call B) l -> ofixed_every K 0 l ->
  d_run L P (OQuat q) (map fst l) = Done (orun L P (OQuat q) (map fst l)).
Proof. exact C81_quaternions_lemma. Qed.
Print Assumptions C81_quaternions.

Example C81_quaternions_ex :
  let l : list (ocall F32) :=
    [(OMulRight (OQuat q345), stdsix, (quat_rot (direction (qval q345)), 6)); (OInvert, stdsix, (mid, 0)); (OMulLeft (OQuat q345), stdsix, (quat_rot (direction (qval q345)), 6)); (OFix, stdsix, (mid, 0));
     (OAssign (OQuat q345), stdsix, (quat_rot (direction (qval q345)), 6))] in
  checked F32 (6 + INR 100 * (101/100 * 6 + 46/5)) /\ stands (64/10) 6 (OQuat q345) (quat_rot (direction (qval q345))) /\ Forall ocall_ok l /\ Forall (quat_call 6) l /\ ofixed_every 100 0 l.
Proof. exact Claims29.C81_quaternions_ex. Qed.

Theorem C81_product_throws : forall (L : libm) (P : fl F64 -> fl F64 -> fl F64),
  fquat_assert leftright4 long_quat = true /\ is_bad_quat (d_run L P (OQuat long_quat) [(OMulRight (OQuat long_quat), stdsix)]) = true /\
  is_bad_quat (d_run L P (OQuat (mkFQ (fofZ F32 (-5)) (fofZ F32 3) (fofZ F32 (-4)) (fofZ F32 5))) ((OFix, stdsix) :: repeat (OMulRight (OQuat drifting), stdsix) 1000)) = true.
Proof. exact C81_product_throws_lemma. Qed.
Print Assumptions C81_product_throws.

Example C81_product_throws_ex : choices6_ok stdsix /\ qfinite long_quat /\ qfinite drifting /\ fquat_assert leftright4 drifting = true.
Proof. exact Claims29.C81_product_throws_ex. Qed.

(** C81: the assertion on a computed axis can indeed throw on a legal rotation: for the
    quaternion (1, d, d, 0) with d the smallest positive number of the type, whose norm
    is one, AngleAxis throws with every order of summation and every math library
    within the bounds. *)
Theorem C81_tiny_throws : forall (p : prim) (L : libm) (P : fl F64 -> fl F64 -> fl F64) (c : choices6) (q : FQ p), libm_ok L -> choices6_ok c ->
  qfinite q -> B2R (fw q) = 1 -> B2R (fx q) = 2 * half_smallest p -> B2R (fy q) = 2 * half_smallest p -> B2R (fz q) = 0 ->
  exists n, d_run L P (OQuat q) [(OConvert (KSrc SAA), c)] = BadAxis n /\ tiny_axis L n.
Proof. exact C81_tiny_throws_lemma. Qed.
Print Assumptions C81_tiny_throws.

Example C81_tiny_throws_ex : libm_ok exact_libm /\ choices6_ok stdsix /\ qfinite (tiny_quat F64) /\ B2R (fw (tiny_quat F64)) = 1 /\ B2R (fx (tiny_quat F64)) = 2 * half_smallest F64 /\ B2R (fy (tiny_quat F64)) = 2 * half_smallest F64 /\ B2R (fz (tiny_quat F64)) = 0 /\ fquat_assert leftright4 (tiny_quat F64) = true.
Proof. exact Claims29.C81_tiny_throws_ex. Qed.
