(** Generated by tools/genprops.py from Claims41.v: the property theorems only. *)
From Coq Require Import ZArith Reals Lra Psatz Bool List Lia.
From Flocq Require Import IEEE754.BinarySingleNaN Core.Core.
From Verif Require Import Linalg Spec SpecFacts SpecClose ModelCommon ModelEigen CommonFacts CloseFacts
  FloatModel FloatFacts FloatModel2 SpecFloatQ FloatQFacts FloatQProd FloatQHist FloatQRot FloatMHist FloatCast FloatWrap FloatModel3 SpecLibm SpecBuild FloatBuild FloatBuild2 FloatBuild3 FloatBuild4 FloatModel4 FloatExt FloatExt2 FloatExt3 FloatExt4 SpecExt FloatExt5 FloatExt6 FloatModel5 FloatModel6 FloatMat FloatModel7 SpecSix FloatSix Claims16 Claims18 Claims19 Claims22 FloatModel21 SpecXcast FloatXcast FloatXcast2 FloatVec4.
Import ListNotations.
Local Open Scope R_scope.
From Verif Require Import Claims41.

(** C94: an object of any of the six classes constructed from a float object of the
    same class holds the same numbers (infinities and NaN included), and a float
    object constructed from that one is the original, bit for bit. *)
Theorem C94_widen : forall x : fobject F32,
  okind_of (ocast F64 x) = okind_of x /\
  Forall2 (fun (y : fl F64) (a : fl F32) => B2R y = B2R a /\ is_finite y = is_finite a /\ is_nan y = is_nan a) (numbers (ocast F64 x)) (numbers x) /\
  ocast F32 (ocast F64 x) = x.
Proof. exact C94_widen_lemma. Qed.
Print Assumptions C94_widen.

Example C94_widen_ex : numbers (ocast F64 (OSrc aa345)) <> [] /\ okind_of (OSrc aa345) = KSrc SAA.
Proof. exact Claims41.C94_widen_ex. Qed.

(** C94: construction of an object of the same class and the other type. The object
    stays legal and the rotation moves by at most [cast_roundings]: nothing except
    from double to float, where it is 2.5 roundings for a quaternion, the angle plus
    2.5 roundings for an angle-axis, the length for a rotation vector, the sum of the
    angles for Euler angles; a matrix becomes at most two roundings less exact. *)
Theorem C94_cast : forall (p q : prim) (x : fobject p) (r : M33) (T A : R),
  T <= 7 -> stands T A x r -> A * roundoff p <= / 50 -> moderate x -> axis_legal q x ->
  okind_of (ocast q x) = okind_of x /\
  exists r', stands (T + 8 * roundoff q) (cast_defect p q (okind_of x) A) (ocast q x) r' /\ close (cast_roundings q x * roundoff q) r' r.
Proof. exact C94_cast_lemma. Qed.
Print Assumptions C94_cast.

Example C94_cast_ex : stands (64/10) 0 rv123 (turns (SrcRv (mkFV (fofZ F64 1) (fofZ F64 2) (fofZ F64 3)))) /\ moderate rv123 /\ axis_legal F32 rv123 /\ narrows F64 F32 = 1.
Proof. exact Claims41.C94_cast_ex. Qed.

(** C94: conversions that convert the numbers first and then compute in the
    destination type (all pairs of classes except those from rotation vectors to other
    classes and those from quaternions to rotation vectors and Euler angles): the
    errors of the two steps add up. *)
Theorem C94_cast_first : forall (p q : prim) (L : libm) (c : choices6) (k : okind) (x : fobject p) (r : M33) (T A : R),
  libm_ok L -> choices6_ok c -> 64/10 <= T <= 654/100 -> stands T A x r -> A * roundoff p <= / 50 -> moderate x -> axis_legal q x ->
  casts_first (okind_of x) k = true -> conv_limit q (okind_of x) k (cast_defect p q (okind_of x) A) ->
  exists y r', xconvert q L c k x = Some y /\ okind_of y = k /\
    stands (T + 168 * roundoff q) (conv_defect (okind_of x) k (cast_defect p q (okind_of x) A)) y r' /\
    close (cast_roundings q x * roundoff q + conv_error q (okind_of x) k (cast_defect p q (okind_of x) A)) r' r.
Proof. exact C94_cast_first_lemma. Qed.
Print Assumptions C94_cast_first.

Example C94_cast_first_ex : libm_ok exact_libm /\ choices6_ok stdsix /\
  stands (64/10) 61 (OMat m345) (quat_rot (mkQ (3/5) (4/5) 0 0)) /\ casts_first KMat KQuat = true /\ conv_limit F64 KMat KQuat (cast_defect F32 F64 KMat 61) /\
  stands (64/10) 0 eul (turns euler123) /\ moderate eul /\ casts_first (okind_of eul) (KSrc SRv) = true.
Proof. exact Claims41.C94_cast_first_ex. Qed.

(** C94: Euler angles of a quaternion of the other type, and EulerAnglesZyx of a
    rotation vector of the other type, are computed in the source type and rounded
    last. *)
Theorem C94_cast_last : forall (p q : prim) (L : libm) (c : choices6) (k : okind) (x : fobject p) (r : M33) (T A : R),
  libm_ok L -> choices6_ok c -> 64/10 <= T <= 654/100 -> stands T A x r -> casts_last (okind_of x) k = true -> conv_limit p (okind_of x) k A ->
  exists y r', xconvert q L c k x = Some y /\ okind_of y = k /\ stands T 0 y r' /\
    close (conv_error p (okind_of x) k A + narrows p q * (121/10) * roundoff q) r' r.
Proof. exact C94_cast_last_lemma. Qed.
Print Assumptions C94_cast_last.

Example C94_cast_last_ex : stands (64/10) 0 rv123 (turns (SrcRv (mkFV (fofZ F64 1) (fofZ F64 2) (fofZ F64 3)))) /\ casts_last (okind_of rv123) (KSrc SZyx) = true /\
  stands (64/10) 6 (OQuat q345) (quat_rot (direction (qval q345))) /\ casts_last KQuat (KSrc SXyz) = true /\ conv_limit F32 KQuat (KSrc SXyz) 6.
Proof. exact Claims41.C94_cast_last_ex. Qed.

(** C94: quaternions and matrices of rotation vectors of the other type. The norm of
    the vector is computed in the source type: a double quaternion constructed from a
    float rotation vector has norm one, and is the right rotation, only up to 26
    roundings of float ([ratio] is 2^29 there). *)
Theorem C94_rv_quat : forall (p q : prim) (L : libm) (c : choices6) (v : FV p) (T : R),
  libm_ok L -> choices6_ok c -> vfinite v -> vnorm (vval v) <= 654/100 ->
  let r := turns (SrcRv v) in
  let E := (201/100 * rv_defect p q + narrows p q * (vnorm (vval v) + / 100)) * roundoff q in
  (exists y r', xconvert q L c KQuat (OSrc (SrcRv v)) = Some y /\ okind_of y = KQuat /\ stands T (rv_defect p q) y r' /\ close E r' r) /\
  (exists y r', xconvert q L c KMat (OSrc (SrcRv v)) = Some y /\ okind_of y = KMat /\ stands T (5 * rv_defect p q + 18) y r' /\ close E r' r).
Proof. exact C94_rv_quat_lemma. Qed.
Print Assumptions C94_rv_quat.

Example C94_rv_quat_ex : libm_ok exact_libm /\ choices6_ok stdsix /\
  (let v := mkFV (fofZ F64 1) (fofZ F64 2) (fofZ F64 3) in vfinite v /\ vnorm (vval v) <= 654/100) /\ ratio F64 F32 * 2 ^ 29 = 1 /\ ratio F32 F64 = 2 ^ 29.
Proof. exact Claims41.C94_rv_quat_ex. Qed.

(** C94: angle-axes of rotation vectors of the other type. Vectors shorter than the
    dummy_precision of the SOURCE type become the identity: 1e-12 from double to
    float, but 1e-5 from float to double. *)
Theorem C94_rv_aa : forall (p q : prim) (L : libm) (c : choices6) (v : FV p),
  choices6_ok c -> vfinite v -> vnorm (vval v) <= 654/100 ->
  exists y r', xconvert q L c (KSrc SAA) (OSrc (SrcRv v)) = Some y /\ okind_of y = KSrc SAA /\ stands (656/100) 0 y r' /\
    close ((46 + narrows p q * (vnorm (vval v) + / 100)) * roundoff q + 101/100 * short_length p) r' (turns (SrcRv v)).
Proof. exact C94_rv_aa_lemma. Qed.
Print Assumptions C94_rv_aa.

Example C94_rv_aa_ex : choices6_ok stdsix /\ (let v := mkFV (fofZ F64 1) (fofZ F64 2) (fofZ F64 3) in vfinite v /\ vnorm (vval v) <= 654/100).
Proof. exact Claims41.C94_rv_aa_ex. Qed.

(** C94: from double to float, for every pair of classes except RotationQuaternion to
    RotationVector: a legal double object (defect at most 1000 roundings of double,
    axis of length one up to 20 roundings, angles of Euler angles adding up to at most
    100) becomes a legal float object of the wanted class whose rotation is the same
    up to 4500 roundings of float. *)
Theorem C94_to_float : forall (L : libm) (c : choices6) (k : okind) (x : fobject F64) (r : M33) (A : R),
  libm_ok L -> choices6_ok c -> stands (65/10) A x r -> 0 <= A <= 1000 -> float_ready x -> ~ (okind_of x = KQuat /\ k = KSrc SRv) ->
  exists y r', xconvert F32 L c k x = Some y /\ okind_of y = k /\ stands (66/10) 400 y r' /\ close (4500 * roundoff F32) r' r.
Proof. exact C94_to_float_lemma. Qed.
Print Assumptions C94_to_float.

Example C94_to_float_ex : libm_ok exact_libm /\ choices6_ok stdsix /\ stands (65/10) 0 rv123 (turns (SrcRv (mkFV (fofZ F64 1) (fofZ F64 2) (fofZ F64 3)))) /\ float_ready rv123 /\
  stands (65/10) 0 (ocast F64 eul) (turns euler123) /\ float_ready (ocast F64 eul).
Proof. exact Claims41.C94_to_float_ex. Qed.

(** C94: the pairs of classes about which the model says something: all except
    RotationVector from RotationQuaternion. *)
Theorem C94_pairs : forall (p q : prim) (L : libm) (c : choices6) (k : okind) (x : fobject p),
  (xconvert q L c k x = None <-> okind_of x = KQuat /\ k = KSrc SRv) /\
  (forall y, xconvert q L c k x = Some y -> okind_of x <> KSrc SRv -> casts_first (okind_of x) k = true -> y = oconvert L c k (ocast q x)) /\
  (forall y, xconvert q L c k x = Some y -> casts_last (okind_of x) k = true -> y = ocast q (oconvert L c k x)).
Proof. exact C94_pairs_lemma. Qed.
Print Assumptions C94_pairs.

Example C94_pairs_ex : casts_first (okind_of eul) (KSrc SRv) = true /\ casts_last (okind_of rv123) (KSrc SZyx) = true /\ okind_of eul <> KSrc SRv.
Proof. exact Claims41.C94_pairs_ex. Qed.
