(** Generated by tools/genprops.py from Claims31.v: the property theorems only. *)
From Coq Require Import ZArith Reals Lra Psatz Bool List Lia Permutation.
From Flocq Require Import IEEE754.BinarySingleNaN Core.Core.
From Verif Require Import Linalg Spec SpecFacts SpecClose ModelCommon ModelEigen CommonFacts CloseFacts SetFacts Claims2 FloatModel FloatFacts FloatModulo FloatWrap FloatModel2 SpecFloatQ FloatQFacts FloatQProd FloatQRot FloatCast FloatModel3 SpecLibm SpecBuild FloatBuild FloatBuild2 FloatBuild3 FloatBuild4 FloatModel4 FloatModel5 FloatExt FloatExt2 FloatExt3 SpecExt FloatExt5 FloatModel6 FloatModel7 SpecSix FloatSix FloatFix FloatOHist FloatModel10 SpecVecF FloatVec FloatVec2 FloatVec3 FloatVec4 FloatModel11 SpecDebugF FloatDebug FloatModel13 SpecTwo FloatTwo FloatTwo2 FloatTwo3 Claims16 Claims18 Claims19 Claims22 Claims27 Claims28.
Import ListNotations.
Local Open Scope R_scope.
From Verif Require Import Claims31.

(** C84: setFromVectors(a, b) of two vectors whose lengths are between 2^-50 and 2^50.
    Let h be one plus the cosine of the angle between them. The quaternion is finite,
    and either h is at least 0.9e-5 (float) or 0.9e-12 (double), its norm is one up to
    48/h roundings and the rotation turns the direction of a into the direction of b up
    to 140/h roundings; or h is at most 1.1e-5 (1.1e-12) and, provided that the third
    column of the singular value decomposition is accurate up to k roundings, the norm
    is one up to 1.1 k + 4 roundings and the direction of b is reached up to
    3.1 sqrt(1e-5) (3.1 sqrt(1e-12)) plus 5 k + 20 roundings. *)
Theorem C84_quaternion : forall (p : prim) (k : R) (svd : FV p -> FV p -> FV p) (o : tv_choices) (a b : FV p), tv_ok o -> 0 <= k -> k * roundoff p <= / 100 -> svd_accurate p k svd ->
  vfinite a -> vfinite b -> ordinary (vval a) -> ordinary (vval b) ->
  let q := ftwo_vectors svd o a b in let ua := udir (vval a) in let ub := udir (vval b) in let h := 1 + vdot ua ub in
  qfinite q /\
  ((9/10 * short_length p <= h /\ Rabs (qnorm (qval q) - 1) <= 48 * roundoff p / h /\ vdist (mvmul (quat_rot (direction (qval q))) ua) ub <= 140 * roundoff p / h) \/
   (h <= 11/10 * short_length p /\ Rabs (qnorm (qval q) - 1) <= (11/10 * k + 4) * roundoff p /\
    vdist (mvmul (quat_rot (direction (qval q))) ua) ub <= 31/10 * sqrt (short_length p) + (5 * k + 20) * roundoff p)).
Proof. exact C84_quaternion_lemma. Qed.
Print Assumptions C84_quaternion.

Example C84_quaternion_ex : tv_ok stdtv /\ (exists svd, svd_accurate F32 3 svd) /\ 3 * roundoff F32 <= / 100 /\
  vfinite (fvz 2 1 2) /\ vfinite (fvz 0 4 (-3)) /\ ordinary (vval (fvz 2 1 2)) /\ ordinary (vval (fvz 0 4 (-3))) /\ 1 + vdot (udir (vval (fvz 2 1 2))) (udir (vval (fvz 0 4 (-3)))) = 13/15.
Proof. exact Claims31.C84_quaternion_ex. Qed.

(** C84: an object of any of the six classes: setFromVectors(a, b) returns, and when h
    (one plus the cosine of the angle) is at least 1.1e-5 (float) or 1.1e-12 (double)
    and 48/h is within the limit of the conversion from a quaternion to the class, the
    object stands for a rotation that turns the direction of a into the direction of b
    up to 140/h roundings plus the error of the conversion. *)
Theorem C84_classes : forall (p : prim) (L : libm) (c : choices6) (k : R) (svd : FV p -> FV p -> FV p) (o : tv_choices) (j : okind) (a b : FV p), libm_ok L -> choices6_ok c ->
  tv_ok o -> 0 <= k -> k * roundoff p <= / 100 -> svd_accurate p k svd -> vfinite a -> vfinite b -> ordinary (vval a) -> ordinary (vval b) ->
  let ua := udir (vval a) in let ub := udir (vval b) in let h := 1 + vdot ua ub in
  11/10 * short_length p < h -> conv_limit p KQuat j (48 / h) ->
  exists x r, fset_from_vectors L c svd o j a b = Some x /\ okind_of x = j /\ stands (64/10 + 160 * roundoff p) (conv_defect KQuat j (48 / h)) x r /\
    vdist (mvmul r ua) ub <= 140 * roundoff p / h + conv_error p KQuat j (48 / h).
Proof. exact C84_classes_lemma. Qed.
Print Assumptions C84_classes.

Example C84_classes_ex : libm_ok exact_libm /\ choices6_ok stdsix /\ (let h := 1 + vdot (udir (vval (fvz 2 1 2))) (udir (vval (fvz 0 4 (-3)))) in
  11/10 * short_length F32 < h /\ conv_limit F32 KQuat (KSrc SRv) (48 / h) /\ conv_limit F32 KQuat KMat (48 / h) /\ conv_limit F32 KQuat (KSrc SZyx) (48 / h)).
Proof. exact Claims31.C84_classes_ex. Qed.

(** C84: the exception. For vectors whose lengths are between 2^-50 and 2^50 the call
    returns; if the first or the second is zero and the other is of such a length, it
    throws. *)
Theorem C84_throws : forall (p : prim) (L : libm) (c : choices6) (svd : FV p -> FV p -> FV p) (o : tv_choices) (j : okind) (a b : FV p), tv_ok o -> vfinite a -> ordinary (vval a) ->
  (vfinite b -> ordinary (vval b) -> fset_from_vectors L c svd o j a b <> None) /\
  fset_from_vectors L c svd o j a (mkFV fzero fzero fzero) = None /\ fset_from_vectors L c svd o j (mkFV fzero fzero fzero) a = None.
Proof. exact C84_throws_lemma. Qed.
Print Assumptions C84_throws.

Example C84_throws_ex : tv_ok stdtv /\ vfinite (fvz 2 1 2) /\ ordinary (vval (fvz 2 1 2)) /\ vfinite (fvz 0 4 (-3)) /\ ordinary (vval (fvz 0 4 (-3))).
Proof. exact Claims31.C84_throws_ex. Qed.

(** C84: outside of this range (float, every math library and every decomposition): two
    equal vectors of length 1e-30 throw although they are not zero; a zero vector and
    one of length 1e20 do not throw although one is zero; a vector of length 1e20 and
    one of length 1 yield without exception a quaternion that is not of unit length, on
    which a debug build throws. *)
Theorem C84_range : exists s z l u : FV F32, vfinite s /\ vfinite z /\ vfinite l /\ vfinite u /\ flt fzero (gx s) = true /\ vval z = vzero /\
  forall (L : libm) (c : choices6) (svd : FV F32 -> FV F32 -> FV F32),
  fset_from_vectors L c svd stdtv KQuat s s = None /\ fset_from_vectors L c svd stdtv KQuat z l <> None /\
  (exists q, fset_from_vectors L c svd stdtv KQuat l u = Some (OQuat q) /\ qfinite q /\ qnorm (qval q) <= 3/4) /\
  (exists q, d_set_from_vectors L stdsix svd stdtv KQuat l u = Some (BadQuat q)).
Proof. exact C84_range_lemma. Qed.
Print Assumptions C84_range.

(** C84: for vectors that are opposite up to about half a degree the norm of the
    quaternion may be off by more than one percent (float, no fused products), and a
    debug build throws. *)
Theorem C84_norm_lost : exists a b : FV F32, vfinite a /\ vfinite b /\ ordinary (vval a) /\ ordinary (vval b) /\
  forall (L : libm) (c : choices6) (svd : FV F32 -> FV F32 -> FV F32),
  (exists q, fset_from_vectors L c svd stdtv KQuat a b = Some (OQuat q) /\ qfinite q /\ 101/100 <= qnorm (qval q)) /\
  (exists q, d_set_from_vectors L stdsix svd stdtv KQuat a b = Some (BadQuat q)).
Proof. exact C84_norm_lost_lemma. Qed.
Print Assumptions C84_norm_lost.

(** C84: a debug build. When h (one plus the cosine of the angle) is so large that 48/h
    roundings are at most 9.9e-5 and within the limit of the conversion, setFromVectors
    returns the object of the release build, except that for an AngleAxis the assertion
    on its axis may throw when the vector part of the quaternion is shorter than 2^-116
    (float) or 2^-1012 (double). *)
Theorem C84_debug : forall (p : prim) (L : libm) (c : choices6) (k : R) (svd : FV p -> FV p -> FV p) (o : tv_choices) (j : okind) (a b : FV p), libm_ok L -> choices6_ok c ->
  tv_ok o -> 0 <= k -> k * roundoff p <= / 100 -> svd_accurate p k svd -> vfinite a -> vfinite b -> ordinary (vval a) -> ordinary (vval b) ->
  let h := 1 + vdot (udir (vval a)) (udir (vval b)) in
  11/10 * short_length p < h -> 48 / h * roundoff p <= 99 / 1000000 -> conv_limit p KQuat j (48 / h) ->
  (exists x, fset_from_vectors L c svd o j a b = Some x /\ d_set_from_vectors L c svd o j a b = Some (Done x)) \/
  (j = KSrc SAA /\ exists n, d_set_from_vectors L c svd o j a b = Some (BadAxis n) /\ tiny_axis L n).
Proof. exact C84_debug_lemma. Qed.
Print Assumptions C84_debug.

Example C84_debug_ex : let h := 1 + vdot (udir (vval (fvz 2 1 2))) (udir (vval (fvz 0 4 (-3)))) in 11/10 * short_length F32 < h /\ 48 / h * roundoff F32 <= 99 / 1000000.
Proof. exact Claims31.C84_debug_ex. Qed.
