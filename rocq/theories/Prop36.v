(** Generated by tools/genprops.py from Claims36.v: the property theorems only. *)
From Coq Require Import ZArith Reals Lra Psatz Bool List Lia.
From Flocq Require Import IEEE754.BinarySingleNaN Core.Core.
From Verif Require Import Linalg Spec SpecFacts SpecClose ModelCommon ModelEigen CommonFacts CloseFacts ModelRotation RandomFacts PiBounds
  FloatModel FloatFacts FloatWrap FloatModel2 SpecFloatQ FloatQFacts FloatQProd FloatQHist FloatQRot FloatMHist FloatCast FloatModel3 SpecLibm SpecBuild FloatBuild FloatBuild4 FloatModel4 FloatExt3 SpecExt FloatModel6 FloatModel7 SpecSix FloatSix FloatFix FloatModel8 SpecBox FloatBox FloatDiff3 Claims16 Claims18 Claims19 Claims22 FloatModel17.
Local Open Scope R_scope.
From Verif Require Import Claims36.

(** C89: setRandom() in floating-point arithmetic, for every draw of the generator and
    every class: the coefficients of the vector are numbers between -T(M_PI) and T(M_PI),
    its length is at most 5.46, and the object stands for the rotation about the vector
    by its length up to the bound of the conversion. *)
Theorem C89_random : forall (p : prim) (L : libm) (ch : choices6) (k : okind) (fused : bool) (a b c : fl p),
  libm_ok L -> choices6_ok ch -> unit_draw a -> unit_draw b -> unit_draw c ->
  let v := frandom_vector fused a b c in let y := fset_random L ch k fused a b c in
  (vfinite v /\ (Rabs (B2R (gx v)) <= B2R (fcvt p fM_PI) /\ Rabs (B2R (gy v)) <= B2R (fcvt p fM_PI) /\ Rabs (B2R (gz v)) <= B2R (fcvt p fM_PI)) /\ vnorm (vval v) <= 546/100) /\
  okind_of y = k /\
  exists r, stands (64/10 + 160 * roundoff p) (conv_defect (KSrc SRv) k 0) y r /\ close (conv_error p (KSrc SRv) k 0) r (vec_rot (vval v)).
Proof. exact C89_random_lemma. Qed.
Print Assumptions C89_random.

Example C89_random_ex : libm_ok exact_libm /\ choices6_ok stdsix /\ unit_draw (@fzero F32) /\ unit_draw (fhalf F32) /\ unit_draw (fofZ F32 1) /\
  let v := frandom_vector false (fzero : fl F32) (fhalf F32) (fofZ F32 1) in
  B2R (gx v) = - B2R (fcvt F32 fM_PI) /\ B2R (gy v) = 0 /\ B2R (gz v) = B2R (fcvt F32 fM_PI).
Proof. exact Claims36.C89_random_ex. Qed.

(** C89: every rotation can come out of setRandom(): it is within 32 roundings, plus the
    error of the conversion, of the rotation obtained from some three draws. *)
Theorem C89_coverage : forall (p : prim) (r : M33), SO3 r ->
  exists a b c : fl p, grid_draw a /\ grid_draw b /\ grid_draw c /\
  forall (L : libm) (ch : choices6) (k : okind) (fused : bool), libm_ok L -> choices6_ok ch ->
  exists r', stands (64/10 + 160 * roundoff p) (conv_defect (KSrc SRv) k 0) (fset_random L ch k fused a b c) r' /\
    close (conv_error p (KSrc SRv) k 0 + 32 * roundoff p) r' r.
Proof. exact C89_coverage_lemma. Qed.
Print Assumptions C89_coverage.

Example C89_coverage_ex : SO3 (vec_rot (mkV3 3 0 0)) /\ grid_draw (fhalf F32).
Proof. exact Claims36.C89_coverage_ex. Qed.
