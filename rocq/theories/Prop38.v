(** Generated by tools/genprops.py from Claims38.v: the property theorems only. *)
From Coq Require Import ZArith Reals Lra Psatz Bool List Lia.
From Flocq Require Import IEEE754.BinarySingleNaN Core.Core.
From Verif Require Import Linalg Spec SpecFacts SpecClose SpecDiff ModelCommon ModelEigen CommonFacts CloseFacts ModelRotation RVFacts RotFacts DerivFacts JacFacts MotionFacts
  FloatModel FloatFacts FloatWrap FloatModel2 SpecFloatQ FloatQFacts FloatQProd FloatQHist FloatQRot FloatMHist FloatCast FloatModel3 SpecLibm SpecBuild FloatBuild FloatBuild4 FloatModel4 FloatExt3 SpecExt FloatModel5 SpecPoseF FloatPose FloatModel6 FloatModel7 SpecSix FloatSix FloatFix FloatModel8 SpecMotion SpecBox FloatBox FloatDiff3 Claims16 Claims18 Claims19 Claims22 Claims30 FloatModel18 SpecPoseSix Claims35 Claims37.
Import ListNotations.
Local Open Scope R_scope.
From Verif Require Import Claims38.

(** C91: dead reckoning with a HomTransformQuat object in floating-point arithmetic. A
    body turns and moves along a path that stays within M of the origin. Each step
    multiplies the pose by a pose made of a displacement no longer than [len] and of the
    exponential of a rotation vector, both in body coordinates; fix() is called on the
    rotation at least every K steps. If the samples describe the motion up to d (angles)
    and dd (displacements), then after n steps the pose holds finite numbers, its
    orientation is off by at most e + n (101 roundings + d), and its position by at most
    n times (that angle times [len], plus the drift of one step), so at most
    quadratically in n. *)
Theorem C91_dead_reckoning : forall (p : prim) (L : libm) (P : fl F64 -> fl F64 -> fl F64) (x : opose p) (r : M33) (A d dd e ep len M : R) (Rt : R -> M33) (om X V : R -> V3) (t : R) (K : nat) (l : list (psample p)),
  libm_ok L -> pow_ok P -> okind_of (op_rot x) = KQuat -> 6 <= A -> pose_stands (64/10) A ep x (mkRigid r (X t)) -> close e r (Rt t) ->
  describes d Rt om t (map p_s l) -> fixed_within K 0 (map p_s l) -> (A + 43 * INR K) * roundoff p <= / 100 ->
  displaces dd len M Rt X V t l -> vnorm (X t) <= M -> M <= 2 ^ 90 ->
  let n := INR (length l) in let angle := e + n * (101 * roundoff p + d) in
  let drift := ep + n * (angle * len + step_drift p (A + 43 * INR K) len M dd) in
  drift <= M ->
  let y := reckon L P x l in let t' := t + duration (map p_s l) in
  okind_of (op_rot y) = KQuat /\ exists r', close angle r' (Rt t') /\ pose_stands (64/10) (A + 43 * INR K) drift y (mkRigid r' (X t')).
Proof. exact C91_dead_reckoning_lemma. Qed.
Print Assumptions C91_dead_reckoning.

Example C91_dead_reckoning_ex : let x := @opose_identity F32 KQuat in
  libm_ok exact_libm /\ pow_ok exact_pow /\ okind_of (op_rot x) = KQuat /\ pose_stands (64/10) 6 0 x (mkRigid mid (screw 0)) /\ close 0 mid (spin 0) /\
  describes 0 spin (fun _ => xaxis) 0 (map p_s psteps) /\ fixed_within 2 0 (map p_s psteps) /\ (6 + 43 * INR 2) * roundoff F32 <= / 100 /\
  displaces 0 (/ 2) 2 spin screw (fun _ => xaxis) 0 psteps /\ vnorm (screw 0) <= 2 /\ 2 <= 2 ^ 90 /\
  0 + INR 3 * ((0 + INR 3 * (101 * roundoff F32 + 0)) * / 2 + step_drift F32 (6 + 43 * INR 2) (/ 2) 2 0) <= 2.
Proof. exact Claims38.C91_dead_reckoning_ex. Qed.
