(** Generated by tools/genprops.py from Claims35.v: the property theorems only. *)
From Coq Require Import ZArith Reals Lra Psatz Bool List Lia Permutation.
From Flocq Require Import IEEE754.BinarySingleNaN Core.Core.
From Verif Require Import Linalg Spec SpecFacts SpecClose SpecDiff ModelCommon ModelEigen CommonFacts CloseFacts ModelRotation RVFacts RotFacts DerivFacts JacFacts MotionFacts
  FloatModel FloatFacts FloatWrap FloatModel2 SpecFloatQ FloatQFacts FloatQProd FloatQHist FloatQRot FloatMHist FloatCast FloatModel3 SpecLibm SpecBuild FloatBuild FloatBuild4 FloatModel4 FloatExt3 SpecExt FloatModel6 FloatModel7 SpecSix FloatSix FloatFix FloatModel8 SpecBox FloatBox Claims16 Claims18 Claims19 Claims22 SpecMotion.
Import ListNotations.
Local Open Scope R_scope.
From Verif Require Import Claims35.

(** C88: integrating sampled angular velocities, in body or in world coordinates, with a
    RotationQuaternion object in floating-point arithmetic. If the samples describe the
    motion of a body up to [d], the object starts within [e] of its orientation, and
    fix() is called at least every K steps, then after any number of steps the object
    holds finite numbers, is a unit quaternion up to A + 43 K roundings, and stands for an
    orientation within e + n (101 roundings + d) of that of the body. *)
Theorem C88_quaternion : forall (p : prim) (L : libm) (P : fl F64 -> fl F64 -> fl F64) (x : fobject p) (r : M33) (A d e : R) (Rt : R -> M33) (om : R -> V3) (t : R) (K : nat) (l : list (sample p)),
  libm_ok L -> pow_ok P -> okind_of x = KQuat -> stands (64/10) A x r -> 6 <= A -> close e r (Rt t) ->
  describes d Rt om t l -> fixed_within K 0 l -> (A + 43 * INR K) * roundoff p <= / 100 ->
  let y := integrate L P x l in
  okind_of y = KQuat /\
  exists r', stands (64/10) (A + 43 * INR K) y r' /\ close (e + INR (length l) * (101 * roundoff p + d)) r' (Rt (t + duration l)).
Proof. exact C88_quaternion_lemma. Qed.
Print Assumptions C88_quaternion.

Example C88_quaternion_ex : let l := [in_world; in_body true; in_body false] in
  libm_ok exact_libm /\ pow_ok exact_pow /\ stands (64/10) 6 (@oidentity F32 KQuat) mid /\ close 0 mid (spin 0) /\
  describes 0 spin (fun _ => xaxis) 0 l /\ fixed_within 2 0 l /\ (6 + 43 * INR 2) * roundoff F32 <= / 100 /\ duration l = 3 / 2.
Proof. exact Claims35.C88_quaternion_ex. Qed.

(** C88: the same with a RotationMatrix object, without fix(): the matrix moves away from
    the rotation matrices by at most 394 roundings per step; the rotation it stands for
    follows the motion. *)
Theorem C88_matrix : forall (p : prim) (L : libm) (P : fl F64 -> fl F64 -> fl F64) (x : fobject p) (r : M33) (A d e : R) (Rt : R -> M33) (om : R -> V3) (t : R) (l : list (sample p)),
  libm_ok L -> okind_of x = KMat -> stands (64/10) A x r -> 0 <= A -> close e r (Rt t) ->
  describes d Rt om t l -> Forall (fun s => s_fix s = false) l -> (A + 394 * INR (length l)) * roundoff p <= / 100 ->
  let y := integrate L P x l in
  okind_of y = KMat /\
  exists r', stands (64/10) (A + 394 * INR (length l)) y r' /\ close (e + INR (length l) * d) r' (Rt (t + duration l)).
Proof. exact C88_matrix_lemma. Qed.
Print Assumptions C88_matrix.

Example C88_matrix_ex : let l := [in_world; in_body false; in_body false] in
  libm_ok exact_libm /\ stands (64/10) 0 (@oidentity F32 KMat) mid /\ close 0 mid (spin 0) /\
  describes 0 spin (fun _ => xaxis) 0 l /\ Forall (fun s => s_fix s = false) l /\ (0 + 394 * INR (length l)) * roundoff F32 <= / 100 /\ duration l = 3 / 2.
Proof. exact Claims35.C88_matrix_ex. Qed.
