(** Generated by tools/genprops.py from Claims37.v: the property theorems only. *)
From Coq Require Import ZArith Reals Lra Psatz Bool List Lia.
From Flocq Require Import IEEE754.BinarySingleNaN Core.Core.
From Verif Require Import Linalg Spec SpecFacts SpecClose ModelCommon ModelEigen CommonFacts CloseFacts ModelRotation
  FloatModel FloatFacts FloatWrap FloatModel2 SpecFloatQ FloatQFacts FloatQProd FloatQHist FloatQRot FloatMHist FloatCast FloatModel3 SpecLibm SpecBuild FloatBuild FloatBuild4 FloatModel4 FloatExt3 SpecExt FloatModel5 SpecPoseF FloatPose FloatModel6 FloatModel7 SpecSix FloatSix FloatFix FloatModel8 SpecMotion SpecBox FloatBox FloatDiff3 Claims16 Claims18 Claims19 Claims22 Claims30 FloatModel18 SpecPoseSix.
Import ListNotations.
Local Open Scope R_scope.
From Verif Require Import Claims37.

(** C90: transform() of a pose with a rotation of any of the six classes. If the pose
    stands for the rigid motion g with a defect of A roundings in the rotation and an
    error E in the position, the result is within 1.1 (D roundings of |v| + E) plus one
    rounding of |v| + |position| of the exact one, where D is the error of rotate(). *)
Theorem C90_transform : forall (p : prim) (L : libm) (c : choices6) (o : orders3) (x : opose p) (g : rigid) (T A E : R) (v : FV p),
  libm_ok L -> choices6_ok c -> orders3_ok 3 3 3 o -> 64/10 <= T <= 655/100 -> pose_stands T A E x g -> A * roundoff p <= / 100 ->
  vfinite v -> vnorm (vval v) <= 2 ^ 90 -> vnorm (rg_pos g) <= 2 ^ 90 -> E <= 2 ^ 90 ->
  let w := otransform L c o x v in let D := rotate_roundings (okind_of (op_rot x)) A in
  vfinite w /\ vdist (vval w) (rigid_act g (vval v)) <= 11/10 * (D * roundoff p * vnorm (vval v) + E + underflow p) + roundoff p * (vnorm (vval v) + vnorm (rg_pos g)).
Proof. exact C90_transform_lemma. Qed.
Print Assumptions C90_transform.

Example C90_transform_ex : let x := mkOPose fvec212 (OSrc aa345) in
  libm_ok exact_libm /\ choices6_ok stdsix /\ orders3_ok 3 3 3 std3 /\ pose_stands (64/10) 0 0 x (g212 (turns aa345)) /\ 0 * roundoff F32 <= / 100 /\
  vfinite fvec212 /\ vnorm (vval fvec212) <= 2 ^ 90 /\ vnorm (rg_pos (g212 (turns aa345))) <= 2 ^ 90 /\ 0 <= 2 ^ 90.
Proof. exact Claims37.C90_transform_ex. Qed.

(** C90: inverseTransform(). *)
Theorem C90_inverse_transform : forall (p : prim) (L : libm) (c : choices6) (o : orders3) (x : opose p) (g : rigid) (T A E : R) (v : FV p),
  libm_ok L -> choices6_ok c -> orders3_ok 3 3 3 o -> 64/10 <= T <= 655/100 -> pose_stands T A E x g -> A * roundoff p <= / 100 ->
  vfinite v -> vnorm (vval v) <= 2 ^ 90 -> vnorm (rg_pos g) <= 2 ^ 90 -> E <= 2 ^ 90 ->
  let w := oinverseTransform L c o x v in let D := inverse_roundings (okind_of (op_rot x)) A in
  vfinite w /\ vdist (vval w) (mvmul (mtrans (rg_rot g)) (vsub (vval v) (rg_pos g))) <= (11/10 * D + 1) * roundoff p * (vnorm (vval v) + vnorm (rg_pos g) + E) + E + underflow p.
Proof. exact C90_inverse_transform_lemma. Qed.
Print Assumptions C90_inverse_transform.

Example C90_inverse_transform_ex : let x := mkOPose fvec212 (OMat m345) in let g := g212 (quat_rot (mkQ (3/5) (4/5) 0 0)) in
  libm_ok exact_libm /\ choices6_ok stdsix /\ orders3_ok 3 3 3 std3 /\ pose_stands (64/10) 61 0 x g /\ 61 * roundoff F32 <= / 100 /\
  vfinite fvec212 /\ vnorm (vval fvec212) <= 2 ^ 90 /\ vnorm (rg_pos g) <= 2 ^ 90 /\ 0 <= 2 ^ 90.
Proof. exact Claims37.C90_inverse_transform_ex. Qed.

(** C90: the product of two poses with rotations of the same or of different classes. *)
Theorem C90_product : forall (p : prim) (L : libm) (c : choices6) (o : orders3) (x y : opose p) (g h : rigid) (T A B E F : R),
  libm_ok L -> choices6_ok c -> orders3_ok 3 3 3 o -> 64/10 <= T <= 655/100 -> pose_stands T A E x g -> pose_stands T B F y h ->
  let k := okind_of (op_rot x) in let j := okind_of (op_rot y) in
  prod_limit p k j A B -> A * roundoff p <= / 100 -> vnorm (rg_pos g) <= 2 ^ 90 -> vnorm (rg_pos h) <= 2 ^ 90 -> E <= 2 ^ 90 -> F <= 2 ^ 90 ->
  let z := opose_mult L c o x y in
  okind_of (op_rot z) = k /\
  exists r', close (prod_error p k j A B) r' (rg_rot (rigid_mul g h)) /\
    pose_stands (T + 160 * roundoff p) (prod_defect k j A B)
      (11/10 * (rotate_roundings k A * roundoff p * (vnorm (rg_pos h) + F) + E + F + underflow p) + roundoff p * (vnorm (rg_pos g) + vnorm (rg_pos h)))
      z (mkRigid r' (rg_pos (rigid_mul g h))).
Proof. exact C90_product_lemma. Qed.
Print Assumptions C90_product.

Example C90_product_ex : let x := mkOPose fvec212 (OQuat q345) in let y := mkOPose fvec212 (OSrc aa345) in let g := g212 (quat_rot (direction (qval q345))) in let h := g212 (turns aa345) in
  libm_ok exact_libm /\ choices6_ok stdsix /\ orders3_ok 3 3 3 std3 /\ pose_stands (64/10) 6 0 x g /\ pose_stands (64/10) 0 0 y h /\ prod_limit F32 KQuat (KSrc SAA) 6 0 /\
  6 * roundoff F32 <= / 100 /\ vnorm (rg_pos g) <= 2 ^ 90 /\ vnorm (rg_pos h) <= 2 ^ 90 /\ 0 <= 2 ^ 90.
Proof. exact Claims37.C90_product_ex. Qed.
