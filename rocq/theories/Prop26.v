(** Generated by tools/genprops.py from Claims26.v: the property theorems only. *)
From Coq Require Import ZArith Reals Lra Psatz Bool List Lia.
From Flocq Require Import IEEE754.BinarySingleNaN Core.Core.
From Verif Require Import Linalg Spec SpecFacts SpecClose ModelCommon ModelEigen CommonFacts CloseFacts PiBounds
  FloatModel FloatFacts FloatModel2 SpecFloatQ FloatQFacts FloatQProd FloatQHist FloatQRot FloatModulo FloatWrap FloatCast FloatModel3 SpecLibm SpecBuild FloatBuild FloatBuild2 FloatBuild4 FloatModel4 SpecExt FloatExt FloatExt2 FloatExt3 FloatExt4 FloatExt5 FloatExt6 Claims16 Claims18 Claims19 FloatModel7 SpecSix FloatSix Claims22 FloatModel8 SpecBox FloatBox FloatModel9 SpecUnique FloatUnique Claims25 SpecEqual FloatEq.
Import ListNotations.
Local Open Scope R_scope.
From Verif Require Import Claims26.

(** C78: two RotationQuaternion objects are equal exactly if the quaternions have the
    same coefficients, or all coefficients of opposite sign; for all finite
    coefficients, also when the norm is not one. *)
Theorem C78_quaternion : forall (p : prim) (L : libm) (c d : choices6) (ev : evaluation) (a b : FQ p), qfinite a -> qfinite b ->
  (oequal L c d ev (OQuat a) (OQuat b) = Some true <-> qval a = qval b \/ qval a = qneg (qval b)).
Proof. exact C78_quaternion_lemma. Qed.
Print Assumptions C78_quaternion.

(** C78: two RotationMatrix objects are equal exactly if they have the same entries *)
Theorem C78_matrix : forall (p : prim) (L : libm) (c d : choices6) (ev : evaluation) (a b : FM p), mfinite a -> mfinite b ->
  (oequal L c d ev (OMat a) (OMat b) = Some true <-> mval a = mval b).
Proof. exact C78_matrix_lemma. Qed.
Print Assumptions C78_matrix.

(** C78: a matrix constructed from a quaternion compares equal to the quaternion (the
    sign change of getUnique() does not change a bit of the matrix); *)
Theorem C78_matrix_of_quaternion : forall (p : prim) (L : libm) (c d : choices6) (ev : evaluation) (q : FQ p) (r : M33) (A : R), choices6_ok d ->
  stands (64/10) A (OQuat q) r -> A * roundoff p <= / 100 ->
  oequal L c d ev (oconvert L d KMat (OQuat q)) (OQuat q) = Some true.
Proof. exact C78_matrix_of_quaternion_lemma. Qed.
Print Assumptions C78_matrix_of_quaternion.

(** but a quaternion constructed from that matrix does not compare equal to the
    quaternion: the unit quaternion (3/5, 4/5, 0, 0) of float *)
Theorem C78_round_trip_differs : exists q : FQ F32, feq (fqnorm leftright4 q) (fofZ F32 1) = true /\
  oequal exact_libm stdsix stdsix InType (OQuat q) (oconvert exact_libm stdsix KQuat (oconvert exact_libm stdsix KMat (OQuat q))) = Some false.
Proof. exact C78_round_trip_differs_lemma. Qed.
Print Assumptions C78_round_trip_differs.

(** C78: operator== of objects of any two classes (the left one not an AngleAxis)
    returns true only if the rotations agree, up to the change of getUnique() of both
    operands and the error of the conversion of the right operand. *)
Theorem C78_true_near : forall (p : prim) (L : libm) (c d : choices6) (ev : evaluation) (x y : fobject p) (rx ry : M33) (A B : R),
  libm_ok L -> choices6_ok c -> choices6_ok d ->
  stands (64/10) A x rx -> stands (64/10) B y ry -> unique_safe x -> unique_safe y ->
  okind_of x <> KSrc SAA -> conv_limit p (okind_of y) (okind_of x) B ->
  oequal L c d ev x y = Some true ->
  close (unique_change x + unique_change y + compare_error p (okind_of x) (okind_of y) A B) rx ry.
Proof. exact C78_true_near_lemma. Qed.
Print Assumptions C78_true_near.

(** C78: two AngleAxis objects are compared with a tolerance of 0.01 percent: equal
    objects stand for rotations that differ by at most 1/1000; *)
Theorem C78_angle_axis_near : forall (p : prim) (L : libm) (c d : choices6) (ev : evaluation) (a b : fl p) (n m : FV p),
  object_ok (64/10) (SrcAA a n) -> object_ok (64/10) (SrcAA b m) ->
  Rabs (vnorm (vval n) - 1) <= 20 * roundoff p -> Rabs (vnorm (vval m) - 1) <= 20 * roundoff p ->
  oequal L c d ev (OSrc (SrcAA a n)) (OSrc (SrcAA b m)) = Some true -> close (/ 1000) (turns (SrcAA a n)) (turns (SrcAA b m)).
Proof. exact C78_angle_axis_near_lemma. Qed.
Print Assumptions C78_angle_axis_near.

Theorem C78_angle_axis_accepts : forall (p : prim) (L : libm) (c d : choices6) (ev : evaluation) (a b a' b' : fl p) (n m n' m' : FV p),
  object_ok (64/10) (SrcAA a n) -> object_ok (64/10) (SrcAA b m) ->
  faa_unique ev a n = (a', n') -> faa_unique ev b m = (b', m') ->
  relatively a' b' -> relatively (gx n') (gx m') -> relatively (gy n') (gy m') -> relatively (gz n') (gz m') ->
  oequal L c d ev (OSrc (SrcAA a n)) (OSrc (SrcAA b m)) = Some true.
Proof. exact C78_angle_axis_accepts_lemma. Qed.
Print Assumptions C78_angle_axis_accepts.

Theorem C78_reflexive : forall (p : prim) (L : libm) (c : choices6) (ev : evaluation) (x : fobject p) (r : M33) (A : R),
  choices6_ok c -> stands (64/10) A x r -> small_angles x -> oequal L c c ev x x = Some true.
Proof. exact C78_reflexive_lemma. Qed.
Print Assumptions C78_reflexive.

(** and the comparison of two objects of one class does not depend on their order. *)
Theorem C78_symmetric : forall (p : prim) (L : libm) (c d : choices6) (ev : evaluation) (x y : fobject p) (rx ry : M33) (A B : R),
  stands (64/10) A x rx -> stands (64/10) B y ry -> okind_of x = okind_of y -> oequal L c d ev x y = oequal L d c ev y x.
Proof. exact C78_symmetric_lemma. Qed.
Print Assumptions C78_symmetric.

(** ** Examples *)
Example C78_quaternion_ex : qfinite q345 /\ qfinite (fqneg q345) /\
  oequal exact_libm stdsix stdsix InType (OQuat q345) (OQuat (fqneg q345)) = Some true /\ oequal exact_libm stdsix stdsix InType (OQuat q345) (OQuat (fconj q345)) = Some false.
Proof. exact Claims26.C78_quaternion_ex. Qed.

Example C78_matrix_ex : mfinite m345 /\ oequal exact_libm stdsix stdsix InType (OMat m345) (OMat m345) = Some true /\ oequal exact_libm stdsix stdsix InType (OMat m345) (OMat (ftrans m345)) = Some false.
Proof. exact Claims26.C78_matrix_ex. Qed.

Example C78_matrix_of_quaternion_ex : stands (64/10) 6 (OQuat q345) (quat_rot (direction (qval q345))) /\ 6 * roundoff F32 <= / 100.
Proof. exact Claims26.C78_matrix_of_quaternion_ex. Qed.

(** a matrix and a quaternion, float: equal, and the bound is below 1e-4 *)
Example C78_true_near_ex : libm_ok exact_libm /\ choices6_ok stdsix /\
  stands (64/10) 61 (OMat m345) (quat_rot (mkQ (3/5) (4/5) 0 0)) /\ stands (64/10) 6 (OQuat q345) (quat_rot (direction (qval q345))) /\
  conv_limit F32 KQuat KMat 6 /\ oequal exact_libm stdsix stdsix InType (OMat m345) (OQuat q345) = Some true /\
  unique_change (OMat m345) + unique_change (OQuat q345) + compare_error F32 KMat KQuat 61 6 <= / 10000.
Proof. exact Claims26.C78_true_near_ex. Qed.

(** Euler angles far outside of their range, and their getUnique() *)
Example C78_euler_ex : let x := OSrc (SrcZyx (fofZ F32 100) (fofZ F32 3) (fofZ F32 (-5))) in
  unique_safe x /\ stands (64/10) 0 x (turns (SrcZyx (fofZ F32 100) (fofZ F32 3) (fofZ F32 (-5)))) /\ unique_change x <= / 100000 /\
  oequal exact_libm stdsix stdsix InType x (ounique InType stdsix x) = Some true.
Proof. exact Claims26.C78_euler_ex. Qed.

Example C78_angle_axis_near_ex : let n := mkFV (flit F32 3 5) (flit F32 4 5) fzero in
  object_ok (64/10) (SrcAA (fofZ F32 3) n) /\ Rabs (vnorm (vval n) - 1) <= 20 * roundoff F32 /\
  oequal exact_libm stdsix stdsix InType (OSrc (SrcAA (fofZ F32 3) n)) (OSrc (SrcAA (flit F32 (-300018) 100000) (fvneg n))) = Some true /\
  oequal exact_libm stdsix stdsix InType (OSrc (SrcAA (fofZ F32 3) n)) (OSrc (SrcAA (flit F32 (-300048) 100000) (fvneg n))) = Some false.
Proof. exact Claims26.C78_angle_axis_near_ex. Qed.
