(** Generated by tools/genprops.py from Claims21.v: the property theorems only. *)
From Coq Require Import ZArith Reals Lra Psatz Bool List Lia Permutation.
From Flocq Require Import IEEE754.BinarySingleNaN Core.Core.
From Verif Require Import Linalg Spec SpecFacts SpecClose ModelCommon ModelEigen CommonFacts ModelRotation ConvFacts RotFacts CloseFacts RVFacts EulerNear PiBounds
  FloatModel FloatFacts FloatModel2 SpecFloatQ FloatQFacts FloatQProd FloatQHist FloatQRot FloatMHist FloatCast FloatWrap FloatModel3 SpecLibm SpecBuild FloatBuild FloatBuild2 FloatBuild3 FloatBuild4 FloatModel4 FloatExt FloatExt2 FloatExt3 FloatExt4 SpecExt Claims16 Claims18 FloatExt5 FloatExt6 Claims19 FloatModel6 FloatMat.
Import ListNotations.
Local Open Scope R_scope.
From Verif Require Import Claims21.

(** C73: the RotationQuaternion constructed from a matrix that is within d <= 1/1000
    of a rotation R holds finite numbers and is within 3 d + 14 roundings of one of
    the two unit quaternions of R, in every order of the additions, at every
    rotation: also at half turns, where the trace is -1. *)
Theorem C73_quaternion : forall (p : prim) (t : dtree) (m : FM p) (r : M33) (d : R),
  order 3 t -> mfinite m -> SO3 r -> close d (mval m) r -> d <= / 1000 ->
  let q := fquat_of_mat t m in
  qfinite q /\ exists e, qnorm e = 1 /\ quat_rot e = r /\ qdist (qval q) e <= 3 * d + 14 * roundoff p.
Proof. exact C73_quaternion_lemma. Qed.
Print Assumptions C73_quaternion.

Example C73_quaternion_ex : order 3 leftright3 /\ mfinite (ftoRot stdrot q345) /\ SO3 (quat_rot (mkQ (3/5) (4/5) 0 0)) /\
  close (61 * roundoff F32) (mval (ftoRot stdrot q345)) (quat_rot (mkQ (3/5) (4/5) 0 0)) /\ 61 * roundoff F32 <= / 1000.
Proof. exact Claims21.C73_quaternion_ex. Qed.

(** C73: an AngleAxis, RotationVector, EulerAnglesZyx or EulerAnglesXyz object
    constructed from a RotationMatrix that is within A roundings of a rotation
    (A <= 20 for RotationVector, A <= 395 for the others) holds finite numbers and
    stands for that rotation up to 6A + 46, 6A + 80 and 336A + 2044 roundings. *)
Theorem C73_from_matrix : forall (p : prim) (L : libm) (t : dtree) (b : ext_orders) (k : skind) (m : FM p) (r : M33) (A : R),
  libm_ok L -> order 3 t -> ext_ok b -> mfinite m -> SO3 r -> close (A * roundoff p) (mval m) r ->
  A <= match k with SRv => 20 | SAA | SZyx | SXyz => 395 end ->
  let s := fsource_of_mat L t b k m in
  skind_of s = k /\ object_ok (64/10) s /\
  close (match k with SAA => 6 * A + 46 | SRv => 6 * A + 80 | SZyx | SXyz => 336 * A + 2044 end * roundoff p) (turns s) r.
Proof. exact C73_from_matrix_lemma. Qed.
Print Assumptions C73_from_matrix.

Example C73_from_matrix_ex : libm_ok exact_libm /\ order 3 leftright3 /\ ext_ok stdext /\
  (mfinite (cyclic F32) /\ SO3 (mkM33 0 0 1 1 0 0 0 1 0) /\ close (0 * roundoff F32) (mval (cyclic F32)) (mkM33 0 0 1 1 0 0 0 1 0)) /\
  (mfinite (ftoRot stdrot q345) /\ SO3 (quat_rot (mkQ (3/5) (4/5) 0 0)) /\ close (61 * roundoff F32) (mval (ftoRot stdrot q345)) (quat_rot (mkQ (3/5) (4/5) 0 0))).
Proof. exact Claims21.C73_from_matrix_ex. Qed.

(** C73: converting a matrix to a quaternion and back, and a quaternion to a matrix
    and back, preserves the rotation: up to 21A + 117 roundings for matrices; up to
    21A + 71 roundings and the sign for quaternions. *)
Theorem C73_round_trip : forall (p : prim) (t : dtree) (o : orders9),
  order 3 t -> orders9_rot_ok o ->
  (forall (m : FM p) (r : M33) (A : R), mfinite m -> SO3 r -> A <= 395 -> close (A * roundoff p) (mval m) r ->
    let m' := ftoRot o (fquat_of_mat t m) in
    mfinite m' /\ close ((21 * A + 117) * roundoff p) (mval m') r) /\
  (forall (q : FQ p) (e : Quat) (A : R), qfinite q -> qnorm e = 1 -> 0 <= A <= 1200 -> qdist (qval q) e <= A * roundoff p ->
    let q' := fquat_of_mat t (ftoRot o q) in
    qfinite q' /\ exists s, (s = 1 \/ s = -1) /\ qdist (qval q') (qscale s e) <= (21 * A + 71) * roundoff p).
Proof. exact C73_round_trip_lemma. Qed.
Print Assumptions C73_round_trip.

Example C73_round_trip_ex : order 3 leftright3 /\ orders9_rot_ok stdrot /\ qfinite q345 /\ qnorm (mkQ (3/5) (4/5) 0 0) = 1 /\ qdist (qval q345) (mkQ (3/5) (4/5) 0 0) <= 6 * roundoff F32.
Proof. exact Claims21.C73_round_trip_ex. Qed.

(** C73: rotation vectors need accurate matrices: the finite single-precision matrix
    (1 - 2^-16) times the identity, within 1.53e-5 of the identity, becomes a
    rotation vector of three NaNs, whatever the math library and the order of
    evaluation. *)
Theorem C73_scaled_identity_nan : forall (L : libm) (t : dtree) (b : ext_orders), libm_ok L -> order 3 t -> ext_ok b ->
  exists m : FM F32, mfinite m /\ close (153/10^7) (mval m) mid /\
    fsource_of_mat L t b SRv m = SrcRv (mkFV B754_nan B754_nan B754_nan).
Proof. exact C73_scaled_identity_nan_lemma. Qed.
Print Assumptions C73_scaled_identity_nan.
