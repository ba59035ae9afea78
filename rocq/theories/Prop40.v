(** Generated by tools/genprops.py from Claims40.v: the property theorems only. *)
From Coq Require Import ZArith Reals Lra Psatz Bool List Lia Permutation.
From Flocq Require Import IEEE754.BinarySingleNaN Core.Core.
From Verif Require Import Linalg Spec SpecFacts SpecClose SpecDiff SpecPose ModelDiff DerivFacts DiffFacts DiffFacts2 ModelCommon ModelEigen CommonFacts CloseFacts Claims1 Claims5
  FloatModel FloatFacts FloatWrap FloatModel2 SpecFloatQ FloatQFacts FloatQProd FloatQHist FloatQRot FloatMHist FloatCast FloatModel3 SpecLibm SpecBuild FloatBuild FloatBuild2 FloatBuild3 FloatBuild4 FloatModel4 FloatModel5 FloatExt FloatExt2 FloatExt3 FloatPose FloatModel6 FloatMat FloatModel7 SpecSix FloatSix Claims16 Claims18 Claims19 Claims22 FloatModel10 FloatModel12 FloatDiff FloatDiff2 FloatDiff3 Claims30 Claims37 FloatModel20.
Import ListNotations.
Local Open Scope R_scope.
From Verif Require Import Claims40.

(** C93: getVector(), setVector() and the constructor from a 6-vector copy the bits of
    every coefficient (NaN and signed zeros included), the linear velocity first, and
    setVector() leaves nothing of the old twist; Zero() is the zero vector *)
Theorem C93_copies : forall (p : prim) (a b c d e f : fl p) (t : ftwist p),
  let v := [a; b; c; d; e; f] in
  flocal_twist_getVector (flocal_twist_of_vector v) = Some v /\ flocal_twist_getVector (flocal_twist_setVector t v) = Some v /\
  fglobal_twist_getVector (fglobal_twist_of_vector v) = Some v /\ fglobal_twist_getVector (fglobal_twist_setVector t v) = Some v /\
  flocal_twist_of_vector v = mkFT (mkFV a b c) (FLocal (mkFV d e f)) /\ fglobal_twist_of_vector v = mkFT (mkFV a b c) (FGlobal (mkFV d e f)) /\
  flocal_twist_setVector t v = flocal_twist_of_vector v /\ fglobal_twist_setVector t v = fglobal_twist_of_vector v /\
  flocal_twist_getVector (flocal_twist_zero p) = Some (repeat fzero 6) /\ fglobal_twist_getVector (fglobal_twist_zero p) = Some (repeat fzero 6).
Proof. exact C93_copies_lemma. Qed.
Print Assumptions C93_copies.

(** C93: the skew matrix of a vector determines its bits, and the vector of a matrix with
    zero diagonal and opposite off-diagonal coefficients determines the matrix; the
    matrix times another vector is the cross product up to 5.3 roundings of the product
    of the lengths *)
Theorem C93_skew : forall (p : prim) (o : orders3) (a b : FV p) (m : FM p),
  fvee (fskew a) = a /\
  (gx (r0 m) = fzero /\ gy (r1 m) = fzero /\ gz (r2 m) = fzero /\ gy (r0 m) = fneg (gx (r1 m)) /\ gz (r1 m) = fneg (gy (r2 m)) /\ gx (r2 m) = fneg (gz (r0 m)) ->
   fskew (fvee m) = m) /\
  (orders3_ok 3 3 3 o -> vfinite a -> vfinite b -> vnorm (vval a) * vnorm (vval b) <= bpow radix2 120 ->
   vfinite (fmv o (fskew a) b) /\ vdist (vval (fmv o (fskew a) b)) (vcross (vval a) (vval b)) <= 53/10 * roundoff p * (vnorm (vval a) * vnorm (vval b)) + underflow p).
Proof. exact C93_skew_lemma. Qed.
Print Assumptions C93_skew.

Example C93_skew_ex : orders3_ok 3 3 3 std3 /\ vfinite (funit_x F32) /\ vnorm (vval (funit_x F32)) * vnorm (vval (funit_x F32)) <= bpow radix2 120 /\
  (let m := fskew (funit_x F32) in gx (r0 m) = fzero /\ gy (r1 m) = fzero /\ gz (r2 m) = fzero /\ gz (r1 m) = fneg (gy (r2 m)) /\ feq (gy (r2 m)) fzero = false).
Proof. exact Claims40.C93_skew_ex. Qed.

(** C93: the twist of a moving body gives the velocity of every point of it. The linear
    velocity comes back bit for bit; the angular velocity w' computed by
    getVector(rotation) from a quaternion derivative (off by B) and a rotation quaternion
    (off by A roundings) gives for every body point the derivative of its position, off by
    the error of the linear velocity plus the stated multiple of its distance from the
    origin of the body *)
Theorem C93_quaternion_twist : forall (p : prim) (L : libm) (ch : choices6) (o o4 : orders3) (o9 : orders9) (q f : FQ p) (v : FV p)
  (pos : R -> V3) (c : R -> Quat) (t : R) (dpos : V3) (d : Quat) (w : V3) (A B E : R),
  orders3_ok 4 4 4 o4 -> qfinite q -> qfinite f -> (forall s, qnorm (c s) = 1) -> Vderiv pos t dpos -> Qderiv c t d ->
  qdist (qval q) (c t) <= A * roundoff p -> A * roundoff p <= / 100 -> qdist (qval f) d <= B -> vdist (vval v) dpos <= E ->
  has_local_velocity (fun s => quat_rot (c s)) t w -> vnorm w + B <= 2 ^ 99 ->
  exists w' : FV p, ftwist_getVector_rot L ch o o4 o9 (mkFT v (FQuatDiff f)) (OQuat q) = Some [gx v; gy v; gz v; gx w'; gy w'; gz w'] /\ vfinite w' /\
  forall (x : V3) (dx : V3), Vderiv (fun s => motion (quat_rot (c s)) (pos s) x) t dx ->
    vdist (point_velocity (quat_rot (c t)) (vval v) (vval w') x) dx <= E + ((8 + A) * roundoff p * vnorm w + 21/10 * B + underflow p) * vnorm x.
Proof. exact C93_quaternion_twist_lemma. Qed.
Print Assumptions C93_quaternion_twist.

(** C93: the same for a twist with a global angular velocity and a rotation of any of the
    six classes *)
Theorem C93_global_twist : forall (p : prim) (L : libm) (ch : choices6) (o o4 : orders3) (o9 : orders9) (r : fobject p) (v g : FV p)
  (pos : R -> V3) (c : R -> M33) (t : R) (dpos w : V3) (T A E : R),
  libm_ok L -> choices6_ok ch -> orders3_ok 3 3 3 o -> 64/10 <= T <= 655/100 -> stands T A r (c t) -> A * roundoff p <= / 100 -> vfinite g -> vnorm (vval g) <= 2 ^ 100 ->
  Vderiv pos t dpos -> has_local_velocity c t w -> has_global_velocity c t (vval g) -> vdist (vval v) dpos <= E ->
  exists w' : FV p, ftwist_getVector_rot L ch o o4 o9 (mkFT v (FGlobal g)) r = Some [gx v; gy v; gz v; gx w'; gy w'; gz w'] /\ vfinite w' /\
  forall (x : V3) (dx : V3), Vderiv (fun s => motion (c s) (pos s) x) t dx ->
    vdist (point_velocity (c t) (vval v) (vval w') x) dx <=
      E + ((conv_defect (okind_of r) KMat A + 6 + match okind_of r with KSrc _ => 4200 | _ => 0 end) * roundoff p * vnorm (vval g) + underflow p) * vnorm x.
Proof. exact C93_global_twist_lemma. Qed.
Print Assumptions C93_global_twist.

Example C93_quaternion_twist_ex : Vderiv (fun s => mkV3 s 0 0) 0 (mkV3 1 0 0) /\ (forall s, qnorm (spin s) = 1) /\ Qderiv spin 0 (mkQ (-2/5) (3/10) 0 0) /\
  qdist (qval q345) (spin 0) <= 6 * roundoff F32 /\ qdist (qval rate345) (mkQ (-2/5) (3/10) 0 0) <= 6 * roundoff F32 /\ has_local_velocity (fun s => quat_rot (spin s)) 0 ex /\
  vdist (vval (funit_x F32)) (mkV3 1 0 0) <= 0.
Proof. exact Claims40.C93_quaternion_twist_ex. Qed.

Example C93_global_twist_ex : libm_ok exact_libm /\ choices6_ok stdsix /\ stands (64/10) 61 (OMat m345) (spinm 0) /\ 61 * roundoff F32 <= / 100 /\
  vval (funit_x F32) = ex /\ has_local_velocity spinm 0 ex /\ has_global_velocity spinm 0 ex /\ Vderiv (fun s => mkV3 s 0 0) 0 (mkV3 1 0 0).
Proof. exact Claims40.C93_global_twist_ex. Qed.
