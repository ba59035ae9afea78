(** Generated by tools/genprops.py from Claims16.v: the property theorems only. *)
From Coq Require Import Reals ZArith Bool List Permutation Lra Lia Psatz.
From Flocq Require Import IEEE754.BinarySingleNaN Core.Core.
From Verif Require Import Linalg Spec SpecFacts SpecClose CloseFacts ModelCommon ModelEigen FloatModel FloatFacts FloatModulo FloatWrap FloatModel2 SpecFloatQ
  FloatQFacts FloatQProd FloatQHist FloatQRot FloatMHist FloatCast.
Import ListNotations.
Local Open Scope R_scope.
From Verif Require Import Claims16.

(** C66: the product of two quaternions, in every order of evaluation and with
    or without fused multiply-adds, is finite and within 9 roundings of the exact
    Hamilton product, relative to the lengths of the operands. *)
Theorem C66_product : forall (p : prim) (o : orders4) (a b : FQ p),
  orders4_ok o -> qfinite a -> qfinite b -> qnorm (qval a) * qnorm (qval b) <= bpow radix2 120 ->
  qfinite (fmult o a b) /\
  qdist (qval (fmult o a b)) (hamilton (qval a) (qval b))
    <= 9 * roundoff p * (qnorm (qval a) * qnorm (qval b)) + underflow p.
Proof. exact C66_product_lemma. Qed.
Print Assumptions C66_product.

Example C66_product_ex : orders4_ok std4 /\ qfinite q345 /\ qnorm (qval q345) * qnorm (qval q345) <= bpow radix2 120 /\
  B2SF (fx (fmult std4 q345 q345)) = SpecFloat.S754_finite false 16106128 (-24).
Proof. exact Claims16.C66_product_ex. Qed.

(** C66: fix() (normalize) returns the unit quaternion in the same direction up
    to 6 roundings, whatever the length of the quaternion (2^-50 .. 2^50). *)
Theorem C66_fix : forall (p : prim) (t : dtree) (m : divmode) (q : FQ p),
  order 4 t -> qfinite q -> bpow radix2 (-50) <= qnorm (qval q) <= bpow radix2 50 ->
  qfinite (fnormalize t m q) /\ qdist (qval (fnormalize t m q)) (direction (qval q)) <= 6 * roundoff p.
Proof. exact C66_fix_lemma. Qed.
Print Assumptions C66_fix.

Example C66_fix_ex : bpow radix2 (-50) <= qnorm (qval q345) <= bpow radix2 50.
Proof. exact Claims16.C66_fix_ex. Qed.

(** C66: any history of products, assignments, inversions, setUnique and fix()
    of a quaternion object in floating-point arithmetic, the initial value and
    the operands being known up to A roundings. After n calls the object stands
    for the intended rotation up to (A+10)(n+1) roundings; its length is off by at
    most (A+10)(k+1) roundings, k the number of products since the last fix(). *)
Theorem C66_history : forall (p : prim) (A : R) (q : FQ p) (e : Quat) (l : list (fcall p)) (K : nat),
  6 <= A <= 50 -> qfinite q -> qnorm e = 1 -> qdist (qval q) e <= A * roundoff p -> Forall (fcall_ok A) l ->
  fixed_every K 0 l -> (A + 10) * roundoff p * (INR K + 1) <= / 100 ->
  let r := frun q (map fst l) in
  qfinite r /\
  turned_like ((A + 10) * roundoff p * (INR (length l) + 1)) (qval r) (intended e l) /\
  Rabs (qnorm (qval r) - 1) <= (A + 10) * roundoff p * (INR (products 0 l) + 1).
Proof. exact C66_history_lemma. Qed.
Print Assumptions C66_history.

Example C66_history_ex :
  let l : list (fcall F32) := [(FMulRight std4 q345, mkQ (3/5) (4/5) 0 0); (FInvert, qid); (FMulLeft std4 q345, mkQ (3/5) (4/5) 0 0); (FFix leftright4 Quotient, qid); (FSetUnique, qid)] in
  Forall (fcall_ok 6) l /\ fixed_every 2 0 l /\ (6 + 10) * roundoff F32 * (INR 2 + 1) <= / 100.
Proof. exact Claims16.C66_history_ex. Qed.

(** C66: the debug assertion accepts quaternions whose length is within 99e-6 of
    one and rejects those that are off by 101e-6 or more; it accepts the object
    during a history as long as (A+10)(K+1) roundings stay below 99e-6 for the K
    products between two calls of fix() (A = 6: 100 products of floats, 5e10 of
    doubles). *)
Theorem C66_assertion :
  (forall (p : prim) (t : dtree) (q : FQ p), order 4 t -> qfinite q -> bpow radix2 (-50) <= qnorm (qval q) <= bpow radix2 50 ->
     (Rabs (qnorm (qval q) - 1) <= 99 / 10 ^ 6 -> fquat_assert t q = true) /\
     (101 / 10 ^ 6 <= Rabs (qnorm (qval q) - 1) -> fquat_assert t q = false)) /\
  (forall (p : prim) (A : R) (t : dtree) (q : FQ p) (e : Quat) (l : list (fcall p)) (K : nat),
     6 <= A <= 50 -> order 4 t -> qfinite q -> qnorm e = 1 -> qdist (qval q) e <= A * roundoff p -> Forall (fcall_ok A) l ->
     fixed_every K 0 l -> (A + 10) * roundoff p * (INR K + 1) <= 99 / 10 ^ 6 ->
     fquat_assert t (frun q (map fst l)) = true).
Proof. exact C66_assertion_lemma. Qed.
Print Assumptions C66_assertion.

Example C66_assertion_ex : (6 + 10) * roundoff F32 * (INR 100 + 1) <= 99 / 10 ^ 6 /\ fquat_assert fused4 q345 = true /\ fquat_assert leftright4 (mkFQ (fofZ F64 1) (flit F64 2 100) fzero fzero) = false.
Proof. exact Claims16.C66_assertion_ex. Qed.

(** C66: rotating a vector with a quaternion object at the end of such a history:
    the result is finite and within the stated number of roundings of the
    intended rotation of the vector. *)
Theorem C66_rotate : forall (p : prim) (A : R) (q : FQ p) (e : Quat) (l : list (fcall p)) (K : nat) (o : orders9) (o' : orders3) (v : FV p),
  6 <= A <= 50 -> qfinite q -> qnorm e = 1 -> qdist (qval q) e <= A * roundoff p -> Forall (fcall_ok A) l ->
  fixed_every K 0 l -> (A + 10) * roundoff p * (INR K + 1) <= / 100 ->
  orders9_rot_ok o -> orders3_ok 3 3 3 o' -> vfinite v -> vnorm (vval v) <= bpow radix2 100 ->
  let n := INR (length l) in let k := INR (products 0 l) in
  let w := fquat_rotate o o' (frun q (map fst l)) v in
  vfinite w /\
  vdist (vval w) (sandwich (intended e l) (vval v)) <= roundoff p * (24 + (A + 10) * (5 * (k + 1) + 2 * (n + 1))) * vnorm (vval v) + underflow p.
Proof. exact C66_rotate_lemma. Qed.
Print Assumptions C66_rotate.

Example C66_rotate_ex : orders9_rot_ok stdrot /\ orders3_ok 3 3 3 std3 /\
  B2SF (gz (fquat_rotate stdrot std3 q345 (mkFV (fofZ F32 0) (fofZ F32 1) (fofZ F32 0)))) = SpecFloat.S754_finite false 16106128 (-24).
Proof. exact Claims16.C66_rotate_ex. Qed.

(** C67: rotation matrices in floating-point arithmetic: the matrix of a
    quaternion object is within 18 roundings (plus five times the error of the
    length) of the rotation of the quaternion. *)
Theorem C67_from_quaternion : forall (p : prim) (o : orders9) (q : FQ p),
  orders9_rot_ok o -> qfinite q -> Rabs (qnorm (qval q) - 1) <= / 50 ->
  mfinite (ftoRot o q) /\
  close (18 * roundoff p + 5 * Rabs (qnorm (qval q) - 1)) (mval (ftoRot o q)) (quat_rot (direction (qval q))).
Proof. exact C67_from_quaternion_lemma. Qed.
Print Assumptions C67_from_quaternion.

Example C67_from_quaternion_ex : orders9_rot_ok stdrot /\ qfinite q345 /\ Rabs (qnorm (qval q345) - 1) <= / 50.
Proof. exact Claims16.C67_from_quaternion_ex. Qed.

(** C67: any history of products, assignments and inversions (transpositions) of
    a matrix object, initial value and operands known up to A roundings: after n
    calls it is within (1.01 A+12)(n+1) roundings of the intended rotation, and so are the vectors it rotates. *)
Theorem C67_history : forall (p : prim) (A : R) (m : FM p) (e : M33) (l : list (fmcall p)),
  0 <= A <= 1000 -> mfinite m -> SO3 e -> close (A * roundoff p) (mval m) e -> Forall (fmcall_ok A) l ->
  (101 / 100 * A + 12) * roundoff p * INR (length l) <= / 100 ->
  let r := fmrun m (map fst l) in
  mfinite r /\ SO3 (mintended e l) /\ close ((101 / 100 * A + 12) * roundoff p * (INR (length l) + 1)) (mval r) (mintended e l) /\
  forall (o : orders3) (v : FV p), orders3_ok 3 3 3 o -> vfinite v -> vnorm (vval v) <= bpow radix2 100 ->
    vfinite (fmv o r v) /\
    vdist (vval (fmv o r v)) (mvmul (mintended e l) (vval v)) <= roundoff p * (6 + (101 / 100 * A + 12) * (INR (length l) + 1)) * vnorm (vval v) + underflow p.
Proof. exact C67_history_lemma. Qed.
Print Assumptions C67_history.

Example C67_history_ex :
  let m : FM F64 := mkFM (mkFV fzero (fneg (fofZ F64 1)) fzero) (mkFV (fofZ F64 1) fzero fzero) (mkFV fzero fzero (fofZ F64 1)) in
  let e := mkM33 0 (-1) 0 1 0 0 0 0 1 in
  mfinite m /\ SO3 e /\ close (20 * roundoff F64) (mval m) e /\
  Forall (fmcall_ok 20) [(MMulRight std9 m, e); (MInvert, e); (MMulLeft std9 m, e)].
Proof. exact Claims16.C67_history_ex. Qed.

(** C68: conversion between float and double: widening is exact and reversible
    bit by bit (also for NaN, infinities and signed zeros); narrowing moves the
    quaternion by at most one rounding. *)
Theorem C68_cast :
  (forall a : FQ F32, qval (fqcast F64 a) = qval a /\ (qfinite (fqcast F64 a) <-> qfinite a)) /\
  (forall a : FQ F32, fqcast F32 (fqcast F64 a) = a) /\
  (forall p (a : FQ p), fqcast p a = a) /\
  (forall a : FQ F64, qfinite a -> qnorm (qval a) <= bpow radix2 100 ->
     qfinite (fqcast F32 a) /\ qdist (qval (fqcast F32 a)) (qval a) <= roundoff F32 * qnorm (qval a) + underflow F32).
Proof. exact C68_cast_lemma. Qed.
Print Assumptions C68_cast.

Example C68_cast_ex : qfinite (mkFQ (flit F64 3 5) (flit F64 4 5) fzero fzero) /\
  fqcast F32 (mkFQ (flit F64 3 5) (flit F64 4 5) fzero (fneg fzero)) = mkFQ (flit F32 3 5) (flit F32 4 5) fzero (fneg fzero).
Proof. exact Claims16.C68_cast_ex. Qed.

(** C68: a legal rotation quaternion stays legal: the debug assertion accepts the
    converted quaternion whenever the length of the source was within 98e-6 of 1. *)
Theorem C68_unit_stays_unit : forall (p q : prim) (t : dtree) (a : FQ p), order 4 t -> qfinite a ->
  Rabs (qnorm (qval a) - 1) <= 98 / 10 ^ 6 -> fquat_assert t (fqcast q a) = true.
Proof. exact C68_unit_stays_unit_lemma. Qed.
Print Assumptions C68_unit_stays_unit.

Example C68_unit_stays_unit_ex : qfinite q345 /\ Rabs (qnorm (qval q345) - 1) <= 98 / 10 ^ 6.
Proof. exact Claims16.C68_unit_stays_unit_ex. Qed.
