(** Quaternions and matrices in floating-point arithmetic. *)
From Coq Require Import Reals ZArith Bool List Permutation Lra Lia Psatz.
From Flocq Require Import IEEE754.BinarySingleNaN Core.Core.
From Verif Require Import Linalg Spec SpecFacts SpecClose CloseFacts ModelCommon ModelEigen FloatModel FloatFacts FloatModulo FloatWrap FloatModel2 SpecFloatQ
  FloatQFacts FloatQProd FloatQHist FloatQRot FloatMHist FloatCast.
Import ListNotations.
Local Open Scope R_scope.

(** C66: the product of two quaternions, in every order of evaluation and with
    or without fused multiply-adds, is finite and within 9 roundings of the exact
    Hamilton product, relative to the lengths of the operands. *)
Lemma C66_product_lemma : forall (p : prim) (o : orders4) (a b : FQ p),
  orders4_ok o -> qfinite a -> qfinite b -> qnorm (qval a) * qnorm (qval b) <= bpow radix2 120 ->
  qfinite (fmult o a b) /\
  qdist (qval (fmult o a b)) (hamilton (qval a) (qval b))
    <= 9 * roundoff p * (qnorm (qval a) * qnorm (qval b)) + underflow p.
Proof. intros. rewrite roundoff_fu. now apply fmult_err. Qed.

(** the left-to-right order, and one that fuses the last three products *)
Definition leftright4 : dtree := DAdd (DAdd (DAdd (DProd 0) (DProd 1)) (DProd 2)) (DProd 3).
Definition fused4 : dtree := DFma 3 (DFma 2 (DFma 1 (DProd 0))).
Lemma leftright4_ok : order 4 leftright4. Proof. apply Permutation_refl. Qed.
Lemma fused4_ok : order 4 fused4. Proof. apply Permutation_sym, (Permutation_rev [0; 1; 2; 3]%nat). Qed.
Definition std4 : orders4 := mkOrd4 leftright4 fused4 leftright4 fused4.
Lemma std4_ok : orders4_ok std4. Proof. repeat split; apply leftright4_ok || apply fused4_ok. Qed.
(** the float quaternion nearest to (3/5, 4/5, 0, 0) *)
Definition q345 : FQ F32 := mkFQ (flit F32 3 5) (flit F32 4 5) fzero fzero.
Lemma q345_val : qfinite q345 /\ qval q345 = mkQ (10066330 / 16777216) (13421773 / 16777216) 0 0.
Proof.
  split; [repeat split|]. unfold qval, q345; cbn [fw fx fy fz].
  rewrite (B2R_of_SF F32 (flit F32 3 5) false 10066330 (-24)), (B2R_of_SF F32 (flit F32 4 5) false 13421773 (-24)) by (vm_compute; reflexivity).
  unfold F2R; cbn [Fnum Fexp cond_Zopp]. reflexivity.
Qed.
Lemma q345_close : qnorm (mkQ (3/5) (4/5) 0 0) = 1 /\ qdist (qval q345) (mkQ (3/5) (4/5) 0 0) <= 6 * roundoff F32.
Proof.
  split.
  - unfold qnorm, qnorm2; cbn [qw qx qy qz]. replace (3 / 5 * (3 / 5) + 4 / 5 * (4 / 5) + 0 * 0 + 0 * 0) with 1 by field. apply sqrt_1.
  - destruct q345_val as [_ ->]. unfold qdist, qsub; cbn [qw qx qy qz]. rewrite roundoff_fu, fu_val.
    apply Rle_trans with (2 * / IZR (2 ^ 24)); [|lra]. apply qnorm_le4; cbn [qw qx qy qz]; apply Rabs_le; lra.
Qed.
Lemma C66_product_ex : orders4_ok std4 /\ qfinite q345 /\ qnorm (qval q345) * qnorm (qval q345) <= bpow radix2 120 /\
  B2SF (fx (fmult std4 q345 q345)) = SpecFloat.S754_finite false 16106128 (-24).
Proof.
  split; [apply std4_ok|]. split; [apply q345_val|]. split; [|vm_compute; reflexivity].
  destruct q345_val as [_ ->]. rewrite qnorm_sq. unfold qnorm2; cbn [qw qx qy qz].
  apply Rle_trans with (bpow radix2 1); [cbn; lra|apply bpow_le; lia].
Qed.

(** C66: fix() (normalize) returns the unit quaternion in the same direction up
    to 6 roundings, whatever the length of the quaternion (2^-50 .. 2^50). *)
Lemma C66_fix_lemma : forall (p : prim) (t : dtree) (m : divmode) (q : FQ p),
  order 4 t -> qfinite q -> bpow radix2 (-50) <= qnorm (qval q) <= bpow radix2 50 ->
  qfinite (fnormalize t m q) /\ qdist (qval (fnormalize t m q)) (direction (qval q)) <= 6 * roundoff p.
Proof. intros. rewrite roundoff_fu. now apply fnormalize_err. Qed.
Lemma C66_fix_ex : bpow radix2 (-50) <= qnorm (qval q345) <= bpow radix2 50.
Proof.
  destruct q345_close as [U D]. rewrite roundoff_fu in D. destruct (operand_facts F32 6 q345 _ ltac:(lra) U D) as [N _]. apply near1_range. pose proof (fu_24 F32). lra.
Qed.

(** C66: any history of products, assignments, inversions, setUnique and fix()
    of a quaternion object in floating-point arithmetic, the initial value and
    the operands being known up to A roundings. After n calls the object stands
    for the intended rotation up to (A+10)(n+1) roundings; its length is off by at
    most (A+10)(k+1) roundings, k the number of products since the last fix(). *)
Lemma C66_history_lemma : forall (p : prim) (A : R) (q : FQ p) (e : Quat) (l : list (fcall p)) (K : nat),
  6 <= A <= 50 -> qfinite q -> qnorm e = 1 -> qdist (qval q) e <= A * roundoff p -> Forall (fcall_ok A) l ->
  fixed_every K 0 l -> (A + 10) * roundoff p * (INR K + 1) <= / 100 ->
  let r := frun q (map fst l) in
  qfinite r /\
  turned_like ((A + 10) * roundoff p * (INR (length l) + 1)) (qval r) (intended e l) /\
  Rabs (qnorm (qval r) - 1) <= (A + 10) * roundoff p * (INR (products 0 l) + 1).
Proof.
  intros p A q e l K HA F E D C FX HK r. rewrite roundoff_fu in *. assert (HA' : 0 <= A <= 50) by lra.
  destruct (frun_history p A l HA q e 0 0 K C (hinv_assign p A q e 0 HA' F E D) FX HK) as (A1 & _ & B & N).
  split; [exact A1|]. split; [exact B|exact N].
Qed.
Lemma C66_history_ex :
  let l : list (fcall F32) := [(FMulRight std4 q345, mkQ (3/5) (4/5) 0 0); (FInvert, qid); (FMulLeft std4 q345, mkQ (3/5) (4/5) 0 0); (FFix leftright4 Quotient, qid); (FSetUnique, qid)] in
  Forall (fcall_ok 6) l /\ fixed_every 2 0 l /\ (6 + 10) * roundoff F32 * (INR 2 + 1) <= / 100.
Proof.
  destruct q345_close as [U D]. destruct q345_val as [F _].
  split; [|split].
  - assert (OP : orders4_ok std4 /\ qfinite q345 /\ qnorm (mkQ (3/5) (4/5) 0 0) = 1 /\ qdist (qval q345) (mkQ (3/5) (4/5) 0 0) <= 6 * roundoff F32)
      by (split; [apply std4_ok|split; [exact F|split; [exact U|exact D]]]).
    apply Forall_cons; [exact OP|]. apply Forall_cons; [exact I|]. apply Forall_cons; [exact OP|].
    apply Forall_cons; [exact leftright4_ok|]. apply Forall_cons; [exact I|]. apply Forall_nil.
  - cbn. lia.
  - rewrite roundoff_fu. pose proof (fu_24 F32). cbn [INR]. lra.
Qed.

(** C66: the debug assertion accepts quaternions whose length is within 99e-6 of
    one and rejects those that are off by 101e-6 or more; it accepts the object
    during a history as long as (A+10)(K+1) roundings stay below 99e-6 for the K
    products between two calls of fix() (A = 6: 100 products of floats, 5e10 of
    doubles). *)
Lemma C66_assertion_lemma :
  (forall (p : prim) (t : dtree) (q : FQ p), order 4 t -> qfinite q -> bpow radix2 (-50) <= qnorm (qval q) <= bpow radix2 50 ->
     (Rabs (qnorm (qval q) - 1) <= 99 / 10 ^ 6 -> fquat_assert t q = true) /\
     (101 / 10 ^ 6 <= Rabs (qnorm (qval q) - 1) -> fquat_assert t q = false)) /\
  (forall (p : prim) (A : R) (t : dtree) (q : FQ p) (e : Quat) (l : list (fcall p)) (K : nat),
     6 <= A <= 50 -> order 4 t -> qfinite q -> qnorm e = 1 -> qdist (qval q) e <= A * roundoff p -> Forall (fcall_ok A) l ->
     fixed_every K 0 l -> (A + 10) * roundoff p * (INR K + 1) <= 99 / 10 ^ 6 ->
     fquat_assert t (frun q (map fst l)) = true).
Proof.
  assert (Z6 : 10 ^ 6 = 1000000) by ring. rewrite Z6. split; [exact fquat_assert_spec|].
  intros p A t q e l K HA O F E D C FX HK'. rewrite roundoff_fu in *. pose proof (fu_pos p) as U. assert (HA' : 0 <= A <= 50) by lra.
  destruct (frun_history p A l HA q e 0 0 K C (hinv_assign p A q e 0 HA' F E D) FX ltac:(lra)) as (A1 & _ & B & N).
  assert (PK : (products 0 l <= K)%nat).
  { clear - FX. revert FX. generalize 0%nat as k. induction l as [|c l IH]; intros k [L H]; [exact L|]. apply (IH _ H). }
  assert (N' : Rabs (qnorm (qval (frun q (map fst l))) - 1) <= 99 / 1000000).
  { eapply Rle_trans; [exact N|]. apply le_INR in PK. eapply Rle_trans; [|exact HK']. apply Rmult_le_compat_l; [nra|lra]. }
  apply fquat_assert_spec; auto. apply near1_range. lra.
Qed.
Lemma C66_assertion_ex : (6 + 10) * roundoff F32 * (INR 100 + 1) <= 99 / 10 ^ 6 /\ fquat_assert fused4 q345 = true /\ fquat_assert leftright4 (mkFQ (fofZ F64 1) (flit F64 2 100) fzero fzero) = false.
Proof.
  split; [|vm_compute; tauto]. rewrite roundoff_fu, fu_val. rewrite INR_IZR_INZ. cbn [Z.of_nat Pos.of_succ_nat Pos.succ]. lra.
Qed.

(** C66: rotating a vector with a quaternion object at the end of such a history:
    the result is finite and within the stated number of roundings of the
    intended rotation of the vector. *)
Lemma C66_rotate_lemma : forall (p : prim) (A : R) (q : FQ p) (e : Quat) (l : list (fcall p)) (K : nat) (o : orders9) (o' : orders3) (v : FV p),
  6 <= A <= 50 -> qfinite q -> qnorm e = 1 -> qdist (qval q) e <= A * roundoff p -> Forall (fcall_ok A) l ->
  fixed_every K 0 l -> (A + 10) * roundoff p * (INR K + 1) <= / 100 ->
  orders9_rot_ok o -> orders3_ok 3 3 3 o' -> vfinite v -> vnorm (vval v) <= bpow radix2 100 ->
  let n := INR (length l) in let k := INR (products 0 l) in
  let w := fquat_rotate o o' (frun q (map fst l)) v in
  vfinite w /\
  vdist (vval w) (sandwich (intended e l) (vval v)) <= roundoff p * (24 + (A + 10) * (5 * (k + 1) + 2 * (n + 1))) * vnorm (vval v) + underflow p.
Proof.
  intros p A q e l K o o' v HA F E D C FX HK O O' Fv Hv n k w. rewrite roundoff_fu in *. pose proof (fu_pos p) as U. assert (HA' : 0 <= A <= 50) by lra.
  destruct (frun_history p A l HA q e 0 0 K C (hinv_assign p A q e 0 HA' F E D) FX HK) as (A1 & Ei & B & N).
  assert (PK : (products 0 l <= K)%nat).
  { clear - FX. revert FX. generalize 0%nat as j. induction l as [|c l IH]; intros j [L H]; [exact L|]. apply (IH _ H). }
  fold k in N. set (r := frun q (map fst l)) in *. cbn [Nat.add] in B. fold n in B.
  assert (Kk : (A + 10) * fu p * (k + 1) <= / 100) by (apply le_INR in PK; fold k in PK; eapply Rle_trans; [|exact HK]; apply Rmult_le_compat_l; [nra|lra]).
  destruct (fquat_rotate_err p o o' r v O O' A1 Fv ltac:(lra) Hv) as [Fw Ew]. split; [exact Fw|].
  pose proof (Rle_abs (- (qnorm (qval r) - 1))) as X. rewrite Rabs_Ropp in X. assert (P : 0 < qnorm (qval r)) by lra.
  pose proof (turned_close _ _ _ P Ei B (vval v)) as T. rewrite <- sandwich_linear. unfold vdist in *. fold w in Ew.
  eapply Rle_trans; [apply (vnorm_sub_triang _ (mvmul (quat_rot (direction (qval r))) (vval v)))|].
  pose proof (vn_nonneg (vval v)) as NV.
  assert (5 * Rabs (qnorm (qval r) - 1) * vnorm (vval v) <= 5 * ((A + 10) * fu p * (k + 1)) * vnorm (vval v)) by (apply Rmult_le_compat_r; lra). lra.
Qed.
Definition leftright3 : dtree := DAdd (DAdd (DProd 0) (DProd 1)) (DProd 2).
Definition std3 : orders3 := mkOrd3 leftright3 leftright3 leftright3.
Lemma std3_ok : orders3_ok 3 3 3 std3. Proof. repeat split; apply Permutation_refl. Qed.
Definition stdrot : orders9 :=
  let d := leftright3 in let s := DAdd (DProd 0) (DProd 1) in mkOrd9 (mkOrd3 d s s) (mkOrd3 s d s) (mkOrd3 s s d).
Lemma stdrot_ok : orders9_rot_ok stdrot. Proof. repeat split; apply Permutation_refl. Qed.
Lemma C66_rotate_ex : orders9_rot_ok stdrot /\ orders3_ok 3 3 3 std3 /\
  B2SF (gz (fquat_rotate stdrot std3 q345 (mkFV (fofZ F32 0) (fofZ F32 1) (fofZ F32 0)))) = SpecFloat.S754_finite false 16106128 (-24).
Proof. split; [apply stdrot_ok|]. split; [apply std3_ok|]. vm_compute. reflexivity. Qed.

(** C67: rotation matrices in floating-point arithmetic: the matrix of a
    quaternion object is within 18 roundings (plus five times the error of the
    length) of the rotation of the quaternion. *)
Lemma C67_from_quaternion_lemma : forall (p : prim) (o : orders9) (q : FQ p),
  orders9_rot_ok o -> qfinite q -> Rabs (qnorm (qval q) - 1) <= / 50 ->
  mfinite (ftoRot o q) /\
  close (18 * roundoff p + 5 * Rabs (qnorm (qval q) - 1)) (mval (ftoRot o q)) (quat_rot (direction (qval q))).
Proof. intros. rewrite roundoff_fu. now apply ftoRot_close. Qed.
Lemma C67_from_quaternion_ex : orders9_rot_ok stdrot /\ qfinite q345 /\ Rabs (qnorm (qval q345) - 1) <= / 50.
Proof.
  split; [apply stdrot_ok|]. split; [apply q345_val|]. destruct q345_close as [U D]. rewrite roundoff_fu in D.
  destruct (operand_facts F32 6 q345 _ ltac:(lra) U D) as [N _]. pose proof (fu_24 F32). lra.
Qed.

(** C67: any history of products, assignments and inversions (transpositions) of
    a matrix object, initial value and operands known up to A roundings: after n
    calls it is within (1.01 A+12)(n+1) roundings of the intended rotation, and so are the vectors it rotates. *)
Lemma C67_history_lemma : forall (p : prim) (A : R) (m : FM p) (e : M33) (l : list (fmcall p)),
  0 <= A <= 1000 -> mfinite m -> SO3 e -> close (A * roundoff p) (mval m) e -> Forall (fmcall_ok A) l ->
  (101 / 100 * A + 12) * roundoff p * INR (length l) <= / 100 ->
  let r := fmrun m (map fst l) in
  mfinite r /\ SO3 (mintended e l) /\ close ((101 / 100 * A + 12) * roundoff p * (INR (length l) + 1)) (mval r) (mintended e l) /\
  forall (o : orders3) (v : FV p), orders3_ok 3 3 3 o -> vfinite v -> vnorm (vval v) <= bpow radix2 100 ->
    vfinite (fmv o r v) /\
    vdist (vval (fmv o r v)) (mvmul (mintended e l) (vval v)) <= roundoff p * (6 + (101 / 100 * A + 12) * (INR (length l) + 1)) * vnorm (vval v) + underflow p.
Proof.
  intros p A m e l HA F E D C HK r. rewrite roundoff_fu in *. pose proof (fu_pos p) as U. pose proof (fu_24 p) as V. pose proof (pos_INR (length l)) as In.
  assert (AU : A * fu p <= 1000 * fu p) by nra. assert (AU0 : 0 <= A * fu p) by nra.
  assert (H0 : minv A m e 0) by (split; [exact F|split; [exact E|eapply close_mono; [|exact D]; cbn [INR]; lra]]).
  destruct (fmrun_history p A l HA m e 0 C H0 HK) as (A1 & S1 & B). cbn [Nat.add] in B. fold r in A1, B.
  split; [exact A1|]. split; [exact S1|]. split; [exact B|].
  intros o v O Fv Hv. destruct (fmv_close_err p o r (mintended e l) v _ O A1 Fv S1 B ltac:(lra) Hv) as [Fr Er]. split; [exact Fr|].
  eapply Rle_trans; [exact Er|]. apply Req_le. ring.
Qed.
Definition std9 : orders9 := mkOrd9 std3 std3 std3.
Lemma C67_history_ex :
  let m : FM F64 := mkFM (mkFV fzero (fneg (fofZ F64 1)) fzero) (mkFV (fofZ F64 1) fzero fzero) (mkFV fzero fzero (fofZ F64 1)) in
  let e := mkM33 0 (-1) 0 1 0 0 0 0 1 in
  mfinite m /\ SO3 e /\ close (20 * roundoff F64) (mval m) e /\
  Forall (fmcall_ok 20) [(MMulRight std9 m, e); (MInvert, e); (MMulLeft std9 m, e)].
Proof.
  intros m e. destruct (fofZ1 F64) as [_ V1].
  assert (F : mfinite m) by (repeat split; reflexivity).
  assert (E : mval m = e) by (unfold mval, m, e; cbn [r0 r1 r2 gx gy gz]; rewrite fneg_val, V1; reflexivity).
  assert (S1 : SO3 e) by (split; unfold e; lin).
  assert (C : close (20 * roundoff F64) (mval m) e) by (apply close_eq; [exact E|rewrite roundoff_fu; pose proof (fu_pos F64); lra]).
  assert (O : orders9_ok std9) by (repeat split; apply Permutation_refl).
  split; [exact F|]. split; [exact S1|]. split; [exact C|]. 
  assert (OP : orders9_ok std9 /\ mfinite m /\ SO3 e /\ close (20 * roundoff F64) (mval m) e) by (split; [exact O|split; [exact F|split; [exact S1|exact C]]]).
  apply Forall_cons; [exact OP|]. apply Forall_cons; [exact I|]. apply Forall_cons; [exact OP|]. apply Forall_nil.
Qed.

(** C68: conversion between float and double: widening is exact and reversible
    bit by bit (also for NaN, infinities and signed zeros); narrowing moves the
    quaternion by at most one rounding. *)
Lemma C68_cast_lemma :
  (forall a : FQ F32, qval (fqcast F64 a) = qval a /\ (qfinite (fqcast F64 a) <-> qfinite a)) /\
  (forall a : FQ F32, fqcast F32 (fqcast F64 a) = a) /\
  (forall p (a : FQ p), fqcast p a = a) /\
  (forall a : FQ F64, qfinite a -> qnorm (qval a) <= bpow radix2 100 ->
     qfinite (fqcast F32 a) /\ qdist (qval (fqcast F32 a)) (qval a) <= roundoff F32 * qnorm (qval a) + underflow F32).
Proof.
  split; [intro; apply fqcast_widen|]. split; [intro; apply fqcast_back|]. split.
  - intros p [w x y z]. unfold fqcast; cbn [FloatModel2.fw FloatModel2.fx FloatModel2.fy FloatModel2.fz]. now rewrite !fcvt_id.
  - intros a F N. rewrite roundoff_fu. now apply fqcast_err.
Qed.
Lemma C68_cast_ex : qfinite (mkFQ (flit F64 3 5) (flit F64 4 5) fzero fzero) /\
  fqcast F32 (mkFQ (flit F64 3 5) (flit F64 4 5) fzero (fneg fzero)) = mkFQ (flit F32 3 5) (flit F32 4 5) fzero (fneg fzero).
Proof. split; [repeat split|]. reflexivity. Qed.

(** C68: a legal rotation quaternion stays legal: the debug assertion accepts the
    converted quaternion whenever the length of the source was within 98e-6 of 1. *)
Lemma C68_unit_stays_unit_lemma : forall (p q : prim) (t : dtree) (a : FQ p), order 4 t -> qfinite a ->
  Rabs (qnorm (qval a) - 1) <= 98 / 10 ^ 6 -> fquat_assert t (fqcast q a) = true.
Proof.
  intros p q t a O F N. replace (10 ^ 6) with 1000000 in N by ring.
  pose proof (Rle_abs (qnorm (qval a) - 1)) as X.
  destruct (fqcast_err p q a F) as [Fc D]. { apply Rle_trans with (bpow radix2 1); [cbn; lra|apply bpow_le; lia]. }
  pose proof (fu_pos q) as U. pose proof (fu_24 q) as V. pose proof (underflow_u q) as W. pose proof (qdist_norm (qval (fqcast q a)) (qval a)) as T.
  assert (D' : qdist (qval (fqcast q a)) (qval a) <= / 1000000) by nra.
  assert (N' : Rabs (qnorm (qval (fqcast q a)) - 1) <= 99 / 1000000).
  { replace (qnorm (qval (fqcast q a)) - 1) with ((qnorm (qval (fqcast q a)) - qnorm (qval a)) + (qnorm (qval a) - 1)) by ring.
    eapply Rle_trans; [apply Rabs_triang|]. lra. }
  apply fquat_assert_spec; auto. apply near1_range. lra.
Qed.
Lemma C68_unit_stays_unit_ex : qfinite q345 /\ Rabs (qnorm (qval q345) - 1) <= 98 / 10 ^ 6.
Proof.
  split; [apply q345_val|]. destruct q345_close as [U D]. rewrite roundoff_fu in D.
  destruct (operand_facts F32 6 q345 _ ltac:(lra) U D) as [N _]. pose proof (fu_24 F32). replace (10 ^ 6) with 1000000 by ring. lra.
Qed.
