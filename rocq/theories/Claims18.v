(** Construction of quaternions and matrices from the other parameterizations, in
    floating-point arithmetic. *)
From Coq Require Import Reals ZArith Bool List Permutation Lra Lia Psatz.
From Flocq Require Import IEEE754.BinarySingleNaN Core.Core.
From Verif Require Import Linalg Spec SpecFacts SpecClose CloseFacts ModelCommon ModelEigen ModelRotation ConvFacts RotFacts FloatModel FloatFacts FloatModulo FloatWrap FloatModel2 FloatModel3
  SpecFloatQ SpecLibm SpecBuild FloatQFacts FloatQProd FloatQHist FloatQRot FloatMHist FloatBuild FloatBuild2 FloatBuild3 FloatBuild4 Claims16.
Import ListNotations.
Local Open Scope R_scope.

Lemma axis_unit (n : V3) d : Rabs (vnorm n - 1) <= d -> d <= / 10 ->
  vnorm2 (vscale (/ vnorm n) n) = 1 /\ vnorm (vscale (/ vnorm n) n) = 1 /\ vdist n (vscale (/ vnorm n) n) <= d.
Proof.
  intros H D. pose proof (vnorm_sq n) as S1. assert (P : 9 / 10 <= vnorm n) by (apply Rabs_both in H; lra).
  assert (E : vnorm2 (vscale (/ vnorm n) n) = 1).
  { replace (vnorm2 (vscale (/ vnorm n) n)) with (/ vnorm n * / vnorm n * vnorm2 n) by lin. rewrite <- S1. field. lra. }
  split; [exact E|]. split; [now apply vnorm_unit|].
  unfold vdist. replace (vsub n (vscale (/ vnorm n) n)) with (vscale (1 - / vnorm n) n) by lin.
  rewrite vnorm_vscale. rewrite <- (Rabs_pos_eq (vnorm n)) at 2 by lra. rewrite <- Rabs_mult.
  replace ((1 - / vnorm n) * vnorm n) with (vnorm n - 1) by (field; lra). exact H.
Qed.
Lemma source_quat p L b (s : fsource p) B : libm_ok L -> build_ok b -> 0 <= B <= 1000 -> source_ok B (2 ^ 50) s ->
  qfinite (fquat_of L b s) /\
  exists e, qnorm e = 1 /\ quat_rot e = meaning (source_value s) /\ qdist (qval (fquat_of L b s)) e <= quat_roundings B s * roundoff p.
Proof.
  intros HL (O1 & O2 & O3 & O4 & _ & _) HB. rewrite roundoff_fu. pose proof (fu_pos p) as U. pose proof (fu_24 p) as V.
  destruct s as [a n|v|z y x|x y z]; cbn [source_ok source_value fquat_of quat_roundings meaning].
  - intros (Fa & Fn & Nn). rewrite roundoff_fu in Nn. destruct (axis_unit (vval n) (B * fu p) Nn ltac:(nra)) as (E2 & E & D).
    destruct (fquat_of_aa_err p L a n _ B HL Fa Fn E HB D) as [F Q]. split; [exact F|].
    exists (half_quat (B2R a) (vscale (/ vnorm (vval n)) (vval n))). split; [now apply half_quat_qnorm|]. split; [now apply half_quat_rot|exact Q].
  - intros (Fv & Nv). destruct (fquat_of_rv_err p L _ _ v HL O3 O4 Fv) as [F Q].
    { eapply Rle_trans; [exact Nv|]. rewrite bpow_powerRZ. apply Req_le. reflexivity. }
    split; [exact F|]. exists (rv_quat (vval v)). destruct (rv_quat_ok (vval v)) as [A1 A2]. split; [exact A1|]. split; [exact A2|exact Q].
  - intros (F1 & F2 & F3). destruct (fquat_of_zyx_err p L _ _ z y x HL O1 O2 F1 F2 F3) as [F Q]. split; [exact F|].
    exists (zyx_to_quat (mkZyx (B2R z) (B2R y) (B2R x))). destruct (zyx_to_quat_ok (mkZyx (B2R z) (B2R y) (B2R x))) as [A1 A2].
    split; [unfold qnorm; rewrite A1; apply sqrt_1|]. split; [exact A2|exact Q].
  - intros (F1 & F2 & F3). destruct (fquat_of_xyz_err p L _ _ x y z HL O1 O2 F1 F2 F3) as [F Q]. split; [exact F|].
    exists (xyz_to_quat (mkXyz (B2R x) (B2R y) (B2R z))). destruct (xyz_to_quat_ok (mkXyz (B2R x) (B2R y) (B2R z))) as [A1 A2].
    split; [unfold qnorm; rewrite A1; apply sqrt_1|]. split; [exact A2|exact Q].
Qed.
Lemma source_SO3 p B V (s : fsource p) : 0 <= B <= 1000 -> source_ok B V s -> SO3 (meaning (source_value s)).
Proof.
  intros HB H. pose proof (fu_pos p) as U. pose proof (fu_24 p) as V4. apply meaning_SO3. destruct s as [a n|v|z y x|x y z]; cbn; try exact I.
  destruct H as (Fa & Fn & Nn). rewrite roundoff_fu in Nn. apply (axis_unit (vval n) (B * fu p) Nn). nra.
Qed.

(** C70: the quaternion constructed from an AngleAxis, RotationVector,
    EulerAnglesZyx or EulerAnglesXyz object: finite and within the stated number
    of roundings of a unit quaternion of exactly the rotation the source stands
    for: 4 more than the axis for angle-axes, 7 + 4|v| for a rotation vector v, 31
    for Euler angles of any size. sin, cos are those of a math library that is
    accurate to two roundings. *)
Lemma C70_quaternion_lemma : forall (p : prim) (L : libm) (b : build_orders) (s : fsource p) (B : R),
  libm_ok L -> build_ok b -> 0 <= B <= 1000 -> source_ok B (2 ^ 50) s ->
  qfinite (fquat_of L b s) /\
  exists e, qnorm e = 1 /\ quat_rot e = meaning (source_value s) /\ qdist (qval (fquat_of L b s)) e <= quat_roundings B s * roundoff p.
Proof. intros. now apply source_quat. Qed.
Definition order2 : dtree := DAdd (DProd 0) (DProd 1).
Definition stdaa : orders9 := let s := DFma 1 (DProd 0) in mkOrd9 (mkOrd3 s s s) (mkOrd3 s s s) (mkOrd3 s s s).
Definition stdbuild : build_orders := mkBuild std4 std4 leftright3 order2 stdrot stdaa.
Lemma swap2 : order 2 (DFma 1 (DProd 0)). Proof. apply perm_swap. Qed.
Lemma stdbuild_ok : build_ok stdbuild.
Proof.
  split; [apply std4_ok|]. split; [apply std4_ok|]. split; [apply Permutation_refl|]. split; [apply Permutation_refl|]. split; [apply stdrot_ok|].
  repeat split; exact swap2.
Qed.
(** a rotation by 3 rad about (3/5, 4/5, 0) in floats *)
Definition aa345 : fsource F32 := SrcAA (fofZ F32 3) (mkFV (flit F32 3 5) (flit F32 4 5) fzero).
Lemma aa345_ok V : source_ok 6 V aa345.
Proof.
  split; [reflexivity|]. split; [repeat split|].
  pose proof q345_close as [U D]. rewrite roundoff_fu in *. destruct (operand_facts F32 6 q345 _ ltac:(lra) U D) as [N _].
  replace (vnorm (vval _)) with (qnorm (qval q345)); [exact N|].
  destruct q345_val as [_ E]. unfold qnorm, vnorm, vnorm2, vdot, qnorm2. unfold qval, q345 in E; cbn [fw fx fy fz] in E.
  unfold qval, vval, q345; cbn [fw fx fy fz gx gy gz vx vy vz qw qx qy qz]. f_equal. change (B2R (@fzero F32)) with 0. ring.
Qed.
Lemma C70_quaternion_ex : libm_ok exact_libm /\ build_ok stdbuild /\ source_ok 6 (2 ^ 50) aa345.
Proof. split; [apply exact_libm_ok|]. split; [apply stdbuild_ok|apply aa345_ok]. Qed.

(** C70: the rotation matrix constructed from such an object is within the stated
    number of roundings of the rotation the object stands for, and so are the
    vectors the object rotates. *)
Lemma C70_matrix_lemma : forall (p : prim) (L : libm) (b : build_orders) (s : fsource p) (B : R),
  libm_ok L -> build_ok b -> 0 <= B <= 50 -> source_ok B 10 s ->
  mfinite (fmat_of L b s) /\ SO3 (meaning (source_value s)) /\
  close (mat_roundings B s * roundoff p) (mval (fmat_of L b s)) (meaning (source_value s)) /\
  forall (o : orders3) (v : FV p), orders3_ok 3 3 3 o -> vfinite v -> vnorm (vval v) <= bpow radix2 100 ->
    vfinite (frotate L b o s v) /\
    vdist (vval (frotate L b o s v)) (mvmul (meaning (source_value s)) (vval v)) <= (mat_roundings B s + 6) * roundoff p * vnorm (vval v) + underflow p.
Proof.
  intros p L b s B HL HO HB HS. pose proof (fu_pos p) as U. pose proof (fu_24 p) as V4.
  assert (S1 := source_SO3 p B 10 s ltac:(lra) HS).
  assert (M : mfinite (fmat_of L b s) /\ close (mat_roundings B s * roundoff p) (mval (fmat_of L b s)) (meaning (source_value s)) /\ mat_roundings B s <= 1000).
  { rewrite roundoff_fu. destruct HO as (O1 & O2 & O3 & O4 & O5 & O6).
    assert (HS' : source_ok B (2 ^ 50) s).
    { clear - HS. destruct s; try exact HS. destruct HS as [X Y]. split; [exact X|]. eapply Rle_trans; [exact Y|]. cbn [pow]. lra. }
    destruct (source_quat p L b s B HL (Logic.conj O1 (Logic.conj O2 (Logic.conj O3 (Logic.conj O4 (Logic.conj O5 O6))))) ltac:(lra) HS') as (F & e & E1 & E2 & E3). rewrite roundoff_fu in E3.
    assert (G : forall A, 0 <= A <= 50 -> quat_roundings B s = A -> 
      mfinite (ftoRot (b_rot b) (fquat_of L b s)) /\ close ((7 * A + 19) * fu p) (mval (ftoRot (b_rot b) (fquat_of L b s))) (meaning (source_value s))).
    { intros A HA EA. rewrite EA in E3. rewrite <- E2. now apply ftoRot_of_close. }
    destruct s as [a n|v|z y x|x y z]; cbn [source_ok fmat_of mat_roundings quat_roundings fquat_of] in *.
    - destruct HS as (Fa & Fn & Nn). rewrite roundoff_fu in Nn. destruct (axis_unit (vval n) (B * fu p) Nn ltac:(nra)) as (_ & E & D).
      destruct (fmat_of_aa_err p L _ a n _ B HL O6 Fa Fn E HB D) as [F' C]. split; [exact F'|]. split; [exact C|lra].
    - destruct HS as (Fv & Nv). pose proof (vn_nonneg (vval v)). destruct (G (7 + 4 * vnorm (vval v)) ltac:(lra) eq_refl) as [F' C]. split; [exact F'|].
      split; [|lra]. replace (68 + 28 * vnorm (vval v)) with (7 * (7 + 4 * vnorm (vval v)) + 19) by ring. exact C.
    - destruct (G 31 ltac:(lra) eq_refl) as [F' C]. split; [exact F'|]. split; [|lra]. replace 236 with (7 * 31 + 19) by ring. exact C.
    - destruct (G 31 ltac:(lra) eq_refl) as [F' C]. split; [exact F'|]. split; [|lra]. replace 236 with (7 * 31 + 19) by ring. exact C. }
  destruct M as (F & C & R1). split; [exact F|]. split; [exact S1|]. split; [exact C|].
  intros o v O Fv Hv. rewrite roundoff_fu in *. destruct (fmv_close_err p o _ _ v _ O F Fv S1 C) as [Fr Er]; [nra|exact Hv|].
  split; [exact Fr|]. eapply Rle_trans; [exact Er|]. apply Req_le. ring.
Qed.
Lemma C70_matrix_ex : libm_ok exact_libm /\ build_ok stdbuild /\ source_ok 6 10 aa345.
Proof. split; [apply exact_libm_ok|]. split; [apply stdbuild_ok|apply aa345_ok]. Qed.

Lemma quat_roundings_47 p (s : fsource p) : source_ok 40 10 s -> quat_roundings 40 s <= 47.
Proof. destruct s; cbn; intros H; lra. Qed.
Lemma source_wider p B V V' (s : fsource p) : V <= V' -> source_ok B V s -> source_ok B V' s.
Proof. intros H. destruct s; cbn; try tauto. intros [X Y]. split; [exact X|lra]. Qed.
Lemma source_operand p L b (s : fsource p) : libm_ok L -> build_ok b -> source_ok 40 10 s ->
  qfinite (fquat_of L b s) /\ exists e, qnorm e = 1 /\ quat_rot e = meaning (source_value s) /\ qdist (qval (fquat_of L b s)) e <= 47 * roundoff p.
Proof.
  intros HL HO HS. pose proof (fu_pos p) as U.
  destruct (source_quat p L b s 40 HL HO ltac:(lra) (source_wider p 40 10 (2 ^ 50) s ltac:(cbn [pow]; lra) HS)) as (F & e & E1 & E2 & E3).
  split; [exact F|]. exists e. split; [exact E1|]. split; [exact E2|]. eapply Rle_trans; [exact E3|]. rewrite roundoff_fu. apply Rmult_le_compat_r; [lra|now apply quat_roundings_47].
Qed.
Lemma call_witness p L (c : bop p) : libm_ok L -> bop_ok 40 10 c ->
  exists c' : fcall p, fcall_ok 47 c' /\ (forall q, fstep q (fst c') = bstep L q c) /\ (forall k, products_step k c' = bproducts_step k c) /\
    (forall e, quat_rot (intended_step e c') = bexact_step (quat_rot e) c).
Proof.
  intros HL H. destruct c as [o b s|o b s|b s| | |t m]; cbn [bop_ok] in H.
  - destruct H as (O & HO & HS). destruct (source_operand p L b s HL HO HS) as (F & e & E1 & E2 & E3).
    exists (FMulRight o (fquat_of L b s), e). cbn. repeat split; auto; try apply O; try apply F. intro e0. now rewrite quat_rot_hamilton, E2.
  - destruct H as (O & HO & HS). destruct (source_operand p L b s HL HO HS) as (F & e & E1 & E2 & E3).
    exists (FMulLeft o (fquat_of L b s), e). cbn. repeat split; auto; try apply O; try apply F. intro e0. now rewrite quat_rot_hamilton, E2.
  - destruct H as (HO & HS). destruct (source_operand p L b s HL HO HS) as (F & e & E1 & E2 & E3).
    exists (FAssign (fquat_of L b s), e). cbn. repeat split; auto; apply F.
  - exists (FInvert, qid). cbn. repeat split; auto. intro. apply quat_rot_conj.
  - exists (FSetUnique, qid). cbn. repeat split; auto.
  - exists (FFix t m, qid). cbn. repeat split; auto.
Qed.
Lemma history_witness p L (l : list (bop p)) : libm_ok L -> Forall (bop_ok 40 10) l ->
  exists l' : list (fcall p), Forall (fcall_ok 47) l' /\ length l' = length l /\ (forall q, frun q (map fst l') = brun L q l) /\
    (forall k, products k l' = bproducts k l) /\ (forall K k, bfixed_every K k l -> fixed_every K k l') /\
    (forall e, quat_rot (intended e l') = bexact (quat_rot e) l).
Proof.
  intros HL H. induction H as [|c l Hc Hl (l' & I1 & I2 & I3 & I4 & I5 & I6)].
  - exists []. repeat split; auto. apply H.
  - destruct (call_witness p L c HL Hc) as (c' & W1 & W2 & W3 & W4). exists (c' :: l').
    split; [now apply Forall_cons|]. split; [cbn; now rewrite I2|]. split; [|split; [|split]].
    + intro q. cbn [map]. unfold frun, brun in *. cbn [fold_left]. rewrite W2. apply I3.
    + intro k. unfold products, bproducts in *. cbn [fold_left]. rewrite W3. apply I4.
    + intros K k [X Y]. split; [exact X|]. rewrite W3. now apply I5.
    + intro e. unfold intended, bexact in *. cbn [fold_left]. rewrite I6. now rewrite W4.
Qed.

(** C70: end to end. A quaternion object is constructed from an object of another
    parameterization, then multiplied from either side with such objects,
    reassigned, inverted, normalized, n calls in all, and rotates a vector: the
    result is within the stated number of roundings of what exact arithmetic
    gives for the exact rotations, k being the number of products since the last
    fix(). No exact input other than the floating-point numbers of the objects. *)
Lemma C70_history_lemma : forall (p : prim) (L : libm) (b : build_orders) (s : fsource p) (l : list (bop p)) (K : nat) (o : orders9) (o' : orders3) (v : FV p),
  libm_ok L -> build_ok b -> source_ok 40 10 s -> Forall (bop_ok 40 10) l -> bfixed_every K 0 l -> 57 * roundoff p * (INR K + 1) <= / 100 ->
  orders9_rot_ok o -> orders3_ok 3 3 3 o' -> vfinite v -> vnorm (vval v) <= bpow radix2 100 ->
  let n := INR (length l) in let k := INR (bproducts 0 l) in
  let w := fquat_rotate o o' (brun L (fquat_of L b s) l) v in
  vfinite w /\
  vdist (vval w) (mvmul (bexact (meaning (source_value s)) l) (vval v)) <= roundoff p * (24 + 57 * (5 * (k + 1) + 2 * (n + 1))) * vnorm (vval v) + underflow p.
Proof.
  intros p L b s l K o o' v HL HO HS Hl HF HK O O' Fv Hv n k w.
  destruct (source_operand p L b s HL HO HS) as (F & e & E1 & E2 & E3).
  destruct (history_witness p L l HL Hl) as (l' & I1 & I2 & I3 & I4 & I5 & I6).
  pose proof (C66_rotate_lemma p 47 (fquat_of L b s) e l' K o o' v ltac:(lra) F E1 E3 I1 (I5 _ _ HF)) as H.
  cbv zeta in H. rewrite I2, I3, I4 in H. replace (47 + 10) with 57 in H by ring. specialize (H HK O O' Fv Hv).
  rewrite <- sandwich_linear, I6, E2 in H. exact H.
Qed.
Lemma C70_history_ex :
  let l : list (bop F32) := [BMulRight std4 stdbuild aa345; BInvert; BMulLeft std4 stdbuild (SrcZyx (fofZ F32 1) (fofZ F32 2) (fofZ F32 3)); BFix leftright4 Reciprocal;
    BMulRight std4 stdbuild (SrcRv (mkFV (fofZ F32 1) (fofZ F32 2) fzero)); BSetUnique] in
  Forall (bop_ok 40 10) l /\ bfixed_every 2 0 l /\ 57 * roundoff F32 * (INR 2 + 1) <= / 100.
Proof.
  intro l. assert (W : source_ok 40 10 aa345).
  { destruct (aa345_ok 10) as (A1 & A2 & A3). split; [exact A1|]. split; [exact A2|]. rewrite roundoff_fu in *. pose proof (fu_pos F32). lra. }
  split; [|split].
  - apply Forall_cons; [split; [apply std4_ok|split; [apply stdbuild_ok|exact W]]|]. apply Forall_cons; [exact I|].
    apply Forall_cons; [split; [apply std4_ok|split; [apply stdbuild_ok|repeat split]]|]. apply Forall_cons; [exact leftright4_ok|].
    apply Forall_cons; [split; [apply std4_ok|split; [apply stdbuild_ok|]]|]. 2: { apply Forall_cons; [exact I|apply Forall_nil]. }
    split; [repeat split|]. unfold vval; cbn [gx gy gz]. destruct (fofZ1 F32) as [_ E1]. destruct (fofZ2 F32) as [_ E2]. rewrite E1, E2. change (B2R (@fzero F32)) with 0.
    eapply Rle_trans; [apply (vnorm_le3 _ 4); cbn; apply Rabs_le; lra|lra].
  - cbn. lia.
  - rewrite roundoff_fu. pose proof (fu_24 F32). cbn [INR]. lra.
Qed.

Lemma mat_roundings_1000 p (s : fsource p) : source_ok 40 10 s -> mat_roundings 40 s <= 700.
Proof. destruct s; cbn; intros H; lra. Qed.
Lemma source_moperand p L b (s : fsource p) : libm_ok L -> build_ok b -> source_ok 40 10 s ->
  mfinite (fmat_of L b s) /\ SO3 (meaning (source_value s)) /\ close (700 * roundoff p) (mval (fmat_of L b s)) (meaning (source_value s)).
Proof.
  intros HL HO HS. pose proof (fu_pos p) as U. destruct (C70_matrix_lemma p L b s 40 HL HO ltac:(lra) HS) as (F & S1 & C & _).
  split; [exact F|]. split; [exact S1|]. eapply close_mono; [|exact C]. rewrite roundoff_fu. apply Rmult_le_compat_r; [lra|now apply mat_roundings_1000].
Qed.
Lemma mhistory_witness p L (l : list (bmop p)) : libm_ok L -> Forall (bmop_ok 40 10) l ->
  exists l' : list (fmcall p), Forall (fmcall_ok 700) l' /\ length l' = length l /\ (forall m, fmrun m (map fst l') = bmrun L m l) /\
    (forall e, mintended e l' = bmexact e l).
Proof.
  intros HL H. induction H as [|c l Hc Hl (l' & I1 & I2 & I3 & I4)].
  - exists []. repeat split; auto.
  - assert (W : exists c' : fmcall p, fmcall_ok 700 c' /\ (forall m, fmstep m (fst c') = bmstep L m c) /\ (forall e, mintended_step e c' = bmexact_step e c)).
    { destruct c as [o b s|o b s|b s|]; cbn [bmop_ok] in Hc.
      - destruct Hc as (O & HO & HS). pose proof (source_moperand p L b s HL HO HS) as M. exists (MMulRight o (fmat_of L b s), meaning (source_value s)).
        split; [split; [exact O|exact M]|]. split; reflexivity.
      - destruct Hc as (O & HO & HS). pose proof (source_moperand p L b s HL HO HS) as M. exists (MMulLeft o (fmat_of L b s), meaning (source_value s)).
        split; [split; [exact O|exact M]|]. split; reflexivity.
      - destruct Hc as (HO & HS). pose proof (source_moperand p L b s HL HO HS) as M. exists (MAssign (fmat_of L b s), meaning (source_value s)).
        split; [exact M|]. split; reflexivity.
      - exists (MInvert, mid). split; [exact I|]. split; reflexivity. }
    destruct W as (c' & W1 & W2 & W3). exists (c' :: l'). split; [now apply Forall_cons|]. split; [cbn; now rewrite I2|]. split.
    + intro m. cbn [map]. unfold fmrun, bmrun in *. cbn [fold_left]. rewrite W2. apply I3.
    + intro e. unfold mintended, bmexact in *. cbn [fold_left]. rewrite I4. now rewrite W3.
Qed.
(** C70: the same for a rotation matrix object. *)
Lemma C70_matrix_history_lemma : forall (p : prim) (L : libm) (b : build_orders) (s : fsource p) (l : list (bmop p)) (o : orders3) (v : FV p),
  libm_ok L -> build_ok b -> source_ok 40 10 s -> Forall (bmop_ok 40 10) l -> 719 * roundoff p * INR (length l) <= / 100 ->
  orders3_ok 3 3 3 o -> vfinite v -> vnorm (vval v) <= bpow radix2 100 ->
  let n := INR (length l) in let m := bmrun L (fmat_of L b s) l in
  mfinite m /\ close (719 * roundoff p * (n + 1)) (mval m) (bmexact (meaning (source_value s)) l) /\
  vfinite (fmv o m v) /\
  vdist (vval (fmv o m v)) (mvmul (bmexact (meaning (source_value s)) l) (vval v)) <= roundoff p * (6 + 719 * (n + 1)) * vnorm (vval v) + underflow p.
Proof.
  intros p L b s l o v HL HO HS Hl HK O Fv Hv n m. 
  destruct (source_moperand p L b s HL HO HS) as (F & S1 & C).
  destruct (mhistory_witness p L l HL Hl) as (l' & I1 & I2 & I3 & I4).
  pose proof (C67_history_lemma p 700 (fmat_of L b s) _ l' ltac:(lra) F S1 C I1) as H. cbv zeta in H. rewrite I2, I3, I4 in H.
  replace (101 / 100 * 700 + 12) with 719 in H by field. destruct (H HK) as (A1 & _ & A2 & A3). destruct (A3 o v O Fv Hv) as [A4 A5].
  split; [exact A1|]. split; [exact A2|]. split; [exact A4|exact A5].
Qed.
Lemma C70_matrix_history_ex :
  let l : list (bmop F64) := [BMMulRight std9 stdbuild (SrcXyz (fofZ F64 1) (fofZ F64 2) (fofZ F64 100)); BMInvert; BMMulLeft std9 stdbuild (SrcRv (mkFV fzero fzero fzero)); BMAssign stdbuild (SrcZyx fzero (fofZ F64 1) fzero)] in
  Forall (bmop_ok 40 10) l /\ 719 * roundoff F64 * INR (length l) <= / 100.
Proof.
  intro l. assert (O : orders9_ok std9) by (repeat split; apply Permutation_refl). split.
  - apply Forall_cons; [split; [exact O|split; [apply stdbuild_ok|repeat split]]|]. apply Forall_cons; [exact I|].
    apply Forall_cons; [split; [exact O|split; [apply stdbuild_ok|split; [repeat split|]]]|].
    { eapply Rle_trans; [apply (vnorm_le3 _ 4); cbn; apply Rabs_le; lra|lra]. }
    apply Forall_cons; [split; [apply stdbuild_ok|repeat split]|apply Forall_nil].
  - rewrite roundoff_fu. pose proof (fu_24 F64). pose proof (fu_pos F64). change (length l) with 4%nat. cbn [INR]. lra.
Qed.
