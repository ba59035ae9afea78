(** Claims about operator== of floating-point rotation objects (C78). *)
From Coq Require Import ZArith Reals Lra Psatz Bool List Lia.
From Flocq Require Import IEEE754.BinarySingleNaN Core.Core.
From Verif Require Import Linalg Spec SpecFacts SpecClose ModelCommon ModelEigen CommonFacts CloseFacts PiBounds
  FloatModel FloatFacts FloatModel2 SpecFloatQ FloatQFacts FloatQProd FloatQHist FloatQRot FloatModulo FloatWrap FloatCast FloatModel3 SpecLibm SpecBuild FloatBuild FloatBuild2 FloatBuild4 FloatModel4 SpecExt FloatExt FloatExt2 FloatExt3 FloatExt4 FloatExt5 FloatExt6 Claims16 Claims18 Claims19 FloatModel7 SpecSix FloatSix Claims22 FloatModel8 SpecBox FloatBox FloatModel9 SpecUnique FloatUnique Claims25 SpecEqual FloatEq.
Import ListNotations.
Local Open Scope R_scope.

(** C78: two RotationQuaternion objects are equal exactly if the quaternions have the
    same coefficients, or all coefficients of opposite sign; for all finite
    coefficients, also when the norm is not one. *)
Lemma C78_quaternion_lemma : forall (p : prim) (L : libm) (c d : choices6) (ev : evaluation) (a b : FQ p), qfinite a -> qfinite b ->
  (oequal L c d ev (OQuat a) (OQuat b) = Some true <-> qval a = qval b \/ qval a = qneg (qval b)).
Proof.
  intros p L c d ev a b Fa Fb. cbn [oequal okind_of ounique ostored_eq]. destruct (fquat_unique_val p a Fa) as [Ga Ea]. destruct (fquat_unique_val p b Fb) as [Gb Eb].
  assert (S : forall s t : bool, Some s = Some t <-> s = t) by (intros; split; congruence). rewrite S, (fqeq_true p _ _ Ga Gb), Ea, Eb. split.
  - destruct (funique_cases p a) as [A|A]; destruct (funique_cases p b) as [B|B]; rewrite <- Ea, <- Eb, A, B, ?fqneg_val; intro E; [now left|now right|right|left]; rewrite <- (qneg_qneg (qval a)), E, ?qneg_qneg; reflexivity.
  - intros [-> | ->]; [reflexivity|apply quat_unique_neg].
Qed.
(** C78: two RotationMatrix objects are equal exactly if they have the same entries *)
Lemma C78_matrix_lemma : forall (p : prim) (L : libm) (c d : choices6) (ev : evaluation) (a b : FM p), mfinite a -> mfinite b ->
  (oequal L c d ev (OMat a) (OMat b) = Some true <-> mval a = mval b).
Proof.
  intros p L c d ev a b Fa Fb. cbn [oequal okind_of ounique oconvert omat].
  assert (S : forall s t : bool, Some s = Some t <-> s = t) by (intros; split; congruence). rewrite S. now apply fmeq_true.
Qed.
(** C78: a matrix constructed from a quaternion compares equal to the quaternion (the
    sign change of getUnique() does not change a bit of the matrix); *)
Lemma C78_matrix_of_quaternion_lemma : forall (p : prim) (L : libm) (c d : choices6) (ev : evaluation) (q : FQ p) (r : M33) (A : R), choices6_ok d ->
  stands (64/10) A (OQuat q) r -> A * roundoff p <= / 100 ->
  oequal L c d ev (oconvert L d KMat (OQuat q)) (OQuat q) = Some true.
Proof.
  intros p L c d ev q r A HC (F & N & _) HA. rewrite roundoff_fu in N, HA. pose proof HC as ((HB & _) & _). pose proof HB as (_ & _ & _ & _ & OR & _).
  cbn [oequal okind_of oconvert omat ounique]. set (o := b_rot (ch_build (c6_src d))) in *.
  assert (E : ftoRot o (fquat_unique q) = ftoRot o q). { destruct (funique_cases p q) as [-> | ->]; [reflexivity|]. apply ftoRot_neg; [exact F|lra]. }
  rewrite E. destruct (ftoRot_close p o q OR F ltac:(lra)) as [M _]. f_equal. now apply fmeq_true.
Qed.
(** but a quaternion constructed from that matrix does not compare equal to the
    quaternion: the unit quaternion (3/5, 4/5, 0, 0) of float *)
Lemma C78_round_trip_differs_lemma : exists q : FQ F32, feq (fqnorm leftright4 q) (fofZ F32 1) = true /\
  oequal exact_libm stdsix stdsix InType (OQuat q) (oconvert exact_libm stdsix KQuat (oconvert exact_libm stdsix KMat (OQuat q))) = Some false.
Proof. exists q345. split; [vm_compute; reflexivity|]. vm_compute. reflexivity. Qed.

(** C78: operator== of objects of any two classes (the left one not an AngleAxis)
    returns true only if the rotations agree, up to the change of getUnique() of both
    operands and the error of the conversion of the right operand. *)
Lemma C78_true_near_lemma : forall (p : prim) (L : libm) (c d : choices6) (ev : evaluation) (x y : fobject p) (rx ry : M33) (A B : R),
  libm_ok L -> choices6_ok c -> choices6_ok d ->
  stands (64/10) A x rx -> stands (64/10) B y ry -> unique_safe x -> unique_safe y ->
  okind_of x <> KSrc SAA -> conv_limit p (okind_of y) (okind_of x) B ->
  oequal L c d ev x y = Some true ->
  close (unique_change x + unique_change y + compare_error p (okind_of x) (okind_of y) A B) rx ry.
Proof.
  intros p L c d ev x y rx ry A B HL HC HD Hx Hy Sx Sy NA LIM E.
  destruct (ounique_ok p ev c A x rx HC Hx Sx) as (Kx & rx' & Hx' & Cx). destruct (ounique_ok p ev d B y ry HD Hy Sy) as (Ky & ry' & Hy' & Cy).
  rewrite <- Ky in LIM. destruct (oconvert_ok p L d (okind_of x) (64/10) B (ounique ev d y) ry' HL HD ltac:(lra) Hy' LIM) as (Kz & rz & Hz & Cz). rewrite Ky in *.
  assert (E' : ostored_eq (ounique ev c x) (oconvert L d (okind_of x) (ounique ev d y)) = true).
  { unfold oequal in E. destruct x as [q|m|[a n|v|a b e|a b e]]; cbn [okind_of skind_of] in *; try congruence.
    destruct y as [q'|m'|[a' n'|v'|a' b' e'|a' b' e']]; cbn [okind_of skind_of] in E; try discriminate E. injection E as E. exact E. }
  pose proof (stored_near p (64/10) _ _ _ _ _ rx' rz Hx' Hz ltac:(congruence) ltac:(congruence) E') as CC. rewrite Kx in CC.
  unfold compare_error. rewrite roundoff_fu.
  eapply close_mono; [|eapply close_trans; [apply close_sym, Cx|eapply close_trans; [exact CC|eapply close_trans; [exact Cz|exact Cy]]]].
  destruct (okind_of x); lra.
Qed.
(** C78: two AngleAxis objects are compared with a tolerance of 0.01 percent: equal
    objects stand for rotations that differ by at most 1/1000; *)
Lemma C78_angle_axis_near_lemma : forall (p : prim) (L : libm) (c d : choices6) (ev : evaluation) (a b : fl p) (n m : FV p),
  object_ok (64/10) (SrcAA a n) -> object_ok (64/10) (SrcAA b m) ->
  Rabs (vnorm (vval n) - 1) <= 20 * roundoff p -> Rabs (vnorm (vval m) - 1) <= 20 * roundoff p ->
  oequal L c d ev (OSrc (SrcAA a n)) (OSrc (SrcAA b m)) = Some true -> close (/ 1000) (turns (SrcAA a n)) (turns (SrcAA b m)).
Proof.
  intros p L c d ev a b n m Oa Ob Na Nb E. pose proof (fu_pos p) as U. pose proof (fu_24 p) as V. rewrite roundoff_fu in Na, Nb.
  assert (Una : unique_safe (OSrc (SrcAA a n))) by (cbn [unique_safe]; rewrite roundoff_fu; exact Na). assert (Unb : unique_safe (OSrc (SrcAA b m))) by (cbn [unique_safe]; rewrite roundoff_fu; exact Nb).
  destruct (unique_aa_bounds p ev a n Oa) as (F1 & F2 & F3 & _). destruct (unique_aa_bounds p ev b m Ob) as (G1 & G2 & G3 & _).
  destruct (faa_unique_ok p ev a n (64/10) ltac:(lra) Oa) as (_ & _ & _ & D1 & C1). destruct (faa_unique_ok p ev b m (64/10) ltac:(lra) Ob) as (_ & _ & _ & D2 & C2).
  assert (KEEP : forall k k' : FV p, Rabs (vnorm (vval k) - 1) <= 20 * fu p -> k' = k \/ k' = fvneg k \/ k' = funit_x p -> Rabs (vnorm (vval k') - 1) <= 20 * fu p).
  { intros k k' Hk [->|[->| ->]]; [exact Hk|rewrite (proj2 (proj2 (vneg_val p k))); exact Hk|]. destruct (funit_x_R p) as [_ ->]. rewrite (vnorm_unit ex) by lin. rewrite Rminus_diag_eq, Rabs_R0 by reflexivity. lra. }
  pose proof (KEEP _ _ Na D1) as K1. pose proof (KEEP _ _ Nb D2) as K2.
  cbn [oequal okind_of skind_of ounique] in E. destruct (faa_unique ev a n) as [a' n']. destruct (faa_unique ev b m) as [b' m']. cbn [fst snd] in *. injection E as E.
  assert (S1 : stands (64/10) 0 (OSrc (SrcAA a' n')) (turns (SrcAA a' n'))). { split; [|reflexivity]. split; [exact F1|]. split; [exact F2|]. split; [lra|]. left. rewrite roundoff_fu. exact K1. }
  assert (S2 : stands (64/10) 0 (OSrc (SrcAA b' m')) (turns (SrcAA b' m'))). { split; [|reflexivity]. split; [exact G1|]. split; [exact G2|]. split; [lra|]. left. rewrite roundoff_fu. exact K2. }
  pose proof (stored_near_aa p _ _ _ _ _ _ _ _ _ _ S1 S2 F3 G3 K1 K2 E) as CC.
  eapply close_mono; [|eapply close_trans; [apply close_sym, C1|eapply close_trans; [exact CC|exact C2]]]. lra.
Qed.
(** and objects whose getUnique() agree in each of the four numbers to 0.9998e-4
    (relative to the larger one) are equal. *)
Definition relatively {p} (a b : fl p) : Prop := Rabs (B2R a - B2R b) <= 9998 / 10 ^ 8 * Rmax (Rabs (B2R a)) (Rabs (B2R b)).
Lemma C78_angle_axis_accepts_lemma : forall (p : prim) (L : libm) (c d : choices6) (ev : evaluation) (a b a' b' : fl p) (n m n' m' : FV p),
  object_ok (64/10) (SrcAA a n) -> object_ok (64/10) (SrcAA b m) ->
  faa_unique ev a n = (a', n') -> faa_unique ev b m = (b', m') ->
  relatively a' b' -> relatively (gx n') (gx m') -> relatively (gy n') (gy m') -> relatively (gz n') (gz m') ->
  oequal L c d ev (OSrc (SrcAA a n)) (OSrc (SrcAA b m)) = Some true.
Proof.
  intros p L c d ev a b a' b' n m n' m' Oa Ob Ea Eb R1 R2 R3 R4.
  destruct (unique_aa_bounds p ev a n Oa) as (F1 & (Fx & Fy & Fz) & F3 & F4). destruct (unique_aa_bounds p ev b m Ob) as (G1 & (Gx & Gy & Gz) & G3 & G4).
  cbn [oequal okind_of skind_of ounique]. rewrite Ea in *. rewrite Eb in *. cbn [fst snd ostored_eq] in *. destruct (coords_le p n') as (N1 & N2 & N3). destruct (coords_le p m') as (M1 & M2 & M3).
  rewrite !relative_differ by (assumption || lra). reflexivity.
Qed.
(** Every object that stands for a rotation equals itself *)
Definition small_angles {p} (x : fobject p) : Prop :=
  match x with OSrc (SrcZyx a b c) | OSrc (SrcXyz a b c) => Rabs (B2R a) <= 2 ^ 51 /\ Rabs (B2R b) <= 2 ^ 51 /\ Rabs (B2R c) <= 2 ^ 51 | _ => True end.
Lemma C78_reflexive_lemma : forall (p : prim) (L : libm) (c : choices6) (ev : evaluation) (x : fobject p) (r : M33) (A : R),
  choices6_ok c -> stands (64/10) A x r -> small_angles x -> oequal L c c ev x x = Some true.
Proof.
  intros p L c ev x r A HC H SM. pose proof (fu_pos p) as U. pose proof (fu_24 p) as V. pose proof HC as ((_ & HE & _) & _). assert (B51 : 2 ^ 51 = bpow radix2 51) by (cbn; lra).
  destruct x as [q|m|[a n|v|a b d|a b d]].
  - destruct H as (F & _). apply C78_quaternion_lemma; auto.
  - destruct H as (F & _). apply C78_matrix_lemma; auto.
  - destruct H as (O & _). destruct (unique_aa_bounds p ev a n O) as (F1 & (Fx & Fy & Fz) & F3 & F4). cbn [oequal okind_of skind_of ounique]. destruct (faa_unique ev a n) as [a' n']. cbn [fst snd ostored_eq] in *.
    destruct (coords_le p n') as (N1 & N2 & N3). rewrite !relative_refl by (assumption || lra). reflexivity.
  - destruct H as ((Fv & N) & _). destruct (frv_unique_ok p ev (ch_ext (c6_src c)) v (proj1 HE) Fv ltac:(lra)) as (A1 & _). cbn [oequal okind_of skind_of ounique oconvert fconvert ostored_eq]. f_equal. now apply fveq_true.
  - destruct H as ((Fa & Fb & Fd) & _). destruct SM as (Ha & Hb & Hd). rewrite B51 in *. destruct (feuler_unique_spec p ev a b d Fa Fb Fd Ha Hb Hd) as (x & y & z & E & X & Y & Z & _).
    cbn [oequal okind_of skind_of ounique]. rewrite E. cbn [oconvert fconvert ostored_eq]. f_equal. apply fteq_true; auto.
  - destruct H as ((Fa & Fb & Fd) & _). destruct SM as (Ha & Hb & Hd). rewrite B51 in *. destruct (feuler_unique_spec p ev a b d Fa Fb Fd Ha Hb Hd) as (x & y & z & E & X & Y & Z & _).
    cbn [oequal okind_of skind_of ounique]. rewrite E. cbn [oconvert fconvert ostored_eq]. f_equal. apply fteq_true; auto.
Qed.
(** and the comparison of two objects of one class does not depend on their order. *)
Lemma C78_symmetric_lemma : forall (p : prim) (L : libm) (c d : choices6) (ev : evaluation) (x y : fobject p) (rx ry : M33) (A B : R),
  stands (64/10) A x rx -> stands (64/10) B y ry -> okind_of x = okind_of y -> oequal L c d ev x y = oequal L d c ev y x.
Proof.
  intros p L c d ev x y rx ry A B Hx Hy K.
  destruct x as [q|m|[a n|v|a b e|a b e]], y as [q'|m'|[a' n'|v'|a' b' e'|a' b' e']]; try discriminate K; cbn [oequal okind_of skind_of ounique oconvert oquat omat fconvert ostored_eq].
  - f_equal. unfold fqeq. now rewrite (feq_sym p (fw _)), (feq_sym p (fx _)), (feq_sym p (fy _)), (feq_sym p (fz _)).
  - f_equal. unfold fveq. now rewrite (feq_sym p (gx (r0 m))), (feq_sym p (gy (r0 m))), (feq_sym p (gz (r0 m))), (feq_sym p (gx (r1 m))), (feq_sym p (gy (r1 m))), (feq_sym p (gz (r1 m))), (feq_sym p (gx (r2 m))), (feq_sym p (gy (r2 m))), (feq_sym p (gz (r2 m))).
  - destruct Hx as (Oa & _), Hy as (Ob & _). destruct (unique_aa_bounds p ev a n Oa) as (F1 & (Fx & Fy & Fz) & F3 & F4). destruct (unique_aa_bounds p ev a' n' Ob) as (G1 & (Gx & Gy & Gz) & G3 & G4).
    destruct (faa_unique ev a n) as [a1 n1]. destruct (faa_unique ev a' n') as [b1 m1]. cbn [fst snd ostored_eq] in *. destruct (coords_le p n1) as (N1 & N2 & N3). destruct (coords_le p m1) as (M1 & M2 & M3).
    f_equal. rewrite (relative_sym p a1 b1), (relative_sym p (gx n1)), (relative_sym p (gy n1)), (relative_sym p (gz n1)) by (assumption || lra). reflexivity.
  - f_equal. unfold fveq. now rewrite (feq_sym p (gx (frv_unique ev (ch_ext (c6_src c)) v))), (feq_sym p (gy (frv_unique ev (ch_ext (c6_src c)) v))), (feq_sym p (gz (frv_unique ev (ch_ext (c6_src c)) v))).
  - destruct (feuler_unique ev a b e) as [[s t] u]. destruct (feuler_unique ev a' b' e') as [[s' t'] u']. cbn [oconvert fconvert ostored_eq]. f_equal. now rewrite (feq_sym p s), (feq_sym p t), (feq_sym p u).
  - destruct (feuler_unique ev a b e) as [[s t] u]. destruct (feuler_unique ev a' b' e') as [[s' t'] u']. cbn [oconvert fconvert ostored_eq]. f_equal. now rewrite (feq_sym p s), (feq_sym p t), (feq_sym p u).
Qed.

(** ** Examples *)
Lemma C78_quaternion_ex : qfinite q345 /\ qfinite (fqneg q345) /\
  oequal exact_libm stdsix stdsix InType (OQuat q345) (OQuat (fqneg q345)) = Some true /\ oequal exact_libm stdsix stdsix InType (OQuat q345) (OQuat (fconj q345)) = Some false.
Proof. split; [apply q345_val|]. split; [apply fqneg_fin, q345_val|]. split; vm_compute; reflexivity. Qed.
Lemma C78_matrix_ex : mfinite m345 /\ oequal exact_libm stdsix stdsix InType (OMat m345) (OMat m345) = Some true /\ oequal exact_libm stdsix stdsix InType (OMat m345) (OMat (ftrans m345)) = Some false.
Proof. split; [apply m345_stands|]. split; vm_compute; reflexivity. Qed.
Lemma C78_matrix_of_quaternion_ex : stands (64/10) 6 (OQuat q345) (quat_rot (direction (qval q345))) /\ 6 * roundoff F32 <= / 100.
Proof. split; [apply q345_stands|]. rewrite roundoff_fu. pose proof (fu_24 F32). lra. Qed.
(** a matrix and a quaternion, float: equal, and the bound is below 1e-4 *)
Lemma C78_true_near_ex : libm_ok exact_libm /\ choices6_ok stdsix /\
  stands (64/10) 61 (OMat m345) (quat_rot (mkQ (3/5) (4/5) 0 0)) /\ stands (64/10) 6 (OQuat q345) (quat_rot (direction (qval q345))) /\
  conv_limit F32 KQuat KMat 6 /\ oequal exact_libm stdsix stdsix InType (OMat m345) (OQuat q345) = Some true /\
  unique_change (OMat m345) + unique_change (OQuat q345) + compare_error F32 KMat KQuat 61 6 <= / 10000.
Proof.
  split; [apply exact_libm_ok|]. split; [apply stdsix_ok|]. split; [apply m345_stands|]. split; [apply q345_stands|]. pose proof (fu_24 F32) as V. split; [cbn [conv_limit]; rewrite roundoff_fu; lra|].
  split; [vm_compute; reflexivity|]. unfold compare_error, conv_error. cbn [unique_change conv_roundings conv_drop conv_defect]. rewrite roundoff_fu. lra.
Qed.
(** Euler angles far outside of their range, and their getUnique() *)
Lemma C78_euler_ex : let x := OSrc (SrcZyx (fofZ F32 100) (fofZ F32 3) (fofZ F32 (-5))) in
  unique_safe x /\ stands (64/10) 0 x (turns (SrcZyx (fofZ F32 100) (fofZ F32 3) (fofZ F32 (-5)))) /\ unique_change x <= / 100000 /\
  oequal exact_libm stdsix stdsix InType x (ounique InType stdsix x) = Some true.
Proof.
  cbv zeta. destruct (C77_clear_ex F32) as (A & B & C & D & E & F & G & H). split; [repeat split; assumption|]. split; [split; [repeat split; assumption|reflexivity]|]. split; [exact H|vm_compute; reflexivity].
Qed.
Lemma C78_angle_axis_near_ex : let n := mkFV (flit F32 3 5) (flit F32 4 5) fzero in
  object_ok (64/10) (SrcAA (fofZ F32 3) n) /\ Rabs (vnorm (vval n) - 1) <= 20 * roundoff F32 /\
  oequal exact_libm stdsix stdsix InType (OSrc (SrcAA (fofZ F32 3) n)) (OSrc (SrcAA (flit F32 (-300018) 100000) (fvneg n))) = Some true /\
  oequal exact_libm stdsix stdsix InType (OSrc (SrcAA (fofZ F32 3) n)) (OSrc (SrcAA (flit F32 (-300048) 100000) (fvneg n))) = Some false.
Proof.
  cbv zeta. split; [apply aa345_object|]. split; [|split; vm_compute; reflexivity].
  destruct (aa345_ok 10) as (_ & _ & X). rewrite roundoff_fu in *. pose proof (fu_pos F32). lra.
Qed.
