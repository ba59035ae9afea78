(** Claims about conversions between float and double rotation objects (C94). *)
From Coq Require Import ZArith Reals Lra Psatz Bool List Lia.
From Flocq Require Import IEEE754.BinarySingleNaN Core.Core.
From Verif Require Import Linalg Spec SpecFacts SpecClose ModelCommon ModelEigen CommonFacts CloseFacts
  FloatModel FloatFacts FloatModel2 SpecFloatQ FloatQFacts FloatQProd FloatQHist FloatQRot FloatMHist FloatCast FloatWrap FloatModel3 SpecLibm SpecBuild FloatBuild FloatBuild2 FloatBuild3 FloatBuild4 FloatModel4 FloatExt FloatExt2 FloatExt3 FloatExt4 SpecExt FloatExt5 FloatExt6 FloatModel5 FloatModel6 FloatMat FloatModel7 SpecSix FloatSix Claims16 Claims18 Claims19 Claims22 FloatModel21 SpecXcast FloatXcast FloatXcast2 FloatVec4.
Import ListNotations.
Local Open Scope R_scope.

(** C94: an object of any of the six classes constructed from a float object of the
    same class holds the same numbers (infinities and NaN included), and a float
    object constructed from that one is the original, bit for bit. *)
Lemma C94_widen_lemma : forall x : fobject F32,
  okind_of (ocast F64 x) = okind_of x /\
  Forall2 (fun (y : fl F64) (a : fl F32) => B2R y = B2R a /\ is_finite y = is_finite a /\ is_nan y = is_nan a) (numbers (ocast F64 x)) (numbers x) /\
  ocast F32 (ocast F64 x) = x.
Proof.
  intro x. split; [apply okind_cast|]. split; [|apply ocast_back].
  assert (G : forall a : fl F32, B2R (fcvt F64 a) = B2R a /\ is_finite (fcvt F64 a) = is_finite a /\ is_nan (fcvt F64 a) = is_nan a).
  { intro a. split; [apply widen_val|]. split; [apply widen_fin|]. pose proof (widen_fin F32 a) as W. destruct a as [s|s| |s m e H]; try reflexivity.
    cbn [is_finite] in W. destruct (fcvt F64 _); try reflexivity. discriminate W. }
  destruct x as [a|[m0 m1 m2]|[a n|v|a b c|a b c]]; cbn [ocast fscast numbers]; unfold vnumbers; cbn; repeat apply Forall2_cons; try apply Forall2_nil; apply G.
Qed.
Lemma C94_widen_ex : numbers (ocast F64 (OSrc aa345)) <> [] /\ okind_of (OSrc aa345) = KSrc SAA.
Proof. split; [discriminate|reflexivity]. Qed.

(** C94: construction of an object of the same class and the other type. The object
    stays legal and the rotation moves by at most [cast_roundings]: nothing except
    from double to float, where it is 2.5 roundings for a quaternion, the angle plus
    2.5 roundings for an angle-axis, the length for a rotation vector, the sum of the
    angles for Euler angles; a matrix becomes at most two roundings less exact. *)
Lemma C94_cast_lemma : forall (p q : prim) (x : fobject p) (r : M33) (T A : R),
  T <= 7 -> stands T A x r -> A * roundoff p <= / 50 -> moderate x -> axis_legal q x ->
  okind_of (ocast q x) = okind_of x /\
  exists r', stands (T + 8 * roundoff q) (cast_defect p q (okind_of x) A) (ocast q x) r' /\ close (cast_roundings q x * roundoff q) r' r.
Proof. intros p q x r T A HT H LIM MO AL. rewrite !roundoff_fu in *. split; [apply okind_cast|now apply ocast_ok]. Qed.
Definition rv123 : fobject F64 := OSrc (SrcRv (mkFV (fofZ F64 1) (fofZ F64 2) (fofZ F64 3))).
Lemma rv123_stands : stands (64/10) 0 rv123 (turns (SrcRv (mkFV (fofZ F64 1) (fofZ F64 2) (fofZ F64 3)))).
Proof.
  destruct (fofZ1 F64) as [F1 V1]. destruct (fofZ2 F64) as [F2 V2]. destruct (fofZ_small F64 3 ltac:(lia)) as [F3 V3'].
  split; [|reflexivity]. split; [repeat split; assumption|]. unfold vval; cbn [FloatModel2.gx FloatModel2.gy FloatModel2.gz]. rewrite V1, V2, V3'.
  apply vnorm_le_sq; [lra|]. unfold vnorm2, vdot; cbn [Linalg.vx Linalg.vy Linalg.vz]. lra.
Qed.
Lemma C94_cast_ex : stands (64/10) 0 rv123 (turns (SrcRv (mkFV (fofZ F64 1) (fofZ F64 2) (fofZ F64 3)))) /\ moderate rv123 /\ axis_legal F32 rv123 /\ narrows F64 F32 = 1.
Proof. split; [apply rv123_stands|]. repeat split. Qed.

(** C94: conversions that convert the numbers first and then compute in the
    destination type (all pairs of classes except those from rotation vectors to other
    classes and those from quaternions to rotation vectors and Euler angles): the
    errors of the two steps add up. *)
Lemma C94_cast_first_lemma : forall (p q : prim) (L : libm) (c : choices6) (k : okind) (x : fobject p) (r : M33) (T A : R),
  libm_ok L -> choices6_ok c -> 64/10 <= T <= 654/100 -> stands T A x r -> A * roundoff p <= / 50 -> moderate x -> axis_legal q x ->
  casts_first (okind_of x) k = true -> conv_limit q (okind_of x) k (cast_defect p q (okind_of x) A) ->
  exists y r', xconvert q L c k x = Some y /\ okind_of y = k /\
    stands (T + 168 * roundoff q) (conv_defect (okind_of x) k (cast_defect p q (okind_of x) A)) y r' /\
    close (cast_roundings q x * roundoff q + conv_error q (okind_of x) k (cast_defect p q (okind_of x) A)) r' r.
Proof.
  intros p q L c k x r T A HL HC HT H LIM MO AL CF CL. pose proof (fu_pos q) as U. pose proof (fu_24 q) as V. rewrite !roundoff_fu in *.
  assert (E : xconvert q L c k x = Some (oconvert L c k (ocast q x))).
  { destruct k as [| |[]], x as [?|?|[]]; cbn [okind_of skind_of casts_first] in CF; try discriminate CF; reflexivity. }
  destruct (ocast_ok p q T A x r ltac:(lra) H LIM MO AL) as (r1 & H1 & C1).
  pose proof (okind_cast p q x) as KC.
  destruct (oconvert_ok q L c k (T + 8 * fu q) _ (ocast q x) r1 HL HC ltac:(lra) H1 ltac:(rewrite KC; exact CL)) as (K & r2 & H2 & C2). rewrite KC in H2, C2.
  exists (oconvert L c k (ocast q x)), r2. split; [exact E|]. split; [exact K|]. split; [apply (stands_T _ (T + 8 * fu q + 160 * fu q)); [lra|exact H2]|].
  rewrite Rplus_comm. exact (close_trans _ _ _ _ _ C2 C1).
Qed.
Lemma C94_cast_first_ex : libm_ok exact_libm /\ choices6_ok stdsix /\
  stands (64/10) 61 (OMat m345) (quat_rot (mkQ (3/5) (4/5) 0 0)) /\ casts_first KMat KQuat = true /\ conv_limit F64 KMat KQuat (cast_defect F32 F64 KMat 61) /\
  stands (64/10) 0 eul (turns euler123) /\ moderate eul /\ casts_first (okind_of eul) (KSrc SRv) = true.
Proof.
  split; [apply exact_libm_ok|]. split; [apply stdsix_ok|]. split; [apply m345_stands|]. split; [reflexivity|].
  split. { cbn [conv_limit cast_defect]. rewrite roundoff_fu, Rmult_plus_distr_r, ratio_fu, fu_32. cbn [narrows]. lra. }
  split; [apply euler123_stands|]. split; [|reflexivity]. cbn [moderate eul euler123]. destruct (fofZ1 F32) as [_ V1]. destruct (fofZ2 F32) as [_ V2]. destruct (fofZ_small F32 3 ltac:(lia)) as [_ V3'].
  rewrite V1, V2, V3'. rewrite !Rabs_pos_eq by lra. assert (4 <= 2 ^ 100) by (rewrite pow_IZR; apply IZR_le; vm_compute; discriminate). lra.
Qed.

Lemma euler_bounds p L c k (x : fobject p) T A r : libm_ok L -> choices6_ok c -> 64/10 <= T <= 655/100 -> stands T A x r -> conv_limit p (okind_of x) k A -> casts_last (okind_of x) k = true ->
  exists a b d, (oconvert L c k x = OSrc (SrcZyx a b d) \/ oconvert L c k x = OSrc (SrcXyz a b d)) /\ Rabs (B2R a) <= 4 /\ Rabs (B2R b) <= 4 /\ Rabs (B2R d) <= 4.
Proof.
  intros HL HC HT H LIM CF. pose proof (fu_pos p) as U. pose proof (fu_24 p) as V. pose proof (stands_nonneg _ _ _ _ _ H) as A0. pose proof HC as ((HB & HE & HM) & _).
  destruct k as [| |k]; [destruct x as [|?|[]]; discriminate CF|destruct x as [|?|[]]; discriminate CF|].
  destruct x as [a|m|[a n|v|? ? ?|? ? ?]]; cbn [okind_of skind_of casts_last] in CF; try discriminate CF; try (destruct k; discriminate CF).
  - destruct H as (F & N & _). rewrite roundoff_fu in N. assert (AL : A <= 1200) by (destruct k; cbn [okind_of conv_limit extract_limit] in LIM; lra).
    assert (A * fu p <= 1200 * fu p) by (apply Rmult_le_compat_r; lra). destruct (unit_near p a A F N ltac:(lra)) as (P1 & P2 & P3).
    destruct k; try discriminate CF; cbn [oconvert fsource_of_quat].
    + destruct (fzyx_of_quat_err p L _ a _ A HL HE F P2 ltac:(lra) P3) as (z & y & x & E & _ & B & _). exists z, y, x. rewrite E. tauto.
    + destruct (fxyz_of_quat_err p L _ a _ A HL HE F P2 ltac:(lra) P3) as (x & y & z & E & _ & B & _). exists x, y, z. rewrite E. tauto.
  - destruct k; try discriminate CF. destruct H as (O & _). destruct (held_quat p L _ _ T HL HB ltac:(lra) O) as (F & e & E1 & _ & E3).
    destruct (fzyx_of_quat_err p L _ _ _ (33 + 2/10) HL HE F E1 ltac:(lra) E3) as (z & y & x & E & _ & B & _). exists z, y, x. cbn [oconvert fconvert]. unfold fsource_of_quat. rewrite E. tauto.
Qed.
(** C94: Euler angles of a quaternion of the other type, and EulerAnglesZyx of a
    rotation vector of the other type, are computed in the source type and rounded
    last. *)
Lemma C94_cast_last_lemma : forall (p q : prim) (L : libm) (c : choices6) (k : okind) (x : fobject p) (r : M33) (T A : R),
  libm_ok L -> choices6_ok c -> 64/10 <= T <= 654/100 -> stands T A x r -> casts_last (okind_of x) k = true -> conv_limit p (okind_of x) k A ->
  exists y r', xconvert q L c k x = Some y /\ okind_of y = k /\ stands T 0 y r' /\
    close (conv_error p (okind_of x) k A + narrows p q * (121/10) * roundoff q) r' r.
Proof.
  intros p q L c k x r T A HL HC HT H CF CL. pose proof (fu_pos q) as U. pose proof (fu_24 q) as V. pose proof (fu_24 p) as Vp. rewrite !roundoff_fu in *.
  assert (E : xconvert q L c k x = Some (ocast q (oconvert L c k x))).
  { destruct k as [| |[]], x as [?|?|[]]; cbn [okind_of skind_of casts_last] in CF; try discriminate CF; reflexivity. }
  destruct (euler_bounds p L c k x T A r HL HC ltac:(lra) H CL CF) as (a & b & d & X & Ba & Bb & Bd).
  destruct (oconvert_ok p L c k T A x r HL HC ltac:(lra) H CL) as (K & r1 & H1 & C1).
  assert (P4 : 4 <= 2 ^ 100) by (rewrite pow_IZR; apply IZR_le; vm_compute; discriminate).
  assert (D0 : conv_defect (okind_of x) k A = 0). { destruct k as [| |[]], x as [?|?|[]]; cbn [okind_of skind_of casts_last] in CF; try discriminate CF; reflexivity. }
  rewrite D0 in H1.
  destruct (ocast_ok p q (T + 160 * fu p) 0 _ r1 ltac:(lra) H1 ltac:(lra)) as (r2 & H2 & C2).
  { destruct X as [-> | ->]; cbn [moderate]; lra. }
  { destruct X as [-> | ->]; exact I. }
  exists (ocast q (oconvert L c k x)), r2. split; [exact E|]. split; [now rewrite okind_cast|]. split.
  - destruct X as [X|X]; rewrite X in *; exact H2.
  - rewrite Rplus_comm. eapply close_trans; [|exact C1]. eapply close_mono; [|exact C2]. pose proof (narrows_01 p q) as W.
    destruct X as [-> | ->]; unfold cast_roundings; apply Rmult_le_compat_r; try lra; apply Rmult_le_compat_l; lra.
Qed.
Lemma C94_cast_last_ex : stands (64/10) 0 rv123 (turns (SrcRv (mkFV (fofZ F64 1) (fofZ F64 2) (fofZ F64 3)))) /\ casts_last (okind_of rv123) (KSrc SZyx) = true /\
  stands (64/10) 6 (OQuat q345) (quat_rot (direction (qval q345))) /\ casts_last KQuat (KSrc SXyz) = true /\ conv_limit F32 KQuat (KSrc SXyz) 6.
Proof. split; [apply rv123_stands|]. split; [reflexivity|]. split; [apply q345_stands|]. split; [reflexivity|]. cbn [conv_limit extract_limit]. lra. Qed.

Lemma rv_defect_small p q : 0 <= rv_defect p q * fu q <= / 10000.
Proof.
  unfold rv_defect. pose proof (narrows_01 p q) as W. pose proof (fu_pos q) as U. pose proof (fu_24 q) as V. pose proof (fu_pos p) as Up. pose proof (fu_24 p) as Vp.
  replace ((7 + 18 * narrows p q + 26 * ratio p q) * fu q) with (7 * fu q + 18 * (narrows p q * fu q) + 26 * ratio p q * fu q) by ring. rewrite ratio_fu.
  assert (0 <= narrows p q * fu q <= 1 * fu q) by (split; [apply Rmult_le_pos; lra|apply Rmult_le_compat_r; lra]). lra.
Qed.
(** C94: quaternions and matrices of rotation vectors of the other type. The norm of
    the vector is computed in the source type: a double quaternion constructed from a
    float rotation vector has norm one, and is the right rotation, only up to 26
    roundings of float ([ratio] is 2^29 there). *)
Lemma C94_rv_quat_lemma : forall (p q : prim) (L : libm) (c : choices6) (v : FV p) (T : R),
  libm_ok L -> choices6_ok c -> vfinite v -> vnorm (vval v) <= 654/100 ->
  let r := turns (SrcRv v) in
  let E := (201/100 * rv_defect p q + narrows p q * (vnorm (vval v) + / 100)) * roundoff q in
  (exists y r', xconvert q L c KQuat (OSrc (SrcRv v)) = Some y /\ okind_of y = KQuat /\ stands T (rv_defect p q) y r' /\ close E r' r) /\
  (exists y r', xconvert q L c KMat (OSrc (SrcRv v)) = Some y /\ okind_of y = KMat /\ stands T (5 * rv_defect p q + 18) y r' /\ close E r' r).
Proof.
  intros p q L c v T HL HC Fv Nv r E. pose proof (fu_pos q) as U. pose proof (fu_24 q) as V. pose proof (fu_24 p) as Vp. pose proof (fu_pos p) as Up. pose proof (narrows_01 p q) as W. pose proof (rv_defect_small p q) as DS.
  pose proof HC as ((HB & HE & HM) & _). destruct HB as (_ & _ & O3 & O2 & OR & _).
  destruct (cast_rv p q (654/100) v ltac:(lra) (Logic.conj Fv Nv)) as [(Fw & Nw) CW].
  destruct (xquat_err p q L _ _ v HL O3 O2 Fv ltac:(lra)) as [Fq Dq]. set (a := xquat_of_rv q L (b_norm (ch_build (c6_src c))) (b_taylor (ch_build (c6_src c))) v) in *.
  destruct (rv_quat_ok (vval (fvcast q v))) as [Q1 Q2].
  assert (D : qdist (qval a) (rv_quat (vval (fvcast q v))) <= rv_defect p q * fu q).
  { eapply Rle_trans; [exact Dq|]. unfold rv_defect. replace ((7 + 18 * narrows p q + 26 * ratio p q) * fu q) with (7 * fu q + 18 * (narrows p q * fu q) + 26 * ratio p q * fu q) by ring. rewrite ratio_fu.
    assert (NU : 0 <= narrows p q * fu q) by (apply Rmult_le_pos; lra).
    assert (5/4 * (31/10 * fu p + 21/10 * narrows p q * fu q) * vnorm (vval (fvcast q v)) <= 5/4 * (31/10 * fu p + 21/10 * narrows p q * fu q) * (655/100)) by (apply Rmult_le_compat_l; lra). lra. }
  destruct (near_unit q a _ _ Q1 D ltac:(lra)) as (N1 & N2 & N3). rewrite Q2 in N3.
  assert (ST : stands T (rv_defect p q) (OQuat a) (quat_rot (direction (qval a)))) by (split; [exact Fq|]; rewrite roundoff_fu; tauto).
  assert (CE : close E (quat_rot (direction (qval a))) r).
  { eapply close_mono; [|exact (close_trans _ _ _ _ _ N3 CW)]. unfold E. rewrite roundoff_fu. lra. }
  split.
  - exists (OQuat a), (quat_rot (direction (qval a))). split; [reflexivity|]. split; [reflexivity|]. split; [exact ST|exact CE].
  - exists (OMat (ftoRot (b_rot (ch_build (c6_src c))) a)), (quat_rot (direction (qval a))). split; [reflexivity|]. split; [reflexivity|]. split; [|exact CE].
    destruct (ftoRot_close q (b_rot (ch_build (c6_src c))) a OR Fq) as [X Y]; [eapply Rle_trans; [exact N1|lra]|].
    split; [exact X|]. split; [now apply direction_SO3|]. rewrite roundoff_fu. eapply close_mono; [|exact Y]. lra.
Qed.
Lemma C94_rv_quat_ex : libm_ok exact_libm /\ choices6_ok stdsix /\
  (let v := mkFV (fofZ F64 1) (fofZ F64 2) (fofZ F64 3) in vfinite v /\ vnorm (vval v) <= 654/100) /\ ratio F64 F32 * 2 ^ 29 = 1 /\ ratio F32 F64 = 2 ^ 29.
Proof.
  split; [apply exact_libm_ok|]. split; [apply stdsix_ok|]. destruct rv123_stands as ((F & N) & _). cbv zeta. split; [split; [exact F|lra]|].
  unfold ratio. rewrite !roundoff_fu, fu_32, fu_64v. split; lra.
Qed.

(** C94: angle-axes of rotation vectors of the other type. Vectors shorter than the
    dummy_precision of the SOURCE type become the identity: 1e-12 from double to
    float, but 1e-5 from float to double. *)
Lemma C94_rv_aa_lemma : forall (p q : prim) (L : libm) (c : choices6) (v : FV p),
  choices6_ok c -> vfinite v -> vnorm (vval v) <= 654/100 ->
  exists y r', xconvert q L c (KSrc SAA) (OSrc (SrcRv v)) = Some y /\ okind_of y = KSrc SAA /\ stands (656/100) 0 y r' /\
    close ((46 + narrows p q * (vnorm (vval v) + / 100)) * roundoff q + 101/100 * short_length p) r' (turns (SrcRv v)).
Proof.
  intros p q L c v HC Fv Nv. pose proof (fu_pos q) as U. pose proof (fu_24 q) as V. pose proof HC as ((_ & HE & _) & _). destruct HE as (O & _).
  destruct (xaa_ok p q (ch_ext (c6_src c)) v (654/100) O ltac:(lra) (Logic.conj Fv Nv)) as (K & OK & C).
  destruct (cast_rv p q (654/100) v ltac:(lra) (Logic.conj Fv Nv)) as [_ CW].
  exists (OSrc (xaa_of_rv q (ch_ext (c6_src c)) v)), (turns (xaa_of_rv q (ch_ext (c6_src c)) v)). split; [reflexivity|]. split; [cbn [okind_of]; now rewrite K|].
  split; [split; [apply (object_wider _ (654/100 + 160 * fu q)); [lra|exact OK]|reflexivity]|]. rewrite roundoff_fu. eapply close_mono; [|exact (close_trans _ _ _ _ _ C CW)]. lra.
Qed.
Lemma C94_rv_aa_ex : choices6_ok stdsix /\ (let v := mkFV (fofZ F64 1) (fofZ F64 2) (fofZ F64 3) in vfinite v /\ vnorm (vval v) <= 654/100).
Proof. split; [apply stdsix_ok|]. destruct rv123_stands as ((F & N) & _). cbv zeta. split; [exact F|lra]. Qed.

(** C94: from double to float, for every pair of classes except RotationQuaternion to
    RotationVector: a legal double object (defect at most 1000 roundings of double,
    axis of length one up to 20 roundings, angles of Euler angles adding up to at most
    100) becomes a legal float object of the wanted class whose rotation is the same
    up to 4500 roundings of float. *)
Lemma C94_to_float_lemma : forall (L : libm) (c : choices6) (k : okind) (x : fobject F64) (r : M33) (A : R),
  libm_ok L -> choices6_ok c -> stands (65/10) A x r -> 0 <= A <= 1000 -> float_ready x -> ~ (okind_of x = KQuat /\ k = KSrc SRv) ->
  exists y r', xconvert F32 L c k x = Some y /\ okind_of y = k /\ stands (66/10) 400 y r' /\ close (4500 * roundoff F32) r' r.
Proof.
  intros L c k x r A HL HC H HA FR NP. pose proof fu_32 as U. pose proof fu_64v as U64.
  assert (SMALL : A * roundoff F64 <= / 50) by (rewrite roundoff_fu, U64; lra).
  assert (P2 : 100 <= 2 ^ 100) by (rewrite pow_IZR; apply IZR_le; vm_compute; discriminate).
  assert (RA : 0 <= A * ratio F64 F32 <= / 100000) by (unfold ratio; rewrite !roundoff_fu, U, U64; lra).
  destruct (casts_first (okind_of x) k) eqn:CF; [|destruct (casts_last (okind_of x) k) eqn:CL].
  - assert (MO : moderate x). { destruct x as [?|?|[? ?|?|a b d|a b d]]; cbn [moderate float_ready] in *; try exact I; pose proof (Rabs_pos (B2R a)); pose proof (Rabs_pos (B2R b)); pose proof (Rabs_pos (B2R d)); lra. }
    assert (AL : axis_legal F32 x). { destruct x as [?|?|[a n|?|? ? ?|? ? ?]]; cbn [axis_legal float_ready] in *; try exact I. left. rewrite roundoff_fu, U. rewrite roundoff_fu, U64 in FR. lra. }
    destruct (C94_cast_first_lemma F64 F32 L c k x r (65/10) A HL HC ltac:(lra) H SMALL MO AL CF) as (y & r' & E & K & S1 & C1).
    { destruct k as [| |[]], x as [?|?|[]]; cbn [okind_of skind_of conv_limit cast_defect extract_limit narrows casts_first] in *; try exact I; try discriminate CF; rewrite ?roundoff_fu, ?U; lra. }
    exists y, r'. split; [exact E|]. split; [exact K|]. split.
    + apply (stands_T _ (65/10 + 168 * roundoff F32)); [rewrite roundoff_fu, U; lra|]. eapply stands_mono; [|exact S1].
      destruct k as [| |[]], x as [?|?|[]]; cbn [okind_of skind_of conv_defect cast_defect narrows] in *; lra.
    + eapply close_mono; [|exact C1]. unfold conv_error. assert (CR : 0 <= cast_roundings F32 x <= 101).
      { destruct x as [?|?|[a n|v|a b d|a b d]]; unfold cast_roundings; cbn [narrows float_ready] in *; try lra.
        - destruct H as ((_ & _ & HT & _) & _). pose proof (Rabs_pos (B2R a)). lra.
        - destruct H as ((_ & HT) & _). pose proof (vn_nonneg (vval v)). lra.
        - pose proof (Rabs_pos (B2R a)); pose proof (Rabs_pos (B2R b)); pose proof (Rabs_pos (B2R d)); lra.
        - pose proof (Rabs_pos (B2R a)); pose proof (Rabs_pos (B2R b)); pose proof (Rabs_pos (B2R d)); lra. }
      assert (CD : conv_drop F32 (okind_of x) k = 0). { destruct k as [| |[]], x as [?|?|[]]; cbn [okind_of skind_of casts_first] in CF; try discriminate CF; reflexivity. }
      rewrite CD, Rplus_0_r, <- Rmult_plus_distr_r. apply Rmult_le_compat_r; [rewrite roundoff_fu, U; lra|].
      assert (CV : conv_roundings (okind_of x) k (cast_defect F64 F32 (okind_of x) A) <= 4300); [|lra].
      destruct k as [| |[]], x as [?|?|[]]; cbn [okind_of skind_of conv_roundings cast_defect narrows extract_roundings casts_first] in *; try discriminate CF; lra.
  - assert (LIM : conv_limit F64 (okind_of x) k A). { destruct k as [| |[]], x as [?|?|[]]; cbn [okind_of skind_of casts_last conv_limit extract_limit] in *; try discriminate CL; try exact I; lra. }
    destruct (C94_cast_last_lemma F64 F32 L c k x r (65/10) A HL HC ltac:(lra) H CL LIM) as (y & r' & E & K & S1 & C1).
    exists y, r'. split; [exact E|]. split; [exact K|]. split; [apply (stands_T _ (65/10)); [lra|]; eapply stands_mono; [|exact S1]; lra|].
    eapply close_mono; [|exact C1]. unfold conv_error. rewrite !roundoff_fu, U, U64.
    destruct k as [| |[]], x as [?|?|[]]; cbn [okind_of skind_of casts_last conv_roundings conv_drop drops_short narrows extract_roundings] in *; try discriminate CL; lra.
  - assert (RV : exists v, x = OSrc (SrcRv v) /\ (k = KQuat \/ k = KMat \/ k = KSrc SAA \/ k = KSrc SXyz)).
    { destruct k as [| |[]], x as [?|?|[? ?|v|? ? ?|? ? ?]]; cbn [okind_of skind_of casts_first casts_last] in *; try discriminate CF; try discriminate CL; try (exists v; tauto). exfalso. tauto. }
    destruct RV as (v & -> & HK). destruct H as ((Fv & Nv) & HR). 
    assert (RD : rv_defect F64 F32 <= 26). { unfold rv_defect. cbn [narrows]. unfold ratio. rewrite !roundoff_fu, U, U64. lra. }
    destruct HK as [->|[->|[->| ->]]].
    + destruct (C94_rv_quat_lemma F64 F32 L c v (66/10) HL HC Fv ltac:(lra)) as [(y & r' & E & K & S1 & C1) _]. exists y, r'. split; [exact E|]. split; [exact K|].
      split; [eapply stands_mono; [|exact S1]; lra|]. rewrite <- HR. eapply close_mono; [|exact C1]. cbn [narrows]. rewrite roundoff_fu. apply Rmult_le_compat_r; [rewrite U; lra|lra].
    + destruct (C94_rv_quat_lemma F64 F32 L c v (66/10) HL HC Fv ltac:(lra)) as [_ (y & r' & E & K & S1 & C1)]. exists y, r'. split; [exact E|]. split; [exact K|].
      split; [eapply stands_mono; [|exact S1]; lra|]. rewrite <- HR. eapply close_mono; [|exact C1]. cbn [narrows]. rewrite roundoff_fu. apply Rmult_le_compat_r; [rewrite U; lra|lra].
    + destruct (C94_rv_aa_lemma F64 F32 L c v HC Fv ltac:(lra)) as (y & r' & E & K & S1 & C1). exists y, r'. split; [exact E|]. split; [exact K|].
      split; [apply (stands_T _ (656/100)); [lra|]; eapply stands_mono; [|exact S1]; lra|]. rewrite <- HR. eapply close_mono; [|exact C1]. cbn [narrows short_length]. rewrite roundoff_fu, U. lra.
    + (* EulerAnglesXyz of a rotation vector: through AngleAxis<double> *)
      pose proof HC as ((_ & HE & _) & _). destruct HE as (O & _). set (b := ch_ext (c6_src c)) in *.
      destruct (faa_of_rv_ok F64 b v (65/10) O ltac:(lra) (Logic.conj Fv Nv)) as (K1 & OK1 & C1).
      assert (AX : axis_legal F32 (OSrc (faa_of_rv b v))).
      { destruct (faa_of_rv_err F64 b v O Fv ltac:(lra)) as [[E _]|(a & n & E & _ & _ & P & _ & D)]; rewrite E; cbn [axis_legal]; left; rewrite roundoff_fu, U.
        - destruct (funit_x_R F64) as [_ EX]. rewrite EX, (vnorm_unit ex) by lin. rewrite Rminus_diag_eq, Rabs_R0 by reflexivity. lra.
        - pose proof (vnorm_diff (vval n) (vscale (/ vnorm (vval v)) (vval v))) as DD. rewrite (vnorm_unit (vscale (/ vnorm (vval v)) (vval v))) in DD by (apply vdir_unit, P). rewrite U64 in D. lra. }
      assert (KK : okind_of (OSrc (faa_of_rv b v)) = KSrc SAA) by (cbn [okind_of]; now rewrite K1).
      assert (MO : moderate (OSrc (faa_of_rv b v))). { destruct (faa_of_rv b v); try discriminate K1; exact I. }
      destruct (ocast_ok F64 F32 (65/10 + 160 * fu F64) 0 (OSrc (faa_of_rv b v)) (turns (faa_of_rv b v)) ltac:(lra) (Logic.conj OK1 eq_refl) ltac:(lra) MO AX) as (r1 & H1 & D1).
      pose proof (okind_cast F64 F32 (OSrc (faa_of_rv b v))) as KC. rewrite KK in KC. rewrite KK in H1. 
      destruct (oconvert_ok F32 L c (KSrc SXyz) (65/10 + 160 * fu F64 + 8 * fu F32) _ _ r1 HL HC ltac:(lra) H1 ltac:(rewrite KC; exact I)) as (K2 & r2 & H2 & D2).
      rewrite KC in H2, D2. exists (oconvert L c (KSrc SXyz) (ocast F32 (OSrc (faa_of_rv b v)))), r2. split; [reflexivity|]. split; [exact K2|].
      split; [apply (stands_T _ (65/10 + 160 * fu F64 + 8 * fu F32 + 160 * fu F32)); [lra|]; eapply stands_mono; [|exact H2]; cbn [conv_defect]; lra|].
      rewrite <- HR. eapply close_mono; [|exact (close_trans _ _ _ _ _ D2 (close_trans _ _ _ _ _ D1 C1))].
      assert (CR : cast_roundings F32 (OSrc (faa_of_rv b v)) <= 10).
      { destruct (faa_of_rv b v) as [a n| | |]; try discriminate K1. unfold cast_roundings. cbn [narrows]. destruct OK1 as (_ & _ & Ha & _). lra. }
      assert (cast_roundings F32 (OSrc (faa_of_rv b v)) * fu F32 <= 10 * fu F32) by (apply Rmult_le_compat_r; lra).
      unfold conv_error. cbn [conv_roundings conv_drop drops_short short_length]. rewrite !roundoff_fu in *. rewrite U, U64 in *. lra.
Qed.
Lemma C94_to_float_ex : libm_ok exact_libm /\ choices6_ok stdsix /\ stands (65/10) 0 rv123 (turns (SrcRv (mkFV (fofZ F64 1) (fofZ F64 2) (fofZ F64 3)))) /\ float_ready rv123 /\
  stands (65/10) 0 (ocast F64 eul) (turns euler123) /\ float_ready (ocast F64 eul).
Proof.
  split; [apply exact_libm_ok|]. split; [apply stdsix_ok|]. split; [apply (stands_T _ (64/10)); [lra|apply rv123_stands]|]. split; [exact I|].
  destruct (fofZ1 F32) as [F1 V1]. destruct (fofZ2 F32) as [F2 V2]. destruct (fofZ_small F32 3 ltac:(lia)) as [F3 V3'].
  split.
  - cbn [ocast fscast eul euler123 stands object_ok]. rewrite !widen_fin. split; [tauto|]. unfold turns; cbn [source_value]. now rewrite !widen_val.
  - cbn [ocast fscast eul euler123 float_ready]. rewrite !widen_val, V1, V2, V3', !Rabs_pos_eq by lra. lra.
Qed.

(** C94: the pairs of classes about which the model says something: all except
    RotationVector from RotationQuaternion. *)
Lemma C94_pairs_lemma : forall (p q : prim) (L : libm) (c : choices6) (k : okind) (x : fobject p),
  (xconvert q L c k x = None <-> okind_of x = KQuat /\ k = KSrc SRv) /\
  (forall y, xconvert q L c k x = Some y -> okind_of x <> KSrc SRv -> casts_first (okind_of x) k = true -> y = oconvert L c k (ocast q x)) /\
  (forall y, xconvert q L c k x = Some y -> casts_last (okind_of x) k = true -> y = ocast q (oconvert L c k x)).
Proof.
  intros p q L c k x. split; [|split].
  - destruct k as [| |[]], x as [?|?|[]]; cbn [xconvert okind_of skind_of]; split; intros H; try discriminate H; try (destruct H; discriminate); try tauto; try reflexivity.
  - intros y H N CF. destruct k as [| |[]], x as [?|?|[]]; cbn [xconvert okind_of skind_of casts_first] in *; try discriminate CF; try (now elim N); now injection H as <-.
  - intros y H CL. destruct k as [| |[]], x as [?|?|[]]; cbn [xconvert okind_of skind_of casts_last] in *; try discriminate CL; now injection H as <-.
Qed.
Lemma C94_pairs_ex : casts_first (okind_of eul) (KSrc SRv) = true /\ casts_last (okind_of rv123) (KSrc SZyx) = true /\ okind_of eul <> KSrc SRv.
Proof. repeat split. discriminate. Qed.
