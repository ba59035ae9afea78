(** * FloatSix: rotation objects of all six classes in floating-point arithmetic:
    conversions, products, inverses. *)
From Coq Require Import ZArith Reals Lra Psatz Bool List Lia.
From Flocq Require Import IEEE754.BinarySingleNaN Core.Core.
From Verif Require Import Linalg Spec SpecFacts SpecClose ModelCommon ModelEigen CommonFacts ModelRotation ConvFacts RotFacts CloseFacts RVFacts EulerNear PiBounds
  FloatModel FloatFacts FloatModel2 SpecFloatQ FloatQFacts FloatQProd FloatQHist FloatQRot FloatMHist FloatCast FloatWrap FloatModel3 SpecLibm SpecBuild FloatBuild FloatBuild2 FloatBuild3 FloatBuild4 FloatModel4 FloatExt FloatExt2 FloatExt3 FloatExt4 SpecExt Claims18 FloatExt5 FloatExt6 FloatModel5 FloatModel6 FloatMat FloatModel7 SpecSix.
Import ListNotations.
Local Open Scope R_scope.

Lemma near_unit p (q : FQ p) e D : qnorm e = 1 -> qdist (qval q) e <= D * fu p -> D * fu p <= / 250 ->
  Rabs (qnorm (qval q) - 1) <= D * fu p /\ 0 < qnorm (qval q) /\ close (201/100 * D * fu p) (quat_rot (direction (qval q))) (quat_rot e).
Proof.
  intros E Q S. pose proof (qdist_norm (qval q) e) as N. rewrite E in N. pose proof (qdist_nonneg (qval q) e) as Q0.
  assert (N1 : Rabs (qnorm (qval q) - 1) <= D * fu p) by lra. split; [exact N1|]. apply Rabs_both in N1. split; [lra|].
  eapply close_mono; [|apply quat_rot_close; [apply direction_norm; lra|exact E]].
  pose proof (direction_close (qval q) e E ltac:(lra) ltac:(lra)) as DC. set (x := qdist (qval q) e) in *.
  assert (x / (1 - x) <= 201/200 * x). { apply Rmult_le_reg_r with (1 - x); [lra|]. unfold Rdiv at 1. rewrite Rmult_assoc, Rinv_l, Rmult_1_r by lra. assert (x * x <= / 250 * x) by (apply Rmult_le_compat_r; lra). lra. }
  lra.
Qed.
Lemma unit_near p (q : FQ p) A : qfinite q -> Rabs (qnorm (qval q) - 1) <= A * fu p -> A * fu p <= / 50 ->
  0 < qnorm (qval q) /\ qnorm (direction (qval q)) = 1 /\ qdist (qval q) (direction (qval q)) <= A * fu p.
Proof.
  intros F N S. pose proof (Rabs_both _ _ N) as B. assert (P : 0 < qnorm (qval q)) by lra. split; [exact P|]. split; [now apply direction_norm|].
  replace (qdist (qval q) (direction (qval q))) with (Rabs (qnorm (qval q) - 1)); [exact N|].
  unfold qdist. set (q' := qval q) in *. replace (qsub q' (direction q')) with (qscale (1 - / qnorm q') q').
  2:{ destruct q' as [a b c d]. unfold direction, qscale, qsub; cbn [qw qx qy qz]. f_equal; ring. }
  rewrite qnorm_scale. replace (1 - / qnorm q') with ((qnorm q' - 1) * / qnorm q') by (field; lra). rewrite Rabs_mult, (Rabs_pos_eq (/ qnorm q')) by (left; now apply Rinv_0_lt_compat). field. lra.
Qed.
Lemma direction_SO3 q : 0 < qnorm q -> SO3 (quat_rot (direction q)).
Proof. intro P. apply quat_rot_SO3. rewrite <- qnorm_sq, direction_norm by exact P. ring. Qed.

Lemma stands_SO3 p T A (x : fobject p) r : stands T A x r -> (okind_of x = KQuat -> A * fu p <= / 40) -> SO3 r.
Proof.
  destruct x as [q|m|s]; cbn [stands okind_of]; rewrite ?roundoff_fu.
  - intros (F & N & <-) S. apply direction_SO3. specialize (S eq_refl). apply Rabs_both in N. lra.
  - intros (_ & H & _) _. exact H.
  - intros (H & <-) _. apply (object_SO3 _ _ _ H).
Qed.
Lemma stands_nonneg p T A (x : fobject p) r : stands T A x r -> match x with OSrc _ => True | _ => 0 <= A end.
Proof.
  pose proof (fu_pos p) as U. assert (G : 0 <= A * fu p -> 0 <= A). { intro H. destruct (Rle_or_lt 0 A) as [K|K]; [exact K|]. exfalso. assert (A * fu p < 0 * fu p) by (apply Rmult_lt_compat_r; lra). lra. }
  destruct x as [q|m|s]; cbn [stands]; rewrite ?roundoff_fu; [|  |tauto].
  - intros (_ & N & _). apply G. eapply Rle_trans; [apply Rabs_pos|exact N].
  - intros (_ & _ & C). apply G. apply (close_nonneg _ _ _ C).
Qed.
Lemma stands_mono p T A A' (x : fobject p) r : A <= A' -> stands T A x r -> stands T A' x r.
Proof.
  intros H. pose proof (fu_pos p) as U. assert (A * fu p <= A' * fu p) by (apply Rmult_le_compat_r; lra).
  destruct x as [q|m|s]; cbn [stands]; rewrite ?roundoff_fu; [| |tauto].
  - intros (F & N & E). split; [exact F|]. split; [lra|exact E].
  - intros (F & S & C). split; [exact F|]. split; [exact S|]. eapply close_mono; [|exact C]. lra.
Qed.
Lemma stands_T p T T' A (x : fobject p) r : T <= T' -> stands T A x r -> stands T' A x r.
Proof. intro H. destruct x as [q|m|s]; cbn [stands]; try tauto. intros (O & E). split; [exact (object_wider p T T' s H O)|exact E]. Qed.

(** the matrix of an angle-axis with a tiny angle *)
Lemma fmat_of_aa_tiny p L o (a : fl p) (n : FV p) : libm_ok L -> orders9_aa_ok o -> is_finite a = true -> vfinite n -> Rabs (B2R a) <= 10 * fu p -> 1/2 <= vnorm (vval n) <= 5/2 ->
  mfinite (fmat_of_aa L o a n) /\ close (200 * fu p) (mval (fmat_of_aa L o a n)) mid.
Proof.
  intros HL ((O00 & O01 & O02) & (O10 & O11 & O12) & (O20 & O21 & O22)) Fa (Fx & Fy & Fz) Ha Hn.
  pose proof (fu_pos p) as U. pose proof (fu_24 p) as V. pose proof (eta_u7 p) as T. pose proof (eta_pos p) as PE.
  destruct (sin_accurate L HL p a Fa) as [Fs Es]. destruct (cos_accurate L HL p a Fa) as [Fc Ec]. rewrite roundoff_fu in Es, Ec.
  set (s := lsin L p a) in *. set (c := lcos L p a) in *. set (al := B2R a) in *. set (u := fu p) in *.
  destruct (fofZ1 p) as [F1 V1]. destruct (vcomp_le (vval n)) as (Nx & Ny & Nz). cbn [vval vx vy vz] in Nx, Ny, Nz.
  assert (GX : Rabs (B2R (gx n)) <= 5/2) by lra. assert (GY : Rabs (B2R (gy n)) <= 5/2) by lra. assert (GZ : Rabs (B2R (gz n)) <= 5/2) by lra.
  assert (S1 : Rabs (B2R s - 0) <= 12 * u).
  { pose proof (sin_abs_le al). rewrite Rminus_0_r. replace (B2R s) with ((B2R s - sin al) + sin al) by ring. eapply Rle_trans; [apply Rabs_triang|]. lra. }
  assert (A2 : al * al <= 100 * (u * u)). { apply abs_sq in Ha. lra. }
  assert (UU : u * u <= / 1000000 * u) by (apply Rmult_le_compat_r; lra).
  assert (C1 : Rabs (B2R c - 1) <= (2 + / 100) * u).
  { assert (X : 1 - al * al <= cos al). { replace al with (2 * (al / 2)) at 3 by field. rewrite cos_2a_sin. pose proof (sin_abs_le (al / 2)) as Q. apply abs_sq in Q. rewrite <- Rabs_mult, Rabs_pos_eq in Q by (apply Rle_0_sqr). pose proof (Rle_0_sqr al) as Z. unfold Rsqr in Z. lra. } pose proof (COS_bound al) as Y. apply Rabs_both in Ec. apply Rabs_le. lra. }
  assert (S1' : Rabs (B2R (fneg s) - 0) <= 12 * u). { rewrite fneg_val. replace (- B2R s - 0) with (- (B2R s - 0)) by ring. now rewrite Rabs_Ropp. }
  assert (Fs' : is_finite (fneg s) = true) by now rewrite fneg_fin.
  destruct (fsub_err p (fofZ p 1) c 1 F1 Fc) as [Fk Ek]; [rewrite V1; apply Rabs_both in C1; apply Rabs_le; lra|lra|].
  destruct (fsub_R p (fofZ p 1) c F1 Fc) as [Rk _]. { rewrite V1. pose proof (four_fbig p). apply Rabs_both in C1. apply Rabs_le. lra. }
  rewrite V1 in Rk. set (k := fsub (fofZ p 1) c) in *.
  assert (Kk : Rabs (B2R k) <= (2 + / 50) * u).
  { pose proof (rnd_err_le p (1 - B2R c)) as R. rewrite <- Rk in R. fold u in R.
    assert (X : Rabs (1 - B2R c) <= (2 + / 100) * u) by (rewrite <- Rabs_Ropp; replace (- (1 - B2R c)) with (B2R c - 1) by ring; exact C1).
    assert (u * Rabs (1 - B2R c) <= u * ((2 + / 100) * u)) by (apply Rmult_le_compat_l; lra).
    replace (B2R k) with ((B2R k - (1 - B2R c)) + (1 - B2R c)) by ring. eapply Rle_trans; [apply Rabs_triang|]. lra. }
  assert (KM : forall (x : fl p), is_finite x = true -> Rabs (B2R x) <= 5/2 -> is_finite (fmul k x) = true /\ Rabs (B2R (fmul k x) - 0) <= 6 * u).
  { intros x Fx' Hx. assert (PB : Rabs (B2R k * B2R x) <= (2 + / 50) * u * (5/2)) by (rewrite Rabs_mult; apply Rmult_le_compat; try apply Rabs_pos; assumption).
    destruct (fmul_R p k x Fk Fx') as [R Fr]. { pose proof (four_fbig p). lra. }
    split; [exact Fr|]. rewrite R, Rminus_0_r. pose proof (rnd_err_le p (B2R k * B2R x)) as Re. fold u in Re.
    assert (u * Rabs (B2R k * B2R x) <= u * ((2 + / 50) * u * (5/2))) by (apply Rmult_le_compat_l; lra).
    replace (rnd p (B2R k * B2R x)) with ((rnd p (B2R k * B2R x) - B2R k * B2R x) + B2R k * B2R x) by ring. eapply Rle_trans; [apply Rabs_triang|]. lra. }
  destruct (KM _ Fx GX) as [Fkx Ekx]. destruct (KM _ Fy GY) as [Fky Eky]. destruct (KM _ Fz GZ) as [Fkz Ekz]. clear KM.
  assert (EN : forall t (kk c0 a b : fl p) C A dc, order 2 t -> is_finite kk = true -> is_finite c0 = true -> is_finite a = true -> is_finite b = true ->
    Rabs (B2R kk - 0) <= 6 * u -> Rabs (B2R c0 - C) <= dc -> Rabs C <= A -> Rabs (B2R a) <= 5/2 -> Rabs (B2R b) <= 5/2 -> 0 <= A -> 0 <= dc <= 12 * u -> A * 4 + dc <= 12 * u \/ (A = 1 /\ dc <= 3 * u) ->
    is_finite (fdot t [kk; c0] [a; b]) = true /\ Rabs (B2R (fdot t [kk; c0] [a; b]) - C * B2R b) <= 47 * u).
  { intros t kk c0 a' b' C A dc O' f1 f2 f3 f4 h1 h2 h3 h4 h5 hA hd hh.
    assert (A1 : A <= 1) by (destruct hh as [hh|[hh _]]; lra).
    destruct (aa_entry p t kk c0 a' b' 0 C (B2R a') (B2R b') 0 A (5/2) (6 * u) dc 0 0 O' f1 f2 f3 f4 h1 h2) as [F E]; try assumption; try lra.
    - rewrite Rminus_diag_eq, Rabs_R0 by reflexivity. lra.
    - rewrite Rminus_diag_eq, Rabs_R0 by reflexivity. lra.
    - rewrite Rabs_R0; lra.
    - split; [exact F|]. rewrite Rmult_0_l, Rplus_0_l in E. eapply Rle_trans; [exact E|]. fold u.
      assert (Y : u * dc <= u * (12 * u)) by (apply Rmult_le_compat_l; lra). destruct hh as [hh|[-> hh]].
      + assert (u * A <= u * (3 * u)) by (apply Rmult_le_compat_l; lra). lra.
      + lra. }
  assert (SC : forall t (kk c0 a b : fl p), order 2 t -> is_finite kk = true -> is_finite c0 = true -> is_finite a = true -> is_finite b = true ->
    Rabs (B2R kk - 0) <= 6 * u -> Rabs (B2R c0 - 0) <= 12 * u -> Rabs (B2R a) <= 5/2 -> Rabs (B2R b) <= 5/2 ->
    is_finite (fdot t [kk; c0] [a; b]) = true /\ Rabs (B2R (fdot t [kk; c0] [a; b]) - 0) <= 47 * u).
  { intros t kk c0 a' b' O' f1 f2 f3 f4 h1 h2 h4 h5. destruct (EN t kk c0 a' b' 0 0 (12 * u) O' f1 f2 f3 f4 h1 h2) as [F E]; try assumption; try (rewrite ?Rabs_R0; lra). rewrite Rmult_0_l in E. split; assumption. }
  assert (G1 : Rabs (B2R (fofZ p 1)) <= 5/2) by (rewrite V1, Rabs_R1; lra).
  assert (DC : forall t (kk a : fl p), order 2 t -> is_finite kk = true -> is_finite a = true ->
    Rabs (B2R kk - 0) <= 6 * u -> Rabs (B2R a) <= 5/2 ->
    is_finite (fdot t [kk; c] [a; fofZ p 1]) = true /\ Rabs (B2R (fdot t [kk; c] [a; fofZ p 1]) - 1) <= 47 * u).
  { intros t kk a' O' f1 f3 h1 h4. destruct (EN t kk c a' (fofZ p 1) 1 1 ((2 + / 100) * u) O' f1 Fc f3 F1 h1 C1) as [F E]; try assumption; try (right; lra); try (rewrite ?Rabs_R1; lra). rewrite V1, Rmult_1_l in E. split; assumption. }
  destruct (DC _ _ _ O00 Fkx Fx Ekx GX) as [f00 e00]. destruct (DC _ _ _ O11 Fky Fy Eky GY) as [f11 e11]. destruct (DC _ _ _ O22 Fkz Fz Ekz GZ) as [f22 e22].
  destruct (SC _ _ _ _ _ O01 Fkx Fs' Fy Fz Ekx S1' GY GZ) as [f01 e01].
  destruct (SC _ _ _ _ _ O02 Fkx Fs Fz Fy Ekx S1 GZ GY) as [f02 e02].
  destruct (SC _ _ _ _ _ O10 Fkx Fs Fy Fz Ekx S1 GY GZ) as [f10 e10].
  destruct (SC _ _ _ _ _ O12 Fky Fs' Fz Fx Eky S1' GZ GX) as [f12 e12].
  destruct (SC _ _ _ _ _ O20 Fkx Fs' Fz Fy Ekx S1' GZ GY) as [f20 e20].
  destruct (SC _ _ _ _ _ O21 Fky Fs Fz Fx Eky S1 GZ GX) as [f21 e21].
  clear EN SC DC. split. { unfold fmat_of_aa. repeat split; assumption. }
  apply close_mono with (49/16 * (47 * u)); [lra|]. unfold fmat_of_aa, mid. 
  apply entries_close; cbn [mval r0 r1 r2 gx gy gz m00 m01 m02 m10 m11 m12 m20 m21 m22]; fold s c k; assumption.
Qed.

Lemma held_mat p L c (s : fsource p) T : libm_ok L -> build_ok c -> T <= 655/100 -> object_ok T s ->
  mfinite (fmat_of L c s) /\ close (380 * fu p) (mval (fmat_of L c s)) (turns s).
Proof.
  intros HL HC HT H. pose proof (fu_pos p) as U.
  destruct (held_quat p L c s T HL HC HT H) as (F & e & E1 & E2 & E3). pose proof HC as (_ & _ & _ & _ & OR & OA).
  assert (Q : mfinite (ftoRot (b_rot c) (fquat_of L c s)) /\ close (380 * fu p) (mval (ftoRot (b_rot c) (fquat_of L c s))) (turns s)).
  { destruct (ftoRot_wide p (b_rot c) _ e (33 + 2/10) OR F E1 ltac:(lra) E3) as [X Y]. split; [exact X|]. rewrite <- E2. eapply close_mono; [|exact Y]. lra. }
  destruct s as [a n|v|z y x|x y z]; try exact Q. clear Q. cbn [object_ok fmat_of] in *. destruct H as (Fa & Fn & Ha & AO). pose proof (axis_pos _ _ _ AO) as PN.
  destruct AO as [K|[K1 K2]].
  - rewrite roundoff_fu in K. destruct (axis_unit (vval n) (20 * fu p) K ltac:(pose proof (fu_24 p); lra)) as (_ & X & D).
    destruct (fmat_of_aa_err p L _ a n _ 20 HL OA Fa Fn X ltac:(lra) D) as [F' C]. split; [exact F'|]. eapply close_mono; [|exact C]. lra.
  - rewrite roundoff_fu in K1. destruct (fmat_of_aa_tiny p L _ a n HL OA Fa Fn K1 K2) as [F' C]. split; [exact F'|].
    rewrite turns_aa by exact PN. set (e0 := vscale (/ vnorm (vval n)) (vval n)). assert (NE : vnorm2 e0 = 1) by (apply vdir_unit, PN).
    eapply close_mono; [|eapply close_trans; [exact C|rewrite <- quat_rot_id; apply close_sym, from_qdist; [apply half_quat_qnorm, NE|apply qnorm_qid|apply half_quat_small, NE]]]. lra.
Qed.

(** construction of a quaternion from an object of any class *)
Lemma oquat_ok p L c T A (x : fobject p) r : libm_ok L -> choices6_ok c -> T <= 655/100 -> stands T A x r -> conv_limit p (okind_of x) KQuat A ->
  exists r', stands T (conv_defect (okind_of x) KQuat A) (OQuat (oquat L c x)) r' /\ close (conv_roundings (okind_of x) KQuat A * fu p) r' r.
Proof.
  intros HL (HC & _ & HT & _) TT H LIM. pose proof (fu_pos p) as U. pose proof (fu_24 p) as V. pose proof (stands_nonneg _ _ _ _ _ H) as A0.
  destruct x as [q|m|s]; cbn [stands okind_of conv_defect conv_roundings conv_limit oquat] in *; rewrite ?roundoff_fu in *.
  - exists r. split; [exact H|]. apply close_refl. lra.
  - destruct H as (F & S & C). destruct (fquat_of_mat_err p _ m r (A * fu p) HT F S C LIM) as (Fq & e & E1 & E2 & E3).
    destruct (near_unit p (fquat_of_mat (c6_trace c) m) e (3 * A + 14) E1) as (N1 & N2 & N3); [lra|lra|].
    exists (quat_rot (direction (qval (fquat_of_mat (c6_trace c) m)))). split; [repeat split; try apply Fq; exact N1|]. rewrite <- E2. eapply close_mono; [|exact N3].
    apply Rmult_le_compat_r; lra.
  - destruct H as (O & <-). destruct HC as (HB & HE & HM). destruct (held_quat p L _ s T HL HB TT O) as (F & e & E1 & E2 & E3).
    destruct (near_unit p _ e (33 + 2/10) E1 E3 ltac:(lra)) as (N1 & N2 & N3).
    exists (quat_rot (direction (qval (fquat_of L (ch_build (c6_src c)) s)))). split; [repeat split; try apply F; lra|]. rewrite <- E2. eapply close_mono; [|exact N3]. lra.
Qed.
(** construction of a matrix *)
Lemma omat_ok p L c T A (x : fobject p) r : libm_ok L -> choices6_ok c -> T <= 655/100 -> stands T A x r -> conv_limit p (okind_of x) KMat A ->
  stands T (conv_defect (okind_of x) KMat A) (OMat (omat L c x)) r.
Proof.
  intros HL ((HB & HE & HM) & _) TT H LIM. pose proof (fu_pos p) as U.
  destruct x as [q|m|s]; cbn [stands okind_of conv_defect conv_limit omat] in *; rewrite ?roundoff_fu in *.
  - destruct H as (F & N & <-). destruct (unit_near p q A F N ltac:(lra)) as (P & _). pose proof HB as (_ & _ & _ & _ & OR & _).
    destruct (ftoRot_close p (b_rot (ch_build (c6_src c))) q OR F ltac:(lra)) as [X Y]. split; [exact X|]. split; [now apply direction_SO3|]. eapply close_mono; [|exact Y]. lra.
  - exact H.
  - destruct H as (O & <-). destruct (held_mat p L _ s T HL HB TT O) as [X Y]. split; [exact X|]. split; [apply (object_SO3 _ _ _ O)|exact Y].
Qed.
(** construction of an object of any class *)
Lemma oconvert_ok p L c k T A (x : fobject p) r : libm_ok L -> choices6_ok c -> 64/10 <= T <= 655/100 -> stands T A x r -> conv_limit p (okind_of x) k A ->
  okind_of (oconvert L c k x) = k /\
  exists r', stands (T + 160 * fu p) (conv_defect (okind_of x) k A) (oconvert L c k x) r' /\ close (conv_error p (okind_of x) k A) r' r.
Proof.
  intros HL HC TT H LIM. pose proof (fu_pos p) as U. pose proof (fu_24 p) as V. unfold conv_error. rewrite roundoff_fu.
  destruct k as [| |k].
  - assert (E : oconvert L c KQuat x = OQuat (oquat L c x)) by (destruct x; reflexivity). rewrite E. split; [reflexivity|].
    destruct (oquat_ok p L c T A x r HL HC ltac:(lra) H LIM) as (r' & X & Y). exists r'. split; [exact X|]. eapply close_mono; [|exact Y]. unfold conv_drop. destruct x; cbn [okind_of]; lra.
  - assert (E : oconvert L c KMat x = OMat (omat L c x)) by (destruct x; reflexivity). rewrite E. split; [reflexivity|].
    exists r. split; [exact (omat_ok p L c T A x r HL HC ltac:(lra) H LIM)|]. apply close_refl. destruct x; cbn [okind_of conv_drop conv_roundings]; lra.
  - pose proof (stands_nonneg _ _ _ _ _ H) as A0. pose proof HC as ((HB & HE & HM) & _ & HT & _).
    destruct x as [q|m|s]; cbn [stands okind_of oconvert conv_limit conv_defect conv_roundings conv_drop] in *; rewrite ?roundoff_fu, ?Rplus_0_r in *.
    + destruct H as (F & N & <-). assert (LL : A <= 1200) by (destruct k; cbn [extract_limit] in LIM; lra).
      assert (A * fu p <= 1200 * fu p) by (apply Rmult_le_compat_r; lra). destruct (unit_near p q A F N ltac:(lra)) as (P1 & P2 & P3).
      destruct (extract_ok p L _ k q _ A HL HE F P2 ltac:(lra) P3) as (X & Y & Z). split; [now f_equal|]. eexists. split; [split; [apply (object_wider p (64/10)); [lra|exact Y]|reflexivity]|exact Z].
    + destruct H as (F & S & C). assert (LL : 3 * A + 14 <= 1200) by (destruct k; cbn [extract_limit] in LIM; lra).
      assert (A * fu p <= 400 * fu p) by (apply Rmult_le_compat_r; lra).
      destruct (fquat_of_mat_err p _ m r (A * fu p) HT F S C ltac:(lra)) as (Fq & e & E1 & E2 & E3).
      destruct (extract_ok p L (ch_ext (c6_src c)) k (fquat_of_mat (c6_trace c) m) e (3 * A + 14) HL HE Fq E1 ltac:(lra) ltac:(lra)) as (X & Y & Z). split; [unfold fsource_of_mat; now f_equal|].
      eexists. split; [split; [apply (object_wider p (64/10)); [lra|exact Y]|reflexivity]|]. rewrite <- E2. exact Z.
    + destruct H as (O & <-). destruct (convert_ok p L _ _ k s T HL HB HE TT O) as (X & Y & Z). split; [now f_equal|]. eexists. split; [split; [exact Y|reflexivity]|].
      exact Z.
Qed.
(** products *)
Lemma joint_bound p A B : 0 <= A -> 0 <= B -> A * fu p <= / 100 -> B * fu p <= / 100 -> A * fu p + B * fu p + A * fu p * (B * fu p) + 10 * fu p <= joint A B * fu p.
Proof.
  intros A0 B0 HA HB. pose proof (fu_pos p) as U. unfold joint. assert (0 <= A * fu p) by (apply Rmult_le_pos; lra). assert (0 <= B * fu p) by (apply Rmult_le_pos; lra).
  assert (A * fu p * (B * fu p) <= Rmin A B / 100 * fu p); [|lra]. unfold Rmin. destruct (Rle_dec A B).
  - apply Rle_trans with (A * fu p * / 100); [apply Rmult_le_compat_l; lra|lra].
  - apply Rle_trans with (/ 100 * (B * fu p)); [apply Rmult_le_compat_r; lra|lra].
Qed.
Lemma oqmult_ok p o T A B (a b : FQ p) ra rb : orders4_ok o -> stands T A (OQuat a) ra -> stands T B (OQuat b) rb -> A * fu p <= / 100 -> B * fu p <= / 100 ->
  exists r', stands T (qjoint A B) (OQuat (fmult o a b)) r' /\ close (20 * fu p) r' (mmul ra rb).
Proof.
  intros O HA HB LA LB. pose proof (fu_pos p) as U. pose proof (fu_24 p) as V. pose proof (stands_nonneg _ _ _ _ _ HA) as A0. pose proof (stands_nonneg _ _ _ _ _ HB) as B0. cbn [stands] in *. rewrite roundoff_fu in *.
  destruct HA as (Fa & Na & <-). destruct HB as (Fb & Nb & <-).
  destruct (unit_near p a A Fa Na ltac:(lra)) as (Pa & Da & _). destruct (unit_near p b B Fb Nb ltac:(lra)) as (Pb & Db & _).
  destruct (product_step p o a b O Fa Fb ltac:(lra) ltac:(lra)) as (F & N & D).
  assert (JB : A * fu p + B * fu p + A * fu p * (B * fu p) + (9 + 2/10) * fu p <= qjoint A B * fu p) by (pose proof (joint_bound p A B A0 B0 LA LB) as JB; unfold joint in JB; unfold qjoint; lra).
  assert (N9 : Rabs (qnorm (qval (fmult o a b)) - qnorm (qval a) * qnorm (qval b)) <= (9 + 2/10) * fu p).
  { pose proof (Rabs_both _ _ Na) as Ba. pose proof (Rabs_both _ _ Nb) as Bb. pose proof (underflow_u5 p) as Z. pose proof (qn_nonneg (qval a)). pose proof (qn_nonneg (qval b)).
    assert (K : qnorm (qval a) * qnorm (qval b) <= 101/100 * (101/100)) by (apply Rmult_le_compat; lra).
    destruct (fmult_err p o a b O Fa Fb) as [_ E]. { apply Rle_trans with (bpow radix2 1); [cbn; lra|apply bpow_le; lia]. }
    pose proof (qdist_norm (qval (fmult o a b)) (hamilton (qval a) (qval b))) as X. rewrite hamilton_qnorm in X. eapply Rle_trans; [exact X|]. eapply Rle_trans; [exact E|].
    assert (9 * fu p * (qnorm (qval a) * qnorm (qval b)) <= 9 * fu p * (101/100 * (101/100))) by (apply Rmult_le_compat_l; lra). lra. }
  assert (NN : Rabs (qnorm (qval (fmult o a b)) - 1) <= qjoint A B * fu p).
  { set (na := qnorm (qval a)) in *. set (nb := qnorm (qval b)) in *.
    replace (qnorm (qval (fmult o a b)) - 1) with ((qnorm (qval (fmult o a b)) - na * nb) + ((na - 1) + (nb - 1) + (na - 1) * (nb - 1))) by ring.
    eapply Rle_trans; [apply Rabs_triang|]. eapply Rle_trans; [apply Rplus_le_compat_l, Rabs_triang|]. rewrite Rabs_mult.
    assert (Rabs (na - 1) * Rabs (nb - 1) <= A * fu p * (B * fu p)) by (apply Rmult_le_compat; try apply Rabs_pos; assumption).
    pose proof (Rabs_triang (na - 1) (nb - 1)). lra. }
  assert (PP : 0 < qnorm (qval (fmult o a b))).
  { apply Rabs_both in N. apply Rabs_both in Na. apply Rabs_both in Nb. assert (98/100 * (98/100) <= qnorm (qval a) * qnorm (qval b)) by (apply Rmult_le_compat; lra). lra. }
  exists (quat_rot (direction (qval (fmult o a b)))). split; [repeat split; try apply F; exact NN|].
  rewrite <- quat_rot_hamilton. eapply close_mono; [|apply from_qdist; [now apply direction_norm| |exact D]]; [lra|].
  rewrite hamilton_qnorm, Da, Db. ring.
Qed.
Lemma oproduct_ok p L c T A B (l r : fobject p) rl rr : libm_ok L -> choices6_ok c -> 64/10 <= T <= 655/100 -> stands T A l rl -> stands T B r rr ->
  prod_limit p (okind_of l) (okind_of r) A B -> SO3 rl -> SO3 rr ->
  okind_of (oproduct L c l r) = okind_of l /\
  exists r', stands (T + 160 * fu p) (prod_defect (okind_of l) (okind_of r) A B) (oproduct L c l r) r' /\ close (prod_error p (okind_of l) (okind_of r) A B) r' (mmul rl rr).
Proof.
  intros HL HC TT Hl Hr LIM Sl Sr. pose proof (fu_pos p) as U.
  assert (G : conv_limit p (okind_of l) KQuat A -> conv_limit p (okind_of r) KQuat B -> conv_limit p KQuat (okind_of l) (qprod_defect (okind_of l) (okind_of r) A B) ->
    conv_defect (okind_of l) KQuat A * fu p <= / 100 -> conv_defect (okind_of r) KQuat B * fu p <= / 100 ->
    let x := oconvert L c (okind_of l) (OQuat (fmult (ch_mul (c6_src c)) (oquat L c l) (oquat L c r))) in
    okind_of x = okind_of l /\ exists r', stands (T + 160 * fu p) (conv_defect KQuat (okind_of l) (qprod_defect (okind_of l) (okind_of r) A B)) x r' /\
      close (qprod_roundings (okind_of l) (okind_of r) A B * fu p + conv_error p KQuat (okind_of l) (qprod_defect (okind_of l) (okind_of r) A B)) r' (mmul rl rr)).
  { intros L1 L2 L3 L4 L5 x. destruct (oquat_ok p L c T A l rl HL HC ltac:(lra) Hl L1) as (r1 & X1 & Y1). destruct (oquat_ok p L c T B r rr HL HC ltac:(lra) Hr L2) as (r2 & X2 & Y2).
    assert (S1 : SO3 r1) by (apply (stands_SO3 _ _ _ _ _ X1); intros _; lra). assert (S2 : SO3 r2) by (apply (stands_SO3 _ _ _ _ _ X2); intros _; lra).
    pose proof HC as ((_ & _ & HM) & _).
    destruct (oqmult_ok p (ch_mul (c6_src c)) T _ _ _ _ r1 r2 HM X1 X2 L4 L5) as (r3 & X3 & Y3).
    destruct (oconvert_ok p L c (okind_of l) T _ _ r3 HL HC TT X3 L3) as (K & r4 & X4 & Y4). split; [exact K|]. exists r4. split; [exact X4|].
    pose proof (close_mul_r _ _ _ _ S2 Y1) as Z1. pose proof (close_mul_l _ _ _ _ Sl Y2) as Z2.
    eapply close_mono; [|exact (close_trans _ _ _ _ _ Y4 (close_trans _ _ _ _ _ Y3 (close_trans _ _ _ _ _ Z1 Z2)))].
    unfold qprod_roundings. unfold qprod_defect. cbn [okind_of]. lra. }
  destruct l as [ql|ml|sl]; cbn [okind_of] in *; try (destruct LIM as (L1 & L2 & L3 & L4 & L5); rewrite roundoff_fu in L4, L5; unfold prod_error; rewrite roundoff_fu; exact (G L1 L2 L3 L4 L5)).
  destruct r as [qr|mr|sr]; cbn [okind_of] in *; try (destruct LIM as (L1 & L2 & L3 & L4 & L5); rewrite roundoff_fu in L4, L5; unfold prod_error; rewrite roundoff_fu; exact (G L1 L2 L3 L4 L5)).
  clear G. cbn [oproduct prod_defect prod_error prod_limit okind_of] in *. split; [reflexivity|]. exists (mmul rl rr). split; [|apply close_refl; lra].
  pose proof (stands_nonneg _ _ _ _ _ Hl) as A0. pose proof (stands_nonneg _ _ _ _ _ Hr) as B0. cbn [stands] in *. rewrite roundoff_fu in *.
  destruct Hl as (Fl & _ & Cl). destruct Hr as (Fr & _ & Cr). destruct LIM as [LA LB]. destruct HC as (_ & OM & _).
  destruct (minv_product p (c6_mm c) ml mr rl rr _ _ OM Fl Fr Sl Sr Cl Cr ltac:(lra) ltac:(lra)) as [F C]. split; [exact F|]. split; [now apply SO3_mmul|].
  eapply close_mono; [|exact C]. apply joint_bound; assumption.
Qed.
Lemma oinverted_ok p L c T A (x : fobject p) r : libm_ok L -> choices6_ok c -> 64/10 <= T <= 655/100 -> stands T A x r ->
  okind_of (oinverted L c x) = okind_of x /\
  exists r', stands T A (oinverted L c x) r' /\ close (match okind_of x with KSrc _ => 4200 * fu p | _ => 0 end) r' (mtrans r).
Proof.
  intros HL HC TT H. destruct x as [q|m|s]; cbn [oinverted okind_of stands] in *; rewrite ?roundoff_fu in *.
  - split; [reflexivity|]. destruct H as (F & N & <-). eexists. split; [split; [now apply fconj_fin|]; rewrite fconj_val, qnorm_conj; split; [exact N|reflexivity]|].
    rewrite direction_conj, quat_rot_conj. apply close_refl. lra.
  - split; [reflexivity|]. destruct H as (F & S & C). exists (mtrans r). split; [|apply close_refl; lra]. split; [now apply ftrans_fin|]. split; [now apply SO3_trans|]. rewrite ftrans_val. now apply close_trans_mat.
  - destruct H as (O & <-). destruct HC as ((HB & HE & HM) & _). destruct (inverted_ok p L _ _ s T HL HB HE TT O) as (X & Y & Z). split; [now f_equal|]. eexists. split; [split; [exact Y|reflexivity]|exact Z].
Qed.
Lemma oidentity_ok p T k : 0 <= T -> okind_of (@oidentity p k) = k /\ stands T 0 (@oidentity p k) mid.
Proof.
  intro HT. destruct (fofZ1 p) as [F1 V1]. destruct k as [| |k]; cbn [oidentity okind_of stands]; rewrite ?roundoff_fu, ?Rmult_0_l.
  - split; [reflexivity|]. assert (E : qval (@fqid p) = qid). { unfold qval, fqid; cbn [fw fx fy fz]. rewrite V1. reflexivity. }
    rewrite E, qnorm_qid. split; [repeat split; exact F1|]. split; [rewrite Rminus_diag_eq, Rabs_R0 by reflexivity; lra|].
    rewrite direction_unit by apply qnorm_qid. apply quat_rot_id.
  - split; [reflexivity|]. split; [repeat split; exact F1|]. split; [apply SO3_mid|]. replace (mval (@fmid p)) with mid; [apply close_refl; lra|].
    unfold mval, fmid, mid; cbn [r0 r1 r2 gx gy gz]. rewrite V1. reflexivity.
  - destruct (object_identity p T k HT) as (A & B & C). split; [now f_equal|]. split; assumption.
Qed.
