(** Claims about poses with a rotation of any class in floating-point arithmetic (C90). *)
From Coq Require Import ZArith Reals Lra Psatz Bool List Lia.
From Flocq Require Import IEEE754.BinarySingleNaN Core.Core.
From Verif Require Import Linalg Spec SpecFacts SpecClose ModelCommon ModelEigen CommonFacts CloseFacts ModelRotation
  FloatModel FloatFacts FloatWrap FloatModel2 SpecFloatQ FloatQFacts FloatQProd FloatQHist FloatQRot FloatMHist FloatCast FloatModel3 SpecLibm SpecBuild FloatBuild FloatBuild4 FloatModel4 FloatExt3 SpecExt FloatModel5 SpecPoseF FloatPose FloatModel6 FloatModel7 SpecSix FloatSix FloatFix FloatModel8 SpecMotion SpecBox FloatBox FloatDiff3 Claims16 Claims18 Claims19 Claims22 Claims30 FloatModel18 SpecPoseSix.
Import ListNotations.
Local Open Scope R_scope.

Lemma vdist_tri a b c : vdist a c <= vdist a b + vdist b c.
Proof. unfold vdist. replace (vsub a c) with (vadd (vsub a b) (vsub b c)) by (unfold vsub, vadd; cbn [Linalg.vx Linalg.vy Linalg.vz]; f_equal; ring). apply vnorm_triang. Qed.
Lemma vdist_add a b c d : vdist (vadd a b) (vadd c d) <= vdist a c + vdist b d.
Proof. unfold vdist. replace (vsub (vadd a b) (vadd c d)) with (vadd (vsub a c) (vsub b d)) by (unfold vsub, vadd; cbn [Linalg.vx Linalg.vy Linalg.vz]; f_equal; ring). apply vnorm_triang. Qed.
Lemma vnorm_of_dist a b e : vdist a b <= e -> vnorm a <= vnorm b + e.
Proof. intro H. pose proof (vnorm_le_add _ _ _ H). lra. Qed.
Lemma shifted p (a b : FV p) x y ea eb : vfinite a -> vfinite b -> vdist (vval a) x <= ea -> vdist (vval b) y <= eb -> vnorm x + vnorm y + ea + eb <= bpow radix2 100 ->
  vfinite (fvadd a b) /\ vdist (vval (fvadd a b)) (vadd x y) <= (1 + fu p) * (ea + eb) + fu p * vnorm (vadd x y).
Proof.
  intros Fa Fb Da Db N. pose proof (vnorm_triang x y) as T. pose proof (Rle_trans _ _ _ (vdist_add (vval a) (vval b) x y) (Rplus_le_compat _ _ _ _ Da Db)) as D.
  pose proof (vnorm_of_dist _ _ _ D) as B. destruct (fvadd_err p a b Fa Fb ltac:(lra)) as [F E]. split; [exact F|]. pose proof (fu_pos p) as U.
  eapply Rle_trans; [apply (vdist_tri _ (vadd (vval a) (vval b)))|]. assert (fu p * vnorm (vadd (vval a) (vval b)) <= fu p * (vnorm (vadd x y) + (ea + eb))) by (apply Rmult_le_compat_l; lra). lra.
Qed.
Lemma pow90 : bpow radix2 100 = 1024 * 2 ^ 90 /\ 1 <= 2 ^ 90 /\ 2 ^ 100 = 1024 * 2 ^ 90.
Proof. split; [rewrite b100; replace (2 ^ 100) with (2 ^ 10 * 2 ^ 90) by (rewrite <- pow_add; reflexivity); lra|]. split; [apply pow_R1_Rle; lra|]. replace (2 ^ 100) with (2 ^ 10 * 2 ^ 90) by (rewrite <- pow_add; reflexivity); lra. Qed.
Lemma defect_small p k A : A * fu p <= / 100 -> rotate_roundings k A * fu p <= / 10.
Proof. intro H. pose proof (fu_24 p). pose proof (fu_pos p). unfold rotate_roundings. destruct k; cbn [conv_defect]; lra. Qed.
Lemma uflow_small p : 0 <= underflow p <= / 1000.
Proof. rewrite underflow_eta. pose proof (eta_pos p). pose proof (eta_u7 p). pose proof (fu_24 p). pose proof (fu_pos p). lra. Qed.
Lemma mvmul_dist r a b : SO3 r -> vdist (mvmul r a) (mvmul r b) = vdist a b.
Proof. intro S. unfold vdist. replace (vsub (mvmul r a) (mvmul r b)) with (mvmul r (vsub a b)) by (destruct a as [a1 a2 a3], b as [b1 b2 b3]; unfold mvmul, vsub; cbn [Linalg.vx Linalg.vy Linalg.vz]; f_equal; ring). apply (SO3_vnorm _ _ S). Qed.
Lemma stands_rot p T A (x : fobject p) r : stands T A x r -> A * fu p <= / 100 -> SO3 r.
Proof. intros H AU. apply (stands_SO3 _ _ _ _ _ H). intros _. lra. Qed.
Lemma rotate_near p L c o (x : fobject p) r T A v w e : libm_ok L -> choices6_ok c -> orders3_ok 3 3 3 o -> T <= 655/100 -> stands T A x r -> A * fu p <= / 100 ->
  vfinite v -> vdist (vval v) w <= e -> vnorm w + e <= 2 ^ 100 -> 0 <= rotate_roundings (okind_of x) A ->
  vfinite (orotate L c o x v) /\ vdist (vval (orotate L c o x v)) (mvmul r w) <= rotate_roundings (okind_of x) A * fu p * (vnorm w + e) + underflow p + e.
Proof.
  intros HL HC HO HT H AU Fv D N D0. pose proof (fu_pos p) as U. pose proof (vnorm_of_dist _ _ _ D) as NV.
  destruct (C74_rotate_lemma p L c o x r T A v HL HC HO HT H ltac:(rewrite roundoff_fu; exact AU) Fv ltac:(lra)) as [F E]. rewrite roundoff_fu in E. split; [exact F|].
  eapply Rle_trans; [apply (vdist_tri _ (mvmul r (vval v)))|]. rewrite (mvmul_dist r _ _ (stands_rot _ _ _ _ _ H AU)). fold (rotate_roundings (okind_of x) A) in E.
  assert (rotate_roundings (okind_of x) A * fu p * vnorm (vval v) <= rotate_roundings (okind_of x) A * fu p * (vnorm w + e)) by (apply Rmult_le_compat_l; [apply Rmult_le_pos; lra|exact NV]). lra.
Qed.
Lemma stands_pos p T A (x : fobject p) r : stands T A x r -> 0 <= A * fu p \/ exists s, x = OSrc s.
Proof.
  destruct x as [q|m|s]; cbn [stands]; rewrite ?roundoff_fu; [| |intros _; right; now exists s].
  - intros (_ & N & _). left. eapply Rle_trans; [apply Rabs_pos|exact N].
  - intros (_ & _ & C). left. specialize (C (mkV3 1 0 0)). replace (vnorm (mkV3 1 0 0)) with 1 in C. 2:{ unfold vnorm, vnorm2, vdot; cbn [Linalg.vx Linalg.vy Linalg.vz]. replace (1 * 1 + 0 * 0 + 0 * 0) with 1 by ring. now rewrite sqrt_1. }
    rewrite Rmult_1_r in C. eapply Rle_trans; [apply sqrt_pos|exact C].
Qed.
Lemma roundings_pos p T A (x : fobject p) r : stands T A x r -> 0 <= rotate_roundings (okind_of x) A.
Proof.
  intro H. pose proof (fu_pos p) as U. unfold rotate_roundings. destruct (stands_pos _ _ _ _ _ H) as [P|[s ->]].
  - assert (A0 : 0 <= A) by (apply Rmult_le_reg_r with (fu p); [exact U|lra]). destruct x; cbn [okind_of conv_defect]; lra.
  - cbn [okind_of conv_defect]. lra.
Qed.

(** C90: transform() of a pose with a rotation of any of the six classes. If the pose
    stands for the rigid motion g with a defect of A roundings in the rotation and an
    error E in the position, the result is within 1.1 (D roundings of |v| + E) plus one
    rounding of |v| + |position| of the exact one, where D is the error of rotate(). *)
Lemma C90_transform_lemma : forall (p : prim) (L : libm) (c : choices6) (o : orders3) (x : opose p) (g : rigid) (T A E : R) (v : FV p),
  libm_ok L -> choices6_ok c -> orders3_ok 3 3 3 o -> 64/10 <= T <= 655/100 -> pose_stands T A E x g -> A * roundoff p <= / 100 ->
  vfinite v -> vnorm (vval v) <= 2 ^ 90 -> vnorm (rg_pos g) <= 2 ^ 90 -> E <= 2 ^ 90 ->
  let w := otransform L c o x v in let D := rotate_roundings (okind_of (op_rot x)) A in
  vfinite w /\ vdist (vval w) (rigid_act g (vval v)) <= 11/10 * (D * roundoff p * vnorm (vval v) + E + underflow p) + roundoff p * (vnorm (vval v) + vnorm (rg_pos g)).
Proof.
  intros p L c o x g T A E v HL HC HO HT (H & Fp & Dp) AU Fv Nv Ng NE. cbv zeta. rewrite (roundoff_fu p) in *. pose proof (fu_pos p) as U. pose proof (fu_24 p) as U24. destruct pow90 as (P1 & P2 & P3). pose proof (uflow_small p) as UF.
  pose proof (roundings_pos _ _ _ _ _ H) as D0. pose proof (defect_small p (okind_of (op_rot x)) A AU) as DS. set (D := rotate_roundings (okind_of (op_rot x)) A) in *. pose proof (vn_nonneg (vval v)) as V0.
  assert (Z : vdist (vval v) (vval v) <= 0). { unfold vdist. replace (vsub (vval v) (vval v)) with vzero by (unfold vsub, vzero; f_equal; ring). unfold vnorm, vnorm2, vdot, vzero; cbn [Linalg.vx Linalg.vy Linalg.vz]. replace (0 * 0 + 0 * 0 + 0 * 0) with 0 by ring. rewrite sqrt_0. lra. }
  destruct (rotate_near p L c o (op_rot x) (rg_rot g) T A v (vval v) 0 HL HC HO ltac:(lra) H AU Fv Z ltac:(lra) D0) as [F1 E1]. fold D in E1. rewrite !Rplus_0_r in E1.
  pose proof (stands_rot _ _ _ _ _ H AU) as S. assert (DV : 0 <= D * fu p * vnorm (vval v) <= / 10 * vnorm (vval v)) by (split; [apply Rmult_le_pos; [apply Rmult_le_pos; lra|lra]|apply Rmult_le_compat_r; lra]).
  destruct (shifted p (orotate L c o (op_rot x) v) (op_pos x) _ _ _ _ F1 Fp E1 Dp) as [F2 E2]; [rewrite (SO3_vnorm _ _ S); lra|]. split; [exact F2|].
  unfold rigid_act. unfold otransform. eapply Rle_trans; [exact E2|]. pose proof (vnorm_triang (mvmul (rg_rot g) (vval v)) (rg_pos g)) as T1. rewrite (SO3_vnorm _ _ S) in T1.
  assert (E0 : 0 <= E) by (eapply Rle_trans; [apply vn_nonneg|exact Dp]).
  apply Rplus_le_compat; [|apply Rmult_le_compat_l; lra]. replace (D * fu p * vnorm (vval v) + E + underflow p) with (D * fu p * vnorm (vval v) + underflow p + E) by ring. apply Rmult_le_compat_r; lra.
Qed.
Definition g212 (r : M33) : rigid := mkRigid r (mkV3 2 1 2).
Lemma pose212 (x : fobject F32) r A : stands (64/10) A x r -> pose_stands (64/10) A 0 (mkOPose fvec212 x) (g212 r).
Proof.
  intro H. split; [exact H|]. destruct fvec212_val as [F V]. split; [exact F|]. cbn [op_pos rg_pos g212]. rewrite V. unfold vdist. replace (vsub (mkV3 2 1 2) (mkV3 2 1 2)) with vzero by (unfold vsub, vzero; cbn [Linalg.vx Linalg.vy Linalg.vz]; f_equal; ring).
  unfold vnorm, vnorm2, vdot, vzero; cbn [Linalg.vx Linalg.vy Linalg.vz]. replace (0 * 0 + 0 * 0 + 0 * 0) with 0 by ring. rewrite sqrt_0. lra.
Qed.
Lemma three_pow : vnorm (vval fvec212) <= 2 ^ 90 /\ vnorm (mkV3 2 1 2) <= 2 ^ 90 /\ 0 <= 2 ^ 90.
Proof. destruct fvec212_val as [_ V]. rewrite <- V, fvec212_norm. destruct pow90 as (_ & P & _). assert (3 <= 2 ^ 90) by (apply three_le_pow; lia). lra. Qed.
Lemma C90_transform_ex : let x := mkOPose fvec212 (OSrc aa345) in
  libm_ok exact_libm /\ choices6_ok stdsix /\ orders3_ok 3 3 3 std3 /\ pose_stands (64/10) 0 0 x (g212 (turns aa345)) /\ 0 * roundoff F32 <= / 100 /\
  vfinite fvec212 /\ vnorm (vval fvec212) <= 2 ^ 90 /\ vnorm (rg_pos (g212 (turns aa345))) <= 2 ^ 90 /\ 0 <= 2 ^ 90.
Proof.
  cbv zeta. split; [apply exact_libm_ok|]. split; [apply stdsix_ok|]. split; [apply std3_ok|]. split; [apply pose212, aa345_stands|]. split; [lra|]. split; [apply fvec212_val|]. apply three_pow.
Qed.

(** C90: inverseTransform(). *)
Lemma C90_inverse_transform_lemma : forall (p : prim) (L : libm) (c : choices6) (o : orders3) (x : opose p) (g : rigid) (T A E : R) (v : FV p),
  libm_ok L -> choices6_ok c -> orders3_ok 3 3 3 o -> 64/10 <= T <= 655/100 -> pose_stands T A E x g -> A * roundoff p <= / 100 ->
  vfinite v -> vnorm (vval v) <= 2 ^ 90 -> vnorm (rg_pos g) <= 2 ^ 90 -> E <= 2 ^ 90 ->
  let w := oinverseTransform L c o x v in let D := inverse_roundings (okind_of (op_rot x)) A in
  vfinite w /\ vdist (vval w) (mvmul (mtrans (rg_rot g)) (vsub (vval v) (rg_pos g))) <= (11/10 * D + 1) * roundoff p * (vnorm (vval v) + vnorm (rg_pos g) + E) + E + underflow p.
Proof.
  intros p L c o x g T A E v HL HC HO HT (H & Fp & Dp) AU Fv Nv Ng NE. cbv zeta. pose proof (C74_inverted_lemma p L c (op_rot x) (rg_rot g) T A HL HC HT H) as I. cbv zeta in I. rewrite (roundoff_fu p) in *. pose proof (fu_pos p) as U. pose proof (fu_24 p) as U24. destruct pow90 as (P1 & P2 & P3). pose proof (uflow_small p) as UF.
  destruct I as (K & r' & H' & C'). pose proof (stands_rot _ _ _ _ _ H AU) as S. pose proof (stands_rot _ _ _ _ _ H' AU) as S'.
  assert (E0 : 0 <= E) by (eapply Rle_trans; [apply vn_nonneg|exact Dp]). pose proof (vn_nonneg (vval v)) as V0. pose proof (vn_nonneg (rg_pos g)) as G0.
  set (B := vnorm (vval v) + vnorm (rg_pos g) + E).
  assert (NP : vnorm (vsub (vval v) (vval (op_pos x))) <= B). { pose proof (vnorm_of_dist _ _ _ Dp) as Q. replace (vsub (vval v) (vval (op_pos x))) with (vadd (vval v) (vneg (vval (op_pos x)))) by (unfold vsub, vadd, vneg; cbn [Linalg.vx Linalg.vy Linalg.vz]; f_equal; ring). eapply Rle_trans; [apply vnorm_triang|]. rewrite vnorm_vneg. unfold B. lra. }
  destruct (fvsub_err p v (op_pos x) Fv Fp ltac:(unfold B in NP; lra)) as [F1 E1]. set (s := fvsub v (op_pos x)) in *.
  set (ex := vsub (vval v) (rg_pos g)). assert (NX : vnorm ex <= B). { unfold ex. replace (vsub (vval v) (rg_pos g)) with (vadd (vval v) (vneg (rg_pos g))) by (unfold vsub, vadd, vneg; cbn [Linalg.vx Linalg.vy Linalg.vz]; f_equal; ring). eapply Rle_trans; [apply vnorm_triang|]. rewrite vnorm_vneg. unfold B. lra. }
  assert (ES : vdist (vval s) ex <= fu p * B + E).
  { eapply Rle_trans; [apply (vdist_tri _ (vsub (vval v) (vval (op_pos x))))|]. assert (fu p * vnorm (vsub (vval v) (vval (op_pos x))) <= fu p * B) by (apply Rmult_le_compat_l; lra).
    assert (Q : vdist (vsub (vval v) (vval (op_pos x))) ex <= E). { unfold vdist, ex. unfold vdist in Dp. rewrite vnorm_sub_sym in Dp. replace (vsub (vsub (vval v) (vval (op_pos x))) (vsub (vval v) (rg_pos g))) with (vsub (rg_pos g) (vval (op_pos x))) by (unfold vsub; cbn [Linalg.vx Linalg.vy Linalg.vz]; f_equal; ring). exact Dp. }
    lra. }
  assert (NS : vnorm (vval s) <= 11/10 * B). { pose proof (vnorm_le_add _ _ _ E1). assert (fu p * vnorm (vsub (vval v) (vval (op_pos x))) <= / 10 * B) by (apply Rmult_le_compat; try lra; apply vn_nonneg). lra. }
  destruct (C74_rotate_lemma p L c o (oinverted L c (op_rot x)) r' T A s HL HC HO ltac:(lra) H' ltac:(rewrite roundoff_fu; exact AU) F1 ltac:(unfold B in NS; lra)) as [F2 E2]. rewrite (roundoff_fu p), K in E2. fold (rotate_roundings (okind_of (op_rot x)) A) in E2.
  split; [exact F2|]. unfold oinverseTransform. fold s. fold ex. set (w := orotate L c o (oinverted L c (op_rot x)) s) in *.
  eapply Rle_trans; [apply (vdist_tri _ (mvmul r' (vval s)))|]. eapply Rle_trans; [apply Rplus_le_compat_l, (vdist_tri _ (mvmul (mtrans (rg_rot g)) (vval s)))|].
  rewrite (mvmul_dist _ _ _ (SO3_trans _ S)). pose proof (C' (vval s)) as C2.
  pose proof (roundings_pos _ _ _ _ _ H) as D0. unfold inverse_roundings. set (D := rotate_roundings (okind_of (op_rot x)) A) in *. set (j := match okind_of (op_rot x) with KSrc _ => 4200 | _ => 0 end).
  assert (CJ : vdist (mvmul r' (vval s)) (mvmul (mtrans (rg_rot g)) (vval s)) <= j * fu p * vnorm (vval s)) by (unfold vdist, j; destruct (okind_of (op_rot x)); lra).
  assert (J0 : 0 <= j) by (unfold j; destruct (okind_of (op_rot x)); lra).
  assert (Q : (D + j) * fu p * vnorm (vval s) <= (D + j) * fu p * (11/10 * B)) by (apply Rmult_le_compat_l; [apply Rmult_le_pos; lra|exact NS]).
  fold B. lra.
Qed.
Lemma C90_inverse_transform_ex : let x := mkOPose fvec212 (OMat m345) in let g := g212 (quat_rot (mkQ (3/5) (4/5) 0 0)) in
  libm_ok exact_libm /\ choices6_ok stdsix /\ orders3_ok 3 3 3 std3 /\ pose_stands (64/10) 61 0 x g /\ 61 * roundoff F32 <= / 100 /\
  vfinite fvec212 /\ vnorm (vval fvec212) <= 2 ^ 90 /\ vnorm (rg_pos g) <= 2 ^ 90 /\ 0 <= 2 ^ 90.
Proof.
  cbv zeta. split; [apply exact_libm_ok|]. split; [apply stdsix_ok|]. split; [apply std3_ok|]. split; [apply pose212, m345_stands|]. split; [rewrite roundoff_fu, fu_32; lra|]. split; [apply fvec212_val|]. apply three_pow.
Qed.

(** C90: the product of two poses with rotations of the same or of different classes. *)
Lemma C90_product_lemma : forall (p : prim) (L : libm) (c : choices6) (o : orders3) (x y : opose p) (g h : rigid) (T A B E F : R),
  libm_ok L -> choices6_ok c -> orders3_ok 3 3 3 o -> 64/10 <= T <= 655/100 -> pose_stands T A E x g -> pose_stands T B F y h ->
  let k := okind_of (op_rot x) in let j := okind_of (op_rot y) in
  prod_limit p k j A B -> A * roundoff p <= / 100 -> vnorm (rg_pos g) <= 2 ^ 90 -> vnorm (rg_pos h) <= 2 ^ 90 -> E <= 2 ^ 90 -> F <= 2 ^ 90 ->
  let z := opose_mult L c o x y in
  okind_of (op_rot z) = k /\
  exists r', close (prod_error p k j A B) r' (rg_rot (rigid_mul g h)) /\
    pose_stands (T + 160 * roundoff p) (prod_defect k j A B)
      (11/10 * (rotate_roundings k A * roundoff p * (vnorm (rg_pos h) + F) + E + F + underflow p) + roundoff p * (vnorm (rg_pos g) + vnorm (rg_pos h)))
      z (mkRigid r' (rg_pos (rigid_mul g h))).
Proof.
  intros p L c o x y g h T A B E F HL HC HO HT (H & Fp & Dp) (H2 & Fp2 & Dp2) k j PL AU Ng Nh NE NF. cbv zeta.
  destruct (C74_product_lemma p L c (op_rot x) (op_rot y) _ _ T A B HL HC HT H H2 PL) as (K & r' & S' & C'). split; [exact K|]. exists r'. split; [exact C'|]. split; [exact S'|].
  cbn [opose_mult op_pos rg_pos rigid_mul]. clear S' C' K PL. rewrite (roundoff_fu p) in *. pose proof (fu_pos p) as U. pose proof (fu_24 p) as U24. destruct pow90 as (P1 & P2 & P3). pose proof (uflow_small p) as UF.
  pose proof (roundings_pos _ _ _ _ _ H) as D0. pose proof (defect_small p k A AU) as DS. fold k in D0. set (D := rotate_roundings k A) in *. pose proof (vn_nonneg (rg_pos h)) as V0.
  pose proof (stands_rot _ _ _ _ _ H AU) as S. assert (E0 : 0 <= E) by (eapply Rle_trans; [apply vn_nonneg|exact Dp]). assert (F0 : 0 <= F) by (eapply Rle_trans; [apply vn_nonneg|exact Dp2]).
  destruct (rotate_near p L c o (op_rot x) (rg_rot g) T A (op_pos y) (rg_pos h) F HL HC HO ltac:(lra) H AU Fp2 Dp2 ltac:(lra) D0) as [F1 E1]. fold k in E1. fold D in E1.
  assert (DV : 0 <= D * fu p * (vnorm (rg_pos h) + F) <= / 10 * (vnorm (rg_pos h) + F)) by (split; [apply Rmult_le_pos; [apply Rmult_le_pos; lra|lra]|apply Rmult_le_compat_r; lra]).
  destruct (shifted p (op_pos x) (orotate L c o (op_rot x) (op_pos y)) _ _ _ _ Fp F1 Dp E1) as [F2 E2]; [rewrite (SO3_vnorm _ _ S); lra|]. split; [exact F2|].
  eapply Rle_trans; [exact E2|]. pose proof (vnorm_triang (rg_pos g) (mvmul (rg_rot g) (rg_pos h))) as T1. rewrite (SO3_vnorm _ _ S) in T1.
  apply Rplus_le_compat; [|apply Rmult_le_compat_l; lra].
  replace (D * fu p * (vnorm (rg_pos h) + F) + E + F + underflow p) with (E + (D * fu p * (vnorm (rg_pos h) + F) + underflow p + F)) by ring. apply Rmult_le_compat_r; lra.
Qed.
Lemma C90_product_ex : let x := mkOPose fvec212 (OQuat q345) in let y := mkOPose fvec212 (OSrc aa345) in let g := g212 (quat_rot (direction (qval q345))) in let h := g212 (turns aa345) in
  libm_ok exact_libm /\ choices6_ok stdsix /\ orders3_ok 3 3 3 std3 /\ pose_stands (64/10) 6 0 x g /\ pose_stands (64/10) 0 0 y h /\ prod_limit F32 KQuat (KSrc SAA) 6 0 /\
  6 * roundoff F32 <= / 100 /\ vnorm (rg_pos g) <= 2 ^ 90 /\ vnorm (rg_pos h) <= 2 ^ 90 /\ 0 <= 2 ^ 90.
Proof.
  cbv zeta. split; [apply exact_libm_ok|]. split; [apply stdsix_ok|]. split; [apply std3_ok|]. split; [apply pose212, q345_stands|]. split; [apply pose212, aa345_stands|].
  split; [|rewrite roundoff_fu, fu_32; split; [lra|]; pose proof three_pow; cbn [rg_pos g212]; tauto].
  cbn [prod_limit conv_limit conv_defect]. unfold qprod_defect, qjoint. cbn [conv_defect]. pose proof (Rmin_l 6 (166/5)). rewrite roundoff_fu, fu_32. repeat split; lra.
Qed.
