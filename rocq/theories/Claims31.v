(** Claims about setFromVectors in floating-point arithmetic (C84). *)
From Coq Require Import ZArith Reals Lra Psatz Bool List Lia Permutation.
From Flocq Require Import IEEE754.BinarySingleNaN Core.Core.
From Verif Require Import Linalg Spec SpecFacts SpecClose ModelCommon ModelEigen CommonFacts CloseFacts SetFacts Claims2 FloatModel FloatFacts FloatModulo FloatWrap FloatModel2 SpecFloatQ FloatQFacts FloatQProd FloatQRot FloatCast FloatModel3 SpecLibm SpecBuild FloatBuild FloatBuild2 FloatBuild3 FloatBuild4 FloatModel4 FloatModel5 FloatExt FloatExt2 FloatExt3 SpecExt FloatExt5 FloatModel6 FloatModel7 SpecSix FloatSix FloatFix FloatOHist FloatModel10 SpecVecF FloatVec FloatVec2 FloatVec3 FloatVec4 FloatModel11 SpecDebugF FloatDebug FloatModel13 SpecTwo FloatTwo FloatTwo2 FloatTwo3 Claims16 Claims18 Claims19 Claims22 Claims27 Claims28.
Import ListNotations.
Local Open Scope R_scope.

Lemma short_dummy p : 9999/10000 * short_length p <= B2R (fdummy p) <= 10001/10000 * short_length p /\ 0 < short_length p.
Proof. destruct p; unfold short_length; [rewrite fdummy_32|rewrite fdummy_64]; lra. Qed.
Lemma dummy_u p : 167 * fu p <= B2R (fdummy p). Proof. destruct (dummy_facts p) as (_ & _ & _ & _ & K). lra. Qed.

Lemma two_vectors_all p k svd (o : tv_choices) (a b : FV p) : tv_ok o -> 0 <= k -> k * fu p <= / 100 -> svd_accurate p k svd ->
  vfinite a -> vfinite b -> ordinary (vval a) -> ordinary (vval b) ->
  let q := ftwo_vectors svd o a b in let ua := udir (vval a) in let ub := udir (vval b) in let h := 1 + vdot ua ub in
  qfinite q /\
  ((9/10 * short_length p <= h /\ 153 * fu p <= h <= 2 /\ Rabs (qnorm (qval q) - 1) <= 48 * fu p / h /\ vdist (mvmul (quat_rot (direction (qval q))) ua) ub <= 140 * fu p / h) \/
   (h <= 11/10 * short_length p /\ Rabs (qnorm (qval q) - 1) <= (11/10 * k + 4) * fu p /\
    vdist (mvmul (quat_rot (direction (qval q))) ua) ub <= 31/10 * sqrt (short_length p) + (5 * k + 20) * fu p)).
Proof.
  intros O K Ku Svd Fa Fb Na Nb. cbv zeta. pose proof (fu_pos p) as U. pose proof (fu_24 p) as V. pose proof (dummy_u p) as DU. destruct (short_dummy p) as [SD S0].
  destruct (udir_unit _ Na) as [A2 A1]. destruct (udir_unit _ Nb) as [C2 C1].
  destruct (tv_regular o a b) eqn:Reg.
  - destruct (two_regular p svd o a b O Fa Fb Na Nb Reg) as (H1 & H2 & F & D). set (ua := udir (vval a)) in *. set (ub := udir (vval b)) in *. split; [exact F|]. left.
    set (h := 1 + vdot ua ub) in *. assert (h0 : 0 < h) by lra.
    destruct (half_way_ok ua ub A2 C2 h0) as (Q1 & Qm & _). fold h in D.
    set (r := fu p / h). assert (Er : fu p = r * h) by (unfold r; field; lra). assert (r0 : 0 < r) by (unfold r; apply Rdiv_lt_0_compat; lra).
    assert (r1 : r <= / 153). { apply Rmult_le_reg_r with h; [exact h0|]. rewrite <- Er. lra. }
    replace (48 * fu p / h) with (48 * r) in * by (unfold r; field; lra). replace (140 * fu p / h) with (140 * r) in * by (unfold r; field; lra).
    destruct (turned_close _ _ ua ub (48 * r) 0 Q1 A1 D ltac:(lra)) as [X Y].
    { rewrite Qm. unfold vdist. replace (vsub ub ub) with vzero by (generalize ub; intros; lin). rewrite vnorm_vzero. lra. }
    split; [lra|]. split; [exact H1|]. split; [exact X|]. eapply Rle_trans; [exact Y|]. rewrite Rplus_0_r.
    apply Rmult_le_reg_r with (1 - 48 * r); [lra|]. replace (2 * (48 * r / (1 - 48 * r)) * (1 - 48 * r)) with (96 * r) by (field; lra). 
    replace (140 * r * (1 - 48 * r)) with (r * (140 - 6720 * r)) by ring. assert (r * 96 <= r * (140 - 6720 * r)) by (apply Rmult_le_compat_l; lra). lra.
  - destruct (two_opposite p svd o a b k O Fa Fb Na Nb Reg K Ku Svd) as (H & q1 & F & Q1 & D & M). set (ua := udir (vval a)) in *. set (ub := udir (vval b)) in *. split; [exact F|]. right.
    assert (K0 : 0 <= k * fu p) by (apply Rmult_le_pos; lra). set (d := (11/10 * k + 4) * fu p) in *. assert (d1 : d <= / 50) by (unfold d; lra). assert (d0 : 0 <= d) by (unfold d; lra).
    destruct (turned_close _ _ ua ub d _ Q1 A1 D ltac:(lra) M) as [X Y]. split; [lra|]. split; [exact X|]. eapply Rle_trans; [exact Y|].
    assert (S1 : sqrt (B2R (fdummy p)) <= 10001/10000 * sqrt (short_length p)).
    { assert (0 <= sqrt (short_length p)) by apply sqrt_pos. apply sq_le_le; [lra|]. rewrite sqrt_sqrt by lra. replace (10001/10000 * sqrt (short_length p) * (10001/10000 * sqrt (short_length p))) with (10001/10000 * (10001/10000) * (sqrt (short_length p) * sqrt (short_length p))) by ring. rewrite sqrt_sqrt by lra. lra. }
    assert (S2 : 0 <= sqrt (short_length p)) by apply sqrt_pos.
    assert (T : 2 * (d / (1 - d)) <= 21/10 * d).
    { apply Rmult_le_reg_r with (1 - d); [lra|]. replace (2 * (d / (1 - d)) * (1 - d)) with (d * 2) by (field; lra). rewrite (Rmult_comm (21/10)), Rmult_assoc. apply Rmult_le_compat_l; lra. }
    assert (Ed : d = (11/10 * k + 4) * fu p) by reflexivity. clearbody d. lra.
Qed.

Lemma two_ge p (x y : R) : bpow radix2 (-51) <= x <= bpow radix2 51 -> bpow radix2 (-51) <= y <= bpow radix2 51 -> Rabs (x * y) <= fbig p /\ rnd p (x * y) <> 0.
Proof.
  intros X Y. pose proof (bpow_gt_0 radix2 (-51)) as P. split.
  - rewrite Rabs_pos_eq by (apply Rmult_le_pos; lra). apply Rle_trans with (bpow radix2 51 * bpow radix2 51); [apply Rmult_le_compat; lra|]. rewrite <- bpow_plus. apply bpow_le. destruct p; vm_compute; discriminate.
  - enough (bpow radix2 (-102) <= rnd p (x * y)) by (pose proof (bpow_gt_0 radix2 (-102)); lra). apply rnd_ge_fmt; [apply fmt_bpow; destruct p; vm_compute; discriminate|].
    change (-102)%Z with (-51 + -51)%Z. rewrite bpow_plus. apply Rmult_le_compat; lra.
Qed.
Lemma norm_range p t (v : FV p) : order 3 t -> vfinite v -> ordinary (vval v) -> is_finite (fvnorm t v) = true /\ bpow radix2 (-51) <= B2R (fvnorm t v) <= bpow radix2 51.
Proof.
  intros O F [L H]. assert (L' : bpow radix2 (-56) <= vnorm (vval v)) by (eapply Rle_trans; [|exact L]; apply bpow_le; lia). destruct (fvnorm_big2 p t v O F (Logic.conj L' H)) as [G E]. split; [exact G|].
  pose proof (fu_pos p) as U. pose proof (fu_24 p) as V. set (N := vnorm (vval v)) in *. assert (N0 : 0 < N) by (pose proof (bpow_gt_0 radix2 (-56)); lra).
  assert ((3 + / 20) * fu p * N <= / 10 * N) by (apply Rmult_le_compat_r; lra). apply Rabs_both in E.
  replace (bpow radix2 (-51)) with (/ 2 * bpow radix2 (-50)) by (change (-51)%Z with (-1 + -50)%Z; rewrite bpow_plus; reflexivity). replace (bpow radix2 51) with (2 * bpow radix2 50) by (change 51%Z with (1 + 50)%Z; rewrite bpow_plus; reflexivity). lra.
Qed.
Lemma no_throw p (o : tv_choices) (a b : FV p) : tv_ok o -> vfinite a -> vfinite b -> ordinary (vval a) -> ordinary (vval b) -> feq (fmul (fvnorm (tv_len1 o) a) (fvnorm (tv_len2 o) b)) fzero = false.
Proof.
  intros (O1 & O2 & _) Fa Fb Na Nb. destruct (norm_range p _ a O1 Fa Na) as [F1 B1]. destruct (norm_range p _ b O2 Fb Nb) as [F2 B2]. destruct (two_ge p _ _ B1 B2) as [OV NZ].
  destruct (fmul_R p _ _ F1 F2 OV) as [R F]. rewrite (feq_R p _ (@fzero p) F eq_refl), R. apply Req_bool_false. exact NZ.
Qed.

(** ** Witnesses *)
(** an accurate singular value decomposition *)
Definition fround3 (p : prim) (v : V3) : FV p := mkFV (fround p (vx v)) (fround p (vy v)) (fround p (vz v)).
Lemma fround3_ok p v : vnorm v = 1 -> vfinite (fround3 p v) /\ vdist (vval (fround3 p v)) v <= 2 * fu p.
Proof.
  intro N. pose proof (fu_pos p) as U. pose proof (eta5_u p) as E5. pose proof (eta_pos p) as E0.
  assert (L : forall x, Rabs x <= 1 -> is_finite (fround p x) = true /\ Rabs (B2R (fround p x) - x) <= fu p * Rabs x + eta p). { intros x H. destruct (fround_R p x ltac:(lra)) as [F E]. split; [exact F|]. rewrite E. apply rnd_err_le. }
  assert (B : Rabs (vx v) <= 1 /\ Rabs (vy v) <= 1 /\ Rabs (vz v) <= 1).
  { pose proof (vnorm_sq v) as Q. rewrite N in Q. unfold vnorm2, vdot in Q. pose proof (Rle_0_sqr (vx v)). pose proof (Rle_0_sqr (vy v)). pose proof (Rle_0_sqr (vz v)). unfold Rsqr in *.
    repeat split; (apply sq_le_le; [lra|]); rewrite <- Rabs_mult, Rabs_pos_eq by apply Rle_0_sqr; lra. }
  destruct B as (B0 & B1 & B2). destruct (L _ B0) as [F0 E00]. destruct (L _ B1) as [F1 E1]. destruct (L _ B2) as [F2 E2].
  split; [split; [exact F0|split; [exact F1|exact F2]]|].
  assert (D := vec_rel_err (vval (fround3 p v)) v (fu p) (eta p) ltac:(lra) ltac:(lra) E00 E1 E2). rewrite N in D. lra.
Qed.
Lemma exact_svd p : exists svd : FV p -> FV p -> FV p, svd_accurate p 3 svd.
Proof.
  destruct C26_set_from_vectors_ex as [f Hf]. exists (fun v0 v1 => fround3 p (f (vval v0) (vval v1))). intros v0 v1 F0 F1 N0 N1 _.
  destruct (Hf (vval v0) (vval v1)) as (Q & D0 & D1). assert (Q1 : vnorm (f (vval v0) (vval v1)) = 1) by now apply vnorm_unit. set (n := f (vval v0) (vval v1)) in *.
  destruct (fround3_ok p n Q1) as [F E]. pose proof (fu_pos p) as U. pose proof (fu_24 p) as V. split; [exact F|]. unfold vdist in E. split.
  { pose proof (vnorm_le_add _ _ _ E). rewrite vnorm_sub_sym in E. pose proof (vnorm_le_add _ _ _ E). apply Rabs_le. lra. }
  assert (G : forall w, vdot n w = 0 -> Rabs (vnorm w - 1) <= 5 * fu p -> Rabs (vdot (vval (fround3 p n)) w) <= 3 * fu p).
  { intros w Z W. replace (vdot (vval (fround3 p n)) w) with (vdot (vsub (vval (fround3 p n)) n) w + vdot n w) by (generalize (vval (fround3 p n)) n; intros; lin). rewrite Z, Rplus_0_r. eapply Rle_trans; [apply vcs_abs|].
    apply Rabs_both in W. apply Rle_trans with (2 * fu p * (3/2)); [apply Rmult_le_compat; try apply vn_nonneg; lra|lra]. }
  split; apply G; assumption.
Qed.
Definition stdtv : tv_choices := mkTV leftright3 leftright3 leftright3 leftright3 Quotient leftright3 unfused.
Lemma stdtv_ok : tv_ok stdtv.
Proof. repeat (split; [apply Permutation_refl|]). apply C80_cross_ex. Qed.
Definition fvz (x y z : Z) : FV F32 := mkFV (fofZ F32 x) (fofZ F32 y) (fofZ F32 z).
Lemma fvz_val x y z : (Z.abs x <= 2 ^ 24)%Z -> (Z.abs y <= 2 ^ 24)%Z -> (Z.abs z <= 2 ^ 24)%Z -> vfinite (fvz x y z) /\ vval (fvz x y z) = mkV3 (IZR x) (IZR y) (IZR z).
Proof.
  intros X Y Z. destruct (fofZ_small F32 x X) as [F0 V0]. destruct (fofZ_small F32 y Y) as [F1 V1]. destruct (fofZ_small F32 z Z) as [F2 V2].
  split; [split; [exact F0|split; [exact F1|exact F2]]|]. unfold vval, fvz; cbn [gx gy gz]. now rewrite V0, V1, V2.
Qed.
Lemma ordinary_norm (v : V3) m : vnorm v = m -> 1 <= m <= 1000000 -> ordinary v.
Proof.
  intros E [A B]. unfold ordinary. rewrite E. split.
  - apply Rle_trans with (bpow radix2 0); [apply bpow_le; lia|cbn; lra].
  - apply Rle_trans with (bpow radix2 20); [cbn; lra|apply bpow_le; lia].
Qed.

(** C84: setFromVectors(a, b) of two vectors whose lengths are between 2^-50 and 2^50.
    Let h be one plus the cosine of the angle between them. The quaternion is finite,
    and either h is at least 0.9e-5 (float) or 0.9e-12 (double), its norm is one up to
    48/h roundings and the rotation turns the direction of a into the direction of b up
    to 140/h roundings; or h is at most 1.1e-5 (1.1e-12) and, provided that the third
    column of the singular value decomposition is accurate up to k roundings, the norm
    is one up to 1.1 k + 4 roundings and the direction of b is reached up to
    3.1 sqrt(1e-5) (3.1 sqrt(1e-12)) plus 5 k + 20 roundings. *)
Lemma C84_quaternion_lemma : forall (p : prim) (k : R) (svd : FV p -> FV p -> FV p) (o : tv_choices) (a b : FV p), tv_ok o -> 0 <= k -> k * roundoff p <= / 100 -> svd_accurate p k svd ->
  vfinite a -> vfinite b -> ordinary (vval a) -> ordinary (vval b) ->
  let q := ftwo_vectors svd o a b in let ua := udir (vval a) in let ub := udir (vval b) in let h := 1 + vdot ua ub in
  qfinite q /\
  ((9/10 * short_length p <= h /\ Rabs (qnorm (qval q) - 1) <= 48 * roundoff p / h /\ vdist (mvmul (quat_rot (direction (qval q))) ua) ub <= 140 * roundoff p / h) \/
   (h <= 11/10 * short_length p /\ Rabs (qnorm (qval q) - 1) <= (11/10 * k + 4) * roundoff p /\
    vdist (mvmul (quat_rot (direction (qval q))) ua) ub <= 31/10 * sqrt (short_length p) + (5 * k + 20) * roundoff p)).
Proof.
  intros p k svd o a b O K Ku Svd Fa Fb Na Nb. cbv zeta. rewrite (roundoff_fu p) in *. destruct (two_vectors_all p k svd o a b O K Ku Svd Fa Fb Na Nb) as [F H]. split; [exact F|].
  destruct H as [(H1 & H2 & H3 & H4)|H]; [left|right; exact H]. split; [exact H1|]. split; [exact H3|exact H4].
Qed.
Lemma vz212 : vfinite (fvz 2 1 2) /\ ordinary (vval (fvz 2 1 2)) /\ udir (vval (fvz 2 1 2)) = mkV3 (2/3) (1/3) (2/3).
Proof.
  destruct (fvz_val 2 1 2) as [F V]; [vm_compute; discriminate|vm_compute; discriminate|vm_compute; discriminate|]. assert (N : vnorm (mkV3 (IZR 2) (IZR 1) (IZR 2)) = 3).
  { unfold vnorm, vnorm2, vdot; cbn [vx vy vz]. replace (2 * 2 + 1 * 1 + 2 * 2) with (3 * 3) by ring. apply sqrt_square. lra. }
  split; [exact F|]. rewrite V. split; [apply (ordinary_norm _ 3 N); lra|]. unfold udir. rewrite N. unfold vscale; cbn [vx vy vz]. f_equal; field.
Qed.
Lemma vz346 : vfinite (fvz 0 4 (-3)) /\ ordinary (vval (fvz 0 4 (-3))) /\ udir (vval (fvz 0 4 (-3))) = mkV3 0 (4/5) (-3/5).
Proof.
  destruct (fvz_val 0 4 (-3)) as [F V]; [vm_compute; discriminate|vm_compute; discriminate|vm_compute; discriminate|]. assert (N : vnorm (mkV3 (IZR 0) (IZR 4) (IZR (-3))) = 5).
  { unfold vnorm, vnorm2, vdot; cbn [vx vy vz]. replace (0 * 0 + 4 * 4 + -3 * -3) with (5 * 5) by ring. apply sqrt_square. lra. }
  split; [exact F|]. rewrite V. split; [apply (ordinary_norm _ 5 N); lra|]. unfold udir. rewrite N. unfold vscale; cbn [vx vy vz]. f_equal; field.
Qed.
Lemma vdot_212 : vdot (mkV3 (2/3) (1/3) (2/3)) (mkV3 0 (4/5) (-3/5)) = - (2/15).
Proof. unfold vdot; cbn [vx vy vz]. field. Qed.
Lemma C84_quaternion_ex : tv_ok stdtv /\ (exists svd, svd_accurate F32 3 svd) /\ 3 * roundoff F32 <= / 100 /\
  vfinite (fvz 2 1 2) /\ vfinite (fvz 0 4 (-3)) /\ ordinary (vval (fvz 2 1 2)) /\ ordinary (vval (fvz 0 4 (-3))) /\ 1 + vdot (udir (vval (fvz 2 1 2))) (udir (vval (fvz 0 4 (-3)))) = 13/15.
Proof.
  destruct vz212 as (A & B & C). destruct vz346 as (A' & B' & C'). split; [apply stdtv_ok|]. split; [apply exact_svd|]. split; [rewrite roundoff_fu, fu_32; lra|]. repeat (split; [assumption|]).
  rewrite C, C', vdot_212. lra.
Qed.

(** C84: an object of any of the six classes: setFromVectors(a, b) returns, and when h
    (one plus the cosine of the angle) is at least 1.1e-5 (float) or 1.1e-12 (double)
    and 48/h is within the limit of the conversion from a quaternion to the class, the
    object stands for a rotation that turns the direction of a into the direction of b
    up to 140/h roundings plus the error of the conversion. *)
Lemma C84_classes_lemma : forall (p : prim) (L : libm) (c : choices6) (k : R) (svd : FV p -> FV p -> FV p) (o : tv_choices) (j : okind) (a b : FV p), libm_ok L -> choices6_ok c ->
  tv_ok o -> 0 <= k -> k * roundoff p <= / 100 -> svd_accurate p k svd -> vfinite a -> vfinite b -> ordinary (vval a) -> ordinary (vval b) ->
  let ua := udir (vval a) in let ub := udir (vval b) in let h := 1 + vdot ua ub in
  11/10 * short_length p < h -> conv_limit p KQuat j (48 / h) ->
  exists x r, fset_from_vectors L c svd o j a b = Some x /\ okind_of x = j /\ stands (64/10 + 160 * roundoff p) (conv_defect KQuat j (48 / h)) x r /\
    vdist (mvmul r ua) ub <= 140 * roundoff p / h + conv_error p KQuat j (48 / h).
Proof.
  intros p L c k svd o j a b HL HC O K Ku Svd Fa Fb Na Nb. cbv zeta. rewrite (roundoff_fu p) in *. intros Hh Lim. destruct (udir_unit _ Na) as [A2 A1].
  destruct (two_vectors_all p k svd o a b O K Ku Svd Fa Fb Na Nb) as [F [(_ & H1 & H2 & H3)|(H & _)]]; [|exfalso; apply (Rlt_not_le _ _ Hh H)].
  set (ua := udir (vval a)) in *. set (ub := udir (vval b)) in *. set (h := 1 + vdot ua ub) in *. set (q := ftwo_vectors svd o a b) in *. pose proof (fu_pos p) as U.
  assert (ST : stands (64/10) (48 / h) (OQuat q) (quat_rot (direction (qval q)))).
  { split; [exact F|]. split; [|reflexivity]. rewrite roundoff_fu. eapply Rle_trans; [exact H2|]. apply Req_le. field. lra. }
  destruct (oconvert_ok p L c j (64/10) (48 / h) (OQuat q) _ HL HC ltac:(lra) ST Lim) as (E & r & S1 & C1).
  exists (oconvert L c j (OQuat q)), r. split; [|split; [exact E|split; [exact S1|]]].
  - unfold fset_from_vectors. rewrite (no_throw p o a b O Fa Fb Na Nb). reflexivity.
  - specialize (C1 ua). rewrite A1, Rmult_1_r in C1. unfold vdist in *. eapply Rle_trans; [apply (vnorm_sub_triang _ (mvmul (quat_rot (direction (qval q))) ua))|]. cbn [okind_of] in C1. lra.
Qed.
Lemma C84_classes_ex : libm_ok exact_libm /\ choices6_ok stdsix /\ (let h := 1 + vdot (udir (vval (fvz 2 1 2))) (udir (vval (fvz 0 4 (-3)))) in
  11/10 * short_length F32 < h /\ conv_limit F32 KQuat (KSrc SRv) (48 / h) /\ conv_limit F32 KQuat KMat (48 / h) /\ conv_limit F32 KQuat (KSrc SZyx) (48 / h)).
Proof.
  split; [apply exact_libm_ok|]. split; [apply stdsix_ok|]. cbv zeta. rewrite (proj2 (proj2 vz212)), (proj2 (proj2 vz346)), vdot_212. cbn [conv_limit extract_limit short_length]. rewrite roundoff_fu, fu_32.
  replace (48 / (1 + - (2/15))) with (720/13) by field. repeat split; lra.
Qed.

(** C84: the exception. For vectors whose lengths are between 2^-50 and 2^50 the call
    returns; if the first or the second is zero and the other is of such a length, it
    throws. *)
Lemma C84_throws_lemma : forall (p : prim) (L : libm) (c : choices6) (svd : FV p -> FV p -> FV p) (o : tv_choices) (j : okind) (a b : FV p), tv_ok o -> vfinite a -> ordinary (vval a) ->
  (vfinite b -> ordinary (vval b) -> fset_from_vectors L c svd o j a b <> None) /\
  fset_from_vectors L c svd o j a (mkFV fzero fzero fzero) = None /\ fset_from_vectors L c svd o j (mkFV fzero fzero fzero) a = None.
Proof.
  intros p L c svd o j a b O Fa Na. unfold fset_from_vectors. split; [|split].
  - intros Fb Nb. rewrite (no_throw p o a b O Fa Fb Na Nb). discriminate.
  - rewrite fvnorm_zeros. destruct (norm_range p (tv_len1 o) a (proj1 O) Fa Na) as [F _]. destruct (fmul_R p (fvnorm (tv_len1 o) a) fzero F eq_refl) as [R G].
    { change (B2R (@fzero p)) with 0. rewrite Rmult_0_r, Rabs_R0. apply bpow_ge_0. }
    rewrite (feq_R p _ (@fzero p) G eq_refl), R. change (B2R (@fzero p)) with 0. rewrite Rmult_0_r, rnd_0. now rewrite Req_bool_true.
  - rewrite fvnorm_zeros. destruct (norm_range p (tv_len2 o) a (proj1 (proj2 O)) Fa Na) as [F _]. destruct (fmul_R p fzero (fvnorm (tv_len2 o) a) eq_refl F) as [R G].
    { change (B2R (@fzero p)) with 0. rewrite Rmult_0_l, Rabs_R0. apply bpow_ge_0. }
    rewrite (feq_R p _ (@fzero p) G eq_refl), R. change (B2R (@fzero p)) with 0. rewrite Rmult_0_l, rnd_0. now rewrite Req_bool_true.
Qed.
Lemma C84_throws_ex : tv_ok stdtv /\ vfinite (fvz 2 1 2) /\ ordinary (vval (fvz 2 1 2)) /\ vfinite (fvz 0 4 (-3)) /\ ordinary (vval (fvz 0 4 (-3))).
Proof. split; [apply stdtv_ok|]. split; [apply vz212|]. split; [apply vz212|]. split; apply vz346. Qed.

(** C84: outside of this range (float, every math library and every decomposition): two
    equal vectors of length 1e-30 throw although they are not zero; a zero vector and
    one of length 1e20 do not throw although one is zero; a vector of length 1e20 and
    one of length 1 yield without exception a quaternion that is not of unit length, on
    which a debug build throws. *)
Lemma C84_range_lemma : exists s z l u : FV F32, vfinite s /\ vfinite z /\ vfinite l /\ vfinite u /\ flt fzero (gx s) = true /\ vval z = vzero /\
  forall (L : libm) (c : choices6) (svd : FV F32 -> FV F32 -> FV F32),
  fset_from_vectors L c svd stdtv KQuat s s = None /\ fset_from_vectors L c svd stdtv KQuat z l <> None /\
  (exists q, fset_from_vectors L c svd stdtv KQuat l u = Some (OQuat q) /\ qfinite q /\ qnorm (qval q) <= 3/4) /\
  (exists q, d_set_from_vectors L stdsix svd stdtv KQuat l u = Some (BadQuat q)).
Proof.
  exists (mkFV em30 fzero fzero), (mkFV fzero fzero fzero), (mkFV e20 fzero fzero), (mkFV (fofZ F32 1) fzero fzero).
  split; [repeat split|]. split; [repeat split|]. split; [repeat split|]. split; [repeat split|]. split; [vm_compute; reflexivity|]. split; [reflexivity|].
  intros L c svd. split; [|split; [|split]].
  - unfold fset_from_vectors. replace (feq _ fzero) with true by (vm_compute; reflexivity). reflexivity.
  - unfold fset_from_vectors. replace (feq _ fzero) with false by (vm_compute; reflexivity). discriminate.
  - exists (ftwo_vectors svd stdtv (mkFV e20 fzero fzero) (mkFV (fofZ F32 1) fzero fzero)). split; [|split].
    + unfold fset_from_vectors. replace (feq _ fzero) with false by (vm_compute; reflexivity). reflexivity.
    + split; [vm_compute; reflexivity|]. split; [vm_compute; reflexivity|]. split; vm_compute; reflexivity.
    + unfold qval. rewrite (B2R_of_SF F32 (fw _) false 11863283 (-24)) by (vm_compute; reflexivity).
      assert (ZR : forall (a : fl F32) s, B2SF a = SpecFloat.S754_zero s -> B2R a = 0) by (intros a s H; rewrite <- SF2R_B2SF, H; reflexivity).
      rewrite (ZR (fx _) false), (ZR (fy _) false), (ZR (fz _) false) by (vm_compute; reflexivity).
      unfold qnorm, qnorm2, F2R; cbn [qw qx qy qz Fnum Fexp cond_Zopp]. change (bpow radix2 (-24)) with (/ 16777216). apply sq_le_le; [lra|]. rewrite sqrt_sqrt; lra.
  - eexists. unfold d_set_from_vectors. replace (feq _ fzero) with false by (vm_compute; reflexivity). cbn [dbind]. unfold dchk_q. replace (fquat_assert _ _) with false by (vm_compute; reflexivity). reflexivity.
Qed.

(** C84: for vectors that are opposite up to about half a degree the norm of the
    quaternion may be off by more than one percent (float, no fused products), and a
    debug build throws. *)
Lemma C84_norm_lost_lemma : exists a b : FV F32, vfinite a /\ vfinite b /\ ordinary (vval a) /\ ordinary (vval b) /\
  forall (L : libm) (c : choices6) (svd : FV F32 -> FV F32 -> FV F32),
  (exists q, fset_from_vectors L c svd stdtv KQuat a b = Some (OQuat q) /\ qfinite q /\ 101/100 <= qnorm (qval q)) /\
  (exists q, d_set_from_vectors L stdsix svd stdtv KQuat a b = Some (BadQuat q)).
Proof.
  exists (fvz 108 (-4223) (-604)), (fvz (-110) 4244 627).
  destruct (fvz_val 108 (-4223) (-604)) as [Fa Va]; [vm_compute; discriminate|vm_compute; discriminate|vm_compute; discriminate|]. destruct (fvz_val (-110) 4244 627) as [Fb Vb]; [vm_compute; discriminate|vm_compute; discriminate|vm_compute; discriminate|].
  assert (O : forall x y z : R, 1 <= x * x + y * y + z * z <= 1000000 * 1000000 -> ordinary (mkV3 x y z)).
  { intros x y z [H1 H2]. apply (ordinary_norm _ _ eq_refl). unfold vnorm. change (vnorm2 (mkV3 x y z)) with (x * x + y * y + z * z). split; apply sq_le_le; try rewrite sqrt_sqrt; try lra. apply sqrt_pos. }
  split; [exact Fa|]. split; [exact Fb|]. split; [rewrite Va; apply O; lra|]. split; [rewrite Vb; apply O; lra|].
  intros L c svd. split.
  - exists (ftwo_vectors svd stdtv (fvz 108 (-4223) (-604)) (fvz (-110) 4244 627)). split; [|split].
    + unfold fset_from_vectors. replace (feq _ fzero) with false by (vm_compute; reflexivity). reflexivity.
    + split; [vm_compute; reflexivity|]. split; [vm_compute; reflexivity|]. split; vm_compute; reflexivity.
    + unfold qval. rewrite (B2R_of_SF F32 (fw _) false 9808530 (-32)), (B2R_of_SF F32 (fx _) true 8468862 (-23)), (B2R_of_SF F32 (fy _) true 16379863 (-30)), (B2R_of_SF F32 (fz _) true 9913348 (-27)) by (vm_compute; reflexivity).
      unfold qnorm, qnorm2, F2R; cbn [qw qx qy qz Fnum Fexp cond_Zopp]. change (bpow radix2 (-32)) with (/ 4294967296). change (bpow radix2 (-23)) with (/ 8388608). change (bpow radix2 (-30)) with (/ 1073741824). change (bpow radix2 (-27)) with (/ 134217728).
      apply sq_le_le; [apply sqrt_pos|]. cbn [Z.opp]. rewrite sqrt_sqrt; lra.
  - eexists. unfold d_set_from_vectors. replace (feq _ fzero) with false by (vm_compute; reflexivity). cbn [dbind]. unfold dchk_q. replace (fquat_assert _ _) with false by (vm_compute; reflexivity). reflexivity.
Qed.

(** C84: a debug build. When h (one plus the cosine of the angle) is so large that 48/h
    roundings are at most 9.9e-5 and within the limit of the conversion, setFromVectors
    returns the object of the release build, except that for an AngleAxis the assertion
    on its axis may throw when the vector part of the quaternion is shorter than 2^-116
    (float) or 2^-1012 (double). *)
Lemma C84_debug_lemma : forall (p : prim) (L : libm) (c : choices6) (k : R) (svd : FV p -> FV p -> FV p) (o : tv_choices) (j : okind) (a b : FV p), libm_ok L -> choices6_ok c ->
  tv_ok o -> 0 <= k -> k * roundoff p <= / 100 -> svd_accurate p k svd -> vfinite a -> vfinite b -> ordinary (vval a) -> ordinary (vval b) ->
  let h := 1 + vdot (udir (vval a)) (udir (vval b)) in
  11/10 * short_length p < h -> 48 / h * roundoff p <= 99 / 1000000 -> conv_limit p KQuat j (48 / h) ->
  (exists x, fset_from_vectors L c svd o j a b = Some x /\ d_set_from_vectors L c svd o j a b = Some (Done x)) \/
  (j = KSrc SAA /\ exists n, d_set_from_vectors L c svd o j a b = Some (BadAxis n) /\ tiny_axis L n).
Proof.
  intros p L c k svd o j a b HL HC O K Ku Svd Fa Fb Na Nb. cbv zeta. rewrite (roundoff_fu p) in *. intros Hh Hd Lim.
  destruct (two_vectors_all p k svd o a b O K Ku Svd Fa Fb Na Nb) as [F [(_ & H1 & H2 & _)|(H & _)]]; [|exfalso; apply (Rlt_not_le _ _ Hh H)].
  set (h := 1 + vdot (udir (vval a)) (udir (vval b))) in *. set (q := ftwo_vectors svd o a b) in *. pose proof (fu_pos p) as U.
  assert (H2' : Rabs (qnorm (qval q) - 1) <= 48 / h * fu p). { eapply Rle_trans; [exact H2|]. apply Req_le. field. lra. }
  assert (ST : stands (64/10) (48 / h) (OQuat q) (quat_rot (direction (qval q)))).
  { split; [exact F|]. split; [|reflexivity]. rewrite roundoff_fu. exact H2'. }
  assert (CK : dchk_q c q = Done q).
  { unfold dchk_q. destruct HC as (_ & _ & _ & O4 & _). destruct (fquat_assert_spec p (c6_norm c) q O4 F) as [A _].
    - apply Rabs_both in H2'. split; [apply Rle_trans with (bpow radix2 (-1)); [apply bpow_le; lia|cbn; lra]|apply Rle_trans with (bpow radix2 1); [cbn; lra|apply bpow_le; lia]].
    - rewrite A by lra. reflexivity. }
  assert (RD : ready (64/10) (48 / h) (OQuat q) (quat_rot (direction (qval q)))).
  { split; [exact ST|]. split; [|apply Rlt_le, Rdiv_lt_0_compat; lra]. cbn. intros _. lra. }
  pose proof (d_convert_fine p L c j (64/10) (48 / h) (OQuat q) _ HL HC ltac:(lra) RD I Lim I) as FR.
  unfold fset_from_vectors, d_set_from_vectors. rewrite (no_throw p o a b O Fa Fb Na Nb). fold q. rewrite CK. cbn [dbind].
  destruct FR as [[E _]|(n & E & T)].
  - left. exists (oconvert L c j (OQuat q)). split; [reflexivity|]. now rewrite E.
  - right. split; [|exists n; split; [now rewrite E|exact T]]. destruct j as [| |[ | | | ]]; cbn in E; try discriminate E; reflexivity.
Qed.
Lemma C84_debug_ex : let h := 1 + vdot (udir (vval (fvz 2 1 2))) (udir (vval (fvz 0 4 (-3)))) in 11/10 * short_length F32 < h /\ 48 / h * roundoff F32 <= 99 / 1000000.
Proof.
  cbv zeta. rewrite (proj2 (proj2 vz212)), (proj2 (proj2 vz346)), vdot_212. cbn [short_length]. rewrite roundoff_fu, fu_32. replace (48 / (1 + - (2/15))) with (720/13) by field. lra.
Qed.
