(** Claims about the inverse of a general Quaternion and the products of rotations and
    quaternion derivatives in floating-point arithmetic (C87). *)
From Coq Require Import ZArith Reals Lra Psatz Bool List Lia Permutation.
From Flocq Require Import IEEE754.BinarySingleNaN Core.Core.
From Verif Require Import Linalg Spec SpecFacts SpecClose SpecDiff ModelDiff DerivFacts DiffFacts DiffFacts2 ModelCommon ModelEigen CommonFacts CloseFacts ModelRotation
  FloatModel FloatFacts FloatWrap FloatModel2 SpecFloatQ FloatQFacts FloatQProd FloatQHist FloatQRot FloatMHist FloatCast FloatModel3 SpecLibm SpecBuild FloatBuild FloatBuild4 FloatModel4 FloatModel5 FloatModel6 FloatModel7 SpecSix FloatSix FloatExt3 FloatModel16 FloatInv FloatInv2 Claims4 Claims16 Claims18 Claims19 Claims22 Claims30 ConvFacts.
Import ListNotations.
Local Open Scope R_scope.

Lemma inverse_exact (q : Quat) k : qnorm2 q = k -> k <> 0 -> hamilton q (qscale (/ k) (conj q)) = mkQ 1 0 0 0 /\ hamilton (qscale (/ k) (conj q)) q = mkQ 1 0 0 0.
Proof.
  intros <- H. destruct q as [a b c d]. unfold qnorm2 in *; cbn [qw qx qy qz] in *. split; unfold hamilton, conj, qscale, qvec, vdot, vadd, vscale, vcross; cbn [qw qx qy qz vx vy vz]; f_equal; field; exact H.
Qed.

(** C87: inverted() of a general quaternion in floating-point arithmetic, for every
    order of evaluation and either way of dividing: if the length lies between 2^-50
    and 2^50, the result is finite and within 6.2 roundings, relative to its length, of
    the exact inverse (the conjugate divided by the square of the length), and the
    product of the quaternion and its inverse, on either side, is within 16 roundings of
    the identity. *)
Lemma C87_inverse_lemma : forall (p : prim) (t : dtree) (m : divmode) (o : orders4) (q : FQ p),
  order 4 t -> orders4_ok o -> qfinite q -> bpow radix2 (-50) <= qnorm (qval q) <= bpow radix2 50 ->
  let n := qnorm (qval q) in
  let inv := finverted t m q in
  qfinite inv /\ qdist (qval inv) (qscale (/ (n * n)) (conj (qval q))) <= 62/10 * roundoff p / n /\
  qfinite (fmult o q inv) /\ qdist (qval (fmult o q inv)) (mkQ 1 0 0 0) <= 16 * roundoff p /\
  qfinite (fmult o inv q) /\ qdist (qval (fmult o inv q)) (mkQ 1 0 0 0) <= 16 * roundoff p.
Proof.
  intros p t m o q O O4 F L. cbv zeta. rewrite roundoff_fu. destruct (finverted_err p t m q O F L) as [Fi E]. set (n := qnorm (qval q)) in *.
  pose proof (bpow_gt_0 radix2 (-50)) as P0. assert (n0 : 0 < n) by lra. assert (Iv : 0 < / n) by (now apply Rinv_0_lt_compat). pose proof (fu_pos p) as U. pose proof (fu_24 p) as V.
  split; [exact Fi|]. split; [unfold Rdiv at 2; lra|].
  set (x := qval (finverted t m q)) in *. set (y := qscale (/ (n * n)) (conj (qval q))) in *.
  assert (S2 : qnorm2 (qval q) = n * n) by (symmetry; apply qnorm_sq).
  assert (NN : n * n <> 0) by (apply Rmult_integral_contrapositive_currified; lra).
  destruct (inverse_exact (qval q) (n * n) S2 NN) as [Q1 Q2]. fold y in Q1, Q2.
  assert (Ny : qnorm y = / n).
  { unfold y. rewrite qnorm_scale, (Rabs_pos_eq (/ (n * n))) by (apply Rlt_le, Rinv_0_lt_compat; apply Rmult_lt_0_compat; lra). rewrite qnorm_conj. fold n. field. lra. }
  pose proof (qdist_norm x y) as DN. rewrite Ny in DN. apply Rabs_both in DN.
  assert (E' : n * qdist x y <= 31/5 * fu p). { apply Rle_trans with (n * (31/5 * fu p * / n)); [apply Rmult_le_compat_l; lra|]. right. field. lra. }
  assert (NX : n * qnorm x <= 1 + 31/5 * fu p). { apply Rle_trans with (n * (/ n + qdist x y)); [apply Rmult_le_compat_l; lra|]. rewrite Rmult_plus_distr_l, Rinv_r by lra. lra. }
  pose proof (qn_nonneg x) as NX0. assert (NX1 : 0 <= n * qnorm x) by (apply Rmult_le_pos; lra).
  assert (B : 2 <= bpow radix2 120) by (change 2 with (bpow radix2 1); apply bpow_le; lia).
  assert (UF : underflow p <= / 1000 * fu p).
  { unfold underflow, fu. apply Rle_trans with (bpow radix2 (-10) * bpow radix2 (- fprec p)); [rewrite <- bpow_plus; destruct p; apply bpow_le; vm_compute; discriminate|].
    apply Rmult_le_compat_r; [apply bpow_ge_0|]. change (bpow radix2 (-10)) with (/ 1024). lra. }
  assert (K : 9 * fu p * (n * qnorm x) <= 9 * fu p * (1 + / 1000)) by (apply Rmult_le_compat_l; lra).
  destruct (fmult_err p o q (finverted t m q) O4 F Fi) as [F1 E1]; [fold x n; lra|]. fold x n in E1.
  destruct (fmult_err p o (finverted t m q) q O4 Fi F) as [F2 E2]; [fold x n; lra|]. fold x n in E2. rewrite (Rmult_comm (qnorm x)) in E2.
  split; [exact F1|]. split; [|split; [exact F2|]].
  - eapply Rle_trans; [apply (qdist_triang _ (hamilton (qval q) x))|]. rewrite <- Q1, hamilton_dist_r. fold n. lra.
  - eapply Rle_trans; [apply (qdist_triang _ (hamilton x (qval q)))|]. rewrite <- Q2, hamilton_dist_l. fold n. lra.
Qed.
Lemma C87_inverse_ex : order 4 leftright4 /\ order 4 fused4 /\ orders4_ok std4 /\ qfinite q345 /\ bpow radix2 (-50) <= qnorm (qval q345) <= bpow radix2 50 /\
  B2SF (fx (finverted fused4 Quotient q345)) = SpecFloat.S754_finite true 13421773 (-24) /\
  B2SF (fx (finverted leftright4 Reciprocal q345)) = SpecFloat.S754_finite true 13421773 (-24).
Proof. split; [apply leftright4_ok|]. split; [apply fused4_ok|]. split; [apply std4_ok|]. split; [apply q345_val|]. split; [apply C66_fix_ex|]. split; vm_compute; reflexivity. Qed.

(** C87: outside of that range both functions fail silently. If every coefficient is at
    most 2^-76 (float) or 2^-538 (double), the squared norm evaluates to zero:
    inverted() returns the zero quaternion and normalized() the quaternion itself,
    however short it is. If one coefficient reaches 2^64 (float) or 2^512 (double), the
    squared norm overflows, and inverted() and normalized() both return zero. *)
Definition vanishing (p : prim) : R := match p with F32 => bpow radix2 (-76) | F64 => bpow radix2 (-538) end.
Definition overflowing (p : prim) : R := match p with F32 => bpow radix2 64 | F64 => bpow radix2 512 end.
Lemma C87_out_of_range_lemma : forall (p : prim) (t : dtree) (m : divmode) (q : FQ p),
  order 4 t -> qfinite q ->
  (Rabs (qw (qval q)) <= vanishing p -> Rabs (qx (qval q)) <= vanishing p -> Rabs (qy (qval q)) <= vanishing p -> Rabs (qz (qval q)) <= vanishing p ->
    finverted t m q = mkFQ fzero fzero fzero fzero /\ fnormalize t m q = q) /\
  (overflowing p <= Rabs (qw (qval q)) \/ overflowing p <= Rabs (qx (qval q)) \/ overflowing p <= Rabs (qy (qval q)) \/ overflowing p <= Rabs (qz (qval q)) ->
    (qfinite (finverted t m q) /\ qval (finverted t m q) = mkQ 0 0 0 0) /\ (qfinite (fnormalize t m q) /\ qval (fnormalize t m q) = mkQ 0 0 0 0)).
Proof.
  intros p t m q O F. split.
  - intros W X Y Z. assert (B : vanishing p * vanishing p <= eta p / 2).
    { unfold eta, Rdiv. change (/ 2) with (bpow radix2 (-1)). rewrite <- !bpow_plus. destruct p; cbn [vanishing]; rewrite <- bpow_plus; apply bpow_le; vm_compute; discriminate. }
    destruct (fsqnorm_vanish p t q (vanishing p) O F B W X Y Z) as [G V]. now apply vanish_results.
  - intro H. assert (B : bpow radix2 (femax p) <= overflowing p * overflowing p) by (destruct p; cbn [overflowing]; rewrite <- bpow_plus; apply bpow_le; vm_compute; discriminate).
    apply inf_results; [exact F|]. apply (fsqnorm_inf p t q (overflowing p) O F); [destruct p; apply bpow_ge_0|exact B|exact H].
Qed.
Definition tiny_quat : FQ F32 := mkFQ (Bldexp mode_NE (fofZ F32 1) (-80)) (Bldexp mode_NE (fofZ F32 3) (-80)) fzero fzero.
Definition huge_quat : FQ F32 := mkFQ (fofZ F32 1) (Bldexp mode_NE (fofZ F32 1) 70) fzero fzero.
Lemma C87_out_of_range_ex : (qfinite tiny_quat /\ qval tiny_quat = mkQ (bpow radix2 (-80)) (3 * bpow radix2 (-80)) 0 0 /\ 3 * bpow radix2 (-80) <= vanishing F32) /\
  (qfinite huge_quat /\ qval huge_quat = mkQ 1 (bpow radix2 70) 0 0 /\ overflowing F32 <= bpow radix2 70).
Proof.
  assert (M : forall (x : fl F32) m e k, B2SF x = SpecFloat.S754_finite false m e -> IZR (Zpos m) = bpow radix2 k -> B2R x = bpow radix2 (k + e)).
  { intros x m e k H K. rewrite <- SF2R_B2SF, H. cbn [SF2R]. unfold F2R. cbn [Fnum Fexp cond_Zopp]. rewrite K. now rewrite <- bpow_plus. }
  split; (split; [repeat split; vm_compute; reflexivity|]).
  - split; [|apply Rle_trans with (bpow radix2 2 * bpow radix2 (-80)); [apply Rmult_le_compat_r; [apply bpow_ge_0|cbn; lra]|]; rewrite <- bpow_plus; apply bpow_le; lia].
    assert (A : B2R (fw tiny_quat) = bpow radix2 (-80)) by (apply (M _ 8388608%positive (-103)%Z 23%Z); [vm_compute; reflexivity|cbn; lra]).
    assert (B : B2R (fx tiny_quat) = 3 * bpow radix2 (-80)).
    { rewrite <- SF2R_B2SF. replace (B2SF (fx tiny_quat)) with (SpecFloat.S754_finite false 12582912 (-102)) by (vm_compute; reflexivity). cbn [SF2R]. unfold F2R. cbn [Fnum Fexp cond_Zopp].
      replace (bpow radix2 (-80)) with (bpow radix2 22 * bpow radix2 (-102)) by (rewrite <- bpow_plus; reflexivity). change (bpow radix2 22) with 4194304. lra. }
    unfold qval. rewrite A, B. reflexivity.
  - split; [|apply bpow_le; lia].
    assert (A : B2R (fw huge_quat) = 1) by apply fofZ1.
    assert (B : B2R (fx huge_quat) = bpow radix2 70) by (apply (M _ 8388608%positive 47%Z 23%Z); [vm_compute; reflexivity|cbn; lra]).
    unfold qval. rewrite A, B. reflexivity.
Qed.

(** C87: rotation * derivative and derivative * rotation, in floating-point arithmetic,
    for a rotation object of any of the six classes. The rotation r that the object
    stands for is represented by a unit quaternion e, up to the conversion error of the
    class, and the product is the derivative of e c(s) or of c(s) e for every quaternion
    curve c whose derivative the operand holds up to an error B, with at most the stated
    number of roundings, relative to the size of the derivative, and the underflow. *)
Lemma C87_rotation_times_derivative_lemma : forall (p : prim) (L : libm) (cc : choices6) (o : orders4) (x : fobject p) (r : M33) (T A : R) (f : FQ p) (c : R -> Quat) (t : R) (d : Quat) (B : R),
  libm_ok L -> choices6_ok cc -> orders4_ok o -> 64/10 <= T <= 655/100 -> stands T A x r -> conv_limit p (okind_of x) KQuat A ->
  qfinite f -> Qderiv c t d -> qdist (qval f) d <= B -> qnorm d + B <= 2 ^ 100 ->
  let bound := (conv_defect (okind_of x) KQuat A + 93/10) * roundoff p * (qnorm d + B) + B + underflow p in
  exists e, qnorm e = 1 /\ close (conv_error p (okind_of x) KQuat A) (quat_rot e) r /\
  exists dl dr, Qderiv (fun s => hamilton e (c s)) t dl /\ Qderiv (fun s => hamilton (c s) e) t dr /\
    qfinite (frot_times_quatdiff L cc o x f) /\ qdist (qval (frot_times_quatdiff L cc o x f)) dl <= bound /\
    qfinite (fquatdiff_times_rot L cc o f x) /\ qdist (qval (fquatdiff_times_rot L cc o f x)) dr <= bound.
Proof.
  intros p L cc o x r T A f c t d B HL HC HO HT HS HLim Ff D HB HS2. cbv zeta.
  destruct (C74_convert_lemma p L cc KQuat x r T A HL HC HT HS HLim) as [K (r' & S' & C')]. unfold frot_times_quatdiff, fquatdiff_times_rot.
  destruct (oconvert L cc KQuat x) as [a|m|s]; try discriminate K. cbn [stands] in S'. destruct S' as (Fa & Na & Ra). set (A' := conv_defect (okind_of x) KQuat A) in *.
  rewrite roundoff_fu in *. pose proof (fu_pos p) as U. pose proof (fu_24 p) as V. pose proof (qn_nonneg d) as d0. pose proof (qdist_nonneg (qval f) d) as b0.
  assert (AU : A' * fu p <= / 40).
  { unfold A'. destruct (okind_of x); cbn [conv_defect conv_limit] in *; rewrite ?roundoff_fu in HLim; lra. }
  apply Rabs_both in Na as Na'. assert (P : 0 < qnorm (qval a)) by lra.
  exists (direction (qval a)). split; [apply direction_norm; exact P|]. split; [rewrite Ra; exact C'|].
  set (e := direction (qval a)) in *.
  destruct (C53_rotation_times_derivative_lemma p (RotQuat e) e c t d) as (dl & dr & E1 & E2 & D1 & D2 & _); [reflexivity|exact D|].
  exists dl, dr. split; [exact D1|]. split; [exact D2|].
  assert (H1 : dl = hamilton e d) by (change (Val (e_mul e d) = Val dl) in E1; rewrite <- e_mul_hamilton; congruence).
  assert (H2 : dr = hamilton d e) by (change (Val (e_mul d e) = Val dr) in E2; rewrite <- e_mul_hamilton; congruence).
  pose proof (qdist_norm (qval f) d) as NF. apply Rabs_both in NF. set (M := qnorm d + B) in *. assert (NF' : qnorm (qval f) <= M) by (unfold M; lra). pose proof (qn_nonneg (qval f)) as f0.
  assert (DE : qdist (qval a) e <= A' * fu p).
  { unfold e, qdist, direction. replace (qsub (qval a) (qscale (/ qnorm (qval a)) (qval a))) with (qscale (1 - / qnorm (qval a)) (qval a)) by (unfold qsub, qscale; cbn [qw qx qy qz]; f_equal; ring).
    rewrite qnorm_scale. rewrite <- (Rabs_pos_eq (qnorm (qval a))) at 2 by lra. rewrite <- Rabs_mult. replace ((1 - / qnorm (qval a)) * qnorm (qval a)) with (qnorm (qval a) - 1) by (field; lra). exact Na. }
  assert (Ne : qnorm e = 1) by (apply direction_norm; exact P).
  assert (PR : qnorm (qval a) * qnorm (qval f) <= (1 + / 40) * M) by (apply Rmult_le_compat; lra).
  assert (PB : (1 + / 40) * M <= bpow radix2 120). { apply Rle_trans with (2 * 2 ^ 100); [lra|]. rewrite <- b100. change 2 with (bpow radix2 1). rewrite <- bpow_plus. apply bpow_le. lia. }
  assert (AM : qdist (qval a) e * qnorm (qval f) <= A' * fu p * M) by (apply Rmult_le_compat; [apply qdist_nonneg|lra|lra|lra]).
  assert (G : 9 * fu p * (qnorm (qval a) * qnorm (qval f)) <= 9 * fu p * ((1 + / 40) * M)) by (apply Rmult_le_compat_l; lra).
  assert (UM : 0 <= fu p * M) by (apply Rmult_le_pos; unfold M; lra).
  destruct (fmult_err p o a f HO Fa Ff) as [F1 X1]; [lra|].
  destruct (fmult_err p o f a HO Ff Fa) as [F2 X2]; [lra|]. rewrite (Rmult_comm (qnorm (qval f))) in X2.
  replace ((A' + 93/10) * fu p * M) with (A' * fu p * M + 93/10 * (fu p * M)) by ring.
  split; [exact F1|]. split; [|split; [exact F2|]].
  - rewrite H1. eapply Rle_trans; [apply (qdist_triang _ (hamilton (qval a) (qval f)))|]. eapply Rle_trans; [apply Rplus_le_compat; [exact X1|apply (qdist_triang _ (hamilton e (qval f)))]|].
    rewrite hamilton_dist_l, hamilton_dist_r, Ne. lra.
  - rewrite H2. eapply Rle_trans; [apply (qdist_triang _ (hamilton (qval f) (qval a)))|]. eapply Rle_trans; [apply Rplus_le_compat; [exact X2|apply (qdist_triang _ (hamilton (qval f) e))]|].
    rewrite hamilton_dist_l, hamilton_dist_r, Ne. rewrite (Rmult_comm (qnorm (qval f))). lra.
Qed.
(** a rotation matrix and a quaternion spinning about the x axis *)
Lemma C87_rotation_times_derivative_ex : libm_ok exact_libm /\ choices6_ok stdsix /\ orders4_ok std4 /\
  stands (64/10) 61 (OMat m345) (quat_rot (mkQ (3/5) (4/5) 0 0)) /\ conv_limit F32 KMat KQuat 61 /\
  Qderiv (fun s => mkQ (cos s) (sin s) 0 0) 0 (mkQ 0 1 0 0) /\ qdist (qval (mkFQ fzero (fofZ F32 1) fzero fzero)) (mkQ 0 1 0 0) <= 0 /\ qnorm (mkQ 0 1 0 0) + 0 <= 2 ^ 100.
Proof.
  split; [apply exact_libm_ok|]. split; [apply stdsix_ok|]. split; [apply std4_ok|]. split; [apply m345_stands|]. split; [cbn [conv_limit]; rewrite roundoff_fu, fu_32; lra|].
  split. { unfold Qderiv; cbn. repeat split; dl_solve; rewrite ?sin_0, ?cos_0; ring. }
  split.
  - unfold qval; cbn [fw fx fy fz]. rewrite (proj2 (fofZ1 F32)). change (B2R (@fzero F32)) with 0. unfold qdist, qnorm, qsub, qnorm2; cbn [qw qx qy qz]. right. rewrite <- sqrt_0. f_equal. ring.
  - unfold qnorm, qnorm2; cbn [qw qx qy qz]. replace (0 * 0 + 1 * 1 + 0 * 0 + 0 * 0) with 1 by ring. rewrite sqrt_1. assert (1 <= 2 ^ 100) by (apply pow_R1_Rle; lra). assert (H2 : 2 <= 2 ^ 100) by (rewrite <- (pow_1 2) at 1; apply Rle_pow; [lra|lia]). lra.
Qed.
