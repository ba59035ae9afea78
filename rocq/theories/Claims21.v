(** Claims about converting RotationMatrix objects in floating-point arithmetic
    (C73). *)
From Coq Require Import ZArith Reals Lra Psatz Bool List Lia Permutation.
From Flocq Require Import IEEE754.BinarySingleNaN Core.Core.
From Verif Require Import Linalg Spec SpecFacts SpecClose ModelCommon ModelEigen CommonFacts ModelRotation ConvFacts RotFacts CloseFacts RVFacts EulerNear PiBounds
  FloatModel FloatFacts FloatModel2 SpecFloatQ FloatQFacts FloatQProd FloatQHist FloatQRot FloatMHist FloatCast FloatWrap FloatModel3 SpecLibm SpecBuild FloatBuild FloatBuild2 FloatBuild3 FloatBuild4 FloatModel4 FloatExt FloatExt2 FloatExt3 FloatExt4 SpecExt Claims16 Claims18 FloatExt5 FloatExt6 Claims19 FloatModel6 FloatMat.
Import ListNotations.
Local Open Scope R_scope.

(** C73: the RotationQuaternion constructed from a matrix that is within d <= 1/1000
    of a rotation R holds finite numbers and is within 3 d + 14 roundings of one of
    the two unit quaternions of R, in every order of the additions, at every
    rotation: also at half turns, where the trace is -1. *)
Lemma C73_quaternion_lemma : forall (p : prim) (t : dtree) (m : FM p) (r : M33) (d : R),
  order 3 t -> mfinite m -> SO3 r -> close d (mval m) r -> d <= / 1000 ->
  let q := fquat_of_mat t m in
  qfinite q /\ exists e, qnorm e = 1 /\ quat_rot e = r /\ qdist (qval q) e <= 3 * d + 14 * roundoff p.
Proof. intros p t m r d. rewrite roundoff_fu. cbv zeta. apply fquat_of_mat_err. Qed.
(** the permutation x -> y -> z -> x: a third of a turn about (1, 1, 1) *)
Definition cyclic (p : prim) : FM p := mkFM (funit_z p) (funit_x p) (funit_y p).
Lemma cyclic_val p : mfinite (cyclic p) /\ mval (cyclic p) = mkM33 0 0 1 1 0 0 0 1 0.
Proof.
  destruct (fofZ1 p) as [F1 V1]. split; [repeat split; exact F1|]. unfold mval, cyclic, funit_x, funit_y, funit_z; cbn [r0 r1 r2 gx gy gz]. rewrite V1. reflexivity.
Qed.
Lemma cyclic_SO3 : SO3 (mkM33 0 0 1 1 0 0 0 1 0).
Proof. split; lin. Qed.
Lemma m345_close : mfinite (ftoRot stdrot q345) /\ SO3 (quat_rot (mkQ (3/5) (4/5) 0 0)) /\ close (61 * roundoff F32) (mval (ftoRot stdrot q345)) (quat_rot (mkQ (3/5) (4/5) 0 0)).
Proof.
  destruct q345_close as [E D]. rewrite roundoff_fu in *.
  destruct (ftoRot_wide F32 stdrot q345 (mkQ (3/5) (4/5) 0 0) 6 stdrot_ok (proj1 q345_val) E ltac:(lra) D) as [F C]. split; [exact F|].
  split; [apply quat_rot_SO3; rewrite <- qnorm_sq, E; ring|]. eapply close_mono; [|exact C]. pose proof (fu_pos F32). lra.
Qed.
Lemma C73_quaternion_ex : order 3 leftright3 /\ mfinite (ftoRot stdrot q345) /\ SO3 (quat_rot (mkQ (3/5) (4/5) 0 0)) /\
  close (61 * roundoff F32) (mval (ftoRot stdrot q345)) (quat_rot (mkQ (3/5) (4/5) 0 0)) /\ 61 * roundoff F32 <= / 1000.
Proof.
  split; [apply Permutation_refl|]. destruct m345_close as (A & B & C). split; [exact A|]. split; [exact B|]. split; [exact C|]. rewrite roundoff_fu, fu_32. lra.
Qed.

(** C73: an AngleAxis, RotationVector, EulerAnglesZyx or EulerAnglesXyz object
    constructed from a RotationMatrix that is within A roundings of a rotation
    (A <= 20 for RotationVector, A <= 395 for the others) holds finite numbers and
    stands for that rotation up to 6A + 46, 6A + 80 and 336A + 2044 roundings. *)
Lemma C73_from_matrix_lemma : forall (p : prim) (L : libm) (t : dtree) (b : ext_orders) (k : skind) (m : FM p) (r : M33) (A : R),
  libm_ok L -> order 3 t -> ext_ok b -> mfinite m -> SO3 r -> close (A * roundoff p) (mval m) r ->
  A <= match k with SRv => 20 | SAA | SZyx | SXyz => 395 end ->
  let s := fsource_of_mat L t b k m in
  skind_of s = k /\ object_ok (64/10) s /\
  close (match k with SAA => 6 * A + 46 | SRv => 6 * A + 80 | SZyx | SXyz => 336 * A + 2044 end * roundoff p) (turns s) r.
Proof.
  intros p L t b k m r A HL O HE Fm HR C HA. rewrite roundoff_fu in *. cbv zeta. pose proof (fu_pos p) as U. pose proof (fu_24 p) as V.
  assert (A0 : 0 <= A). { pose proof (close_nonneg _ _ _ C) as N. destruct (Rle_or_lt 0 A) as [H|H]; [exact H|]. exfalso. assert (A * fu p < 0 * fu p) by (apply Rmult_lt_compat_r; lra). lra. }
  assert (A1 : A <= 395) by (destruct k; lra). assert (A * fu p <= 395 * fu p) by (apply Rmult_le_compat_r; lra).
  destruct (fquat_of_mat_err p t m r (A * fu p) O Fm HR C ltac:(lra)) as (Fq & e & E1 & E2 & E3).
  destruct (extract_ok p L b k _ e (3 * A + 14) HL HE Fq E1) as (X & Y & Z).
  { destruct k; cbn [extract_limit]; lra. }
  { lra. }
  split; [exact X|]. split; [exact Y|]. rewrite <- E2. eapply close_mono; [|exact Z]. apply Rmult_le_compat_r; [lra|]. destruct k; cbn [extract_roundings]; lra.
Qed.
Lemma C73_from_matrix_ex : libm_ok exact_libm /\ order 3 leftright3 /\ ext_ok stdext /\
  (mfinite (cyclic F32) /\ SO3 (mkM33 0 0 1 1 0 0 0 1 0) /\ close (0 * roundoff F32) (mval (cyclic F32)) (mkM33 0 0 1 1 0 0 0 1 0)) /\
  (mfinite (ftoRot stdrot q345) /\ SO3 (quat_rot (mkQ (3/5) (4/5) 0 0)) /\ close (61 * roundoff F32) (mval (ftoRot stdrot q345)) (quat_rot (mkQ (3/5) (4/5) 0 0))).
Proof.
  split; [apply exact_libm_ok|]. split; [apply Permutation_refl|]. split; [apply stdext_ok|]. split; [|apply m345_close].
  destruct (cyclic_val F32) as [F E]. split; [exact F|]. split; [apply cyclic_SO3|]. rewrite E. apply close_refl. lra.
Qed.

(** C73: converting a matrix to a quaternion and back, and a quaternion to a matrix
    and back, preserves the rotation: up to 21A + 117 roundings for matrices; up to
    21A + 71 roundings and the sign for quaternions. *)
Lemma C73_round_trip_lemma : forall (p : prim) (t : dtree) (o : orders9),
  order 3 t -> orders9_rot_ok o ->
  (forall (m : FM p) (r : M33) (A : R), mfinite m -> SO3 r -> A <= 395 -> close (A * roundoff p) (mval m) r ->
    let m' := ftoRot o (fquat_of_mat t m) in
    mfinite m' /\ close ((21 * A + 117) * roundoff p) (mval m') r) /\
  (forall (q : FQ p) (e : Quat) (A : R), qfinite q -> qnorm e = 1 -> 0 <= A <= 1200 -> qdist (qval q) e <= A * roundoff p ->
    let q' := fquat_of_mat t (ftoRot o q) in
    qfinite q' /\ exists s, (s = 1 \/ s = -1) /\ qdist (qval q') (qscale s e) <= (21 * A + 71) * roundoff p).
Proof.
  intros p t o O OR. rewrite roundoff_fu. pose proof (fu_pos p) as U. pose proof (fu_24 p) as V. split.
  - intros m r A Fm HR HA C. cbv zeta.
    assert (A0 : 0 <= A). { pose proof (close_nonneg _ _ _ C) as N. destruct (Rle_or_lt 0 A) as [H|H]; [exact H|]. exfalso. assert (A * fu p < 0 * fu p) by (apply Rmult_lt_compat_r; lra). lra. }
    assert (A * fu p <= 395 * fu p) by (apply Rmult_le_compat_r; lra).
    destruct (fquat_of_mat_err p t m r (A * fu p) O Fm HR C ltac:(lra)) as (Fq & e & E1 & E2 & E3).
    destruct (ftoRot_wide p o _ e (3 * A + 14) OR Fq E1 ltac:(lra) ltac:(lra)) as [F C2]. split; [exact F|]. rewrite <- E2. eapply close_mono; [|exact C2]. lra.
  - intros q e A Fq E HA D. cbv zeta. assert (A * fu p <= 1200 * fu p) by (apply Rmult_le_compat_r; lra).
    destruct (ftoRot_wide p o q e A OR Fq E HA D) as [F C].
    assert (HR : SO3 (quat_rot e)) by (apply quat_rot_SO3; rewrite <- qnorm_sq, E; ring).
    destruct (fquat_of_mat_err p t _ _ _ O F HR C ltac:(lra)) as (Fq' & e' & E1 & E2 & E3). split; [exact Fq'|].
    assert (S1 : e' = e \/ e' = qneg e). { apply quat_rot_eq; [rewrite <- qnorm_sq, E1; ring|rewrite <- qnorm_sq, E; ring|exact E2]. }
    destruct S1 as [-> | ->]; [exists 1|exists (-1)]; (split; [tauto|]).
    + replace (qscale 1 e) with e by (destruct e as [ew e1 e2 e3]; unfold qscale; cbn [qw qx qy qz]; rewrite !Rmult_1_l; reflexivity). lra.
    + replace (qscale (-1) e) with (qneg e) by (destruct e as [ew e1 e2 e3]; unfold qscale, qneg; cbn [qw qx qy qz]; f_equal; lra). lra.
Qed.
Lemma C73_round_trip_ex : order 3 leftright3 /\ orders9_rot_ok stdrot /\ qfinite q345 /\ qnorm (mkQ (3/5) (4/5) 0 0) = 1 /\ qdist (qval q345) (mkQ (3/5) (4/5) 0 0) <= 6 * roundoff F32.
Proof. split; [apply Permutation_refl|]. split; [apply stdrot_ok|]. split; [apply q345_val|]. apply q345_close. Qed.

(** ** Matrices that are not rotation matrices up to rounding *)
Lemma frv_short_nan L b (w : fl F32) : libm_ok L -> ext_ok b -> is_finite w = true -> 9/10 <= B2R w <= 1 -> 108/10^7 <= 1 - B2R w * B2R w ->
  frv_of_quat L b (mkFQ w fzero fzero fzero) = SrcRv (mkFV B754_nan B754_nan B754_nan).
Proof.
  intros HL (O1 & O2 & _) F W E. unfold frv_of_quat. cbn [fw]. cbv zeta. change (fvec (mkFQ w fzero fzero fzero)) with (mkFV (fzero (p := F32)) fzero fzero).
  destruct (fofZ1 F32) as [F1 E1]. destruct (fneg_R F32 w) as [En Fn]. rewrite F in Fn.
  destruct (fdot2_err F32 (x_one b) (fofZ F32 1) (fneg w) (fofZ F32 1) w 2 O2 F1 Fn F1 F) as [Fd Ed].
  { rewrite E1, En. rewrite Rmult_1_r, Rabs_R1, Rabs_mult, Rabs_Ropp, Rabs_pos_eq by lra. assert (B2R w * B2R w <= 1 * 1) by (apply Rmult_le_compat; lra). lra. }
  { change 2 with (bpow radix2 1). apply bpow_le; lia. }
  pose proof (eta_u7 F32) as T. rewrite fu_32 in *. rewrite E1, En in Ed. apply Rabs_both in Ed.
  rewrite (flt_R F32 _ (fdummy F32) Fd (fdummy_fin F32)), fdummy_32, Rlt_bool_false by lra.
  rewrite fvnorm_zeros.
  assert (FA : is_finite (fmul (fofZ F32 2) (latan2 L F32 fzero w)) = true).
  { destruct (atan2_accurate L HL F32 fzero w eq_refl F) as [Fa Ea]; [right; lra|]. rewrite roundoff_fu, fu_32 in Ea.
    change (B2R (@fzero F32)) with 0 in Ea. pose proof (atan2_range 0 (B2R w)) as AR. pose proof PI_num as HPI. apply Rabs_both in Ea.
    destruct (fofZ2 F32) as [F2 E2]. destruct (fmul_R F32 _ _ F2 Fa) as [_ G]; [|exact G]. rewrite E2.
    eapply Rle_trans; [|apply bpow100_fbig]. apply Rle_trans with (bpow radix2 3); [change (bpow radix2 3) with 8; apply Rabs_le; lra|apply bpow_le; lia]. }
  unfold fvscale; cbn [gx gy gz]. rewrite (fdiv_zero F32 _ FA). reflexivity.
Qed.
(** 1 - 2^-16 *)
Definition near_one : fl F32 := flit F32 65535 65536.
Lemma near_one_R : is_finite near_one = true /\ B2R near_one = 65535 / 65536.
Proof.
  split; [vm_compute; reflexivity|]. unfold near_one. rewrite (B2R_of_SF F32 _ false 16776960 (-24)) by (vm_compute; reflexivity).
  unfold F2R; cbn [Fnum Fexp cond_Zopp]. change (bpow radix2 (-24)) with (/ 16777216). lra.
Qed.
Lemma fmul_zero_pos p (k : fl p) : is_finite k = true -> 0 < B2R k -> fmul fzero k = fzero.
Proof.
  intros F P. destruct k as [s|s| |s m e H]; try discriminate F; [cbn in P; lra|].
  destruct s; [|destruct p; reflexivity]. exfalso. pose proof (F2R_lt_0 radix2 (Float radix2 (Z.neg m) e) ltac:(cbn; lia)) as N. change (B2R (B754_finite true m e H)) with (F2R (Float radix2 (Z.neg m) e)) in P. lra.
Qed.

(** C73: rotation vectors need accurate matrices: the finite single-precision matrix
    (1 - 2^-16) times the identity, within 1.53e-5 of the identity, becomes a
    rotation vector of three NaNs, whatever the math library and the order of
    evaluation. *)
Lemma C73_scaled_identity_nan_lemma : forall (L : libm) (t : dtree) (b : ext_orders), libm_ok L -> order 3 t -> ext_ok b ->
  exists m : FM F32, mfinite m /\ close (153/10^7) (mval m) mid /\
    fsource_of_mat L t b SRv m = SrcRv (mkFV B754_nan B754_nan B754_nan).
Proof.
  intros L t b HL O HE. destruct near_one_R as [F E]. set (c := near_one) in *. exists (mkFM (mkFV c fzero fzero) (mkFV fzero c fzero) (mkFV fzero fzero c)).
  split; [repeat split; exact F|]. split.
  { intro v. unfold mval; cbn [r0 r1 r2 gx gy gz]. change (B2R (@fzero F32)) with 0. rewrite E.
    replace (vsub _ _) with (vscale (- / 65536) v). 2:{ destruct v as [x y z]. unfold vscale, vsub, mvmul, mid; cbn [vx vy vz m00 m01 m02 m10 m11 m12 m20 m21 m22]. f_equal; lra. }
    rewrite vnorm_vscale, Rabs_Ropp, Rabs_pos_eq by lra. apply Rmult_le_compat_r; [apply vn_nonneg|lra]. }
  destruct (fofZ1 F32) as [F1 V1]. pose proof (eta_u7 F32) as T. rewrite fu_32 in *.
  destruct (fdot3_err F32 t c c c (fofZ F32 1) (fofZ F32 1) (fofZ F32 1) 3 O F F F F1 F1 F1) as [Ft Et].
  { rewrite dotabs_eq, V1, !Rmult_1_r, E, Rabs_pos_eq by lra. lra. }
  { apply Rle_trans with (bpow radix2 2); [change (bpow radix2 2) with 4; lra|apply bpow_le; lia]. }
  rewrite V1, !Rmult_1_r, E, fu_32 in Et. unfold fsource_of_mat, fsource_of_quat, fquat_of_mat. cbn [r0 r1 r2 gx gy gz]. cbv zeta.
  set (tr := fdot t [c; c; c] [fofZ F32 1; fofZ F32 1; fofZ F32 1]) in *. apply Rabs_both in Et.
  rewrite (flt_R F32 fzero tr eq_refl Ft). change (B2R (@fzero F32)) with 0. rewrite Rlt_bool_true by lra.
  destruct (fadd_err F32 tr (fofZ F32 1) (401/100) Ft F1) as [FS ES]; [rewrite V1; apply Rabs_le; lra|lra|]. rewrite V1, fu_32 in ES. apply Rabs_both in ES.
  assert (SQ : 0 < 1 - 3/4 * / 65536) by lra. set (a := sqrt (1 - 3/4 * / 65536)). assert (AA : a * a = 1 - 3/4 * / 65536) by (apply sqrt_sqrt; lra).
  assert (A0 : 0 <= a) by apply sqrt_pos. assert (A1 : 99/100 <= a <= 1 - / 175000) by (split; nra).
  destruct (fpivot_err F32 _ a (14 * / 16777216) FS ltac:(lra) ltac:(lra)) as (Fh & Fk & Eh & Kb & Ek); [rewrite AA; apply Rabs_le; lra|lra|].
  rewrite fu_32 in Eh, Ek. set (k := fdiv (fhalf F32) (fsqrt (fadd tr (fofZ F32 1)))) in *. apply Rabs_both in Ek. apply Rabs_both in Eh.
  assert (Kp : 0 < B2R k). { destruct Kb as [[K|K] _]; [exact K|]. rewrite <- K in Ek. lra. }
  change (fsub (@fzero F32) fzero) with (@fzero F32). rewrite (fmul_zero_pos F32 k Fk Kp).
  set (w := fmul (fhalf F32) (fsqrt (fadd tr (fofZ F32 1)))) in *. apply frv_short_nan; try assumption; [lra|].
  assert (B2R w <= a + 5 / 16777216) by lra. assert (W2 : B2R w * B2R w <= (a + 5 / 16777216) * (a + 5 / 16777216)) by (apply Rmult_le_compat; lra). lra.
Qed.
