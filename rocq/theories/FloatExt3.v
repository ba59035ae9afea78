(** * FloatExt3: RotationVector from a quaternion, in floating-point arithmetic. *)
From Coq Require Import ZArith Reals Lra Psatz Bool List Lia.
From Flocq Require Import IEEE754.BinarySingleNaN Core.Core.
From Verif Require Import Linalg Spec SpecFacts SpecClose ModelCommon ModelEigen CommonFacts ModelRotation ConvFacts CloseFacts RVFacts EulerNear PiBounds
  FloatModel FloatFacts FloatModel2 SpecFloatQ FloatQFacts FloatQProd FloatQHist FloatQRot FloatMHist FloatCast FloatWrap FloatModel3 SpecLibm FloatBuild FloatBuild2 FloatBuild3 FloatBuild4 FloatModel4 FloatExt FloatExt2.
Import ListNotations.
Local Open Scope R_scope.

Lemma fofZm2 p : is_finite (fofZ p (-2)) = true /\ B2R (fofZ p (-2)) = -2.
Proof. destruct p; (split; [reflexivity|]); vm_compute; lra. Qed.
Lemma fdummy_fin p : is_finite (fdummy p) = true. Proof. destruct p; vm_compute; reflexivity. Qed.
Lemma fdummy_32 : B2R (fdummy F32) = 10995116 / 1099511627776.
Proof.
  rewrite (B2R_of_SF F32 (fdummy F32) false 10995116 (-40)) by (vm_compute; reflexivity). unfold F2R; cbn [Fnum Fexp cond_Zopp].
  change (bpow radix2 (-40)) with (/ 1099511627776). reflexivity.
Qed.
Lemma fdummy_64 : B2R (fdummy F64) = 4951760157141521 / 4951760157141521099596496896.
Proof.
  rewrite (B2R_of_SF F64 (fdummy F64) false 4951760157141521 (-92)) by (vm_compute; reflexivity). unfold F2R; cbn [Fnum Fexp cond_Zopp].
  change (bpow radix2 (-92)) with (/ 4951760157141521099596496896). reflexivity.
Qed.
Lemma fu_32 : fu F32 = / 16777216. Proof. reflexivity. Qed.
Lemma fu_64v : fu F64 = / 9007199254740992. Proof. reflexivity. Qed.
Lemma dummy_facts p : exists c, 0 < c <= / 100 /\ B2R (fdummy p) + 160 * fu p <= c * c /\ c * (B2R (fdummy p) + 160 * fu p) <= 3/2 * fu p /\
  167 * fu p <= B2R (fdummy p) <= / 10000.
Proof.
  destruct p.
  - exists (443/100000). rewrite fdummy_32, fu_32. lra.
  - exists (2/1000000). rewrite fdummy_64, fu_64v. lra.
Qed.
Lemma rv_quat_half v : 0 < vnorm v -> rv_quat v = half_quat (vnorm v) (vscale (/ vnorm v) v).
Proof.
  intro H. unfold rv_quat, rv_sinc, half_quat. destruct (Req_EM_T (vnorm v) 0) as [E|E]; [lra|]. unfold vscale; cbn [vx vy vz]. f_equal; field; lra.
Qed.
Lemma rv_quat_zero v : vnorm v = 0 -> rv_quat v = qid.
Proof.
  intro E. assert (Z : v = vzero).
  { pose proof (vnorm_sq v) as H. rewrite E in H. unfold vnorm2, vdot in H. destruct v as [x y z]; cbn in *. unfold vzero. f_equal; nra. }
  unfold rv_quat. rewrite E. subst v. cbn [vx vy vz vzero]. replace (0 / 2) with 0 by field. rewrite cos_0. unfold qid. f_equal; ring.
Qed.
(** the norm part and the direction part of a rotation vector *)
Lemma rv_quat_close x th e d1 d2 : vnorm2 e = 1 -> 0 < vnorm x -> Rabs (vnorm x - th) <= d1 -> vdist (vscale (/ vnorm x) x) e <= d2 ->
  qdist (rv_quat x) (half_quat th e) <= d1 / 2 + d2.
Proof.
  intros E X D1 D2. rewrite (rv_quat_half x X). eapply Rle_trans; [apply (qdist_triang _ (half_quat (vnorm x) e))|].
  pose proof (half_quat_axis (vnorm x) (vscale (/ vnorm x) x) e) as H1. pose proof (half_quat_angle (vnorm x) th e E) as H2.
  assert (Rabs (sin (vnorm x / 2)) <= 1) by (apply Rabs_le, SIN_bound). pose proof (Rabs_pos (sin (vnorm x / 2))).
  assert (0 <= vdist (vscale (/ vnorm x) x) e) by apply vn_nonneg.
  assert (Rabs (sin (vnorm x / 2)) * vdist (vscale (/ vnorm x) x) e <= 1 * vdist (vscale (/ vnorm x) x) e) by (apply Rmult_le_compat_r; lra). lra.
Qed.

Lemma sin_below t : 0 <= t -> sin t <= t.
Proof. intro H. pose proof (sin_abs_le t) as S1. rewrite (Rabs_pos_eq t H) in S1. apply Rabs_both in S1. lra. Qed.
Lemma vnorm_zero v : vnorm v = 0 -> v = vzero.
Proof. intro E. pose proof (vnorm_sq v) as H. rewrite E in H. unfold vnorm2, vdot in H. destruct v as [x y z]; cbn in *. unfold vzero. f_equal; nra. Qed.
Lemma vnorm_diff x y : Rabs (vnorm x - vnorm y) <= vdist x y.
Proof.
  unfold vdist. apply Rabs_le. split.
  - pose proof (vnorm_triang3 x (vsub y x)) as W1. replace (vadd x (vsub y x)) with y in W1 by lin. replace (vnorm (vsub y x)) with (vnorm (vsub x y)) in W1 by (unfold vnorm; f_equal; lin). lra.
  - pose proof (vnorm_triang3 y (vsub x y)) as W1. replace (vadd y (vsub x y)) with x in W1 by lin. lra.
Qed.
Lemma fvscale_two p z (s : R) (v : FV p) : vfinite v -> is_finite z = true -> B2R z = 2 * s -> (s = 1 \/ s = -1) -> vnorm (vval v) <= 2 ->
  vfinite (fvscale z v) /\ vval (fvscale z v) = vscale (2 * s) (vval v).
Proof.
  intros (Fx & Fy & Fz) Fz' Vz Hs N. destruct (vcomp_le (vval v)) as (C1 & C2 & C3). cbn [vval vx vy vz] in C1, C2, C3.
  assert (G : forall c : fl p, is_finite c = true -> Rabs (B2R c) <= 2 -> is_finite (fmul z c) = true /\ B2R (fmul z c) = 2 * s * B2R c).
  { intros c Fc Hc. destruct (fmul_R p z c Fz' Fc) as [R F].
    - rewrite Vz, !Rabs_mult. assert (SA : Rabs s = 1) by (destruct Hs as [-> | ->]; [apply Rabs_R1|apply Rabs_m1]). rewrite SA, (Rabs_pos_eq 2) by lra. pose proof (four_fbig p). lra.
    - split; [exact F|]. rewrite R, Vz. apply rnd_id. replace (2 * s * B2R c) with (2 * (s * B2R c)) by ring. apply fmt_double.
      destruct Hs as [-> | ->]; [rewrite Rmult_1_l; apply fmt_B2R|]. replace (-1 * B2R c) with (- B2R c) by ring. apply fmt_opp, fmt_B2R. }
  destruct (G _ Fx ltac:(lra)) as [F1 E1]. destruct (G _ Fy ltac:(lra)) as [F2 E2]. destruct (G _ Fz ltac:(lra)) as [F3 E3].
  split; [now split|]. unfold vval, fvscale, vscale; cbn [gx gy gz vx vy vz]. now rewrite E1, E2, E3.
Qed.

Lemma frv_of_quat_err p L b (q : FQ p) e A : libm_ok L -> order 3 (x_norm b) -> order 2 (x_one b) -> qfinite q -> qnorm e = 1 -> 0 <= A <= 76 -> qdist (qval q) e <= A * fu p ->
  exists v, frv_of_quat L b q = SrcRv v /\ vfinite v /\ vnorm (vval v) <= 64/10 /\
   exists e', qnorm e' = 1 /\ quat_rot e' = quat_rot e /\ qdist (rv_quat (vval v)) e' <= (A + 26) * fu p.
Proof.
  intros HL O O1 Fq E HA D. pose proof (fu_pos p) as U. pose proof (fu_24 p) as V. pose proof (eta_pos p) as P. pose proof (eta_u7 p) as T. pose proof (eta_u p) as T2. pose proof PI_num as HPI.
  destruct (dummy_facts p) as (c & C0 & C1 & C2 & C3). pose proof (fdummy_fin p) as Fdp. set (dp := B2R (fdummy p)) in *.
  assert (AU : 0 <= A * fu p <= 76 * fu p) by nra.
  assert (Fv : vfinite (fvec q)) by (destruct Fq as (? & ? & ? & ?); repeat split; assumption).
  assert (Fw : is_finite (fw q) = true) by apply Fq.
  destruct (operand_wide p A q e ltac:(lra) E D) as (QN & DD & QP). apply Rabs_both in QN.
  set (w := B2R (fw q)) in *. set (N := vnorm (vval (fvec q))). assert (N0 : 0 <= N) by apply vn_nonneg.
  assert (SQ : qnorm (qval q) * qnorm (qval q) = w * w + N * N). { rewrite qnorm_sq. unfold N. rewrite vnorm_sq. unfold qnorm2, vnorm2, vdot, qval, vval, fvec, w; cbn [qw qx qy qz vx vy vz gx gy gz]. ring. }
  assert (U2 : fu p * fu p <= / 16777216 * fu p) by (apply Rmult_le_compat_r; lra).
  assert (SQ1 : 1 - 153 * fu p <= w * w + N * N <= 1 + 153 * fu p).
  { rewrite <- SQ. assert ((1 - 76 * fu p) * (1 - 76 * fu p) <= qnorm (qval q) * qnorm (qval q)) by (apply Rmult_le_compat; lra).
    assert (qnorm (qval q) * qnorm (qval q) <= (1 + 76 * fu p) * (1 + 76 * fu p)) by (apply Rmult_le_compat; lra). assert (0 <= fu p * fu p) by apply Rle_0_sqr. lra. }
  assert (WW : 0 <= w * w) by apply Rle_0_sqr. assert (NN : 0 <= N * N) by apply Rle_0_sqr.
  assert (N2 : N <= 101/100) by (apply sq_le_le; lra).
  unfold frv_of_quat. cbv zeta. destruct (fofZ1 p) as [F1 V1]. destruct (fneg_R p (fw q)) as [Vn Fn']. fold w in Vn.
  destruct (fdot2_err p (x_one b) (fofZ p 1) (fneg (fw q)) (fofZ p 1) (fw q) (2 + / 1000) O1 F1 ltac:(rewrite Fn'; exact Fw) F1 Fw) as [Fs Es].
  { rewrite V1, Vn. fold w. replace (1 * 1) with 1 by ring. replace (- w * w) with (- (w * w)) by ring. rewrite Rabs_R1, Rabs_Ropp, Rabs_pos_eq by exact WW. lra. }
  { apply Rle_trans with (bpow radix2 2); [change (bpow radix2 2) with 4; lra|apply bpow_le; lia]. }
  rewrite V1, Vn in Es. fold w in Es. set (s := fdot (x_one b) [fofZ p 1; fneg (fw q)] [fofZ p 1; fw q]) in *.
  replace (1 * 1 + - w * w) with (1 - w * w) in Es by ring. apply Rabs_both in Es.
  rewrite (flt_R p s (fdummy p) Fs Fdp). fold dp. destruct (Rlt_bool_spec (B2R s) dp) as [S1|S1].
  - (* small angle *)
    assert (NB : N * N <= dp + 160 * fu p) by lra. assert (NC : N <= c) by (apply sq_le_le; lra). assert (N3 : N * (N * N) <= 3/2 * fu p) by (eapply Rle_trans; [apply Rmult_le_compat; [exact N0|exact NN|exact NC|exact NB]|exact C2]).
    assert (Nl : N <= / 100) by lra. assert (NN' : N * N <= / 100 * / 100) by (apply Rmult_le_compat; lra).
    destruct (sign_quat (qval q) e (fu p) A E D) as (SS & S2 & Qw & Qn & E1 & E2 & D1). set (sg := if Rlt_bool (qw (qval q)) 0 then -1 else 1) in *.
    set (e' := qscale sg e) in *. set (q' := qscale sg (qval q)) in *. change (qw (qval q)) with w in *.
    assert (Wn : w <> 0) by (intro Z; rewrite Z in *; lra).
    assert (Z : exists z : fl p, is_finite z = true /\ B2R z = 2 * sg /\ (if flt fzero (fw q) then SrcRv (fvscale (fofZ p 2) (fvec q)) else SrcRv (fvscale (fofZ p (-2)) (fvec q))) = SrcRv (fvscale z (fvec q))).
    { rewrite (flt_R p fzero (fw q) eq_refl Fw). change (B2R (@fzero p)) with 0. fold w. destruct (Rlt_bool_spec 0 w) as [X|X].
      - exists (fofZ p 2). destruct (fofZ2 p) as [G1 G2]. split; [exact G1|]. split; [|reflexivity]. rewrite G2. unfold sg. rewrite Rlt_bool_false by lra. ring.
      - exists (fofZ p (-2)). destruct (fofZm2 p) as [G1 G2]. split; [exact G1|]. split; [|reflexivity]. rewrite G2. unfold sg. rewrite Rlt_bool_true by lra. ring. }
    destruct Z as (z & Fz & Vz & ->). destruct (fvscale_two p z sg (fvec q) Fv Fz Vz S2 ltac:(fold N; lra)) as [Fr Vr].
    exists (fvscale z (fvec q)). split; [reflexivity|]. split; [exact Fr|]. rewrite Vr.
    assert (SA : Rabs (2 * sg) = 2) by (rewrite Rabs_mult, (Rabs_pos_eq 2) by lra; destruct S2 as [-> | ->]; [rewrite Rabs_R1|rewrite Rabs_m1]; ring).
    assert (VN : vnorm (vscale (2 * sg) (vval (fvec q))) = 2 * N) by (rewrite vnorm_vscale, SA; reflexivity).
    split; [rewrite VN; lra|]. exists e'. split; [exact E1|]. split; [exact E2|].
    assert (DD' : qdist (direction q') e' <= (A + / 10) * fu p).
    { apply direction_close_u; [lra|exact E1|lra|exact D1]. }
    eapply Rle_trans; [apply (qdist_triang _ (direction q'))|].
    assert (qdist (rv_quat (vscale (2 * sg) (vval (fvec q)))) (direction q') <= 3 * fu p); [|lra].
    destruct (Rle_lt_or_eq_dec 0 N N0) as [Np|Nz].
    + set (nu := vscale (sg * / N) (vval (fvec q))).
      assert (NUu : vnorm2 nu = 1). { unfold nu. replace (vnorm2 _) with ((sg * sg) * (/ N * / N) * vnorm2 (vval (fvec q))) by lin. rewrite SS, <- vnorm_sq. fold N. field. lra. }
      assert (Q' : q' = mkQ (Rabs w) (N * vx nu) (N * vy nu) (N * vz nu)).
      { unfold q'. rewrite <- Qw. unfold q', qscale, nu, vscale, qval, fvec, vval; cbn [qw qx qy qz vx vy vz gx gy gz]. f_equal; field; lra. }
      destruct (dir_half (Rabs w) N nu NUu (or_intror (Rgt_not_eq _ _ Np))) as [Dx Dp]. rewrite <- Q' in Dx. rewrite Dx.
      assert (Ww : Rabs w * Rabs w = w * w) by (rewrite <- Rabs_mult; apply Rabs_pos_eq, WW). pose proof (Rabs_pos w) as Uw.
      destruct (atan2_polar N (Rabs w) (or_intror (Rgt_not_eq _ _ Np))) as (P3 & _ & Sn). cbv zeta in *. 
      destruct (atan2_small N (Rabs w) N0 Uw) as [t0 t1]. { rewrite <- (sqrt_square (9/10)) by lra. apply sqrt_le_1_alt. rewrite Ww. lra. }
      pose proof (atan2_right N (Rabs w) Uw) as [_ tr]. set (t := atan2 N (Rabs w)) in *.
      assert (RR : sqrt (Rabs w * Rabs w + N * N) = qnorm (qval q)). { rewrite Ww, <- SQ. apply sqrt_square. lra. } rewrite RR in Sn.
      pose proof (sin_lo t ltac:(lra)) as SL. pose proof (sin_below t ltac:(lra)) as SH. replace (t ^ 3) with (t * (t * t)) in SL by ring.
      assert (t3 : t * (t * t) <= 8 * (N * (N * N))). { assert (t * t <= 2 * N * (2 * N)) by (apply Rmult_le_compat; lra). assert (0 <= t * t) by apply Rle_0_sqr. replace (8 * (N * (N * N))) with (2 * N * (4 * (N * N))) by ring. apply Rmult_le_compat; lra. }
      eapply Rle_trans; [apply (rv_quat_close _ (2 * t) nu (2 * (3 * fu p)) 0); [exact NUu|rewrite VN; lra| |]|lra].
      * rewrite VN. replace (2 * N - 2 * t) with (2 * (N - t)) by ring. rewrite Rabs_mult, (Rabs_pos_eq 2) by lra. apply Rmult_le_compat_l; [lra|].
        apply Rabs_le. set (sn := sin t) in *. assert (sb : 0 <= sn) by (apply sin_ge_0; lra).
        assert (s2 : 99/100 * sn <= N) by (rewrite <- Sn; apply Rmult_le_compat_r; lra).
        assert (Nsn : Rabs (N - sn) <= fu p).
        { rewrite <- Sn. replace (qnorm (qval q) * sn - sn) with ((qnorm (qval q) - 1) * sn) by ring. rewrite Rabs_mult, (Rabs_pos_eq sn) by lra.
          assert (R1 : Rabs (qnorm (qval q) - 1) <= 76 * fu p) by (apply Rabs_le; lra).
          apply Rle_trans with (76 * fu p * (/ 76)); [|lra]. apply Rmult_le_compat; [apply Rabs_pos|lra|exact R1|lra]. }
        apply Rabs_both in Nsn. lra.
      * rewrite VN. replace (vscale (/ (2 * N)) (vscale (2 * sg) (vval (fvec q)))) with nu by (unfold nu, vscale; cbn [vx vy vz]; f_equal; field; lra).
        unfold vdist. replace (vsub nu nu) with vzero by lin. rewrite vnorm_vzero. lra.
    + rewrite rv_quat_zero by (rewrite VN; lra).
      assert (Z0 : vval (fvec q) = vzero).
      { apply vnorm_zero. fold N. lra. }
      assert (Q' : q' = mkQ (Rabs w) 0 0 0).
      { unfold q'. rewrite <- Qw. unfold vval, fvec, vzero in Z0; cbn [gx gy gz] in Z0. injection Z0 as Z1 Z2 Z3. unfold q', qscale, qval; cbn [qw qx qy qz]. rewrite Z1, Z2, Z3. f_equal; ring. }
      assert (direction q' = qid).
      { unfold direction. rewrite Q'. assert (QX : qnorm (mkQ (Rabs w) 0 0 0) = Rabs w). { unfold qnorm, qnorm2; cbn [qw qx qy qz]. replace (Rabs w * Rabs w + 0 * 0 + 0 * 0 + 0 * 0) with (Rabs w * Rabs w) by ring. apply sqrt_square, Rabs_pos. }
        rewrite QX. unfold qscale, qid; cbn [qw qx qy qz]. pose proof (Rabs_no_R0 w Wn). f_equal; try ring. field. exact H. }
      rewrite H, qdist_self. lra.
  - (* atan2 *)
    assert (NB : 9 * fu p <= N * N) by lra.
    assert (NL : 10000 * fu p <= N). { destruct (Rle_or_lt (10000 * fu p) N) as [X|X]; [exact X|]. exfalso. assert (N * N <= 10000 * fu p * (10000 * fu p)) by (apply Rmult_le_compat; lra). lra. }
    assert (Np : 0 < N) by lra.
    destruct (fvnorm_big2 p (x_norm b) (fvec q) O Fv) as [Fn En].
    { fold N. split; [|apply Rle_trans with (bpow radix2 1); [change (bpow radix2 1) with 2; lra|apply bpow_le; lia]].
      pose proof (fu_53 p). assert (bpow radix2 (-56) <= bpow radix2 (-53)) by (apply bpow_le; lia). lra. }
    fold N in En. set (n := fvnorm (x_norm b) (fvec q)) in *. apply Rabs_both in En as En'.
    assert (UN : 0 <= fu p * N <= / 16777216 * N) by (split; [apply Rmult_le_pos; lra|apply Rmult_le_compat_r; lra]).
    assert (np : 0 < B2R n) by lra.
    destruct (atan2_accurate L HL p n (fw q) Fn Fw (or_introl (Rgt_not_eq _ _ np))) as [Ft Et]. rewrite roundoff_fu in Et. fold w in Et.
    pose proof (atan2_pos (B2R n) w np) as AR. set (nu := vscale (/ N) (vval (fvec q))).
    assert (NUu : vnorm2 nu = 1) by (apply vdir_unit; exact Np).
    destruct (dir_half w (B2R n) nu NUu (or_intror (Rgt_not_eq _ _ np))) as [Dx Dp]. set (x := mkQ w (B2R n * vx nu) (B2R n * vy nu) (B2R n * vz nu)) in *.
    assert (Q' : qval q = mkQ w (N * vx nu) (N * vy nu) (N * vz nu)).
    { unfold nu, vscale, qval, fvec, vval; cbn [vx vy vz gx gy gz]. fold w. f_equal; field; lra. }
    assert (Xd : qdist x (qval q) <= (3 + / 10) * fu p).
    { rewrite Q'. unfold x, qdist. replace (qsub _ _) with (mkQ 0 ((B2R n - N) * vx nu) ((B2R n - N) * vy nu) ((B2R n - N) * vz nu)) by (unfold qsub; cbn [qw qx qy qz]; f_equal; ring).
      unfold qnorm. rewrite (qnorm_w_vec _ _ _ NUu). replace (0 * 0 + (B2R n - N) * (B2R n - N)) with (Rsqr (B2R n - N)) by (unfold Rsqr; ring). rewrite sqrt_Rsqr_abs.
      assert (fu p * N <= fu p * (101/100)) by (apply Rmult_le_compat_l; lra). lra. }
    assert (Xn : 99/100 <= qnorm x). { pose proof (qdist_norm x (qval q)) as W1. apply Rabs_both in W1. lra. }
    assert (W1 : qdist (direction x) (direction (qval q)) <= (3 + / 5) * fu p).
    { eapply Rle_trans; [apply (direction_dist x (qval q) (99/100)); lra|]. lra. }
    rewrite Dx in W1.
    (* the angle is not small *)
    assert (tl : 9/10 * N <= atan2 (B2R n) w).
    { destruct (atan2_polar (B2R n) w (or_intror (Rgt_not_eq _ _ np))) as (P3 & _ & Sn). cbv zeta in *. set (t := atan2 (B2R n) w) in *.
      pose proof (sin_below t ltac:(lra)) as SH. assert (RB : sqrt (w * w + B2R n * B2R n) <= 102/100).
      { rewrite <- (sqrt_square (102/100)) by lra. apply sqrt_le_1_alt. assert (B2R n * B2R n <= (1 + / 1000) * N * ((1 + / 1000) * N)) by (apply Rmult_le_compat; lra). lra. }
      assert (0 <= sin t) by (apply sin_ge_0; lra). assert (B2R n <= 102/100 * sin t) by (rewrite <- Sn; apply Rmult_le_compat_r; assumption). lra. }
    set (t := atan2 (B2R n) w) in *. set (t' := latan2 L p n (fw q)) in *. apply Rabs_both in Et as Et'.
    destruct (fdouble p t' Ft) as [Fd Ed]. { apply Rle_trans with (bpow radix2 2); [|apply bpow_le; lia]. change (bpow radix2 2) with 4. apply Rabs_le. lra. }
    set (th := 2 * B2R t') in *. assert (thB : 17/10 * N <= th <= 631/100) by (unfold th; lra).
    (* theta / n *)
    assert (QB : 0 <= th / B2R n <= 7 / (99/100 * N)).
    { split; [apply Rmult_le_pos; [lra|apply Rlt_le, Rinv_0_lt_compat, np]|]. unfold Rdiv. apply Rmult_le_compat; try lra; [apply Rlt_le, Rinv_0_lt_compat, np|].
      apply Rinv_le_contravar; lra. }
    assert (NI : 7 / (99/100 * N) <= bpow radix2 60).
    { apply Rmult_le_reg_r with (99/100 * N); [lra|]. unfold Rdiv. rewrite Rmult_assoc, Rinv_l by lra. pose proof (fu_53 p) as F53. pose proof (bpow_gt_0 radix2 60).
      assert (NK : bpow radix2 (-53) * 9900 <= 99/100 * N) by lra. apply Rle_trans with (bpow radix2 60 * (bpow radix2 (-53) * 9900)); [|apply Rmult_le_compat_l; lra].
      rewrite <- Rmult_assoc, <- bpow_plus. change (bpow radix2 (60 + -53)) with 128. lra. }
    destruct (fdiv_R p (fmul (fofZ p 2) t') n Fd (Rgt_not_eq _ _ np)) as [Rf Ff].
    { rewrite Ed. fold th. rewrite Rabs_pos_eq by lra. eapply Rle_trans; [apply QB|]. eapply Rle_trans; [exact NI|]. apply Rle_trans with (2 := bpow100_fbig p). apply bpow_le. lia. }
    rewrite Ed in Rf. fold th in Rf. set (f := fdiv (fmul (fofZ p 2) t') n) in *.
    pose proof (rnd_err_le p (th / B2R n)) as Re. rewrite <- Rf in Re. rewrite (Rabs_pos_eq (th / B2R n)) in Re by lra.
    assert (fN : Rabs (B2R f * N - th) <= 26 * fu p).
    { replace (B2R f * N - th) with ((B2R f - th / B2R n) * N + th * ((N - B2R n) / B2R n)) by (field; lra).
      eapply Rle_trans; [apply Rabs_triang|]. rewrite !Rabs_mult, (Rabs_pos_eq N), (Rabs_pos_eq th) by lra. unfold Rdiv. rewrite Rabs_mult, Rabs_inv, (Rabs_pos_eq (B2R n)) by lra.
      rewrite (Rabs_minus_sym N). 
      assert (G1 : Rabs (B2R n - N) * / B2R n <= (3 + / 15) * fu p).
      { apply Rmult_le_reg_r with (B2R n); [exact np|]. rewrite Rmult_assoc, Rinv_l, Rmult_1_r by lra. eapply Rle_trans; [exact En|]. assert (fu p * ((1 - / 1000000) * N) <= fu p * B2R n) by (apply Rmult_le_compat_l; lra). lra. }
      assert (G2 : th / B2R n * N <= (1 + / 1000) * th).
      { replace (th / B2R n * N) with (th * (N / B2R n)) by (field; lra). rewrite Rmult_comm. apply Rmult_le_compat_r; [lra|]. apply Rmult_le_reg_r with (B2R n); [exact np|]. unfold Rdiv. rewrite Rmult_assoc, Rinv_l, Rmult_1_r by lra. lra. }
      assert (G3 : Rabs (B2R f - th / B2R n) * N <= (fu p * (th / B2R n) + eta p) * N) by (apply Rmult_le_compat_r; lra).
      assert (G4 : fu p * (th / B2R n) * N <= fu p * ((1 + / 1000) * th)) by (rewrite Rmult_assoc; apply Rmult_le_compat_l; lra).
      assert (G5 : eta p * N <= eta p * 2) by (apply Rmult_le_compat_l; lra).
      assert (G6 : th * (Rabs (B2R n - N) * / B2R n) <= 631/100 * ((3 + / 15) * fu p)).
      { apply Rmult_le_compat; [lra| |lra|exact G1]. apply Rmult_le_pos; [apply Rabs_pos|apply Rlt_le, Rinv_0_lt_compat, np]. }
      assert (G7 : fu p * ((1 + / 1000) * th) <= fu p * (64/10)) by (apply Rmult_le_compat_l; lra). lra. }
    apply Rabs_both in fN as fN'.
    assert (fN0 : 16/10 * N <= B2R f * N <= 633/100) by lra.
    assert (fp : 16/10 <= B2R f) by (apply Rmult_le_reg_r with N; lra).
    destruct (fscale_err p f (fvec q) (B2R f) Ff Fv) as [Fr Er]; [rewrite Rabs_pos_eq; lra|fold N; apply Rle_trans with (bpow radix2 3); [change (bpow radix2 3) with 8; lra|apply bpow_le; lia]|].
    fold N in Er. fold (fvscale f (fvec q)) in Fr, Er. set (r := fvscale f (fvec q)) in *. set (G := vscale (B2R f) (vval (fvec q))) in *.
    assert (GN : vnorm G = B2R f * N) by (unfold G; rewrite vnorm_vscale, Rabs_pos_eq by lra; reflexivity).
    assert (UF : fu p * (B2R f * N) <= / 16777216 * (B2R f * N)) by (apply Rmult_le_compat_r; lra).
    assert (UF2 : fu p * (B2R f * N) <= fu p * (633/100)) by (apply Rmult_le_compat_l; lra).
    assert (ET : eta p <= / 5000 * (fu p * (B2R f * N))).
    { eapply Rle_trans; [exact T2|]. rewrite (Rmult_comm (/ 5000)), Rmult_assoc. apply Rmult_le_compat_l; [lra|].
      apply Rle_trans with (N * / 5000); [|apply Rmult_le_compat_r; lra]. pose proof (fu_53 p). apply Rle_trans with (bpow radix2 (-53)); [apply bpow_le; lia|]. lra. }
    pose proof (vnorm_diff (vval r) G) as VD. rewrite GN in VD.
    assert (VD' : Rabs (vnorm (vval r) - B2R f * N) <= (1 + / 1000) * (fu p * (B2R f * N))) by lra. apply Rabs_both in VD' as VD2.
    exists r. split; [reflexivity|]. split; [exact Fr|]. split; [lra|].
    exists e. split; [exact E|]. split; [reflexivity|].
    assert (W2 : qdist (rv_quat (vval r)) (half_quat th nu) <= 33 * fu p / 2 + (1 + / 100) * fu p).
    { apply rv_quat_close; [exact NUu|lra| |].
      - apply Rabs_le. lra.
      - replace nu with (vscale (/ vnorm G) G) by (rewrite GN; unfold G, nu, vscale; cbn [vx vy vz]; f_equal; field; lra).
        eapply Rle_trans; [apply (vdir_dist (vval r) G (999/1000 * (B2R f * N))); lra|].
        apply Rmult_le_reg_r with (999/1000 * (B2R f * N)); [lra|]. unfold Rdiv. rewrite Rmult_assoc, Rinv_l by lra. lra. }
    assert (W3 : qdist (half_quat th nu) (half_quat (2 * t) nu) <= 4 * fu p).
    { eapply Rle_trans; [apply half_quat_angle; exact NUu|]. unfold th. replace (2 * B2R t' - 2 * t) with (2 * (B2R t' - t)) by ring. rewrite Rabs_mult, (Rabs_pos_eq 2) by lra. lra. }
    eapply Rle_trans; [apply (qdist_triang _ (half_quat th nu))|].
    pose proof (qdist_triang (half_quat th nu) (half_quat (2 * t) nu) e). pose proof (qdist_triang (half_quat (2 * t) nu) (direction (qval q)) e). lra.
Qed.
