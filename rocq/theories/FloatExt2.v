(** * FloatExt2: AngleAxis from a quaternion, in floating-point arithmetic. *)
From Coq Require Import ZArith Reals Lra Psatz Bool List Lia.
From Flocq Require Import IEEE754.BinarySingleNaN Core.Core.
From Verif Require Import Linalg Spec SpecFacts SpecClose ModelCommon ModelEigen CommonFacts ModelRotation ConvFacts CloseFacts RVFacts EulerNear PiBounds
  FloatModel FloatFacts FloatModel2 SpecFloatQ FloatQFacts FloatQProd FloatQHist FloatQRot FloatMHist FloatCast FloatWrap FloatModel3 SpecLibm FloatBuild FloatBuild2 FloatBuild3 FloatBuild4 FloatModel4 FloatExt.
Import ListNotations.
Local Open Scope R_scope.

Lemma PI_num : 314 / 100 < PI < 315 / 100.
Proof. pose proof PI_close as [A B]. split; [eapply Rlt_trans; [|exact A]|eapply Rlt_trans; [exact B|]]; lra. Qed.

Definition vquat (v : V3) : Quat := mkQ 0 (vx v) (vy v) (vz v).
Lemma vquat_norm v : qnorm (vquat v) = vnorm v.
Proof. unfold qnorm, vnorm, vquat, qnorm2, vnorm2, vdot; cbn. f_equal. ring. Qed.
Lemma vdir_dist x y m : 0 < m -> m <= vnorm x -> m <= vnorm y -> vdist (vscale (/ vnorm x) x) (vscale (/ vnorm y) y) <= vdist x y / m.
Proof.
  intros M X Y. pose proof (direction_dist (vquat x) (vquat y) m M) as H. rewrite !vquat_norm in H. specialize (H X Y).
  assert (D : forall a b, vdist a b = qdist (vquat a) (vquat b)).
  { intros a b. unfold vdist, qdist. rewrite <- vquat_norm. f_equal. unfold vquat, vsub, qsub; cbn. f_equal. ring. }
  rewrite !D. replace (vquat (vscale (/ vnorm x) x)) with (direction (vquat x)) by (unfold direction; rewrite vquat_norm; unfold vquat, qscale, vscale; cbn; f_equal; ring).
  replace (vquat (vscale (/ vnorm y) y)) with (direction (vquat y)) by (unfold direction; rewrite vquat_norm; unfold vquat, qscale, vscale; cbn; f_equal; ring).
  exact H.
Qed.
Lemma vdir_unit x : 0 < vnorm x -> vnorm2 (vscale (/ vnorm x) x) = 1.
Proof. intro H. replace (vnorm2 (vscale (/ vnorm x) x)) with (/ vnorm x * / vnorm x * vnorm2 x) by lin. rewrite <- vnorm_sq. field. lra. Qed.

(** division of a vector by a scalar, component by component *)
Lemma fvdiv_err p (v : FV p) (s : fl p) K : vfinite v -> B2R s <> 0 -> vnorm (vval v) / Rabs (B2R s) <= K -> K <= bpow radix2 100 ->
  vfinite (fvdiv Quotient v s) /\ vdist (vval (fvdiv Quotient v s)) (vscale (/ B2R s) (vval v)) <= fu p * K + 7/4 * eta p.
Proof.
  intros (Fx & Fy & Fz) S0 HK K1. pose proof (fu_pos p) as U. pose proof (eta_pos p) as P. pose proof (bpow100_fbig p) as BB.
  assert (Y : vnorm (vscale (/ B2R s) (vval v)) <= K). { rewrite vnorm_vscale, Rabs_inv. unfold Rdiv in HK. lra. }
  assert (G : forall c : fl p, is_finite c = true -> Rabs (/ B2R s * B2R c) <= K -> is_finite (fdiv c s) = true /\ Rabs (B2R (fdiv c s) - / B2R s * B2R c) <= fu p * Rabs (/ B2R s * B2R c) + eta p).
  { intros c Fc Hc. replace (/ B2R s * B2R c) with (B2R c / B2R s) in * by (unfold Rdiv; ring). destruct (fdiv_R p c s Fc S0) as [R F]; [lra|]. split; [exact F|]. rewrite R. apply rnd_err_le. }
  destruct (vcomp_le (vscale (/ B2R s) (vval v))) as (C1 & C2 & C3).
  destruct (G (gx v) Fx) as [F1 E1]; [eapply Rle_trans; [exact C1|exact Y]|]. destruct (G (gy v) Fy) as [F2 E2]; [eapply Rle_trans; [exact C2|exact Y]|].
  destruct (G (gz v) Fz) as [F3 E3]; [eapply Rle_trans; [exact C3|exact Y]|].
  split; [now split|]. eapply Rle_trans; [apply (vec_rel_err _ _ (fu p) (eta p)); [lra|lra|exact E1|exact E2|exact E3]|].
  assert (fu p * vnorm (vscale (/ B2R s) (vval v)) <= fu p * K) by (apply Rmult_le_compat_l; lra). lra.
Qed.

Lemma norm_vec_le (q : Quat) : vnorm (qvec q) <= qnorm q.
Proof. apply vnorm_qvec. Qed.
Lemma qvec_fvec p (q : FQ p) : vval (fvec q) = qvec (qval q).
Proof. reflexivity. Qed.
Lemma vnonzero_smallest p (v : FV p) : vfinite v -> 0 < vnorm (vval v) -> 2 * eta p <= vnorm (vval v).
Proof.
  intros (Fx & Fy & Fz) N. destruct (vcomp_le (vval v)) as (C1 & C2 & C3). cbn [vval vx vy vz] in C1, C2, C3.
  destruct (Req_dec (B2R (gx v)) 0) as [X|X]; [|pose proof (finite_nonzero p _ Fx X); lra].
  destruct (Req_dec (B2R (gy v)) 0) as [Y|Y]; [|pose proof (finite_nonzero p _ Fy Y); lra].
  destruct (Req_dec (B2R (gz v)) 0) as [Z|Z]; [|pose proof (finite_nonzero p _ Fz Z); lra].
  exfalso. unfold vnorm in N. replace (vnorm2 (vval v)) with 0 in N by (unfold vnorm2, vdot, vval; cbn [vx vy vz]; rewrite X, Y, Z; ring). rewrite sqrt_0 in N. lra.
Qed.
Lemma atan2_small y x : 0 <= y -> 0 <= x -> 9/10 <= sqrt (x * x + y * y) -> 0 <= atan2 y x <= 2 * y.
Proof.
  intros Y X R. assert (NZ : x <> 0 \/ y <> 0).
  { destruct (Req_dec x 0) as [X0|X0]; [|now left]. destruct (Req_dec y 0) as [Y0|Y0]; [|now right]. subst. replace (0 * 0 + 0 * 0) with 0 in R by ring. rewrite sqrt_0 in R. lra. }
  destruct (atan2_polar y x NZ) as (P & _ & S1). cbv zeta in *. pose proof (atan2_nonneg y x Y) as L. pose proof (atan2_right y x X) as [_ H]. pose proof PI_num.
  split; [exact L|]. set (t := atan2 y x) in *. pose proof (sin_lo t ltac:(lra)) as SL. assert (T2 : t * t <= 5/2) by nra.
  assert (Q : 58/100 * t <= sin t) by (replace (t ^ 3) with (t * (t * t)) in SL by ring; nra).
  assert (0 <= sin t) by nra. assert (9/10 * sin t <= y) by (rewrite <- S1; nra). lra.
Qed.

(** the quaternion with the other sign represents the same rotation *)
Lemma sign_quat (q e : Quat) u A : qnorm e = 1 -> qdist q e <= A * u ->
  let s := if Rlt_bool (qw q) 0 then -1 else 1 in
  s * s = 1 /\ (s = 1 \/ s = -1) /\ qw (qscale s q) = Rabs (qw q) /\ qnorm (qscale s q) = qnorm q /\ qnorm (qscale s e) = 1 /\ quat_rot (qscale s e) = quat_rot e /\ qdist (qscale s q) (qscale s e) <= A * u.
Proof.
  intros E D s. assert (S1 : s = 1 \/ s = -1) by (unfold s; destruct (Rlt_bool _ _); tauto). assert (SA : Rabs s = 1) by (destruct S1 as [-> | ->]; [apply Rabs_R1|apply Rabs_m1]).
  split; [destruct S1 as [-> | ->]; lra|]. split; [exact S1|]. split.
  - unfold s, qscale; cbn [qw]. destruct (Rlt_bool_spec (qw q) 0); [rewrite Rabs_left by lra|rewrite Rabs_right by lra]; ring.
  - rewrite !qnorm_scale, SA, E. split; [ring|]. split; [ring|]. split; [now apply quat_rot_sign|]. rewrite qdist_scale, SA. lra.
Qed.

Definition aa_axis_ok (u a N : R) : Prop := Rabs (N - 1) <= 10 * u \/ (Rabs a <= 9 * u /\ 1/2 <= N <= 5/2).
Lemma faa_of_quat_err p L b (q : FQ p) e A : libm_ok L -> order 3 (x_norm b) -> qfinite q -> qnorm e = 1 -> 0 <= A <= 1200 -> qdist (qval q) e <= A * fu p ->
  exists a n, faa_of_quat L b q = SrcAA a n /\ is_finite a = true /\ vfinite n /\ Rabs (B2R a) <= 32/10 /\ aa_axis_ok (fu p) (B2R a) (vnorm (vval n)) /\
   vnorm2 (vscale (/ vnorm (vval n)) (vval n)) = 1 /\
   exists e', qnorm e' = 1 /\ quat_rot e' = quat_rot e /\ qdist (half_quat (B2R a) (vscale (/ vnorm (vval n)) (vval n))) e' <= (A + 9) * fu p.
Proof.
  intros HL O Fq E HA D. pose proof (fu_pos p) as U. pose proof (fu_24 p) as V. pose proof (eta_pos p) as P. pose proof (eta_u7 p) as T. pose proof (eta_u p) as T2. pose proof PI_num as HPI.
  assert (AU : 0 <= A * fu p <= 1200 * fu p) by nra.
  assert (Fv : vfinite (fvec q)) by (destruct Fq as (? & ? & ? & ?); repeat split; assumption).
  assert (Fw : is_finite (fw q) = true) by apply Fq.
  destruct (sign_quat (qval q) e (fu p) A E D) as (SS & S1 & Qw & Qn & E1 & E2 & D1). set (s := if Rlt_bool (qw (qval q)) 0 then -1 else 1) in *.
  set (e' := qscale s e) in *. set (q' := qscale s (qval q)) in *.
  assert (SA : Rabs s = 1) by (destruct S1 as [-> | ->]; [apply Rabs_R1|apply Rabs_m1]).
  change (qw (qval q)) with (B2R (fw q)) in *. set (w := B2R (fw q)) in *.
  assert (QN : Rabs (qnorm q' - 1) <= A * fu p) by (rewrite <- E1; eapply Rle_trans; [apply qdist_norm|exact D1]).
  apply Rabs_both in QN. assert (QP : 0 < qnorm q') by lra.
  assert (DD : qdist (direction q') e' <= (A + / 10) * fu p).
  { apply direction_close_u; [lra|exact E1|lra|exact D1]. }
  set (N := vnorm (vval (fvec q))). assert (N0 : 0 <= N) by apply vn_nonneg.
  assert (N2 : N <= 1 + 1200 * fu p). { unfold N. rewrite qvec_fvec. pose proof (norm_vec_le (qval q)). lra. }
  assert (SQ : qnorm q' * qnorm q' = w * w + N * N). { rewrite Qn, qnorm_sq. unfold N. rewrite vnorm_sq. unfold qnorm2, vnorm2, vdot, qval, vval, fvec, w; cbn [qw qx qy qz vx vy vz gx gy gz]. ring. }
  destruct (faa_norm_err p L b (fvec q) HL O Fv ltac:(fold N; lra)) as (Fn & Na & Nb). cbv zeta in *. fold N in Na, Nb. unfold faa_of_quat.
  set (n := faa_norm L b (fvec q)) in *. rewrite (feq_R p n fzero Fn eq_refl). change (B2R (@fzero p)) with 0.
  assert (UN : 0 <= fu p * N <= (1 + / 10000) * fu p) by nra.
  assert (Uw : 0 <= Rabs w) by apply Rabs_pos. assert (Ww : Rabs w * Rabs w = w * w) by (rewrite <- Rabs_mult; apply Rabs_pos_eq, Rle_0_sqr).
  destruct (Req_bool_spec (B2R n) 0) as [Z|Z].
  - (* zero vector part *)
    assert (NZ : N <= 2 * eta p). { rewrite Z in Na. apply Rabs_both in Na. assert (fu p * N <= / 16777216 * N) by (apply Rmult_le_compat_r; lra). lra. }
    exists fzero, (funit_x p). destruct (fofZ1 p) as [F1 V1].
    assert (VU : vval (funit_x p) = ex). { unfold vval, funit_x; cbn [gx gy gz]. rewrite V1. reflexivity. }
    assert (NU : vnorm (vval (funit_x p)) = 1) by (rewrite VU; apply vnorm_unit; lin).
    assert (VS : vscale (/ vnorm (vval (funit_x p))) (vval (funit_x p)) = ex) by (rewrite NU, VU; unfold vscale, ex; cbn; f_equal; field).
    split; [reflexivity|]. split; [reflexivity|]. split; [repeat split; exact F1|]. change (B2R (@fzero p)) with 0. rewrite VS, NU. split; [rewrite Rabs_R0; lra|].
    split; [left; replace (1 - 1) with 0 by ring; rewrite Rabs_R0; lra|]. split; [lin|]. exists e'. split; [exact E1|]. split; [exact E2|].
    set (x := mkQ (Rabs w) 0 0 0).
    assert (Xn : qnorm x = Rabs w). { unfold qnorm, x, qnorm2; cbn [qw qx qy qz]. replace (Rabs w * Rabs w + 0 * 0 + 0 * 0 + 0 * 0) with (Rabs w * Rabs w) by ring. now apply sqrt_square. }
    assert (Xd : qdist x q' <= N).
    { unfold qdist. apply sq_le_le; [exact N0|]. rewrite qnorm_sq. unfold N. rewrite vnorm_sq. unfold qsub, x, q', qscale in *; cbn [qw qx qy qz] in *.
      unfold qnorm2, vnorm2, vdot, qval, vval, fvec in *; cbn [qw qx qy qz vx vy vz gx gy gz] in *. rewrite Qw. 
      apply Req_le. transitivity ((s * s) * (B2R (fx q) * B2R (fx q) + B2R (fy q) * B2R (fy q) + B2R (fz q) * B2R (fz q))); [ring|rewrite SS; ring]. }
    assert (Wp : 9/10 <= Rabs w). { apply sq_le_le; [exact Uw|]. rewrite Ww. assert (N * N <= / 100) by nra. nra. }
    replace (half_quat 0 ex) with (direction x).
    2:{ unfold direction. rewrite Xn. unfold half_quat, qscale, x; cbn [qw qx qy qz vx vy vz ex]. replace (0 / 2) with 0 by field. rewrite cos_0, sin_0. f_equal; try ring. field. lra. }
    eapply Rle_trans; [apply (qdist_triang _ (direction q'))|].
    assert (qdist (direction x) (direction q') <= qdist x q' / (9/10)) by (apply direction_dist; lra).
    assert (qdist x q' / (9/10) <= 2 * N) by lra. lra.
  - (* the general case *)
    pose proof (finite_nonzero p n Fn Z) as Zn.
    assert (Np : 0 < N). { destruct (Rle_lt_or_eq_dec 0 N N0) as [H|H]; [exact H|]. exfalso. rewrite <- H in Na. replace (B2R n - 0) with (B2R n) in Na by ring. lra. }
    pose proof (vnonzero_smallest p (fvec q) Fv Np) as Ns. fold N in Ns.
    assert (SM : fu p * N <= / 16777216 * N) by (apply Rmult_le_compat_r; lra).
    apply Rabs_both in Na as Na'. assert (nl : 49/100 * N <= B2R n <= 151/100 * N) by lra. assert (np : 0 < B2R n) by lra.
    (* the sign *)
    set (n' := if flt (fw q) fzero then fneg n else n). assert (SN : B2R n' = s * B2R n).
    { unfold n'. rewrite (flt_R p _ fzero Fw eq_refl). change (B2R (@fzero p)) with 0. fold w. unfold s. destruct (Rlt_bool w 0); [rewrite (proj1 (fneg_R p n))|]; ring. }
    (* the angle *)
    destruct (fabs_R p (fw q)) as [Va Fa]. fold w in Va. rewrite Fw in Fa.
    destruct (atan2_accurate L HL p n (fabs (fw q)) Fn Fa (or_introl Z)) as [Ft Et]. rewrite roundoff_fu, Va in Et.
    pose proof (atan2_right (B2R n) (Rabs w) Uw) as AR. pose proof (atan2_nonneg (B2R n) (Rabs w) ltac:(lra)) as AN. set (t := atan2 (B2R n) (Rabs w)) in *.
    set (t' := latan2 L p n (fabs (fw q))) in *. apply Rabs_both in Et as Et'.
    destruct (fdouble p t' Ft) as [Fd Ed]. { apply Rle_trans with (bpow radix2 2); [|apply bpow_le; lia]. change (bpow radix2 2) with 4. apply Rabs_le. lra. }
    (* the axis *)
    set (K := N / B2R n). assert (KN : K * B2R n = N) by (unfold K; field; lra).
    assert (KB : 66/100 <= K <= 205/100). { split; apply Rmult_le_reg_r with (B2R n); try exact np; rewrite KN; lra. }
    assert (HK : N / Rabs (B2R n') <= K). { rewrite SN, Rabs_mult, SA, (Rabs_pos_eq (B2R n)) by lra. unfold K. apply Req_le. field. lra. }
    assert (SN0 : B2R n' <> 0). { rewrite SN. destruct S1 as [-> | ->]; lra. }
    destruct (fvdiv_err p (fvec q) n' K Fv SN0 HK) as [Fx Ex]. { apply Rle_trans with (bpow radix2 2); [change (bpow radix2 2) with 4; lra|apply bpow_le; lia]. }
    set (X := vval (fvdiv Quotient (fvec q) n')) in *. set (G := vscale (/ B2R n') (vval (fvec q))) in *.
    set (nu := vscale (s * / N) (vval (fvec q))).
    assert (Is : / B2R n' = s * / B2R n). { rewrite SN. destruct S1 as [-> | ->]; field; lra. }
    assert (GN : vnorm G = K). { unfold G. rewrite vnorm_vscale, Is, Rabs_mult, SA, Rabs_inv, (Rabs_pos_eq (B2R n)) by lra. fold N. unfold K. field. lra. }
    assert (Gd : vscale (/ vnorm G) G = nu). { rewrite GN. unfold G, nu. rewrite Is. unfold K, vscale; cbn [vx vy vz]. f_equal; field; lra. }
    assert (NUu : vnorm2 nu = 1). { rewrite <- Gd. apply vdir_unit. rewrite GN. lra. }
    assert (XG : Rabs (vnorm X - K) <= fu p * K + 7/4 * eta p).
    { rewrite <- GN. eapply Rle_trans; [|rewrite GN; exact Ex]. unfold vdist. apply Rabs_le. split.
      - pose proof (vnorm_triang3 X (vsub G X)) as W1. replace (vadd X (vsub G X)) with G in W1 by lin. replace (vnorm (vsub G X)) with (vnorm (vsub X G)) in W1 by (unfold vnorm; f_equal; lin). lra.
      - pose proof (vnorm_triang3 G (vsub X G)) as W1. replace (vadd G (vsub X G)) with X in W1 by lin. lra. }
    apply Rabs_both in XG. assert (UK : 0 <= fu p * K <= 205/100 * fu p) by (split; [apply Rmult_le_pos; lra|rewrite (Rmult_comm (205/100)); apply Rmult_le_compat_l; lra]).
    assert (XB : 65/100 <= vnorm X <= 206/100) by lra.
    exists (fmul (fofZ p 2) t'), (fvdiv Quotient (fvec q) n'). fold X.
    split; [reflexivity|]. split; [exact Fd|]. split; [exact Fx|]. rewrite Ed. split; [apply Rabs_le; lra|].
    split.
    { destruct (Rle_or_lt N (bpow radix2 (-80))) as [S2|S2].
      - right. split; [|lra]. assert (B80 : bpow radix2 (-80) <= / 1000 * fu p).
        { pose proof (fu_53 p). apply Rle_trans with (/ 1000 * bpow radix2 (-53)); [|lra]. replace (-80)%Z with (-27 + -53)%Z by lia. rewrite bpow_plus. apply Rmult_le_compat_r; [apply bpow_ge_0|]. cbn; lra. }
        assert (AS : 0 <= t <= 2 * B2R n).
        { unfold t. apply atan2_small; [lra|exact Uw|]. rewrite <- (sqrt_square (9/10)) by lra. apply sqrt_le_1_alt. rewrite Ww.
          assert (QQ : 99/100 * (99/100) <= qnorm q' * qnorm q') by (apply Rmult_le_compat; lra). rewrite SQ in QQ.
          assert (NN : N * N <= / 10 * / 10) by (apply Rmult_le_compat; lra). assert (0 <= B2R n * B2R n) by apply Rle_0_sqr. lra. }
        apply Rabs_le. lra.
      - left. assert (T3 : eta p <= / 1000 * (fu p * N)).
        { eapply Rle_trans; [exact T2|]. apply Rle_trans with (fu p * (/ 1000 * bpow radix2 (-80))); [|assert (fu p * bpow radix2 (-80) <= fu p * N) by (apply Rmult_le_compat_l; lra); lra]. apply Rmult_le_compat_l; [lra|].
          replace (-126)%Z with (-46 + -80)%Z by lia. rewrite bpow_plus. apply Rmult_le_compat_r; [apply bpow_ge_0|]. apply Rle_trans with (bpow radix2 (-10)); [apply bpow_le; lia|cbn; lra]. }
        assert (KK : Rabs (K - 1) <= (8 + / 5) * fu p).
        { replace (K - 1) with ((N - B2R n) * / B2R n) by (unfold K; field; lra). rewrite Rabs_mult, Rabs_inv, (Rabs_pos_eq (B2R n)) by lra. rewrite Rabs_minus_sym.
          apply Rmult_le_reg_r with (B2R n); [exact np|]. rewrite Rmult_assoc, Rinv_l, Rmult_1_r by lra. eapply Rle_trans; [exact Na|].
          assert (n1 : B2R n >= (1 - / 1000) * N) by lra. assert (fu p * ((1 - / 1000) * N) <= fu p * B2R n) by (apply Rmult_le_compat_l; lra). lra. }
        apply Rabs_both in KK. assert (KU : K <= 11/10) by lra. assert (fu p * K <= fu p * (11/10)) by (apply Rmult_le_compat_l; lra). apply Rabs_le. lra. }
    split; [apply vdir_unit; lra|]. exists e'. split; [exact E1|]. split; [exact E2|].
    set (x := mkQ (Rabs w) (B2R n * vx nu) (B2R n * vy nu) (B2R n * vz nu)).
    destruct (dir_half (Rabs w) (B2R n) nu NUu (or_intror Z)) as [Dx Dp]. fold x in Dx, Dp. fold t in Dx.
    assert (Q' : q' = mkQ (Rabs w) (N * vx nu) (N * vy nu) (N * vz nu)).
    { unfold q'. rewrite <- Qw. unfold q', qscale, nu, vscale, qval, fvec, vval; cbn [qw qx qy qz vx vy vz gx gy gz]. f_equal; field; lra. }
    assert (Xd : qdist x q' <= (3 + / 10) * fu p).
    { rewrite Q'. unfold x, qdist. replace (qsub _ _) with (mkQ 0 ((B2R n - N) * vx nu) ((B2R n - N) * vy nu) ((B2R n - N) * vz nu)) by (unfold qsub; cbn [qw qx qy qz]; f_equal; ring).
      unfold qnorm. rewrite (qnorm_w_vec _ _ _ NUu). replace (0 * 0 + (B2R n - N) * (B2R n - N)) with (Rsqr (B2R n - N)) by (unfold Rsqr; ring). rewrite sqrt_Rsqr_abs. lra. }
    assert (Xn : 99/100 <= qnorm x). { pose proof (qdist_norm x q') as W1. apply Rabs_both in W1. lra. }
    assert (W1 : qdist (direction x) (direction q') <= (3 + / 5) * fu p).
    { eapply Rle_trans; [apply (direction_dist x q' (99/100)); lra|]. lra. }
    rewrite Dx in W1.
    assert (W2 : qdist (half_quat (2 * B2R t') nu) (half_quat (2 * t) nu) <= 4 * fu p).
    { eapply Rle_trans; [apply half_quat_angle; exact NUu|]. replace (2 * B2R t' - 2 * t) with (2 * (B2R t' - t)) by ring. rewrite Rabs_mult, (Rabs_pos_eq 2) by lra. lra. }
    assert (W3 : qdist (half_quat (2 * B2R t') (vscale (/ vnorm X) X)) (half_quat (2 * B2R t') nu) <= (1 + / 10) * fu p).
    { eapply Rle_trans; [apply half_quat_axis|]. assert (Rabs (sin (2 * B2R t' / 2)) <= 1) by (apply Rabs_le, SIN_bound).
      assert (W4 : vdist (vscale (/ vnorm X) X) nu <= (1 + / 10) * fu p).
      { rewrite <- Gd. eapply Rle_trans; [apply (vdir_dist X G (99/100 * K)); [lra|lra|lra]|].
        apply Rmult_le_reg_r with (99/100 * K); [lra|]. unfold Rdiv. rewrite Rmult_assoc, Rinv_l by lra. assert (fu p * (66/100) <= fu p * K) by (apply Rmult_le_compat_l; lra). lra. }
      assert (Z9 : 0 <= vdist (vscale (/ vnorm X) X) nu) by apply vn_nonneg. eapply Rle_trans; [apply Rmult_le_compat; [apply Rabs_pos|exact Z9|exact H|exact W4]|lra]. }
    eapply Rle_trans; [apply (qdist_triang _ (half_quat (2 * B2R t') nu))|].
    pose proof (qdist_triang (half_quat (2 * B2R t') nu) (half_quat (2 * t) nu) e'). pose proof (qdist_triang (half_quat (2 * t) nu) (direction q') e'). lra.
Qed.
