(** * FloatExt4: Euler angles from a quaternion, in floating-point arithmetic. *)
From Coq Require Import ZArith Reals Lra Psatz Bool List Lia.
From Flocq Require Import IEEE754.BinarySingleNaN Core.Core.
From Verif Require Import Linalg Spec SpecFacts SpecClose ModelCommon ModelEigen CommonFacts ModelRotation ConvFacts RotFacts CloseFacts RVFacts EulerNear PiBounds
  FloatModel FloatFacts FloatModel2 SpecFloatQ FloatQFacts FloatQProd FloatQHist FloatQRot FloatMHist FloatCast FloatWrap FloatModel3 SpecLibm FloatBuild FloatBuild2 FloatBuild3 FloatBuild4 FloatModel4 FloatExt FloatExt2 FloatExt3.
Import ListNotations.
Local Open Scope R_scope.

(** angles that are approximately the polar angles of the three pairs of entries *)
Lemma euler_core_approx r s c h y rho a0 a1 a2 e0 e1 e2 : SO3 r -> s = 1 \/ s = -1 -> 0 <= h -> 0 <= c -> c * c = 1 - m20 r * m20 r -> 0 <= y -> 0 <= rho ->
  vnorm (mkV3 (s * h * cos a0 - m00 r) (s * h * sin a0 - m10 r) 0) <= e0 ->
  vnorm (mkV3 (y * cos a1 - s * c) (y * sin a1 + m20 r) 0) <= e1 ->
  vnorm (mkV3 0 (rho * cos a2 - (cos a0 * m11 r - sin a0 * m01 r)) (rho * sin a2 - (sin a0 * m02 r - cos a0 * m12 r))) <= e2 ->
  close (8 * e0 + 4 * e1 + 4 * e2) (mmul (Rot_z a0) (mmul (Rot_y a1) (Rot_x a2))) r.
Proof.
  intros HR HS H0 C0 CC Y0 R0 D0 D1 D2.
  assert (SS : s * s = 1) by (destruct HS as [-> | ->]; ring). assert (SA : Rabs s = 1) by (destruct HS as [-> | ->]; [apply Rabs_R1|apply Rabs_m1]).
  pose proof (sin2_cos2' a0) as T0. pose proof (sin2_cos2' a1) as T1. pose proof (sin2_cos2' a2) as T2.
  assert (COL : m00 r * m00 r + m10 r * m10 r + m20 r * m20 r = 1).
  { pose proof (SO3_inv_l _ HR) as I. apply (f_equal m00) in I. revert I. clear. destruct r. lin_unfold. intros; lra. }
  assert (RT : SO3 (mtrans r)) by (apply SO3_trans, HR).
  set (E := mmul (Rot_z a0) (mmul (Rot_y a1) (Rot_x a2))).
  assert (HE : SO3 E) by (unfold E; repeat apply SO3_mmul; auto using Rot_z_SO3, Rot_y_SO3, Rot_x_SO3).
  assert (NH : forall x, 0 <= x -> vnorm (mkV3 (s * x * cos a0) (s * x * sin a0) 0) = x).
  { intros x X. unfold vnorm. replace (vnorm2 _) with (x * x). apply sqrt_square, X. unfold vnorm2, vdot; cbn [vx vy vz].
    transitivity (s * s * (x * x) * (cos a0 * cos a0 + sin a0 * sin a0)); [rewrite SS; replace (cos a0 * cos a0 + sin a0 * sin a0) with 1 by lra; ring|ring]. }
  assert (HC : Rabs (h - c) <= e0).
  { rewrite <- (NH h H0) at 1. replace c with (vnorm (mkV3 (m00 r) (m10 r) 0)) at 1.
    - eapply Rle_trans; [apply vnorm_diff|]. eapply Rle_trans; [|exact D0]. unfold vdist, vsub; cbn [vx vy vz]. apply Req_le. f_equal. f_equal. ring.
    - unfold vnorm. replace (vnorm2 _) with (c * c). apply sqrt_square, C0. unfold vnorm2, vdot; cbn [vx vy vz]. lra. }
  assert (YC : Rabs (y - 1) <= e1).
  { replace y with (vnorm (mkV3 (y * cos a1) (y * sin a1) 0)) at 1.
    2:{ unfold vnorm. replace (vnorm2 _) with (y * y). apply sqrt_square, Y0. unfold vnorm2, vdot; cbn [vx vy vz].
        transitivity ((y * y) * (cos a1 * cos a1 + sin a1 * sin a1)); [replace (cos a1 * cos a1 + sin a1 * sin a1) with 1 by lra; ring|ring]. }
    replace 1 with (vnorm (mkV3 (s * c) (- m20 r) 0)) at 1.
    2:{ apply vnorm_unit. unfold vnorm2, vdot; cbn [vx vy vz]. transitivity (s * s * (c * c) + m20 r * m20 r); [ring|rewrite SS, CC; ring]. }
    eapply Rle_trans; [apply vnorm_diff|]. eapply Rle_trans; [|exact D1]. unfold vdist, vsub; cbn [vx vy vz]. apply Req_le. f_equal. f_equal; ring. }
  assert (A1 : vnorm (vsub (mvmul E ex) (mvmul r ex)) <= 2 * e0 + 2 * e1).
  { set (k := mkV3 (cos a0) (sin a0) 0). assert (Nk : vnorm k = 1) by (apply vnorm_unit; unfold k; lin_unfold; lra).
    replace (vsub (mvmul E ex) (mvmul r ex)) with
      (vadd (vadd (vscale (cos a1 - s * c) k) (vscale (- (sin a1 + m20 r)) ez)) (vadd (vscale (s * (c - h)) k) (mkV3 (s * h * cos a0 - m00 r) (s * h * sin a0 - m10 r) 0))).
    2:{ assert (E1 : mvmul E ex = mkV3 (cos a0 * cos a1) (sin a0 * cos a1) (- sin a1)) by (unfold E; spec_unfold; lin_unfold; f_equal; ring).
        assert (E2 : mvmul r ex = mkV3 (m00 r) (m10 r) (m20 r)) by (clear; destruct r; lin_unfold; f_equal; ring).
        rewrite E1, E2. unfold k. lin_unfold. f_equal; ring. }
    eapply Rle_trans; [apply vnorm_triang|].
    pose proof (vnorm_triang (vscale (s * (c - h)) k) (mkV3 (s * h * cos a0 - m00 r) (s * h * sin a0 - m10 r) 0)) as T3.
    rewrite vnorm_vscale, Rabs_mult, SA, Nk, (Rabs_minus_sym c h) in T3.
    assert (B1 : vnorm (vadd (vscale (cos a1 - s * c) k) (vscale (- (sin a1 + m20 r)) ez)) = vnorm (mkV3 (cos a1 - s * c) (sin a1 + m20 r) 0)).
    { unfold vnorm. f_equal. transitivity ((cos a1 - s * c) * (cos a1 - s * c) * vnorm2 k + (sin a1 + m20 r) * (sin a1 + m20 r)); [unfold k; lin_unfold; ring|].
      replace (vnorm2 k) with 1 by (unfold k; lin_unfold; lra). unfold vnorm2, vdot; cbn [vx vy vz]. ring. }
    rewrite B1.
    assert (B2 : vnorm (mkV3 (cos a1 - s * c) (sin a1 + m20 r) 0) <= Rabs (y - 1) + e1).
    { replace (mkV3 (cos a1 - s * c) (sin a1 + m20 r) 0) with (vadd (vscale (1 - y) (mkV3 (cos a1) (sin a1) 0)) (mkV3 (y * cos a1 - s * c) (y * sin a1 + m20 r) 0)) by (unfold vadd, vscale; cbn [vx vy vz]; f_equal; ring).
      eapply Rle_trans; [apply vnorm_triang|]. rewrite vnorm_vscale, (Rabs_minus_sym 1 y).
      replace (vnorm (mkV3 (cos a1) (sin a1) 0)) with 1 by (symmetry; apply vnorm_unit; lin_unfold; lra). lra. }
    lra. }
  set (f := mkV3 (- sin a0) (cos a0) 0). set (g := mkV3 0 (cos a2) (- sin a2)).
  assert (Nf : vnorm f = 1) by (apply vnorm_unit; unfold f; lin_unfold; lra).
  assert (Ng : vnorm g = 1) by (apply vnorm_unit; unfold g; lin_unfold; lra).
  assert (Eg : mvmul E g = f).
  { unfold E, f, g. rewrite !mvmul_mmul.
    replace (mvmul (Rot_x a2) (mkV3 0 (cos a2) (- sin a2))) with ey.
    2:{ unfold Rot_x. lin_unfold. f_equal; try ring. rewrite <- T2. ring. }
    unfold Rot_y, Rot_z. lin_unfold. f_equal; ring. }
  assert (A2 : vnorm (vsub g (mvmul (mtrans r) f)) <= 2 * e0 + 2 * e2).
  { assert (X : vnorm (vsub (vscale rho g) (mvmul (mtrans r) f)) <= e0 + e2).
    { set (d := mkV3 (s * h * cos a0 - m00 r) (s * h * sin a0 - m10 r) 0) in *.
      replace (vsub (vscale rho g) (mvmul (mtrans r) f)) with
        (vadd (vscale (vdot f d) ex) (mkV3 0 (rho * cos a2 - (cos a0 * m11 r - sin a0 * m01 r)) (- (rho * sin a2 - (sin a0 * m02 r - cos a0 * m12 r))))).
      2:{ unfold f, g, d. clear. destruct r. lin_unfold. f_equal; ring. }
      eapply Rle_trans; [apply vnorm_triang|]. rewrite vnorm_vscale. replace (vnorm ex) with 1 by (symmetry; apply vnorm_unit; lin).
      assert (CS : Rabs (vdot f d) <= vnorm d) by (pose proof (vcs_abs f d) as W; rewrite Nf in W; lra).
      assert (F2 : vnorm (mkV3 0 (rho * cos a2 - (cos a0 * m11 r - sin a0 * m01 r)) (- (rho * sin a2 - (sin a0 * m02 r - cos a0 * m12 r)))) <= e2).
      { eapply Rle_trans; [|exact D2]. apply Req_le. unfold vnorm. f_equal. unfold vnorm2, vdot; cbn [vx vy vz]. ring. }
      lra. }
    assert (RB : Rabs (rho - 1) <= e0 + e2).
    { replace rho with (vnorm (vscale rho g)) at 1 by (rewrite vnorm_vscale, Ng, Rabs_pos_eq; lra).
      replace 1 with (vnorm (mvmul (mtrans r) f)) at 1 by (rewrite (SO3_vnorm _ _ RT); exact Nf).
      eapply Rle_trans; [apply vnorm_diff|exact X]. }
    replace (vsub g (mvmul (mtrans r) f)) with (vadd (vscale (1 - rho) g) (vsub (vscale rho g) (mvmul (mtrans r) f))) by (generalize g (mvmul (mtrans r) f); clear; lin).
    eapply Rle_trans; [apply vnorm_triang|]. rewrite vnorm_vscale, Ng, (Rabs_minus_sym 1 rho). lra. }
  apply close_sym. apply close_inv_SO3; [exact HR|exact HE|].
  replace (8 * e0 + 4 * e1 + 4 * e2) with (2 * (2 * e0 + 2 * e1 + (2 * e0 + 2 * e2))) by ring.
  apply close_two_axes with (e := ex) (g := g).
  - apply SO3_mmul; assumption.
  - lin.
  - unfold g. lin_unfold. lra.
  - unfold g. lin.
  - rewrite mvmul_mmul. rewrite <- (SO3_vnorm r (vsub (mvmul (mtrans r) (mvmul E ex)) ex) HR).
    replace (mvmul r (vsub (mvmul (mtrans r) (mvmul E ex)) ex)) with (vsub (mvmul (mmul r (mtrans r)) (mvmul E ex)) (mvmul r ex))
      by (generalize (mvmul E ex); clear; lin).
    rewrite (SO3_inv_r _ HR), mvmul_id. exact A1.
  - rewrite mvmul_mmul, Eg, vnorm_sub_sym. exact A2.
Qed.

(** ** polar angles in floating-point arithmetic *)
Lemma fpolar p L (y x : fl p) : libm_ok L -> is_finite y = true -> is_finite x = true ->
  is_finite (latan2 L p y x) = true /\ Rabs (B2R (latan2 L p y x)) <= 4 /\
  exists h, 0 <= h /\ h * h = B2R x * B2R x + B2R y * B2R y /\
    vnorm (mkV3 (h * cos (B2R (latan2 L p y x)) - B2R x) (h * sin (B2R (latan2 L p y x)) - B2R y) 0) <= 4 * fu p * h.
Proof.
  intros HL Fy Fx. pose proof (fu_pos p) as U. pose proof (fu_24 p) as V. set (t := latan2 L p y x).
  assert (CASE : (B2R y = 0 /\ B2R x = 0) \/ (B2R y <> 0 \/ B2R x <> 0)).
  { destruct (Req_dec (B2R y) 0); destruct (Req_dec (B2R x) 0); tauto. }
  destruct CASE as [[Y X]|NZ].
  - destruct (atan2_zero L HL p y x Fy Fx Y X) as [Ft Et]. fold t in Ft, Et. rewrite Rminus_0_r in Et.
    split; [exact Ft|]. split; [exact Et|]. exists 0. rewrite X, Y. split; [lra|]. split; [ring|].
    replace (mkV3 _ _ _) with vzero by (unfold vzero; f_equal; ring). rewrite vnorm_vzero. lra.
  - destruct (atan2_accurate L HL p y x Fy Fx NZ) as [Ft Et]. fold t in Ft, Et. rewrite roundoff_fu in Et.
    pose proof (atan2_range (B2R y) (B2R x)) as AR. pose proof PI_num as HP. apply Rabs_both in Et as Et'.
    split; [exact Ft|]. split; [apply Rabs_le; lra|].
    destruct (atan2_polar (B2R y) (B2R x)) as (P & C & S1); [tauto|]. cbv zeta in *. set (h := sqrt (B2R x * B2R x + B2R y * B2R y)) in *.
    exists h. split; [lra|]. split; [unfold h; apply sqrt_sqrt; nra|]. set (a := atan2 (B2R y) (B2R x)) in *.
    rewrite <- C, <- S1. replace (mkV3 _ _ _) with (vscale h (mkV3 (cos (B2R t) - cos a) (sin (B2R t) - sin a) 0)) by (unfold vscale; cbn [vx vy vz]; f_equal; ring).
    rewrite vnorm_vscale, Rabs_pos_eq by lra. rewrite Rmult_comm. apply Rmult_le_compat_r; [lra|]. apply vnorm_le_sq; [lra|].
    pose proof (cos_sin_dist (B2R t) a) as CS. apply abs_sq in Et. unfold vnorm2, vdot; cbn [vx vy vz]. lra.
Qed.
Lemma polar_rotate h t t' x y d k : 0 <= h -> vnorm (mkV3 (h * cos t - x) (h * sin t - y) 0) <= d -> Rabs (t' - t) <= k ->
  vnorm (mkV3 (h * cos t' - x) (h * sin t' - y) 0) <= d + h * k.
Proof.
  intros H D K. replace (mkV3 (h * cos t' - x) (h * sin t' - y) 0) with (vadd (mkV3 (h * cos t - x) (h * sin t - y) 0) (vscale h (mkV3 (cos t' - cos t) (sin t' - sin t) 0)))
    by (unfold vadd, vscale; cbn [vx vy vz]; f_equal; ring).
  eapply Rle_trans; [apply vnorm_triang|]. rewrite vnorm_vscale, Rabs_pos_eq by lra. apply Rplus_le_compat; [exact D|]. apply Rmult_le_compat_l; [exact H|].
  pose proof (Rabs_pos (t' - t)). apply vnorm_le_sq; [lra|]. pose proof (cos_sin_dist t' t). apply abs_sq in K. unfold vnorm2, vdot; cbn [vx vy vz]. lra.
Qed.
(** adding or subtracting EIGEN_PI *)
Lemma feigen_pi p : is_finite (fEIGEN_PI p) = true /\ Rabs (B2R (fEIGEN_PI p) - PI) <= 3/2 * fu p.
Proof. split; [apply piT_fin|]. pose proof (pi_consts p) as (H & _). cbv zeta in H. rewrite Rabs_minus_sym. exact H. Qed.
Lemma fshift p (t : fl p) : is_finite t = true -> Rabs (B2R t) <= 4 ->
  let t' := if flt fzero t then fsub t (fEIGEN_PI p) else fadd t (fEIGEN_PI p) in
  is_finite t' = true /\ Rabs (B2R t') <= 4 /\ exists a, cos a = - cos (B2R t) /\ sin a = - sin (B2R t) /\ Rabs (B2R t' - a) <= (4 + 7/10) * fu p.
Proof.
  intros Ft Ht t'. pose proof (fu_pos p) as U. pose proof (fu_24 p) as V. pose proof (eta_u7 p) as T. pose proof PI_num as HP.
  destruct (feigen_pi p) as [Fp Ep]. apply Rabs_both in Ep as Ep'. apply Rabs_both in Ht.
  unfold t'. rewrite (flt_R p fzero t eq_refl Ft). change (B2R (@fzero p)) with 0. pose proof (four_fbig p) as FB. destruct (Rlt_bool_spec 0 (B2R t)) as [X|X].
  - assert (SB : Rabs (B2R t - B2R (fEIGEN_PI p)) <= 315/100 + 2 * fu p) by (apply Rabs_le; lra).
    destruct (fsub_R p t (fEIGEN_PI p) Ft Fp) as [R F]; [lra|]. split; [exact F|]. rewrite R.
    pose proof (rnd_err_le p (B2R t - B2R (fEIGEN_PI p))) as E. assert (fu p * Rabs (B2R t - B2R (fEIGEN_PI p)) <= fu p * (316/100)) by (apply Rmult_le_compat_l; lra).
    assert (E' : Rabs (rnd p (B2R t - B2R (fEIGEN_PI p)) - (B2R t - B2R (fEIGEN_PI p))) <= (3 + 2/10) * fu p) by lra. apply Rabs_both in E'. apply Rabs_both in SB.
    split; [apply Rabs_le; lra|]. exists (B2R t - PI). split; [|split].
    + replace (B2R t - PI) with (- (PI - B2R t)) by ring. now rewrite cos_neg, Rtrigo_facts.cos_pi_minus.
    + replace (B2R t - PI) with (- (PI - B2R t)) by ring. now rewrite sin_neg, Rtrigo_facts.sin_pi_minus.
    + apply Rabs_le. lra.
  - assert (SB : Rabs (B2R t + B2R (fEIGEN_PI p)) <= 315/100 + 2 * fu p) by (apply Rabs_le; lra).
    destruct (fadd_R p t (fEIGEN_PI p) Ft Fp) as [R F]; [lra|]. split; [exact F|]. rewrite R.
    pose proof (rnd_err_le p (B2R t + B2R (fEIGEN_PI p))) as E. assert (fu p * Rabs (B2R t + B2R (fEIGEN_PI p)) <= fu p * (316/100)) by (apply Rmult_le_compat_l; lra).
    assert (E' : Rabs (rnd p (B2R t + B2R (fEIGEN_PI p)) - (B2R t + B2R (fEIGEN_PI p))) <= (3 + 2/10) * fu p) by lra. apply Rabs_both in E'. apply Rabs_both in SB.
    split; [apply Rabs_le; lra|]. exists (B2R t + PI). split; [apply neg_cos|]. split; [apply neg_sin|]. apply Rabs_le. lra.
Qed.
(** the norm of two entries *)
Lemma fnorm2_err p t (x y : fl p) : order 2 t -> is_finite x = true -> is_finite y = true -> let S := sqrt (B2R x * B2R x + B2R y * B2R y) in S <= 2 ->
  is_finite (fsqrt (fdot t [x; y] [x; y])) = true /\ 0 <= B2R (fsqrt (fdot t [x; y] [x; y])) /\ Rabs (B2R (fsqrt (fdot t [x; y] [x; y])) - S) <= (3 + / 20) * fu p * S + / 2 * fu p.
Proof.
  intros O Fx Fy S HS. pose proof (fu_pos p) as U. pose proof (fu_24 p) as V.
  assert (S0 : 0 <= S) by apply sqrt_pos. assert (SS : S * S = B2R x * B2R x + B2R y * B2R y) by (apply sqrt_sqrt; nra).
  destruct (fdot2_err p t x y x y (S * S) O Fx Fy Fx Fy) as [Fd Ed].
  { rewrite !Rabs_pos_eq by apply Rle_0_sqr. lra. }
  { apply Rle_trans with (bpow radix2 2); [change (bpow radix2 2) with (2 * 2); apply Rmult_le_compat; lra|apply bpow_le; lia]. }
  rewrite <- SS in Ed. set (d := fdot t [x; y] [x; y]) in *.
  assert (DN : 0 <= B2R d).
  { unfold d. apply feval_squares. intro i. unfold cf. destruct i as [|[|[|i]]]; cbn [nth]; try assumption; reflexivity. }
  destruct (fsqrt_R p d Fd DN) as [Fs Rs]. split; [exact Fs|]. rewrite Rs. split; [apply rnd_ge_fmt; [apply fmt_0|apply sqrt_pos]|].
  assert (UNN : 0 <= fu p * (S * S) <= S * S) by (assert (0 <= S * S) by apply Rle_0_sqr; split; [apply Rmult_le_pos; lra|]; rewrite <- (Rmult_1_l (S * S)) at 2; apply Rmult_le_compat_r; lra).
  pose proof (eta_pos p) as P. pose proof (rnd_err_le p (sqrt (B2R d))) as R. pose proof (sqrt_pos (B2R d)) as Sp. rewrite (Rabs_pos_eq (sqrt (B2R d))) in R by exact Sp.
  pose proof (eta_u7 p) as T7.
  destruct (Rle_or_lt S (bpow radix2 (-60))) as [C|C].
  - assert (NB : S * S <= bpow radix2 (-120)). { change (-120)%Z with (-60 + -60)%Z. rewrite bpow_plus. apply Rmult_le_compat; lra. }
    assert (T : 5 * eta p <= bpow radix2 (-120)).
    { pose proof (eta_tiny p). apply Rle_trans with (bpow radix2 3 * bpow radix2 (-150)); [change (bpow radix2 3) with 8; lra|].
      rewrite <- bpow_plus. apply bpow_le. lia. }
    apply Rabs_both in Ed.
    assert (DB : B2R d <= bpow radix2 (-116)).
    { replace (-116)%Z with (4 + -120)%Z by lia. rewrite bpow_plus. change (bpow radix2 4) with 16. lra. }
    assert (QB : sqrt (B2R d) <= bpow radix2 (-58)).
    { rewrite <- (sqrt_square (bpow radix2 (-58))) by apply bpow_ge_0. apply sqrt_le_1_alt. rewrite <- bpow_plus. exact DB. }
    assert (F53 : bpow radix2 (-58) <= / 20 * fu p).
    { pose proof (fu_53 p). apply Rle_trans with (/ 20 * bpow radix2 (-53)); [|lra]. replace (-58)%Z with (-5 + -53)%Z by lia. rewrite bpow_plus. apply Rmult_le_compat_r; [apply bpow_ge_0|]. cbn; lra. }
    assert (B60 : bpow radix2 (-60) <= bpow radix2 (-58)) by (apply bpow_le; lia).
    assert (fu p * sqrt (B2R d) <= 1 * sqrt (B2R d)) by (apply Rmult_le_compat_r; lra). apply Rabs_both in R.
    assert (0 <= fu p * S) by (apply Rmult_le_pos; lra). apply Rabs_le. lra.
  - assert (Sp0 : 0 < S) by (pose proof (bpow_gt_0 radix2 (-60)); lra).
    assert (T : eta p <= fu p * (/ 10 * (S * S))).
    { eapply Rle_trans; [apply eta_u|]. apply Rmult_le_compat_l; [lra|].
      apply Rle_trans with (/ 10 * (bpow radix2 (-60) * bpow radix2 (-60))); [|apply Rmult_le_compat_l; [lra|pose proof (bpow_gt_0 radix2 (-60)); apply Rmult_le_compat; lra]].
      rewrite <- bpow_plus. change (-60 + -60)%Z with (-120)%Z. replace (-126)%Z with (-6 + -120)%Z by lia. rewrite bpow_plus.
      apply Rmult_le_compat_r; [apply bpow_ge_0|]. cbn; lra. }
    assert (Ed' : Rabs (B2R d - S * S) <= (4 + / 100) * fu p * (S * S)) by lra.
    pose proof (sqrt_close (fu p) S (B2R d) ltac:(lra) ltac:(lra) Sp0 Ed') as S1. 
    assert (0 <= fu p * S) by (apply Rmult_le_pos; lra). apply Rabs_both in S1 as S1'.
    assert (fu p * S <= / 16777216 * S) by (apply Rmult_le_compat_r; lra).
    assert (fu p * sqrt (B2R d) <= fu p * ((1 + / 1000) * S)) by (apply Rmult_le_compat_l; lra).
    eapply Rle_trans; [eapply Rabs_tri3; [exact R|exact S1]|]. lra.
Qed.
Lemma vnorm_yz a b m : Rabs a <= m -> Rabs b <= m -> vnorm (mkV3 0 a b) <= 3/2 * m.
Proof.
  intros A B. pose proof (Rabs_pos a). apply vnorm_le_sq; [lra|]. apply abs_sq in A. apply abs_sq in B. unfold vnorm2, vdot; cbn [vx vy vz]. nra.
Qed.

(** one of the two-term sums: sin and cos of the first angle times two entries *)
Lemma fsum2_err p (t : dtree) (c1 s1 x y : fl p) c s : order 2 t -> is_finite c1 = true -> is_finite s1 = true -> is_finite x = true -> is_finite y = true ->
  Rabs c <= 1 -> Rabs s <= 1 -> Rabs (B2R c1 - c) <= 2 * fu p -> Rabs (B2R s1 - s) <= 2 * fu p -> Rabs (B2R x) <= 101/100 -> Rabs (B2R y) <= 101/100 ->
  is_finite (fdot t [c1; fneg s1] [x; y]) = true /\ Rabs (B2R (fdot t [c1; fneg s1] [x; y]) - (c * B2R x - s * B2R y)) <= (8 + 3/10) * fu p.
Proof.
  intros O Fc Fs Fx Fy HC HS Ec Es Hx Hy. pose proof (fu_pos p) as U. pose proof (fu_24 p) as V. pose proof (eta_u7 p) as T.
  destruct (fneg_R p s1) as [Vn Fn]. rewrite Fs in Fn.
  assert (C1 : Rabs (B2R c1) <= 1001/1000) by (replace (B2R c1) with ((B2R c1 - c) + c) by ring; eapply Rle_trans; [apply Rabs_triang|lra]).
  assert (S1 : Rabs (B2R s1) <= 1001/1000) by (replace (B2R s1) with ((B2R s1 - s) + s) by ring; eapply Rle_trans; [apply Rabs_triang|lra]).
  assert (M : forall a b u v, Rabs a <= u -> Rabs b <= v -> Rabs (a * b) <= u * v) by (intros; rewrite Rabs_mult; apply Rmult_le_compat; auto using Rabs_pos).
  destruct (fdot2_err p t c1 (fneg s1) x y (205/100) O Fc Fn Fx Fy) as [F E].
  { rewrite Vn. pose proof (M _ _ _ _ C1 Hx). replace (- B2R s1 * B2R y) with (- (B2R s1 * B2R y)) by ring. rewrite Rabs_Ropp. pose proof (M _ _ _ _ S1 Hy). lra. }
  { apply Rle_trans with (bpow radix2 2); [change (bpow radix2 2) with 4; lra|apply bpow_le; lia]. }
  split; [exact F|]. rewrite Vn in E. pose proof (M _ _ _ _ Ec Hx) as M1. pose proof (M _ _ _ _ Es Hy) as M2.
  apply Rabs_both in E. apply Rabs_both in M1. apply Rabs_both in M2. apply Rabs_le. lra.
Qed.

Lemma feuler_core_err p L b odd (f10 f00 f22 f21 f20 f02 f12 f11 f01 : fl p) r d : libm_ok L -> order 2 (x_c2 b) -> order 2 (x_num b) -> order 2 (x_den b) ->
  is_finite f10 = true -> is_finite f00 = true -> is_finite f22 = true -> is_finite f21 = true -> is_finite f20 = true ->
  is_finite f02 = true -> is_finite f12 = true -> is_finite f11 = true -> is_finite f01 = true ->
  SO3 r -> d <= / 1000 -> close d (mkM33 (B2R f00) (B2R f01) (B2R f02) (B2R f10) (B2R f11) (B2R f12) (B2R f20) (B2R f21) (B2R f22)) r ->
  exists b0 b1 b2 : fl p, feuler_core L b odd f10 f00 f22 f21 f20 f02 f12 f11 f01 = (if odd then (b0, b1, b2) else (fneg b0, fneg b1, fneg b2)) /\
    (is_finite b0 = true /\ is_finite b1 = true /\ is_finite b2 = true) /\ (Rabs (B2R b0) <= 4 /\ Rabs (B2R b1) <= 4 /\ Rabs (B2R b2) <= 4) /\
    close (16 * d + 172 * fu p) (mmul (Rot_z (B2R b0)) (mmul (Rot_y (B2R b1)) (Rot_x (B2R b2)))) r.
Proof.
  intros HL O1 O2 O3 F10 F00 F22 F21 F20 F02 F12 F11 F01 HR Hd C. pose proof (fu_pos p) as U. pose proof (fu_24 p) as V.
  set (m := mkM33 _ _ _ _ _ _ _ _ _) in C. pose proof (close_nonneg _ _ _ C) as D0. pose proof (close_trans_mat _ _ _ C) as CT.
  assert (ENT : forall x, vnorm x = 1 -> Rabs (vx (mvmul m x)) <= 101/100 /\ Rabs (vy (mvmul m x)) <= 101/100 /\ Rabs (vz (mvmul m x)) <= 101/100).
  { intros x X. pose proof (close_opnorm d m r x HR C) as K. rewrite X in K. destruct (vcomp_le (mvmul m x)) as (K1 & K2 & K3). lra. }
  assert (Nex : vnorm ex = 1) by (apply vnorm_unit; lin). assert (Ney : vnorm ey = 1) by (apply vnorm_unit; lin). assert (Nez : vnorm ez = 1) by (apply vnorm_unit; lin).
  assert (Mx : mvmul m ex = mkV3 (B2R f00) (B2R f10) (B2R f20)) by (unfold m; lin_unfold; f_equal; ring).
  assert (My : mvmul m ey = mkV3 (B2R f01) (B2R f11) (B2R f21)) by (unfold m; lin_unfold; f_equal; ring).
  assert (Mz : mvmul m ez = mkV3 (B2R f02) (B2R f12) (B2R f22)) by (unfold m; lin_unfold; f_equal; ring).
  destruct (ENT ex Nex) as (H00 & H10 & H20). destruct (ENT ey Ney) as (H01 & H11 & H21). destruct (ENT ez Nez) as (H02 & H12 & H22).
  rewrite Mx in H00, H10, H20. rewrite My in H01, H11, H21. rewrite Mz in H02, H12, H22. cbn [vx vy vz] in *.
  unfold feuler_core. cbv zeta.
  destruct (fpolar p L f10 f00 HL F10 F00) as (Ft & Bt & h & h0 & hh & Eh). set (t0 := latan2 L p f10 f00) in *.
  set (flip := if odd then flt t0 fzero else flt fzero t0).
  set (t0' := if flip then if flt fzero t0 then fsub t0 (fEIGEN_PI p) else fadd t0 (fEIGEN_PI p) else t0).
  set (s := if flip then -1 else 1). assert (HS : s = 1 \/ s = -1) by (unfold s; destruct flip; tauto). assert (SA : Rabs s = 1) by (destruct HS as [-> | ->]; [apply Rabs_R1|apply Rabs_m1]).
  assert (hB : h <= 102/100).
  { apply sq_le_le; [lra|]. rewrite hh. assert (K : vnorm (mvmul m ex) <= 101/100) by (pose proof (close_opnorm d m r ex HR C) as K; rewrite Nex in K; lra).
    pose proof (vnorm_sq (mvmul m ex)) as K2. rewrite Mx in *. unfold vnorm2, vdot in K2; cbn [vx vy vz] in K2. pose proof (vn_nonneg (mkV3 (B2R f00) (B2R f10) (B2R f20))) as K3.
    assert (vnorm (mkV3 (B2R f00) (B2R f10) (B2R f20)) * vnorm (mkV3 (B2R f00) (B2R f10) (B2R f20)) <= 101/100 * (101/100)) by (apply Rmult_le_compat; lra).
    assert (0 <= B2R f20 * B2R f20) by apply Rle_0_sqr. lra. }
  assert (UH : fu p * h <= fu p * (102/100)) by (apply Rmult_le_compat_l; lra).
  assert (P0 : is_finite t0' = true /\ Rabs (B2R t0') <= 4 /\ vnorm (mkV3 (s * h * cos (B2R t0') - B2R f00) (s * h * sin (B2R t0') - B2R f10) 0) <= (8 + 9/10) * fu p).
  { unfold t0', s. destruct flip.
    - destruct (fshift p t0 Ft Bt) as (Fs & Bs & a & Ca & Sa & Ea). cbv zeta in *. set (t1 := if flt fzero t0 then _ else _) in *.
      split; [exact Fs|]. split; [exact Bs|].
      assert (W : vnorm (mkV3 (h * cos a - - B2R f00) (h * sin a - - B2R f10) 0) <= 4 * fu p * h).
      { eapply Rle_trans; [|exact Eh]. apply Req_le. unfold vnorm. f_equal. unfold vnorm2, vdot; cbn [vx vy vz]. rewrite Ca, Sa. ring. }
      pose proof (polar_rotate h a (B2R t1) _ _ _ _ h0 W Ea) as W2.
      eapply Rle_trans; [|eapply Rle_trans; [exact W2|]].
      + apply Req_le. unfold vnorm. f_equal. unfold vnorm2, vdot; cbn [vx vy vz]. ring.
      + lra.
    - split; [exact Ft|]. split; [exact Bt|]. eapply Rle_trans; [|eapply Rle_trans; [exact Eh|lra]]. apply Req_le. f_equal. f_equal; ring. }
  destruct P0 as (F0 & B0 & E0).
  (* the second angle *)
  destruct (fnorm2_err p (x_c2 b) f22 f21 O1 F22 F21) as (Fc & c0 & Ec).
  { rewrite <- (sqrt_square 2) by lra. apply sqrt_le_1_alt. apply abs_sq in H22. apply abs_sq in H21. lra. }
  cbv zeta in Ec. set (c2 := fsqrt (fdot (x_c2 b) [f22; f21] [f22; f21])) in *. set (S := sqrt (B2R f22 * B2R f22 + B2R f21 * B2R f21)) in *.
  assert (S0 : 0 <= S) by apply sqrt_pos.
  assert (ROWm : vnorm (mvmul (mtrans m) ez) <= 1 + d). { pose proof (close_opnorm d (mtrans m) (mtrans r) ez (SO3_trans _ HR) CT) as K. rewrite Nez in K. lra. }
  assert (MTz : mvmul (mtrans m) ez = mkV3 (B2R f20) (B2R f21) (B2R f22)) by (unfold m; lin_unfold; f_equal; ring).
  assert (RTz : mvmul (mtrans r) ez = mkV3 (m20 r) (m21 r) (m22 r)) by (clear; destruct r; lin_unfold; f_equal; ring).
  assert (SSq : S * S = B2R f22 * B2R f22 + B2R f21 * B2R f21) by (unfold S; apply sqrt_sqrt; pose proof (Rle_0_sqr (B2R f22)); pose proof (Rle_0_sqr (B2R f21)); unfold Rsqr in *; lra).
  assert (SN : vnorm (mkV3 0 (B2R f21) (B2R f22)) = S) by (unfold vnorm, S; f_equal; unfold vnorm2, vdot; cbn [vx vy vz]; ring).
  set (c := sqrt (m22 r * m22 r + m21 r * m21 r)).
  assert (cN : vnorm (mkV3 0 (m21 r) (m22 r)) = c) by (unfold vnorm, c; f_equal; unfold vnorm2, vdot; cbn [vx vy vz]; ring).
  assert (cp : 0 <= c) by apply sqrt_pos.
  assert (ROW : m20 r * m20 r + m21 r * m21 r + m22 r * m22 r = 1).
  { pose proof (SO3_inv_r _ HR) as I. apply (f_equal m22) in I. revert I. clear. destruct r. lin_unfold. intros; lra. }
  assert (cc : c * c = 1 - m20 r * m20 r).
  { unfold c. rewrite sqrt_sqrt. lra. pose proof (Rle_0_sqr (m22 r)). pose proof (Rle_0_sqr (m21 r)). unfold Rsqr in *. lra. }
  assert (RD : (S - c) * (S - c) + (B2R f20 - m20 r) * (B2R f20 - m20 r) <= d * d).
  { pose proof (CT ez) as K. rewrite MTz, RTz, Nez, Rmult_1_r in K. unfold vsub in K; cbn [vx vy vz] in K.
    pose proof (vnorm_diff (mkV3 0 (B2R f21) (B2R f22)) (mkV3 0 (m21 r) (m22 r))) as K2. rewrite SN, cN in K2. apply abs_sq in K2.
    unfold vdist in K2. rewrite vnorm_sq in K2. unfold vnorm2, vdot, vsub in K2; cbn [vx vy vz] in K2.
    pose proof (vn_nonneg (mkV3 (B2R f20 - m20 r) (B2R f21 - m21 r) (B2R f22 - m22 r))) as K3.
    assert (K4 : vnorm (mkV3 (B2R f20 - m20 r) (B2R f21 - m21 r) (B2R f22 - m22 r)) * vnorm (mkV3 (B2R f20 - m20 r) (B2R f21 - m21 r) (B2R f22 - m22 r)) <= d * d) by (apply Rmult_le_compat; lra).
    rewrite vnorm_sq in K4. unfold vnorm2, vdot in K4; cbn [vx vy vz] in K4. lra. }
  assert (SB : S <= 101/100). { pose proof (Rle_0_sqr (B2R f20)) as K. unfold Rsqr in K. pose proof (vnorm_sq (mvmul (mtrans m) ez)) as K2. rewrite MTz in *. unfold vnorm2, vdot in K2; cbn [vx vy vz] in K2.
    pose proof (vn_nonneg (mkV3 (B2R f20) (B2R f21) (B2R f22))) as K3. apply sq_le_le; [lra|]. rewrite SSq.
    assert (vnorm (mkV3 (B2R f20) (B2R f21) (B2R f22)) * vnorm (mkV3 (B2R f20) (B2R f21) (B2R f22)) <= 101/100 * (101/100)) by (apply Rmult_le_compat; lra). lra. }
  assert (US : fu p * S <= fu p * (101/100)) by (apply Rmult_le_compat_l; lra).
  destruct (fneg_R p f20) as [V20 N20]. rewrite F20 in N20. destruct (fneg_R p c2) as [Vc2 Nc2]. rewrite Fc in Nc2.
  set (c2' := if flip then fneg c2 else c2). assert (Fc' : is_finite c2' = true) by (unfold c2'; destruct flip; assumption).
  assert (Vc' : B2R c2' = s * B2R c2) by (unfold c2', s; destruct flip; [rewrite Vc2|]; ring).
  replace (if flip then latan2 L p (fneg f20) (fneg c2) else latan2 L p (fneg f20) c2) with (latan2 L p (fneg f20) c2') by (unfold c2'; destruct flip; reflexivity).
  destruct (fpolar p L (fneg f20) c2' HL N20 Fc') as (F1 & B1 & y & y0 & yy & Ey). set (t1 := latan2 L p (fneg f20) c2') in *. rewrite Vc', V20 in yy, Ey.
  assert (yB : y <= 105/100).
  { apply sq_le_le; [lra|]. rewrite yy. assert (SS1 : s * s = 1) by (destruct HS as [-> | ->]; ring). replace (s * B2R c2 * (s * B2R c2) + - B2R f20 * - B2R f20) with (s * s * (B2R c2 * B2R c2) + B2R f20 * B2R f20) by ring. rewrite SS1.
    pose proof (vnorm_sq (mvmul (mtrans m) ez)) as K2. rewrite MTz in *. unfold vnorm2, vdot in K2; cbn [vx vy vz] in K2. pose proof (vn_nonneg (mkV3 (B2R f20) (B2R f21) (B2R f22))) as K3.
    assert (K4 : vnorm (mkV3 (B2R f20) (B2R f21) (B2R f22)) * vnorm (mkV3 (B2R f20) (B2R f21) (B2R f22)) <= 1001/1000 * (1001/1000)) by (apply Rmult_le_compat; lra).
    apply Rabs_both in Ec as Ec'. assert (B2R c2 * B2R c2 <= (S + / 1000) * (S + / 1000)) by (apply Rmult_le_compat; lra). assert (S * S <= 102/100 * S) by (apply Rmult_le_compat_r; lra). lra. }
  assert (UY : fu p * y <= fu p * (105/100)) by (apply Rmult_le_compat_l; lra).
  assert (E1 : vnorm (mkV3 (y * cos (B2R t1) - s * c) (y * sin (B2R t1) + m20 r) 0) <= d + 8 * fu p).
  { replace (mkV3 (y * cos (B2R t1) - s * c) (y * sin (B2R t1) + m20 r) 0) with
      (vadd (mkV3 (y * cos (B2R t1) - s * B2R c2) (y * sin (B2R t1) - - B2R f20) 0) (vadd (vscale (s * (B2R c2 - S)) ex) (mkV3 (s * (S - c)) (- (B2R f20 - m20 r)) 0)))
      by (unfold vadd, vscale, ex; cbn [vx vy vz]; f_equal; ring).
    eapply Rle_trans; [apply vnorm_triang|]. pose proof (vnorm_triang (vscale (s * (B2R c2 - S)) ex) (mkV3 (s * (S - c)) (- (B2R f20 - m20 r)) 0)) as T3.
    rewrite vnorm_vscale, Nex, Rabs_mult, SA in T3.
    assert (vnorm (mkV3 (s * (S - c)) (- (B2R f20 - m20 r)) 0) <= d).
    { apply vnorm_le_sq; [exact D0|]. unfold vnorm2, vdot; cbn [vx vy vz]. assert (SS1 : s * s = 1) by (destruct HS as [-> | ->]; ring).
      replace (s * (S - c) * (s * (S - c))) with (s * s * ((S - c) * (S - c))) by ring. rewrite SS1. lra. }
    lra. }
  (* the third angle *)
  destruct (sin_accurate L HL p t0' F0) as [Fsn Esn]. destruct (cos_accurate L HL p t0' F0) as [Fcs Ecs]. rewrite roundoff_fu in Esn, Ecs.
  assert (SB1 : Rabs (sin (B2R t0')) <= 1) by (apply Rabs_le, SIN_bound). assert (CB1 : Rabs (cos (B2R t0')) <= 1) by (apply Rabs_le, COS_bound).
  destruct (fsum2_err p (x_num b) (lsin L p t0') (lcos L p t0') f02 f12 _ _ O2 Fsn Fcs F02 F12 SB1 CB1 Esn Ecs H02 H12) as [Fnum Enum].
  destruct (fsum2_err p (x_den b) (lcos L p t0') (lsin L p t0') f11 f01 _ _ O3 Fcs Fsn F11 F01 CB1 SB1 Ecs Esn H11 H01) as [Fden Eden].
  set (num := fdot (x_num b) [lsin L p t0'; fneg (lcos L p t0')] [f02; f12]) in *. set (den := fdot (x_den b) [lcos L p t0'; fneg (lsin L p t0')] [f11; f01]) in *.
  destruct (fpolar p L num den HL Fnum Fden) as (F2 & B2 & rho & rho0 & rr & Er). set (t2 := latan2 L p num den) in *.
  set (sn := sin (B2R t0')) in *. set (cs := cos (B2R t0')) in *.
  set (f := mkV3 (- sn) cs 0). assert (T0 : sn * sn + cs * cs = 1) by (unfold sn, cs; pose proof (sin2_cos2 (B2R t0')) as K; unfold Rsqr in K; exact K).
  assert (Nf : vnorm f = 1) by (apply vnorm_unit; unfold f; lin_unfold; lra).
  assert (MTf : vsub (mvmul (mtrans m) f) (mvmul (mtrans r) f) = mkV3 (- sn * (B2R f00 - m00 r) + cs * (B2R f10 - m10 r)) ((cs * B2R f11 - sn * B2R f01) - (cs * m11 r - sn * m01 r)) (- ((sn * B2R f02 - cs * B2R f12) - (sn * m02 r - cs * m12 r)))).
  { unfold f, m. clear. destruct r. lin_unfold. f_equal; ring. }
  pose proof (CT f) as K. rewrite MTf, Nf, Rmult_1_r in K.
  assert (K1 : vnorm (mkV3 0 ((cs * B2R f11 - sn * B2R f01) - (cs * m11 r - sn * m01 r)) ((sn * B2R f02 - cs * B2R f12) - (sn * m02 r - cs * m12 r))) <= d).
  { eapply Rle_trans; [|exact K]. apply vnorm_le_sq; [apply vn_nonneg|]. rewrite vnorm_sq. unfold vnorm2, vdot; cbn [vx vy vz].
    pose proof (Rle_0_sqr (- sn * (B2R f00 - m00 r) + cs * (B2R f10 - m10 r))) as K4. unfold Rsqr in K4. lra. }
  pose proof (vnorm_yz _ _ _ Eden Enum) as K2.
  assert (rB : rho <= 103/100).
  { apply sq_le_le; [lra|]. rewrite rr.
    assert (K5 : vnorm (mvmul (mtrans m) f) <= 1001/1000) by (pose proof (close_opnorm d (mtrans m) (mtrans r) f (SO3_trans _ HR) CT) as K5; rewrite Nf in K5; lra).
    assert (K6 : (cs * B2R f11 - sn * B2R f01) * (cs * B2R f11 - sn * B2R f01) + (sn * B2R f02 - cs * B2R f12) * (sn * B2R f02 - cs * B2R f12) <= 1001/1000 * (1001/1000)).
    { eapply Rle_trans; [|apply Rmult_le_compat; [apply (vn_nonneg (mvmul (mtrans m) f))|apply vn_nonneg|exact K5|exact K5]]. rewrite vnorm_sq.
      replace (vnorm2 (mvmul (mtrans m) f)) with ((- sn * B2R f00 + cs * B2R f10) * (- sn * B2R f00 + cs * B2R f10) + ((cs * B2R f11 - sn * B2R f01) * (cs * B2R f11 - sn * B2R f01) + (sn * B2R f02 - cs * B2R f12) * (sn * B2R f02 - cs * B2R f12)))
        by (unfold f, m; lin_unfold; ring).
      pose proof (Rle_0_sqr (- sn * B2R f00 + cs * B2R f10)) as K7. unfold Rsqr in K7. lra. }
    set (dd := cs * B2R f11 - sn * B2R f01) in *. set (nn := sn * B2R f02 - cs * B2R f12) in *.
    assert (K8 : vnorm (mkV3 0 (B2R den) (B2R num)) <= 1001/1000 + / 1000).
    { replace (mkV3 0 (B2R den) (B2R num)) with (vadd (mkV3 0 dd nn) (mkV3 0 (B2R den - dd) (B2R num - nn))) by (unfold vadd; cbn [vx vy vz]; f_equal; ring).
      eapply Rle_trans; [apply vnorm_triang|]. apply Rplus_le_compat; [|lra]. apply vnorm_le_sq; [lra|]. unfold vnorm2, vdot; cbn [vx vy vz]. lra. }
    pose proof (vnorm_sq (mkV3 0 (B2R den) (B2R num))) as K9. unfold vnorm2, vdot in K9; cbn [vx vy vz] in K9. pose proof (vn_nonneg (mkV3 0 (B2R den) (B2R num))) as K10.
    assert (vnorm (mkV3 0 (B2R den) (B2R num)) * vnorm (mkV3 0 (B2R den) (B2R num)) <= (1001/1000 + / 1000) * (1001/1000 + / 1000)) by (apply Rmult_le_compat; lra). lra. }
  assert (UR : fu p * rho <= fu p * (103/100)) by (apply Rmult_le_compat_l; lra).
  assert (E2 : vnorm (mkV3 0 (rho * cos (B2R t2) - (cs * m11 r - sn * m01 r)) (rho * sin (B2R t2) - (sn * m02 r - cs * m12 r))) <= d + 17 * fu p).
  { replace (mkV3 0 (rho * cos (B2R t2) - (cs * m11 r - sn * m01 r)) (rho * sin (B2R t2) - (sn * m02 r - cs * m12 r))) with
      (vadd (mkV3 0 (rho * cos (B2R t2) - B2R den) (rho * sin (B2R t2) - B2R num))
        (vadd (mkV3 0 (B2R den - (cs * B2R f11 - sn * B2R f01)) (B2R num - (sn * B2R f02 - cs * B2R f12)))
          (mkV3 0 ((cs * B2R f11 - sn * B2R f01) - (cs * m11 r - sn * m01 r)) ((sn * B2R f02 - cs * B2R f12) - (sn * m02 r - cs * m12 r)))))
      by (unfold vadd; cbn [vx vy vz]; f_equal; ring).
    eapply Rle_trans; [apply vnorm_triang|].
    pose proof (vnorm_triang (mkV3 0 (B2R den - (cs * B2R f11 - sn * B2R f01)) (B2R num - (sn * B2R f02 - cs * B2R f12))) (mkV3 0 ((cs * B2R f11 - sn * B2R f01) - (cs * m11 r - sn * m01 r)) ((sn * B2R f02 - cs * B2R f12) - (sn * m02 r - cs * m12 r)))) as T3.
    assert (vnorm (mkV3 0 (rho * cos (B2R t2) - B2R den) (rho * sin (B2R t2) - B2R num)) <= 4 * fu p * rho).
    { eapply Rle_trans; [|exact Er]. apply Req_le. unfold vnorm. f_equal. unfold vnorm2, vdot; cbn [vx vy vz]. ring. }
    lra. }
  assert (E0' : vnorm (mkV3 (s * h * cs - m00 r) (s * h * sn - m10 r) 0) <= d + (8 + 9/10) * fu p).
  { pose proof (C ex) as W. rewrite Mx, Nex, Rmult_1_r in W. replace (mvmul r ex) with (mkV3 (m00 r) (m10 r) (m20 r)) in W by (clear; destruct r; lin_unfold; f_equal; ring).
    unfold vsub in W; cbn [vx vy vz] in W.
    replace (mkV3 (s * h * cs - m00 r) (s * h * sn - m10 r) 0) with (vadd (mkV3 (s * h * cs - B2R f00) (s * h * sn - B2R f10) 0) (mkV3 (B2R f00 - m00 r) (B2R f10 - m10 r) 0)) by (unfold vadd; cbn [vx vy vz]; f_equal; ring).
    eapply Rle_trans; [apply vnorm_triang|].
    assert (vnorm (mkV3 (B2R f00 - m00 r) (B2R f10 - m10 r) 0) <= d); [|fold cs sn in E0; lra].
    eapply Rle_trans; [|exact W]. apply vnorm_le_sq; [apply vn_nonneg|]. rewrite vnorm_sq. unfold vnorm2, vdot; cbn [vx vy vz]. pose proof (Rle_0_sqr (B2R f20 - m20 r)) as K4. unfold Rsqr in K4. lra. }
  exists t0', t1, t2. split; [reflexivity|]. split; [now split|]. split; [now split|].
  eapply close_mono; [|apply (euler_core_approx r s c h y rho (B2R t0') (B2R t1) (B2R t2) _ _ _ HR HS h0 cp cc y0 rho0 E0' E1 E2)]. lra.
Qed.

Lemma fzyx_of_quat_err p L b (q : FQ p) e A : libm_ok L -> ext_ok b -> qfinite q -> qnorm e = 1 -> 0 <= A <= 1200 -> qdist (qval q) e <= A * fu p ->
  exists z y x, fzyx_of_quat L b q = SrcZyx z y x /\ (is_finite z = true /\ is_finite y = true /\ is_finite x = true) /\ (Rabs (B2R z) <= 4 /\ Rabs (B2R y) <= 4 /\ Rabs (B2R x) <= 4) /\
    close ((112 * A + 476) * fu p) (zyx_rot (mkZyx (B2R z) (B2R y) (B2R x))) (quat_rot e).
Proof.
  intros HL (O1 & O2 & O3 & O4 & O5 & O6) Fq E HA D. pose proof (fu_pos p) as U. pose proof (fu_24 p) as V.
  destruct (ftoRot_wide p (x_rot b) q e A O3 Fq E HA D) as [Fm C]. unfold fzyx_of_quat. cbv zeta.
  set (m := ftoRot (x_rot b) q) in *. destruct Fm as ((F00 & F01 & F02) & (F10 & F11 & F12) & (F20 & F21 & F22)).
  assert (SO : SO3 (quat_rot e)) by (apply quat_rot_SO3; rewrite <- qnorm_sq, E; ring).
  assert (Hd : (7 * A + 19) * fu p <= / 1000) by (apply Rle_trans with (9000 * fu p); [apply Rmult_le_compat_r; lra|lra]).
  destruct (feuler_core_err p L b true _ _ _ _ _ _ _ _ _ (quat_rot e) ((7 * A + 19) * fu p) HL O4 O5 O6 F10 F00 F22 F21 F20 F02 F12 F11 F01 SO Hd C) as (b0 & b1 & b2 & Eq & F & B & K).
  rewrite Eq. exists b0, b1, b2. split; [reflexivity|]. split; [exact F|]. split; [exact B|]. unfold zyx_rot; cbn [zyaw zpitch zroll].
  eapply close_mono; [|exact K]. lra.
Qed.
Lemma swap_xyz a b c : swap02 (mmul (Rot_z a) (mmul (Rot_y b) (Rot_x c))) = xyz_rot (mkXyz (- a) (- b) (- c)).
Proof.
  rewrite !swap02_mul. unfold xyz_rot; cbn [xroll xpitch xyaw]. rewrite Rot_z_neg, Rot_x_neg, Rot_y_neg. unfold Rot_x, Rot_y, Rot_z, swap02. lin.
Qed.
Lemma fxyz_of_quat_err p L b (q : FQ p) e A : libm_ok L -> ext_ok b -> qfinite q -> qnorm e = 1 -> 0 <= A <= 1200 -> qdist (qval q) e <= A * fu p ->
  exists x y z, fxyz_of_quat L b q = SrcXyz x y z /\ (is_finite x = true /\ is_finite y = true /\ is_finite z = true) /\ (Rabs (B2R x) <= 4 /\ Rabs (B2R y) <= 4 /\ Rabs (B2R z) <= 4) /\
    close ((112 * A + 476) * fu p) (xyz_rot (mkXyz (B2R x) (B2R y) (B2R z))) (quat_rot e).
Proof.
  intros HL (O1 & O2 & O3 & O4 & O5 & O6) Fq E HA D. pose proof (fu_pos p) as U. pose proof (fu_24 p) as V.
  destruct (ftoRot_wide p (x_rot b) q e A O3 Fq E HA D) as [Fm C]. unfold fxyz_of_quat. cbv zeta.
  set (m := ftoRot (x_rot b) q) in *. destruct Fm as ((F00 & F01 & F02) & (F10 & F11 & F12) & (F20 & F21 & F22)).
  assert (SO : SO3 (quat_rot e)) by (apply quat_rot_SO3; rewrite <- qnorm_sq, E; ring).
  assert (Hd : (7 * A + 19) * fu p <= / 1000) by (apply Rle_trans with (9000 * fu p); [apply Rmult_le_compat_r; lra|lra]).
  apply swap02_close in C. apply swap02_SO3 in SO.
  destruct (feuler_core_err p L b false _ _ _ _ _ _ _ _ _ (swap02 (quat_rot e)) ((7 * A + 19) * fu p) HL O4 O5 O6 F12 F22 F00 F01 F02 F20 F10 F11 F21 SO Hd C) as (b0 & b1 & b2 & Eq & F & B & K).
  rewrite Eq. exists (fneg b0), (fneg b1), (fneg b2). split; [reflexivity|]. destruct (fneg_R p b0) as [V0 N0]. destruct (fneg_R p b1) as [V1 N1]. destruct (fneg_R p b2) as [V2 N2].
  rewrite N0, N1, N2, V0, V1, V2, !Rabs_Ropp. split; [exact F|]. split; [exact B|].
  apply swap02_close in K. rewrite swap02_swap02, swap_xyz in K. eapply close_mono; [|exact K]. lra.
Qed.
