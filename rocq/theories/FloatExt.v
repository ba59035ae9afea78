(** * FloatExt: norms, directions and half-angle quaternions, for the conversions
    from quaternions. *)
From Coq Require Import ZArith Reals Lra Psatz Bool List Lia.
From Flocq Require Import IEEE754.BinarySingleNaN Core.Core.
From Verif Require Import Linalg Spec SpecFacts SpecClose ModelCommon ModelEigen CommonFacts ModelRotation ConvFacts CloseFacts RVFacts EulerNear
  FloatModel FloatFacts FloatModel2 SpecFloatQ FloatQFacts FloatQProd FloatQHist FloatQRot FloatMHist FloatCast FloatWrap FloatModel3 SpecLibm FloatBuild FloatBuild2 FloatBuild3 FloatBuild4 FloatModel4.
Import ListNotations.
Local Open Scope R_scope.

Lemma direction_close_u p A (a e : Quat) : 0 <= A <= 1200 -> qnorm e = 1 -> 0 < qnorm a -> qdist a e <= A * fu p -> qdist (direction a) e <= (A + / 10) * fu p.
Proof.
  intros HA E P D. pose proof (fu_pos p) as U. pose proof (fu_24 p) as V. assert (AU : A * fu p <= 1200 * fu p) by (apply Rmult_le_compat_r; lra).
  eapply Rle_trans; [apply direction_close; [exact E|exact P|lra]|].
  pose proof (qdist_nonneg a e) as N0. apply Rmult_le_reg_r with (1 - qdist a e); [lra|].
  unfold Rdiv. rewrite Rmult_assoc, Rinv_l by lra. clear -N0 D U V AU HA. nra.
Qed.
Lemma operand_wide p A (b : FQ p) e : 0 <= A <= 1200 -> qnorm e = 1 -> qdist (qval b) e <= A * fu p ->
  Rabs (qnorm (qval b) - 1) <= A * fu p /\ qdist (direction (qval b)) e <= (A + / 10) * fu p /\ 0 < qnorm (qval b).
Proof.
  intros HA E D. pose proof (fu_pos p) as U. pose proof (fu_24 p) as V. assert (AU : A * fu p <= 1200 * fu p) by nra.
  pose proof (qdist_norm (qval b) e) as N. rewrite E in N.
  pose proof (Rle_abs (- (qnorm (qval b) - 1))) as X. rewrite Rabs_Ropp in X.
  split; [lra|]. split; [|lra].
  eapply Rle_trans; [apply direction_close; [exact E|lra|lra]|].
  pose proof (qdist_nonneg (qval b) e) as N0. apply Rmult_le_reg_r with (1 - qdist (qval b) e); [lra|].
  unfold Rdiv. rewrite Rmult_assoc, Rinv_l by lra. nra.
Qed.
Lemma ftoRot_wide p o (q : FQ p) e A : orders9_rot_ok o -> qfinite q -> qnorm e = 1 -> 0 <= A <= 1200 -> qdist (qval q) e <= A * fu p ->
  mfinite (ftoRot o q) /\ close ((7 * A + 19) * fu p) (mval (ftoRot o q)) (quat_rot e).
Proof.
  intros O F E HA D. pose proof (fu_pos p) as U. pose proof (fu_24 p) as V.
  destruct (operand_wide p A q e HA E D) as (N & D' & P).
  assert (AU : 0 <= A * fu p <= / 10000) by nra.
  destruct (ftoRot_close p o q O F ltac:(lra)) as [Fm C]. split; [exact Fm|].
  eapply close_mono; [|eapply close_trans; [exact C|apply (quat_rot_close (direction (qval q)) e); [now apply direction_norm|exact E]]].
  lra.
Qed.

(** vectors with small relative errors in the components *)
Lemma vec_rel_err x y k h : 0 <= k -> 0 <= h ->
  Rabs (vx x - vx y) <= k * Rabs (vx y) + h -> Rabs (vy x - vy y) <= k * Rabs (vy y) + h -> Rabs (vz x - vz y) <= k * Rabs (vz y) + h ->
  vdist x y <= k * vnorm y + 7/4 * h.
Proof.
  intros K H Ex Ey Ez. unfold vdist.
  apply Rle_trans with (vnorm (vadd (vscale k (mkV3 (Rabs (vx y)) (Rabs (vy y)) (Rabs (vz y)))) (mkV3 h h h))).
  - apply vnorm_le_sq; [apply vn_nonneg|]. rewrite vnorm_sq. unfold vnorm2, vdot, vsub, vadd, vscale; cbn [vx vy vz].
    apply abs_sq in Ex. apply abs_sq in Ey. apply abs_sq in Ez. lra.
  - eapply Rle_trans; [apply vnorm_triang3|]. rewrite vnorm_vscale, (Rabs_pos_eq k) by lra.
    replace (vnorm (mkV3 (Rabs (vx y)) (Rabs (vy y)) (Rabs (vz y)))) with (vnorm y).
    2:{ unfold vnorm, vnorm2, vdot; cbn [vx vy vz]. f_equal. rewrite <- !Rabs_mult, !Rabs_pos_eq by nra. reflexivity. }
    assert (vnorm (mkV3 h h h) <= 7/4 * h) by (apply vnorm_le3; cbn; rewrite Rabs_pos_eq; lra). lra.
Qed.

(** the norm of vectors down to 2^-56 *)
Lemma fvnorm_big2 p t (v : FV p) : order 3 t -> vfinite v -> bpow radix2 (-56) <= vnorm (vval v) <= bpow radix2 50 ->
  is_finite (fvnorm t v) = true /\ Rabs (B2R (fvnorm t v) - vnorm (vval v)) <= (3 + / 20) * fu p * vnorm (vval v).
Proof.
  intros O (Fx & Fy & Fz) [L H]. pose proof (fu_pos p) as U. pose proof (fu_24 p) as V. pose proof (bpow_gt_0 radix2 (-56)) as P0.
  set (N := vnorm (vval v)) in *. assert (N0 : 0 < N) by lra.
  destruct (fdot3_err p t _ _ _ _ _ _ (N * N) O Fx Fy Fz Fx Fy Fz) as [Fd Ed].
  { apply dotabs3. }
  { apply Rle_trans with (bpow radix2 50 * bpow radix2 50); [nra|]. rewrite <- bpow_plus. apply bpow_le. lia. }
  assert (NN : N * N = B2R (gx v) * B2R (gx v) + B2R (gy v) * B2R (gy v) + B2R (gz v) * B2R (gz v)) by (unfold N; rewrite vnorm_sq; reflexivity).
  rewrite <- NN in Ed. fold (flist v) in Fd, Ed. set (d := fdot t (flist v) (flist v)) in *.
  assert (T : eta p <= fu p * (/ 10000 * (N * N))).
  { eapply Rle_trans; [apply eta_u|]. apply Rmult_le_compat_l; [lra|].
    apply Rle_trans with (/ 10000 * (bpow radix2 (-56) * bpow radix2 (-56))); [|apply Rmult_le_compat_l; [lra|nra]].
    rewrite <- bpow_plus. change (-56 + -56)%Z with (-112)%Z. replace (-126)%Z with (-14 + -112)%Z by lia. rewrite bpow_plus.
    apply Rmult_le_compat_r; [apply bpow_ge_0|]. cbn; lra. }
  assert (UNN : 0 <= fu p * (N * N)) by (apply Rmult_le_pos; nra).
  assert (Ed' : Rabs (B2R d - N * N) <= (4 + / 100) * fu p * (N * N)) by lra.
  pose proof (sqrt_close (fu p) N (B2R d) ltac:(lra) ltac:(lra) N0 Ed') as S1.
  assert (Z : 0 < B2R d). { apply Rabs_both in Ed'. assert (0 < N * N) by nra. nra. }
  destruct (fsqrt_R p d Fd ltac:(lra)) as [Fs Rs]. split; [exact Fs|]. unfold fvnorm. fold d. rewrite Rs.
  pose proof (rnd_err_le p (sqrt (B2R d))) as R. pose proof (sqrt_pos (B2R d)) as Sp. rewrite (Rabs_pos_eq (sqrt (B2R d))) in R by exact Sp.
  assert (T2 : eta p <= fu p * (/ 1000000 * N)).
  { eapply Rle_trans; [apply eta_u|]. apply Rmult_le_compat_l; [lra|].
    apply Rle_trans with (/ 1000000 * bpow radix2 (-56)); [|apply Rmult_le_compat_l; lra].
    replace (-126)%Z with (-70 + -56)%Z by lia. rewrite bpow_plus. apply Rmult_le_compat_r; [apply bpow_ge_0|].
    apply Rle_trans with (bpow radix2 (-26)); [apply bpow_le; lia|cbn; lra]. }
  eapply Rle_trans; [eapply Rabs_tri3; [exact R|exact S1]|].
  assert (0 <= fu p * N) by (apply Rmult_le_pos; lra). apply Rabs_both in S1.
  assert (sqrt (B2R d) <= (1 + / 1000) * N) by nra.
  assert (fu p * sqrt (B2R d) <= fu p * ((1 + / 1000) * N)) by (apply Rmult_le_compat_l; lra). lra.
Qed.
Lemma fvnorm_small2 p t (v : FV p) : order 3 t -> vfinite v -> vnorm (vval v) <= bpow radix2 (-56) ->
  is_finite (fvnorm t v) = true /\ 0 <= B2R (fvnorm t v) <= bpow radix2 (-54).
Proof.
  intros O (Fx & Fy & Fz) L. pose proof (fu_pos p) as U. pose proof (fu_24 p) as V.
  set (N := vnorm (vval v)) in *. assert (N0 : 0 <= N) by apply vn_nonneg.
  destruct (fdot3_err p t _ _ _ _ _ _ (N * N) O Fx Fy Fz Fx Fy Fz) as [Fd Ed].
  { apply dotabs3. }
  { apply Rle_trans with (bpow radix2 0 * bpow radix2 0). assert (bpow radix2 (-56) <= bpow radix2 0) by (apply bpow_le; lia). nra. rewrite <- bpow_plus. apply bpow_le. lia. }
  assert (NN : N * N = B2R (gx v) * B2R (gx v) + B2R (gy v) * B2R (gy v) + B2R (gz v) * B2R (gz v)) by (unfold N; rewrite vnorm_sq; reflexivity).
  rewrite <- NN in Ed. fold (flist v) in Fd, Ed. set (d := fdot t (flist v) (flist v)) in *.
  assert (NB : N * N <= bpow radix2 (-112)). { change (-112)%Z with (-56 + -56)%Z. rewrite bpow_plus. nra. }
  assert (T : 5 * eta p <= bpow radix2 (-112)).
  { pose proof (eta_tiny p). apply Rle_trans with (bpow radix2 3 * bpow radix2 (-150)); [change (bpow radix2 3) with 8; pose proof (eta_pos p); lra|].
    rewrite <- bpow_plus. apply bpow_le. lia. }
  assert (UNN : 0 <= fu p * (N * N) <= N * N) by (split; [apply Rmult_le_pos; nra|nra]).
  apply Rabs_both in Ed.
  assert (DB : B2R d <= bpow radix2 (-108)).
  { replace (-108)%Z with (4 + -112)%Z by lia. rewrite bpow_plus. change (bpow radix2 4) with 16. lra. }
  assert (DN : 0 <= B2R d) by (unfold d; apply fdot_squares_nonneg; repeat split; assumption).
  destruct (fsqrt_R p d Fd DN) as [Fs Rs]. split; [exact Fs|]. unfold fvnorm. fold d. rewrite Rs. split.
  - apply rnd_ge_fmt; [apply fmt_0|apply sqrt_pos].
  - apply rnd_le_fmt; [apply fmt_bpow; destruct p; vm_compute; discriminate|].
    rewrite <- (sqrt_square (bpow radix2 (-54))) by apply bpow_ge_0. apply sqrt_le_1_alt. rewrite <- bpow_plus. exact DB.
Qed.

Lemma fepsilon_R p : is_finite (fepsilon p) = true /\ B2R (fepsilon p) = 2 * fu p.
Proof.
  destruct p; (split; [vm_compute; reflexivity|]).
  - cbn [fepsilon]. rewrite (B2R_of_SF F32 (flit F32 1 (2 ^ 23)) false 8388608 (-46)) by (vm_compute; reflexivity).
    unfold F2R, fu; cbn [Fnum Fexp cond_Zopp fprec]. change (bpow radix2 (-46)) with (/ 70368744177664). change (bpow radix2 (-(24))) with (/ 16777216). field.
  - cbn [fepsilon]. rewrite (B2R_of_SF F64 (flit F64 1 (2 ^ 52)) false 4503599627370496 (-104)) by (vm_compute; reflexivity).
    unfold F2R, fu; cbn [Fnum Fexp cond_Zopp fprec]. change (bpow radix2 (-104)) with (/ 20282409603651670423947251286016). change (bpow radix2 (-(53))) with (/ 9007199254740992). field.
Qed.
(** a finite number that is not zero is at least the smallest one *)
Lemma finite_nonzero p (a : fl p) : is_finite a = true -> B2R a <> 0 -> 2 * eta p <= Rabs (B2R a).
Proof.
  intros F N. replace (2 * eta p) with (bpow radix2 (femin p)) by (unfold eta; field).
  apply (abs_B2R_ge_emin (fprec p) (femax p)). destruct a; try discriminate; [|reflexivity]. exfalso. apply N. reflexivity.
Qed.

Lemma faa_norm_err p L b (v : FV p) : libm_ok L -> order 3 (x_norm b) -> vfinite v -> vnorm (vval v) <= 2 ->
  let n := faa_norm L b v in let N := vnorm (vval v) in
  is_finite n = true /\ Rabs (B2R n - N) <= (8 + / 10) * fu p * N + eta p /\ Rabs (B2R n - N) <= (3 + / 20) * fu p * N + / 1000 * fu p.
Proof.
  intros HL O Fv HN n N. pose proof (fu_pos p) as U. pose proof (fu_24 p) as V. pose proof (eta_pos p) as P. pose proof (eta_u7 p) as T.
  assert (N0 : 0 <= N) by apply vn_nonneg. assert (UN : 0 <= fu p * N) by (apply Rmult_le_pos; lra).
  destruct (fepsilon_R p) as [Fe Ee].
  destruct (stable_accurate L HL p (gx v) (gy v) (gz v)) as [Fs Es]; try apply Fv; [exact HN|].
  change (vnorm (mkV3 (B2R (gx v)) (B2R (gy v)) (B2R (gz v)))) with N in Es. rewrite roundoff_fu, half_smallest_eta in Es.
  assert (ST : N <= 3 * fu p -> is_finite (lstable L p (gx v) (gy v) (gz v)) = true /\
     Rabs (B2R (lstable L p (gx v) (gy v) (gz v)) - N) <= (8 + / 10) * fu p * N + eta p /\
     Rabs (B2R (lstable L p (gx v) (gy v) (gz v)) - N) <= (3 + / 20) * fu p * N + / 1000 * fu p).
  { intro S1. split; [exact Fs|]. split; [lra|]. assert (fu p * N <= / 16777216 * N) by (apply Rmult_le_compat_r; lra). lra. }
  unfold n, faa_norm. destruct (Rle_or_lt N (bpow radix2 (-56))) as [S1|S1].
  - destruct (fvnorm_small2 p _ v O Fv S1) as [Fn [En1 En2]]. rewrite (flt_R p _ _ Fn Fe), Ee, Rlt_bool_true.
    + apply ST. pose proof (fu_53 p). assert (bpow radix2 (-56) <= bpow radix2 (-53)) by (apply bpow_le; lia). lra.
    + pose proof (fu_53 p). assert (bpow radix2 (-54) < bpow radix2 (-53)) by (apply bpow_lt; lia). lra.
  - destruct (fvnorm_big2 p _ v O Fv) as [Fn En].
    { fold N. split; [lra|]. apply Rle_trans with (bpow radix2 1); [change (bpow radix2 1) with 2; exact HN|apply bpow_le; lia]. }
    fold N in En. rewrite (flt_R p _ _ Fn Fe), Ee. destruct (Rlt_bool_spec (B2R (fvnorm (x_norm b) v)) (2 * fu p)) as [C|C].
    + apply ST. apply Rabs_both in En. assert (fu p * N <= / 16777216 * N) by (apply Rmult_le_compat_r; lra). lra.
    + split; [exact Fn|]. split; lra.
Qed.

(** ** directions *)
Lemma qnorm_w_vec w n e : vnorm2 e = 1 -> qnorm2 (mkQ w (n * vx e) (n * vy e) (n * vz e)) = w * w + n * n.
Proof. unfold vnorm2, vdot, qnorm2; cbn [qw qx qy qz]. intro H. replace (w * w + n * n) with (w * w + n * n * (vx e * vx e + vy e * vy e + vz e * vz e)) by (rewrite H; ring). ring. Qed.
Lemma dir_half w n e : vnorm2 e = 1 -> w <> 0 \/ n <> 0 ->
  direction (mkQ w (n * vx e) (n * vy e) (n * vz e)) = half_quat (2 * atan2 n w) e /\ 0 < qnorm (mkQ w (n * vx e) (n * vy e) (n * vz e)).
Proof.
  intros E H. destruct (atan2_polar n w H) as (P & C & S1). cbv zeta in *. unfold direction, half_quat, qnorm. rewrite (qnorm_w_vec _ _ _ E).
  set (r := sqrt (w * w + n * n)) in *. replace (2 * atan2 n w / 2) with (atan2 n w) by field. split; [|exact P].
  unfold qscale; cbn [qw qx qy qz]. assert (R : / r * w = cos (atan2 n w)) by (rewrite <- C at 1; field; lra).
  assert (R2 : / r * n = sin (atan2 n w)) by (rewrite <- S1 at 1; field; lra).
  rewrite <- R, <- R2. f_equal; ring.
Qed.
Lemma cos_sin_dist a b : (cos a - cos b) * (cos a - cos b) + (sin a - sin b) * (sin a - sin b) <= (a - b) * (a - b).
Proof.
  replace ((cos a - cos b) * (cos a - cos b) + (sin a - sin b) * (sin a - sin b)) with (2 - 2 * cos (a - b)).
  2:{ rewrite cos_minus. pose proof (sin2_cos2 a) as A. pose proof (sin2_cos2 b) as B. unfold Rsqr in *. lra. }
  set (x := a - b). replace x with (2 * (x / 2)) at 1 by field. rewrite cos_2a_sin. pose proof (sin_abs_le (x / 2)) as S1. apply abs_sq in S1.
  rewrite <- Rabs_mult, Rabs_pos_eq in S1 by nra. lra.
Qed.
Lemma half_quat_angle a b e : vnorm2 e = 1 -> qdist (half_quat a e) (half_quat b e) <= Rabs (a - b) / 2.
Proof.
  intro E. pose proof (Rabs_pos (a - b)). apply sq_le_le; [lra|]. unfold qdist. rewrite qnorm_sq. unfold qsub, half_quat; cbn [qw qx qy qz].
  replace (qnorm2 _) with ((cos (a / 2) - cos (b / 2)) * (cos (a / 2) - cos (b / 2)) + (sin (a / 2) - sin (b / 2)) * (sin (a / 2) - sin (b / 2)) * vnorm2 e)
    by (unfold qnorm2, vnorm2, vdot; cbn [qw qx qy qz]; ring).
  rewrite E, Rmult_1_r. eapply Rle_trans; [apply cos_sin_dist|].
  replace (Rabs (a - b) / 2 * (Rabs (a - b) / 2)) with (Rabs ((a - b) * (a - b)) / 4) by (rewrite Rabs_mult; field). rewrite (Rabs_pos_eq ((a - b) * (a - b))) by apply Rle_0_sqr. apply Req_le. field.
Qed.
Lemma half_quat_axis a e g : qdist (half_quat a e) (half_quat a g) <= Rabs (sin (a / 2)) * vdist e g.
Proof.
  pose proof (Rabs_pos (sin (a / 2))). pose proof (vn_nonneg (vsub e g)). apply sq_le_le; [apply Rmult_le_pos; assumption|]. unfold qdist. rewrite qnorm_sq.
  unfold qsub, half_quat; cbn [qw qx qy qz]. unfold vdist.
  replace (Rabs (sin (a / 2)) * vnorm (vsub e g) * (Rabs (sin (a / 2)) * vnorm (vsub e g))) with (Rabs (sin (a / 2)) * Rabs (sin (a / 2)) * (vnorm (vsub e g) * vnorm (vsub e g))) by ring.
  rewrite vnorm_sq, <- Rabs_mult, (Rabs_pos_eq (_ * _)) by apply Rle_0_sqr. unfold qnorm2, vnorm2, vdot, vsub; cbn [qw qx qy qz vx vy vz]. apply Req_le. ring.
Qed.
(** the direction of a vector close to a vector *)
Lemma vdirection_dist x e d : vnorm2 e = 1 -> vdist x e <= d -> d <= / 10 ->
  vnorm2 (vscale (/ vnorm x) x) = 1 /\ vdist (vscale (/ vnorm x) x) e <= 2 * d /\ Rabs (vnorm x - 1) <= d.
Proof.
  intros E D H. pose proof (vnorm_unit _ E) as E1.
  assert (N : Rabs (vnorm x - 1) <= d).
  { rewrite <- E1. eapply Rle_trans; [|exact D]. apply Rabs_le. split.
    - pose proof (vnorm_triang3 x (vsub e x)) as T. replace (vadd x (vsub e x)) with e in T by lin. unfold vdist in *.
      replace (vnorm (vsub e x)) with (vnorm (vsub x e)) in T by (unfold vnorm; f_equal; lin). lra.
    - pose proof (vnorm_triang3 e (vsub x e)) as T. replace (vadd e (vsub x e)) with x in T by lin. unfold vdist. lra. }
  apply Rabs_both in N as N'. pose proof (vnorm_sq x) as S1.
  split. { replace (vnorm2 (vscale (/ vnorm x) x)) with (/ vnorm x * / vnorm x * vnorm2 x) by lin. rewrite <- S1. field. lra. }
  split; [|exact N].
  eapply Rle_trans; [apply (vdist_triang _ x)|]. assert (vdist (vscale (/ vnorm x) x) x <= d); [|lra].
  unfold vdist. replace (vsub (vscale (/ vnorm x) x) x) with (vscale (/ vnorm x - 1) x) by lin. rewrite vnorm_vscale.
  rewrite <- (Rabs_pos_eq (vnorm x)) at 2 by lra. rewrite <- Rabs_mult. replace ((/ vnorm x - 1) * vnorm x) with (- (vnorm x - 1)) by (field; lra). now rewrite Rabs_Ropp.
Qed.
