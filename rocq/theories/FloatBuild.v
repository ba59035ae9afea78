(** * FloatBuild: rounding of the constructions of FloatModel3. *)
From Coq Require Import ZArith Reals Lra Psatz Bool List Lia.
From Flocq Require Import IEEE754.BinarySingleNaN Core.Core.
From Verif Require Import Linalg Spec SpecFacts SpecClose ModelCommon ModelEigen CommonFacts ModelRotation ConvFacts CloseFacts RVFacts
  FloatModel FloatFacts FloatModel2 SpecFloatQ FloatQFacts FloatQProd FloatQHist FloatQRot FloatCast FloatModel3 SpecLibm Claims9.
Import ListNotations.
Local Open Scope R_scope.

Lemma Rabs_tri3 a b c x y : Rabs (a - b) <= x -> Rabs (b - c) <= y -> Rabs (a - c) <= x + y.
Proof. intros H1 H2. replace (a - c) with ((a - b) + (b - c)) by ring. eapply Rle_trans; [apply Rabs_triang|]. lra. Qed.
Lemma Rabs_both a x : Rabs a <= x -> - x <= a <= x.
Proof. intro H. split; [pose proof (Rle_abs (- a)) as X; rewrite Rabs_Ropp in X; lra|pose proof (Rle_abs a); lra]. Qed.
Lemma sin_lipschitz a b : Rabs (sin a - sin b) <= Rabs (a - b).
Proof.
  rewrite form4. rewrite !Rabs_mult, (Rabs_pos_eq 2) by lra.
  pose proof (sin_abs_le ((a - b) / 2)) as H. pose proof (COS_bound ((a + b) / 2)) as C. assert (Rabs (cos ((a + b) / 2)) <= 1) by (apply Rabs_le; lra).
  replace ((a - b) / 2) with ((a - b) * / 2) in * by reflexivity. rewrite Rabs_mult, (Rabs_pos_eq (/ 2)) in H by lra.
  pose proof (Rabs_pos (cos ((a + b) / 2))). pose proof (Rabs_pos (sin ((a - b) * / 2))). nra.
Qed.
Lemma cos_lipschitz a b : Rabs (cos a - cos b) <= Rabs (a - b).
Proof.
  rewrite form2. rewrite !Rabs_mult. replace (Rabs (-2)) with 2 by (rewrite Rabs_left by lra; lra).
  pose proof (sin_abs_le ((a - b) / 2)) as H. pose proof (SIN_bound ((a + b) / 2)) as C. assert (Rabs (sin ((a + b) / 2)) <= 1) by (apply Rabs_le; lra).
  replace ((a - b) / 2) with ((a - b) * / 2) in * by reflexivity. rewrite Rabs_mult, (Rabs_pos_eq (/ 2)) in H by lra.
  pose proof (Rabs_pos (sin ((a + b) / 2))). pose proof (Rabs_pos (sin ((a - b) * / 2))). nra.
Qed.

Lemma fhalf_R p : is_finite (fhalf p) = true /\ B2R (fhalf p) = / 2.
Proof. destruct p; (split; [reflexivity|]); vm_compute; lra. Qed.

(** halving is exact, up to underflow *)
Lemma rnd_half p x : ffmt p x -> Rabs (rnd p (x / 2) - x / 2) <= 2 * eta p.
Proof.
  intro F. destruct (fmt_scaled p x F) as (m & e & E & L & C). pose proof (eta_pos p) as P.
  destruct (Z.eq_dec e (femin p)) as [D|D].
  - eapply Rle_trans; [apply rnd_err_le|]. enough (fu p * Rabs (x / 2) <= eta p) by lra.
    assert (X : Rabs x < bpow radix2 (femin p + fprec p)).
    { unfold cexp, ffexp, FLT_exp in C. destruct (Req_dec x 0) as [->|N0]; [rewrite Rabs_R0; apply bpow_gt_0|].
      apply Rlt_le_trans with (bpow radix2 (mag radix2 x)); [apply bpow_mag_gt|]. apply bpow_le. lia. }
    unfold Rdiv. rewrite Rabs_mult, (Rabs_pos_eq (/ 2)) by lra. unfold fu, eta.
    apply Rle_trans with (bpow radix2 (- fprec p) * (bpow radix2 (femin p + fprec p) * / 2)).
    { apply Rmult_le_compat_l; [apply bpow_ge_0|lra]. }
    rewrite <- Rmult_assoc, <- bpow_plus. replace (- fprec p + (femin p + fprec p))%Z with (femin p) by lia. lra.
  - assert (FH : ffmt p (x / 2)).
    { rewrite E. replace (IZR m * bpow radix2 e / 2) with (IZR m * bpow radix2 (e - 1)).
      - apply fmt_multiple; [lia|]. assert (Xm : Rabs x < bpow radix2 (e + fprec p)).
        { destruct (Req_dec x 0) as [->|N0]; [rewrite Rabs_R0; apply bpow_gt_0|].
          apply Rlt_le_trans with (bpow radix2 (mag radix2 x)); [apply bpow_mag_gt|]. apply bpow_le. unfold cexp, ffexp, FLT_exp in C. lia. }
        rewrite E in Xm. replace (e - 1 + fprec p)%Z with (e + fprec p - 1)%Z by lia.
        unfold Zminus. rewrite !bpow_plus in *. change (bpow radix2 (-(1))) with (/ 2). rewrite <- Rmult_assoc, Rabs_mult, (Rabs_pos_eq (/ 2)) by lra.
        apply Rmult_lt_compat_r; [lra|exact Xm].
      - unfold Zminus. rewrite bpow_plus. change (bpow radix2 (-(1))) with (/ 2). unfold Rdiv. ring. }
    rewrite (rnd_id p _ FH), Rminus_diag_eq, Rabs_R0 by reflexivity. lra.
Qed.
Lemma fl_lt_emax p (a : fl p) : Rabs (B2R a) < bpow radix2 (femax p).
Proof. apply abs_B2R_lt_emax. Qed.
Lemma fbig_double p : bpow radix2 (femax p) = 2 * fbig p.
Proof. unfold fbig. replace 2 with (bpow radix2 1) by reflexivity. rewrite <- bpow_plus. f_equal. lia. Qed.
Lemma half_R p (a : fl p) : is_finite a = true ->
  is_finite (fmul (fhalf p) a) = true /\ Rabs (B2R (fmul (fhalf p) a) - B2R a / 2) <= 2 * eta p.
Proof.
  intro F. destruct (fhalf_R p) as [Fh Vh]. pose proof (fl_lt_emax p a) as L. rewrite fbig_double in L.
  destruct (fmul_R p (fhalf p) a Fh F) as [R Fr].
  - rewrite Vh, Rabs_mult, (Rabs_pos_eq (/ 2)) by lra. lra.
  - split; [exact Fr|]. rewrite R, Vh. replace (/ 2 * B2R a) with (B2R a / 2) by field. apply rnd_half, fmt_B2R.
Qed.
Lemma half_R' p (a : fl p) : is_finite a = true ->
  is_finite (fmul a (fhalf p)) = true /\ Rabs (B2R (fmul a (fhalf p)) - B2R a / 2) <= 2 * eta p.
Proof.
  intro F. destruct (fhalf_R p) as [Fh Vh]. pose proof (fl_lt_emax p a) as L. rewrite fbig_double in L.
  destruct (fmul_R p a (fhalf p) F Fh) as [R Fr].
  - rewrite Vh, Rabs_mult, (Rabs_pos_eq (/ 2)) by lra. lra.
  - split; [exact Fr|]. rewrite R, Vh. replace (B2R a * / 2) with (B2R a / 2) by field. apply rnd_half, fmt_B2R.
Qed.

(** ** Angle-axis *)
Lemma vnorm_triang3 a b : vnorm (vadd a b) <= vnorm a + vnorm b.
Proof.
  pose proof (vnorm_le_add (vadd a b) a (vnorm b)) as H. apply H. right. f_equal. lin.
Qed.
(** a vector times a scalar, rounded *)
Lemma fscale_err p (s : fl p) (v : FV p) S0 : is_finite s = true -> vfinite v -> Rabs (B2R s) <= S0 -> S0 * vnorm (vval v) <= bpow radix2 120 ->
  vfinite (mkFV (fmul s (gx v)) (fmul s (gy v)) (fmul s (gz v))) /\
  vdist (vval (mkFV (fmul s (gx v)) (fmul s (gy v)) (fmul s (gz v)))) (vscale (B2R s) (vval v)) <= fu p * (S0 * vnorm (vval v)) + 7/4 * eta p.
Proof.
  intros Fs (Fx & Fy & Fz) H HB.
  pose proof (Rabs_pos (B2R s)) as Sp. pose proof (fu_pos p) as U. pose proof (eta_pos p) as P.
  assert (C : Rabs (vx (vval v)) <= vnorm (vval v) /\ Rabs (vy (vval v)) <= vnorm (vval v) /\ Rabs (vz (vval v)) <= vnorm (vval v)).
  { pose proof (vn_nonneg (vval v)). pose proof (vnorm_sq (vval v)) as S1. unfold vnorm2, vdot in S1.
    repeat split; apply sq_le_le; try lra; rewrite <- Rabs_mult, Rabs_pos_eq by nra; nra. }
  destruct C as (Cx & Cy & Cz). cbn [vval vx vy vz] in Cx, Cy, Cz.
  assert (BB : bpow radix2 120 <= fbig p) by (apply bpow_le; destruct p; vm_compute; discriminate).
  assert (M : forall a : fl p, is_finite a = true -> Rabs (B2R a) <= vnorm (vval v) ->
    is_finite (fmul s a) = true /\ Rabs (B2R (fmul s a) - B2R s * B2R a) <= fu p * Rabs (B2R s * B2R a) + eta p).
  { intros a Fa Ha. destruct (fmul_R p s a Fs Fa) as [R Fr].
    - rewrite Rabs_mult. eapply Rle_trans; [|eapply Rle_trans; [exact HB|exact BB]]. apply Rmult_le_compat; try apply Rabs_pos; assumption.
    - split; [exact Fr|]. rewrite R. apply rnd_err_le. }
  destruct (M _ Fx Cx) as [Gx Ex]. destruct (M _ Fy Cy) as [Gy Ey]. destruct (M _ Fz Cz) as [Gz Ez]. clear M.
  split; [repeat split; assumption|]. unfold vdist.
  set (x := B2R s * B2R (gx v)) in *. set (y := B2R s * B2R (gy v)) in *. set (z := B2R s * B2R (gz v)) in *.
  assert (N : vnorm (mkV3 x y z) <= S0 * vnorm (vval v)).
  { replace (mkV3 x y z) with (vscale (B2R s) (vval v)) by reflexivity. rewrite vnorm_vscale. apply Rmult_le_compat_r; [apply vn_nonneg|exact H]. }
  apply Rle_trans with (vnorm (vadd (vscale (fu p) (mkV3 (Rabs x) (Rabs y) (Rabs z))) (mkV3 (eta p) (eta p) (eta p)))).
  - apply vnorm_le_sq; [apply vn_nonneg|].
    rewrite vnorm_sq. unfold vnorm2, vdot, vsub, vadd, vscale, vval; cbn [vx vy vz gx gy gz]. fold x y z.
    apply abs_sq in Ex. apply abs_sq in Ey. apply abs_sq in Ez. lra.
  - eapply Rle_trans; [apply vnorm_triang3|]. rewrite vnorm_vscale, (Rabs_pos_eq (fu p)) by lra.
    replace (vnorm (mkV3 (Rabs x) (Rabs y) (Rabs z))) with (vnorm (mkV3 x y z)).
    2:{ unfold vnorm, vnorm2, vdot; cbn [vx vy vz]. f_equal. rewrite <- !Rabs_mult, !Rabs_pos_eq by nra. reflexivity. }
    assert (vnorm (mkV3 (eta p) (eta p) (eta p)) <= 7/4 * eta p) by (apply vnorm_le3; cbn; rewrite Rabs_pos_eq; lra).
    assert (fu p * vnorm (mkV3 x y z) <= fu p * (S0 * vnorm (vval v))) by (apply Rmult_le_compat_l; lra). lra.
Qed.
(** the same, scalar on the right, rounded *)
Lemma fscale_r_err p (s : fl p) (v : FV p) S0 : is_finite s = true -> vfinite v -> Rabs (B2R s) <= S0 -> S0 * vnorm (vval v) <= bpow radix2 120 ->
  vfinite (mkFV (fmul (gx v) s) (fmul (gy v) s) (fmul (gz v) s)) /\
  vdist (vval (mkFV (fmul (gx v) s) (fmul (gy v) s) (fmul (gz v) s))) (vscale (B2R s) (vval v)) <= fu p * (S0 * vnorm (vval v)) + 7/4 * eta p.
Proof.
  intros Fs (Fx & Fy & Fz) H HB.
  pose proof (Rabs_pos (B2R s)) as Sp. pose proof (fu_pos p) as U. pose proof (eta_pos p) as P.
  assert (C : Rabs (vx (vval v)) <= vnorm (vval v) /\ Rabs (vy (vval v)) <= vnorm (vval v) /\ Rabs (vz (vval v)) <= vnorm (vval v)).
  { pose proof (vn_nonneg (vval v)). pose proof (vnorm_sq (vval v)) as S1. unfold vnorm2, vdot in S1.
    repeat split; apply sq_le_le; try lra; rewrite <- Rabs_mult, Rabs_pos_eq by nra; nra. }
  destruct C as (Cx & Cy & Cz). cbn [vval vx vy vz] in Cx, Cy, Cz.
  assert (BB : bpow radix2 120 <= fbig p) by (apply bpow_le; destruct p; vm_compute; discriminate).
  assert (M : forall a : fl p, is_finite a = true -> Rabs (B2R a) <= vnorm (vval v) ->
    is_finite (fmul a s) = true /\ Rabs (B2R (fmul a s) - B2R s * B2R a) <= fu p * Rabs (B2R s * B2R a) + eta p).
  { intros a Fa Ha. destruct (fmul_R p a s Fa Fs) as [R Fr].
    - rewrite Rmult_comm, Rabs_mult. eapply Rle_trans; [|eapply Rle_trans; [exact HB|exact BB]]. apply Rmult_le_compat; try apply Rabs_pos; assumption.
    - split; [exact Fr|]. rewrite R, (Rmult_comm (B2R a)). apply rnd_err_le. }
  destruct (M _ Fx Cx) as [Gx Ex]. destruct (M _ Fy Cy) as [Gy Ey]. destruct (M _ Fz Cz) as [Gz Ez]. clear M.
  split; [repeat split; assumption|]. unfold vdist.
  set (x := B2R s * B2R (gx v)) in *. set (y := B2R s * B2R (gy v)) in *. set (z := B2R s * B2R (gz v)) in *.
  assert (N : vnorm (mkV3 x y z) <= S0 * vnorm (vval v)).
  { replace (mkV3 x y z) with (vscale (B2R s) (vval v)) by reflexivity. rewrite vnorm_vscale. apply Rmult_le_compat_r; [apply vn_nonneg|exact H]. }
  apply Rle_trans with (vnorm (vadd (vscale (fu p) (mkV3 (Rabs x) (Rabs y) (Rabs z))) (mkV3 (eta p) (eta p) (eta p)))).
  - apply vnorm_le_sq; [apply vn_nonneg|].
    rewrite vnorm_sq. unfold vnorm2, vdot, vsub, vadd, vscale, vval; cbn [vx vy vz gx gy gz]. fold x y z.
    apply abs_sq in Ex. apply abs_sq in Ey. apply abs_sq in Ez. lra.
  - eapply Rle_trans; [apply vnorm_triang3|]. rewrite vnorm_vscale, (Rabs_pos_eq (fu p)) by lra.
    replace (vnorm (mkV3 (Rabs x) (Rabs y) (Rabs z))) with (vnorm (mkV3 x y z)).
    2:{ unfold vnorm, vnorm2, vdot; cbn [vx vy vz]. f_equal. rewrite <- !Rabs_mult, !Rabs_pos_eq by nra. reflexivity. }
    assert (vnorm (mkV3 (eta p) (eta p) (eta p)) <= 7/4 * eta p) by (apply vnorm_le3; cbn; rewrite Rabs_pos_eq; lra).
    assert (fu p * vnorm (mkV3 x y z) <= fu p * (S0 * vnorm (vval v))) by (apply Rmult_le_compat_l; lra). lra.
Qed.
Lemma qdist_parts a b c v w x : qw a = c -> qvec a = v -> qw b = w -> qvec b = x -> forall d e, Rabs (c - w) <= d -> vdist v x <= e ->
  qnorm (qsub a b) * qnorm (qsub a b) <= d * d + e * e.
Proof.
  intros <- <- <- <- d e H1 H2. rewrite qnorm_sq. apply abs_sq in H1.
  assert (H3 : vdist (qvec a) (qvec b) * vdist (qvec a) (qvec b) <= e * e).
  { pose proof (vn_nonneg (vsub (qvec a) (qvec b))). unfold vdist in *. nra. }
  unfold vdist in H3. rewrite vnorm_sq in H3. unfold vnorm2, vdot, vsub, qvec, qnorm2, qsub in *. cbn [vx vy vz qw qx qy qz] in *. lra.
Qed.
Lemma vdist_triang a b c : vdist a c <= vdist a b + vdist b c.
Proof. unfold vdist. replace (vsub a c) with (vadd (vsub a b) (vsub b c)) by lin. apply vnorm_triang3. Qed.

Lemma eta_u7 p : 10 * eta p <= / 500 * fu p.
Proof. pose proof (eta5_u p). lra. Qed.

Lemma fquat_of_aa_err p L (angle : fl p) (axis : FV p) e B : libm_ok L -> is_finite angle = true -> vfinite axis ->
  vnorm e = 1 -> 0 <= B <= 1000 -> vdist (vval axis) e <= B * fu p ->
  qfinite (fquat_of_aa L angle axis) /\ qdist (qval (fquat_of_aa L angle axis)) (half_quat (B2R angle) e) <= (B + 4) * fu p.
Proof.
  intros HL Fa Fv Ne HB D. pose proof (fu_pos p) as U. pose proof (fu_24 p) as V. pose proof (eta_u7 p) as T. pose proof (eta_pos p) as P.
  destruct (half_R p angle Fa) as [Fh Eh]. set (h := fmul (fhalf p) angle) in *.
  destruct (sin_accurate L HL p h Fh) as [Fs Es]. destruct (cos_accurate L HL p h Fh) as [Fc Ec]. rewrite roundoff_fu in Es, Ec.
  set (a := B2R angle / 2) in *.
  assert (Es' : Rabs (B2R (lsin L p h) - sin a) <= (2 + / 100) * fu p).
  { eapply Rle_trans; [eapply Rabs_tri3; [exact Es|eapply Rle_trans; [apply sin_lipschitz|exact Eh]]|]. lra. }
  assert (Ec' : Rabs (B2R (lcos L p h) - cos a) <= (2 + / 100) * fu p).
  { eapply Rle_trans; [eapply Rabs_tri3; [exact Ec|eapply Rle_trans; [apply cos_lipschitz|exact Eh]]|]. lra. }
  pose proof (SIN_bound a) as Sb. assert (SA : Rabs (sin a) <= 1) by (apply Rabs_le; lra).
  assert (S1 : Rabs (B2R (lsin L p h)) <= 1 + / 1000).
  { replace (B2R (lsin L p h)) with ((B2R (lsin L p h) - sin a) + sin a) by ring. eapply Rle_trans; [apply Rabs_triang|]. lra. }
  assert (BU : 0 <= B * fu p <= / 10000) by nra.
  assert (NA : vnorm (vval axis) <= 1 + B * fu p).
  { pose proof (vnorm_le_add (vval axis) e _ D) as X. lra. }
  destruct (fscale_err p (lsin L p h) axis (1 + / 1000) Fs Fv S1) as [Ff Ef].
  { apply Rle_trans with 2; [pose proof (vn_nonneg (vval axis)); nra|]. change 2 with (bpow radix2 1). apply bpow_le. lia. }
  split. { destruct Ff as (X & Y & Z). repeat split; assumption. }
  unfold qdist. apply sq_le_le; [nra|].
  eapply Rle_trans; [eapply (qdist_parts (qval (fquat_of_aa L angle axis)) (half_quat (B2R angle) e) (B2R (lcos L p h)) _ (cos a) (vscale (sin a) e));
    [reflexivity|reflexivity|reflexivity|reflexivity|exact Ec'|]|].
  -
    apply Rle_trans with ((B + 3 + / 10) * fu p).
    2: apply Rle_refl.
    eapply Rle_trans; [apply (vdist_triang _ (vscale (B2R (lsin L p h)) (vval axis)))|].
    eapply Rle_trans; [apply Rplus_le_compat; [exact Ef|]|].
    + eapply Rle_trans; [apply (vdist_triang _ (vscale (sin a) (vval axis)))|].
      apply Rplus_le_compat.
      * unfold vdist. replace (vsub (vscale (B2R (lsin L p h)) (vval axis)) (vscale (sin a) (vval axis))) with (vscale (B2R (lsin L p h) - sin a) (vval axis)) by lin.
        rewrite vnorm_vscale. apply Rmult_le_compat; [apply Rabs_pos|apply vn_nonneg|exact Es'|exact NA].
      * unfold vdist. replace (vsub (vscale (sin a) (vval axis)) (vscale (sin a) e)) with (vscale (sin a) (vsub (vval axis) e)) by lin.
        rewrite vnorm_vscale. apply Rmult_le_compat; [apply Rabs_pos|apply vn_nonneg|exact SA|exact D].
    + set (bu := B * fu p) in *. assert (X1 : (2 + / 100) * fu p * (1 + bu) <= (2 + / 90) * fu p) by nra.
      assert (X2 : (1 + / 1000) * vnorm (vval axis) <= 1 + / 500) by (pose proof (vn_nonneg (vval axis)); nra).
      assert (X3 : fu p * ((1 + / 1000) * vnorm (vval axis)) <= fu p * (1 + / 500)) by (apply Rmult_le_compat_l; lra).
      replace ((B + 3 + / 10) * fu p) with (bu + (3 + / 10) * fu p) by (unfold bu; ring). lra.
  - assert (0 <= fu p * fu p) by nra. replace ((2 + / 100) * fu p * ((2 + / 100) * fu p) + (B + 3 + / 10) * fu p * ((B + 3 + / 10) * fu p)) with (((2 + / 100) * (2 + / 100) + (B + 3 + / 10) * (B + 3 + / 10)) * (fu p * fu p)) by ring.
    replace ((B + 4) * fu p * ((B + 4) * fu p)) with ((B + 4) * (B + 4) * (fu p * fu p)) by ring.
    apply Rmult_le_compat_r; [assumption|]. nra.
Qed.
