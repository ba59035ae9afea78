(** * FloatDiff2: rounding of the mappings between Euler-angle rates and angular velocities. *)
From Coq Require Import ZArith Reals Lra Psatz Bool List Lia.
From Flocq Require Import IEEE754.BinarySingleNaN Core.Core.
From Verif Require Import Linalg Spec SpecFacts SpecClose ModelCommon ModelEigen CommonFacts CloseFacts ModelDiff
  FloatModel FloatFacts FloatModel2 SpecFloatQ FloatQFacts FloatQProd FloatQHist FloatQRot FloatMHist FloatCast FloatModel3 SpecLibm FloatBuild FloatModel5 FloatPose FloatModel6 FloatMat FloatModel12.
Import ListNotations.
Local Open Scope R_scope.

Lemma approx_mono p d e (a : fl p) x : d <= e -> approximates d a x -> approximates e a x.
Proof. intros H [F E]. split; [exact F|lra]. Qed.
Lemma approx_neg p d (a : fl p) x : approximates d a x -> approximates d (fneg a) (- x).
Proof. intros [F E]. split; [rewrite fneg_fin; exact F|]. rewrite fneg_val. replace (- B2R a - - x) with (- (B2R a - x)) by ring. now rewrite Rabs_Ropp. Qed.
Lemma approx_one p : approximates 0 (fofZ p 1) 1.
Proof. destruct (fofZ1 p) as [F V]. split; [exact F|]. rewrite V. replace (1 - 1) with 0 by ring. rewrite Rabs_R0. lra. Qed.
Lemma approx_zero p : approximates 0 (@fzero p) 0.
Proof. split; [reflexivity|]. change (B2R (@fzero p)) with 0. replace (0 - 0) with 0 by ring. rewrite Rabs_R0. lra. Qed.
(** rounding of a product of approximations *)
Lemma approx_mul p (a b : fl p) x y da db al be : approximates da a x -> approximates db b y -> Rabs x <= al -> Rabs y <= be ->
  (al + da) * (be + db) <= bpow radix2 100 ->
  approximates (da * (be + db) + al * db + fu p * ((al + da) * (be + db)) + eta p) (fmul a b) (x * y).
Proof.
  intros [Fa Ea] [Fb Eb] Hx Hy HB. pose proof (fu_pos p) as U.
  pose proof (Rabs_pos x) as Px. pose proof (Rabs_pos y) as Py. pose proof (Rabs_pos (B2R a - x)) as Pa. pose proof (Rabs_pos (B2R b - y)) as Pb.
  assert (Ha : Rabs (B2R a) <= al + da) by (replace (B2R a) with ((B2R a - x) + x) by ring; eapply Rle_trans; [apply Rabs_triang|]; lra).
  assert (Hb : Rabs (B2R b) <= be + db) by (replace (B2R b) with ((B2R b - y) + y) by ring; eapply Rle_trans; [apply Rabs_triang|]; lra).
  assert (AB : Rabs (B2R a * B2R b) <= (al + da) * (be + db)) by (rewrite Rabs_mult; apply Rmult_le_compat; try apply Rabs_pos; assumption).
  destruct (fmul_R p a b Fa Fb) as [R Fr]; [pose proof (bpow100_fbig p); lra|].
  split; [exact Fr|]. rewrite R.
  replace (rnd p (B2R a * B2R b) - x * y) with ((rnd p (B2R a * B2R b) - B2R a * B2R b) + ((B2R a - x) * B2R b + x * (B2R b - y))) by ring.
  eapply Rle_trans; [apply Rabs_triang|]. eapply Rle_trans; [apply Rplus_le_compat; [apply rnd_err_le|apply Rabs_triang]|]. rewrite !Rabs_mult.
  assert (fu p * (Rabs (B2R a) * Rabs (B2R b)) <= fu p * ((al + da) * (be + db))) by (rewrite <- Rabs_mult; apply Rmult_le_compat_l; lra).
  assert (Rabs (B2R a - x) * Rabs (B2R b) <= da * (be + db)) by (apply Rmult_le_compat; try apply Rabs_pos; assumption).
  assert (Rabs x * Rabs (B2R b - y) <= al * db) by (apply Rmult_le_compat; try apply Rabs_pos; assumption).
  lra.
Qed.
Lemma sin_abs1 x : Rabs (sin x) <= 1. Proof. apply Rabs_le. pose proof (SIN_bound x). lra. Qed.
Lemma cos_abs1 x : Rabs (cos x) <= 1. Proof. apply Rabs_le. pose proof (COS_bound x). lra. Qed.
Lemma two_bpow100 x : x <= 2 -> x <= bpow radix2 100.
Proof. intro H. eapply Rle_trans; [exact H|]. change 2 with (bpow radix2 1). apply bpow_le. lia. Qed.
(** product of two sines or cosines *)
Lemma approx_trig2 p (a b : fl p) x y : approximates (2 * fu p) a x -> approximates (2 * fu p) b y -> Rabs x <= 1 -> Rabs y <= 1 ->
  approximates ((5 + / 50) * fu p) (fmul a b) (x * y).
Proof.
  intros A B Hx Hy. pose proof (fu_pos p) as U. pose proof (fu_24 p) as V. pose proof (eta5_u p) as E. pose proof (eta_pos p) as E0.
  assert (UU : fu p * fu p <= / 16777216 * fu p) by (apply Rmult_le_compat_r; lra).
  assert (UUU : fu p * (fu p * fu p) <= / 16777216 * fu p).
  { apply Rle_trans with (fu p * fu p); [|exact UU]. rewrite <- Rmult_assoc. rewrite <- (Rmult_1_r (fu p * fu p)) at 2. apply Rmult_le_compat_l; [apply Rmult_le_pos; lra|lra]. }
  eapply approx_mono; [|apply (approx_mul _ _ _ _ _ _ _ 1 1 A B Hx Hy)].
  - replace (fu p * ((1 + 2 * fu p) * (1 + 2 * fu p))) with (fu p + 4 * (fu p * fu p) + 4 * (fu p * (fu p * fu p))) by ring. lra.
  - apply two_bpow100. replace ((1 + 2 * fu p) * (1 + 2 * fu p)) with (1 + 4 * fu p + 4 * (fu p * fu p)) by ring. lra.
Qed.

(** a mapping whose rows are off by at most [d], of rows no longer than [B], applied *)
Lemma abs_zero c : Rabs c = 0 -> c = 0.
Proof. intro C. destruct (Req_dec c 0) as [|N]; [assumption|]. apply Rabs_no_R0 in N. contradiction. Qed.
Lemma sq_two a b m : Rabs a <= m -> Rabs b <= m -> a * a + b * b <= (3/2 * m) * (3/2 * m).
Proof. intros A B. pose proof (Rabs_pos a). pose proof (abs_sq _ _ A). pose proof (abs_sq _ _ B). nra. Qed.
Lemma vnorm_two3 a b c m : Rabs a <= m -> Rabs b <= m -> Rabs c = 0 -> vnorm (mkV3 a b c) <= 3/2 * m.
Proof. intros A B C. pose proof (Rabs_pos a). apply vnorm_le_sq; [lra|]. unfold vnorm2, vdot; cbn [vx vy vz]. rewrite (abs_zero _ C). pose proof (sq_two _ _ _ A B). lra. Qed.
Lemma vnorm_two2 a b c m : Rabs a <= m -> Rabs b = 0 -> Rabs c <= m -> vnorm (mkV3 a b c) <= 3/2 * m.
Proof. intros A C B. pose proof (Rabs_pos a). apply vnorm_le_sq; [lra|]. unfold vnorm2, vdot; cbn [vx vy vz]. rewrite (abs_zero _ C). pose proof (sq_two _ _ _ A B). lra. Qed.
Lemma vnorm_two1 a b c m : Rabs a = 0 -> Rabs b <= m -> Rabs c <= m -> vnorm (mkV3 a b c) <= 3/2 * m.
Proof. intros C A B. pose proof (Rabs_pos b). apply vnorm_le_sq; [lra|]. unfold vnorm2, vdot; cbn [vx vy vz]. rewrite (abs_zero _ C). pose proof (sq_two _ _ _ A B). lra. Qed.
Lemma row_split a b : vnorm a <= vnorm b + vnorm (vsub a b).
Proof. replace a with (vadd b (vsub a b)) at 1 by lin. apply vnorm_triang. Qed.
Lemma map_apply p o (m : FM p) (M : M33) (v : FV p) B d : orders3_ok 3 3 3 o -> mfinite m -> vfinite v ->
  vnorm (vrow0 M) <= B -> vnorm (vrow1 M) <= B -> vnorm (vrow2 M) <= B ->
  vnorm (vsub (vrow0 (mval m)) (vrow0 M)) <= d -> vnorm (vsub (vrow1 (mval m)) (vrow1 M)) <= d -> vnorm (vsub (vrow2 (mval m)) (vrow2 M)) <= d ->
  (B + d) * vnorm (vval v) <= bpow radix2 120 ->
  vfinite (fmv o m v) /\ vdist (vval (fmv o m v)) (mvmul M (vval v)) <= (526/100 * fu p * (B + d) + 7/4 * d) * vnorm (vval v) + underflow p.
Proof.
  intros O Fm Fv B0 B1 B2 D0 D1 D2 HB. pose proof (fu_pos p) as U. pose proof (eta_pos p) as E.
  pose proof (row_split (vrow0 (mval m)) (vrow0 M)) as S0. pose proof (row_split (vrow1 (mval m)) (vrow1 M)) as S1. pose proof (row_split (vrow2 (mval m)) (vrow2 M)) as S2.
  destruct (fmv_err p o m v (B + d) O Fm Fv) as [F X]; try lra. split; [exact F|].
  assert (C : close (7/4 * d) (mval m) M) by (apply close_rows; assumption).
  eapply Rle_trans; [apply (vdist_triang _ (mvmul (mval m) (vval v)))|]. specialize (C (vval v)). fold (vdist (mvmul (mval m) (vval v)) (mvmul M (vval v))) in C.
  rewrite underflow_eta. pose proof (vn_nonneg (vval v)) as N. pose proof (vn_nonneg (vsub (vrow0 (mval m)) (vrow0 M))). pose proof (vn_nonneg (vrow0 M)).
  assert (0 <= fu p * ((B + d) * vnorm (vval v))) by (apply Rmult_le_pos; [lra|apply Rmult_le_pos; lra]). lra.
Qed.

Ltac rowfin := unfold mfinite, vfinite; cbn [r0 r1 r2 gx gy gz]; repeat split; first [assumption | reflexivity | (rewrite ?fneg_fin; assumption) | apply fofZ1 | (match goal with H : approximates _ ?a _ |- is_finite ?a = true => exact (proj1 H) end)].
Lemma Rabs_minus0 : Rabs (0 - 0) = 0. Proof. rewrite Rminus_0_r. apply Rabs_R0. Qed.

(** ** From rates to velocities *)
Lemma vnorm_0yz b c : vnorm (mkV3 0 b c) = vnorm (mkV3 b c 0). Proof. unfold vnorm, vnorm2, vdot; cbn. f_equal. ring. Qed.
Lemma vnorm_x0z a c : vnorm (mkV3 a 0 c) = vnorm (mkV3 a c 0). Proof. unfold vnorm, vnorm2, vdot; cbn. f_equal. ring. Qed.
Lemma vnorm_lit a b c B : 0 <= B -> a * a + b * b + c * c <= B * B -> vnorm (mkV3 a b c) <= B.
Proof. intros H K. apply vnorm_le_sq; [exact H|]. unfold vnorm2, vdot; cbn [vx vy vz]. exact K. Qed.
Lemma trig1 x : sin x * sin x + cos x * cos x = 1.
Proof. pose proof (sin2_cos2 x) as H. unfold Rsqr in H. exact H. Qed.
(** rows of products of sines and cosines have length at most one *)
Lemma trig_row a b s c : s * s + c * c = 1 -> a * a + b * b = 1 -> (a * s) * (a * s) + c * c <= 1.
Proof. intros H K. assert (a * a <= 1) by nra. assert (0 <= s * s) by nra. nra. Qed.

Section ToVelocity.
Variables (p : prim) (L : libm) (o : orders3).
Hypothesis HL : libm_ok L.
Hypothesis HO : orders3_ok 3 3 3 o.
Lemma lsin_ok (x : fl p) : is_finite x = true -> approximates (2 * fu p) (lsin L p x) (sin (B2R x)).
Proof. intro F. rewrite <- roundoff_fu. now apply (sin_accurate L HL). Qed.
Lemma lcos_ok (x : fl p) : is_finite x = true -> approximates (2 * fu p) (lcos L p x) (cos (B2R x)).
Proof. intro F. rewrite <- roundoff_fu. now apply (cos_accurate L HL). Qed.
Lemma velocity_bound x : 0 <= x <= bpow radix2 100 -> (3/2 + (1506/200) * fu p) * x <= bpow radix2 120.
Proof.
  intro H. pose proof (fu_24 p). apply Rle_trans with (bpow radix2 1 * bpow radix2 100); [change (bpow radix2 1) with 2|rewrite <- bpow_plus; apply bpow_le; lia].
  assert ((3 / 2 + 1506 / 200 * fu p) * x <= 2 * x) by (apply Rmult_le_compat_r; lra). lra.
Qed.
Lemma velocity_final x e : 0 <= x -> e <= (526/100 * fu p * (3/2 + 1506/200 * fu p) + 7/4 * (1506/200 * fu p)) * x + underflow p -> e <= 22 * fu p * x + underflow p.
Proof.
  intros X H. pose proof (fu_pos p) as U. pose proof (fu_24 p) as V. eapply Rle_trans; [exact H|]. apply Rplus_le_compat_r. apply Rmult_le_compat_r; [exact X|].
  assert (fu p * fu p <= / 16777216 * fu p) by (apply Rmult_le_compat_r; lra). lra.
Qed.
Variables (x y z : fl p) (d : FV p).
Hypothesis Fx : is_finite x = true.
Hypothesis Fy : is_finite y = true.
Hypothesis Fz : is_finite z = true.
Hypothesis Fd : vfinite d.
Hypothesis HB : vnorm (vval d) <= bpow radix2 100.
Ltac setup := pose proof (fu_pos p) as U; pose proof (vn_nonneg (vval d)) as ND;
  pose proof (lsin_ok x Fx) as Sx; pose proof (lcos_ok x Fx) as Cx; pose proof (lsin_ok y Fy) as Sy; pose proof (lcos_ok y Fy) as Cy; pose proof (lsin_ok z Fz) as Sz; pose proof (lcos_ok z Fz) as Cz;
  pose proof (sin_abs1 (B2R x)) as sx; pose proof (cos_abs1 (B2R x)) as cx; pose proof (sin_abs1 (B2R y)) as sy; pose proof (cos_abs1 (B2R y)) as cy; pose proof (sin_abs1 (B2R z)) as sz; pose proof (cos_abs1 (B2R z)) as cz;
  pose proof (trig1 (B2R x)) as tx; pose proof (trig1 (B2R y)) as ty; pose proof (trig1 (B2R z)) as tz.
Ltac rowdiff := match goal with |- vnorm (vsub _ _) <= _ => idtac end;
  unfold vsub, vrow0, vrow1, vrow2, mval; cbn [vx vy vz m00 m01 m02 m10 m11 m12 m20 m21 m22 r0 r1 r2 gx gy gz].
Ltac entry := first [apply Rabs_minus0 | (match goal with H : approximates _ ?a ?x |- Rabs (B2R ?a - ?x) <= _ => eapply Rle_trans; [exact (proj2 H)|lra] end)].
Ltac err_row T := rowdiff; change (B2R (@fzero p)) with 0; replace (1506/200 * fu p) with (3/2 * ((5 + / 50) * fu p)) by field; apply T; entry.
Lemma one_row s c : s * s + c * c = 1 -> s * s + 1 <= 9/4.
Proof. intro H. pose proof (Rle_0_sqr c) as K. unfold Rsqr in K. lra. Qed.
Lemma zyx_velocity_err :
  vfinite (fzyx_velocity L o z y x d) /\
  vdist (vval (fzyx_velocity L o z y x d)) (mvmul (zyx_diff_to_local (mkZyx (B2R z) (B2R y) (B2R x))) (vval d)) <= 22 * fu p * vnorm (vval d) + underflow p.
Proof.
  setup. pose proof (approx_trig2 p _ _ _ _ Cy Sx cy sx) as P1. pose proof (approx_trig2 p _ _ _ _ Cx Cy cx cy) as P2.
  pose proof (approx_neg _ _ _ _ Sy) as NSy. pose proof (approx_neg _ _ _ _ Sx) as NSx. pose proof (approx_one p) as I.
  unfold fzyx_velocity.
  assert (X : vfinite (fmv o (fzyx_to_local L z y x) d) /\ vdist (vval (fmv o (fzyx_to_local L z y x) d)) (mvmul (zyx_diff_to_local (mkZyx (B2R z) (B2R y) (B2R x))) (vval d)) <=
    (526/100 * fu p * (3/2 + 1506/200 * fu p) + 7/4 * (1506/200 * fu p)) * vnorm (vval d) + underflow p).
  { apply map_apply; try assumption; unfold fzyx_to_local, zyx_diff_to_local; cbv zeta; cbn [zyaw zpitch zroll].
    - rowfin.
    - apply vnorm_lit; [lra|]. pose proof (one_row (sin (B2R y)) (cos (B2R y)) ltac:(lra)). cbn [m00 m01 m02]. lra.
    - apply vnorm_lit; [lra|]. pose proof (trig_row (cos (B2R y)) (sin (B2R y)) (sin (B2R x)) (cos (B2R x)) ltac:(lra) ltac:(lra)). cbn [m10 m11 m12]. lra.
    - apply vnorm_lit; [lra|]. pose proof (trig_row (cos (B2R y)) (sin (B2R y)) (cos (B2R x)) (sin (B2R x)) ltac:(lra) ltac:(lra)). cbn [m20 m21 m22]. lra.
    - err_row vnorm_two2.
    - err_row vnorm_two3.
    - err_row vnorm_two3.
    - apply velocity_bound. lra. }
  destruct X as [F X]. split; [exact F|]. apply velocity_final; assumption.
Qed.
Lemma xyz_velocity_err :
  vfinite (fxyz_velocity L o x y z d) /\
  vdist (vval (fxyz_velocity L o x y z d)) (mvmul (xyz_diff_to_local (mkXyz (B2R x) (B2R y) (B2R z))) (vval d)) <= 22 * fu p * vnorm (vval d) + underflow p.
Proof.
  setup. pose proof (approx_neg _ _ _ _ Cy) as NCy. pose proof (approx_trig2 p _ _ _ _ Cy Cz cy cz) as P1. pose proof (approx_trig2 p _ _ _ _ NCy Sz ltac:(rewrite Rabs_Ropp; exact cy) sz) as P2.
  pose proof (approx_one p) as I.
  unfold fxyz_velocity.
  assert (X : vfinite (fmv o (fxyz_to_local L x y z) d) /\ vdist (vval (fmv o (fxyz_to_local L x y z) d)) (mvmul (xyz_diff_to_local (mkXyz (B2R x) (B2R y) (B2R z))) (vval d)) <=
    (526/100 * fu p * (3/2 + 1506/200 * fu p) + 7/4 * (1506/200 * fu p)) * vnorm (vval d) + underflow p).
  { apply map_apply; try assumption; unfold fxyz_to_local, xyz_diff_to_local; cbv zeta; cbn [xyaw xpitch xroll].
    - rowfin.
    - apply vnorm_lit; [lra|]. pose proof (trig_row (cos (B2R y)) (sin (B2R y)) (cos (B2R z)) (sin (B2R z)) ltac:(lra) ltac:(lra)). cbn [m00 m01 m02]. lra.
    - apply vnorm_lit; [lra|]. pose proof (trig_row (cos (B2R y)) (sin (B2R y)) (sin (B2R z)) (cos (B2R z)) ltac:(lra) ltac:(lra)). cbn [m10 m11 m12]. lra.
    - apply vnorm_lit; [lra|]. pose proof (one_row (sin (B2R y)) (cos (B2R y)) ltac:(lra)). cbn [m20 m21 m22]. lra.
    - err_row vnorm_two3.
    - err_row vnorm_two3.
    - err_row vnorm_two2.
    - apply velocity_bound. lra. }
  destruct X as [F X]. split; [exact F|]. apply velocity_final; assumption.
Qed.
Lemma xyz_global_velocity_err :
  vfinite (fxyz_global_velocity L o x y z d) /\
  vdist (vval (fxyz_global_velocity L o x y z d)) (mvmul (xyz_diff_to_global (mkXyz (B2R x) (B2R y) (B2R z))) (vval d)) <= 22 * fu p * vnorm (vval d) + underflow p.
Proof.
  setup. pose proof (approx_neg _ _ _ _ Sx) as NSx. pose proof (approx_trig2 p _ _ _ _ NSx Cy ltac:(rewrite Rabs_Ropp; exact sx) cy) as P1. pose proof (approx_trig2 p _ _ _ _ Cx Cy cx cy) as P2.
  pose proof (approx_one p) as I.
  unfold fxyz_global_velocity.
  assert (X : vfinite (fmv o (fxyz_to_global L x y z) d) /\ vdist (vval (fmv o (fxyz_to_global L x y z) d)) (mvmul (xyz_diff_to_global (mkXyz (B2R x) (B2R y) (B2R z))) (vval d)) <=
    (526/100 * fu p * (3/2 + 1506/200 * fu p) + 7/4 * (1506/200 * fu p)) * vnorm (vval d) + underflow p).
  { apply map_apply; try assumption; unfold fxyz_to_global, xyz_diff_to_global; cbv zeta; cbn [xyaw xpitch xroll].
    - rowfin.
    - apply vnorm_lit; [lra|]. pose proof (one_row (sin (B2R y)) (cos (B2R y)) ltac:(lra)). cbn [m00 m01 m02]. lra.
    - apply vnorm_lit; [lra|]. pose proof (trig_row (cos (B2R y)) (sin (B2R y)) (sin (B2R x)) (cos (B2R x)) ltac:(lra) ltac:(lra)). cbn [m10 m11 m12]. lra.
    - apply vnorm_lit; [lra|]. pose proof (trig_row (cos (B2R y)) (sin (B2R y)) (cos (B2R x)) (sin (B2R x)) ltac:(lra) ltac:(lra)). cbn [m20 m21 m22]. lra.
    - err_row vnorm_two2.
    - err_row vnorm_two1.
    - err_row vnorm_two1.
    - apply velocity_bound. lra. }
  destruct X as [F X]. split; [exact F|]. apply velocity_final; assumption.
Qed.
End ToVelocity.
