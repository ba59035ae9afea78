(** * FloatDiff3: rounding of the mappings from angular velocities to Euler-angle rates. *)
From Coq Require Import ZArith Reals Lra Psatz Bool List Lia.
From Flocq Require Import IEEE754.BinarySingleNaN Core.Core.
From Verif Require Import Linalg Spec SpecFacts SpecClose ModelCommon ModelEigen CommonFacts CloseFacts ModelDiff DiffFacts2
  FloatModel FloatFacts FloatWrap FloatModel2 SpecFloatQ FloatQFacts FloatQProd FloatQHist FloatQRot FloatMHist FloatCast FloatModel3 SpecLibm FloatBuild FloatModel5 FloatPose FloatModel6 FloatMat FloatModel12 FloatDiff2.
Import ListNotations.
Local Open Scope R_scope.

Lemma fu64_le p : fu F64 <= fu p. Proof. rewrite !fu_val. destruct p; [|lra]. apply Rinv_le; [lra|apply IZR_le; vm_compute; discriminate]. Qed.
Lemma eta64_le p : eta F64 <= eta p. Proof. unfold eta. apply Rmult_le_compat_l; [lra|]. apply bpow_le. destruct p; vm_compute; discriminate. Qed.
Lemma inv_fu p : / fu p <= bpow radix2 53.
Proof. rewrite fu_val. destruct p; rewrite Rinv_inv; [apply Rle_trans with (bpow radix2 24); [right; reflexivity|apply bpow_le; lia]|right; reflexivity]. Qed.

Lemma small_big p x : x <= bpow radix2 60 -> x <= fbig p.
Proof. intro H. eapply Rle_trans; [exact H|]. eapply Rle_trans; [|apply bpow100_fbig]. apply bpow_le. lia. Qed.
Lemma feq_zero p (a : fl p) : is_finite a = true -> feq a fzero = true <-> B2R a = 0.
Proof.
  intro F. rewrite (feq_R p a fzero F eq_refl). change (FR (@fzero p)) with 0. split; intro H.
  - destruct (Req_bool_spec (FR a) 0) as [E|]; [exact E|discriminate].
  - apply Req_bool_true. exact H.
Qed.
(** 1.0 / t *)
Section Recip.
Variables (p : prim) (t : fl p) (c : R).
Hypothesis A : approximates (2 * fu p) t c.
Hypothesis C : 100 * fu p <= Rabs c.
Hypothesis C1 : Rabs c <= 1.
Let K := / Rabs c.
Lemma K_facts : 1 <= K /\ K * fu p <= / 100 /\ Rabs c * K = 1 /\ Rabs (1 / c) = K /\ K <= bpow radix2 53 /\ c <> 0.
Proof.
  pose proof (fu_pos p) as U. assert (P : 0 < Rabs c) by lra. assert (N : c <> 0) by (intro E; rewrite E, Rabs_R0 in P; lra).
  assert (KC : Rabs c * K = 1) by (unfold K; field; lra). assert (K0 : 0 < K) by (apply Rinv_0_lt_compat; exact P).
  assert (KU : K * fu p <= / 100).
  { apply Rmult_le_reg_l with 100; [lra|]. rewrite Rinv_r by lra. rewrite <- KC. replace (100 * (K * fu p)) with ((100 * fu p) * K) by ring. apply Rmult_le_compat_r; lra. }
  split; [unfold K; rewrite <- Rinv_1; apply Rinv_le; lra|]. split; [exact KU|]. split; [exact KC|]. split; [unfold Rdiv; rewrite Rmult_1_l, Rabs_inv; reflexivity|].
  split; [|exact N]. apply Rle_trans with (/ fu p); [|apply inv_fu]. apply Rmult_le_reg_r with (fu p); [lra|]. rewrite Rinv_l by lra. lra.
Qed.
Lemma recip_ok : feq t fzero = false /\ approximates (42/10 * fu p * (K * K)) (frecip t) (1 / c).
Proof.
  destruct A as [F E]. destruct K_facts as (K1 & KU & KC & KA & KB & N). pose proof (fu_pos p) as U. pose proof (fu_24 p) as V. pose proof (eta5_u p) as E5. pose proof (eta_pos p) as E0.
  assert (T : 98/100 * Rabs c <= Rabs (B2R t)).
  { pose proof (Rabs_triang (B2R t) (c - B2R t)) as X. replace (B2R t + (c - B2R t)) with c in X by ring. rewrite (Rabs_minus_sym c) in X. lra. }
  assert (T0 : B2R t <> 0) by (intro Z; rewrite Z, Rabs_R0 in T; lra).
  split. { destruct (feq t fzero) eqn:Q; [|reflexivity]. apply feq_zero in Q; [|exact F]. contradiction. }
  assert (IT : Rabs (1 / B2R t) <= (1 + / 48) * K).
  { unfold Rdiv. rewrite Rmult_1_l, Rabs_inv. apply Rmult_le_reg_l with (98/100 * Rabs c); [lra|].
    replace (98/100 * Rabs c * ((1 + / 48) * K)) with (98/100 * (1 + / 48) * (Rabs c * K)) by ring. rewrite KC.
    apply Rle_trans with (Rabs (B2R t) * / Rabs (B2R t)); [apply Rmult_le_compat_r; [left; apply Rinv_0_lt_compat; lra|exact T]|]. rewrite Rinv_r by lra. lra. }
  assert (D : Rabs (1 / B2R t - 1 / c) <= 2 * (1 + / 48) * (fu p * (K * K))).
  { replace (1 / B2R t - 1 / c) with ((c - B2R t) * ((1 / B2R t) * (1 / c))) by (field; split; assumption). rewrite !Rabs_mult, KA, (Rabs_minus_sym c).
    replace (2 * (1 + / 48) * (fu p * (K * K))) with (2 * fu p * ((1 + / 48) * K * K)) by ring. apply Rmult_le_compat; [apply Rabs_pos|apply Rmult_le_pos; [apply Rabs_pos|lra]|exact E|].
    apply Rmult_le_compat_r; [lra|exact IT]. }
  assert (BB : (2 * bpow radix2 53) <= bpow radix2 60) by (change 2 with (bpow radix2 1); rewrite <- bpow_plus; apply bpow_le; lia).
  unfold frecip. destruct (fofZ1 F64) as [F1 V1].
  destruct (fdiv_R F64 (fofZ F64 1) (fcvt F64 t) F1) as [R Fr]; rewrite ?widen_val, ?V1; [exact T0| |].
  { apply small_big. lra. }
  rewrite widen_val, V1 in R.
  set (x := 1 / B2R t) in *. pose proof (rnd_err_le F64 x) as E1. pose proof (fu64_le p) as U64. pose proof (eta64_le p) as E64. pose proof (fu_pos F64) as P64.
  assert (X1 : fu F64 * Rabs x <= fu p * ((1 + / 48) * K)) by (apply Rmult_le_compat; try lra; apply Rabs_pos).
  assert (KU' : fu p * K <= / 100) by lra.
  assert (EK : eta p <= / 1000 * K) by lra.
  assert (X2 : Rabs (rnd F64 x) <= (1 + / 48 + / 50) * K).
  { replace (rnd F64 x) with ((rnd F64 x - x) + x) by ring. eapply Rle_trans; [apply Rabs_triang|].
    assert (fu p * ((1 + / 48) * K) <= / 60 * K); [|lra]. replace (fu p * ((1 + / 48) * K)) with (fu p * (1 + / 48) * K) by ring. apply Rmult_le_compat_r; lra. }
  destruct (fcvt_R F64 p (fdiv (fofZ F64 1) (fcvt F64 t)) Fr) as [R2 F2]; [rewrite R; apply small_big; lra|].
  split; [exact F2|]. rewrite R2, R. pose proof (rnd_err_le p (rnd F64 x)) as E2.
  assert (X3 : fu p * Rabs (rnd F64 x) <= fu p * ((1 + / 48 + / 50) * K)) by (apply Rmult_le_compat_l; lra).
  replace (rnd p (rnd F64 x) - 1 / c) with ((rnd p (rnd F64 x) - rnd F64 x) + ((rnd F64 x - x) + (x - 1 / c))) by ring.
  eapply Rle_trans; [apply Rabs_triang|]. eapply Rle_trans; [apply Rplus_le_compat_l; apply Rabs_triang|].
  assert (KK : fu p * K <= fu p * (K * K)) by (apply Rmult_le_compat_l; [lra|]; rewrite <- (Rmult_1_l K) at 1; apply Rmult_le_compat_r; lra).
  assert (EK2 : 2 * eta p <= / 1000 * (fu p * (K * K))).
  { assert (fu p * 1 <= fu p * (K * K)); [|lra]. apply Rmult_le_compat_l; [lra|]. rewrite <- (Rmult_1_l 1). apply Rmult_le_compat; lra. }
  lra.
Qed.
(** the reciprocal (or its negative) times a sine or cosine *)
Lemma recip_mul (r s : fl p) x y : approximates (42/10 * fu p * (K * K)) r x -> Rabs x = K -> approximates (2 * fu p) s y -> Rabs y <= 1 ->
  approximates (74/10 * fu p * (K * K)) (fmul r s) (x * y) /\ Rabs (x * y) <= K.
Proof.
  intros Ar Hx As Hy. destruct K_facts as (K1 & KU & KC & KA & KB & N). pose proof (fu_pos p) as U. pose proof (fu_24 p) as V. pose proof (eta5_u p) as E5. pose proof (eta_pos p) as E0.
  assert (BB : (2 * bpow radix2 53) <= bpow radix2 100) by (change 2 with (bpow radix2 1); rewrite <- bpow_plus; apply bpow_le; lia).
  set (k2 := fu p * (K * K)). assert (KK : fu p * K <= k2) by (apply Rmult_le_compat_l; [lra|]; rewrite <- (Rmult_1_l K) at 1; apply Rmult_le_compat_r; lra).
  assert (K2K : k2 <= / 100 * K) by (unfold k2; replace (fu p * (K * K)) with (K * fu p * K) by ring; apply Rmult_le_compat_r; lra).
  assert (U2 : fu p <= k2) by (apply Rle_trans with (fu p * K); [rewrite <- (Rmult_1_r (fu p)) at 1; apply Rmult_le_compat_l; lra|exact KK]).
  assert (k0 : 0 <= k2) by lra.
  assert (UK2 : fu p * k2 <= / 16777216 * k2) by (apply Rmult_le_compat_r; lra).
  assert (UUK : fu p * (fu p * K) <= / 16777216 * k2).
  { apply Rle_trans with (/ 16777216 * (fu p * K)); [apply Rmult_le_compat_r; [apply Rmult_le_pos; lra|lra]|lra]. }
  assert (UUK2 : fu p * (fu p * k2) <= / 16777216 * k2).
  { apply Rle_trans with (/ 16777216 * (fu p * k2)); [apply Rmult_le_compat_r; [apply Rmult_le_pos; lra|lra]|lra]. }
  split.
  - eapply approx_mono; [|apply (approx_mul p r s x y _ _ K 1 Ar As); [right; exact Hx|exact Hy|]].
    + replace (42 / 10 * fu p * (K * K)) with (42/10 * k2) by (unfold k2; ring). replace (74 / 10 * fu p * (K * K)) with (74/10 * k2) by (unfold k2; ring).
      replace (42/10 * k2 * (1 + 2 * fu p) + K * (2 * fu p) + fu p * ((K + 42/10 * k2) * (1 + 2 * fu p)) + eta p)
        with (42/10 * k2 + 84/10 * (fu p * k2) + 3 * (fu p * K) + 42/10 * (fu p * k2) + 2 * (fu p * (fu p * K)) + 84/10 * (fu p * (fu p * k2)) + eta p) by field.
      lra.
    + apply Rle_trans with (2 * bpow radix2 53); [|exact BB]. replace (42 / 10 * fu p * (K * K)) with (42/10 * k2) by (unfold k2; ring).
      replace ((K + 42/10 * k2) * (1 + 2 * fu p)) with (K + 42/10 * k2 + 2 * (fu p * K) + 84/10 * (fu p * k2)) by field. lra.
  - rewrite Rabs_mult, Hx. rewrite <- (Rmult_1_r K) at 2. apply Rmult_le_compat_l; lra.
Qed.
(** ... times another one *)
Lemma recip_mul2 (r s : fl p) x y : approximates (74/10 * fu p * (K * K)) r x -> Rabs x <= K -> approximates (2 * fu p) s y -> Rabs y <= 1 ->
  approximates (106/10 * fu p * (K * K)) (fmul r s) (x * y).
Proof.
  intros Ar Hx As Hy. destruct K_facts as (K1 & KU & KC & KA & KB & N). pose proof (fu_pos p) as U. pose proof (fu_24 p) as V. pose proof (eta5_u p) as E5. pose proof (eta_pos p) as E0.
  assert (BB : (2 * bpow radix2 53) <= bpow radix2 100) by (change 2 with (bpow radix2 1); rewrite <- bpow_plus; apply bpow_le; lia).
  set (k2 := fu p * (K * K)). assert (KK : fu p * K <= k2) by (apply Rmult_le_compat_l; [lra|]; rewrite <- (Rmult_1_l K) at 1; apply Rmult_le_compat_r; lra).
  assert (K2K : k2 <= / 100 * K) by (unfold k2; replace (fu p * (K * K)) with (K * fu p * K) by ring; apply Rmult_le_compat_r; lra).
  assert (U2 : fu p <= k2) by (apply Rle_trans with (fu p * K); [rewrite <- (Rmult_1_r (fu p)) at 1; apply Rmult_le_compat_l; lra|exact KK]).
  assert (k0 : 0 <= k2) by lra.
  assert (UK2 : fu p * k2 <= / 16777216 * k2) by (apply Rmult_le_compat_r; lra).
  assert (UUK : fu p * (fu p * K) <= / 16777216 * k2).
  { apply Rle_trans with (/ 16777216 * (fu p * K)); [apply Rmult_le_compat_r; [apply Rmult_le_pos; lra|lra]|lra]. }
  assert (UUK2 : fu p * (fu p * k2) <= / 16777216 * k2).
  { apply Rle_trans with (/ 16777216 * (fu p * k2)); [apply Rmult_le_compat_r; [apply Rmult_le_pos; lra|lra]|lra]. }
  eapply approx_mono; [|apply (approx_mul p r s x y _ _ K 1 Ar As); [exact Hx|exact Hy|]].
  - replace (74 / 10 * fu p * (K * K)) with (74/10 * k2) by (unfold k2; ring). replace (106 / 10 * fu p * (K * K)) with (106/10 * k2) by (unfold k2; ring).
    replace (74/10 * k2 * (1 + 2 * fu p) + K * (2 * fu p) + fu p * ((K + 74/10 * k2) * (1 + 2 * fu p)) + eta p)
      with (74/10 * k2 + 148/10 * (fu p * k2) + 3 * (fu p * K) + 74/10 * (fu p * k2) + 2 * (fu p * (fu p * K)) + 148/10 * (fu p * (fu p * k2)) + eta p) by field.
    lra.
  - apply Rle_trans with (2 * bpow radix2 53); [|exact BB]. replace (74 / 10 * fu p * (K * K)) with (74/10 * k2) by (unfold k2; ring).
    replace ((K + 74/10 * k2) * (1 + 2 * fu p)) with (K + 74/10 * k2 + 2 * (fu p * K) + 148/10 * (fu p * k2)) by field. lra.
Qed.
End Recip.

Section ToRates.
Variables (p : prim) (L : libm) (o : orders3).
Hypothesis HL : libm_ok L.
Hypothesis HO : orders3_ok 3 3 3 o.
Variables (x y z : fl p) (w : FV p).
Hypothesis Fx : is_finite x = true.
Hypothesis Fy : is_finite y = true.
Hypothesis Fz : is_finite z = true.
Hypothesis Fw : vfinite w.
Hypothesis HB : vnorm (vval w) <= bpow radix2 60.
Hypothesis HC : 100 * fu p <= Rabs (cos (B2R y)).
Let K := / Rabs (cos (B2R y)).
Lemma rates_bound n : 0 <= n <= bpow radix2 60 -> (K + 159/10 * fu p * (K * K)) * n <= bpow radix2 120.
Proof.
  intro H. pose proof (cos_abs1 (B2R y)) as C1. destruct (K_facts p _ HC C1) as (K1 & KU & KC & KA & KB & N). fold K in K1, KU, KC, KA, KB.
  assert (K2K : fu p * (K * K) <= / 100 * K) by (replace (fu p * (K * K)) with (K * fu p * K) by ring; apply Rmult_le_compat_r; lra).
  apply Rle_trans with ((bpow radix2 1 * bpow radix2 53) * bpow radix2 60); [|rewrite <- !bpow_plus; apply bpow_le; lia].
  apply Rmult_le_compat; try lra; [|change (bpow radix2 1) with 2; lra]. pose proof (fu_pos p). assert (0 <= fu p * (K * K)) by (apply Rmult_le_pos; [lra|apply Rmult_le_pos; lra]). lra.
Qed.
Lemma rates_final n e : 0 <= n -> e <= (526/100 * fu p * (K + 159/10 * fu p * (K * K)) + 7/4 * (159/10 * fu p * (K * K))) * n + underflow p -> e <= 34 * fu p * (K * K) * n + underflow p.
Proof.
  intros X H. pose proof (cos_abs1 (B2R y)) as C1. destruct (K_facts p _ HC C1) as (K1 & KU & KC & KA & KB & N). fold K in K1, KU, KC, KA, KB.
  pose proof (fu_pos p) as U. pose proof (fu_24 p) as V. eapply Rle_trans; [exact H|]. apply Rplus_le_compat_r. apply Rmult_le_compat_r; [exact X|].
  set (k2 := fu p * (K * K)). assert (KK : fu p * K <= k2) by (apply Rmult_le_compat_l; [lra|]; rewrite <- (Rmult_1_l K) at 1; apply Rmult_le_compat_r; lra).
  assert (k0 : 0 <= k2) by (apply Rle_trans with (fu p * K); [apply Rmult_le_pos; lra|exact KK]).
  assert (UK2 : fu p * k2 <= / 16777216 * k2) by (apply Rmult_le_compat_r; lra).
  replace (526/100 * fu p * (K + 159/10 * fu p * (K * K)) + 7/4 * (159/10 * fu p * (K * K))) with (526/100 * (fu p * K) + 526/100 * (159/10) * (fu p * k2) + 7/4 * (159/10) * k2) by (unfold k2; field).
  replace (34 * fu p * (K * K)) with (34 * k2) by (unfold k2; ring). lra.
Qed.
Ltac setup := pose proof (fu_pos p) as U; pose proof (fu_24 p) as V; pose proof (vn_nonneg (vval w)) as NW;
  pose proof (lsin_ok p L HL x Fx) as Sx; pose proof (lcos_ok p L HL x Fx) as Cx; pose proof (lsin_ok p L HL y Fy) as Sy; pose proof (lcos_ok p L HL y Fy) as Cy; pose proof (lsin_ok p L HL z Fz) as Sz; pose proof (lcos_ok p L HL z Fz) as Cz;
  pose proof (sin_abs1 (B2R x)) as sx; pose proof (cos_abs1 (B2R x)) as cx; pose proof (sin_abs1 (B2R y)) as sy; pose proof (cos_abs1 (B2R y)) as cy; pose proof (sin_abs1 (B2R z)) as sz; pose proof (cos_abs1 (B2R z)) as cz;
  pose proof (trig1 (B2R x)) as tx; pose proof (trig1 (B2R y)) as ty; pose proof (trig1 (B2R z)) as tz;
  destruct (K_facts p _ HC cy) as (K1 & KU & KC & KA & KB & KN); fold K in K1, KU, KC, KA, KB;
  destruct (recip_ok p _ _ Cy HC cy) as [QF Rc]; fold K in Rc;
  pose proof (approx_neg _ _ _ _ Rc) as NRc; assert (KA' : Rabs (- (1 / cos (B2R y))) = K) by (rewrite Rabs_Ropp; exact KA);
  assert (k1 : fu p <= fu p * (K * K)) by (rewrite <- (Rmult_1_r (fu p)) at 1; apply Rmult_le_compat_l; [lra|]; rewrite <- (Rmult_1_l 1); apply Rmult_le_compat; lra).
Ltac entryk := first [apply Rabs_minus0 | (match goal with H : approximates _ ?a ?x |- Rabs (B2R ?a - ?x) <= _ => eapply Rle_trans; [exact (proj2 H)|lra] end)].
Ltac rowdiffk := unfold vsub, vrow0, vrow1, vrow2, mval; cbn [vx vy vz m00 m01 m02 m10 m11 m12 m20 m21 m22 r0 r1 r2 gx gy gz].
Ltac err_rowk T := rowdiffk; change (B2R (@fzero p)) with 0; replace (159/10 * fu p * (K * K)) with (3/2 * (106/10 * fu p * (K * K))) by field; apply T; entryk.
(** rows of the exact mapping *)
Lemma row_k s c : s * s + c * c = 1 -> (1 / cos (B2R y) * s) * (1 / cos (B2R y) * s) + (1 / cos (B2R y) * c) * (1 / cos (B2R y) * c) <= K * K.
Proof.
  intro H. pose proof (cos_abs1 (B2R y)) as C1. destruct (K_facts p _ HC C1) as (_ & _ & _ & KA & _ & _). fold K in KA. rewrite <- KA, <- Rabs_mult.
  set (k := 1 / cos (B2R y)). rewrite Rabs_pos_eq by apply Rle_0_sqr. replace (k * s * (k * s) + k * c * (k * c)) with (k * k * (s * s + c * c)) by ring. rewrite H. lra.
Qed.
Lemma row_1 s c : s * s + c * c = 1 -> s * s + c * c <= K * K.
Proof.
  intro H. pose proof (cos_abs1 (B2R y)) as C1. destruct (K_facts p _ HC C1) as (K1 & _). fold K in K1. rewrite H. rewrite <- (Rmult_1_l 1). apply Rmult_le_compat; lra.
Qed.
Lemma row_t s c : s * s + c * c = 1 -> 1 * 1 + ((1 / cos (B2R y) * s * sin (B2R y)) * (1 / cos (B2R y) * s * sin (B2R y)) + (1 / cos (B2R y) * c * sin (B2R y)) * (1 / cos (B2R y) * c * sin (B2R y))) <= K * K.
Proof.
  intro H. pose proof (cos_abs1 (B2R y)) as C1. destruct (K_facts p _ HC C1) as (_ & _ & _ & KA & _ & N). fold K in KA. rewrite <- KA, <- Rabs_mult.
  set (k := 1 / cos (B2R y)). rewrite Rabs_pos_eq by apply Rle_0_sqr. pose proof (trig1 (B2R y)) as T. assert (KI : k * cos (B2R y) = 1) by (unfold k; field; exact N).
  replace (1 * 1 + (k * s * sin (B2R y) * (k * s * sin (B2R y)) + k * c * sin (B2R y) * (k * c * sin (B2R y)))) with (1 + k * k * (sin (B2R y) * sin (B2R y)) * (s * s + c * c)) by ring.
  rewrite H. replace (sin (B2R y) * sin (B2R y)) with (1 - cos (B2R y) * cos (B2R y)) by lra.
  replace (1 + k * k * (1 - cos (B2R y) * cos (B2R y)) * 1) with (1 + k * k - (k * cos (B2R y)) * (k * cos (B2R y))) by ring. rewrite KI. lra.
Qed.
Ltac final E := destruct E as [F X]; eexists; split; [reflexivity|]; split; [exact F|]; apply rates_final; assumption.
Lemma zyx_rates_err M : zyx_local_to_diff (mkZyx (B2R z) (B2R y) (B2R x)) = Val M ->
  exists r, fzyx_rates L o z y x w = Some r /\ vfinite r /\ vdist (vval r) (mvmul M (vval w)) <= 34 * fu p * (K * K) * vnorm (vval w) + underflow p.
Proof.
  setup. intro HM. unfold zyx_local_to_diff in HM. cbv zeta in HM. cbn [zyaw zpitch zroll] in HM. destruct (Req_EM_T (cos (B2R y)) 0) as [Z|_]; [contradiction|]. injection HM as <-.
  destruct (recip_mul p _ HC cy _ _ _ _ Rc KA Sx sx) as [P1 P1'].
  destruct (recip_mul p _ HC cy _ _ _ _ Rc KA Cx cx) as [P2 P2'].
  fold K in P1, P1', P2, P2'.
  pose proof (recip_mul2 p _ HC cy _ _ _ _ P1 P1' Sy sy) as P3. pose proof (recip_mul2 p _ HC cy _ _ _ _ P2 P2' Sy sy) as P4.
  fold K in P3, P4. pose proof (approx_neg _ _ _ _ Sx) as NSx. pose proof (approx_one p) as I.
  unfold fzyx_rates, fzyx_from_local. cbv zeta. rewrite QF. cbn [option_map].
  match goal with |- context [Some (fmv o ?m w)] => match goal with |- context [mvmul ?M (vval w)] =>
    assert (E : vfinite (fmv o m w) /\ vdist (vval (fmv o m w)) (mvmul M (vval w)) <= (526/100 * fu p * (K + 159/10 * fu p * (K * K)) + 7/4 * (159/10 * fu p * (K * K))) * vnorm (vval w) + underflow p) end end.
  { apply map_apply; try assumption.
    - rowfin.
    - apply vnorm_lit; [lra|]. cbn [m00 m01 m02]. pose proof (row_k _ _ tx). lra.
    - apply vnorm_lit; [lra|]. cbn [m10 m11 m12]. pose proof (row_1 _ _ tx). lra.
    - apply vnorm_lit; [lra|]. cbn [m20 m21 m22]. pose proof (row_t _ _ tx). lra.
    - err_rowk vnorm_two1.
    - err_rowk vnorm_two1.
    - rowdiffk. rewrite (proj2 (fofZ1 p)). replace (1 - 1) with (0 - 0) by ring. replace (159/10 * fu p * (K * K)) with (3/2 * (106/10 * fu p * (K * K))) by field. apply vnorm_two1; entryk.
    - apply rates_bound. lra. }
  final E.
Qed.
Lemma xyz_rates_err M : xyz_local_to_diff (mkXyz (B2R x) (B2R y) (B2R z)) = Val M ->
  exists r, fxyz_rates L o x y z w = Some r /\ vfinite r /\ vdist (vval r) (mvmul M (vval w)) <= 34 * fu p * (K * K) * vnorm (vval w) + underflow p.
Proof.
  setup. intro HM. unfold xyz_local_to_diff in HM. cbv zeta in HM. cbn [xyaw xpitch xroll] in HM. destruct (Req_EM_T (cos (B2R y)) 0) as [Z|_]; [contradiction|]. injection HM as <-.
  destruct (recip_mul p _ HC cy _ _ _ _ Rc KA Cz cz) as [P1 P1'].
  destruct (recip_mul p _ HC cy _ _ _ _ NRc KA' Sz sz) as [P2 P2'].
  destruct (recip_mul p _ HC cy _ _ _ _ NRc KA' Cz cz) as [P5 P5'].
  destruct (recip_mul p _ HC cy _ _ _ _ Rc KA Sz sz) as [P6 P6'].
  fold K in P1, P1', P2, P2', P5, P5', P6, P6'.
  pose proof (recip_mul2 p _ HC cy _ _ _ _ P5 P5' Sy sy) as P3. pose proof (recip_mul2 p _ HC cy _ _ _ _ P6 P6' Sy sy) as P4.
  fold K in P3, P4. pose proof (approx_one p) as I.
  unfold fxyz_rates, fxyz_from_local. cbv zeta. rewrite QF. cbn [option_map].
  match goal with |- context [Some (fmv o ?m w)] => match goal with |- context [mvmul ?M (vval w)] =>
    assert (E : vfinite (fmv o m w) /\ vdist (vval (fmv o m w)) (mvmul M (vval w)) <= (526/100 * fu p * (K + 159/10 * fu p * (K * K)) + 7/4 * (159/10 * fu p * (K * K))) * vnorm (vval w) + underflow p) end end.
  { apply map_apply; try assumption.
    - rowfin.
    - apply vnorm_lit; [lra|]. cbn [m00 m01 m02]. pose proof (row_k _ _ tz). lra.
    - apply vnorm_lit; [lra|]. cbn [m10 m11 m12]. pose proof (row_1 _ _ tz). lra.
    - apply vnorm_lit; [lra|]. cbn [m20 m21 m22]. pose proof (row_t _ _ tz). lra.
    - err_rowk vnorm_two3.
    - err_rowk vnorm_two3.
    - rowdiffk. rewrite (proj2 (fofZ1 p)). replace (1 - 1) with (0 - 0) by ring. replace (159/10 * fu p * (K * K)) with (3/2 * (106/10 * fu p * (K * K))) by field. apply vnorm_two3; entryk.
    - apply rates_bound. lra. }
  final E.
Qed.
Lemma xyz_global_rates_err M : xyz_global_to_diff (mkXyz (B2R x) (B2R y) (B2R z)) = Val M ->
  exists r, fxyz_global_rates L o x y z w = Some r /\ vfinite r /\ vdist (vval r) (mvmul M (vval w)) <= 34 * fu p * (K * K) * vnorm (vval w) + underflow p.
Proof.
  setup. intro HM. unfold xyz_global_to_diff in HM. cbv zeta in HM. cbn [xyaw xpitch xroll] in HM. destruct (Req_EM_T (cos (B2R y)) 0) as [Z|_]; [contradiction|]. injection HM as <-.
  destruct (recip_mul p _ HC cy _ _ _ _ Rc KA Sy sy) as [P5 P5'].
  destruct (recip_mul p _ HC cy _ _ _ _ NRc KA' Sy sy) as [P6 P6'].
  destruct (recip_mul p _ HC cy _ _ _ _ NRc KA' Sx sx) as [P1 P1'].
  destruct (recip_mul p _ HC cy _ _ _ _ Rc KA Cx cx) as [P2 P2'].
  fold K in P1, P1', P2, P2', P5, P5', P6, P6'.
  pose proof (recip_mul2 p _ HC cy _ _ _ _ P5 P5' Sx sx) as P3. pose proof (recip_mul2 p _ HC cy _ _ _ _ P6 P6' Cx cx) as P4.
  fold K in P3, P4. pose proof (approx_one p) as I.
  unfold fxyz_global_rates, fxyz_from_global. cbv zeta. rewrite QF. cbn [option_map].
  match goal with |- context [Some (fmv o ?m w)] => match goal with |- context [mvmul ?M (vval w)] =>
    assert (E : vfinite (fmv o m w) /\ vdist (vval (fmv o m w)) (mvmul M (vval w)) <= (526/100 * fu p * (K + 159/10 * fu p * (K * K)) + 7/4 * (159/10 * fu p * (K * K))) * vnorm (vval w) + underflow p) end end.
  { apply map_apply; try assumption.
    - rowfin.
    - apply vnorm_lit; [lra|]. cbn [m00 m01 m02]. pose proof (row_t _ _ tx). lra.
    - apply vnorm_lit; [lra|]. cbn [m10 m11 m12]. pose proof (row_1 _ _ tx). lra.
    - apply vnorm_lit; [lra|]. cbn [m20 m21 m22]. pose proof (row_k _ _ tx). lra.
    - rowdiffk. rewrite (proj2 (fofZ1 p)). replace (1 - 1) with (0 - 0) by ring. replace (159/10 * fu p * (K * K)) with (3/2 * (106/10 * fu p * (K * K))) by field. apply vnorm_two1; entryk.
    - err_rowk vnorm_two1.
    - err_rowk vnorm_two1.
    - apply rates_bound. lra. }
  final E.
Qed.
End ToRates.

(** the exception *)
Section Throws.
Variables (p : prim) (L : libm).
Hypothesis HL : libm_ok L.
Lemma lcos_zero (y : fl p) : is_finite y = true -> feq (lcos L p y) fzero = true -> Rabs (cos (B2R y)) <= 2 * fu p.
Proof.
  intros F H. destruct (lcos_ok p L HL y F) as [FC E]. apply feq_zero in H; [|exact FC]. rewrite H in E.
  rewrite <- Rabs_Ropp. replace (- cos (B2R y)) with (0 - cos (B2R y)) by ring. exact E.
Qed.
End Throws.
