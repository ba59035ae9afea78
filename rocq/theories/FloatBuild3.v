(** * FloatBuild3: rounding of the conversion from rotation vectors. *)
From Coq Require Import ZArith Reals Lra Psatz Bool List Lia.
From Flocq Require Import IEEE754.BinarySingleNaN Core.Core.
From Verif Require Import Linalg Spec SpecFacts SpecClose ModelCommon ModelEigen CommonFacts ModelRotation ConvFacts CloseFacts RVFacts
  FloatModel FloatFacts FloatModel2 SpecFloatQ FloatQFacts FloatQProd FloatQHist FloatQRot FloatCast FloatModel3 SpecLibm Claims9 FloatWrap FloatBuild FloatBuild2.
Import ListNotations.
Local Open Scope R_scope.

Lemma f48_R p : is_finite (flit p 1 48) = true /\ Rabs (B2R (flit p 1 48) - / 48) <= fu p.
Proof.
  destruct p; (split; [vm_compute; reflexivity|]).
  - rewrite (B2R_of_SF F32 (flit F32 1 48) false 11184811 (-29)) by (vm_compute; reflexivity).
    unfold F2R, fu; cbn [Fnum Fexp cond_Zopp fprec]. replace (bpow radix2 (-29)) with (/ 536870912) by (cbn; f_equal).
    replace (bpow radix2 (-(24))) with (/ 16777216) by (cbn; f_equal). apply Rabs_le. lra.
  - rewrite (B2R_of_SF F64 (flit F64 1 48) false 6004799503160661 (-58)) by (vm_compute; reflexivity).
    unfold F2R, fu; cbn [Fnum Fexp cond_Zopp fprec]. replace (bpow radix2 (-58)) with (/ 288230376151711744) by (cbn; f_equal).
    replace (bpow radix2 (-(53))) with (/ 9007199254740992) by (cbn; f_equal). apply Rabs_le. lra.
Qed.
Lemma fu_64 p : fu F64 <= fu p.
Proof. unfold fu. apply bpow_le. destruct p; vm_compute; discriminate. Qed.
Lemma fu_53 p : bpow radix2 (-53) <= fu p.
Proof. exact (fu_64 p). Qed.
Lemma eta_64 p : eta F64 <= eta p.
Proof. unfold eta. apply Rmult_le_compat_l; [lra|]. apply bpow_le. destruct p; vm_compute; discriminate. Qed.
Lemma eps4_bounds L p : libm_ok L -> is_finite (leps4 L p) = true /\ bpow radix2 (-14) < B2R (leps4 L p) <= / 50 /\ B2R (leps4 L p) ^ 4 <= (2 + / 500) * fu p.
Proof.
  intro HL. destruct (eps4_accurate L HL p) as (F & P & E). rewrite roundoff_fu in E. apply Rabs_both in E.
  pose proof (fu_24 p) as V. pose proof (fu_53 p) as W. split; [exact F|]. set (x := B2R (leps4 L p)) in *.
  split; [split|lra].
  - destruct (Rlt_or_le (bpow radix2 (-14)) x) as [H|H]; [exact H|exfalso].
    assert (X : x ^ 4 <= bpow radix2 (-14) ^ 4) by (apply pow_incr; lra).
    assert (Y : bpow radix2 (-14) ^ 4 = bpow radix2 (-56)) by (cbn [pow]; rewrite Rmult_1_r, <- !bpow_plus; f_equal).
    rewrite Y in X. assert (bpow radix2 (-56) <= bpow radix2 (-53)) by (apply bpow_le; lia). pose proof (bpow_gt_0 radix2 (-53)). lra.
  - destruct (Rle_or_lt x (/ 50)) as [H|H]; [exact H|exfalso].
    assert (X : (/ 50) ^ 4 <= x ^ 4) by (apply pow_incr; lra). lra.
Qed.

(** the real part *)
Lemma rv_real p L (theta : fl p) : libm_ok L -> is_finite theta = true ->
  let h := fmul (fcvt F64 theta) (fhalf F64) in
  is_finite (fcvt p (lcos L F64 h)) = true /\ Rabs (B2R (fcvt p (lcos L F64 h)) - cos (B2R theta / 2)) <= (3 + / 50) * fu p.
Proof.
  intros HL F h. pose proof (fu_pos p) as U. pose proof (fu_24 p) as V. pose proof (eta_u7 p) as T. pose proof (eta_pos p) as P.
  pose proof (fu_64 p) as U64. pose proof (eta_64 p) as T64. pose proof (fu_pos F64).
  destruct (widen_R p theta) as [W WF]. destruct (half_R' F64 (fcvt F64 theta) ltac:(now rewrite WF)) as [Fh Eh]. fold h in Fh, Eh. rewrite W in Eh.
  destruct (cos_accurate L HL F64 h Fh) as [Fc Ec]. rewrite roundoff_fu in Ec.
  set (c := B2R (lcos L F64 h)) in *.
  assert (E1 : Rabs (c - cos (B2R theta / 2)) <= (2 + / 100) * fu p).
  { eapply Rle_trans; [eapply Rabs_tri3; [exact Ec|eapply Rle_trans; [apply cos_lipschitz|exact Eh]]|]. lra. }
  pose proof (COS_bound (B2R theta / 2)) as Cb. apply Rabs_both in E1 as E1'.
  assert (CB : Rabs c <= 1 + / 1000) by (apply Rabs_le; lra).
  destruct (fcvt_R F64 p (lcos L F64 h) Fc) as [R Fr]. { fold c. eapply Rle_trans; [exact CB|]. pose proof (four_fbig p). lra. }
  split; [exact Fr|]. rewrite R. fold c. pose proof (rnd_err_le p c) as Re.
  eapply Rle_trans; [eapply Rabs_tri3; [exact Re|exact E1]|].
  assert (fu p * Rabs c <= fu p * (1 + / 1000)) by (apply Rmult_le_compat_l; lra). lra.
Qed.

(** the factor na, series branch *)
Lemma rv_na_small p (t2 : dtree) (theta : fl p) : order 2 t2 -> is_finite theta = true -> 0 <= B2R theta <= / 50 ->
  let na := fdot t2 [fofZ p 1; fneg (fmul theta theta)] [fhalf p; flit p 1 48] in
  is_finite na = true /\ Rabs (B2R na - (/ 2 - B2R theta * B2R theta / 48)) <= (1 + / 20) * fu p.
Proof.
  intros O F HT na. pose proof (fu_pos p) as U. pose proof (fu_24 p) as V. pose proof (eta_u7 p) as T. pose proof (eta_pos p) as P.
  set (x := B2R theta) in *. assert (X2 : 0 <= x * x <= / 2500) by nra.
  destruct (fmul_R p theta theta F F) as [R Fr].
  { fold x. rewrite Rabs_pos_eq by lra. pose proof (four_fbig p). lra. }
  fold x in R. pose proof (rnd_err_le p (x * x)) as Re. rewrite (Rabs_pos_eq (x * x)) in Re by lra. rewrite <- R in Re. set (tt := fmul theta theta) in *.
  apply Rabs_both in Re.
  assert (UX : fu p * (x * x) <= fu p * / 2500) by (apply Rmult_le_compat_l; lra). assert (UX0 : 0 <= fu p * (x * x)) by (apply Rmult_le_pos; lra).
  destruct (f48_R p) as [F48 E48]. set (c := B2R (flit p 1 48)) in *. apply Rabs_both in E48 as C48.
  destruct (fofZ1 p) as [F1 V1]. destruct (fhalf_R p) as [Fh Vh].
  assert (TT : Rabs (B2R tt) <= / 2499) by (apply Rabs_le; lra).
  destruct (fdot2_err p t2 (fofZ p 1) (fneg tt) (fhalf p) (flit p 1 48) (/ 2 + / 100000) O F1 ltac:(now rewrite fneg_fin) Fh F48) as [Fn En].
  - rewrite V1, Vh, fneg_val. fold c. rewrite Rmult_1_l, (Rabs_pos_eq (/ 2)) by lra. rewrite Rabs_mult, Rabs_Ropp.
    apply Rplus_le_compat_l. apply Rle_trans with (/ 2499 * / 47); [|lra]. apply Rmult_le_compat; try apply Rabs_pos; [exact TT|]. rewrite Rabs_pos_eq by lra. lra.
  - apply Rle_trans with 1; [lra|]. change 1 with (bpow radix2 0). apply bpow_le. lia.
  - fold na in Fn, En. split; [exact Fn|]. rewrite V1, Vh, fneg_val in En. fold c in En.
    eapply Rle_trans; [eapply Rabs_tri3; [exact En|]|].
    + instantiate (1 := / 50 * fu p). replace (1 * / 2 + - B2R tt * c - (/ 2 - x * x / 48)) with ((x * x - B2R tt) * c - x * x * (c - / 48)) by field.
      apply Rabs_le. assert (A1 : Rabs ((x * x - B2R tt) * c) <= (fu p * / 2500 + eta p) * / 47).
      { rewrite Rabs_mult. apply Rmult_le_compat; try apply Rabs_pos; [apply Rabs_le; lra|rewrite Rabs_pos_eq; lra]. }
      assert (A2 : Rabs (x * x * (c - / 48)) <= / 2500 * fu p).
      { rewrite Rabs_mult, (Rabs_pos_eq (x * x)) by lra. apply Rmult_le_compat; try lra. apply Rabs_pos. }
      apply Rabs_both in A1. apply Rabs_both in A2. lra.
    + lra.
Qed.
Lemma sinc_close V T : 0 < V -> 0 < T -> V * Rabs (sin (T / 2) / T - sin (V / 2) / V) <= Rabs (T - V).
Proof.
  intros HV HT. rewrite <- (Rabs_pos_eq V) at 1 by lra. rewrite <- Rabs_mult.
  replace (V * (sin (T / 2) / T - sin (V / 2) / V)) with ((V - T) * (sin (T / 2) / T) + (sin (T / 2) - sin (V / 2))) by (field; lra).
  eapply Rle_trans; [apply Rabs_triang|]. rewrite Rabs_mult.
  assert (S1 : Rabs (sin (T / 2) / T) <= / 2).
  { unfold Rdiv at 1. rewrite Rabs_mult, (Rabs_pos_eq (/ T)) by (apply Rlt_le, Rinv_0_lt_compat, HT).
    apply Rmult_le_reg_r with T; [exact HT|]. rewrite Rmult_assoc, Rinv_l, Rmult_1_r by lra.
    eapply Rle_trans; [apply sin_abs_le|]. rewrite Rabs_pos_eq; lra. }
  assert (S2 : Rabs (sin (T / 2) - sin (V / 2)) <= Rabs (T - V) / 2).
  { eapply Rle_trans; [apply sin_lipschitz|]. replace (T / 2 - V / 2) with ((T - V) * / 2) by field. rewrite Rabs_mult, (Rabs_pos_eq (/ 2)) by lra. lra. }
  rewrite (Rabs_minus_sym V T). pose proof (Rabs_pos (T - V)). nra.
Qed.
(** truncation of the series *)
Lemma series_close T : 0 < T <= / 50 -> Rabs (/ 2 - T * T / 48 - sin (T / 2) / T) <= T ^ 4 / 3840.
Proof.
  intros HT. assert (R : 0 <= T / 2 <= PI) by (pose proof PI2_1; lra).
  pose proof (sin_lo _ R) as A. pose proof (sin_hi _ R) as B.
  assert (Z : / 2 - T * T / 48 - sin (T / 2) / T = (T / 2 - (T / 2) ^ 3 / 6 - sin (T / 2)) / T) by (field; lra).
  rewrite Z. unfold Rdiv at 1. rewrite Rabs_mult, (Rabs_pos_eq (/ T)) by (apply Rlt_le, Rinv_0_lt_compat; lra).
  apply Rmult_le_reg_r with T; [lra|]. rewrite Rmult_assoc, Rinv_l, Rmult_1_r by lra.
  replace (T ^ 4 / 3840 * T) with ((T / 2) ^ 5 / 120) by field. apply Rabs_le. split; [lra|].
  assert (0 <= (T / 2) ^ 5) by (apply pow_le; lra). lra.
Qed.
(** the factor na, general branch *)
Lemma rv_na_large p L (theta : fl p) V : libm_ok L -> is_finite theta = true -> bpow radix2 (-14) <= B2R theta ->
  0 < V <= bpow radix2 50 -> V <= (1 + / 1000) * B2R theta ->
  let h := fmul (fcvt F64 theta) (fhalf F64) in
  let na := fcvt p (fdiv (lsin L F64 h) (fcvt F64 theta)) in
  is_finite na = true /\ V * Rabs (B2R na - sin (B2R theta / 2) / B2R theta) <= (4 + / 10) * fu p /\ V * Rabs (B2R na) <= 1 + / 50.
Proof.
  intros HL F HT HV HVT h na. pose proof (fu_pos p) as U. pose proof (fu_24 p) as V24. pose proof (eta_u7 p) as T. pose proof (eta_pos p) as P.
  pose proof (fu_64 p) as U64. pose proof (eta_64 p) as T64. pose proof (fu_pos F64) as U0. pose proof (eta_pos F64) as P0.
  pose proof (bpow_gt_0 radix2 (-14)) as B0.
  destruct (widen_R p theta) as [W WF]. destruct (half_R' F64 (fcvt F64 theta) ltac:(now rewrite WF)) as [Fh Eh]. fold h in Fh, Eh. rewrite W in Eh.
  destruct (sin_accurate L HL F64 h Fh) as [Fs Es]. rewrite roundoff_fu in Es.
  set (t := B2R theta) in *. set (s := B2R (lsin L F64 h)) in *.
  assert (E1 : Rabs (s - sin (t / 2)) <= (2 + / 100) * fu p).
  { eapply Rle_trans; [eapply Rabs_tri3; [exact Es|eapply Rle_trans; [apply sin_lipschitz|exact Eh]]|]. lra. }
  pose proof (SIN_bound (t / 2)) as Sb. apply Rabs_both in E1 as E1'. assert (SB : Rabs s <= 1 + / 1000) by (apply Rabs_le; lra).
  assert (T0 : 0 < t) by lra. assert (IT : 0 < / t) by (now apply Rinv_0_lt_compat).
  assert (VT : V * / t <= 1 + / 1000).
  { apply Rmult_le_reg_r with t; [exact T0|]. rewrite Rmult_assoc, Rinv_l, Rmult_1_r by lra. exact HVT. }
  assert (VT0 : 0 < V * / t) by (apply Rmult_lt_0_compat; lra).
  assert (IB : / t <= bpow radix2 14).
  { change 14%Z with (- (-14))%Z. rewrite bpow_opp. apply Rinv_le_contravar; lra. }
  assert (XB : Rabs (s / t) <= bpow radix2 15).
  { unfold Rdiv. rewrite Rabs_mult, (Rabs_pos_eq (/ t)) by lra. apply Rle_trans with (2 * bpow radix2 14); [apply Rmult_le_compat; try lra; apply Rabs_pos|].
    right. change 2 with (bpow radix2 1). rewrite <- bpow_plus. reflexivity. }
  destruct (fdiv_R F64 (lsin L F64 h) (fcvt F64 theta) Fs) as [Rd Fd].
  { rewrite W. fold t. lra. }
  { rewrite W. fold t s. eapply Rle_trans; [exact XB|]. apply bpow_le. vm_compute; discriminate. }
  rewrite W in Rd. fold t s in Rd. set (x := s / t) in *.
  set (d := fdiv (lsin L F64 h) (fcvt F64 theta)) in *.
  assert (YB : Rabs (B2R d) <= bpow radix2 15) by (rewrite Rd; apply rnd_abs_le; [vm_compute; discriminate|exact XB]).
  destruct (fcvt_R F64 p d Fd) as [Rn Fn]. { eapply Rle_trans; [exact YB|]. apply bpow_le. destruct p; vm_compute; discriminate. }
  fold na in Rn, Fn. split; [exact Fn|].
  pose proof (rnd_err_le F64 x) as R1. rewrite <- Rd in R1. pose proof (rnd_err_le p (B2R d)) as R2. rewrite <- Rn in R2.
  assert (VE : V * eta p <= / 1000000 * fu p).
  { apply Rle_trans with (bpow radix2 50 * (fu p * bpow radix2 (-126))); [apply Rmult_le_compat; try lra; apply eta_u|].
    replace (bpow radix2 50 * (fu p * bpow radix2 (-126))) with (fu p * (bpow radix2 50 * bpow radix2 (-126))) by ring.
    rewrite <- bpow_plus. rewrite (Rmult_comm _ (fu p)). apply Rmult_le_compat_l; [lra|].
    apply Rle_trans with (bpow radix2 (-26)); [apply bpow_le; lia|cbn; lra]. }
  assert (VX : V * Rabs x <= 1 + / 400).
  { unfold x, Rdiv. rewrite Rabs_mult, (Rabs_pos_eq (/ t)) by lra. replace (V * (Rabs s * / t)) with (V * / t * Rabs s) by ring. pose proof (Rabs_pos s). nra. }
  assert (K1 : V * Rabs (x - sin (t / 2) / t) <= (2 + / 50) * fu p).
  { replace (x - sin (t / 2) / t) with ((s - sin (t / 2)) * / t) by (unfold x; field; lra). rewrite Rabs_mult, (Rabs_pos_eq (/ t)) by lra.
    replace (V * (Rabs (s - sin (t / 2)) * / t)) with (V * / t * Rabs (s - sin (t / 2))) by ring.
    apply Rle_trans with ((1 + / 1000) * ((2 + / 100) * fu p)); [apply Rmult_le_compat; try lra; apply Rabs_pos|lra]. }
  assert (K2 : V * Rabs (B2R d - x) <= (1 + / 300) * fu p).
  { apply Rle_trans with (V * (fu p * Rabs x + eta p)).
    - apply Rmult_le_compat_l; [lra|]. eapply Rle_trans; [exact R1|]. pose proof (Rabs_pos x). nra.
    - replace (V * (fu p * Rabs x + eta p)) with (fu p * (V * Rabs x) + V * eta p) by ring.
      assert (fu p * (V * Rabs x) <= fu p * (1 + / 400)) by (apply Rmult_le_compat_l; lra). lra. }
  assert (VD : V * Rabs (B2R d) <= 1 + / 300).
  { replace (B2R d) with ((B2R d - x) + x) by ring. apply Rle_trans with (V * (Rabs (B2R d - x) + Rabs x)); [apply Rmult_le_compat_l; [lra|apply Rabs_triang]|]. lra. }
  assert (K3 : V * Rabs (B2R na - B2R d) <= (1 + / 200) * fu p).
  { apply Rle_trans with (V * (fu p * Rabs (B2R d) + eta p)); [apply Rmult_le_compat_l; [lra|exact R2]|].
    replace (V * (fu p * Rabs (B2R d) + eta p)) with (fu p * (V * Rabs (B2R d)) + V * eta p) by ring.
    assert (fu p * (V * Rabs (B2R d)) <= fu p * (1 + / 300)) by (apply Rmult_le_compat_l; lra). lra. }
  split.
  - apply Rle_trans with (V * (Rabs (B2R na - B2R d) + (Rabs (B2R d - x) + Rabs (x - sin (t / 2) / t)))); [|lra].
    apply Rmult_le_compat_l; [lra|]. eapply Rabs_tri3; [apply Rle_refl|]. eapply Rabs_tri3; apply Rle_refl.
  - replace (B2R na) with ((B2R na - B2R d) + B2R d) by ring. apply Rle_trans with (V * (Rabs (B2R na - B2R d) + Rabs (B2R d))); [apply Rmult_le_compat_l; [lra|apply Rabs_triang]|]. lra.
Qed.

Lemma sin_le_self x : 0 <= x -> sin x <= x.
Proof. intros [H|<-]; [left; apply sin_lt_x, H|rewrite sin_0; lra]. Qed.
(** ** The quaternion of a rotation vector *)
Definition rv_sinc (v : V3) : R := if Req_EM_T (vnorm v) 0 then / 2 else sin (vnorm v / 2) / vnorm v.
Definition rv_quat (v : V3) : Quat := mkQ (cos (vnorm v / 2)) (rv_sinc v * vx v) (rv_sinc v * vy v) (rv_sinc v * vz v).
Lemma rv_quat_ok v : qnorm (rv_quat v) = 1 /\ quat_rot (rv_quat v) = vec_rot v.
Proof.
  unfold rv_quat, rv_sinc. destruct (Req_EM_T (vnorm v) 0) as [E|N].
  - assert (Z : v = vzero).
    { pose proof (vnorm_sq v) as H. rewrite E in H. unfold vnorm2, vdot in H. destruct v as [x y z]; cbn in *. unfold vzero. f_equal; nra. }
    subst v. rewrite E. replace (0 / 2) with 0 by field. rewrite cos_0. cbn [vzero vx vy vz].
    replace (mkQ 1 (/ 2 * 0) (/ 2 * 0) (/ 2 * 0)) with qid by (unfold qid; f_equal; ring).
    rewrite vec_rot_zero, quat_rot_id. split; [|reflexivity]. unfold qnorm. replace (qnorm2 qid) with 1 by lin. apply sqrt_1.
  - replace (mkQ _ _ _ _) with (half_quat (vnorm v) (vscale (/ vnorm v) v)).
    + assert (U : vnorm2 (vscale (/ vnorm v) v) = 1) by now apply vnorm2_unitize.
      split; [now apply half_quat_qnorm|]. rewrite half_quat_rot by exact U. symmetry. now apply vec_rot_aa.
    + unfold half_quat, vscale; cbn [vx vy vz]. f_equal; field; exact N.
Qed.

Lemma rv_assemble p (c na : fl p) (v : FV p) A B : is_finite c = true -> is_finite na = true -> vfinite v -> 0 <= A -> 0 <= B ->
  Rabs (B2R c - cos (vnorm (vval v) / 2)) <= A -> vnorm (vval v) * Rabs (B2R na - rv_sinc (vval v)) <= B -> vnorm (vval v) * Rabs (B2R na) <= 1 + / 50 ->
  let q := mkFQ c (fmul (gx v) na) (fmul (gy v) na) (fmul (gz v) na) in
  qfinite q /\ qdist (qval q) (rv_quat (vval v)) * qdist (qval q) (rv_quat (vval v)) <= A * A + (B + (1 + / 20) * fu p) * (B + (1 + / 20) * fu p).
Proof.
  intros Fc Fn Fv HA HB EA EB EN q. pose proof (fu_pos p) as U. pose proof (eta_u7 p) as T. pose proof (eta_pos p) as P.
  destruct (fscale_r_err p na v (Rabs (B2R na)) Fn Fv (Rle_refl _)) as [Ff Ef].
  { rewrite Rmult_comm. apply Rle_trans with 2; [lra|]. change 2 with (bpow radix2 1). apply bpow_le. lia. }
  split. { destruct Ff as (X & Y & Z). repeat split; assumption. }
  eapply (qdist_parts (qval q) (rv_quat (vval v)) (B2R c) _ (cos (vnorm (vval v) / 2)) (vscale (rv_sinc (vval v)) (vval v))); try reflexivity; [exact EA|].
  eapply Rle_trans; [apply (vdist_triang _ (vscale (B2R na) (vval v)))|].
  assert (E2 : vdist (vscale (B2R na) (vval v)) (vscale (rv_sinc (vval v)) (vval v)) <= B).
  { unfold vdist. replace (vsub (vscale (B2R na) (vval v)) (vscale (rv_sinc (vval v)) (vval v))) with (vscale (B2R na - rv_sinc (vval v)) (vval v)) by lin.
    rewrite vnorm_vscale, Rmult_comm. exact EB. }
  assert (E3 : fu p * (Rabs (B2R na) * vnorm (vval v)) <= fu p * (1 + / 50)) by (apply Rmult_le_compat_l; [lra|rewrite Rmult_comm; exact EN]).
  eapply Rle_trans; [apply Rplus_le_compat; [exact Ef|exact E2]|]. lra.
Qed.

Lemma rv_conclude u d V : 0 < u -> 0 <= V -> 0 <= d ->
  d * d <= ((3 + / 20) * u + (3 + / 20) * u * V / 2) * ((3 + / 20) * u + (3 + / 20) * u * V / 2)
         + ((4 + / 5) * u + (3 + / 20) * u * V + (1 + / 20) * u) * ((4 + / 5) * u + (3 + / 20) * u * V + (1 + / 20) * u) ->
  d <= (7 + 4 * V) * u.
Proof.
  intros U HV Hd H. apply sq_le_le; [nra|]. eapply Rle_trans; [exact H|].
  replace ((7 + 4 * V) * u * ((7 + 4 * V) * u)) with ((7 + 4 * V) * (7 + 4 * V) * (u * u)) by ring.
  replace (((3 + / 20) * u + (3 + / 20) * u * V / 2) * ((3 + / 20) * u + (3 + / 20) * u * V / 2)
         + ((4 + / 5) * u + (3 + / 20) * u * V + (1 + / 20) * u) * ((4 + / 5) * u + (3 + / 20) * u * V + (1 + / 20) * u))
    with ((((3 + / 20) + (3 + / 20) * V / 2) * ((3 + / 20) + (3 + / 20) * V / 2) + ((4 + / 5) + (3 + / 20) * V + (1 + / 20)) * ((4 + / 5) + (3 + / 20) * V + (1 + / 20))) * (u * u)) by (field; lra).
  apply Rmult_le_compat_r; [nra|]. nra.
Qed.

Lemma fquat_of_rv_err p L t t2 (v : FV p) : libm_ok L -> order 3 t -> order 2 t2 -> vfinite v -> vnorm (vval v) <= bpow radix2 50 ->
  qfinite (fquat_of_rv L t t2 v) /\ qdist (qval (fquat_of_rv L t t2 v)) (rv_quat (vval v)) <= (7 + 4 * vnorm (vval v)) * fu p.
Proof.
  intros HL O O2 Fv HV. pose proof (fu_pos p) as U. pose proof (fu_24 p) as V24. pose proof (fu_53 p) as V53.
  set (V := vnorm (vval v)) in *. assert (V0 : 0 <= V) by apply vn_nonneg.
  destruct (eps4_bounds L p HL) as (Fe & (E1 & E2) & E4). set (E := B2R (leps4 L p)) in *.
  pose proof (bpow_gt_0 radix2 (-14)) as B14. pose proof (bpow_gt_0 radix2 (-40)) as B40.
  destruct (Rlt_or_le V (bpow radix2 (-40))) as [S1|S1].
  - destruct (fvnorm_small p t v O Fv ltac:(fold V; lra)) as (Ft & T0 & T1).
    assert (TL : B2R (fvnorm t v) < E) by (eapply Rle_lt_trans; [exact T1|]; eapply Rle_lt_trans; [|exact E1]; apply bpow_le; lia).
    destruct (rv_real p L (fvnorm t v) HL Ft) as [Fc Ec]. destruct (rv_na_small p t2 (fvnorm t v) O2 Ft ltac:(lra)) as [Fn En].
    unfold fquat_of_rv. rewrite (flt_R p (fvnorm t v) (leps4 L p) Ft Fe). fold E. rewrite Rlt_bool_true by exact TL.
    set (T := B2R (fvnorm t v)) in *.
    assert (B38 : bpow radix2 (-38) * bpow radix2 (-38) = bpow radix2 (-23) * bpow radix2 (-53)) by (rewrite <- !bpow_plus; reflexivity).
    assert (B23 : bpow radix2 (-23) <= / 1000000) by (cbn; lra).
    assert (T2 : T * T <= / 1000000 * fu p).
    { apply Rle_trans with (bpow radix2 (-38) * bpow radix2 (-38)); [nra|]. rewrite B38. apply Rmult_le_compat; try lra; apply bpow_ge_0. }
    assert (VS : V <= bpow radix2 (-38)) by (apply Rlt_le, Rlt_le_trans with (1 := S1); apply bpow_le; lia).
    assert (V2 : V * V <= / 1000000 * fu p).
    { apply Rle_trans with (bpow radix2 (-38) * bpow radix2 (-38)); [nra|]. rewrite B38. apply Rmult_le_compat; try lra; apply bpow_ge_0. }
    assert (VE : V <= / 1000) by (apply Rle_trans with (1 := VS); apply Rle_trans with (bpow radix2 (-23)); [apply bpow_le; lia|lra]).
    pose proof (one_minus_cos (T / 2)) as C1. pose proof (one_minus_cos (V / 2)) as C2. pose proof (COS_bound (T / 2)) as C3. pose proof (COS_bound (V / 2)) as C4.
    assert (CC : Rabs (cos (T / 2) - cos (V / 2)) <= / 1000 * fu p) by (apply Rabs_le; lra).
    assert (SS : V * Rabs (/ 2 - rv_sinc (vval v)) <= / 1000 * fu p).
    { unfold rv_sinc. fold V. destruct (Req_EM_T V 0) as [->|NV]; [rewrite Rmult_0_l; lra|].
      rewrite <- (Rabs_pos_eq V) at 1 by lra. rewrite <- Rabs_mult. replace (V * (/ 2 - sin (V / 2) / V)) with (V / 2 - sin (V / 2)) by (field; exact NV).
      assert (R : 0 <= V / 2 <= PI) by (pose proof PI2_1; lra). pose proof (sin_lo _ R) as X1. pose proof (sin_le_self (V / 2) ltac:(lra)) as X2.
      assert (X3 : (V / 2) ^ 3 / 6 = V * V * (V / 48)) by field. assert (V * V * (V / 48) <= / 1000000 * fu p * 1) by (apply Rmult_le_compat; nra).
      apply Rabs_le. lra. }
    assert (NN : V * Rabs (B2R (fdot t2 [fofZ p 1; fneg (fmul (fvnorm t v) (fvnorm t v))] [fhalf p; flit p 1 48]) - rv_sinc (vval v)) <= / 100 * fu p).
    { apply Rle_trans with (V * ((1 + / 20) * fu p + (T * T / 48 + Rabs (/ 2 - rv_sinc (vval v))))).
      - apply Rmult_le_compat_l; [exact V0|]. eapply Rabs_tri3; [exact En|]. eapply Rabs_tri3; [|apply Rle_refl].
        replace (/ 2 - T * T / 48 - / 2) with (- (T * T / 48)) by ring. rewrite Rabs_Ropp, Rabs_pos_eq; [lra|]. nra.
      - assert (V * ((1 + / 20) * fu p) <= / 1000 * ((1 + / 20) * fu p)) by (apply Rmult_le_compat_r; lra).
        assert (V * (T * T / 48) <= / 1000 * (/ 1000000 * fu p)) by (apply Rmult_le_compat; try lra; nra). lra. }
    set (na := fdot t2 [fofZ p 1; fneg (fmul (fvnorm t v) (fvnorm t v))] [fhalf p; flit p 1 48]) in *.
    destruct (rv_assemble p _ na v ((3 + / 20) * fu p + (3 + / 20) * fu p * V / 2) ((4 + / 5) * fu p + (3 + / 20) * fu p * V) Fc Fn Fv) as [Fq Dq].
    + assert (0 <= fu p * V) by nra. lra.
    + assert (0 <= fu p * V) by nra. lra.
    + fold V. eapply Rle_trans; [eapply Rabs_tri3; [exact Ec|exact CC]|]. assert (0 <= fu p * V) by nra. lra.
    + fold V. eapply Rle_trans; [exact NN|]. assert (0 <= fu p * V) by nra. lra.
    + fold V. apply Rle_trans with (/ 1000 * 1); [|lra]. apply Rmult_le_compat; try lra; [apply Rabs_pos|]. apply Rabs_both in En.
      assert (0 <= T * T) by nra. apply Rabs_le. lra.
    + split; [exact Fq|]. apply (rv_conclude (fu p)); [exact U|exact V0|apply qdist_nonneg|]. exact Dq.
  - destruct (fvnorm_big p t v O Fv) as [Ft Et]; [fold V; lra|]. fold V in Et.
    assert (UV : 0 <= fu p * V <= / 1000000 * V) by nra. apply Rabs_both in Et as Et'.
    destruct (rv_real p L (fvnorm t v) HL Ft) as [Fc Ec].
    unfold fquat_of_rv. rewrite (flt_R p (fvnorm t v) (leps4 L p) Ft Fe). fold E.
    set (T := B2R (fvnorm t v)) in *. assert (VP : 0 < V) by lra. assert (TP : 0 < T) by lra.
    assert (CC : Rabs (cos (T / 2) - cos (V / 2)) <= (3 + / 20) * fu p * V / 2).
    { eapply Rle_trans; [apply cos_lipschitz|]. replace (T / 2 - V / 2) with ((T - V) * / 2) by field. rewrite Rabs_mult, (Rabs_pos_eq (/ 2)) by lra. lra. }
    assert (EC : Rabs (B2R (fcvt p (lcos L F64 (fmul (fcvt F64 (fvnorm t v)) (fhalf F64)))) - cos (V / 2)) <= (3 + / 20) * fu p + (3 + / 20) * fu p * V / 2).
    { eapply Rle_trans; [eapply Rabs_tri3; [exact Ec|exact CC]|]. lra. }
    pose proof (sinc_close V T VP TP) as SC. assert (RS : rv_sinc (vval v) = sin (V / 2) / V).
    { unfold rv_sinc. fold V. destruct (Req_EM_T V 0); [lra|reflexivity]. }
    apply Rle_trans with (2 := Et) in SC. rewrite <- RS in SC.
    destruct (Rlt_or_le T E) as [B|B].
    + rewrite Rlt_bool_true by exact B. destruct (rv_na_small p t2 (fvnorm t v) O2 Ft ltac:(fold T; lra)) as [Fn En]. fold T in En.
      set (na := fdot t2 [fofZ p 1; fneg (fmul (fvnorm t v) (fvnorm t v))] [fhalf p; flit p 1 48]) in *.
      pose proof (series_close T ltac:(lra)) as SR.
      assert (T4 : T ^ 4 <= (2 + / 500) * fu p) by (eapply Rle_trans; [apply (pow_incr T E); lra|exact E4]).
      assert (VS : V <= / 40) by lra.
      assert (NN : V * Rabs (B2R na - rv_sinc (vval v)) <= / 10 * fu p + (3 + / 20) * fu p * V).
      { apply Rle_trans with (V * ((1 + / 20) * fu p + (T ^ 4 / 3840 + Rabs (sin (T / 2) / T - rv_sinc (vval v))))).
        - apply Rmult_le_compat_l; [exact V0|]. eapply Rabs_tri3; [exact En|]. eapply Rabs_tri3; [exact SR|apply Rle_refl].
        - assert (V * ((1 + / 20) * fu p) <= / 40 * ((1 + / 20) * fu p)) by (apply Rmult_le_compat_r; lra).
          assert (V * (T ^ 4 / 3840) <= / 40 * fu p) by (apply Rmult_le_compat; try lra; assert (0 <= T ^ 4) by (apply pow_le; lra); lra). lra. }
      destruct (rv_assemble p _ na v ((3 + / 20) * fu p + (3 + / 20) * fu p * V / 2) ((4 + / 5) * fu p + (3 + / 20) * fu p * V) Fc Fn Fv) as [Fq Dq].
      * lra.
      * lra.
      * exact EC.
      * fold V. lra.
      * fold V. apply Rle_trans with (/ 40 * 1); [|lra]. apply Rmult_le_compat; try lra; [apply Rabs_pos|]. apply Rabs_both in En.
        assert (0 <= T * T <= / 2500) by nra. apply Rabs_le. lra.
      * split; [exact Fq|]. apply (rv_conclude (fu p)); [exact U|exact V0|apply qdist_nonneg|exact Dq].
    + rewrite Rlt_bool_false by exact B.
      destruct (rv_na_large p L (fvnorm t v) V HL Ft ltac:(fold T; lra) ltac:(lra) ltac:(fold T; lra)) as (Fn & En & Nn). fold T in En.
      set (na := fcvt p (fdiv (lsin L F64 (fmul (fcvt F64 (fvnorm t v)) (fhalf F64))) (fcvt F64 (fvnorm t v)))) in *.
      assert (NN : V * Rabs (B2R na - rv_sinc (vval v)) <= (4 + / 5) * fu p + (3 + / 20) * fu p * V).
      { apply Rle_trans with (V * (Rabs (B2R na - sin (T / 2) / T) + Rabs (sin (T / 2) / T - rv_sinc (vval v)))); [|lra].
        apply Rmult_le_compat_l; [exact V0|]. eapply Rabs_tri3; apply Rle_refl. }
      destruct (rv_assemble p _ na v ((3 + / 20) * fu p + (3 + / 20) * fu p * V / 2) ((4 + / 5) * fu p + (3 + / 20) * fu p * V) Fc Fn Fv) as [Fq Dq].
      * lra.
      * lra.
      * exact EC.
      * exact NN.
      * exact Nn.
      * split; [exact Fq|]. apply (rv_conclude (fu p)); [exact U|exact V0|apply qdist_nonneg|exact Dq].
Qed.
