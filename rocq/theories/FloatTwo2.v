(** setFromTwoVectors in floating point: the regular branch. *)
From Coq Require Import ZArith Reals Lra Psatz Bool List Lia Permutation.
From Flocq Require Import IEEE754.BinarySingleNaN Core.Core.
From Verif Require Import Linalg Spec SpecFacts SpecClose ModelCommon ModelEigen CommonFacts CloseFacts SetFacts FloatModel FloatFacts FloatWrap FloatModel2 SpecFloatQ FloatQFacts FloatQProd FloatQRot FloatModel3 SpecLibm FloatBuild FloatBuild3 FloatModel4 FloatModel5 FloatExt FloatExt2 FloatExt3 FloatModel6 FloatModel7 FloatModel10 SpecVecF FloatVec FloatVec2 FloatVec3 FloatVec4 FloatModel11 FloatModel13 SpecTwo FloatTwo.
Import ListNotations.
Local Open Scope R_scope.

(** the exact quaternion *)
Definition half_way (a b : V3) : Quat := let s := sqrt (2 * (1 + vdot a b)) in let n := vscale (/ s) (vcross a b) in mkQ (s / 2) (vx n) (vy n) (vz n).
Lemma half_way_ok a b : vnorm2 a = 1 -> vnorm2 b = 1 -> 0 < 1 + vdot a b -> qnorm (half_way a b) = 1 /\ mvmul (quat_rot (half_way a b)) a = b /\ vnorm (vcross a b) <= sqrt (2 * (1 + vdot a b)).
Proof.
  intros Ha Hb Hc. unfold half_way. cbv zeta. set (c := vdot a b) in *. set (s := sqrt (2 * (1 + c))).
  assert (Sp : 0 < s) by (apply sqrt_lt_R0; lra). assert (Ss : s * s = (1 + c) * 2) by (unfold s; rewrite sqrt_sqrt by lra; ring).
  set (i := / s). assert (Is : i * s = 1) by (unfold i; field; lra). set (q := mkQ _ _ _ _).
  assert (Wq : qw q = s * (1/2)) by (cbn; field). assert (Vq : qvec q = vscale i (vcross a b)) by (unfold q, qvec; destruct a, b; lin).
  assert (Ii : i * i * ((1 + c) * 2) = 1) by (rewrite <- Ss; replace (i * i * (s * s)) with ((i * s) * (i * s)) by ring; rewrite Is; ring).
  assert (N2 : vnorm2 (qvec q) = (1 - c) / 2).
  { rewrite Vq, vnorm2_vscale, lagrange, Ha, Hb. fold c. replace (i * i * (1 * 1 - c * c)) with (i * i * ((1 + c) * 2) * ((1 - c) / 2)) by field. rewrite Ii. ring. }
  assert (LC : c <= 1). { unfold c. pose proof (cauchy_schwarz a b). assert (A1 : vnorm a = 1) by now apply vnorm_unit. assert (B1 : vnorm b = 1) by now apply vnorm_unit. rewrite A1, B1 in H. lra. }
  split; [|split].
  - unfold qnorm. rewrite qnorm2_vec, N2, Wq. replace (s * (1/2) * (s * (1/2)) + (1 - c) / 2) with 1; [apply sqrt_1|]. replace (s * (1/2) * (s * (1/2))) with (s * s / 4) by field. rewrite Ss. field.
  - rewrite sandwich_formula, N2, Wq. replace (s * (1/2) * (s * (1/2)) - (1 - c) / 2) with c.
    2:{ replace (s * (1/2) * (s * (1/2))) with (s * s / 4) by field. rewrite Ss. field. }
    rewrite Vq. replace (vdot (vscale i (vcross a b)) a) with 0 by (generalize i; intro; destruct a, b; lin).
    replace (vcross (vscale i (vcross a b)) a) with (vscale i (vsub b (vscale c a))).
    2:{ unfold c. generalize i. intro j. replace (vcross (vscale j (vcross a b)) a) with (vscale j (vsub (vscale (vnorm2 a) b) (vscale (vdot a b) a))) by (destruct a, b; lin). rewrite Ha. destruct a, b; lin. }
    replace (vscale (2 * (s * (1/2))) (vscale i (vsub b (vscale c a)))) with (vscale (i * s) (vsub b (vscale c a))) by (generalize i s c; intros; destruct a, b; lin; field).
    rewrite Is. generalize c (vscale i (vcross a b)). intros c' v. destruct a, b, v; lin.
  - apply vnorm_le_sq; [lra|]. rewrite lagrange, Ha, Hb. fold c. rewrite Ss. nra.
Qed.

Lemma split_diff i k (x n : V3) : vsub (vscale i x) (vscale k n) = vadd (vscale i (vsub x n)) (vscale (i - k) n).
Proof. lin. Qed.
Section Pert.
Variables (u h s0 s i w : R) (n0 ax vec : V3).
Hypotheses (U : 0 < u) (V : u <= / 16777216) (HH : 153 * u <= h <= 2) (S0 : 0 <= s0) (SS : s0 * s0 = 2 * h) (Hn : vnorm n0 <= s0) (Hx : vdist ax n0 <= 13 * u)
  (Hs : 0 < s) (Hss : Rabs (s * s - s0 * s0) <= 40 * u) (Hi : Rabs (i - / s) <= 2 * u * / s) (Hv : vdist vec (vscale i ax) <= u * (Rabs i * vnorm ax) + u) (Hw : Rabs (w - s / 2) <= u).
Lemma two_pert : Rabs (w - s0 / 2) + vdist vec (vscale (/ s0) n0) <= 48 * u / h.
Proof.
  set (r := u / h). assert (h0 : 0 < h) by lra. assert (Er : u = r * h) by (unfold r; field; lra). replace (48 * u / h) with (48 * r) by (unfold r; field; lra).
  assert (r0 : 0 < r) by (unfold r; apply Rdiv_lt_0_compat; lra).
  assert (r1 : r <= / 153). { apply Rmult_le_reg_r with h; [exact h0|]. rewrite <- Er. lra. }
  assert (P0 : 0 < s0). { destruct S0 as [K|K]; [exact K|]. rewrite <- K in SS. lra. }
  assert (s02 : s0 <= 2) by (apply sq_le_le; lra).
  assert (u2 : u <= 2 * r) by (rewrite Er, Rmult_comm; apply Rmult_le_compat_r; lra).
  assert (Hss' : Rabs (s * s - s0 * s0) <= 20 * r * (s0 * s0)) by (rewrite SS at 2; rewrite Er in Hss; lra).
  assert (rs : 20 * r * (s0 * s0) <= 131/1000 * (s0 * s0)) by (apply Rmult_le_compat_r; [apply Rle_0_sqr|lra]).
  assert (Lo : 93/100 * s0 <= s).
  { apply sq_le_le; [lra|]. apply Rabs_both in Hss'. replace (93/100 * s0 * (93/100 * s0)) with (8649/10000 * (s0 * s0)) by field. lra. }
  assert (Ds : Rabs (s - s0) <= 104/10 * r * s0).
  { apply Rmult_le_reg_r with (s + s0); [lra|]. rewrite <- (Rabs_pos_eq (s + s0)) at 1 by lra. rewrite <- Rabs_mult. replace ((s - s0) * (s + s0)) with (s * s - s0 * s0) by ring. eapply Rle_trans; [exact Hss'|].
    replace (104/10 * r * s0 * (s + s0)) with (104/10 * (r * (s0 * (s + s0)))) by ring. assert (r * (s0 * (193/100 * s0)) <= r * (s0 * (s + s0))) by (apply Rmult_le_compat_l; [lra|]; apply Rmult_le_compat_l; lra).
    assert (0 <= r * (s0 * s0)) by (apply Rmult_le_pos; [lra|apply Rle_0_sqr]). lra. }
  assert (Dw : Rabs (w - s0 / 2) <= 124/10 * r).
  { replace (w - s0 / 2) with ((w - s / 2) + (s - s0) / 2) by field. eapply Rle_trans; [apply Rabs_triang|]. unfold Rdiv at 2. rewrite Rabs_mult, (Rabs_pos_eq (/ 2)) by lra.
    assert (104/10 * r * s0 <= 104/10 * r * 2) by (apply Rmult_le_compat_l; lra). lra. }
  set (k := / s0). assert (kp : 0 < k) by (apply Rinv_0_lt_compat; lra). assert (ks : k * s0 = 1) by (unfold k; field; lra).
  set (j := / s) in *. assert (jp : 0 < j) by (apply Rinv_0_lt_compat; lra). assert (js : j * s = 1) by (unfold j; field; lra).
  assert (jk : j <= 1076/1000 * k).
  { apply Rmult_le_reg_r with s; [lra|]. rewrite js. apply Rle_trans with (1076/1000 * k * (93/100 * s0)); [|apply Rmult_le_compat_l; lra]. replace (1076/1000 * k * (93/100 * s0)) with (1076/1000 * (93/100) * (k * s0)) by ring. rewrite ks. lra. }
  assert (uk : u * k <= r). { rewrite Er. replace (r * h * k) with (r * (s0 * s0 / 2) * k) by (rewrite SS; field). replace (r * (s0 * s0 / 2) * k) with (r * (s0 / 2) * (k * s0)) by field. rewrite ks. assert (r * (s0 / 2) <= r * 1) by (apply Rmult_le_compat_l; lra). lra. }
  assert (ij : Rabs i <= 1077/1000 * k).
  { replace i with ((i - j) + j) by ring. eapply Rle_trans; [apply Rabs_triang|]. rewrite (Rabs_pos_eq j) by lra. assert (2 * u * j <= / 1000000 * j) by (apply Rmult_le_compat_r; lra). lra. }
  assert (Dj : Rabs (j - k) <= 112/10 * r * k).
  { replace (j - k) with (- ((s - s0) * (j * k))).
    2:{ unfold j, k. field. split; lra. }
    rewrite Rabs_Ropp, Rabs_mult, (Rabs_pos_eq (j * k)) by (apply Rmult_le_pos; lra). apply Rle_trans with (104/10 * r * s0 * (1076/1000 * k * k)).
    - apply Rmult_le_compat; [apply Rabs_pos|apply Rmult_le_pos; lra|exact Ds|apply Rmult_le_compat_r; lra].
    - replace (104/10 * r * s0 * (1076/1000 * k * k)) with (104/10 * (1076/1000) * (r * k) * (k * s0)) by ring. rewrite ks. assert (0 <= r * k) by (apply Rmult_le_pos; lra). lra. }
  assert (Di : Rabs (i - k) <= (216/100 * u + 112/10 * r) * k).
  { replace (i - k) with ((i - j) + (j - k)) by ring. eapply Rle_trans; [apply Rabs_triang|]. assert (u * j <= u * (1076/1000 * k)) by (apply Rmult_le_compat_l; lra).
    assert (0 <= u * k) by (apply Rmult_le_pos; lra). lra. }
  assert (Dv : vdist (vscale i ax) (vscale k n0) <= 14001/1000 * r + (216/100 * u + 112/10 * r)).
  { unfold vdist in *. rewrite split_diff. eapply Rle_trans; [apply vnorm_triang|]. rewrite !vnorm_vscale. apply Rplus_le_compat.
    - apply Rle_trans with (1077/1000 * k * (13 * u)); [apply Rmult_le_compat; try apply Rabs_pos; try apply vn_nonneg; assumption|]. replace (1077/1000 * k * (13 * u)) with (14001/1000 * (u * k)) by field. lra.
    - apply Rle_trans with ((216/100 * u + 112/10 * r) * k * s0); [apply Rmult_le_compat; try apply Rabs_pos; try apply vn_nonneg; assumption|]. rewrite Rmult_assoc, ks. lra. }
  assert (Na : vnorm ax <= s0 + 13 * u) by (unfold vdist in Hx; pose proof (vnorm_le_add _ _ _ Hx); lra).
  assert (Ni : Rabs i * vnorm ax <= 12/10).
  { apply Rle_trans with (1077/1000 * k * (s0 + 13 * u)); [apply Rmult_le_compat; try apply Rabs_pos; try apply vn_nonneg; assumption|].
    replace (1077/1000 * k * (s0 + 13 * u)) with (1077/1000 * (k * s0) + 14001/1000 * (u * k)) by field. rewrite ks. lra. }
  assert (u * (Rabs i * vnorm ax) <= u * (12/10)) by (apply Rmult_le_compat_l; lra).
  pose proof (vnorm_sub_triang vec (vscale i ax) (vscale k n0)) as T. unfold vdist in *. lra.
Qed.
End Pert.

Lemma fdouble_r p (a : fl p) : is_finite a = true -> Rabs (B2R a) <= bpow radix2 100 ->
  is_finite (fmul a (fofZ p 2)) = true /\ B2R (fmul a (fofZ p 2)) = 2 * B2R a.
Proof.
  intros F H. destruct (fofZ2 p) as [F2 V2]. destruct (fmul_R p a (fofZ p 2) F F2) as [R Fr].
  - rewrite V2, Rmult_comm, Rabs_mult, (Rabs_pos_eq 2) by lra. apply Rle_trans with (bpow radix2 1 * bpow radix2 100); [change (bpow radix2 1) with 2; lra|].
    rewrite <- bpow_plus. apply bpow_le. destruct p; vm_compute; discriminate.
  - split; [exact Fr|]. rewrite R, V2, Rmult_comm. apply rnd_id, fmt_double, fmt_B2R.
Qed.
Lemma bpow100_big : 1000000 * 1000000 <= bpow radix2 100.
Proof. apply Rle_trans with (bpow radix2 40); [cbn; lra|apply bpow_le; lia]. Qed.
Lemma inv_u_big p : 10 / fu p <= bpow radix2 100.
Proof.
  pose proof (fu_53 p) as H. pose proof (fu_pos p). apply Rmult_le_reg_r with (fu p); [lra|]. unfold Rdiv. rewrite Rmult_assoc, Rinv_l by lra.
  apply Rle_trans with (bpow radix2 100 * bpow radix2 (-53)); [rewrite <- bpow_plus; apply Rle_trans with (bpow radix2 4); [cbn; lra|apply bpow_le; lia]|].
  apply Rmult_le_compat_l; [apply bpow_ge_0|exact H].
Qed.

(** s = sqrt((1 + c) * 2), invs = 1 / s, w = s / 2 *)
Lemma regular_scalars p (c : fl p) h : is_finite c = true -> 166 * fu p <= 1 + B2R c <= 2 + / 1000 -> 153 * fu p <= h <= 2 -> Rabs (1 + B2R c - h) <= 13 * fu p ->
  let s := fsqrt (fmul (fadd (fofZ p 1) c) (fofZ p 2)) in let i := fdiv (fofZ p 1) s in let w := fmul s (fhalf p) in
  is_finite s = true /\ is_finite i = true /\ is_finite w = true /\ 0 < B2R s <= 21/10 /\ Rabs (B2R s * B2R s - 2 * h) <= 40 * fu p /\
  Rabs (B2R i - / B2R s) <= 2 * fu p * / B2R s /\ Rabs (B2R w - B2R s / 2) <= fu p /\ Rabs (B2R i) <= bpow radix2 90.
Proof.
  intros F B H E. cbv zeta. pose proof (fu_pos p) as U. pose proof (fu_24 p) as V. pose proof (eta5_u p) as E5. pose proof (eta_pos p) as E0. destruct (fofZ1 p) as [F1 V1].
  destruct (fadd_R p (fofZ p 1) c F1 F) as [Ra Fa]. { rewrite V1, Rabs_pos_eq by lra. pose proof (four_fbig p). lra. }
  set (A := fadd (fofZ p 1) c) in *. rewrite V1 in Ra. assert (EA : Rabs (B2R A - (1 + B2R c)) <= fu p * (1 + B2R c)).
  { rewrite Ra. rewrite <- (Rabs_pos_eq (1 + B2R c)) at 3 by lra. apply rnd_add_err; [rewrite <- V1|]; apply fmt_B2R. }
  assert (EA' : Rabs (B2R A - (1 + B2R c)) <= 2002/1000 * fu p). { eapply Rle_trans; [exact EA|]. rewrite (Rmult_comm (2002/1000)). apply Rmult_le_compat_l; lra. }
  apply Rabs_both in EA. apply Rabs_both in EA'.
  assert (LA : 160 * fu p <= B2R A <= 201/100) by lra.
  destruct (fdouble_r p A Fa) as [Fd Vd]. { rewrite Rabs_pos_eq by lra. pose proof bpow100_big. lra. }
  set (D := fmul A (fofZ p 2)) in *.
  destruct (fsqrt_R p D Fd) as [Fs Rs]; [lra|]. set (s := fsqrt D) in *.
  set (r := sqrt (B2R D)). assert (rr : r * r = B2R D) by (unfold r; apply sqrt_sqrt; lra).
  assert (rp : 0 <= r) by apply sqrt_pos.
  assert (r2 : r <= 201/100) by (apply sq_le_le; lra).
  assert (ru : 10 * fu p <= r). { apply sq_le_le; [exact rp|]. rewrite rr. assert (fu p * fu p <= fu p * 1) by (apply Rmult_le_compat_l; lra). lra. }
  pose proof (rnd_err_le p r) as Es. fold r in Rs. rewrite <- Rs in Es. rewrite (Rabs_pos_eq r) in Es by exact rp.
  assert (u1 : fu p * r <= / 16777216 * r) by (apply Rmult_le_compat_r; lra).
  assert (u2 : fu p * r <= fu p * (201/100)) by (apply Rmult_le_compat_l; lra).
  assert (Es' : Rabs (B2R s - r) <= 2011/1000 * fu p) by lra. apply Rabs_both in Es.
  assert (sp : 9 * fu p <= B2R s) by lra. assert (s3 : B2R s <= 2011/1000) by lra.
  assert (Ess : Rabs (B2R s * B2R s - B2R D) <= 81/10 * fu p).
  { rewrite <- rr. replace (B2R s * B2R s - r * r) with ((B2R s - r) * (B2R s + r)) by ring. rewrite Rabs_mult, (Rabs_pos_eq (B2R s + r)) by lra.
    apply Rle_trans with (2011/1000 * fu p * (2011/1000 + 201/100)); [apply Rmult_le_compat; try apply Rabs_pos; try lra; exact Es'|]. lra. }
  set (K := / B2R s). assert (Kp : 0 < K) by (apply Rinv_0_lt_compat; lra). assert (Ks : K * B2R s = 1) by (unfold K; field; lra).
  assert (Kl : 4/10 <= K). { apply Rmult_le_reg_r with (B2R s); [lra|]. rewrite Ks. lra. }
  assert (Ku : K <= / fu p). { unfold K. apply Rinv_le; lra. }
  assert (Kb : K <= bpow radix2 90).
  { eapply Rle_trans; [exact Ku|]. replace (bpow radix2 90) with (/ bpow radix2 (-90)) by (rewrite <- bpow_opp; reflexivity). apply Rinv_le; [apply bpow_gt_0|]. eapply Rle_trans; [|apply fu_53]. apply bpow_le. lia. }
  destruct (fdiv_R p (fofZ p 1) s F1) as [Ri Fi]; [lra| |].
  { rewrite V1. unfold Rdiv. rewrite Rmult_1_l. fold K. rewrite Rabs_pos_eq by lra. eapply Rle_trans; [exact Kb|]. eapply Rle_trans; [|apply bpow100_fbig]. apply bpow_le. lia. }
  rewrite V1 in Ri. unfold Rdiv in Ri. rewrite Rmult_1_l in Ri. fold K in Ri. set (i := fdiv (fofZ p 1) s) in *.
  pose proof (rnd_err_le p K) as Ei. rewrite <- Ri, (Rabs_pos_eq K) in Ei by lra.
  assert (fu p * (4/10) <= fu p * K) by (apply Rmult_le_compat_l; lra).
  destruct (fhalf_R p) as [Fh Vh].
  destruct (fmul_R p s (fhalf p) Fs Fh) as [Rw Fw]. { rewrite Vh, Rabs_pos_eq by lra. pose proof (four_fbig p). lra. }
  rewrite Vh in Rw. fold (B2R s / 2) in Rw. pose proof (rnd_half p (B2R s) (fmt_B2R p s)) as Ew. rewrite <- Rw in Ew.
  repeat split; try assumption; try lra.
  - apply Rabs_both in Ess. apply Rabs_both in E. apply Rabs_le. lra.
  - rewrite Ri. apply rnd_abs_le; [destruct p; vm_compute; discriminate|]. rewrite Rabs_pos_eq by lra. exact Kb.
Qed.

(** a vector times a number *)
Lemma scale_err p (x : FV p) (i : fl p) : vfinite x -> is_finite i = true -> vnorm (vval x) <= 4 -> Rabs (B2R i) <= bpow radix2 90 ->
  let v := mkFV (fmul (gx x) i) (fmul (gy x) i) (fmul (gz x) i) in
  vfinite v /\ vdist (vval v) (vscale (B2R i) (vval x)) <= fu p * (Rabs (B2R i) * vnorm (vval x)) + / 2 * fu p.
Proof.
  intros (F0 & F1 & F2) Fi N I. cbv zeta. pose proof (fu_pos p) as U. pose proof (eta5_u p) as E5. pose proof (eta_pos p) as E0.
  assert (L : forall z, is_finite z = true -> Rabs (B2R z) <= 4 -> is_finite (fmul z i) = true /\ Rabs (B2R (fmul z i) - B2R i * B2R z) <= fu p * Rabs (B2R i * B2R z) + eta p).
  { intros z Fz Z. destruct (fmul_R p z i Fz Fi) as [R F].
    - rewrite Rabs_mult. eapply Rle_trans; [|apply bpow100_fbig]. apply Rle_trans with (bpow radix2 2 * bpow radix2 90); [apply Rmult_le_compat; try apply Rabs_pos; [exact Z|exact I]|]. rewrite <- bpow_plus. apply bpow_le. lia.
    - split; [exact F|]. rewrite R, (Rmult_comm (B2R z)). apply rnd_err_le. }
  assert (Z : forall z, (z = gx x \/ z = gy x \/ z = gz x) -> Rabs (B2R z) <= 4).
  { intros z Hz. apply Rle_trans with (vnorm (vval x)); [|exact N]. pose proof (vn_nonneg (vval x)). pose proof (vnorm_sq (vval x)) as Q. assert (Q2 : vnorm2 (vval x) = B2R (gx x) * B2R (gx x) + B2R (gy x) * B2R (gy x) + B2R (gz x) * B2R (gz x)) by reflexivity. rewrite Q2 in Q.
    apply sq_le_le; [assumption|]. rewrite <- Rabs_mult, Rabs_pos_eq by apply Rle_0_sqr. rewrite Q.
    pose proof (Rle_0_sqr (B2R (gx x))). pose proof (Rle_0_sqr (B2R (gy x))). pose proof (Rle_0_sqr (B2R (gz x))). unfold Rsqr in *. destruct Hz as [ -> | [ -> | -> ]]; lra. }
  destruct (L _ F0 (Z _ (or_introl eq_refl))) as [G0 E00]. destruct (L _ F1 (Z _ (or_intror (or_introl eq_refl)))) as [G1 E1]. destruct (L _ F2 (Z _ (or_intror (or_intror eq_refl)))) as [G2 E2].
  split; [split; [exact G0|split; [exact G1|exact G2]]|].
  assert (D := vec_rel_err (vval (mkFV (fmul (gx x) i) (fmul (gy x) i) (fmul (gz x) i))) (vscale (B2R i) (vval x)) (fu p) (eta p) ltac:(lra) ltac:(lra) E00 E1 E2).
  rewrite vnorm_vscale in D. lra.
Qed.

Definition tv_regular {p} (o : tv_choices) (a b : FV p) : bool :=
  negb (flt (fdot (tv_dot o) (flist (fvnormalized (tv_norm2 o) (tv_div o) b)) (flist (fvnormalized (tv_norm1 o) (tv_div o) a))) (fadd (fofZ p (-1)) (fdummy p))).

Lemma two_regular p svd (o : tv_choices) (a b : FV p) : tv_ok o -> vfinite a -> vfinite b -> ordinary (vval a) -> ordinary (vval b) -> tv_regular o a b = true ->
  let ua := udir (vval a) in let ub := udir (vval b) in let h := 1 + vdot ua ub in
  153 * fu p <= h <= 2 /\ B2R (fdummy p) - 14 * fu p <= h /\ qfinite (ftwo_vectors svd o a b) /\ qdist (qval (ftwo_vectors svd o a b)) (half_way ua ub) <= 48 * fu p / h.
Proof.
  intros O Fa Fb Na Nb Reg. cbv zeta. unfold tv_regular in Reg. apply Bool.negb_true_iff in Reg.
  pose proof (fu_pos p) as U. pose proof (fu_24 p) as V.
  destruct (branch_regular p o a b O Fa Fb Na Nb Reg) as (B1 & B2 & B3). destruct (common_dot p o a b O Fa Fb Na Nb) as [Fc Ec]. destruct (common_cross p o a b O Fa Fb Na Nb) as [Fx Ex].
  destruct (udir_unit _ Na) as [A2 A1]. destruct (udir_unit _ Nb) as [C2 C1].
  unfold ftwo_vectors. cbv zeta. rewrite Reg. set (ua := udir (vval a)) in *. set (ub := udir (vval b)) in *.
  set (c := fdot _ _ _) in *. set (x := fv_cross _ _ _) in *.
  split; [exact B2|]. split; [exact B3|].
  destruct (regular_scalars p c (1 + vdot ua ub) Fc B1 B2) as (Fs & Fi & Fw & Sp & Ss & Ei & Ew & Ib). { replace (1 + B2R c - (1 + vdot ua ub)) with (B2R c - vdot ua ub) by ring. exact Ec. }
  set (s := fsqrt _) in *. set (i := fdiv _ _) in *. set (w := fmul s _) in *.
  destruct (half_way_ok ua ub A2 C2 ltac:(lra)) as (_ & _ & Hn). set (s0 := sqrt (2 * (1 + vdot ua ub))) in *.
  assert (S0 : 0 <= s0) by apply sqrt_pos. assert (SS : s0 * s0 = 2 * (1 + vdot ua ub)) by (unfold s0; apply sqrt_sqrt; lra). assert (s02 : s0 <= 2) by (apply sq_le_le; lra).
  assert (Nx : vnorm (vval x) <= 4). { unfold vdist in Ex. pose proof (vnorm_le_add _ _ _ Ex). lra. }
  destruct (scale_err p x i Fx Fi Nx Ib) as [Fv Ev]. set (v := mkFV _ _ _) in *.
  split.
  { destruct Fv as (G0 & G1 & G2). split; [exact Fw|]. split; [exact G0|]. split; [exact G1|exact G2]. }
  rewrite <- SS in Ss.
  pose proof (two_pert (fu p) (1 + vdot ua ub) s0 (B2R s) (B2R i) (B2R w) (vcross ua ub) (vval x) (vval v) U V B2 S0 SS Hn Ex (proj1 Sp) Ss Ei ltac:(lra) Ew) as T.
  apply sq_le_le.
  { unfold Rdiv. apply Rmult_le_pos; [lra|]. apply Rlt_le, Rinv_0_lt_compat. lra. }
  unfold qdist. eapply Rle_trans.
  - eapply (qdist_parts _ _ (B2R w) (vval v) (s0 / 2) (vscale (/ s0) (vcross ua ub))); [reflexivity|reflexivity|reflexivity|reflexivity|apply Rle_refl|apply Rle_refl].
  - set (d := Rabs (B2R w - s0 / 2)) in *. set (e := vdist (vval v) (vscale (/ s0) (vcross ua ub))) in *. set (m := 48 * fu p / (1 + vdot ua ub)) in *.
    assert (0 <= d) by apply Rabs_pos. assert (0 <= e) by apply vn_nonneg. apply Rle_trans with ((d + e) * (d + e)); [nra|]. apply Rmult_le_compat; lra.
Qed.
