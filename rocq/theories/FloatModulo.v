(** floatingPointModulo with rounding: range and accuracy. *)
From Coq Require Import ZArith Reals Lra Psatz Bool Lia.
From Flocq Require Import IEEE754.BinarySingleNaN Core.Core.
Require Import Flocq.Prop.Relative Flocq.Prop.Plus_error.
From Verif Require Import ModelCommon FloatModel FloatFacts.
Local Open Scope R_scope.

(** ** real-number image of the floating-point computation *)
Definition mod_n (p : prim) (x y : R) : Z := Zfloor (rnd p (x / y)).
Definition mod_prod (p : prim) (ev : evaluation) (y : R) (n : Z) : R :=
  match ev with InType => rnd p (y * IZR n) | FloorDouble => rnd F64 (y * IZR n) | Fused => y * IZR n end.
Definition mod_prim (p : prim) (ev : evaluation) : prim := match ev with FloorDouble => F64 | _ => p end.
Definition mod_m (p : prim) (ev : evaluation) (x y : R) : R :=
  rnd (mod_prim p ev) (x - mod_prod p ev y (mod_n p x y)).
Definition modR_pos (p : prim) (ev : evaluation) (x y : R) : R :=
  let m := mod_m p ev x y in
  if Rle_bool y m then 0 else
  if Rlt_bool m 0 then (if Req_bool (rnd F64 (y + m)) y then 0 else rnd p (rnd F64 (y + m)))
  else rnd p m.
Definition modR_neg (p : prim) (ev : evaluation) (x y : R) : R :=
  let m := mod_m p ev x y in
  if Rle_bool m y then 0 else
  if Rlt_bool 0 m then (if Req_bool (rnd F64 (y + m)) y then 0 else rnd p (rnd F64 (y + m)))
  else rnd p m.

(** ** constants *)
Lemma fu_small p : fu p <= / 1000.
Proof. unfold fu. destruct p; cbn; lra. Qed.
Lemma fu64_le p : fu F64 <= fu p.
Proof. unfold fu. apply bpow_le. destruct p; cbn; lia. Qed.
Lemma h_small p : / 2 * bpow radix2 (femin p) <= fu F64 * fu F64.
Proof.
  unfold fu. rewrite <- bpow_plus.
  apply Rle_trans with (bpow radix2 (femin p)); [pose proof (bpow_gt_0 radix2 (femin p)); lra|].
  apply bpow_le. destruct p; unfold femin; cbn; lia.
Qed.
Lemma femin64 p : (femin F64 <= femin p)%Z.
Proof. destruct p; unfold femin; cbn; lia. Qed.
Lemma femin_mod_prim p ev : (femin (mod_prim p ev) <= femin p)%Z.
Proof. destruct ev; cbn [mod_prim]; [lia|apply femin64|lia]. Qed.
Lemma fu_mod_prim p ev : fu (mod_prim p ev) <= fu p.
Proof. destruct ev; cbn [mod_prim]; [lra|apply fu64_le|lra]. Qed.
Lemma fmt_mod_prim p ev x : ffmt p x -> ffmt (mod_prim p ev) x.
Proof. destruct ev; cbn [mod_prim]; [tauto|apply fmt_widen|tauto]. Qed.

Lemma rnd_err_multiple p (k e : Z) : (femin p <= e)%Z ->
  Rabs (rnd p (IZR k * bpow radix2 e) - IZR k * bpow radix2 e) <= fu p * Rabs (IZR k * bpow radix2 e).
Proof.
  intro He.
  assert (E : IZR k * bpow radix2 e = F2R (Float radix2 (k * radix2 ^ (e - femin p)) (femin p))).
  { unfold F2R. cbn [Fnum Fexp]. rewrite mult_IZR, (IZR_Zpower radix2 (e - femin p)) by lia.
    rewrite Rmult_assoc, <- bpow_plus. do 2 f_equal. ring. }
  rewrite E. rewrite <- (half_bpow p).
  apply (relative_error_N_FLT_F2R_emin radix2 (femin p) (fprec p) (fprec_pos p)).
Qed.

(** x is a multiple of 2^e if its own exponent is at least e *)
Lemma multiple_of p x e : ffmt p x -> (e <= cexp radix2 (ffexp p) x)%Z -> exists k, x = IZR k * bpow radix2 e.
Proof.
  intros F H. destruct (fmt_scaled p x F) as (m & c & E & _ & Ec). rewrite <- Ec in H.
  exists (m * radix2 ^ (c - e))%Z. rewrite mult_IZR, (IZR_Zpower radix2 (c - e)) by lia.
  rewrite Rmult_assoc, <- bpow_plus, E. do 2 f_equal. ring.
Qed.

Lemma small_terms u t y : 0 < u <= / 1000 -> 0 <= t -> 0 < y ->
  0 < u * y <= / 1000 * y /\ 0 <= u * u * y <= / 1000 * (u * y) /\ 0 <= u * t <= / 1000 * t /\ 0 <= u * u * u * y <= / 1000 * (u * y).
Proof.
  intros [U0 U1] T Y. assert (0 < u * y) by nra. assert (u * u * y <= / 1000 * (u * y)) by nra. assert (0 <= u * u * y) by nra.
  assert (u * (u * u * y) <= 1 * (u * u * y)) by (apply Rmult_le_compat_r; lra). assert (0 <= u * (u * u * y)) by nra.
  assert (E : u * (u * u * y) = u * u * u * y) by ring. rewrite E in *. repeat split; nra.
Qed.

Section Positive.
Variables (p : prim) (ev : evaluation) (x y : R).
Hypothesis Fx : ffmt p x.
Hypothesis Fy : ffmt p y.
Hypothesis Hy : 0 < y.
Hypothesis Hx : Rabs x <= bpow radix2 (fprec p - 2) * y.

Let u := fu p.
Let q := rnd p (x / y).
Let n := mod_n p x y.
Let P := mod_prod p ev y n.
Let pm := mod_prim p ev.
Let D := x - P.
Let m := mod_m p ev x y.
Let e := cexp radix2 (ffexp p) y.
Let t := u * Rabs x.

Lemma mp_u : 0 < u <= / 1000.
Proof. split; [apply fu_pos|apply fu_small]. Qed.
Lemma mp_t : 0 <= t <= y / 4.
Proof.
  pose proof mp_u as [U _]. unfold t. split; [apply Rmult_le_pos; [lra|apply Rabs_pos]|].
  apply Rle_trans with (u * (bpow radix2 (fprec p - 2) * y)); [apply Rmult_le_compat_l; lra|].
  unfold u, fu. rewrite <- Rmult_assoc, <- bpow_plus. replace (- fprec p + (fprec p - 2))%Z with (-2)%Z by ring.
  change (bpow radix2 (-2)) with (/ 4). lra.
Qed.
Lemma mp_e : (femin p <= e)%Z.
Proof. unfold e, cexp, ffexp, FLT_exp. lia. Qed.

Lemma mp_q : Rabs (y * q - x) <= t + u * u * y.
Proof.
  destruct (rnd_err p (x / y)) as (eps & eta & H1 & H2 & H3).
  unfold q. rewrite H3. replace (y * (x / y * (1 + eps) + eta) - x) with (eps * x + eta * y) by (field; lra).
  apply Rle_trans with (1 := Rabs_triang _ _). rewrite !Rabs_mult, (Rabs_pos_eq y) by lra.
  pose proof (h_small p). pose proof (fu64_le p) as UL. pose proof (fu_pos F64). fold u in UL, H1.
  assert (fu F64 * fu F64 <= u * u) by nra.
  apply Rplus_le_compat; [unfold t; apply Rmult_le_compat_r; [apply Rabs_pos|exact H1]|].
  apply Rmult_le_compat_r; lra.
Qed.
Lemma mp_floor : IZR n <= q < IZR n + 1.
Proof. unfold n, mod_n. fold q. split; [apply Zfloor_lb|apply Zfloor_ub]. Qed.

Lemma mp_low : - t - u * u * y <= x - y * IZR n.
Proof.
  pose proof mp_q as Q. pose proof mp_floor as [F _]. apply Rabs_le_inv in Q || idtac.
  assert (y * IZR n <= y * q) by (apply Rmult_le_compat_l; lra).
  pose proof (Rle_abs (y * q - x)). lra.
Qed.
Lemma mp_high : x - y * IZR n <= y + t + u * u * y.
Proof.
  pose proof mp_q as Q. pose proof mp_floor as [_ F].
  assert (y * q <= y * (IZR n + 1)) by (apply Rmult_le_compat_l; lra).
  pose proof (Rle_abs (- (y * q - x))) as A. rewrite Rabs_Ropp in A. lra.
Qed.
Lemma mp_yn : Rabs (y * IZR n) <= Rabs x + t + y + u * u * y.
Proof.
  pose proof mp_low. pose proof mp_high. pose proof mp_t. pose proof mp_u.
  replace (y * IZR n) with (x - (x - y * IZR n)) by ring.
  apply Rle_trans with (1 := Rabs_triang _ _). rewrite Rabs_Ropp.
  assert (Rabs (x - y * IZR n) <= y + t + u * u * y) by (apply Rabs_le; nra). lra.
Qed.
Lemma mp_uyn : u * Rabs (y * IZR n) <= t + u * t + u * y + u * u * u * y.
Proof.
  pose proof mp_yn. pose proof mp_u. unfold t at 1. nra.
Qed.
Lemma mp_P : Rabs (P - y * IZR n) <= u * Rabs (y * IZR n).
Proof.
  unfold P, mod_prod. destruct ev.
  - apply rnd_mult_int_err. exact Fy.
  - apply Rle_trans with (fu F64 * Rabs (y * IZR n)).
    + apply rnd_mult_int_err. now apply fmt_widen with p.
    + apply Rmult_le_compat_r; [apply Rabs_pos|apply fu64_le].
  - rewrite Rminus_diag_eq by reflexivity. rewrite Rabs_R0. apply Rmult_le_pos; [pose proof mp_u; lra|apply Rabs_pos].
Qed.
Lemma mp_P_mult : exists k, P = IZR k * bpow radix2 e.
Proof.
  destruct (multiple_of p y e Fy ltac:(unfold e; lia)) as [ky Ey].
  assert (E : y * IZR n = IZR (ky * n) * bpow radix2 e) by (rewrite mult_IZR; rewrite Ey at 1; ring).
  unfold P, mod_prod. rewrite E. destruct ev.
  - apply rnd_multiple, mp_e.
  - apply rnd_multiple. pose proof mp_e. pose proof (femin64 p). lia.
  - now exists (ky * n)%Z.
Qed.
Lemma mp_P_neg : (n <= -1)%Z -> P <= - y.
Proof.
  intro Hn. assert (IZR n <= -1) by (apply IZR_le; lia). assert (L : y * IZR n <= - y) by nra.
  unfold P, mod_prod. destruct ev; [apply rnd_le_fmt|apply rnd_le_fmt|exact L]; try exact L.
  - apply fmt_opp. exact Fy.
  - apply fmt_opp. now apply fmt_widen with p.
Qed.
Lemma mp_P_0 : n = 0%Z -> P = 0.
Proof. intro Hn. unfold P, mod_prod. rewrite Hn, Rmult_0_r. destruct ev; rewrite ?rnd_0; reflexivity. Qed.

(** n >= 1 only if x >= y *)
Lemma mp_ge : (1 <= n)%Z -> y <= x.
Proof.
  intro Hn. destruct (Rle_or_lt y x) as [|L]; [assumption|exfalso].
  pose proof mp_floor as [F _]. assert (1 <= IZR n) by (apply IZR_le; lia).
  assert (Q : 1 <= q) by lra.
  assert (H2 : / 2 <= x / y).
  { destruct (Rle_or_lt (/ 2) (x / y)) as [|C]; [assumption|exfalso].
    assert (q <= / 2); [|lra]. unfold q. apply rnd_le_fmt; [|lra].
    change (/ 2) with (bpow radix2 (-1)). apply fmt_bpow. destruct p; unfold femin; cbn; lia. }
  assert (X : 0 < x).
  { replace x with (x / y * y) by (field; lra). apply Rmult_lt_0_compat; lra. }
  assert (R : Rabs (rnd p (x / y) - x / y) <= u * Rabs (x / y)).
  { pose proof (relative_error_N_FLT radix2 (femin p) (fprec p) (fprec_pos p) (fun x => negb (Z.even x)) (x / y)) as R.
    rewrite half_bpow in R. apply R. rewrite Rabs_pos_eq by lra. apply Rle_trans with (2 := H2).
    change (/ 2) with (bpow radix2 (-1)). apply bpow_le. destruct p; unfold femin; cbn; lia. }
  fold q in R. rewrite (Rabs_pos_eq (x / y)) in R by lra.
  pose proof (Rle_abs (q - x / y)).
  assert (R' : 1 - x / y <= u * (x / y)) by lra.
  assert (y - x <= u * x).
  { replace (y - x) with ((1 - x / y) * y) by (field; lra). replace (u * x) with (u * (x / y) * y) by (field; lra).
    apply Rmult_le_compat_r; lra. }
  pose proof (fmt_gap p x y Fx Fy (Logic.conj X L)) as G. fold u in G. lra.
Qed.

Lemma mp_D : - y < D <= 2 * y.
Proof.
  pose proof mp_low. pose proof mp_high. pose proof mp_P as HP. pose proof mp_uyn as HU. pose proof mp_u as [U0 U1].
  pose proof mp_t as [T0 T1].
  destruct (small_terms u t y (Logic.conj U0 U1) T0 Hy) as (A0 & A1 & A2 & A4).
  pose proof (Rle_abs (P - y * IZR n)). pose proof (Rle_abs (- (P - y * IZR n))) as Q. rewrite Rabs_Ropp in Q.
  unfold D. lra.
Qed.
Lemma mp_D_mult : exists k e', (femin p <= e')%Z /\ D = IZR k * bpow radix2 e'.
Proof.
  destruct mp_P_mult as [k E]. destruct (fmt_scaled p x Fx) as (mx & ex & Ex & Hex & Ecx).
  set (e0 := Z.min e ex).
  exists (mx * radix2 ^ (ex - e0) - k * radix2 ^ (e - e0))%Z, e0. split; [pose proof mp_e; unfold e0; lia|].
  assert (B1 : bpow radix2 ex = bpow radix2 (ex - e0) * bpow radix2 e0) by (rewrite <- bpow_plus; f_equal; ring).
  assert (B2 : bpow radix2 e = bpow radix2 (e - e0) * bpow radix2 e0) by (rewrite <- bpow_plus; f_equal; ring).
  unfold D. rewrite minus_IZR, !mult_IZR, !(IZR_Zpower radix2) by (unfold e0; lia).
  rewrite E, B2. rewrite Ex at 1. rewrite B1. ring.
Qed.
Lemma mp_m_err : Rabs (m - D) <= u * Rabs D.
Proof.
  destruct mp_D_mult as (k & e' & He & E). unfold m, mod_m. fold n P D pm.
  apply Rle_trans with (fu pm * Rabs D).
  - rewrite E. apply rnd_err_multiple. pose proof (femin_mod_prim p ev) as Fm. fold pm in Fm. lia.
  - apply Rmult_le_compat_r; [apply Rabs_pos|apply fu_mod_prim].
Qed.
Lemma mp_m_low : - y <= m.
Proof.
  unfold m, mod_m. fold n P D pm. apply rnd_ge_fmt; [apply fmt_mod_prim, fmt_opp; exact Fy|]. pose proof mp_D. lra.
Qed.

(** in the "m < 0" branch: either x is far below the smallest quotient, or y+m
    is computed exactly *)
Lemma mp_neg : m < 0 -> (n = 0%Z /\ rnd F64 (y + m) = y /\ Rabs x <= u * y) \/
  (rnd F64 (y + m) = y + m /\ rnd p (y + m) = y + m /\ y + m < y /\ - y <= D < 0).
Proof.
  intro Hm. assert (HD : D < 0).
  { destruct (Rlt_or_le D 0) as [|C]; [assumption|exfalso]. assert (0 <= m); [|lra].
    unfold m, mod_m. fold n P D pm. apply rnd_ge_fmt; [apply fmt_0|exact C]. }
  destruct (Z.eq_dec n 0) as [N0|N0].
  - left. split; [exact N0|]. pose proof (mp_P_0 N0) as P0. unfold D in HD. rewrite P0 in HD.
    assert (Q0 : q = 0).
    { pose proof mp_floor as [F _]. rewrite N0 in F. apply Rle_antisym; [|exact F].
      unfold q. apply rnd_le_fmt; [apply fmt_0|]. unfold Rdiv. pose proof (Rinv_0_lt_compat y Hy). nra. }
    destruct (rnd_err p (x / y)) as (eps & eta & H1 & H2 & H3). fold q in H3. rewrite Q0 in H3.
    assert (X1 : x * (1 + eps) = - eta * y).
    { replace (x * (1 + eps)) with ((x / y * (1 + eps)) * y) by (field; lra). nra. }
    pose proof mp_u as [U0 U1]. fold u in H1.
    assert (E1 : - / 1000 <= eps) by (pose proof (Rle_abs (- eps)); rewrite Rabs_Ropp in *; lra).
    pose proof (h_small p) as Hh.
    assert (E2 : Rabs x <= 2 * (fu F64 * fu F64) * y).
    { assert (E3 : Rabs (x * (1 + eps)) <= fu F64 * fu F64 * y).
      { rewrite X1, Rabs_mult, Rabs_Ropp, (Rabs_pos_eq y) by lra. apply Rmult_le_compat_r; lra. }
      rewrite Rabs_mult, (Rabs_pos_eq (1 + eps)) in E3 by lra. pose proof (Rabs_pos x). nra. }
    assert (Mx : m = x).
    { unfold m, mod_m. fold n P D pm. unfold D. rewrite P0, Rminus_0_r. apply rnd_id. now apply fmt_mod_prim. }
    assert (X : Rabs x = - x) by (apply Rabs_left; lra).
    pose proof (fu_pos F64) as UU. pose proof (fu64_le p) as UL. fold u in UL. rewrite X in E2.
    assert (S : fu F64 <= / 1000) by apply fu_small.
    split.
    + rewrite Mx. set (r := rnd F64 (y + x)).
      assert (Fy' : ffmt F64 y) by (now apply fmt_widen with p).
      assert (R1 : Rabs (r - (y + x)) <= Rabs (y - (y + x))).
      { destruct (round_N_pt radix2 (ffexp F64) (fun x => negb (Z.even x)) (y + x)) as [_ N]. exact (N y Fy'). }
      replace (y - (y + x)) with (- x) in R1 by ring. rewrite Rabs_Ropp, X in R1.
      pose proof (Rle_abs (r - (y + x))). pose proof (Rle_abs (- (r - (y + x)))) as R2. rewrite Rabs_Ropp in R2.
      assert (R3 : fu F64 * fu F64 * y <= / 1000 * y * fu F64) by nra.
      assert (R4 : fu F64 * y <= / 1000 * y) by nra.
      assert (r <= y) by (apply rnd_le_fmt; [exact Fy'|lra]).
      destruct (Req_dec r y) as [|N]; [assumption|exfalso].
      assert (0 < r) by lra.
      pose proof (fmt_gap F64 r y (rnd_fmt _ _) Fy' ltac:(lra)) as G.
      assert (fu F64 * (y / 2) <= fu F64 * r) by (apply Rmult_le_compat_l; lra). nra.
    + rewrite X. apply Rle_trans with (1 := E2).
      destruct (small_terms (fu F64) 0 y (Logic.conj UU S) (Rle_refl 0) Hy) as (B0 & B1 & _).
      assert (fu F64 * y <= u * y) by (apply Rmult_le_compat_r; lra). lra.
  - right. assert (Ax : y <= Rabs x).
    { destruct (Z.le_gt_cases 1 n) as [N1|N1].
      - apply Rle_trans with (2 := Rle_abs x). now apply mp_ge.
      - pose proof (mp_P_neg ltac:(lia)). unfold D in HD. pose proof (Rle_abs (- x)). rewrite Rabs_Ropp in *. lra. }
    destruct (multiple_of p x e Fx) as [kx Ex].
    { unfold e, cexp. apply (ffexp_mono p). rewrite <- (mag_abs radix2 x). apply mag_le; assumption. }
    destruct (multiple_of p y e Fy ltac:(unfold e; lia)) as [ky Ey].
    destruct mp_P_mult as [kP EP].
    assert (ED : D = IZR (kx - kP) * bpow radix2 e) by (unfold D; rewrite minus_IZR, EP; rewrite Ex at 1; ring).
    destruct (rnd_multiple pm (kx - kP) e) as [km Em].
    { pose proof mp_e. pose proof (femin_mod_prim p ev) as Fm. fold pm in Fm. lia. }
    assert (EM : m = IZR km * bpow radix2 e) by (unfold m, mod_m; fold n P D pm; rewrite ED; exact Em).
    assert (EY : y + m = IZR (ky + km) * bpow radix2 e) by (rewrite plus_IZR, EM; rewrite Ey at 1; ring).
    assert (F : ffmt p (y + m)).
    { rewrite EY. apply fmt_multiple; [apply mp_e|]. rewrite <- EY. pose proof mp_m_low.
      rewrite Rabs_pos_eq by lra. apply Rlt_le_trans with y; [lra|].
      apply Rle_trans with (bpow radix2 (mag radix2 y)).
      - apply Rle_trans with (1 := Rle_abs y). apply Rlt_le, bpow_mag_gt.
      - apply bpow_le. unfold e, cexp, ffexp, FLT_exp. lia. }
    pose proof mp_D. split; [apply rnd_id; now apply fmt_widen with p|]. split; [now apply rnd_id|]. lra.
Qed.

Lemma modR_pos_ok : let r := modR_pos p ev x y in
  0 <= r <= y /\ (ev <> FloorDouble \/ p = F64 -> r < y) /\
  exists k : Z, Rabs (r - (x - IZR k * y)) <= 4 * u * (Rabs x + y).
Proof.
  unfold modR_pos. fold m. cbv zeta.
  pose proof mp_u as [U0 U1]. pose proof mp_t as [T0 T1]. pose proof mp_uyn as HU. pose proof mp_P as HP.
  pose proof mp_low as L1. pose proof mp_high as L2. pose proof mp_D as [D1 D2]. pose proof mp_m_err as ME.
  pose proof (Rle_abs (P - y * IZR n)) as P1. pose proof (Rle_abs (- (P - y * IZR n))) as P2. rewrite Rabs_Ropp in P2.
  pose proof (Rle_abs (m - D)) as M1. pose proof (Rle_abs (- (m - D))) as M2. rewrite Rabs_Ropp in M2.
  assert (W : 4 * u * (Rabs x + y) = 4 * t + 4 * (u * y)) by (unfold t; ring). rewrite W.
  destruct (small_terms u t y (Logic.conj U0 U1) T0 Hy) as (A0 & A1 & A2 & A4).
  destruct (Rle_bool_spec y m) as [C1|C1].
  - split; [lra|]. split; [lra|]. exists (n + 1)%Z. rewrite plus_IZR.
    assert (HD : Rabs D <= 2 * y) by (apply Rabs_le; lra).
    assert (HD' : u * Rabs D <= u * (2 * y)) by (apply Rmult_le_compat_l; lra).
    assert (D3 : y - 2 * (u * y) <= D) by lra.
    apply Rabs_le. assert (ED : D = x - P) by reflexivity. split; lra.
  - destruct (Rlt_bool_spec m 0) as [C2|C2].
    + destruct (mp_neg C2) as [(N0 & E & X)|(E1 & E2 & L & DD)].
      * rewrite E. rewrite Req_bool_true by reflexivity. split; [lra|]. split; [lra|].
        exists 0%Z. replace (0 - (x - 0 * y)) with (- x) by ring. rewrite Rabs_Ropp. lra.
      * rewrite E1, Req_bool_false by lra. rewrite E2. pose proof mp_m_low.
        split; [lra|]. split; [lra|]. exists (n - 1)%Z. rewrite minus_IZR.
        assert (HD : Rabs D <= y) by (apply Rabs_le; lra).
        assert (HD' : u * Rabs D <= u * y) by (apply Rmult_le_compat_l; lra).
        apply Rabs_le. assert (ED : D = x - P) by reflexivity. split; lra.
    + assert (HD : Rabs D <= y).
      { apply Rabs_le. split; [lra|]. destruct (Rle_or_lt D y) as [|C]; [assumption|exfalso].
        assert (y <= m); [|lra]. unfold m, mod_m. fold n P D pm. apply rnd_ge_fmt; [now apply fmt_mod_prim|lra]. }
      assert (HD' : u * Rabs D <= u * y) by (apply Rmult_le_compat_l; lra).
      assert (R1 : 0 <= rnd p m) by (apply rnd_ge_fmt; [apply fmt_0|exact C2]).
      assert (R2 : rnd p m <= y) by (apply rnd_le_fmt; [exact Fy|lra]).
      split; [lra|]. split.
      * intro Q. rewrite rnd_id; [exact C1|]. unfold m, mod_m.
        destruct Q as [Q|Q]; [|rewrite Q; destruct ev; apply rnd_fmt].
        destruct ev; [apply rnd_fmt|now contradict Q|apply rnd_fmt].
      * exists n. assert (R3 : Rabs (rnd p m - m) <= u * m).
        { destruct mp_D_mult as (k & e' & He & E).
          destruct (rnd_multiple pm k e') as [km Em]; [pose proof (femin_mod_prim p ev) as Fm; fold pm in Fm; lia|].
          assert (EM : m = IZR km * bpow radix2 e') by (unfold m, mod_m; fold n P D pm; rewrite E; exact Em).
          rewrite <- (Rabs_pos_eq m) at 3 by exact C2. rewrite EM. apply rnd_err_multiple. exact He. }
        assert (R4 : u * m <= u * y) by (apply Rmult_le_compat_l; lra).
        pose proof (Rle_abs (rnd p m - m)) as Q1. pose proof (Rle_abs (- (rnd p m - m))) as Q2. rewrite Rabs_Ropp in Q2.
        apply Rabs_le. assert (ED : D = x - P) by reflexivity. split; lra.
Qed.
End Positive.

(** ** negative divisors *)
Lemma mod_n_opp p x y : y <> 0 -> mod_n p (- x) (- y) = mod_n p x y.
Proof. intro H. unfold mod_n. do 2 f_equal. field. exact H. Qed.
Lemma mod_prod_opp p ev y n : mod_prod p ev (- y) n = - mod_prod p ev y n.
Proof. unfold mod_prod. replace (- y * IZR n) with (- (y * IZR n)) by ring. destruct ev; rewrite ?rnd_opp; reflexivity. Qed.
Lemma mod_m_opp p ev x y : y <> 0 -> mod_m p ev (- x) (- y) = - mod_m p ev x y.
Proof.
  intro H. unfold mod_m. rewrite mod_n_opp, mod_prod_opp by exact H. rewrite <- rnd_opp. f_equal. ring.
Qed.
Lemma modR_neg_opp p ev x y : y <> 0 -> modR_neg p ev x y = - modR_pos p ev (- x) (- y).
Proof.
  intro H. unfold modR_neg, modR_pos. rewrite mod_m_opp by exact H.
  set (m := mod_m p ev x y).
  replace (- y + - m) with (- (y + m)) by ring. rewrite !rnd_opp.
  destruct (Rle_bool_spec m y); [rewrite Rle_bool_true by lra; ring|]. rewrite Rle_bool_false by lra.
  destruct (Rlt_bool_spec 0 m); [rewrite Rlt_bool_true by lra|rewrite Rlt_bool_false by lra; ring].
  destruct (Req_bool_spec (rnd F64 (y + m)) y); [rewrite Req_bool_true by lra; ring|].
  rewrite Req_bool_false by lra. ring.
Qed.

(** ** the model computes modR *)
Definition modR (p : prim) (ev : evaluation) (x y : R) : R :=
  if Rlt_bool 0 y then modR_pos p ev x y else modR_neg p ev x y.

(** the operands of a wrap: |x| <= 2^(prec-2) |y|, and no overflow in sight *)
Definition in_range (p : prim) (x y : R) : Prop :=
  y <> 0 /\ Rabs x <= bpow radix2 (fprec p - 2) * Rabs y /\
  Rabs x <= bpow radix2 (femax p - 3) /\ Rabs y <= bpow radix2 (femax p - 3).

Lemma in_range_opp p x y : in_range p x y -> in_range p (- x) (- y).
Proof. unfold in_range. rewrite !Rabs_Ropp. intuition lra. Qed.

Lemma fbig_split p : fbig p = 4 * bpow radix2 (femax p - 3).
Proof. unfold fbig. replace (femax p - 1)%Z with (2 + (femax p - 3))%Z by ring. rewrite bpow_plus. reflexivity. Qed.

Lemma mod_bounds_pos p ev x y : ffmt p x -> ffmt p y -> 0 < y -> in_range p x y ->
  Rabs (x / y) <= fbig p /\ Rabs (y * IZR (mod_n p x y)) <= fbig p /\
  Rabs (x - mod_prod p ev y (mod_n p x y)) <= fbig p /\ Rabs (y + mod_m p ev x y) <= fbig p /\
  Rabs (mod_m p ev x y) <= fbig p.
Proof.
  intros Fx Fy Hy (_ & H1 & H2 & H3). rewrite (Rabs_pos_eq y) in * by lra.
  pose proof (mp_yn p x y Hy) as A. pose proof (mp_D p ev x y Fy Hy H1) as B.
  pose proof (mp_t p x y H1) as T. pose proof (mp_u p) as U.
  destruct (small_terms (fu p) 0 y U (Rle_refl 0) Hy) as (A0 & A1 & _).
  rewrite fbig_split. set (L := bpow radix2 (femax p - 3)) in *. cbv zeta in *.
  assert (Bm : Rabs (mod_m p ev x y) <= 3 * y).
  { pose proof (mp_m_err p ev x y Fx Fy) as ME. cbv zeta in ME.
    set (D := x - mod_prod p ev y (mod_n p x y)) in *. set (m := mod_m p ev x y) in *.
    assert (HD : Rabs D <= 2 * y) by (apply Rabs_le; lra).
    assert (fu p * Rabs D <= / 1000 * (2 * y)) by (apply Rmult_le_compat; [lra|apply Rabs_pos|lra|lra]).
    replace m with (m - D + D) by ring. apply Rle_trans with (1 := Rabs_triang _ _). lra. }
  repeat split.
  - apply Rle_trans with (bpow radix2 (fprec p - 2)).
    + unfold Rdiv. rewrite Rabs_mult, Rabs_inv, (Rabs_pos_eq y) by lra.
      apply Rmult_le_reg_r with y; [lra|]. rewrite Rmult_assoc, Rinv_l, Rmult_1_r by lra. exact H1.
    + apply Rle_trans with L; [apply bpow_le; destruct p; cbn; lia|]. pose proof (bpow_ge_0 radix2 (femax p - 3)) as GL. fold L in GL. lra.
  - specialize (A H1). lra.
  - apply Rabs_le. lra.
  - apply Rle_trans with (1 := Rabs_triang _ _). rewrite (Rabs_pos_eq y) by lra. lra.
  - lra.
Qed.
Lemma mod_bounds p ev x y : ffmt p x -> ffmt p y -> in_range p x y ->
  Rabs (x / y) <= fbig p /\ Rabs (y * IZR (mod_n p x y)) <= fbig p /\
  Rabs (x - mod_prod p ev y (mod_n p x y)) <= fbig p /\ Rabs (y + mod_m p ev x y) <= fbig p /\
  Rabs (mod_m p ev x y) <= fbig p.
Proof.
  intros Fx Fy HR. destruct (Rlt_or_le 0 y) as [Hy|Hy]; [now apply mod_bounds_pos|].
  assert (Hy' : y <> 0) by apply HR.
  pose proof (mod_bounds_pos p ev (- x) (- y) (fmt_opp _ _ Fx) (fmt_opp _ _ Fy) ltac:(lra) (in_range_opp _ _ _ HR)) as B.
  rewrite mod_n_opp, mod_prod_opp, mod_m_opp in B by exact Hy'.
  replace (- x / - y) with (x / y) in B by (field; exact Hy').
  replace (- y * IZR (mod_n p x y)) with (- (y * IZR (mod_n p x y))) in B by ring.
  replace (- x - - mod_prod p ev y (mod_n p x y)) with (- (x - mod_prod p ev y (mod_n p x y))) in B by ring.
  replace (- y + - mod_m p ev x y) with (- (y + mod_m p ev x y)) in B by ring.
  rewrite !Rabs_Ropp in B. exact B.
Qed.

Lemma fbig_mono p : fbig p <= fbig F64.
Proof. unfold fbig. apply bpow_le. destruct p; cbn; lia. Qed.

Lemma fmodulo_m_R p ev (x y : fl p) : is_finite x = true -> is_finite y = true -> in_range p (B2R x) (B2R y) ->
  B2R (fmodulo_m ev x y) = mod_m p ev (B2R x) (B2R y) /\ is_finite (fmodulo_m ev x y) = true.
Proof.
  intros Fx Fy HR. pose proof (mod_bounds p ev (B2R x) (B2R y) (fmt_B2R p x) (fmt_B2R p y) HR) as (B1 & B2 & B3 & B4 & B5).
  destruct HR as (Y0 & _).
  destruct (fdiv_R p x y Fx Y0 B1) as [Q Fq].
  destruct (ffloor_R p (fdiv x y)) as [N Fn]. rewrite Fq in Fn. rewrite Q in N. fold (mod_n p (B2R x) (B2R y)) in N.
  unfold fmodulo_m, mod_m. destruct ev; cbn [mod_prod mod_prim] in *.
  - destruct (fmul_R p y (ffloor (fdiv x y)) Fy Fn) as [M Fm]; [rewrite N; exact B2|]. rewrite N in M.
    destruct (fsub_R p x (fmul y (ffloor (fdiv x y))) Fx Fm) as [S Fs]; [rewrite M; exact B3|]. rewrite M in S.
    destruct (widen_R p (fsub x (fmul y (ffloor (fdiv x y))))) as [W Fw]. rewrite W, Fw. tauto.
  - destruct (widen_R p x) as [Wx Fwx]. destruct (widen_R p y) as [Wy Fwy]. destruct (widen_R p (fdiv x y)) as [Wq Fwq].
    destruct (ffloor_R F64 (fcvt F64 (fdiv x y))) as [N' Fn']. rewrite Fwq, Fq in Fn'. rewrite Wq, Q in N'. fold (mod_n p (B2R x) (B2R y)) in N'.
    pose proof (fbig_mono p).
    destruct (fmul_R F64 (fcvt F64 y) (ffloor (fcvt F64 (fdiv x y)))) as [M Fm]; [now rewrite Fwy|exact Fn'|rewrite N', Wy; lra|]. rewrite N', Wy in M.
    destruct (fsub_R F64 (fcvt F64 x) (fmul (fcvt F64 y) (ffloor (fcvt F64 (fdiv x y))))) as [S Fs]; [now rewrite Fwx|exact Fm|rewrite M, Wx; lra|].
    rewrite M, Wx in S. tauto.
  - destruct (fneg_R p y) as [O Fo]. rewrite Fy in Fo.
    assert (E : B2R (fneg y) * B2R (ffloor (fdiv x y)) + B2R x = B2R x - B2R y * IZR (mod_n p (B2R x) (B2R y))) by (rewrite O, N; ring).
    destruct (ffma_R p (fneg y) (ffloor (fdiv x y)) x Fo Fn Fx) as [S Fs]; [rewrite E; exact B3|]. rewrite E in S.
    destruct (widen_R p (ffma (fneg y) (ffloor (fdiv x y)) x)) as [W Fw]. rewrite W, Fw. tauto.
Qed.

Lemma rnd_rnd_big p x : Rabs x <= fbig p -> Rabs (rnd F64 x) <= fbig p.
Proof. intro H. apply rnd_abs_le; [destruct p; unfold femin; cbn; lia|exact H]. Qed.

Lemma fmodulo_R p ev (x y : fl p) : is_finite x = true -> is_finite y = true -> in_range p (B2R x) (B2R y) ->
  B2R (fmodulo ev x y) = modR p ev (B2R x) (B2R y) /\ is_finite (fmodulo ev x y) = true.
Proof.
  intros Fx Fy HR. pose proof (mod_bounds p ev (B2R x) (B2R y) (fmt_B2R p x) (fmt_B2R p y) HR) as (B1 & B2 & B3 & B4 & B5).
  destruct (fmodulo_m_R p ev x y Fx Fy HR) as [M Fm]. destruct HR as (Y0 & _).
  destruct (widen_R p y) as [W Fw]. rewrite Fy in Fw.
  assert (Z0 : B2R (@fzero F64) = 0 /\ B2R (@fzero p) = 0) by (split; reflexivity). destruct Z0 as [Z0 Z0'].
  assert (Fz : is_finite (@fzero F64) = true /\ is_finite (@fzero p) = true) by (split; reflexivity). destruct Fz as [Fz Fz'].
  pose proof (fbig_mono p) as BM.
  destruct (fadd_R F64 (fcvt F64 y) (fmodulo_m ev x y) Fw Fm) as [S Fs]; [rewrite W, M; lra|]. rewrite W, M in S.
  destruct (fcvt_R F64 p (fadd (fcvt F64 y) (fmodulo_m ev x y)) Fs) as [C1 F1]; [rewrite S; now apply rnd_rnd_big|]. rewrite S in C1.
  destruct (fcvt_R F64 p (fmodulo_m ev x y) Fm) as [C2 F2]; [rewrite M; exact B5|]. rewrite M in C2.
  unfold fmodulo. rewrite (feq_R F64) by assumption. rewrite W, Z0, Req_bool_false by exact Y0.
  rewrite (flt_R p) by assumption. rewrite Z0'. unfold modR.
  destruct (Rlt_bool 0 (B2R y)).
  - rewrite (fle_R F64), (flt_R F64), (feq_R F64) by assumption. rewrite S, W, M, Z0. unfold modR_pos.
    destruct (Rle_bool (B2R y) (mod_m p ev (B2R x) (B2R y))); [tauto|].
    destruct (Rlt_bool (mod_m p ev (B2R x) (B2R y)) 0); [|tauto].
    destruct (Req_bool (rnd F64 (B2R y + mod_m p ev (B2R x) (B2R y))) (B2R y)); tauto.
  - rewrite (fle_R F64), (flt_R F64), (feq_R F64) by assumption. rewrite S, W, M, Z0. unfold modR_neg.
    destruct (Rle_bool (mod_m p ev (B2R x) (B2R y)) (B2R y)); [tauto|].
    destruct (Rlt_bool 0 (mod_m p ev (B2R x) (B2R y))); [|tauto].
    destruct (Req_bool (rnd F64 (B2R y + mod_m p ev (B2R x) (B2R y))) (B2R y)); tauto.
Qed.

(** ** range and accuracy of the model, both signs *)
Lemma fmodulo_ok p ev (x y : fl p) : is_finite x = true -> is_finite y = true -> in_range p (B2R x) (B2R y) ->
  is_finite (fmodulo ev x y) = true /\
  (0 < B2R y -> 0 <= B2R (fmodulo ev x y) <= B2R y /\ (ev <> FloorDouble \/ p = F64 -> B2R (fmodulo ev x y) < B2R y)) /\
  (B2R y < 0 -> B2R y <= B2R (fmodulo ev x y) <= 0 /\ (ev <> FloorDouble \/ p = F64 -> B2R y < B2R (fmodulo ev x y))) /\
  exists k : Z, Rabs (B2R (fmodulo ev x y) - (B2R x - IZR k * B2R y)) <= 4 * fu p * (Rabs (B2R x) + Rabs (B2R y)).
Proof.
  intros Fx Fy HR. destruct (fmodulo_R p ev x y Fx Fy HR) as [E F]. split; [exact F|]. rewrite E.
  pose proof (fmt_B2R p x) as Gx. pose proof (fmt_B2R p y) as Gy. set (a := B2R x) in *. set (b := B2R y) in *.
  destruct HR as (Y0 & H1 & _). unfold modR.
  destruct (Rlt_bool_spec 0 b) as [Hb|Hb].
  - rewrite (Rabs_pos_eq b) in H1 |- * by lra.
    destruct (modR_pos_ok p ev a b Gx Gy Hb H1) as (R1 & R2 & k & R3).
    split; [intros _; split; [exact R1|exact R2]|]. split; [lra|]. now exists k.
  - assert (Hb' : 0 < - b) by lra. rewrite modR_neg_opp by exact Y0.
    assert (Ab : Rabs b = - b) by (apply Rabs_left; lra).
    rewrite Ab in H1 |- *.
    destruct (modR_pos_ok p ev (- a) (- b) (fmt_opp _ _ Gx) (fmt_opp _ _ Gy) Hb') as (R1 & R2 & k & R3); [now rewrite Rabs_Ropp|].
    split; [lra|]. split; [intros _; split; [lra|intro Q; specialize (R2 Q); lra]|].
    exists k. rewrite Rabs_Ropp in R3. rewrite <- Rabs_Ropp. 
    replace (- (- modR_pos p ev (- a) (- b) - (a - IZR k * b))) with (modR_pos p ev (- a) (- b) - (- a - IZR k * - b)) by ring. exact R3.
Qed.
