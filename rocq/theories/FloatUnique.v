(** * FloatUnique: getUnique() of the Euler angle classes in floating-point arithmetic. *)
From Coq Require Import ZArith Reals Lra Psatz Bool List Lia.
From Flocq Require Import IEEE754.BinarySingleNaN Core.Core.
From Verif Require Import Linalg Spec SpecFacts SpecClose ModelCommon ModelEigen CommonFacts CloseFacts EulerFacts PiBounds
  FloatModel FloatFacts FloatModel2 SpecFloatQ FloatQFacts FloatQProd FloatQHist FloatQRot FloatModulo FloatWrap FloatCast FloatModel3 FloatModel4 FloatModel7 FloatModel8 FloatBuild FloatBox FloatModel9 SpecUnique.
Local Open Scope R_scope.

Lemma big51 : bpow radix2 (fprec F64 - 2) = bpow radix2 51. Proof. reflexivity. Qed.
Lemma u64_le p : fu F64 <= fu p. Proof. apply fu64_le. Qed.
Lemma rnd_piT p x : Rabs x <= B2R fM_PI -> Rabs (rnd p x) <= piT p.
Proof.
  intro H. apply Rabs_both in H. apply Rabs_le. split.
  - replace (- piT p) with (rnd p (- B2R fM_PI)). { apply rnd_le. lra. } rewrite <- rnd_pi. apply round_NE_opp.
  - rewrite <- rnd_pi. apply rnd_le. lra.
Qed.
(** conversion of a double to the type *)
Lemma narrow_ok p (x : fl F64) M : is_finite x = true -> Rabs (B2R x) <= M -> M <= 4 -> is_finite (fcvt p x) = true /\ Rabs (B2R (fcvt p x) - B2R x) <= M * fu p + eta p /\ B2R (fcvt p x) = rnd p (B2R x).
Proof.
  intros F H HM. destruct (fcvt_R F64 p x F) as [E F']. { apply Rle_trans with (2 := four_fbig p). lra. }
  split; [exact F'|]. rewrite E. split; [|reflexivity]. eapply Rle_trans; [apply rnd_err_le|]. pose proof (fu_pos p). assert (fu p * Rabs (B2R x) <= fu p * M) by (apply Rmult_le_compat_l; lra). lra.
Qed.
Lemma fwrap_in_double_eq p ev (a : fl p) : fwrap_in_double ev a = fcvt p (fwrapPosNegPI ev (fcvt F64 a)).
Proof. unfold fwrap_in_double, fwrapPosNegPI. rewrite !fcvt_id. reflexivity. Qed.
Lemma fwrap_ok p ev (a : fl p) : is_finite a = true -> Rabs (B2R a) <= bpow radix2 51 ->
  let r := fwrap_in_double ev a in is_finite r = true /\ Rabs (B2R r) <= piT p /\ exists k, Rabs (B2R r - (B2R a - 2 * PI * IZR k)) <= wrap_error p (B2R a).
Proof.
  intros F H. cbv zeta. rewrite fwrap_in_double_eq. pose proof (pi_consts F64) as (_ & _ & _ & _ & _ & P6). pose proof (fu_pos p) as U. pose proof (eta5_u p) as T5.
  destruct (wrapPosNegPI_ok F64 ev (fcvt F64 a)) as (Fw & Rw & _ & k & Kw). { now rewrite widen_fin. } { rewrite widen_val. exact H. }
  set (w := fwrapPosNegPI ev (fcvt F64 a)) in *. assert (PF : piT F64 = B2R fM_PI) by (unfold piT; now rewrite fcvt_id). rewrite PF in Rw.
  assert (AW : Rabs (B2R w) <= B2R fM_PI) by (apply Rabs_le; lra).
  destruct (narrow_ok p w (B2R fM_PI) Fw AW ltac:(lra)) as (Fr & Dr & Er). split; [exact Fr|]. split; [rewrite Er; apply rnd_piT, AW|].
  exists k. rewrite widen_val in Kw. unfold wrap_error. rewrite !roundoff_fu. change (bpow radix2 (- fprec F64)) with (fu F64) in Kw.
  replace (2 * PI * IZR k) with (2 * IZR k * PI) by ring.
  replace (B2R (fcvt p w) - (B2R a - 2 * IZR k * PI)) with ((B2R (fcvt p w) - B2R w) + (B2R w - (B2R a - 2 * IZR k * PI))) by ring.
  eapply Rle_trans; [apply Rabs_triang|]. assert (B2R fM_PI * fu p <= 315/100 * fu p) by (apply Rmult_le_compat_r; lra). lra.
Qed.

(** ** half turns *)
Lemma add_pi_ok (x : fl F64) (s : bool) : is_finite x = true ->
  let q := if s then fadd x fM_PI else fsub x fM_PI in let e := if s then B2R x + PI else B2R x - PI in
  Rabs (if s then B2R x + B2R fM_PI else B2R x - B2R fM_PI) <= B2R fM_PI ->
  is_finite q = true /\ Rabs (B2R q) <= B2R fM_PI /\ Rabs (B2R q - e) <= 47/10 * fu F64.
Proof.
  intros F. cbv zeta. intro H. pose proof (pi_consts F64) as (_ & _ & P3 & _ & _ & P6). pose proof (fu_pos F64) as U. pose proof (eta5_u F64) as T5.
  set (e := if s then B2R x + B2R fM_PI else B2R x - B2R fM_PI) in *.
  set (q := if s then fadd x fM_PI else fsub x fM_PI).
  assert (E : B2R q = rnd F64 e /\ is_finite q = true).
  { unfold q, e in *. destruct s; [apply fadd_R|apply fsub_R]; try exact F; try reflexivity; eapply Rle_trans; try exact H; apply Rle_trans with (2 := four_fbig F64); lra. }
  destruct E as [E Fq]. split; [exact Fq|]. rewrite E. assert (PF : piT F64 = B2R fM_PI) by (unfold piT; now rewrite fcvt_id).
  split. { rewrite <- PF. apply rnd_piT, H. }
  replace (if s then B2R x + PI else B2R x - PI) with (e + (if s then PI - B2R fM_PI else - (PI - B2R fM_PI))) by (unfold e; destruct s; ring).
  pose proof (rnd_err_le F64 e) as R. assert (fu F64 * Rabs e <= fu F64 * (315/100)) by (apply Rmult_le_compat_l; lra).
  replace (rnd F64 e - (e + (if s then PI - B2R fM_PI else - (PI - B2R fM_PI)))) with ((rnd F64 e - e) + - (if s then PI - B2R fM_PI else - (PI - B2R fM_PI))) by ring.
  eapply Rle_trans; [apply Rabs_triang|]. rewrite Rabs_Ropp. replace (Rabs (if s then PI - B2R fM_PI else - (PI - B2R fM_PI))) with (PI - B2R fM_PI) by (destruct s; rewrite ?Rabs_Ropp, Rabs_pos_eq; lra).
  lra.
Qed.
Lemma narrow_pi p (q : fl F64) e : is_finite q = true -> Rabs (B2R q) <= B2R fM_PI -> Rabs (B2R q - e) <= 47/10 * fu F64 ->
  is_finite (fcvt p q) = true /\ Rabs (B2R (fcvt p q)) <= piT p /\ Rabs (B2R (fcvt p q) - e) <= 8 * fu p.
Proof.
  intros F H D. pose proof (pi_consts F64) as (_ & _ & _ & _ & _ & P6). pose proof (fu_pos p) as U. pose proof (u64_le p) as U6. pose proof (eta5_u p) as T5.
  destruct (narrow_ok p q (B2R fM_PI) F H ltac:(lra)) as (Fr & Dr & Er). split; [exact Fr|]. split; [rewrite Er; apply rnd_piT, H|].
  replace (B2R (fcvt p q) - e) with ((B2R (fcvt p q) - B2R q) + (B2R q - e)) by ring. eapply Rle_trans; [apply Rabs_triang|].
  assert (B2R fM_PI * fu p <= 315/100 * fu p) by (apply Rmult_le_compat_r; lra). lra.
Qed.
Definition turned (t : R) : R := if Rlt_bool t 0 then t + PI else t - PI.
Lemma fhalf_turn_ok p (t : fl p) : is_finite t = true -> Rabs (B2R t) <= piT p ->
  is_finite (fhalf_turn t) = true /\ Rabs (B2R (fhalf_turn t)) <= piT p /\ Rabs (B2R (fhalf_turn t) - turned (B2R t)) <= 8 * fu p.
Proof.
  intros F H. pose proof (pi_consts p) as (_ & P2 & _ & P4 & _ & P6). apply Rabs_both in H. pose proof (fu_24 p) as V.
  unfold fhalf_turn, turned. rewrite (flt_R p) by (try exact F; reflexivity). change (B2R (@fzero p)) with 0.
  assert (FW : is_finite (fcvt F64 t) = true) by now rewrite widen_fin.
  destruct (Rlt_bool_spec (B2R t) 0) as [K|K].
  - destruct (add_pi_ok (fcvt F64 t) true FW) as (A & B & C). { cbn [negb]. rewrite widen_val. apply Rabs_le. lra. } cbv iota in A, B, C. rewrite widen_val in C. apply narrow_pi; assumption.
  - destruct (add_pi_ok (fcvt F64 t) false FW) as (A & B & C). { rewrite widen_val. apply Rabs_le. lra. } cbv iota in A, B, C. rewrite widen_val in C. apply narrow_pi; assumption.
Qed.
Lemma fmirror_ok p (y : fl p) (s : bool) : is_finite y = true -> Rabs (B2R y) <= piT p -> (if s then B2R y <= 0 else 0 <= B2R y) ->
  let r := fcvt p (fneg (if s then fadd (fcvt F64 y) fM_PI else fsub (fcvt F64 y) fM_PI)) in
  is_finite r = true /\ Rabs (B2R r - - (if s then B2R y + PI else B2R y - PI)) <= 8 * fu p.
Proof.
  intros F H S. cbv zeta. pose proof (pi_consts p) as (_ & P2 & _ & P4 & _ & P6). apply Rabs_both in H. pose proof (fu_24 p) as V.
  assert (FW : is_finite (fcvt F64 y) = true) by now rewrite widen_fin.
  destruct (add_pi_ok (fcvt F64 y) s FW) as (A & B & C). { rewrite widen_val. destruct s; apply Rabs_le; lra. } rewrite widen_val in C.
  set (q := if s then fadd (fcvt F64 y) fM_PI else fsub (fcvt F64 y) fM_PI) in *. destruct (fneg_R F64 q) as [NE NF].
  destruct (narrow_pi p (fneg q) (- (if s then B2R y + PI else B2R y - PI))) as (X & _ & Y).
  - now rewrite NF.
  - now rewrite NE, Rabs_Ropp.
  - rewrite NE. replace (- B2R q - - (if s then B2R y + PI else B2R y - PI)) with (- (B2R q - (if s then B2R y + PI else B2R y - PI))) by ring. now rewrite Rabs_Ropp.
  - split; [exact X|exact Y].
Qed.

(** ** the four thresholds *)
Lemma thresholds :
  let l1 := fsub fmhalf_pi feuler_tol in let l2 := fadd fmhalf_pi feuler_tol in let h1 := fsub fhalf_pi feuler_tol in let h2 := fadd fhalf_pi feuler_tol in
  is_finite l1 = true /\ is_finite l2 = true /\ is_finite h1 = true /\ is_finite h2 = true /\
  Rabs (B2R l1 - (- (PI/2) - /1000)) <= 2 * fu F64 /\ Rabs (B2R l2 - (- (PI/2) + /1000)) <= 2 * fu F64 /\
  Rabs (B2R h1 - (PI/2 - /1000)) <= 2 * fu F64 /\ Rabs (B2R h2 - (PI/2 + /1000)) <= 2 * fu F64.
Proof.
  cbv zeta. pose proof PI_close as [A B]. rewrite fu_val.
  rewrite (B2R_of_SF F64 (fsub fmhalf_pi feuler_tol) true 7078741351655810 (-52)) by (vm_compute; reflexivity).
  rewrite (B2R_of_SF F64 (fadd fmhalf_pi feuler_tol) true 7069734152401070 (-52)) by (vm_compute; reflexivity).
  rewrite (B2R_of_SF F64 (fsub fhalf_pi feuler_tol) false 7069734152401070 (-52)) by (vm_compute; reflexivity).
  rewrite (B2R_of_SF F64 (fadd fhalf_pi feuler_tol) false 7078741351655810 (-52)) by (vm_compute; reflexivity).
  repeat (split; [vm_compute; reflexivity|]). unfold F2R; cbn [Fnum Fexp SpecFloat.cond_Zopp Z.opp]. change (bpow radix2 (-52)) with (/ IZR (2 ^ 52)). zlit.
  repeat split; apply Rabs_le; lra.
Qed.

(** ** exact facts *)
Lemma turned_trig t : sin (turned t) = - sin t /\ cos (turned t) = - cos t.
Proof.
  unfold turned. destruct (Rlt_bool t 0).
  - rewrite neg_sin, neg_cos. auto.
  - unfold Rminus. rewrite sin_plus, cos_plus, cos_neg, sin_neg, cos_PI, sin_PI. split; ring.
Qed.
Lemma minus_turns a k : same_angle (a - 2 * PI * IZR k) a.
Proof. exists (- k)%Z. rewrite opp_IZR. ring. Qed.
Definition same_euler (x y z a b c : R) : Prop := zyx_rot (mkZyx x y z) = zyx_rot (mkZyx a b c) /\ xyz_rot (mkXyz x y z) = xyz_rot (mkXyz a b c).
Lemma same_euler_turns x y z a b c : same_angle x a -> same_angle y b -> same_angle z c -> same_euler x y z a b c.
Proof.
  intros A B C. split; unfold zyx_rot, xyz_rot; cbn [zyaw zpitch zroll xroll xpitch xyaw].
  - now rewrite (Rot_z_same _ _ A), (Rot_y_same _ _ B), (Rot_x_same _ _ C).
  - now rewrite (Rot_x_same _ _ A), (Rot_y_same _ _ B), (Rot_z_same _ _ C).
Qed.
Lemma same_euler_trig x y z a b c : sin x = - sin a -> cos x = - cos a -> sin y = sin b -> cos y = - cos b -> sin z = - sin c -> cos z = - cos c -> same_euler x y z a b c.
Proof. intros E1 E2 E3 E4 E5 E6. split; unfold zyx_rot, xyz_rot, Rot_z, Rot_y, Rot_x; cbn [zyaw zpitch zroll xroll xpitch xyaw]; rewrite E1, E2, E3, E4, E5, E6; lin. Qed.
(** a half turn of the exact angle that goes the way of the computed one *)
Definition shift (w : R) : R := if Rlt_bool w 0 then PI else - PI.
Lemma turned_shift w : turned w = w + shift w.
Proof. unfold turned, shift. destruct (Rlt_bool w 0); ring. Qed.
Lemma shift_trig w t : sin (t + shift w) = - sin t /\ cos (t + shift w) = - cos t.
Proof.
  unfold shift. destruct (Rlt_bool w 0); [rewrite neg_sin, neg_cos; auto|].
  rewrite sin_plus, cos_plus, cos_neg, sin_neg, cos_PI, sin_PI. split; ring.
Qed.

Lemma feuler_unique_spec p ev (a b c : fl p) : is_finite a = true -> is_finite b = true -> is_finite c = true ->
  Rabs (B2R a) <= bpow radix2 51 -> Rabs (B2R b) <= bpow radix2 51 -> Rabs (B2R c) <= bpow radix2 51 ->
  exists x y z, feuler_unique ev a b c = (x, y, z) /\ is_finite x = true /\ is_finite y = true /\ is_finite z = true /\
  ((exists x0 y0 z0, same_euler x0 y0 z0 (B2R a) (B2R b) (B2R c) /\
      Rabs (B2R x - x0) <= wrap_error p (B2R a) + 8 * fu p /\ Rabs (B2R y - y0) <= wrap_error p (B2R b) + 8 * fu p /\ Rabs (B2R z - z0) <= wrap_error p (B2R c) + 8 * fu p /\
      Rabs (B2R x) <= piT p /\ Rabs (B2R z) <= piT p /\ Rabs (B2R y) <= PI/2 - /1000 + 10 * fu p /\
      forall s k, s = 1 \/ s = -1 -> /1000 - wrap_error p (B2R b) - 2 * fu F64 < pitch_off (B2R b) s k) \/
   (exists s k x0 z0, (s = 1 \/ s = -1) /\ pitch_off (B2R b) s k <= /1000 + wrap_error p (B2R b) + 2 * fu F64 /\
      same_angle x0 (B2R a) /\ same_angle z0 (B2R c) /\ Rabs (B2R x - (x0 + s * z0)) <= wrap_error p (B2R a) + wrap_error p (B2R c) + 8 * fu p /\
      Rabs (B2R x) <= 2 * piT p /\ Rabs (B2R y - s * (PI/2)) <= /1000 + 2 * fu F64 /\
      Rabs (B2R y - (B2R b - 2 * PI * IZR k)) <= wrap_error p (B2R b) /\ z = fzero)).
Proof.
  intros Fa Fb Fc Ha Hb Hc.
  destruct (fwrap_ok p ev a Fa Ha) as (FX & BX & kx & KX). destruct (fwrap_ok p ev b Fb Hb) as (FY & BY & ky & KY). destruct (fwrap_ok p ev c Fc Hc) as (FZ & BZ & kz & KZ). cbv zeta in *.
  unfold feuler_unique. set (x := fwrap_in_double ev a) in *. set (y := fwrap_in_double ev b) in *. set (z := fwrap_in_double ev c) in *.
  pose proof thresholds as (F1 & F2 & F3 & F4 & T1 & T2 & T3 & T4). cbv zeta in *.
  set (l1 := fsub fmhalf_pi feuler_tol) in *. set (l2 := fadd fmhalf_pi feuler_tol) in *. set (h1 := fsub fhalf_pi feuler_tol) in *. set (h2 := fadd fhalf_pi feuler_tol) in *.
  pose proof (pi_consts p) as (P1 & _ & _ & P4 & P5 & _). pose proof (fu_pos p) as U. pose proof (fu_pos F64) as U6. pose proof (fu_24 p) as V. pose proof (eta5_u p) as T5.
  assert (W0 : forall t, 0 <= wrap_error p t).
  { intro t. unfold wrap_error. rewrite !roundoff_fu. pose proof (Rabs_pos t). assert (0 <= 8 * fu F64 * (Rabs t + 8)) by (apply Rmult_le_pos; lra). lra. }
  pose proof (W0 (B2R a)) as WA. pose proof (W0 (B2R b)) as WB. pose proof (W0 (B2R c)) as WC.
  assert (FD : is_finite (fcvt F64 y) = true) by now rewrite widen_fin. pose proof (widen_val p y) as VD. set (yd := fcvt F64 y) in *.
  rewrite !(flt_R F64), !(fle_R F64) by assumption. rewrite !VD.
  apply Rabs_both in T1, T2, T3, T4, P1. apply Rabs_both in BY.
  (* the pitch seen from far *)
  assert (OFF : forall s k, s = 1 \/ s = -1 -> /1000 - 2 * fu F64 < Rabs (B2R y - s * (PI/2)) -> /1000 - wrap_error p (B2R b) - 2 * fu F64 < pitch_off (B2R b) s k).
  { intros s k S H. unfold pitch_off. pose proof PI_RGT_0. pose proof (PiBounds.PI_close) as _.
    assert (G : /1000 - 2 * fu F64 < Rabs (B2R y - (s * (PI/2) + 2 * PI * IZR (k - ky)))).
    { rewrite minus_IZR. set (j := IZR k - IZR ky). assert (J : j = 0 \/ 1 <= j \/ j <= -1).
      { unfold j. rewrite <- minus_IZR. destruct (Z_lt_le_dec (k - ky) 0) as [A|A]; [right; right; apply (IZR_le (k - ky) (-1)); lia|]. destruct (Z.eq_dec (k - ky) 0) as [B|B]; [left; now rewrite B|right; left; apply (IZR_le 1); lia]. }
      destruct J as [->|J]; [now rewrite Rmult_0_r, Rplus_0_r|].
      assert (J2 : PI <= PI * j \/ PI * j <= - PI). { destruct J as [J|J]; [left|right]; [replace PI with (PI * 1) at 1 by ring|replace (- PI) with (PI * -1) by ring]; apply Rmult_le_compat_l; lra. }
      replace (2 * PI * j) with (2 * (PI * j)) by ring. set (pj := PI * j) in *. unfold Rabs. destruct (Rcase_abs _); destruct S; subst s; destruct J2; lra. }
    rewrite minus_IZR in G.
    assert (D : Rabs (B2R y - (s * (PI/2) + 2 * PI * (IZR k - IZR ky))) <= Rabs (B2R y - (B2R b - 2 * PI * IZR ky)) + Rabs (B2R b - (s * (PI/2) + 2 * PI * IZR k))).
    { replace (B2R y - (s * (PI/2) + 2 * PI * (IZR k - IZR ky))) with ((B2R y - (B2R b - 2 * PI * IZR ky)) + (B2R b - (s * (PI/2) + 2 * PI * IZR k))) by ring. apply Rabs_triang. }
    lra. }
  assert (IN : forall s, Rabs (B2R y - s * (PI/2)) <= /1000 + 2 * fu F64 -> pitch_off (B2R b) s ky <= /1000 + wrap_error p (B2R b) + 2 * fu F64).
  { intros s H. unfold pitch_off. replace (B2R b - (s * (PI/2) + 2 * PI * IZR ky)) with (- (B2R y - (B2R b - 2 * PI * IZR ky)) + (B2R y - s * (PI/2))) by ring.
    eapply Rle_trans; [apply Rabs_triang|]. rewrite Rabs_Ropp. lra. }
  assert (TURN : forall (g : fl p) (v : R) (k : Z) w, is_finite g = true -> Rabs (B2R g) <= piT p -> Rabs (B2R g - (v - 2 * PI * IZR k)) <= w ->
     is_finite (fhalf_turn g) = true /\ Rabs (B2R (fhalf_turn g)) <= piT p /\ Rabs (B2R (fhalf_turn g) - ((v - 2 * PI * IZR k) + shift (B2R g))) <= w + 8 * fu p).
  { intros g v k w Fg Bg Kg. destruct (fhalf_turn_ok p g Fg Bg) as (A & B & C). split; [exact A|]. split; [exact B|]. rewrite turned_shift in C.
    replace (B2R (fhalf_turn g) - ((v - 2 * PI * IZR k) + shift (B2R g))) with ((B2R (fhalf_turn g) - (B2R g + shift (B2R g))) + (B2R g - (v - 2 * PI * IZR k))) by ring. eapply Rle_trans; [apply Rabs_triang|]. lra. }
  assert (SUM : forall s, s = 1 \/ s = -1 -> let g := if Rlt_bool s 0 then fsub x z else fadd x z in is_finite g = true /\ Rabs (B2R g) <= 2 * piT p /\
     Rabs (B2R g - ((B2R a - 2 * PI * IZR kx) + s * (B2R c - 2 * PI * IZR kz))) <= wrap_error p (B2R a) + wrap_error p (B2R c) + 8 * fu p).
  { intros s S. cbv zeta. set (g := if Rlt_bool s 0 then fsub x z else fadd x z). set (e := B2R x + s * B2R z).
    assert (S1 : Rabs s = 1) by (destruct S; subst s; unfold Rabs; destruct (Rcase_abs _); lra).
    assert (BE : Rabs e <= 2 * piT p). { unfold e. eapply Rle_trans; [apply Rabs_triang|]. rewrite Rabs_mult, S1. lra. }
    assert (E : B2R g = rnd p e /\ is_finite g = true).
    { unfold g, e in *. destruct S; subst s.
      - rewrite Rlt_bool_false by lra. rewrite Rmult_1_l in *. apply fadd_R; try assumption. eapply Rle_trans; [exact BE|]. apply Rle_trans with (bpow radix2 4); [change (bpow radix2 4) with 16; lra|apply bpow_le; destruct p; cbn; lia].
      - rewrite Rlt_bool_true by lra. replace (B2R x + -1 * B2R z) with (B2R x - B2R z) in * by ring. apply fsub_R; try assumption. eapply Rle_trans; [exact BE|]. apply Rle_trans with (bpow radix2 4); [change (bpow radix2 4) with 16; lra|apply bpow_le; destruct p; cbn; lia]. }
    destruct E as [E Fg]. split; [exact Fg|]. rewrite E. split.
    - pose proof (ftwopi_val p) as TV. apply Rabs_both in BE. apply Rabs_le. split.
      + replace (- (2 * piT p)) with (rnd p (- (2 * piT p))). { apply rnd_le. lra. } rewrite <- TV. unfold rnd. rewrite round_NE_opp. f_equal. apply rnd_id, fmt_B2R.
      + replace (2 * piT p) with (rnd p (2 * piT p)). { apply rnd_le. lra. } rewrite <- TV. apply rnd_id, fmt_B2R.
    - replace (rnd p e - ((B2R a - 2 * PI * IZR kx) + s * (B2R c - 2 * PI * IZR kz))) with ((rnd p e - e) + ((B2R x - (B2R a - 2 * PI * IZR kx)) + s * (B2R z - (B2R c - 2 * PI * IZR kz)))) by (unfold e; ring).
      eapply Rle_trans; [apply Rabs_triang|]. pose proof (Rabs_triang (B2R x - (B2R a - 2 * PI * IZR kx)) (s * (B2R z - (B2R c - 2 * PI * IZR kz)))) as TR. rewrite (Rabs_mult s), S1 in TR.
      pose proof (rnd_err_le p e) as RE. assert (fu p * Rabs e <= fu p * (63/10)) by (apply Rmult_le_compat_l; lra). lra. }
  destruct (Rlt_bool_spec (B2R y) (B2R l1)) as [C1|C1].
  { (* below - pi/2 *)
    destruct (TURN x (B2R a) kx _ FX BX KX) as (A1 & A2 & A3). destruct (TURN z (B2R c) kz _ FZ BZ KZ) as (B1 & B2 & B3).
    destruct (fmirror_ok p y true FY) as (M1 & M2); [apply Rabs_le; lra|lra|]. cbv iota in M1, M2. fold yd in M1, M2.
    do 3 eexists. split; [reflexivity|]. split; [exact A1|]. split; [exact M1|]. split; [exact B1|]. left.
    exists ((B2R a - 2 * PI * IZR kx) + shift (B2R x)), (- ((B2R b - 2 * PI * IZR ky) + PI)), ((B2R c - 2 * PI * IZR kz) + shift (B2R z)). split.
    { destruct (shift_trig (B2R x) (B2R a - 2 * PI * IZR kx)) as [X1 X2]. destruct (shift_trig (B2R z) (B2R c - 2 * PI * IZR kz)) as [Z1 Z2]. destruct (sin_refl1 (B2R b - 2 * PI * IZR ky)) as [Y1 Y2].
      destruct (same_angle_trig _ _ (minus_turns (B2R a) kx)) as [SA CA]. destruct (same_angle_trig _ _ (minus_turns (B2R b) ky)) as [SB CB]. destruct (same_angle_trig _ _ (minus_turns (B2R c) kz)) as [SC CC].
      apply same_euler_trig; congruence. }
    split; [exact A3|]. split.
    { set (m := B2R (fcvt p (fneg (fadd yd fM_PI)))) in *. replace (m - - ((B2R b - 2 * PI * IZR ky) + PI)) with ((m - - (B2R y + PI)) + - (B2R y - (B2R b - 2 * PI * IZR ky))) by ring. eapply Rle_trans; [apply Rabs_triang|]. rewrite Rabs_Ropp. lra. }
    split; [exact B3|]. split; [exact A2|]. split; [exact B2|]. split.
    { apply Rabs_both in M2. apply Rabs_le. lra. }
    intros s k S. apply OFF; [exact S|]. unfold Rabs. destruct (Rcase_abs _); destruct S; subst s; lra. }
  rewrite (Rle_bool_true (B2R l1) (B2R y)) by lra. cbn [andb].
  destruct (Rle_bool_spec (B2R y) (B2R l2)) as [C2|C2].
  { (* the lower band *)
    destruct (SUM (-1) ltac:(now right)) as (S1 & S2 & S3). rewrite Rlt_bool_true in S1, S2, S3 by lra.
    do 3 eexists. split; [reflexivity|]. split; [exact S1|]. split; [exact FY|]. split; [reflexivity|]. right.
    exists (-1), ky, (B2R a - 2 * PI * IZR kx), (B2R c - 2 * PI * IZR kz). split; [now right|].
    assert (Y : Rabs (B2R y - -1 * (PI/2)) <= /1000 + 2 * fu F64) by (apply Rabs_le; lra).
    split; [apply IN, Y|]. split; [apply minus_turns|]. split; [apply minus_turns|]. split; [exact S3|]. split; [exact S2|]. split; [exact Y|]. split; [exact KY|reflexivity]. }
  rewrite (Rlt_bool_true (B2R l2) (B2R y)) by lra. cbn [andb].
  destruct (Rlt_bool_spec (B2R y) (B2R h1)) as [C3|C3].
  { do 3 eexists. split; [reflexivity|]. split; [exact FX|]. split; [exact FY|]. split; [exact FZ|]. left.
    exists (B2R a - 2 * PI * IZR kx), (B2R b - 2 * PI * IZR ky), (B2R c - 2 * PI * IZR kz). split; [apply same_euler_turns; apply minus_turns|].
    split; [lra|]. split; [lra|]. split; [lra|]. split; [exact BX|]. split; [exact BZ|]. split; [apply Rabs_le; lra|].
    intros s k S. apply OFF; [exact S|]. unfold Rabs. destruct (Rcase_abs _); destruct S; subst s; lra. }
  rewrite (Rle_bool_true (B2R h1) (B2R y)) by lra. cbn [andb].
  destruct (Rle_bool_spec (B2R y) (B2R h2)) as [C4|C4].
  { destruct (SUM 1 ltac:(now left)) as (S1 & S2 & S3). rewrite Rlt_bool_false in S1, S2, S3 by lra.
    do 3 eexists. split; [reflexivity|]. split; [exact S1|]. split; [exact FY|]. split; [reflexivity|]. right.
    exists 1, ky, (B2R a - 2 * PI * IZR kx), (B2R c - 2 * PI * IZR kz). split; [now left|].
    assert (Y : Rabs (B2R y - 1 * (PI/2)) <= /1000 + 2 * fu F64) by (apply Rabs_le; lra).
    split; [apply IN, Y|]. split; [apply minus_turns|]. split; [apply minus_turns|]. split; [exact S3|]. split; [exact S2|]. split; [exact Y|]. split; [exact KY|reflexivity]. }
  destruct (TURN x (B2R a) kx _ FX BX KX) as (A1 & A2 & A3). destruct (TURN z (B2R c) kz _ FZ BZ KZ) as (B1 & B2 & B3).
  destruct (fmirror_ok p y false FY) as (M1 & M2); [apply Rabs_le; lra|lra|]. cbv iota in M1, M2. fold yd in M1, M2.
  do 3 eexists. split; [reflexivity|]. split; [exact A1|]. split; [exact M1|]. split; [exact B1|]. left.
  exists ((B2R a - 2 * PI * IZR kx) + shift (B2R x)), (- ((B2R b - 2 * PI * IZR ky) - PI)), ((B2R c - 2 * PI * IZR kz) + shift (B2R z)). split.
  { destruct (shift_trig (B2R x) (B2R a - 2 * PI * IZR kx)) as [X1 X2]. destruct (shift_trig (B2R z) (B2R c - 2 * PI * IZR kz)) as [Z1 Z2]. destruct (sin_refl2 (B2R b - 2 * PI * IZR ky)) as [Y1 Y2].
    destruct (same_angle_trig _ _ (minus_turns (B2R a) kx)) as [SA CA]. destruct (same_angle_trig _ _ (minus_turns (B2R b) ky)) as [SB CB]. destruct (same_angle_trig _ _ (minus_turns (B2R c) kz)) as [SC CC].
    apply same_euler_trig; congruence. }
  split; [exact A3|]. split.
  { set (m := B2R (fcvt p (fneg (fsub yd fM_PI)))) in *. replace (m - - ((B2R b - 2 * PI * IZR ky) - PI)) with ((m - - (B2R y - PI)) + - (B2R y - (B2R b - 2 * PI * IZR ky))) by ring. eapply Rle_trans; [apply Rabs_triang|]. rewrite Rabs_Ropp. lra. }
  split; [exact B3|]. split; [exact A2|]. split; [exact B2|]. split.
  { apply Rabs_both in M2. apply Rabs_le. lra. }
  intros s k S. apply OFF; [exact S|]. unfold Rabs. destruct (Rcase_abs _); destruct S; subst s; lra.
Qed.

(** ** rotations of nearby triples *)
Lemma Rot_close_x a b : close (Rabs (a - b)) (Rot_x a) (Rot_x b). Proof. rewrite !Rot_x_aa. apply aa_close. lin. Qed.
Lemma Rot_close_y a b : close (Rabs (a - b)) (Rot_y a) (Rot_y b). Proof. rewrite !Rot_y_aa. apply aa_close. lin. Qed.
Lemma Rot_close_z a b : close (Rabs (a - b)) (Rot_z a) (Rot_z b). Proof. rewrite !Rot_z_aa. apply aa_close. lin. Qed.
Lemma zyx_close a b c x y z e f g : Rabs (x - a) <= e -> Rabs (y - b) <= f -> Rabs (z - c) <= g -> close (e + f + g) (zyx_rot (mkZyx x y z)) (zyx_rot (mkZyx a b c)).
Proof.
  intros A B C. unfold zyx_rot; cbn [zyaw zpitch zroll]. eapply close_mono; [|apply close_mul; [apply Rot_z_SO3|apply SO3_mmul; [apply Rot_y_SO3|apply Rot_x_SO3]|eapply close_mono; [exact A|apply Rot_close_z]|]]. 
  2: { apply close_mul; [apply Rot_y_SO3|apply Rot_x_SO3|eapply close_mono; [exact B|apply Rot_close_y]|eapply close_mono; [exact C|apply Rot_close_x]]. } lra.
Qed.
Lemma xyz_close a b c x y z e f g : Rabs (x - a) <= e -> Rabs (y - b) <= f -> Rabs (z - c) <= g -> close (e + f + g) (xyz_rot (mkXyz x y z)) (xyz_rot (mkXyz a b c)).
Proof.
  intros A B C. unfold xyz_rot; cbn [xroll xpitch xyaw]. eapply close_mono; [|apply close_mul; [apply Rot_x_SO3|apply SO3_mmul; [apply Rot_y_SO3|apply Rot_z_SO3]|eapply close_mono; [exact A|apply Rot_close_x]|]]. 
  2: { apply close_mul; [apply Rot_y_SO3|apply Rot_z_SO3|eapply close_mono; [exact B|apply Rot_close_y]|eapply close_mono; [exact C|apply Rot_close_z]]. } lra.
Qed.
(** at +-pi/2 *)
Lemma xyz_lock s a c : s = 1 \/ s = -1 -> xyz_rot (mkXyz (a + s * c) (s * (PI/2)) 0) = xyz_rot (mkXyz a (s * (PI/2)) c).
Proof.
  intros [-> | ->]; unfold xyz_rot; cbn [xroll xpitch xyaw]; rewrite Rot_z_0, mmul_id_r, Rot_x_plus, <- mmul_assoc; f_equal.
  - replace (1 * (PI/2)) with (PI/2) by ring. rewrite Rot_y_half_z. f_equal. f_equal. ring.
  - replace (-1 * (PI/2)) with (- (PI/2)) by ring. rewrite Rot_y_mhalf_z. f_equal. f_equal. ring.
Qed.
Lemma zyx_lock s a c : s = 1 \/ s = -1 -> zyx_rot (mkZyx (a + s * c) (s * (PI/2)) 0) = mmul (Rot_z (2 * s * c)) (zyx_rot (mkZyx a (s * (PI/2)) c)).
Proof.
  intros [-> | ->]; unfold zyx_rot; cbn [zyaw zpitch zroll]; rewrite Rot_x_0, mmul_id_r.
  - replace (1 * (PI/2)) with (PI/2) by ring. rewrite Rot_y_half_x, !mmul_assoc, <- !Rot_z_plus. f_equal. f_equal. ring.
  - replace (-1 * (PI/2)) with (- (PI/2)) by ring. rewrite Rot_y_mhalf_x, !mmul_assoc, <- !Rot_z_plus. f_equal. f_equal. ring.
Qed.
