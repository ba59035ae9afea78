(** * FloatSecond: rounding of the second-order mappings. *)
From Coq Require Import ZArith Reals Lra Psatz Bool List Lia.
From Flocq Require Import IEEE754.BinarySingleNaN Core.Core.
From Verif Require Import Linalg Spec SpecFacts SpecClose ModelCommon ModelEigen CommonFacts CloseFacts ModelDiff
  FloatModel FloatFacts FloatWrap FloatModel2 SpecFloatQ FloatQFacts FloatQProd FloatQHist FloatQRot FloatMHist FloatCast FloatModel3 SpecLibm FloatBuild FloatModel5 FloatPose FloatModel6 FloatMat FloatModel12 FloatDiff2 FloatDiff3 FloatJac FloatJac2 FloatModel15.
Import ListNotations.
Local Open Scope R_scope.

Section Ap.
Variables (p : prim) (K : R).
Hypothesis K1 : 1 <= K.
Hypothesis KU : K * fu p <= / 1000.
Let r := K * fu p.
Lemma r_facts : 0 < fu p <= r /\ r <= / 1000 /\ 0 < eta p /\ eta p <= fu p * bpow radix2 (-126).
Proof.
  pose proof (fu_pos p) as U. split; [split; [exact U|]|]. { unfold r. rewrite <- (Rmult_1_l (fu p)) at 1. apply Rmult_le_compat_r; lra. }
  split; [exact KU|]. split; [apply eta_pos|apply eta_u].
Qed.
(** [a] is [x], of size at most [B], up to [c] roundings times K of that size *)
Definition ap (c B : R) (a : fl p) (x : R) : Prop := is_finite a = true /\ Rabs x <= B /\ Rabs (B2R a - x) <= c * r * B.
Lemma ap_neg c B a x : ap c B a x -> ap c B (fneg a) (- x).
Proof.
  intros (F & X & E). split; [rewrite fneg_fin; exact F|]. split; [rewrite Rabs_Ropp; exact X|]. rewrite fneg_val. replace (- B2R a - - x) with (- (B2R a - x)) by ring. rewrite Rabs_Ropp. exact E.
Qed.
Lemma ap_exact B (a : fl p) : is_finite a = true -> Rabs (B2R a) <= B -> ap 0 B a (B2R a).
Proof. intros F X. split; [exact F|]. split; [exact X|]. rewrite Rminus_diag_eq, Rabs_R0 by reflexivity. rewrite !Rmult_0_l. lra. Qed.
Lemma eta_small B : bpow radix2 (-100) <= B -> eta p <= / 1000 * (r * B).
Proof.
  intro H. destruct r_facts as (U & _ & _ & E). eapply Rle_trans; [exact E|]. assert (B0 := bpow_gt_0 radix2 (-100)).
  apply Rle_trans with (fu p * (bpow radix2 (-100) * bpow radix2 (-10))); [apply Rmult_le_compat_l; [lra|]; rewrite <- bpow_plus; apply bpow_le; lia|].
  change (bpow radix2 (-10)) with (/ 1024). assert (fu p * bpow radix2 (-100) <= r * B) by (apply Rmult_le_compat; lra).
  assert (0 <= fu p * bpow radix2 (-100)) by (apply Rmult_le_pos; lra). lra.
Qed.
Lemma ap_mul c1 c2 c B1 B2 a b x y : ap c1 B1 a x -> ap c2 B2 b y -> 0 <= c1 <= 50 -> 0 <= c2 <= 50 -> 0 <= B1 -> 0 <= B2 -> bpow radix2 (-100) <= B1 * B2 <= bpow radix2 99 ->
  c1 + c2 + c1 * c2 / 1000 + (1 + c1 / 1000) * (1 + c2 / 1000) + / 1000 <= c -> ap c (B1 * B2) (fmul a b) (x * y).
Proof.
  intros (Fa & Xa & Ea) (Fb & Xb & Eb) C1 C2 P1 P2 [PL PH] HC. destruct r_facts as (U & R1 & E0 & _). pose proof (eta_small _ PL) as ES.
  assert (AB : 0 <= B1 * B2) by (apply Rmult_le_pos; assumption). set (q := B1 * B2) in *. set (P := r * q) in *. assert (P0 : 0 <= P) by (apply Rmult_le_pos; lra).
  assert (G1 : 0 <= c1 * r <= c1 / 1000) by (split; [apply Rmult_le_pos; lra|apply Rmult_le_compat_l; lra]).
  assert (G2 : 0 <= c2 * r <= c2 / 1000) by (split; [apply Rmult_le_pos; lra|apply Rmult_le_compat_l; lra]).
  destruct (approx_mul p a b x y (c1 * r * B1) (c2 * r * B2) B1 B2 (Logic.conj Fa Ea) (Logic.conj Fb Eb) Xa Xb) as [F E].
  { replace ((B1 + c1 * r * B1) * (B2 + c2 * r * B2)) with (q * ((1 + c1 * r) * (1 + c2 * r))) by (unfold q; ring).
    apply Rle_trans with (bpow radix2 99 * ((1 + / 20) * (1 + / 20))); [apply Rmult_le_compat; try lra; [apply Rmult_le_pos; lra|apply Rmult_le_compat; lra]|].
    replace (bpow radix2 100) with (bpow radix2 99 * 2) by (change 2 with (bpow radix2 1); rewrite <- bpow_plus; reflexivity). apply Rmult_le_compat_l; [apply bpow_ge_0|lra]. }
  split; [exact F|]. split; [rewrite Rabs_mult; apply Rmult_le_compat; try apply Rabs_pos; assumption|].
  eapply Rle_trans; [exact E|]. replace (c * r * q) with (c * P) by (unfold P; ring).
  replace (c1 * r * B1 * (B2 + c2 * r * B2) + B1 * (c2 * r * B2) + fu p * ((B1 + c1 * r * B1) * (B2 + c2 * r * B2)))
    with (c1 * P + (c1 * (c2 * r)) * P + c2 * P + (fu p * q) * ((1 + c1 * r) * (1 + c2 * r))) by (unfold P, q; ring).
  assert (T1 : c1 * (c2 * r) * P <= c1 * c2 / 1000 * P). { apply Rmult_le_compat_r; [exact P0|]. replace (c1 * c2 / 1000) with (c1 * (c2 / 1000)) by field. apply Rmult_le_compat_l; lra. }
  assert (T2 : (fu p * q) * ((1 + c1 * r) * (1 + c2 * r)) <= P * ((1 + c1 / 1000) * (1 + c2 / 1000))).
  { apply Rmult_le_compat; [apply Rmult_le_pos; lra|apply Rmult_le_pos; lra|unfold P; apply Rmult_le_compat_r; lra|apply Rmult_le_compat; lra]. }
  assert (T3 : (c1 + c2 + c1 * c2 / 1000 + (1 + c1 / 1000) * (1 + c2 / 1000) + / 1000) * P <= c * P) by (apply Rmult_le_compat_r; assumption). lra.
Qed.
Lemma prod_err c1 c2 B1 B2 a b x y B : ap c1 B1 a x -> ap c2 B2 b y -> 0 <= c1 <= 50 -> 0 <= c2 <= 50 -> 0 <= B1 -> 0 <= B2 -> B1 * B2 <= B ->
  Rabs (B2R a * B2R b - x * y) <= (c1 + c2 + c1 * c2 / 1000) * (r * B) /\ Rabs (B2R a * B2R b) <= (1 + c1 / 1000) * (1 + c2 / 1000) * B.
Proof.
  intros (Fa & Xa & Ea) (Fb & Xb & Eb) C1 C2 P1 P2 HB. destruct r_facts as (U & R1 & E0 & _).
  assert (AB : 0 <= B1 * B2) by (apply Rmult_le_pos; assumption).
  assert (G1 : 0 <= c1 * r <= c1 / 1000) by (split; [apply Rmult_le_pos; lra|apply Rmult_le_compat_l; lra]).
  assert (G2 : 0 <= c2 * r <= c2 / 1000) by (split; [apply Rmult_le_pos; lra|apply Rmult_le_compat_l; lra]).
  assert (Ha : Rabs (B2R a) <= (1 + c1 / 1000) * B1).
  { replace (B2R a) with ((B2R a - x) + x) by ring. eapply Rle_trans; [apply Rabs_triang|]. assert (c1 * r * B1 <= c1 / 1000 * B1) by (apply Rmult_le_compat_r; lra). lra. }
  assert (Hb : Rabs (B2R b) <= (1 + c2 / 1000) * B2).
  { replace (B2R b) with ((B2R b - y) + y) by ring. eapply Rle_trans; [apply Rabs_triang|]. assert (c2 * r * B2 <= c2 / 1000 * B2) by (apply Rmult_le_compat_r; lra). lra. }
  split.
  - replace (B2R a * B2R b - x * y) with ((B2R a - x) * B2R b + x * (B2R b - y)) by ring. eapply Rle_trans; [apply Rabs_triang|]. rewrite !Rabs_mult.
    assert (T1 : Rabs (B2R a - x) * Rabs (B2R b) <= (c1 * r * B1) * ((1 + c2 / 1000) * B2)) by (apply Rmult_le_compat; try apply Rabs_pos; assumption).
    assert (T2 : Rabs x * Rabs (B2R b - y) <= B1 * (c2 * r * B2)) by (apply Rmult_le_compat; try apply Rabs_pos; assumption).
    apply Rle_trans with ((c1 + c2 + c1 * c2 / 1000) * (r * (B1 * B2))).
    + replace ((c1 + c2 + c1 * c2 / 1000) * (r * (B1 * B2))) with ((c1 * r * B1) * ((1 + c2 / 1000) * B2) + B1 * (c2 * r * B2)) by field. lra.
    + apply Rmult_le_compat_l; [|apply Rmult_le_compat_l; lra]. assert (0 <= c1 * c2) by (apply Rmult_le_pos; lra). lra.
  - rewrite Rabs_mult. apply Rle_trans with (((1 + c1 / 1000) * B1) * ((1 + c2 / 1000) * B2)); [apply Rmult_le_compat; try apply Rabs_pos; assumption|].
    replace ((1 + c1 / 1000) * B1 * ((1 + c2 / 1000) * B2)) with ((1 + c1 / 1000) * (1 + c2 / 1000) * (B1 * B2)) by ring. apply Rmult_le_compat_l; [apply Rmult_le_pos; lra|exact HB].
Qed.
Lemma ap_dot2 t c1 c2 c3 c4 c B1 B2 B3 B4 B a0 b0 a1 b1 x0 y0 x1 y1 : order 2 t -> ap c1 B1 a0 x0 -> ap c2 B2 b0 y0 -> ap c3 B3 a1 x1 -> ap c4 B4 b1 y1 ->
  0 <= c1 <= 50 -> 0 <= c2 <= 50 -> 0 <= c3 <= 50 -> 0 <= c4 <= 50 -> 0 <= B1 -> 0 <= B2 -> 0 <= B3 -> 0 <= B4 -> B1 * B2 <= B -> B3 * B4 <= B -> bpow radix2 (-100) <= B <= bpow radix2 99 ->
  (c1 + c2 + c1 * c2 / 1000) + (c3 + c4 + c3 * c4 / 1000) + (2 + / 1000) * ((1 + c1 / 1000) * (1 + c2 / 1000) + (1 + c3 / 1000) * (1 + c4 / 1000)) + / 100 <= c ->
  approximates (c * (r * B)) (fdot t [a0; a1] [b0; b1]) (x0 * y0 + x1 * y1).
Proof.
  intros O A0 A1 A2 A3 C1 C2 C3 C4 P1 P2 P3 P4 Q1 Q2 [BL BH] HC. destruct r_facts as (U & R1 & E0 & _). pose proof (eta_small _ BL) as ES.
  destruct (prod_err c1 c2 B1 B2 a0 b0 x0 y0 B A0 A1 C1 C2 P1 P2 Q1) as [S1 M1]. destruct (prod_err c3 c4 B3 B4 a1 b1 x1 y1 B A2 A3 C3 C4 P3 P4 Q2) as [S2 M2].
  assert (B0 : 0 < B) by (pose proof (bpow_gt_0 radix2 (-100)); lra).
  set (g1 := (1 + c1 / 1000) * (1 + c2 / 1000)) in *. set (g2 := (1 + c3 / 1000) * (1 + c4 / 1000)) in *.
  assert (G1 : g1 <= (1 + / 20) * (1 + / 20)) by (apply Rmult_le_compat; lra). assert (G2 : g2 <= (1 + / 20) * (1 + / 20)) by (apply Rmult_le_compat; lra).
  assert (G10 : 0 <= g1) by (apply Rmult_le_pos; lra). assert (G20 : 0 <= g2) by (apply Rmult_le_pos; lra).
  destruct A0 as (F0 & _). destruct A1 as (F1 & _). destruct A2 as (F2 & _). destruct A3 as (F3 & _).
  destruct (fdot2_err p t a0 a1 b0 b1 ((g1 + g2) * B) O F0 F2 F1 F3) as [F E]; [lra| |].
  { apply Rle_trans with (bpow radix2 2 * bpow radix2 99); [change (bpow radix2 2) with 4; apply Rmult_le_compat; lra|]. rewrite <- bpow_plus. apply bpow_le. lia. }
  split; [exact F|]. set (f := B2R (fdot t [a0; a1] [b0; b1])) in *.
  replace (f - (x0 * y0 + x1 * y1)) with ((f - (B2R a0 * B2R b0 + B2R a1 * B2R b1)) + ((B2R a0 * B2R b0 - x0 * y0) + (B2R a1 * B2R b1 - x1 * y1))) by ring.
  eapply Rle_trans; [apply Rabs_triang|]. eapply Rle_trans; [apply Rplus_le_compat_l; apply Rabs_triang|].
  set (P := r * B) in *. assert (P0 : 0 <= P) by (apply Rmult_le_pos; lra).
  assert (T : (2 + / 1000) * fu p * ((g1 + g2) * B) <= (2 + / 1000) * (g1 + g2) * P).
  { replace ((2 + / 1000) * fu p * ((g1 + g2) * B)) with ((2 + / 1000) * (g1 + g2) * (fu p * B)) by ring. apply Rmult_le_compat_l; [apply Rmult_le_pos; lra|]. unfold P. apply Rmult_le_compat_r; lra. }
  assert (T2 : (c1 + c2 + c1 * c2 / 1000 + (c3 + c4 + c3 * c4 / 1000) + (2 + / 1000) * (g1 + g2) + / 100) * P <= c * P) by (apply Rmult_le_compat_r; assumption). lra.
Qed.
Lemma ap_trig (a : fl p) x : approximates (2 * fu p) a x -> Rabs x <= 1 -> ap 2 1 a x.
Proof. intros [F E] X. destruct r_facts as (U & _). split; [exact F|]. split; [exact X|]. lra. Qed.
Lemma ap_one : ap 0 1 (fofZ p 1) 1.
Proof. destruct (fofZ1 p) as [F V]. split; [exact F|]. split; [rewrite Rabs_R1; lra|]. rewrite V, Rminus_diag_eq, Rabs_R0 by reflexivity. lra. Qed.
Lemma K_big : K <= bpow radix2 44 /\ K * K <= bpow radix2 88.
Proof.
  assert (H : K <= bpow radix2 44).
  { destruct r_facts as (U & _). apply Rle_trans with (/ 1000 * / fu p).
    - apply Rmult_le_reg_r with (fu p); [lra|]. rewrite Rmult_assoc, Rinv_l by lra. lra.
    - pose proof (inv_fu p) as I. apply Rle_trans with (/ 512 * bpow radix2 53); [apply Rmult_le_compat; try lra; left; apply Rinv_0_lt_compat; lra|]. right. change (/ 512) with (bpow radix2 (-9)). rewrite <- bpow_plus. reflexivity. }
  split; [exact H|]. change 88%Z with (44 + 44)%Z. rewrite bpow_plus. apply Rmult_le_compat; lra.
Qed.

(** the reciprocals *)
Section Recips.
Variables (t2 : fl p) (c : R).
Hypothesis A : approximates (2 * fu p) t2 c.
Hypothesis HK : K = / Rabs c.
Lemma cK : Rabs c * K = 1 /\ 0 < Rabs c <= 1 /\ 1000 * fu p <= Rabs c /\ c <> 0.
Proof.
  assert (N : Rabs c <> 0). { intro E. rewrite E, Rinv_0 in HK. lra. } pose proof (Rabs_pos c) as P.
  assert (M : Rabs c * K = 1) by (rewrite HK; field; exact N). split; [exact M|].
  assert (Q : Rabs c <= 1). { rewrite <- M, <- (Rmult_1_r (Rabs c)) at 1. apply Rmult_le_compat_l; lra. }
  split; [lra|]. split; [|intro E; apply N; rewrite E; apply Rabs_R0].
  apply Rmult_le_reg_r with K; [lra|]. rewrite M. lra.
Qed.
Lemma ap_recip : feq t2 fzero = false /\ ap (42/10) K (frecip t2) (1 / c).
Proof.
  destruct cK as (M & Q & C & N). destruct r_facts as (U & _). destruct (recip_ok p t2 c A ltac:(lra) ltac:(lra)) as [Z [F E]]. split; [exact Z|]. split; [exact F|].
  rewrite <- HK in E. split; [unfold Rdiv; rewrite Rmult_1_l, Rabs_inv, HK; lra|]. eapply Rle_trans; [exact E|]. right. unfold r. ring.
Qed.
Lemma ap_recip2 : ap (72/10) (K * K) (frecip (fmul t2 t2)) (1 / (c * c)).
Proof.
  destruct cK as (M & Q & C & N). destruct r_facts as (U & R1 & E0 & EU). destruct A as [F2 E2]. destruct K_big as [KB KKB].
  assert (cc : 0 < c * c) by (apply Rsqr_pos_lt; exact N). set (y := c * c) in *.
  assert (YA : Rabs c * Rabs c = y) by (rewrite <- Rabs_mult; apply Rabs_pos_eq; lra).
  assert (KY : y * (K * K) = 1) by (rewrite <- YA; replace (Rabs c * Rabs c * (K * K)) with ((Rabs c * K) * (Rabs c * K)) by ring; rewrite M; ring).
  assert (YB : bpow radix2 (-88) <= y). { apply Rmult_le_reg_r with (K * K); [apply Rmult_lt_0_compat; lra|]. rewrite KY. apply Rle_trans with (bpow radix2 (-88) * bpow radix2 88); [apply Rmult_le_compat_l; [apply bpow_ge_0|exact KKB]|]. rewrite <- bpow_plus. right. reflexivity. }
  assert (D : 2 * fu p = 2 * r * Rabs c) by (unfold r; replace (2 * (K * fu p) * Rabs c) with (2 * fu p * (Rabs c * K)) by ring; rewrite M; ring).
  set (b := B2R t2) in *. assert (SQ : Rabs (b * b - y) <= (4 * r + 4 * r * r) * y).
  { replace (b * b - y) with (2 * (c * (b - c)) + (b - c) * (b - c)) by (unfold y; ring). eapply Rle_trans; [apply Rabs_triang|]. rewrite !Rabs_mult, (Rabs_pos_eq 2) by lra.
    set (dd := Rabs (b - c)) in *. assert (D0 : 0 <= dd) by apply Rabs_pos. rewrite D in E2.
    assert (Rabs c * dd <= Rabs c * (2 * r * Rabs c)) by (apply Rmult_le_compat_l; lra).
    assert (dd * dd <= (2 * r * Rabs c) * (2 * r * Rabs c)) by (apply Rmult_le_compat; lra).
    replace ((4 * r + 4 * r * r) * y) with (2 * (Rabs c * (2 * r * Rabs c)) + (2 * r * Rabs c) * (2 * r * Rabs c)) by (rewrite <- YA; ring). lra. }
  assert (RR : r * r <= / 1000 * r) by (apply Rmult_le_compat_r; lra).
  assert (SQ' : Rabs (b * b - y) <= (4 + / 200) * r * y) by (eapply Rle_trans; [exact SQ|]; apply Rmult_le_compat_r; lra).
  assert (RY : r * y <= / 1000 * y) by (apply Rmult_le_compat_r; lra). assert (RY0 : 0 <= r * y) by (apply Rmult_le_pos; lra).
  assert (BB : Rabs (b * b) <= (1 + / 100) * y) by (replace (b * b) with ((b * b - y) + y) by ring; eapply Rle_trans; [apply Rabs_triang|]; rewrite (Rabs_pos_eq y) by lra; lra).
  assert (Y1 : y <= 1) by (rewrite <- YA, <- (Rmult_1_l 1); apply Rmult_le_compat; lra).
  destruct (fmul_R p t2 t2 F2 F2) as [R F]; [fold b; pose proof (four_fbig p); lra|]. fold b in R.
  assert (SE : Rabs (B2R (fmul t2 t2) - y) <= 502/100 * r * y).
  { rewrite R. replace (rnd p (b * b) - y) with ((rnd p (b * b) - b * b) + (b * b - y)) by ring. eapply Rle_trans; [apply Rabs_triang|]. pose proof (rnd_err_le p (b * b)) as RE.
    assert (fu p * Rabs (b * b) <= r * ((1 + / 100) * y)) by (apply Rmult_le_compat; try lra; apply Rabs_pos).
    assert (YB' : bpow radix2 (-100) <= y) by (eapply Rle_trans; [|exact YB]; apply bpow_le; lia). pose proof (eta_small _ YB'). lra. }
  destruct (fofZ1 F64) as [Fo Vo].
  destruct (quot_err (B2R (fofZ F64 1)) (B2R (fmul t2 t2)) 1 y 0 (502/100 * r) (K * K) cc) as [SP QE]; [rewrite Vo, Rminus_diag_eq, Rabs_R0 by reflexivity; lra|exact SE|lra|rewrite Rabs_R1; lra|].
  assert (KK : 1 <= K * K) by (rewrite <- (Rmult_1_l 1); apply Rmult_le_compat; lra).
  set (k2 := K * K) in *. assert (RK : 0 <= r * k2 <= / 1000 * k2) by (split; [apply Rmult_le_pos; lra|apply Rmult_le_compat_r; lra]).
  assert (QE' : Rabs (B2R (fofZ F64 1) / B2R (fmul t2 t2) - 1 / y) <= 513/100 * r * k2) by (eapply Rle_trans; [exact QE|]; lra).
  destruct (fquot_err p F64 (or_intror eq_refl) (fofZ F64 1) (fmul t2 t2) (1 / y) (513/100 * r * k2) k2 Fo F (Rgt_not_eq _ _ SP) QE') as [FF EE].
  { unfold Rdiv. rewrite Rmult_1_l, Rabs_pos_eq by (left; apply Rinv_0_lt_compat; exact cc). right. apply Rmult_eq_reg_l with y; [|lra]. rewrite KY. field. lra. }
  { apply Rle_trans with (2 * bpow radix2 88); [lra|]. change 2 with (bpow radix2 1). rewrite <- bpow_plus. apply bpow_le. lia. }
  split; [exact FF|]. split. { unfold Rdiv. rewrite Rmult_1_l, Rabs_pos_eq by (left; apply Rinv_0_lt_compat; exact cc). right. apply Rmult_eq_reg_l with y; [|lra]. rewrite KY. field. lra. }
  eapply Rle_trans; [exact EE|]. assert (UK : fu p * (k2 + 513/100 * r * k2) <= r * ((1 + / 100) * k2)) by (apply Rmult_le_compat; lra).
  assert (YB' : bpow radix2 (-100) <= k2) by (eapply Rle_trans; [|exact KK]; change 1 with (bpow radix2 0); apply bpow_le; lia). pose proof (eta_small _ YB'). lra.
Qed.
End Recips.
End Ap.
