(** Links between the IEEE operations of FloatModel.v and rounded real
    arithmetic, and rounding-error lemmas. *)
From Coq Require Import ZArith Reals Lra Psatz Bool Lia.
From Flocq Require Import IEEE754.BinarySingleNaN Core.Core.
Require Import Flocq.Prop.Relative Flocq.Prop.Plus_error.
From Verif Require Import ModelCommon FloatModel.
Local Open Scope R_scope.

(** rounding of a real to the nearest number of type p (ties to even),
    without overflow *)
Definition femin (p : prim) : Z := (3 - femax p - fprec p)%Z.
Definition ffexp (p : prim) : Z -> Z := FLT_exp (femin p) (fprec p).
Definition rnd (p : prim) (x : R) : R := round radix2 (ffexp p) ZnearestE x.
Definition ffmt (p : prim) (x : R) : Prop := generic_format radix2 (ffexp p) x.
(** unit roundoff 2^-prec *)
Definition fu (p : prim) : R := bpow radix2 (- fprec p).
(** half of the largest power of two that does not overflow *)
Definition fbig (p : prim) : R := bpow radix2 (femax p - 1).

Global Instance ffexp_valid p : Valid_exp (ffexp p).
Proof. apply FLT_exp_valid. apply fprec_pos. Qed.
Global Instance ffexp_mono p : Monotone_exp (ffexp p).
Proof. apply FLT_exp_monotone. Qed.
Lemma ffexp_eq p e : SpecFloat.fexp (fprec p) (femax p) e = ffexp p e.
Proof. reflexivity. Qed.

Lemma rnd_fmt p x : ffmt p (rnd p x).
Proof. apply generic_format_round; auto with typeclass_instances. Qed.
Lemma rnd_id p x : ffmt p x -> rnd p x = x.
Proof. intro H. apply round_generic; auto with typeclass_instances. Qed.
Lemma rnd_le p x y : x <= y -> rnd p x <= rnd p y.
Proof. intro H. apply round_le; auto with typeclass_instances. Qed.
Lemma rnd_0 p : rnd p 0 = 0.
Proof. apply round_0; auto with typeclass_instances. Qed.
Lemma rnd_opp p x : rnd p (- x) = - rnd p x.
Proof. apply round_NE_opp. Qed.
Lemma rnd_le_fmt p x y : ffmt p y -> x <= y -> rnd p x <= y.
Proof. intros F H. rewrite <- (rnd_id p y F). now apply rnd_le. Qed.
Lemma rnd_ge_fmt p x y : ffmt p y -> y <= x -> y <= rnd p x.
Proof. intros F H. rewrite <- (rnd_id p y F). now apply rnd_le. Qed.
Lemma fmt_opp p x : ffmt p x -> ffmt p (- x).
Proof. apply generic_format_opp. Qed.
Lemma fmt_0 p : ffmt p 0.
Proof. apply generic_format_0. Qed.
Lemma fmt_bpow p e : (femin p <= e)%Z -> ffmt p (bpow radix2 e).
Proof.
  intro H. apply (generic_format_bpow radix2 (ffexp p)). unfold ffexp, FLT_exp. pose proof (fprec_pos p). unfold Prec_gt_0 in *. lia.
Qed.
Lemma rnd_abs_le p x e : (femin p <= e)%Z -> Rabs x <= bpow radix2 e -> Rabs (rnd p x) <= bpow radix2 e.
Proof.
  intros He H. apply Rabs_le. apply Rabs_le_inv in H || idtac.
  assert (H' : - bpow radix2 e <= x <= bpow radix2 e) by (split; [|]; [pose proof (Rle_abs (- x)); rewrite Rabs_Ropp in *; lra|pose proof (Rle_abs x); lra]).
  split; [apply rnd_ge_fmt; [apply fmt_opp; now apply fmt_bpow|lra]|apply rnd_le_fmt; [now apply fmt_bpow|lra]].
Qed.
Lemma fbig_lt p : fbig p < bpow radix2 (femax p).
Proof. apply bpow_lt. lia. Qed.
Lemma femin_lt_big p : (femin p <= femax p - 1)%Z.
Proof. destruct p; unfold femin; cbn; lia. Qed.
Lemma no_overflow p x : Rabs x <= fbig p -> Rlt_bool (Rabs (rnd p x)) (bpow radix2 (femax p)) = true.
Proof.
  intro H. apply Rlt_bool_true. apply Rle_lt_trans with (2 := fbig_lt p).
  apply rnd_abs_le; [apply femin_lt_big|exact H].
Qed.

(** ** operations *)
Notation FR := B2R.
Lemma fmt_B2R p (a : fl p) : ffmt p (B2R a).
Proof. exact (generic_format_B2R (fprec p) (femax p) a). Qed.

Lemma fadd_R p (a b : fl p) : is_finite a = true -> is_finite b = true -> Rabs (B2R a + B2R b) <= fbig p ->
  B2R (fadd a b) = rnd p (B2R a + B2R b) /\ is_finite (fadd a b) = true.
Proof.
  intros Fa Fb H. pose proof (Bplus_correct (fprec p) (femax p) _ _ mode_NE a b Fa Fb) as C.
  change (round radix2 (SpecFloat.fexp (fprec p) (femax p)) (round_mode mode_NE) (B2R a + B2R b)) with (rnd p (B2R a + B2R b)) in C.
  rewrite (no_overflow p _ H) in C. unfold fadd. tauto.
Qed.
Lemma fsub_R p (a b : fl p) : is_finite a = true -> is_finite b = true -> Rabs (B2R a - B2R b) <= fbig p ->
  B2R (fsub a b) = rnd p (B2R a - B2R b) /\ is_finite (fsub a b) = true.
Proof.
  intros Fa Fb H. pose proof (Bminus_correct (fprec p) (femax p) _ _ mode_NE a b Fa Fb) as C.
  change (round radix2 (SpecFloat.fexp (fprec p) (femax p)) (round_mode mode_NE) (B2R a - B2R b)) with (rnd p (B2R a - B2R b)) in C.
  rewrite (no_overflow p _ H) in C. unfold fsub. tauto.
Qed.
Lemma fmul_R p (a b : fl p) : is_finite a = true -> is_finite b = true -> Rabs (B2R a * B2R b) <= fbig p ->
  B2R (fmul a b) = rnd p (B2R a * B2R b) /\ is_finite (fmul a b) = true.
Proof.
  intros Fa Fb H. pose proof (Bmult_correct (fprec p) (femax p) _ _ mode_NE a b) as C.
  change (round radix2 (SpecFloat.fexp (fprec p) (femax p)) (round_mode mode_NE) (B2R a * B2R b)) with (rnd p (B2R a * B2R b)) in C.
  rewrite (no_overflow p _ H), Fa, Fb in C. unfold fmul. tauto.
Qed.
Lemma fdiv_R p (a b : fl p) : is_finite a = true -> B2R b <> 0 -> Rabs (B2R a / B2R b) <= fbig p ->
  B2R (fdiv a b) = rnd p (B2R a / B2R b) /\ is_finite (fdiv a b) = true.
Proof.
  intros Fa Fb H. pose proof (Bdiv_correct (fprec p) (femax p) _ _ mode_NE a b Fb) as C.
  change (round radix2 (SpecFloat.fexp (fprec p) (femax p)) (round_mode mode_NE) (B2R a / B2R b)) with (rnd p (B2R a / B2R b)) in C.
  rewrite (no_overflow p _ H), Fa in C. unfold fdiv. tauto.
Qed.
Lemma ffma_R p (a b c : fl p) : is_finite a = true -> is_finite b = true -> is_finite c = true -> Rabs (B2R a * B2R b + B2R c) <= fbig p ->
  B2R (ffma a b c) = rnd p (B2R a * B2R b + B2R c) /\ is_finite (ffma a b c) = true.
Proof.
  intros Fa Fb Fc H. pose proof (Bfma_correct (fprec p) (femax p) _ _ mode_NE a b c Fa Fb Fc) as C. cbv zeta in C.
  change (round radix2 (SpecFloat.fexp (fprec p) (femax p)) (round_mode mode_NE) (B2R a * B2R b + B2R c)) with (rnd p (B2R a * B2R b + B2R c)) in C.
  rewrite (no_overflow p _ H) in C. unfold ffma. tauto.
Qed.
Lemma ffloor_R p (a : fl p) : B2R (ffloor a) = IZR (Zfloor (B2R a)) /\ is_finite (ffloor a) = is_finite a.
Proof.
  destruct (Bnearbyint_correct (fprec p) (femax p) _ mode_DN a) as (H1 & H2 & _).
  unfold ffloor. split; [|exact H2]. rewrite H1. unfold round, round_mode, F2R, scaled_mantissa, cexp, FIX_exp. cbn.
  now rewrite !Rmult_1_r.
Qed.
Lemma fneg_R p (a : fl p) : B2R (fneg a) = - B2R a /\ is_finite (fneg a) = is_finite a.
Proof. unfold fneg. split; [apply B2R_Bopp|apply is_finite_Bopp]. Qed.
Lemma fabs_R p (a : fl p) : B2R (fabs a) = Rabs (B2R a) /\ is_finite (fabs a) = is_finite a.
Proof. unfold fabs. split; [apply B2R_Babs|apply is_finite_Babs]. Qed.

(** conversion *)
Lemma fcvt_R p q (a : fl p) : is_finite a = true -> Rabs (B2R a) <= fbig q ->
  B2R (fcvt q a) = rnd q (B2R a) /\ is_finite (fcvt q a) = true.
Proof.
  intros Fa H. destruct a as [s|s| |s m e He]; cbn [fcvt is_finite B2R] in *; try discriminate.
  - rewrite rnd_0. tauto.
  - pose proof (binary_normalize_correct (fprec q) (femax q) _ _ mode_NE (cond_Zopp s (Zpos m)) e s) as C. cbv zeta in C.
    change (round radix2 (SpecFloat.fexp (fprec q) (femax q)) (round_mode mode_NE) (F2R (Float radix2 (cond_Zopp s (Z.pos m)) e))) with (rnd q (F2R (Float radix2 (cond_Zopp s (Z.pos m)) e))) in C.
    rewrite (no_overflow q _ H) in C. tauto.
Qed.
Lemma fcvt_nonfinite p q (a : fl p) : is_finite a = false -> is_finite (fcvt q a) = false.
Proof. destruct a; cbn; congruence. Qed.

(** every float is a double *)
Lemma fmt_widen p x : ffmt p x -> ffmt F64 x.
Proof.
  destruct p; [|tauto]. unfold ffmt. intro H. apply (generic_inclusion_mag radix2 (ffexp F32) (ffexp F64) x); [|exact H].
  intros _. unfold ffexp, FLT_exp, femin. cbn. lia.
Qed.
Lemma fbig_le p x : ffmt p x -> Rabs x < bpow radix2 (femax p) -> p = F32 -> Rabs x <= fbig F64.
Proof.
  intros F H ->. unfold fbig. left. apply Rlt_le_trans with (1 := H). apply bpow_le. unfold femax. lia.
Qed.
Lemma fcvt_id p (a : fl p) : fcvt p a = a.
Proof.
  destruct a as [s|s| |s m e He]; try reflexivity. cbn [fcvt].
  pose proof (binary_normalize_correct (fprec p) (femax p) _ _ mode_NE (cond_Zopp s (Zpos m)) e s) as C. cbv zeta in C.
  set (z := binary_normalize (fprec p) (femax p) _ _ mode_NE (cond_Zopp s (Zpos m)) e s) in *.
  assert (G : ffmt p (F2R (Float radix2 (cond_Zopp s (Zpos m)) e))).
  { exact (fmt_B2R p (B754_finite s m e He)). }
  change (round radix2 (SpecFloat.fexp (fprec p) (femax p)) (round_mode mode_NE) (F2R (Float radix2 (cond_Zopp s (Z.pos m)) e))) with (rnd p (F2R (Float radix2 (cond_Zopp s (Z.pos m)) e))) in C.
  rewrite (rnd_id p _ G) in C.
  assert (L : Rlt_bool (Rabs (F2R (Float radix2 (cond_Zopp s (Z.pos m)) e))) (bpow radix2 (femax p)) = true).
  { apply Rlt_bool_true. exact (abs_B2R_lt_emax (fprec p) (femax p) (B754_finite s m e He)). }
  rewrite L in C. destruct C as (C1 & C2 & C3).
  apply B2R_Bsign_inj; [exact C2|reflexivity|exact C1|].
  rewrite C3. cbn [Bsign]. destruct s; cbn [cond_Zopp].
  - rewrite Rcompare_Lt; [reflexivity|]. now apply F2R_lt_0.
  - rewrite Rcompare_Gt; [reflexivity|]. now apply F2R_gt_0.
Qed.
Lemma widen_R p (a : fl p) : B2R (fcvt F64 a) = B2R a /\ is_finite (fcvt F64 a) = is_finite a.
Proof.
  destruct p; [|now rewrite fcvt_id].
  destruct (is_finite a) eqn:Fa.
  - assert (H : Rabs (B2R a) <= fbig F64) by (exact (fbig_le F32 _ (fmt_B2R F32 a) (abs_B2R_lt_emax (fprec F32) (femax F32) a) eq_refl)).
    destruct (fcvt_R F32 F64 a Fa H) as [C1 C2]. split; [|exact C2].
    rewrite C1. apply rnd_id. apply (fmt_widen F32). apply fmt_B2R.
  - destruct a; cbn in *; try discriminate; tauto.
Qed.

(** comparisons *)
Lemma flt_R p (a b : fl p) : is_finite a = true -> is_finite b = true -> flt a b = Rlt_bool (B2R a) (B2R b).
Proof. intros Fa Fb. unfold flt. now apply Bltb_correct. Qed.
Lemma fle_R p (a b : fl p) : is_finite a = true -> is_finite b = true -> fle a b = Rle_bool (B2R a) (B2R b).
Proof. intros Fa Fb. unfold fle. now apply Bleb_correct. Qed.
Lemma feq_R p (a b : fl p) : is_finite a = true -> is_finite b = true -> feq a b = Req_bool (B2R a) (B2R b).
Proof. intros Fa Fb. unfold feq. now apply Beqb_correct. Qed.

(** ** rounding errors *)
Lemma fu_pos p : 0 < fu p. Proof. apply bpow_gt_0. Qed.
Lemma half_bpow p : / 2 * bpow radix2 (- fprec p + 1) = fu p.
Proof.
  unfold fu. rewrite bpow_plus. change (bpow radix2 1) with 2. lra.
Qed.
(** any real: relative error u, or absolute error 2^emin/2 *)
Lemma rnd_err p x : exists eps eta, Rabs eps <= fu p /\ Rabs eta <= / 2 * bpow radix2 (femin p) /\
  rnd p x = x * (1 + eps) + eta.
Proof.
  destruct (error_N_FLT radix2 (femin p) (fprec p) (fprec_pos p) (fun x => negb (Z.even x)) x) as (eps & eta & H1 & H2 & _ & H3).
  exists eps, eta. rewrite half_bpow in H1. split; [exact H1|]. split; [exact H2|exact H3].
Qed.
(** sum of two numbers of the type: relative error only *)
Lemma rnd_add_err p x y : ffmt p x -> ffmt p y -> Rabs (rnd p (x + y) - (x + y)) <= fu p * Rabs (x + y).
Proof.
  intros Fx Fy.
  destruct (Rle_or_lt (bpow radix2 (femin p + fprec p - 1)) (Rabs (x + y))) as [M|M].
  - pose proof (relative_error_N_FLT radix2 (femin p) (fprec p) (fprec_pos p) (fun x => negb (Z.even x)) (x + y) M) as H.
    rewrite half_bpow in H. exact H.
  - rewrite rnd_id.
    + rewrite Rminus_diag_eq by reflexivity. rewrite Rabs_R0. apply Rmult_le_pos; [apply Rlt_le, fu_pos|apply Rabs_pos].
    + apply (FLT_format_plus_small radix2 (femin p) (fprec p) x y Fx Fy).
      apply Rlt_le. apply Rlt_le_trans with (1 := M). apply bpow_le. lia.
Qed.
(** a multiple of a number of the type: relative error only *)
Lemma fmt_scaled p x : ffmt p x -> exists (m e : Z), x = IZR m * bpow radix2 e /\ (femin p <= e)%Z /\ e = cexp radix2 (ffexp p) x.
Proof.
  intro F. exists (Ztrunc (scaled_mantissa radix2 (ffexp p) x)), (cexp radix2 (ffexp p) x).
  split; [exact F|]. split; [|reflexivity]. unfold cexp, ffexp, FLT_exp. lia.
Qed.
Lemma fmt_multiple p (m e : Z) : (femin p <= e)%Z -> Rabs (IZR m * bpow radix2 e) < bpow radix2 (e + fprec p) -> ffmt p (IZR m * bpow radix2 e).
Proof.
  intros He H. apply generic_format_FLT. apply (FLT_spec _ _ _ _ (Float radix2 m e)).
  - reflexivity.
  - change (Fnum (Float radix2 m e)) with m. apply lt_IZR. rewrite abs_IZR. rewrite (IZR_Zpower radix2) by (pose proof (fprec_pos p); unfold Prec_gt_0 in *; lia).
    rewrite Rabs_mult, (Rabs_pos_eq (bpow radix2 e)), Z.add_comm, bpow_plus in H by apply bpow_ge_0.
    apply Rmult_lt_reg_r with (2 := H). apply bpow_gt_0.
  - exact He.
Qed.
Lemma rnd_mult_int_err p y (n : Z) : ffmt p y -> Rabs (rnd p (y * IZR n) - y * IZR n) <= fu p * Rabs (y * IZR n).
Proof.
  intro F.
  destruct (Rle_or_lt (bpow radix2 (femin p + fprec p - 1)) (Rabs (y * IZR n))) as [M|M].
  - pose proof (relative_error_N_FLT radix2 (femin p) (fprec p) (fprec_pos p) (fun x => negb (Z.even x)) _ M) as H.
    rewrite half_bpow in H. exact H.
  - rewrite rnd_id.
    + rewrite Rminus_diag_eq by reflexivity. rewrite Rabs_R0. apply Rmult_le_pos; [apply Rlt_le, fu_pos|apply Rabs_pos].
    + destruct (fmt_scaled p y F) as (m & e & E & He & _).
      replace (y * IZR n) with (IZR (m * n) * bpow radix2 e) in * by (rewrite E, mult_IZR; ring).
      apply fmt_multiple; [exact He|]. apply Rlt_le_trans with (1 := M). apply bpow_le. lia.
Qed.

(** two different numbers of the type are not closer than one unit roundoff *)
Lemma fmt_gap p r y : ffmt p r -> ffmt p y -> 0 < r < y -> fu p * r < y - r.
Proof.
  intros Fr Fy [Hr Hy].
  destruct (fmt_scaled p r Fr) as (m & e & E & He & Ec).
  destruct (fmt_scaled p y Fy) as (my & ey & Ey & Hey & Ecy).
  assert (Hee : (e <= ey)%Z).
  { rewrite Ec, Ecy. unfold cexp. apply (ffexp_mono p). apply mag_le; [exact Hr|now apply Rlt_le]. }
  assert (Hd : bpow radix2 e <= y - r).
  { replace ey with (e + (ey - e))%Z in Ey by ring. rewrite bpow_plus in Ey.
    rewrite <- (IZR_Zpower radix2 (ey - e)) in Ey by lia.
    assert (D : y - r = IZR (my * radix2 ^ (ey - e) - m) * bpow radix2 e) by (rewrite minus_IZR, mult_IZR; nra).
    rewrite D. assert (P : 0 < IZR (my * radix2 ^ (ey - e) - m)).
    { apply Rmult_lt_reg_r with (bpow radix2 e); [apply bpow_gt_0|]. rewrite <- D. lra. }
    apply lt_IZR in P. assert (1 <= IZR (my * radix2 ^ (ey - e) - m)) by (apply IZR_le; lia).
    pose proof (bpow_gt_0 radix2 e). nra. }
  apply Rlt_le_trans with (2 := Hd).
  assert (Hm : r < bpow radix2 (e + fprec p)).
  { apply Rlt_le_trans with (bpow radix2 (mag radix2 r)).
    - apply Rle_lt_trans with (1 := Rle_abs r). apply bpow_mag_gt.
    - apply bpow_le. rewrite Ec. unfold cexp, ffexp, FLT_exp. lia. }
  replace (bpow radix2 e) with (fu p * bpow radix2 (e + fprec p)).
  - apply Rmult_lt_compat_l; [apply fu_pos|exact Hm].
  - unfold fu. rewrite <- bpow_plus. f_equal. ring.
Qed.

(** rounding keeps multiples of a power of two *)
Lemma rnd_multiple p (k e : Z) : (femin p <= e)%Z -> exists k' : Z, rnd p (IZR k * bpow radix2 e) = IZR k' * bpow radix2 e.
Proof.
  intro He. set (x := IZR k * bpow radix2 e).
  destruct (Z.le_gt_cases e (cexp radix2 (ffexp p) x)) as [H|H].
  - unfold rnd, round, F2R. cbn.
    set (c := cexp radix2 (ffexp p) x) in *.
    exists (ZnearestE (scaled_mantissa radix2 (ffexp p) x) * radix2 ^ (c - e))%Z.
    rewrite mult_IZR, (IZR_Zpower radix2 (c - e)) by lia. rewrite Rmult_assoc, <- bpow_plus. do 2 f_equal. ring.
  - exists k. apply rnd_id. apply generic_format_F2R' with (Float radix2 k e); [reflexivity|]. intros _. apply Z.lt_le_incl. exact H.
Qed.
