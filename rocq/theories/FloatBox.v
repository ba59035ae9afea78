(** Facts about the float box operators (C76). *)
From Coq Require Import ZArith Reals Lra Psatz Bool List Lia.
From Flocq Require Import IEEE754.BinarySingleNaN Core.Core.
From Verif Require Import Linalg Spec SpecFacts SpecClose ModelCommon ModelEigen CommonFacts CloseFacts MetricFacts TotalFacts2
  PiBounds FloatModel FloatFacts FloatModel2 SpecFloatQ FloatQFacts FloatQProd FloatQHist FloatQRot FloatModulo FloatWrap FloatModel3 SpecLibm SpecBuild FloatBuild FloatBuild2 FloatBuild3 FloatModel4 SpecExt FloatExt FloatExt2 FloatExt3 FloatExt4 FloatExt5 FloatExt6 FloatModel5 FloatModel6 FloatModel7 SpecSix FloatSix FloatFix FloatOHist FloatModel8 SpecBox Claims10.
Import ListNotations.
Local Open Scope R_scope.

(** ** angles of nearby rotations *)
Lemma sin_linear x : 0 <= x <= 1575/1000 -> 5/8 * x <= sin x.
Proof.
  intros H. pose proof PI2_1. assert (P : x <= PI) by lra.
  pose proof (SIN x ltac:(lra) P) as [SS _]. eapply Rle_trans; [|exact SS]. unfold sin_lb, sin_approx, sin_term. cbn [sum_f_R0 pow fact Nat.mul Nat.add].
  match goal with |- _ <= ?r => replace r with (x - x ^ 3 / 6 + x ^ 5 / 120 - x ^ 7 / 5040) end.
  2: { cbn -[INR]. rewrite !INR_IZR_INZ. cbn [Z.of_nat Pos.of_succ_nat Pos.succ]. field. }
  set (t := x * x). assert (T : 0 <= t <= 249/100) by (unfold t; split; [apply Rmult_le_pos; lra|apply Rle_trans with (1575/1000 * (1575/1000)); [apply Rmult_le_compat; lra|lra]]).
  replace (x - x ^ 3 / 6 + x ^ 5 / 120 - x ^ 7 / 5040) with (x * (1 - t / 6 + t * t * (/ 120 - t / 5040))) by (unfold t; field).
  rewrite (Rmult_comm (5/8)). apply Rmult_le_compat_l; [lra|].
  assert (t * t * (78/10000) <= t * t * (/ 120 - t / 5040)) by (apply Rmult_le_compat_l; [apply Rmult_le_pos; lra|lra]).
  assert (G : 0 <= (249/100 - t) * (t + 30)) by (apply Rmult_le_pos; lra).
  assert (0 <= t * t) by (apply Rmult_le_pos; lra). nra.
Qed.
Lemma perp_exists n : vnorm2 n = 1 -> exists e, vnorm2 e = 1 /\ vdot n e = 0.
Proof.
  intro U. destruct (Req_EM_T (vx n * vx n + vy n * vy n) 0) as [Z|Z].
  - exists ex. split; [lin|]. assert (vx n = 0) by nra. unfold vdot, ex; cbn [vx vy vz]. rewrite H. ring.
  - set (s := sqrt (vx n * vx n + vy n * vy n)). assert (P : 0 < vx n * vx n + vy n * vy n) by nra. assert (S : 0 < s) by (apply sqrt_lt_R0, P).
    assert (SS : s * s = vx n * vx n + vy n * vy n) by (apply sqrt_sqrt; lra).
    exists (mkV3 (- vy n / s) (vx n / s) 0). unfold vnorm2, vdot; cbn [vx vy vz]. split; [|field; lra].
    replace (- vy n / s * (- vy n / s) + vx n / s * (vx n / s) + 0 * 0) with ((vx n * vx n + vy n * vy n) / (s * s)) by (field; lra). rewrite SS. field. lra.
Qed.
Lemma angle_of_close2 m d a : SO3 m -> close d m mid -> is_rotation_angle m a -> a <= 8/5 * d.
Proof.
  intros S C A. pose proof (close_nonneg _ _ _ C) as D0. pose proof PI_num as PN.
  destruct (SO3_has_aa m S) as (x & U & R & E). assert (a = aangle x). { apply (angle_unique m); [exact A|]. rewrite <- E. apply angle_aa; assumption. } subst a.
  destruct x as [t n]; cbn [aangle aaxis] in *.
  destruct (perp_exists n U) as (e & Ue & Pe). specialize (C e). rewrite mvmul_id, (vnorm_unit e Ue), Rmult_1_r in C. rewrite <- E in C.
  assert (X : mvmul (aa_rot (mkAA t n)) e = rodrigues t n e). { unfold aa_rot; cbn [aangle aaxis]. unfold mat_of, rodrigues. destruct n as [n1 n2 n3], e as [e1 e2 e3]. lin. }
  rewrite X in C. set (D := vsub (rodrigues t n e) e) in C.
  assert (N2 : vnorm2 D = 2 * (1 - cos t)).
  { unfold D, rodrigues. rewrite Pe. pose proof (sin2_cos2 t) as SC. unfold Rsqr in SC. destruct n as [n1 n2 n3], e as [e1 e2 e3]. lin_unfold. cbn in U, Ue, Pe |- *.
    set (k := cos t) in *. set (s := sin t) in *.
    assert (K : (n2 * e3 - n3 * e2) * (n2 * e3 - n3 * e2) + (n3 * e1 - n1 * e3) * (n3 * e1 - n1 * e3) + (n1 * e2 - n2 * e1) * (n1 * e2 - n2 * e1) = 1).
    { replace 1 with ((n1 * n1 + n2 * n2 + n3 * n3) * (e1 * e1 + e2 * e2 + e3 * e3) - (n1 * e1 + n2 * e2 + n3 * e3) * (n1 * e1 + n2 * e2 + n3 * e3)) by (rewrite U, Ue, Pe; ring). ring. }
    transitivity ((k - 1) * (k - 1) * (e1 * e1 + e2 * e2 + e3 * e3) + s * s * ((n2 * e3 - n3 * e2) * (n2 * e3 - n3 * e2) + (n3 * e1 - n1 * e3) * (n3 * e1 - n1 * e3) + (n1 * e2 - n2 * e1) * (n1 * e2 - n2 * e1))); [ring|].
    rewrite Ue, K. replace (s * s) with (1 - k * k) by lra. ring. }
  assert (H : cos t = 1 - 2 * (sin (t/2) * sin (t/2))). { replace t with (2 * (t/2)) at 1 by field. rewrite cos_2a_sin. ring. }
  assert (L : 5/8 * (t / 2) <= sin (t / 2)) by (apply sin_linear; lra).
  pose proof (vnorm_nonneg D) as V0. rewrite <- vnorm_sqr in N2.
  destruct (Rle_or_lt t (8/5 * d)) as [G|G]; [exact G|exfalso].
  assert (d / 2 < sin (t/2)) by lra. assert (vnorm D * vnorm D <= d * d) by (apply Rmult_le_compat; lra).
  assert (d / 2 * (d / 2) < sin (t/2) * sin (t/2)) by (apply Rmult_le_0_lt_compat; lra). lra.
Qed.
Lemma angle_close2 a b d ta tb : SO3 a -> SO3 b -> close d a b -> is_rotation_angle a ta -> is_rotation_angle b tb -> Rabs (ta - tb) <= 8/5 * d.
Proof.
  intros Sa Sb C A B.
  assert (G : forall a b ta tb, SO3 a -> SO3 b -> close d a b -> is_rotation_angle a ta -> is_rotation_angle b tb -> ta <= tb + 8/5 * d).
  { clear. intros a b ta tb Sa Sb C A B.
    assert (S : SO3 (mmul a (mtrans b))) by (apply SO3_mmul; [exact Sa|apply SO3_trans, Sb]).
    destruct (angle_exists _ S) as (t & T).
    assert (t <= 8/5 * d).
    { apply (angle_of_close2 _ d t S); [|exact T]. rewrite <- (SO3_inv_r b Sb). apply close_mul_r; [apply SO3_trans, Sb|exact C]. }
    assert (ta <= t + tb).
    { apply (angle_subadd (mmul a (mtrans b)) b); try assumption. rewrite <- mmul_assoc, (SO3_inv_l b Sb), mmul_id_r. exact A. }
    lra. }
  pose proof (G a b ta tb Sa Sb C A B). pose proof (G b a tb ta Sb Sa (close_sym _ _ _ C) B A). apply Rabs_le. lra.
Qed.

(** ** the absolute value of the wrapped angle *)
Lemma fcvt_abs p q (a : fl p) : B2R (fcvt q (fabs a)) = Rabs (B2R (fcvt q a)) /\ is_finite (fcvt q (fabs a)) = is_finite (fcvt q a).
Proof.
  destruct a as [s|s| |s m e H]; try (cbn; rewrite ?Rabs_R0; split; reflexivity).
  cbn [fabs Babs fcvt].
  pose proof (binary_normalize_correct (fprec q) (femax q) _ _ mode_NE (cond_Zopp s (Zpos m)) e s) as C.
  pose proof (binary_normalize_correct (fprec q) (femax q) _ _ mode_NE (cond_Zopp false (Zpos m)) e false) as D.
  assert (X : round radix2 (SpecFloat.fexp (fprec q) (femax q)) (round_mode mode_NE) (F2R (Float radix2 (cond_Zopp false (Zpos m)) e)) =
    Rabs (round radix2 (SpecFloat.fexp (fprec q) (femax q)) (round_mode mode_NE) (F2R (Float radix2 (cond_Zopp s (Zpos m)) e)))).
  { cbn [round_mode]. rewrite <- round_NE_abs by (destruct q; apply FLT_exp_valid; reflexivity). f_equal. assert (P : 0 <= F2R (Float radix2 (Zpos m) e)) by (apply F2R_ge_0; cbn; lia). destruct s; cbn [SpecFloat.cond_Zopp]; [change (Z.opp (Zpos m)) with (- Zpos m)%Z; rewrite F2R_Zopp, Rabs_Ropp|]; symmetry; apply Rabs_pos_eq, P. }
  cbv zeta in C, D. rewrite X, Rabs_Rabsolu in D.
  destruct (Rlt_bool _ _).
  - destruct C as (C1 & C2 & _). destruct D as (D1 & D2 & _). rewrite D1, C1, C2, D2. split; reflexivity.
  - assert (G : forall s (z : fl q), B2SF z = binary_overflow (fprec q) (femax q) mode_NE s -> B2R z = 0 /\ is_finite z = false).
    { clear. intros s z. cbn [binary_overflow overflow_to_inf]. destruct z; cbn; intro K; try discriminate K. split; reflexivity. }
    destruct (G _ _ C) as [C1 C2]. destruct (G _ _ D) as [D1 D2]. rewrite C1, C2, D1, D2, Rabs_R0. split; reflexivity.
Qed.
Lemma fabs_wrapped_R p ev (a : fl p) : B2R (fabs_wrapped ev a) = Rabs (B2R (fwrapPosNegPI ev a)) /\ is_finite (fabs_wrapped ev a) = is_finite (fwrapPosNegPI ev a).
Proof. apply fcvt_abs. Qed.
Lemma piT_close p : Rabs (piT p - PI) <= 3/2 * fu p.
Proof. apply (feigen_pi p). Qed.
(** the angle of a rotation about [e] by [a] *)
Lemma wrapped_angle a e w k E q : vnorm2 e = 1 -> 0 <= E -> 0 <= q -> Rabs w <= PI + q -> Rabs (w - (a - 2 * IZR k * PI)) <= E -> q + E <= / 10 ->
  exists t, is_rotation_angle (quat_rot (half_quat a e)) t /\ Rabs (Rabs w - t) <= E + 2 * q.
Proof.
  intros U E0 Q0 W D SM. pose proof PI_num as PN. rewrite (half_quat_rot a e U). set (b := a - 2 * IZR k * PI) in *.
  assert (C : cos b = cos a). { apply same_angle_trig. exists (- k)%Z. unfold b. rewrite opp_IZR. ring. }
  assert (TR : mtrace (aa_rot (mkAA a e)) - 1 = 2 * cos a). { rewrite aa_rot_trace by exact U. cbn [aangle]. ring. }
  assert (BW : Rabs b <= Rabs w + E /\ Rabs w <= Rabs b + E).
  { pose proof (Rabs_triang_inv b w). pose proof (Rabs_triang_inv w b). rewrite (Rabs_minus_sym b w) in *. lra. }
  destruct (Rle_or_lt (Rabs b) PI) as [H|H].
  - exists (Rabs b). split.
    + split; [split; [apply Rabs_pos|exact H]|]. rewrite TR. f_equal. rewrite <- C. unfold Rabs. destruct (Rcase_abs b); [apply cos_neg|reflexivity].
    + apply Rabs_le. lra.
  - exists (2 * PI - Rabs b). split.
    + split; [lra|]. rewrite TR. f_equal. rewrite <- C. replace (2 * PI - Rabs b) with (- (Rabs b - 2 * PI)) by ring. rewrite cos_neg, cos_minus, cos_2PI, sin_2PI.
      rewrite Rmult_1_r, Rmult_0_r, Rplus_0_r. unfold Rabs. destruct (Rcase_abs b); [apply cos_neg|reflexivity].
    + apply Rabs_le. lra.
Qed.
Lemma small_angle p (a : fl p) T : T <= 10 -> Rabs (B2R a) <= T -> Rabs (B2R a) <= bpow radix2 (fprec p - 2).
Proof. intros H1 H2. apply Rle_trans with (bpow radix2 4); [change (bpow radix2 4) with 16; lra|apply bpow_le; destruct p; cbn; lia]. Qed.
(** the disparity of an angle-axis *)
Lemma fabs_wrapped_err p ev (a : fl p) n T : T <= 66/10 -> object_ok T (SrcAA a n) ->
  exists t, is_rotation_angle (turns (SrcAA a n)) t /\ is_finite (fabs_wrapped ev a) = true /\
    0 <= B2R (fabs_wrapped ev a) <= piT p /\ Rabs (B2R (fabs_wrapped ev a) - t) <= 120 * fu p.
Proof.
  intros HT (Fa & Fn & Ha & AO). pose proof (fu_pos p) as U. pose proof (fu_24 p) as V. pose proof (axis_pos _ _ _ AO) as PN.
  destruct (wrapPosNegPI_ok p ev a Fa (small_angle p a T ltac:(lra) Ha)) as (Fw & Rw & _ & k & Kw). destruct (fabs_wrapped_R p ev a) as [E F].
  pose proof (piT_close p) as PC. apply Rabs_both in PC. assert (AW : Rabs (B2R (fwrapPosNegPI ev a)) <= piT p) by (apply Rabs_le; lra).
  assert (BD : 8 * fu p * (Rabs (B2R a) + 8) <= 117 * fu p). { replace (8 * fu p * (Rabs (B2R a) + 8)) with (fu p * (8 * (Rabs (B2R a) + 8))) by ring. rewrite (Rmult_comm 117). apply Rmult_le_compat_l; lra. }
  destruct (wrapped_angle (B2R a) (vscale (/ vnorm (vval n)) (vval n)) (B2R (fwrapPosNegPI ev a)) k (117 * fu p) (3/2 * fu p) (vdir_unit _ PN)) as (t & A & B); try lra.
  exists t. rewrite turns_aa by exact PN. split; [exact A|]. rewrite E, F. split; [exact Fw|]. split; [split; [apply Rabs_pos|exact AW]|lra].
Qed.

(** ** x * y.inverted() *)
Lemma fdifference_ok p L c A B (x y : fobject p) rx ry : libm_ok L -> choices6_ok c -> stands (64/10) A x rx -> stands (64/10) B y ry ->
  prod_limit p (okind_of x) (okind_of y) A B -> SO3 rx -> SO3 ry ->
  okind_of (fdifference L c x y) = okind_of x /\
  exists r, stands (64/10 + 160 * fu p) (prod_defect (okind_of x) (okind_of y) A B) (fdifference L c x y) r /\
    close (diff_error p (okind_of x) (okind_of y) A B) r (mmul rx (mtrans ry)).
Proof.
  intros HL HC Hx Hy LIM Sx Sy. pose proof (fu_pos p) as U. pose proof (fu_24 p) as V.
  destruct (oinverted_ok p L c (64/10) B y ry HL HC ltac:(lra) Hy) as (K & ri & Hi & Ci). unfold fdifference.
  assert (Si : SO3 ri). { apply (stands_SO3 _ _ _ _ _ Hi). rewrite K. intro Q. rewrite Q in LIM. pose proof (prod_small_r _ _ _ _ LIM) as Z. exact Z. }
  rewrite <- K in LIM. destruct (oproduct_ok p L c (64/10) A B x (oinverted L c y) rx ri HL HC ltac:(lra) Hx Hi LIM Sx Si) as (K2 & r & Hr & Cr).
  split; [exact K2|]. exists r. rewrite K in *. split; [exact Hr|]. unfold diff_error. eapply close_trans; [exact Cr|]. apply close_mul_l; [exact Sx|].
  eapply close_mono; [|exact Ci]. unfold inv_error. rewrite roundoff_fu. destruct (okind_of y); lra.
Qed.
Lemma fdisparity_ok p L c ev A B (x y : fobject p) rx ry : libm_ok L -> choices6_ok c -> stands (64/10) A x rx -> stands (64/10) B y ry ->
  diff_limit p (okind_of x) (okind_of y) (KSrc SAA) A B -> SO3 rx -> SO3 ry ->
  exists t, is_rotation_angle (mmul rx (mtrans ry)) t /\ is_finite (fdisparity L c ev x y) = true /\ 0 <= B2R (fdisparity L c ev x y) <= piT p /\
    Rabs (B2R (fdisparity L c ev x y) - t) <= 8/5 * diff_conv_error p (okind_of x) (okind_of y) (KSrc SAA) A B + 120 * fu p.
Proof.
  intros HL HC Hx Hy [L1 L2] Sx Sy. pose proof (fu_pos p) as U. pose proof (fu_24 p) as V.
  destruct (fdifference_ok p L c A B x y rx ry HL HC Hx Hy L1 Sx Sy) as (K & r & Hr & Cr). rewrite <- K in L2 at 1.
  destruct (oconvert_ok p L c (KSrc SAA) (64/10 + 160 * fu p) _ (fdifference L c x y) r HL HC ltac:(lra) Hr L2) as (K2 & r2 & Hr2 & Cr2).
  assert (S : SO3 (mmul rx (mtrans ry))) by (apply SO3_mmul; [exact Sx|apply SO3_trans, Sy]). destruct (angle_exists _ S) as (t & T). exists t. split; [exact T|].
  unfold fdisparity. set (z := oconvert L c (KSrc SAA) (fdifference L c x y)) in *. destruct z as [q|m|s]; try discriminate K2. cbn [stands] in Hr2. destruct Hr2 as (O & E).
  destruct s as [a n| | |]; try discriminate K2. cbn [fangle_of].
  assert (S2 : SO3 r2) by (rewrite <- E; apply (object_SO3 _ _ _ O)).
  destruct (fabs_wrapped_err p ev a n (64/10 + 160 * fu p + 160 * fu p) ltac:(lra) O) as (t2 & T2 & F & R & D). rewrite E in T2. split; [exact F|]. split; [exact R|].
  assert (C : close (diff_conv_error p (okind_of x) (okind_of y) (KSrc SAA) A B) r2 (mmul rx (mtrans ry))).
  { unfold diff_conv_error. rewrite Rplus_comm. rewrite <- K at 1. eapply close_trans; [exact Cr2|exact Cr]. }
  pose proof (angle_close2 _ _ _ _ _ S2 S C T2 T) as AC. replace (B2R (fabs_wrapped ev a) - t) with ((B2R (fabs_wrapped ev a) - t2) + (t2 - t)) by ring.
  eapply Rle_trans; [apply Rabs_triang|]. lra.
Qed.

(** ** getUnique() *)
Lemma half_quat_turn a e k : vnorm2 e = 1 -> quat_rot (half_quat (a - 2 * IZR k * PI) e) = quat_rot (half_quat a e).
Proof.
  intro U. rewrite !half_quat_rot by exact U. assert (S : same_angle (a - 2 * IZR k * PI) a) by (exists (- k)%Z; rewrite opp_IZR; ring).
  destruct (same_angle_trig _ _ S) as [S1 S2]. unfold aa_rot, mat_of, rodrigues; cbn [aangle aaxis]. now rewrite S1, S2.
Qed.
Lemma half_quat_flip a e : half_quat a (vscale (-1) e) = half_quat (- a) e.
Proof. unfold half_quat. replace (- a / 2) with (- (a / 2)) by field. rewrite cos_neg, sin_neg. destruct e as [e1 e2 e3]. unfold vscale; cbn [Linalg.vx Linalg.vy Linalg.vz]. f_equal; ring. Qed.
Lemma faa_unique_ok p ev (a : fl p) n T : T <= 66/10 -> object_ok T (SrcAA a n) ->
  let a' := fst (faa_unique ev a n) in let n' := snd (faa_unique ev a n) in
  is_finite a' = true /\ vfinite n' /\ 0 <= B2R a' <= piT p /\ (n' = n \/ n' = fvneg n \/ n' = funit_x p) /\
  close (132 * fu p) (turns (SrcAA a' n')) (turns (SrcAA a n)).
Proof.
  intros HT (Fa & Fn & Ha & AO). pose proof (fu_pos p) as U. pose proof (axis_pos _ _ _ AO) as PN. cbv zeta.
  destruct (C51_unique_lemma p ev a (gx n, gy n, gz n) Fa (small_angle p a T ltac:(lra) Ha)) as (F & R & k & H).
  change (bpow radix2 (- fprec p)) with (fu p) in H. change (B2R (fcvt p fM_PI)) with (piT p) in R. unfold faa_unique.
  destruct (fgetUnique ev (a, (gx n, gy n, gz n))) as [a' [[x y] z]]. cbn [fst snd] in *.
  assert (BD : 9 * fu p * (Rabs (B2R a) + 8) <= 132 * fu p). { replace (9 * fu p * (Rabs (B2R a) + 8)) with (fu p * (9 * (Rabs (B2R a) + 8))) by ring. rewrite (Rmult_comm 132). apply Rmult_le_compat_l; lra. }
  set (e := vscale (/ vnorm (vval n)) (vval n)). assert (Ee : vnorm2 e = 1) by (apply vdir_unit, PN).
  assert (TO : turns (SrcAA a n) = quat_rot (half_quat (B2R a - 2 * IZR k * PI) e)). { rewrite turns_aa by exact PN. fold e. symmetry. apply half_quat_turn, Ee. }
  assert (CL : forall b, Rabs (b - (B2R a - 2 * IZR k * PI)) <= 9 * fu p * (Rabs (B2R a) + 8) -> close (132 * fu p) (quat_rot (half_quat b e)) (turns (SrcAA a n))).
  { intros b Hb. rewrite TO. eapply close_mono; [|apply (from_qdist _ _ (66 * fu p)); [apply half_quat_qnorm, Ee|apply half_quat_qnorm, Ee|]]; [lra|].
    eapply Rle_trans; [apply half_quat_angle, Ee|]. lra. }
  destruct H as [(P & E & D)|[(P & E & D)|(E & D)]].
  - injection E as -> -> ->. destruct n as [n1 n2 n3]; cbn [gx gy gz] in *. split; [exact F|]. split; [exact Fn|]. split; [exact R|]. split; [now left|].
    rewrite (turns_aa p a') by exact PN. fold e. apply CL, D.
  - unfold fneg3 in E. injection E as -> -> ->. change (mkFV (fneg (gx n)) (fneg (gy n)) (fneg (gz n))) with (fvneg n).
    destruct (vneg_val p n) as (V1 & V2 & V3). split; [exact F|]. split; [now apply V2|]. split; [exact R|]. split; [now right; left|].
    rewrite (turns_aa p a') by (rewrite V3; exact PN). rewrite V3, V1. replace (vscale (/ vnorm (vval n)) (vscale (-1) (vval n))) with (vscale (-1) e) by (unfold e; lin).
    rewrite half_quat_flip. apply CL. rewrite <- Rabs_Ropp. replace (- (- B2R a' - (B2R a - 2 * IZR k * PI))) with (B2R a' + (B2R a - 2 * IZR k * PI)) by ring. exact D.
  - pose proof (f_equal fst E) as E1. pose proof (f_equal (fun t => fst (fst (snd t))) E) as E2. pose proof (f_equal (fun t => snd (fst (snd t))) E) as E3. pose proof (f_equal (fun t => snd (snd t)) E) as E4. cbn [fst snd] in E1, E2, E3, E4. subst a' x y z. destruct (funit_x_R p) as [Fx Ex]. change (mkFV (fofZ p 1) fzero fzero) with (funit_x p).
    split; [exact F|]. split; [exact Fx|]. split; [exact R|]. split; [now right; right|].
    assert (EX : vnorm ex = 1) by (apply vnorm_unit; lin). assert (PX : 0 < vnorm (vval (funit_x p))) by (rewrite Ex, EX; lra). rewrite (turns_aa p fzero (funit_x p) PX). change (B2R (@fzero p)) with 0. rewrite qid_half by (apply vdir_unit, PX).
    rewrite <- (qid_half e Ee). apply CL. rewrite Rminus_0_l, Rabs_Ropp. exact D.
Qed.
Lemma frv_unique_ok p ev b (v : FV p) : order 3 (x_norm b) -> vfinite v -> vnorm (vval v) <= 655/100 ->
  vfinite (frv_unique ev b v) /\ vnorm (vval (frv_unique ev b v)) <= PI + 170 * fu p /\
  close (600 * fu p + 101/100 * short_length p) (turns (SrcRv (frv_unique ev b v))) (turns (SrcRv v)).
Proof.
  intros O Fv HV. pose proof (fu_pos p) as U. pose proof (fu_24 p) as V4. pose proof (piT_close p) as PC. apply Rabs_both in PC. pose proof PI_num as PN.
  destruct (faa_of_rv_ok p b v (655/100) O ltac:(lra) (Logic.conj Fv HV)) as (K & OK & C).
  assert (AX : forall a n, faa_of_rv b v = SrcAA a n -> Rabs (vnorm (vval n) - 1) <= 20 * fu p).
  { intros a n E. destruct (faa_of_rv_err p b v O Fv ltac:(lra)) as [[E' _]|(a' & n' & E' & _ & _ & P & _ & D)]; rewrite E in E'; injection E' as -> ->.
    - destruct (funit_x_R p) as [_ ->]. rewrite (vnorm_unit ex) by lin. rewrite Rminus_diag_eq, Rabs_R0 by reflexivity. lra.
    - pose proof (vnorm_diff (vval n') (vscale (/ vnorm (vval v)) (vval v))) as DD. rewrite (vnorm_unit _ (vdir_unit _ P)) in DD. lra. }
  unfold frv_unique. destruct (faa_of_rv b v) as [a n| | |]; try discriminate K. specialize (AX a n eq_refl).
  destruct (faa_unique_ok p ev a n (655/100 + 160 * fu p) ltac:(lra) OK) as (F & Fn & R & D & Cl). destruct (faa_unique ev a n) as [a' n']. cbn [fst snd] in *.
  assert (N' : Rabs (vnorm (vval n') - 1) <= 20 * fu p).
  { destruct D as [->|[->| ->]]; [exact AX|rewrite (proj2 (proj2 (vneg_val p n))); exact AX|]. destruct (funit_x_R p) as [_ ->]. rewrite (vnorm_unit ex) by lin. rewrite Rminus_diag_eq, Rabs_R0 by reflexivity. lra. }
  assert (OB : object_ok (piT p) (SrcAA a' n')). { split; [exact F|]. split; [exact Fn|]. split; [rewrite Rabs_pos_eq; lra|]. left. rewrite roundoff_fu. exact N'. }
  destruct (frv_of_aa_ok p a' n' (piT p) ltac:(lra) OB) as (W1 & W2). unfold frv_of_aa in *. destruct W1 as [W1 W3].
  split; [exact W1|]. split; [lra|]. replace (600 * fu p + 101/100 * short_length p) with (420 * fu p + (132 * fu p + (4 * fu p + (44 * fu p + 101/100 * short_length p)))) by ring.
  eapply close_trans; [exact W2|]. eapply close_trans; [exact Cl|]. eapply close_mono; [|exact C]. lra.
Qed.

(** ** logarithmicMap, boxMinus, boxPlus *)
Lemma flog_ok p L c ev A T (x : fobject p) r : libm_ok L -> choices6_ok c -> 64/10 <= T <= 654/100 -> stands T A x r -> conv_limit p (okind_of x) (KSrc SRv) A ->
  vfinite (flog L c ev x) /\ vnorm (vval (flog L c ev x)) <= PI + 170 * fu p /\ close (log_error p (okind_of x) A) (turns (SrcRv (flog L c ev x))) r.
Proof.
  intros HL HC TT H LIM. pose proof (fu_pos p) as U. pose proof (fu_24 p) as V. pose proof HC as ((_ & HE & _) & _).
  destruct (oconvert_ok p L c (KSrc SRv) T A x r HL HC ltac:(lra) H LIM) as (K & r2 & H2 & C). unfold flog.
  destruct (oconvert L c (KSrc SRv) x) as [q|m|s]; try discriminate K. destruct s as [| v | |]; try discriminate K. destruct H2 as [[Fv Hv] E]. subst r2.
  destruct (frv_unique_ok p ev (ch_ext (c6_src c)) v (proj1 HE) Fv ltac:(lra)) as (A1 & A2 & A3). split; [exact A1|]. split; [exact A2|].
  unfold log_error, unique_error. rewrite roundoff_fu, Rplus_comm. eapply close_trans; [exact A3|exact C].
Qed.
Lemma fbox_minus_ok p L c ev A B (x y : fobject p) rx ry : libm_ok L -> choices6_ok c -> stands (64/10) A x rx -> stands (64/10) B y ry ->
  diff_limit p (okind_of x) (okind_of y) (KSrc SRv) A B -> SO3 rx -> SO3 ry ->
  let v := fbox_minus L c ev x y in
  vfinite v /\ vnorm (vval v) <= PI + 170 * fu p /\
  close (diff_error p (okind_of x) (okind_of y) A B + log_error p (okind_of x) (prod_defect (okind_of x) (okind_of y) A B)) (turns (SrcRv v)) (mmul rx (mtrans ry)).
Proof.
  intros HL HC Hx Hy [L1 L2] Sx Sy. pose proof (fu_pos p) as U. pose proof (fu_24 p) as V. cbv zeta.
  destruct (fdifference_ok p L c A B x y rx ry HL HC Hx Hy L1 Sx Sy) as (K & r & Hr & Cr). rewrite <- K in L2 at 1.
  destruct (flog_ok p L c ev _ (64/10 + 160 * fu p) (fdifference L c x y) r HL HC ltac:(lra) Hr L2) as (F & N & C). unfold fbox_minus.
  split; [exact F|]. split; [exact N|]. rewrite Rplus_comm. rewrite K in C. eapply close_trans; [exact C|exact Cr].
Qed.
Lemma fbox_plus_ok p L c A (x : fobject p) r (v : FV p) : libm_ok L -> choices6_ok c -> stands (64/10) A x r -> SO3 r -> vfinite v -> vnorm (vval v) <= 64/10 ->
  plus_limit p (okind_of x) A ->
  okind_of (fbox_plus L c x v) = okind_of x /\
  exists r', stands (64/10 + 320 * fu p) (plus_defect (okind_of x) A) (fbox_plus L c x v) r' /\ close (plus_error p (okind_of x) A) r' (mmul (turns (SrcRv v)) r).
Proof.
  intros HL HC H S Fv Hv LIM. pose proof (fu_pos p) as U. pose proof (fu_24 p) as V.
  assert (OV : object_ok (64/10) (SrcRv v)) by (split; assumption).
  assert (SV : stands (64/10) 0 (OSrc (SrcRv v)) (turns (SrcRv v))) by (split; [exact OV|reflexivity]).
  assert (CV : conv_limit p (KSrc SRv) (okind_of x) 0) by (destruct (okind_of x); exact I).
  destruct (oconvert_ok p L c (okind_of x) (64/10) 0 (OSrc (SrcRv v)) _ HL HC ltac:(lra) SV CV) as (K & re & He & Ce). fold (fexp L c (okind_of x) v) in K, He. cbn [okind_of skind_of] in He, Ce.
  assert (S1 : SO3 (turns (SrcRv v))) by (apply (object_SO3 _ _ _ OV)).
  unfold plus_limit in LIM. rewrite <- K in LIM at 1.
  assert (Se : SO3 re). { apply (stands_SO3 _ _ _ _ _ He). rewrite K. intro Q. rewrite K, Q in LIM. pose proof (prod_small_l _ _ _ _ LIM) as Z. rewrite Q. exact Z. }
  destruct (oproduct_ok p L c (64/10 + 160 * fu p) _ A (fexp L c (okind_of x) v) x re r HL HC ltac:(lra) He (stands_T p (64/10) (64/10 + 160 * fu p) A x r ltac:(lra) H) LIM Se S) as (K2 & r' & H' & C').
  unfold fbox_plus. rewrite K in *. split; [exact K2|]. exists r'. split; [eapply stands_T; [|exact H']; lra|]. unfold plus_error. rewrite Rplus_comm. eapply close_trans; [exact C'|]. apply close_mul_r; [exact S|exact Ce].
Qed.
