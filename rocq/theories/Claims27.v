(** Claims about floating-point vectors of any dimension: coefficientwise operations,
    comparisons, maxima and conversions (C79). *)
From Coq Require Import ZArith Reals Lra Psatz Bool List Lia Permutation.
From Flocq Require Import IEEE754.BinarySingleNaN Core.Core Sterbenz.
From Verif Require Import Linalg Spec SpecFacts ModelCommon FloatModel FloatFacts FloatModulo FloatWrap FloatModel2 SpecFloatQ FloatQFacts FloatQProd FloatCast FloatModel10 SpecVecF FloatVec.
Import ListNotations.
Local Open Scope R_scope.

Lemma half_range_fbig p : half_range p = fbig p.
Proof. destruct p; reflexivity. Qed.
Lemma under_eta p : eta p <= underflow p.
Proof. rewrite underflow_eta. pose proof (eta_pos p). lra. Qed.

(** C79: sums, elementwise products and dot products do not depend on the order of the
    operands, bit for bit, for all floats (infinities, NaN and signed zeros included)
    and for any order of the additions and fusing of the products *)
Lemma C79_commutative_lemma : forall (p : prim) (a b : fvec p) (t : dtree), length a = length b ->
  fv_add a b = fv_add b a /\ fv_cwiseProduct a b = fv_cwiseProduct b a /\ fv_dot t a b = fv_dot t b a.
Proof.
  intros p a b t L. split; [apply fzip_comm, fadd_comm|]. split; [apply fzip_comm, fmul_comm|].
  unfold fv_dot. destruct a as [|x a], b as [|y b]; try discriminate L; [reflexivity|]. apply fdot_comm.
Qed.
Definition fv345 : fvec F32 := [fofZ F32 3; fofZ F32 (-4); fofZ F32 5].
Lemma C79_commutative_ex : exists x : fl F32, fv_add fv345 [x; B754_nan; B754_infinity true] = fv_add [x; B754_nan; B754_infinity true] fv345.
Proof. exists (fofZ F32 7). apply (C79_commutative_lemma F32 fv345 _ (DProd 0)). reflexivity. Qed.

(** C79: every coefficient of a sum or difference is the exact one up to half a unit in
    the last place (no underflow); of an elementwise product or quotient, up to
    underflow too. *)
Lemma C79_coefficients_lemma : forall (p : prim) (a b : fvec p) (i : nat) (x y : fl p), all_finite a -> all_finite b -> length a = length b ->
  nth_error a i = Some x -> nth_error b i = Some y ->
  (Rabs (B2R x + B2R y) <= half_range p ->
     exists z, nth_error (fv_add a b) i = Some z /\ is_finite z = true /\ Rabs (B2R z - (B2R x + B2R y)) <= roundoff p * Rabs (B2R x + B2R y)) /\
  (Rabs (B2R x - B2R y) <= half_range p ->
     exists z, nth_error (fv_sub a b) i = Some z /\ is_finite z = true /\ Rabs (B2R z - (B2R x - B2R y)) <= roundoff p * Rabs (B2R x - B2R y)) /\
  (Rabs (B2R x * B2R y) <= half_range p ->
     exists z, nth_error (fv_cwiseProduct a b) i = Some z /\ is_finite z = true /\ Rabs (B2R z - B2R x * B2R y) <= roundoff p * Rabs (B2R x * B2R y) + underflow p) /\
  (B2R y <> 0 -> Rabs (B2R x / B2R y) <= half_range p ->
     exists z, nth_error (fv_cwiseQuotient a b) i = Some z /\ is_finite z = true /\ Rabs (B2R z - B2R x / B2R y) <= roundoff p * Rabs (B2R x / B2R y) + underflow p).
Proof.
  intros p a b i x y Fa Fb L Ha Hb. pose proof (all_nth p a i x Fa Ha) as Fx. pose proof (all_nth p b i y Fb Hb) as Fy. rewrite roundoff_fu, half_range_fbig. pose proof (under_eta p) as U. repeat split.
  - intro B. exists (fadd x y). split; [now apply fzip_nth|]. destruct (fadd_R p x y Fx Fy B) as [R F]. split; [exact F|]. rewrite R. apply rnd_add_err; apply fmt_B2R.
  - intro B. exists (fsub x y). split; [now apply fzip_nth|]. destruct (fsub_R p x y Fx Fy B) as [R F]. split; [exact F|]. rewrite R.
    exact (rnd_add_err p (B2R x) (- B2R y) (fmt_B2R p x) (fmt_opp p _ (fmt_B2R p y))).
  - intro B. exists (fmul x y). split; [now apply fzip_nth|]. destruct (fmul_R p x y Fx Fy B) as [R F]. split; [exact F|]. rewrite R. eapply Rle_trans; [apply rnd_err_le|lra].
  - intros N B. exists (fdiv x y). split; [now apply fzip_nth|]. destruct (fdiv_R p x y Fx N B) as [R F]. split; [exact F|]. rewrite R. eapply Rle_trans; [apply rnd_err_le|lra].
Qed.
Lemma C79_coefficients_ex : nth_error (values (fv_add fv345 fv345)) 1 = Some (-8) /\ all_finite fv345.
Proof.
  split; [|repeat constructor].
  cbn [fv345 fv_add fzip values map nth_error]. f_equal.
  rewrite (B2R_of_SF F32 (fadd (fofZ F32 (-4)) (fofZ F32 (-4))) true 8388608 (-20)) by (vm_compute; reflexivity). unfold F2R; cbn; lra.
Qed.

(** C79: the difference of coefficients that differ by at most a factor two is exact *)
Lemma C79_exact_difference_lemma : forall (p : prim) (a b : fvec p) (i : nat) (x y : fl p), all_finite a -> all_finite b -> length a = length b ->
  nth_error a i = Some x -> nth_error b i = Some y -> B2R y / 2 <= B2R x <= 2 * B2R y ->
  exists z, nth_error (fv_sub a b) i = Some z /\ is_finite z = true /\ B2R z = B2R x - B2R y.
Proof.
  intros p a b i x y Fa Fb L Ha Hb H. pose proof (all_nth p a i x Fa Ha) as Fx. pose proof (all_nth p b i y Fb Hb) as Fy.
  exists (fsub x y). split; [now apply fzip_nth|].
  assert (F : ffmt p (B2R x - B2R y)). { unfold ffmt, ffexp. apply sterbenz; try apply FLT_exp_valid; try apply FLT_exp_monotone; try apply fprec_pos; try apply fmt_B2R. exact H. }
  pose proof (Bminus_correct (fprec p) (femax p) _ _ mode_NE x y Fx Fy) as C.
  change (round radix2 (SpecFloat.fexp (fprec p) (femax p)) (round_mode mode_NE) (B2R x - B2R y)) with (rnd p (B2R x - B2R y)) in C. fold (fsub x y) in C.
  rewrite (rnd_id p _ F) in C. rewrite Rlt_bool_true in C; [destruct C as (R & G & _); now split|].
  pose proof (fin_bound p x Fx) as Bx. pose proof (fin_bound p y Fy) as By. apply Rabs_lt_inv in Bx. apply Rabs_lt_inv in By. apply Rabs_lt. lra.
Qed.
Lemma C79_exact_difference_ex : B2R (fofZ F32 2) / 2 <= B2R (fofZ F32 1) <= 2 * B2R (fofZ F32 2).
Proof. rewrite (proj2 (fofZ1 F32)), (proj2 (fofZ2 F32)). lra. Qed.

(** C79: product with a scalar of either type: the scalar is rounded to the type of the
    vector first *)
Lemma C79_scale_lemma : forall (p q : prim) (a : fvec p) (s : fl q) (i : nat) (x : fl p), all_finite a -> is_finite s = true -> nth_error a i = Some x ->
  Rabs (B2R s) <= half_range p / 2 -> Rabs (B2R x) * (Rabs (B2R s) + 1) <= half_range p / 2 ->
  exists z, nth_error (fv_mul_other a s) i = Some z /\ is_finite z = true /\
    Rabs (B2R z - B2R x * B2R s) <= (21/10) * roundoff p * Rabs (B2R x * B2R s) + (1 + 2 * Rabs (B2R x)) * underflow p.
Proof.
  intros p q a s i x Fa Fs Ha B1 B2. pose proof (all_nth p a i x Fa Ha) as Fx. rewrite roundoff_fu. rewrite half_range_fbig in B1, B2.
  pose proof (fu_pos p) as U. pose proof (fu_24 p) as V. pose proof (eta_pos p) as E. pose proof (eta_tiny p) as E2. assert (E3 : eta p <= / 16777216) by (eapply Rle_trans; [exact E2|]; change (/ 16777216) with (/ IZR (Z.pow_pos 2 24)); apply (bpow_le radix2 (-150) (-24)); lia).
  exists (fmul x (fcvt p s)). split; [unfold fv_mul_other, fv_mul; now rewrite (map_nth_error _ _ _ Ha)|].
  pose proof (bpow_gt_0 radix2 (femax p - 1)) as P. fold (fbig p) in P.
  destruct (fcvt_R q p s Fs ltac:(lra)) as [Rs Gs]. pose proof (rnd_err_le p (B2R s)) as Er. rewrite <- Rs in Er. set (s' := B2R (fcvt p s)) in *.
  set (X := B2R x) in *. set (S := B2R s) in *. pose proof (Rabs_pos X) as X0. pose proof (Rabs_pos S) as S0.
  assert (As : Rabs s' <= Rabs S * (1 + fu p) + eta p) by (replace s' with ((s' - S) + S) by ring; eapply Rle_trans; [apply Rabs_triang|]; lra).
  assert (M : Rabs (X * s') <= fbig p).
  { rewrite Rabs_mult. apply Rle_trans with (Rabs X * (2 * (Rabs S + 1))); [apply Rmult_le_compat_l; [exact X0|]; nra|lra]. }
  destruct (fmul_R p x (fcvt p s) Fx Gs M) as [R G]. fold X s' in R. split; [exact G|]. rewrite R.
  pose proof (rnd_err_le p (X * s')) as Er2. replace (rnd p (X * s') - X * S) with ((rnd p (X * s') - X * s') + X * (s' - S)) by ring.
  eapply Rle_trans; [apply Rabs_triang|]. rewrite (Rabs_mult X (s' - S)). rewrite (Rabs_mult X S). rewrite Rabs_mult in Er2. rewrite underflow_eta.
  assert (Q1 : Rabs X * Rabs s' <= Rabs X * (Rabs S * (1 + fu p) + eta p)) by (apply Rmult_le_compat_l; assumption).
  assert (Q2 : Rabs X * Rabs (s' - S) <= Rabs X * (fu p * Rabs S + eta p)) by (apply Rmult_le_compat_l; assumption).
  assert (XS : 0 <= Rabs X * Rabs S) by (now apply Rmult_le_pos). assert (XE : 0 <= Rabs X * eta p) by (apply Rmult_le_pos; lra).
  assert (Q3 : fu p * (Rabs X * Rabs s') <= fu p * (Rabs X * (Rabs S * (1 + fu p) + eta p))) by (apply Rmult_le_compat_l; lra).
  assert (Q4 : fu p * (fu p * (Rabs X * Rabs S)) <= / 100 * fu p * (Rabs X * Rabs S)).
  { rewrite <- Rmult_assoc. apply Rmult_le_compat_r; [exact XS|]. apply Rmult_le_compat_r; lra. }
  assert (Q6 : 0 <= fu p * (Rabs X * Rabs S)) by (apply Rmult_le_pos; lra).
  assert (Q5 : fu p * (Rabs X * eta p) <= 1 * (Rabs X * eta p)) by (apply Rmult_le_compat_r; lra).
  lra.
Qed.
Lemma C79_scale_ex : exists s : fl F64, is_finite s = true /\ Rabs (B2R s) <= half_range F32 / 2 /\ Rabs (B2R (fofZ F32 2)) * (Rabs (B2R s) + 1) <= half_range F32 / 2.
Proof.
  exists (fofZ F64 2). rewrite (proj2 (fofZ2 F64)), (proj2 (fofZ2 F32)). split; [reflexivity|]. rewrite half_range_fbig. rewrite Rabs_pos_eq by lra.
  assert (bpow radix2 5 <= fbig F32) by (apply bpow_le; cbn; lia). change (bpow radix2 5) with 32 in *. lra.
Qed.

(** C79: quotient by a scalar, also where Eigen multiplies with the reciprocal *)
Lemma C79_divide_lemma : forall (p : prim) (m : divmode) (a : fvec p) (s : fl p) (i : nat) (x : fl p), all_finite a -> is_finite s = true -> nth_error a i = Some x ->
  bpow radix2 (-100) <= Rabs (B2R s) <= bpow radix2 100 -> Rabs (B2R x / B2R s) <= half_range p / 2 ->
  exists z, nth_error (fv_div m a s) i = Some z /\ is_finite z = true /\
    Rabs (B2R z - B2R x / B2R s) <= (21/10) * roundoff p * Rabs (B2R x / B2R s) + underflow p.
Proof.
  intros p m a s i x Fa Fs Ha [B1 B2] B3. pose proof (all_nth p a i x Fa Ha) as Fx. rewrite roundoff_fu. rewrite half_range_fbig in B3.
  pose proof (fu_pos p) as U. pose proof (fu_24 p) as V. pose proof (eta_pos p) as E. pose proof (under_eta p) as UE. pose proof (bpow_gt_0 radix2 (-100)) as P0.
  exists (fscale_down m s x). split; [unfold fv_div; now rewrite (map_nth_error _ _ _ Ha)|].
  set (X := B2R x) in *. set (S := B2R s) in *. assert (S0 : S <> 0) by (intro Z; rewrite Z, Rabs_R0 in B1; lra).
  pose proof (Rabs_pos (X / S)) as Q0. destruct m; cbn [fscale_down].
  - destruct (fdiv_R p x s Fx S0) as [R G]; [fold X S; lra|]. split; [exact G|]. rewrite R. fold X S. eapply Rle_trans; [apply rnd_err_le|].
    assert (0 <= fu p * Rabs (X / S)) by (apply Rmult_le_pos; lra). lra.
  - destruct (fofZ1 p) as [F1 V1]. assert (I1 : Rabs (/ S) <= bpow radix2 100).
    { rewrite Rabs_inv. replace (bpow radix2 100) with (/ bpow radix2 (-100)) by (rewrite <- bpow_opp; reflexivity). now apply Rinv_le. }
    assert (I2 : bpow radix2 (-100) <= Rabs (/ S)).
    { rewrite Rabs_inv. replace (bpow radix2 (-100)) with (/ bpow radix2 100) by (rewrite <- bpow_opp; reflexivity). apply Rinv_le; lra. }
    assert (BB : bpow radix2 100 <= fbig p) by (apply bpow_le; destruct p; cbn; lia).
    destruct (fdiv_R p (fofZ p 1) s F1 S0) as [R1 G1]; [fold S; rewrite V1; unfold Rdiv; rewrite Rmult_1_l; lra|].
    rewrite V1 in R1. fold S in R1. unfold Rdiv in R1. rewrite Rmult_1_l in R1. pose proof (rnd_err_le p (/ S)) as ER. rewrite <- R1 in ER. set (r := B2R (fdiv (fofZ p 1) s)) in *.
    assert (EI : eta p <= / 1000 * fu p * Rabs (/ S)).
    { eapply Rle_trans; [apply eta_u|]. rewrite Rmult_assoc, (Rmult_comm (/ 1000)), Rmult_assoc. apply Rmult_le_compat_l; [lra|].
      apply Rle_trans with (bpow radix2 (-100) * / 1000); [|apply Rmult_le_compat_r; lra].
      apply Rle_trans with (bpow radix2 (-100) * bpow radix2 (-10)); [rewrite <- bpow_plus; apply bpow_le; lia|apply Rmult_le_compat_l; [lra|]; cbn; lra]. }
    assert (RI : Rabs (r - / S) <= 1001/1000 * fu p * Rabs (/ S)) by lra.
    assert (RC : Rabs (X * r - X / S) <= 1001/1000 * fu p * Rabs (X / S)).
    { replace (X * r - X / S) with (X * (r - / S)) by (unfold Rdiv; ring). unfold Rdiv. rewrite !Rabs_mult. replace (1001 * / 1000 * fu p * (Rabs X * Rabs (/ S))) with (Rabs X * (1001 / 1000 * fu p * Rabs (/ S))) by (unfold Rdiv; ring). apply Rmult_le_compat_l; [apply Rabs_pos|exact RI]. }
    set (Q := Rabs (X / S)) in *. assert (UQ : fu p * Q <= / 16777216 * Q) by (apply Rmult_le_compat_r; lra). assert (UQ0 : 0 <= fu p * Q) by (apply Rmult_le_pos; lra).
    assert (AC : Rabs (X * r) <= 101/100 * Q). { replace (X * r) with ((X * r - X / S) + X / S) by ring. eapply Rle_trans; [apply Rabs_triang|]. fold Q. lra. }
    destruct (fmul_R p x (fdiv (fofZ p 1) s) Fx G1) as [R F]; [fold X r; lra|]. split; [exact F|]. rewrite R. fold X r. pose proof (rnd_err_le p (X * r)) as E2.
    replace (rnd p (X * r) - X / S) with ((rnd p (X * r) - X * r) + (X * r - X / S)) by ring. eapply Rle_trans; [apply Rabs_triang|].
    assert (fu p * Rabs (X * r) <= fu p * (101/100 * Q)) by (apply Rmult_le_compat_l; lra). lra.
Qed.
Lemma C79_divide_ex : bpow radix2 (-100) <= Rabs (B2R (fofZ F32 2)) <= bpow radix2 100 /\ fv_eq (fv_div Reciprocal fv345 (fofZ F32 3)) (fv_div Quotient fv345 (fofZ F32 3)) = false.
Proof.
  split; [|vm_compute; reflexivity]. rewrite (proj2 (fofZ2 F32)), Rabs_pos_eq by lra. assert (A : bpow radix2 (-100) <= bpow radix2 0) by (apply bpow_le; lia). assert (B : bpow radix2 1 <= bpow radix2 100) by (apply bpow_le; lia).
  change (bpow radix2 0) with 1 in A. change (bpow radix2 1) with 2 in B. lra.
Qed.
(** C79: the product of two vectors is defined if one of them has dimension 1, does not
    depend on the order of the factors (bit for bit), and has the coefficients of the
    longer one times the coefficient of the other *)
Lemma C79_vector_product_lemma : forall (p : prim) (a b : fvec p),
  (fv_mul_vec a b <> None <-> length a = 1%nat \/ length b = 1%nat) /\ fv_mul_vec a b = fv_mul_vec b a /\
  (forall (s : fl p) c, fv_mul_vec a [s] = Some c -> length c = length a /\
     forall i x, nth_error a i = Some x -> is_finite x = true -> is_finite s = true -> Rabs (B2R x * B2R s) <= half_range p ->
     exists z, nth_error c i = Some z /\ is_finite z = true /\ Rabs (B2R z - B2R x * B2R s) <= roundoff p * Rabs (B2R x * B2R s) + underflow p).
Proof.
  intros p a b. split; [|split].
  - unfold fv_mul_vec. destruct b as [|y [|y' b]], a as [|x [|x' a]]; cbn; split; intro H; try discriminate; try (destruct H; discriminate); try (now left); try (now right); exfalso; now apply H.
  - unfold fv_mul_vec. destruct b as [|y [|y' b]], a as [|x [|x' a]]; try reflexivity. unfold fv_mul. cbn [map]. do 2 f_equal. apply fmul_comm.
  - intros s c H. cbn in H. injection H as <-. split; [apply map_length|]. intros i x Hx Fx Fs B. exists (fmul x s). split; [now apply (map_nth_error (fun x => fmul x s))|].
    rewrite half_range_fbig in B. destruct (fmul_R p x s Fx Fs B) as [R G]. split; [exact G|]. rewrite R, roundoff_fu. eapply Rle_trans; [apply rnd_err_le|]. pose proof (under_eta p). lra.
Qed.
Lemma C79_vector_product_ex : exists c, fv_mul_vec [fofZ F32 2] fv345 = Some c /\ fv_eq c [fofZ F32 6; fofZ F32 (-8); fofZ F32 10] = true.
Proof. eexists. split; [reflexivity|vm_compute; reflexivity]. Qed.
(** C79: a second factor of dimension 1 and of the other scalar type is converted first *)
Lemma C79_vector_product_mixed_lemma : forall (p q : prim) (a : fvec p) (b : fvec q),
  (fv_mul_vec_other a b <> None <-> length b = 1%nat) /\
  forall s : fl q, fv_mul_vec_other a [s] = fv_mul_vec a (fv_cast p [s]).
Proof.
  intros p q a b. split.
  - destruct b as [|y [|y' b]]; cbn; split; intro H; try discriminate; try reflexivity; exfalso; now apply H.
  - reflexivity.
Qed.

(** C79: negation and abs() are exact *)
Lemma C79_sign_lemma : forall (p : prim) (a : fvec p), values (fv_neg a) = map Ropp (values a) /\ values (fv_abs a) = map Rabs (values a) /\
  (all_finite a -> all_finite (fv_neg a) /\ all_finite (fv_abs a)).
Proof.
  intros p a. unfold values, fv_neg, fv_abs. rewrite !map_map. split; [|split].
  - apply map_ext. intro x. apply fneg_val.
  - apply map_ext. intro x. apply B2R_Babs.
  - unfold all_finite. intro F. split; apply Forall_map; (eapply Forall_impl; [|exact F]); intros x Hx; cbv beta in *; [now rewrite fneg_fin|unfold fabs; now rewrite is_finite_Babs].
Qed.
Lemma C79_sign_ex : fv_eq (fv_abs fv345) [fofZ F32 3; fofZ F32 4; fofZ F32 5] = true.
Proof. vm_compute. reflexivity. Qed.

(** C79: operator== holds exactly if the coefficients are the same real numbers (finite
    coefficients); a vector equals itself exactly if no coefficient is NaN *)
Lemma C79_equal_lemma : forall (p : prim) (a b : fvec p), length a = length b -> all_finite a -> all_finite b ->
  (fv_eq a b = true <-> values a = values b).
Proof.
  intros p a. induction a as [|x a IH]; intros [|y b] L Fa Fb; try discriminate L; [cbn; tauto|].
  inversion_clear Fa as [|? ? Fx Fa']. inversion_clear Fb as [|? ? Fy Fb']. injection L as L. cbn [fv_eq values map]. rewrite andb_true_iff, (feq_R p x y Fx Fy), (IH b L Fa' Fb').
  unfold values. split; [intros [E ->]|]. 
  - destruct (Req_bool_spec (B2R x) (B2R y)); [congruence|discriminate].
  - intro E. injection E as E1 E2. split; [now apply Req_bool_true|exact E2].
Qed.
Lemma C79_equal_self_lemma : forall (p : prim) (a : fvec p), fv_eq a a = true <-> Forall (fun x => is_nan x = false) a.
Proof.
  intros p a. induction a as [|x a IH]; [cbn; split; [constructor|reflexivity]|]. cbn [fv_eq]. unfold feq. rewrite Beqb_refl, andb_true_iff, IH, negb_true_iff. split.
  - intros [A B]. now constructor.
  - intro F. inversion_clear F. now split.
Qed.
Lemma C79_equal_ex : fv_eq fv345 fv345 = true /\ fv_eq [B754_nan : fl F32] [B754_nan] = false /\ fv_eq [B754_zero true : fl F32] [B754_zero false] = true.
Proof. repeat split. Qed.

(** C79: v - v is the zero vector, v + 0 and v * 1 are v, and -(-v) is v *)
Lemma C79_neutral_lemma : forall (p : prim) (a : fvec p), all_finite a ->
  fv_eq (fv_sub a a) (fv_zero p (length a)) = true /\ fv_eq (fv_add a (fv_zero p (length a))) a = true /\
  fv_eq (fv_mul_int a 1) a = true /\ fv_neg (fv_neg a) = a.
Proof.
  intros p a F. induction F as [|x a Fx F (I1 & I2 & I3 & I4)]; [repeat split|].
  assert (Hb : Rabs (B2R x) < bpow radix2 (femax p)) by (apply fin_bound; exact Fx).
  unfold fv_zero, fv_sub, fv_add, fv_mul_int, fv_mul, fv_neg in *. cbn [length repeat fzip fv_eq map]. rewrite I1, I2, I3, I4, !andb_true_r.
  pose proof (fbig_lt p) as L. pose proof (bpow_gt_0 radix2 (femax p - 1)) as P. fold (fbig p) in P. repeat split.
  - destruct (fsub_R p x x Fx Fx) as [R G]; [rewrite Rminus_diag_eq, Rabs_R0 by reflexivity; lra|]. rewrite (feq_R p _ fzero G eq_refl), R, Rminus_diag_eq, rnd_0 by reflexivity. now apply Req_bool_true.
  - assert (E : fadd x fzero = x \/ B2R (fadd x fzero) = B2R x /\ is_finite (fadd x fzero) = true).
    { destruct x as [[|]|s| |s m e H]; cbn in *; try discriminate; [right; split; reflexivity|left; reflexivity|left; reflexivity]. }
    destruct E as [-> | [E G]]; [rewrite (feq_R p x x Fx Fx); now apply Req_bool_true|rewrite (feq_R p _ x G Fx), E; now apply Req_bool_true].
  - destruct (fofZ1 p) as [F1 V1]. pose proof (Bmult_correct (fprec p) (femax p) _ _ mode_NE x (fofZ p 1)) as C.
    change (round radix2 (SpecFloat.fexp (fprec p) (femax p)) (round_mode mode_NE) (B2R x * B2R (fofZ p 1))) with (rnd p (B2R x * B2R (fofZ p 1))) in C. fold (fmul x (fofZ p 1)) in C.
    rewrite V1, Rmult_1_r, (rnd_id p _ (fmt_B2R p x)), Rlt_bool_true in C by exact Hb. destruct C as (R & G & _). rewrite Fx, F1 in G. rewrite (feq_R p _ x G Fx), R. now apply Req_bool_true.
  - f_equal. apply Bopp_involutive.
Qed.
Lemma C79_neutral_ex : all_finite fv345.
Proof. repeat constructor. Qed.

Lemma similar_iff p (t : sumtree) (a b : fvec p) (tol : fl p) : length a = length b -> sum_order (length a) t -> all_finite a -> all_finite b -> is_finite tol = true ->
  (fv_similar t a b tol = true <-> forall i x y, nth_error a i = Some x -> nth_error b i = Some y -> Rabs (rnd p (B2R x - B2R y)) < B2R tol).
Proof.
  intros L O Fa Fb Ft. set (d := fv_abs (fv_sub a b)).
  assert (Ld : length d = length a) by (unfold d, fv_abs; rewrite map_length; now apply fzip_length).
  assert (N : forall i x y, nth_error a i = Some x -> nth_error b i = Some y -> nth_error d i = Some (fabs (fsub x y))).
  { intros i x y Hx Hy. unfold d, fv_abs. apply map_nth_error. now apply fzip_nth. }
  assert (G : forall z, In z d -> exists i x y, nth_error a i = Some x /\ nth_error b i = Some y /\ z = fabs (fsub x y)).
  { intros z Hz. apply In_nth_error in Hz. destruct Hz as [i Hi]. assert (Hl : (i < length a)%nat) by (rewrite <- Ld; apply nth_error_Some; congruence).
    destruct (nth_error a i) as [x|] eqn:Ex; [|apply nth_error_None in Ex; lia]. destruct (nth_error b i) as [y|] eqn:Ey; [|apply nth_error_None in Ey; lia].
    exists i, x, y. repeat split; try assumption. rewrite (N i x y Ex Ey) in Hi. congruence. }
  assert (NN : Forall (fun x => is_nan x = false) d).
  { apply Forall_forall. intros z Hz. destruct (G z Hz) as (i & x & y & Hx & Hy & ->). apply fsub_abs_ext; [exact (all_nth p a i x Fa Hx)|exact (all_nth p b i y Fb Hy)]. }
  destruct (fv_max_spec p t d) as [HIn HM]; [now rewrite Ld|exact NN|].
  assert (Ntol : is_nan tol = false) by (destruct tol; cbn in *; congruence).
  assert (Nm : is_nan (fv_max t d) = false) by (rewrite Forall_forall in NN; now apply NN).
  unfold fv_similar. fold d. rewrite (flt_ext p _ _ Nm Ntol), (ext_fin p tol Ft). pose proof (fin_bound p tol Ft) as Bt. apply Rabs_lt_inv in Bt.
  split.
  - intros H i x y Hx Hy. assert (H' : ext (fv_max t d) < B2R tol) by (destruct (Rlt_bool_spec (ext (fv_max t d)) (B2R tol)); [assumption|discriminate]).
    pose proof (HM _ (nth_error_In _ _ (N i x y Hx Hy))) as K. destruct (fsub_abs_ext p x y (all_nth p a i x Fa Hx) (all_nth p b i y Fb Hy)) as [_ [E|[E _]]]; rewrite E in K; lra.
  - intro H. apply Rlt_bool_true. destruct (G _ HIn) as (i & x & y & Hx & Hy & E). rewrite E. specialize (H i x y Hx Hy).
    destruct (fsub_abs_ext p x y (all_nth p a i x Fa Hx) (all_nth p b i y Fb Hy)) as [_ [E'|[E' K]]]; rewrite E'; lra.
Qed.

(** C79: isSimilarTo(other, tol) returns true only if every two coefficients differ by
    less than tol, exactly (also when the difference overflows) *)
Lemma C79_similar_true_lemma : forall (p : prim) (t : sumtree) (a b : fvec p) (tol : fl p),
  length a = length b -> sum_order (length a) t -> all_finite a -> all_finite b -> is_finite tol = true ->
  fv_similar t a b tol = true ->
  forall i x y, nth_error a i = Some x -> nth_error b i = Some y -> Rabs (B2R x - B2R y) < B2R tol.
Proof.
  intros p t a b tol L O Fa Fb Ft H i x y Hx Hy. pose proof (proj1 (similar_iff p t a b tol L O Fa Fb Ft) H i x y Hx Hy) as K.
  apply Rnot_le_lt. intro N. rewrite <- rnd_Rabs in K. pose proof (rnd_ge_fmt p _ _ (fmt_B2R p tol) N). lra.
Qed.
(** C79: and returns true if every two coefficients differ by less than tol, up to one
    rounding of tol *)
Lemma C79_similar_near_lemma : forall (p : prim) (t : sumtree) (a b : fvec p) (tol : fl p),
  length a = length b -> sum_order (length a) t -> all_finite a -> all_finite b -> is_finite tol = true ->
  (forall i x y, nth_error a i = Some x -> nth_error b i = Some y -> Rabs (B2R x - B2R y) < (1 - roundoff p) * B2R tol) ->
  fv_similar t a b tol = true.
Proof.
  intros p t a b tol L O Fa Fb Ft H. apply (similar_iff p t a b tol L O Fa Fb Ft). intros i x y Hx Hy. specialize (H i x y Hx Hy). rewrite roundoff_fu in H.
  pose proof (rnd_add_err p (B2R x) (- B2R y) (fmt_B2R p x) (fmt_opp p _ (fmt_B2R p y))) as E. fold (B2R x - B2R y) in E. pose proof (fu_pos p) as U. pose proof (fu_24 p) as V.
  set (D := B2R x - B2R y) in *. pose proof (Rabs_pos D) as D0.
  replace (rnd p D) with ((rnd p D - D) + D) by ring. eapply Rle_lt_trans; [apply Rabs_triang|].
  assert (T : 0 < B2R tol) by nra. assert (X : (1 + fu p) * Rabs D <= (1 + fu p) * ((1 - fu p) * B2R tol)) by (apply Rmult_le_compat_l; lra).
  assert (Y : 0 < fu p * fu p * B2R tol) by (apply Rmult_lt_0_compat; [apply Rmult_lt_0_compat|]; assumption). lra.
Qed.
(** C79: it is symmetric, independent of the order in which Eigen takes the maximum, and
    holds for a vector and itself if tol is positive *)
Lemma C79_similar_order_lemma : forall (p : prim) (t t' : sumtree) (a b : fvec p) (tol : fl p),
  length a = length b -> sum_order (length a) t -> sum_order (length a) t' -> all_finite a -> all_finite b -> is_finite tol = true ->
  fv_similar t a b tol = fv_similar t' b a tol /\ (0 < B2R tol -> fv_similar t a a tol = true).
Proof.
  intros p t t' a b tol L O O' Fa Fb Ft. split.
  - assert (O2 : sum_order (length b) t') by now rewrite <- L. apply eq_true_iff_eq.
    rewrite (similar_iff p t a b tol L O Fa Fb Ft), (similar_iff p t' b a tol (eq_sym L) O2 Fb Fa Ft).
    split; intros H i x y Hx Hy; rewrite <- Ropp_minus_distr, rnd_opp, Rabs_Ropp; now apply (H i y x).
  - intro T. apply (similar_iff p t a a tol eq_refl O Fa Fa Ft). intros i x y Hx Hy. assert (x = y) as -> by congruence. rewrite Rminus_diag_eq, rnd_0, Rabs_R0 by reflexivity. exact T.
Qed.
Definition max3 : sumtree := Node (Node (Leaf 0) (Leaf 1)) (Leaf 2).
Lemma C79_similar_ex : fv_similar max3 fv345 [fofZ F32 3; fofZ F32 (-4); fofZ F32 6] (flit F32 11 10) = true /\
  fv_similar max3 fv345 [fofZ F32 3; fofZ F32 (-4); fofZ F32 6] (fofZ F32 1) = false /\ sum_order (length fv345) max3.
Proof. repeat split. apply Permutation_refl. Qed.
(** but a NaN coefficient can go unnoticed *)
Lemma C79_similar_nan_lemma : exists a b : fvec F32, length a = length b /\ all_finite b /\ In B754_nan a /\
  fv_similar max3 a b (flit F32 1 1000) = true.
Proof. exists [fzero; B754_nan; fzero], [fzero; fzero; fzero]. repeat split; [repeat constructor|right; left; reflexivity]. Qed.

(** C79: max() and min() are the largest and the smallest coefficient, exactly *)
Lemma C79_max_min_lemma : forall (p : prim) (t : sumtree) (a : fvec p), all_finite a -> sum_order (length a) t ->
  In (fv_max t a) a /\ In (fv_min t a) a /\
  (forall x, In x a -> B2R (fv_min t a) <= B2R x <= B2R (fv_max t a)).
Proof.
  intros p t a F O. assert (N : Forall (fun x => is_nan x = false) a) by (eapply Forall_impl; [|exact F]; intros [ | | | ]; cbn; congruence).
  destruct (fv_max_spec p t a O N) as [I1 M1]. destruct (fv_min_spec p t a O N) as [I2 M2]. split; [exact I1|]. split; [exact I2|].
  unfold all_finite in F. rewrite Forall_forall in F. intros x Hx. specialize (M1 x Hx). specialize (M2 x Hx).
  rewrite !ext_fin in M1 by (now apply F). rewrite !ext_fin in M2 by (now apply F). now split.
Qed.
Lemma C79_max_min_ex : feq (fv_max max3 fv345) (fofZ F32 5) = true /\ feq (fv_min max3 fv345) (fofZ F32 (-4)) = true.
Proof. split; vm_compute; reflexivity. Qed.

(** C79: a float vector converted to double is the same vector, and comes back bit for
    bit; a double vector converted to float is rounded *)
Lemma C79_cast_lemma : forall (a : fvec F32) (b : fvec F64),
  values (fv_cast F64 a) = values a /\ fv_cast F32 (fv_cast F64 a) = a /\
  (all_finite b -> (forall x, In x (values b) -> Rabs x <= half_range F32) ->
   all_finite (fv_cast F32 b) /\
   forall i x y, nth_error (values b) i = Some x -> nth_error (values (fv_cast F32 b)) i = Some y -> Rabs (y - x) <= roundoff F32 * Rabs x + underflow F32).
Proof.
  intros a b. split; [|split].
  - unfold values, fv_cast. rewrite map_map. apply map_ext. intro. apply widen_val.
  - unfold fv_cast. rewrite map_map. rewrite <- (map_id a) at 2. apply map_ext. intro. apply fcvt_back.
  - intros F B. rewrite half_range_fbig in B. assert (G : forall x, In x b -> B2R (fcvt F32 x) = rnd F32 (B2R x) /\ is_finite (fcvt F32 x) = true).
    { intros x Hx. unfold all_finite in F. rewrite Forall_forall in F. apply fcvt_R; [now apply F|]. apply B. unfold values. apply (in_map (fun x : fl F64 => B2R x)). exact Hx. }
    split.
    + apply Forall_forall. intros y Hy. unfold fv_cast in Hy. apply in_map_iff in Hy. destruct Hy as (x & <- & Hx). now apply G.
    + intros i x y Hx Hy. unfold values in Hx. destruct (nth_error b i) as [z|] eqn:E.
      * rewrite (map_nth_error _ _ _ E) in Hx. unfold values, fv_cast in Hy. rewrite map_map, (map_nth_error _ _ _ E) in Hy. injection Hx as <-. injection Hy as <-.
        destruct (G z (nth_error_In _ _ E)) as [Q _]. rewrite roundoff_fu. pose proof (under_eta F32) as W. pose proof (rnd_err_le F32 (B2R z)) as K. rewrite <- Q in K. exact (Rle_trans _ _ _ K (Rplus_le_compat_l _ _ _ W)).
      * exfalso. apply nth_error_None in E. assert (K : (i < length (values b))%nat) by (apply nth_error_Some; unfold values; intro Z; rewrite Hx in Z; discriminate Z).
        unfold values in K. rewrite map_length in K. exact (Nat.lt_irrefl _ (Nat.lt_le_trans _ _ _ K E)).
Qed.
Lemma C79_cast_ex : all_finite [flit F64 1 10; flit F64 (-7) 3] /\ fv_eq (fv_cast F64 (fv_cast F32 [flit F64 1 10; flit F64 (-7) 3])) [flit F64 1 10; flit F64 (-7) 3] = false.
Proof. split; [repeat constructor|vm_compute; reflexivity]. Qed.
