(** Claims about floating-point vectors of any dimension: dot product, norm,
    normalization, projection, cross product, sum and mean (C80). *)
From Coq Require Import ZArith Reals Lra Psatz Bool List Lia Permutation.
From Flocq Require Import IEEE754.BinarySingleNaN Core.Core.
From Verif Require Import Linalg Spec SpecFacts ModelCommon FloatModel FloatFacts FloatModulo FloatWrap FloatModel2 SpecFloatQ FloatQFacts FloatQProd FloatQRot FloatModel10 SpecVecF FloatVec FloatVec2 FloatVec3 FloatVec4 Claims27.
Import ListNotations.
Local Open Scope R_scope.

(** C80: the dot product, in any order of the additions and with any products fused,
    is the exact one up to about n roundings of the sum of the magnitudes of the
    products; in any dimension n with n roundings at most one percent (167772 for
    float). *)
Lemma C80_dot_lemma : forall (p : prim) (t : dtree) (a b : fvec p), order (length a) t -> length a = length b -> all_finite a -> all_finite b ->
  dimension a * roundoff p <= / 100 -> inner_abs (values a) (values b) <= half_range p / 2 ->
  is_finite (fv_dot t a b) = true /\
  Rabs (B2R (fv_dot t a b) - inner (values a) (values b)) <= 101/100 * dimension a * roundoff p * inner_abs (values a) (values b) + dimension a * underflow p.
Proof.
  intros p t a b O L Fa Fb Hn HB. rewrite roundoff_fu, half_range_fbig in *. destruct (fv_dot_err p t a b O L Fa Fb Hn HB) as [F E]. split; [exact F|]. eapply Rle_trans; [exact E|].
  rewrite underflow_eta. pose proof (eta_pos p) as E0. pose proof (pos_INR (length a)) as N. fold (dimension a) in N. assert (0 <= dimension a * eta p) by (apply Rmult_le_pos; lra). lra.
Qed.
Lemma fv345_vals : values fv345 = [3; -4; 5].
Proof.
  unfold values, fv345. cbn [map]. destruct (fofZ_small F32 3) as [_ ->]; [cbn; lia|]. destruct (fofZ_small F32 (-4)) as [_ ->]; [cbn; lia|]. destruct (fofZ_small F32 5) as [_ ->]; [cbn; lia|]. reflexivity.
Qed.
Lemma fv345_dim : dimension fv345 * roundoff F32 <= / 100.
Proof. unfold dimension, roundoff. cbn. lra. Qed.
Definition dot3 : dtree := DFma 2 (DAdd (DProd 0) (DProd 1)).
Lemma dot3_ok : order 3 dot3.
Proof. unfold order, dot3. cbn. exact (Permutation_middle [0%nat; 1%nat] [] 2%nat). Qed.
Lemma C80_dot_ex : order (length fv345) dot3 /\ all_finite fv345 /\ dimension fv345 * roundoff F32 <= / 100 /\ inner_abs (values fv345) (values fv345) <= half_range F32 / 2.
Proof.
  split; [exact dot3_ok|]. split; [repeat constructor|]. split; [exact fv345_dim|]. rewrite fv345_vals, half_range_fbig. cbn [inner_abs].
  assert (bpow radix2 10 <= fbig F32) by (apply bpow_le; cbn; lia). change (bpow radix2 10) with 1024 in *. rewrite !Rabs_pos_eq by lra. lra.
Qed.

(** C80: norm() is the Euclidean length up to n/2 + 1 roundings, for lengths between
    2^-50 and 2^50 *)
Lemma C80_norm_lemma : forall (p : prim) (t : dtree) (a : fvec p), order (length a) t -> all_finite a -> dimension a * roundoff p <= / 100 ->
  bpow radix2 (-50) <= len (values a) <= bpow radix2 50 ->
  is_finite (fv_norm t a) = true /\ Rabs (B2R (fv_norm t a) - len (values a)) <= (52/100 * dimension a + 102/100) * roundoff p * len (values a) /\
  is_finite (fv_squaredNorm t a) = true /\ Rabs (B2R (fv_squaredNorm t a) - len (values a) * len (values a)) <= 102/100 * dimension a * roundoff p * (len (values a) * len (values a)).
Proof.
  intros p t a O F Hn HN. rewrite roundoff_fu in *. destruct (fv_norm_err p t a O F Hn HN) as (_ & G & E). destruct (fv_sq_err p t a O F Hn HN) as [G2 E2]. repeat split; try assumption. eapply Rle_trans; [exact E2|].
  pose proof (fu_pos p) as U. pose proof (pos_INR (length a)) as N. fold (dimension a) in N. assert (0 <= dimension a * fu p * (len (values a) * len (values a))) by (apply Rmult_le_pos; [apply Rmult_le_pos; lra|apply Rle_0_sqr]). lra.
Qed.
Lemma fv345_len : 7 <= len (values fv345) <= 8.
Proof. rewrite fv345_vals. split; apply sq_le; try apply len_nonneg; try lra; rewrite len_sq; cbn [inner]; lra. Qed.
Lemma C80_norm_ex : bpow radix2 (-50) <= len (values fv345) <= bpow radix2 50.
Proof.
  pose proof fv345_len as K. assert (A : bpow radix2 (-50) <= bpow radix2 0) by (apply bpow_le; lia). assert (B : bpow radix2 3 <= bpow radix2 50) by (apply bpow_le; lia).
  change (bpow radix2 0) with 1 in A. change (bpow radix2 3) with 8 in B. lra.
Qed.
(** C80: the norm of a vector without NaN coefficients is never NaN and never negative,
    for all magnitudes (overflow to infinity included) and all orders of the additions *)
Lemma C80_norm_sign_lemma : forall (p : prim) (t : dtree) (a : fvec p), order (length a) t -> Forall (fun x => is_nan x = false) a ->
  is_nan (fv_norm t a) = false /\ fle fzero (fv_norm t a) = true.
Proof.
  intros p t a O F. assert (P : positive (fv_norm t a)).
  { unfold fv_norm, fv_squaredNorm, fv_dot. apply fsqrt_positive. destruct a as [|x a]; [split; reflexivity|]. apply feval_self_positive.
    intros i Hi. apply (Permutation_in i O) in Hi. apply in_seq in Hi. unfold cf. rewrite Forall_forall in F. apply F, nth_In. lia. }
  split; [apply P|]. destruct P as [N S]. destruct (fv_norm t a) as [s|s| |s m e H]; cbn in N, S; try discriminate N; subst s; reflexivity.
Qed.
Lemma C80_norm_sign_ex : feq (fv_norm dot3 [fzero; B754_infinity true; fofZ F32 3]) (B754_infinity false) = true.
Proof. reflexivity. Qed.

(** C80: normalized() is the unit vector in the direction of the vector up to
    n/2 + 3 roundings, and its length is one to the same accuracy *)
Lemma C80_normalized_lemma : forall (p : prim) (t : dtree) (m : divmode) (a : fvec p), order (length a) t -> all_finite a -> dimension a * roundoff p <= / 100 ->
  bpow radix2 (-50) <= len (values a) <= bpow radix2 50 ->
  all_finite (fv_normalized t m a) /\ length (fv_normalized t m a) = length a /\
  far (values (fv_normalized t m a)) (times (/ len (values a)) (values a)) <= (54/100 * dimension a + 32/10) * roundoff p /\
  Rabs (len (values (fv_normalized t m a)) - 1) <= (54/100 * dimension a + 32/10) * roundoff p.
Proof.
  intros p t m a O F Hn HN. rewrite roundoff_fu in *. destruct (fv_normalized_err p t m a O F Hn HN) as [G E]. split; [exact G|]. split; [apply fv_normalized_length|]. split; [exact E|].
  eapply Rle_trans; [|exact E]. assert (U : len (times (/ len (values a)) (values a)) = 1).
  { pose proof (bpow_gt_0 radix2 (-50)). rewrite len_times, Rabs_pos_eq; [|left; apply Rinv_0_lt_compat; lra]. apply Rinv_l. lra. }
  rewrite <- U. apply len_far. now rewrite times_length, !values_length, fv_normalized_length.
Qed.
(** outside that range normalized() is wrong in float: 10^20 gives the zero vector,
    10^-30 is returned unchanged *)
Definition e20 : fl F32 := flit F32 (10 ^ 20) 1.
Definition em30 : fl F32 := flit F32 1 (10 ^ 30).
Lemma C80_normalized_range_lemma : exists x y : fl F32, is_finite x = true /\ is_finite y = true /\ flt fzero x = true /\ flt fzero y = true /\
  fv_eq (fv_normalized dot3 Quotient [x; fzero; fzero]) [fzero; fzero; fzero] = true /\ fv_eq (fv_normalized dot3 Quotient [y; fzero; fzero]) [y; fzero; fzero] = true /\ flt y (flit F32 1 (10 ^ 29)) = true.
Proof. exists e20, em30. repeat split; vm_compute; reflexivity. Qed.

(** C80: projectOn(b) is the orthogonal projection b (a.b)/(b.b), up to 2n + 2
    roundings of the length of a *)
Lemma C80_project_lemma : forall (p : prim) (t t' : dtree) (a b : fvec p), order (length a) t -> order (length b) t' -> length a = length b -> all_finite a -> all_finite b ->
  dimension a * roundoff p <= / 100 -> bpow radix2 (-40) <= len (values a) <= bpow radix2 40 -> bpow radix2 (-40) <= len (values b) <= bpow radix2 40 ->
  all_finite (fv_projectOn t t' a b) /\
  far (values (fv_projectOn t t' a b)) (times (inner (values a) (values b) / inner (values b) (values b)) (values b)) <= (22/10 * dimension a + 22/10) * roundoff p * len (values a).
Proof. intros p t t' a b. rewrite roundoff_fu. apply fv_project_err. Qed.
Lemma C80_project_ex : bpow radix2 (-40) <= len (values fv345) <= bpow radix2 40.
Proof.
  pose proof fv345_len as K. assert (A : bpow radix2 (-40) <= bpow radix2 0) by (apply bpow_le; lia). assert (B : bpow radix2 3 <= bpow radix2 40) by (apply bpow_le; lia).
  change (bpow radix2 0) with 1 in A. change (bpow radix2 3) with 8 in B. lra.
Qed.
(** the projection of (1,0,0) on the float vector (10^-30,0,0) is not finite *)
Lemma C80_project_range_lemma : exists b : fvec F32, all_finite b /\ (exists x, nth_error b 0 = Some x /\ flt fzero x = true) /\
  map is_finite (fv_projectOn dot3 dot3 [fofZ F32 1; fzero; fzero] b) = [false; false; false].
Proof. exists [em30; fzero; fzero]. split; [repeat constructor|]. split; [exists em30; split; [reflexivity|vm_compute; reflexivity]|vm_compute; reflexivity]. Qed.

(** C80: cross() is the exact cross product up to three roundings of the product of the
    lengths *)
Lemma C80_cross_lemma : forall (p : prim) (o : orders3) (a b : FV p), orders3_ok 2 2 2 o -> vfinite a -> vfinite b -> vnorm (vval a) * vnorm (vval b) <= bpow radix2 120 ->
  vfinite (fv_cross o a b) /\ vdist (vval (fv_cross o a b)) (vcross (vval a) (vval b)) <= 3 * roundoff p * (vnorm (vval a) * vnorm (vval b)) + underflow p.
Proof.
  intros p o a b O Fa Fb B. rewrite roundoff_fu. destruct (fv_cross_err p o a b O Fa Fb B) as [F E]. split; [exact F|]. eapply Rle_trans; [exact E|]. rewrite underflow_eta. pose proof (eta_pos p). lra.
Qed.
Definition two_products : dtree := DAdd (DProd 0) (DProd 1).
Definition unfused : orders3 := mkOrd3 two_products two_products two_products.
Definition fused : orders3 := mkOrd3 (DFma 0 (DProd 1)) (DFma 0 (DProd 1)) (DFma 0 (DProd 1)).
Lemma C80_cross_ex : orders3_ok 2 2 2 unfused /\ orders3_ok 2 2 2 fused /\ vfinite (mkFV (fofZ F32 1) (fofZ F32 2) fzero) /\ vnorm (vval (mkFV (fofZ F32 1) (fofZ F32 2) fzero)) * vnorm (vval (mkFV (fofZ F32 1) (fofZ F32 2) fzero)) <= bpow radix2 120.
Proof.
  split; [repeat split; apply Permutation_refl|]. split; [repeat split; apply Permutation_refl|]. split; [repeat split|]. rewrite vnorm_sq. unfold vnorm2, vdot, vval. cbn [gx gy gz Linalg.vx Linalg.vy Linalg.vz].
  rewrite (proj2 (fofZ1 F32)), (proj2 (fofZ2 F32)). cbn [B2R fzero]. assert (bpow radix2 10 <= bpow radix2 120) by (apply bpow_le; lia). change (bpow radix2 10) with 1024 in *. lra.
Qed.
Lemma two_val p (x y z w : fl p) : is_finite x = true -> is_finite y = true -> is_finite z = true -> is_finite w = true ->
  Rabs (B2R x * B2R z) <= bpow radix2 120 -> Rabs (B2R y * B2R w) <= bpow radix2 120 ->
  B2R (fdot two_products [x; fneg y] [z; w]) = rnd p (rnd p (B2R x * B2R z) - rnd p (B2R y * B2R w)).
Proof.
  intros Fx Fy Fz Fw H1 H2. unfold fdot, two_products, cf. cbn [feval nth].
  assert (B : 2 * bpow radix2 120 <= fbig p) by (change 2 with (bpow radix2 1); rewrite <- bpow_plus; apply bpow_le; destruct p; cbn; lia). pose proof (bpow_gt_0 radix2 120) as P.
  assert (NF : is_finite (fneg y) = true) by now rewrite fneg_fin.
  destruct (fmul_R p x z Fx Fz ltac:(lra)) as [R1 G1]. destruct (fmul_R p (fneg y) w NF Fw) as [R2 G2]; [rewrite fneg_val, <- Ropp_mult_distr_l, Rabs_Ropp; lra|].
  rewrite fneg_val, <- Ropp_mult_distr_l, rnd_opp in R2.
  assert (E : (femin p <= 120)%Z) by (destruct p; cbn; lia). pose proof (rnd_abs_le p _ 120 E H1) as A1. pose proof (rnd_abs_le p _ 120 E H2) as A2.
  destruct (fadd_R p _ _ G1 G2) as [R G]; [rewrite R1, R2; eapply Rle_trans; [apply Rabs_triang|]; rewrite Rabs_Ropp; lra|]. rewrite R, R1, R2. reflexivity.
Qed.
Lemma prod_le (a b : V3) : let f := fun x y => Rabs (x * y) <= vnorm a * vnorm b in
  f (vx a) (vy b) /\ f (vx a) (vz b) /\ f (vy a) (vx b) /\ f (vy a) (vz b) /\ f (vz a) (vx b) /\ f (vz a) (vy b).
Proof.
  assert (C : forall v, Rabs (vx v) <= vnorm v /\ Rabs (vy v) <= vnorm v /\ Rabs (vz v) <= vnorm v).
  { intro v. destruct v as [x y z]. rewrite <- len3. cbn. repeat split; [apply (coef_le_len _ 0)|apply (coef_le_len _ 1)|apply (coef_le_len _ 2)]; reflexivity. }
  destruct (C a) as (A1 & A2 & A3). destruct (C b) as (B1 & B2 & B3). cbn. repeat split; rewrite Rabs_mult; apply Rmult_le_compat; try apply Rabs_pos; assumption.
Qed.
(** C80: without fused operations the cross product is antisymmetric, and the one of a
    vector with itself is zero, exactly *)
Lemma C80_cross_antisymmetric_lemma : forall (p : prim) (a b : FV p), vfinite a -> vfinite b -> vnorm (vval a) * vnorm (vval b) <= bpow radix2 120 ->
  vval (fv_cross unfused b a) = vneg (vval (fv_cross unfused a b)).
Proof.
  intros p a b (Ax & Ay & Az) (Bx & By & Bz) H. destruct (prod_le (vval a) (vval b)) as (P1 & P2 & P3 & P4 & P5 & P6). cbn [vval Linalg.vx Linalg.vy Linalg.vz] in *.
  unfold fv_cross, vval, vneg. cbn [gx gy gz Linalg.vx Linalg.vy Linalg.vz o0 o1 o2 unfused].
  assert (X : forall x y z : R, x - y = - (y - x)) by (intros; ring).
  f_equal; (rewrite !two_val; [|assumption|assumption|assumption|assumption|first [lra|rewrite Rmult_comm; lra]|first [lra|rewrite Rmult_comm; lra]|assumption|assumption|assumption|assumption|first [lra|rewrite Rmult_comm; lra]|first [lra|rewrite Rmult_comm; lra]]);
    rewrite <- rnd_opp; f_equal; rewrite Ropp_minus_distr; f_equal; f_equal; ring.
Qed.
Lemma C80_cross_self_lemma : forall (p : prim) (a : FV p), vfinite a -> vnorm (vval a) * vnorm (vval a) <= bpow radix2 120 ->
  vval (fv_cross unfused a a) = mkV3 0 0 0.
Proof.
  intros p a F H. pose proof (C80_cross_antisymmetric_lemma p a a F F H) as E. destruct (vval (fv_cross unfused a a)) as [x y z]. unfold vneg in E. cbn in E. injection E as E1 E2 E3. f_equal; lra.
Qed.
(** with fused operations it is not zero *)
Lemma C80_cross_self_fused_lemma : exists a : FV F32, vfinite a /\ vval (fv_cross fused a a) <> mkV3 0 0 0.
Proof.
  exists (mkFV (flit F32 1 10) (flit F32 1 3) (flit F32 7 10)). split; [repeat split|]. intro E. apply (f_equal (fun v => Req_bool (Linalg.vx v) 0)) in E. cbn [Linalg.vx] in E. rewrite (Req_bool_true 0 0) in E by reflexivity.
  set (v := fv_cross fused _ _) in E. assert (F : is_finite (gx v) = true) by (vm_compute; reflexivity). change (Linalg.vx (vval v)) with (B2R (gx v)) in E. change 0 with (B2R (fzero : fl F32)) in E at 1.
  rewrite <- (feq_R F32 (gx v) fzero F eq_refl) in E. assert (K : feq (gx v) fzero = false) by (vm_compute; reflexivity). congruence.
Qed.

(** C80: sum() and mean(), in any order of the additions *)
Lemma C80_sum_lemma : forall (p : prim) (t : sumtree) (a : fvec p), sum_order (length a) t -> all_finite a -> dimension a * roundoff p <= / 100 -> total_abs (values a) <= half_range p / 2 ->
  is_finite (fv_sum t a) = true /\ Rabs (B2R (fv_sum t a) - total (values a)) <= 101/100 * (dimension a - 1) * roundoff p * total_abs (values a).
Proof. intros p t a. rewrite roundoff_fu, half_range_fbig. apply fv_sum_err. Qed.
Lemma C80_mean_lemma : forall (p : prim) (t : sumtree) (a : fvec p), sum_order (length a) t -> all_finite a -> dimension a * roundoff F32 <= / 100 -> total_abs (values a) <= half_range p / 2 ->
  is_finite (fv_mean t a) = true /\ Rabs (B2R (fv_mean t a) - total (values a) / dimension a) <= 102/100 * dimension a * roundoff p * (total_abs (values a) / dimension a) + underflow p.
Proof.
  intros p t a O F Hn HB. rewrite half_range_fbig in HB. destruct (fv_mean_err p t a O F Hn HB) as [G E]. split; [exact G|]. rewrite roundoff_fu. pose proof (under_eta p). lra.
Qed.
Lemma C80_sum_ex : sum_order (length fv345) max3 /\ total_abs (values fv345) <= half_range F32 / 2 /\ feq (fv_sum max3 fv345) (fofZ F32 4) = true /\ feq (fv_mean max3 fv345) (flit F32 4 3) = true.
Proof.
  split; [apply Permutation_refl|]. split; [|split; vm_compute; reflexivity]. rewrite fv345_vals, half_range_fbig. unfold total_abs. cbn [fold_right].
  assert (bpow radix2 10 <= fbig F32) by (apply bpow_le; cbn; lia). change (bpow radix2 10) with 1024 in *. rewrite Rabs_pos_eq, (Rabs_left (-4)), (Rabs_pos_eq 5) by lra. lra.
Qed.
(** the sum depends on the order of the additions *)
Lemma C80_sum_order_lemma : exists (a : fvec F32) (t t' : sumtree), sum_order (length a) t /\ sum_order (length a) t' /\ all_finite a /\ feq (fv_sum t a) (fv_sum t' a) = false.
Proof.
  exists [fofZ F32 16777216; fofZ F32 1; fofZ F32 (-16777216)], max3, (Node (Node (Leaf 0) (Leaf 2)) (Leaf 1)).
  split; [apply Permutation_refl|]. split; [cbn; apply perm_skip, perm_swap|]. split; [repeat constructor|vm_compute; reflexivity].
Qed.
