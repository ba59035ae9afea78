(** Sums, means, cross products; a norm is never NaN. *)
From Coq Require Import ZArith Reals Lra Psatz Bool List Lia Permutation.
From Flocq Require Import IEEE754.BinarySingleNaN Core.Core.
From Verif Require Import Linalg Spec SpecFacts ModelCommon FloatModel FloatFacts FloatModulo FloatWrap FloatModel2 SpecFloatQ FloatQFacts FloatQProd FloatQRot FloatModel10 SpecVecF FloatVec FloatVec2 FloatVec3.
Import ListNotations.
Local Open Scope R_scope.

(** ** Sums *)
Lemma leaves_pos t : (1 <= length (leaves t))%nat.
Proof. induction t; cbn; rewrite ?app_length; lia. Qed.
Lemma fsum_err p (c : nat -> fl p) (t : sumtree) : (forall i, In i (leaves t) -> is_finite (c i) = true) ->
  (1 + fu p) ^ (length (leaves t) - 1) * rsum (fun i => Rabs (B2R (c i))) (leaves t) <= fbig p ->
  is_finite (fsum t c) = true /\
  Rabs (B2R (fsum t c) - rsum (fun i => B2R (c i)) (leaves t)) <= ((1 + fu p) ^ (length (leaves t) - 1) - 1) * rsum (fun i => Rabs (B2R (c i))) (leaves t).
Proof.
  pose proof (fu_pos p) as U. induction t as [i|l IHl r IHr]; intros F B; cbn [leaves fsum] in *.
  - split; [apply F; now left|]. cbn [length rsum Nat.sub pow]. rewrite Rplus_0_r, Rminus_diag_eq, Rabs_R0 by reflexivity. lra.
  - rewrite !rsum_app, app_length in *. pose proof (leaves_pos l) as Ll. pose proof (leaves_pos r) as Lr.
    set (al := rsum (fun i => Rabs (B2R (c i))) (leaves l)) in *. set (ar := rsum (fun i => Rabs (B2R (c i))) (leaves r)) in *.
    set (sl := rsum (fun i => B2R (c i)) (leaves l)) in *. set (sr := rsum (fun i => B2R (c i)) (leaves r)) in *.
    assert (A1 : 0 <= al) by (apply rsum_nonneg; intro; apply Rabs_pos). assert (A2 : 0 <= ar) by (apply rsum_nonneg; intro; apply Rabs_pos).
    assert (S1 : Rabs sl <= al) by apply rsum_abs. assert (S2 : Rabs sr <= ar) by apply rsum_abs.
    set (k := (length (leaves l) + length (leaves r) - 2)%nat). replace (length (leaves l) + length (leaves r) - 1)%nat with (S k) in * by (unfold k; lia).
    pose proof (pow1_mono (fu p) (length (leaves l) - 1) k ltac:(lra) ltac:(unfold k; lia)) as P1. pose proof (pow1_mono (fu p) (length (leaves r) - 1) k ltac:(lra) ltac:(unfold k; lia)) as P2.
    pose proof (pow1_ge1 (fu p) k ltac:(lra)) as PK. set (P := (1 + fu p) ^ k) in *. cbn [pow] in B |- *. fold P in B |- *.
    set (pl := (1 + fu p) ^ (length (leaves l) - 1)) in *. set (pr := (1 + fu p) ^ (length (leaves r) - 1)) in *.
    assert (M1 : pl * al <= P * al) by (apply Rmult_le_compat_r; lra). assert (M2 : pr * ar <= P * ar) by (apply Rmult_le_compat_r; lra).
    assert (Z : 0 <= P * (al + ar)) by (apply Rmult_le_pos; lra). assert (UZ : 0 <= fu p * (P * (al + ar))) by (apply Rmult_le_pos; lra).
    assert (Pl0 : 0 <= P * al) by (apply Rmult_le_pos; lra). assert (Pr0 : 0 <= P * ar) by (apply Rmult_le_pos; lra).
    destruct IHl as [Fl El]; [intros; apply F, in_or_app; auto|lra|]. destruct IHr as [Fr Er]; [intros; apply F, in_or_app; auto|lra|].
    set (x := B2R (fsum l c)) in *. set (y := B2R (fsum r c)) in *.
    assert (Ax : Rabs x <= P * al) by (replace x with ((x - sl) + sl) by ring; eapply Rle_trans; [apply Rabs_triang|]; lra).
    assert (Ay : Rabs y <= P * ar) by (replace y with ((y - sr) + sr) by ring; eapply Rle_trans; [apply Rabs_triang|]; lra).
    assert (Axy : Rabs (x + y) <= P * (al + ar)) by (eapply Rle_trans; [apply Rabs_triang|]; lra).
    destruct (fadd_R p (fsum l c) (fsum r c) Fl Fr) as [Q Fq]; [fold x y; lra|]. split; [exact Fq|]. rewrite Q. fold x y.
    pose proof (rnd_add_err p x y (fmt_B2R p _) (fmt_B2R p _)) as R.
    replace (rnd p (x + y) - (sl + sr)) with ((rnd p (x + y) - (x + y)) + ((x - sl) + (y - sr))) by ring.
    eapply Rle_trans; [apply Rabs_triang|]. pose proof (Rabs_triang (x - sl) (y - sr)).
    assert (fu p * Rabs (x + y) <= fu p * (P * (al + ar))) by (apply Rmult_le_compat_l; lra). lra.
Qed.
Lemma total_sum p (a : fvec p) : rsum (fun i => B2R (cf fzero a i)) (seq 0 (length a)) = total (values a) /\ rsum (fun i => Rabs (B2R (cf fzero a i))) (seq 0 (length a)) = total_abs (values a).
Proof.
  induction a as [|x a [I1 I2]]; [split; reflexivity|]. cbn [length seq]. rewrite <- seq_shift.
  assert (M : forall f l, rsum f (map S l) = rsum (fun i => f (S i)) l) by (intros f l; induction l as [|k l IHl]; cbn; [reflexivity|now rewrite IHl]).
  unfold total, total_abs in *. cbn [values map fold_right]. split; cbn [rsum]; rewrite M; f_equal; assumption.
Qed.
Lemma total_abs_nonneg a : 0 <= total_abs a.
Proof. unfold total_abs. induction a as [|x a IH]; cbn [fold_right]; [lra|]. pose proof (Rabs_pos x). lra. Qed.
Lemma total_le_abs a : Rabs (total a) <= total_abs a.
Proof. unfold total, total_abs. induction a as [|x a IH]; cbn [fold_right]; [rewrite Rabs_R0; lra|]. eapply Rle_trans; [apply Rabs_triang|]. lra. Qed.
Lemma sum_order_pos n t : sum_order n t -> (1 <= n)%nat.
Proof. intro O. apply Permutation_length in O. rewrite seq_length in O. pose proof (leaves_pos t). lia. Qed.
Lemma fv_sum_err p (t : sumtree) (a : fvec p) : sum_order (length a) t -> all_finite a -> dimension a * fu p <= / 100 -> total_abs (values a) <= fbig p / 2 ->
  is_finite (fv_sum t a) = true /\ Rabs (B2R (fv_sum t a) - total (values a)) <= 101/100 * (dimension a - 1) * fu p * total_abs (values a).
Proof.
  intros O F Hn HB. pose proof (sum_order_pos _ _ O) as N1. assert (Ln : length (leaves t) = length a) by (apply Permutation_length in O; rewrite seq_length in O; exact O).
  destruct (total_sum p a) as [T1 T2]. assert (D1 : rsum (fun i => B2R (cf fzero a i)) (leaves t) = total (values a)) by (rewrite <- T1; apply rsum_perm; exact O).
  assert (D2 : rsum (fun i => Rabs (B2R (cf fzero a i))) (leaves t) = total_abs (values a)) by (rewrite <- T2; apply rsum_perm; exact O).
  pose proof (fu_pos p) as U. pose proof (total_abs_nonneg (values a)) as TN. unfold dimension in *.
  assert (NI : INR (length a) - 1 = INR (length a - 1)) by (rewrite minus_INR by exact N1; reflexivity). rewrite NI.
  assert (Hn' : INR (length a - 1) * fu p <= / 100) by (rewrite <- NI; lra). pose proof (pos_INR (length a - 1)) as N0.
  pose proof (pow_small (fu p) (length a - 1) ltac:(lra) ltac:(lra)) as P. set (m := INR (length a - 1) * fu p) in *. assert (M : 0 <= m) by (apply Rmult_le_pos; lra).
  assert (MM : m * m <= / 100 * m) by (apply Rmult_le_compat_r; lra).
  destruct (fsum_err p (cf fzero a) t) as [G E].
  - intros i Hi. apply (sum_order_in _ _ i O) in Hi. unfold cf. unfold all_finite in F. rewrite Forall_forall in F. apply F, nth_In. exact Hi.
  - rewrite D2, Ln. apply Rle_trans with (2 * total_abs (values a)); [apply Rmult_le_compat_r; lra|lra].
  - rewrite D1, D2, Ln in E. assert (R : fv_sum t a = fsum t (cf fzero a)) by (unfold fv_sum; destruct a; [cbn in N1; lia|reflexivity]). rewrite R. split; [exact G|].
    eapply Rle_trans; [exact E|]. apply Rmult_le_compat_r; [exact TN|]. replace (101/100 * INR (length a - 1) * fu p) with (101/100 * m) by (unfold m; ring). lra.
Qed.
Lemma fofZ_small p z : (Z.abs z <= 2 ^ 24)%Z -> is_finite (fofZ p z) = true /\ B2R (fofZ p z) = IZR z.
Proof.
  intro H. unfold fofZ. pose proof (binary_normalize_correct (fprec p) (femax p) (fprec_pos p) (fprec_lt_emax p) mode_NE z 0 false) as C. cbv zeta in C.
  assert (E : F2R (Float radix2 z 0) = IZR z) by (unfold F2R; cbn; ring). rewrite E in C.
  assert (B : Rabs (IZR z) <= bpow radix2 24) by (rewrite <- abs_IZR; change (bpow radix2 24) with (IZR (2 ^ 24)); now apply IZR_le).
  assert (FM : ffmt p (IZR z)).
  { destruct (Z.eq_dec (Z.abs z) (2 ^ 24)) as [Q|Q].
    - assert (K : IZR (Z.abs z) = bpow radix2 24) by (rewrite Q; reflexivity). rewrite abs_IZR in K. assert (W : ffmt p (bpow radix2 24)) by (apply fmt_bpow; destruct p; cbn; lia).
      unfold Rabs in K. destruct (Rcase_abs (IZR z)); [replace (IZR z) with (- bpow radix2 24) by lra; now apply fmt_opp|now rewrite K].
    - rewrite <- E. unfold F2R. cbn [Fnum Fexp]. apply fmt_multiple; [destruct p; cbn; lia|]. cbn [bpow]. rewrite Rmult_1_r, <- abs_IZR. apply Rlt_le_trans with (bpow radix2 24); [change (bpow radix2 24) with (IZR (2 ^ 24)); apply IZR_lt; lia|apply bpow_le; destruct p; cbn; lia]. }
  change (round radix2 (SpecFloat.fexp (fprec p) (femax p)) (round_mode mode_NE) (IZR z)) with (rnd p (IZR z)) in C. rewrite (rnd_id p _ FM) in C.
  rewrite Rlt_bool_true in C; [destruct C as (R & G & _); split; assumption|]. eapply Rle_lt_trans; [exact B|]. apply bpow_lt. destruct p; cbn; lia.
Qed.
Lemma fv_mean_err p (t : sumtree) (a : fvec p) : sum_order (length a) t -> all_finite a -> dimension a * roundoff F32 <= / 100 -> total_abs (values a) <= fbig p / 2 ->
  is_finite (fv_mean t a) = true /\ Rabs (B2R (fv_mean t a) - total (values a) / dimension a) <= 102/100 * dimension a * fu p * (total_abs (values a) / dimension a) + eta p.
Proof.
  intros O F Hn HB. pose proof (sum_order_pos _ _ O) as N1. assert (D1 : 1 <= dimension a) by (unfold dimension; apply (le_INR 1); exact N1).
  pose proof (fu_pos p) as U. pose proof (fu_24 p) as V. pose proof (eta_pos p) as E0.
  assert (HU : fu p <= roundoff F32) by (rewrite roundoff_fu; apply bpow_le; destruct p; cbn; lia).
  assert (Hn' : dimension a * fu p <= / 100) by (eapply Rle_trans; [apply Rmult_le_compat_l; [lra|exact HU]|exact Hn]).
  destruct (fv_sum_err p t a O F Hn' HB) as [G E]. pose proof (total_abs_nonneg (values a)) as TN. pose proof (total_le_abs (values a)) as TA.
  assert (HZ : (Z.abs (Z.of_nat (length a)) <= 2 ^ 24)%Z).
  { rewrite Z.abs_eq by lia. apply le_IZR. rewrite <- INR_IZR_INZ. fold (dimension a). change (roundoff F32) with (/ 2 ^ 24) in Hn. change (IZR (2 ^ 24)) with 16777216. assert (2 ^ 24 = 16777216) as Q by lra. rewrite Q in Hn. lra. }
  destruct (fofZ_small p _ HZ) as [Fz Vz]. rewrite <- INR_IZR_INZ in Vz. fold (dimension a) in Vz. set (n := dimension a) in *. set (T := total_abs (values a)) in *. set (S := total (values a)) in *. set (s := B2R (fv_sum t a)) in *.
  assert (In : 0 < / n) by (apply Rinv_0_lt_compat; lra). assert (I1 : / n <= 1) by (rewrite <- Rinv_1; apply Rinv_le; lra).
  assert (Q0 : (n - 1) * fu p * T <= / 100 * T) by (apply Rmult_le_compat_r; lra). assert (Q0' : 0 <= (n - 1) * fu p * T) by (apply Rmult_le_pos; [apply Rmult_le_pos; lra|lra]).
  assert (As : Rabs s <= 10101/10000 * T). { replace s with ((s - S) + S) by ring. eapply Rle_trans; [apply Rabs_triang|]. replace (101/100 * (n - 1) * fu p * T) with (101/100 * ((n - 1) * fu p * T)) in E by ring. lra. }
  assert (Asn : Rabs (s / n) <= 10101/10000 * (T / n)). { unfold Rdiv at 1. rewrite Rabs_mult, (Rabs_pos_eq (/ n)) by lra. unfold Rdiv at 2. rewrite <- Rmult_assoc. apply Rmult_le_compat_r; [lra|exact As]. }
  assert (Tn : T / n <= T) by (unfold Rdiv; rewrite <- (Rmult_1_r T) at 2; apply Rmult_le_compat_l; lra).
  assert (Tn0 : 0 <= T / n) by (apply Rmult_le_pos; lra).
  unfold fv_mean. destruct (fdiv_R p (fv_sum t a) (fofZ p (Z.of_nat (length a))) G) as [R H]; [rewrite Vz; lra|fold s; rewrite Vz; lra|]. split; [exact H|]. rewrite R. fold s. rewrite Vz.
  pose proof (rnd_err_le p (s / n)) as ER. replace (rnd p (s / n) - S / n) with ((rnd p (s / n) - s / n) + (s - S) / n) by (field; lra). eapply Rle_trans; [apply Rabs_triang|].
  assert (Q1 : fu p * Rabs (s / n) <= fu p * (10101/10000 * (T / n))) by (apply Rmult_le_compat_l; lra).
  assert (Q2 : Rabs ((s - S) / n) <= 101/100 * (n - 1) * fu p * (T / n)).
  { unfold Rdiv at 1. rewrite Rabs_mult, (Rabs_pos_eq (/ n)) by lra. unfold Rdiv at 2. rewrite <- Rmult_assoc. apply Rmult_le_compat_r; [lra|exact E]. }
  assert (W : 0 <= fu p * (T / n)) by (apply Rmult_le_pos; lra). assert (W2 : fu p * (T / n) <= n * (fu p * (T / n))) by (rewrite <- (Rmult_1_l (fu p * (T / n))) at 1; apply Rmult_le_compat_r; lra).
  replace (101/100 * (n - 1) * fu p * (T / n)) with (101/100 * (n * (fu p * (T / n))) - 101/100 * (fu p * (T / n))) in Q2 by ring.
  replace (102/100 * n * fu p * (T / n)) with (102/100 * (n * (fu p * (T / n)))) by ring. lra.
Qed.

(** ** Cross products *)
Lemma dot2 a0 a1 b0 b1 : dot [a0; a1] [b0; b1] = a0 * b0 + a1 * b1 /\ dotabs [a0; a1] [b0; b1] = Rabs (a0 * b0) + Rabs (a1 * b1).
Proof. unfold dot, dotabs; cbn. split; ring. Qed.
Lemma fdot2_err p (t : dtree) (a0 a1 b0 b1 : fl p) : order 2 t -> is_finite a0 = true -> is_finite a1 = true -> is_finite b0 = true -> is_finite b1 = true ->
  Rabs (B2R a0 * B2R b0) + Rabs (B2R a1 * B2R b1) <= bpow radix2 125 ->
  is_finite (fdot t [a0; a1] [b0; b1]) = true /\
  Rabs (B2R (fdot t [a0; a1] [b0; b1]) - (B2R a0 * B2R b0 + B2R a1 * B2R b1)) <= (2 + / 1000) * fu p * (Rabs (B2R a0 * B2R b0) + Rabs (B2R a1 * B2R b1)) + 5 * eta p.
Proof.
  intros O F0 F1 G0 G1 B. destruct (fdot_err p t [a0; a1] [b0; b1] O eq_refl) as [F E]; [cbn; lia|repeat constructor; assumption|repeat constructor; assumption| |].
  - cbn [vals map]. rewrite (proj2 (dot2 _ _ _ _)). exact B.
  - split; [exact F|]. cbn [vals map length] in E. rewrite (proj1 (dot2 _ _ _ _)), (proj2 (dot2 _ _ _ _)) in E. cbn [INR] in E. lra.
Qed.
Lemma len3 x y z : len [x; y; z] = vnorm (mkV3 x y z).
Proof. unfold len, vnorm, vnorm2, vdot. cbn. f_equal. ring. Qed.
Lemma abs_prods a0 a1 b0 b1 : (Rabs (a0 * b0) + Rabs (a1 * b1)) * (Rabs (a0 * b0) + Rabs (a1 * b1)) <= (a0 * a0 + a1 * a1) * (b0 * b0 + b1 * b1).
Proof.
  rewrite !Rabs_mult. set (x := Rabs a0). set (y := Rabs a1). set (z := Rabs b0). set (w := Rabs b1).
  assert (X : x * x = a0 * a0) by (unfold x; rewrite <- Rabs_mult; apply Rabs_pos_eq, Rle_0_sqr). assert (Y : y * y = a1 * a1) by (unfold y; rewrite <- Rabs_mult; apply Rabs_pos_eq, Rle_0_sqr).
  assert (Z : z * z = b0 * b0) by (unfold z; rewrite <- Rabs_mult; apply Rabs_pos_eq, Rle_0_sqr). assert (W : w * w = b1 * b1) by (unfold w; rewrite <- Rabs_mult; apply Rabs_pos_eq, Rle_0_sqr).
  rewrite <- X, <- Y, <- Z, <- W. pose proof (Rle_0_sqr (x * w - y * z)) as Q. unfold Rsqr in Q. lra.
Qed.
Lemma fv_cross_err p (o : orders3) (a b : FV p) : orders3_ok 2 2 2 o -> vfinite a -> vfinite b -> vnorm (vval a) * vnorm (vval b) <= bpow radix2 120 ->
  vfinite (fv_cross o a b) /\ vdist (vval (fv_cross o a b)) (vcross (vval a) (vval b)) <= 3 * fu p * (vnorm (vval a) * vnorm (vval b)) + 15 * eta p.
Proof.
  intros (O0 & O1 & O2) (Fx & Fy & Fz) (Gx & Gy & Gz) B. destruct a as [ax ay az], b as [bx by' bz]. cbn [gx gy gz] in *.
  set (A := vnorm _) in *. set (N := vnorm (vval (mkFV bx by' bz))) in *.
  assert (SA : A * A = B2R ax * B2R ax + B2R ay * B2R ay + B2R az * B2R az) by (unfold A; rewrite vnorm_sq; unfold vnorm2, vdot, vval; cbn; ring).
  assert (SN : N * N = B2R bx * B2R bx + B2R by' * B2R by' + B2R bz * B2R bz) by (unfold N; rewrite vnorm_sq; unfold vnorm2, vdot, vval; cbn; ring).
  assert (A0 : 0 <= A) by apply vn_nonneg. assert (N0 : 0 <= N) by apply vn_nonneg. assert (AN : 0 <= A * N) by (now apply Rmult_le_pos).
  pose proof (fu_pos p) as U. pose proof (eta_pos p) as E0.
  unfold fv_cross. cbn [gx gy gz]. assert (NX : forall x : fl p, B2R (fneg x) = - B2R x) by (intro; apply fneg_val). assert (NF : forall x : fl p, is_finite x = true -> is_finite (fneg x) = true) by (intros x H; now rewrite fneg_fin).
  assert (S0 : 0 <= B2R ax * B2R ax /\ 0 <= B2R ay * B2R ay /\ 0 <= B2R az * B2R az /\ 0 <= B2R bx * B2R bx /\ 0 <= B2R by' * B2R by' /\ 0 <= B2R bz * B2R bz) by (repeat split; apply Rle_0_sqr).
  destruct S0 as (X1 & X2 & X3 & Y1 & Y2 & Y3).
  assert (LE : forall m, 0 <= m -> m * m <= (A * A) * (N * N) -> m <= A * N).
  { intros m M H. apply sq_le; [exact AN|]. replace (A * N * (A * N)) with (A * A * (N * N)) by ring. exact H. }
  assert (B125 : bpow radix2 120 <= bpow radix2 125) by (apply bpow_le; lia).
  set (m0 := Rabs (B2R ay * B2R bz) + Rabs (B2R az * B2R by')). set (m1 := Rabs (B2R az * B2R bx) + Rabs (B2R ax * B2R bz)). set (m2 := Rabs (B2R ax * B2R by') + Rabs (B2R ay * B2R bx)).
  pose proof (abs_prods (B2R ay) (B2R az) (B2R bz) (B2R by')) as P0. pose proof (abs_prods (B2R az) (B2R ax) (B2R bx) (B2R bz)) as P1. pose proof (abs_prods (B2R ax) (B2R ay) (B2R by') (B2R bx)) as P2.
  fold m0 in P0. fold m1 in P1. fold m2 in P2.
  assert (M0 : 0 <= m0) by (unfold m0; pose proof (Rabs_pos (B2R ay * B2R bz)); pose proof (Rabs_pos (B2R az * B2R by')); lra).
  assert (M1 : 0 <= m1) by (unfold m1; pose proof (Rabs_pos (B2R az * B2R bx)); pose proof (Rabs_pos (B2R ax * B2R bz)); lra).
  assert (M2 : 0 <= m2) by (unfold m2; pose proof (Rabs_pos (B2R ax * B2R by')); pose proof (Rabs_pos (B2R ay * B2R bx)); lra).
  assert (L0 : m0 <= A * N) by (apply LE; [exact M0|]; eapply Rle_trans; [exact P0|]; rewrite SA, SN; apply Rmult_le_compat; lra).
  assert (L1 : m1 <= A * N) by (apply LE; [exact M1|]; eapply Rle_trans; [exact P1|]; rewrite SA, SN; apply Rmult_le_compat; lra).
  assert (L2 : m2 <= A * N) by (apply LE; [exact M2|]; eapply Rle_trans; [exact P2|]; rewrite SA, SN; apply Rmult_le_compat; lra).
  destruct (fdot2_err p (o0 o) ay (fneg az) bz by' O0 Fy (NF _ Fz) Gz Gy) as [H0 E1]; [rewrite NX, <- Ropp_mult_distr_l, Rabs_Ropp; fold m0; lra|].
  destruct (fdot2_err p (o1 o) az (fneg ax) bx bz O1 Fz (NF _ Fx) Gx Gz) as [H1 E2]; [rewrite NX, <- Ropp_mult_distr_l, Rabs_Ropp; fold m1; lra|].
  destruct (fdot2_err p (o2 o) ax (fneg ay) by' bx O2 Fx (NF _ Fy) Gy Gx) as [H2 E3]; [rewrite NX, <- Ropp_mult_distr_l, Rabs_Ropp; fold m2; lra|].
  rewrite NX, <- Ropp_mult_distr_l, Rabs_Ropp in E1, E2, E3. fold m0 in E1. fold m1 in E2. fold m2 in E3.
  split; [repeat split; assumption|]. unfold vdist. unfold vval at 1. cbn [gx gy gz]. unfold vsub, vcross. cbn [vx vy vz vval gx gy gz Linalg.vx Linalg.vy Linalg.vz]. rewrite <- len3.
  eapply Rle_trans; [apply (len_mixed ((2 + / 1000) * fu p) (5 * eta p) ltac:(lra) ltac:(lra) _ [m0; m1; m2]); [reflexivity|]|].
  - intros i u v Hu Hv. destruct i as [|[|[|i]]]; cbn in Hu, Hv; try (destruct i; discriminate Hu); injection Hu as <-; injection Hv as <-.
    + rewrite (Rabs_pos_eq m0) by exact M0. exact E1.
    + rewrite (Rabs_pos_eq m1) by exact M1. exact E2.
    + rewrite (Rabs_pos_eq m2) by exact M2. exact E3.
  - assert (LM : len [m0; m1; m2] <= 1415/1000 * (A * N)).
    { apply sq_le; [lra|]. rewrite len_sq. cbn [inner]. assert (Q : m0 * m0 + m1 * m1 + m2 * m2 <= 2 * (A * A * (N * N))).
      { assert (Q0 : 0 <= B2R ax * B2R ax * (B2R by' * B2R by')) by (now apply Rmult_le_pos). assert (Q1 : 0 <= B2R ax * B2R ax * (B2R bz * B2R bz)) by (now apply Rmult_le_pos).
        assert (Q2 : 0 <= B2R ay * B2R ay * (B2R bx * B2R bx)) by (now apply Rmult_le_pos). assert (Q3 : 0 <= B2R ay * B2R ay * (B2R bz * B2R bz)) by (now apply Rmult_le_pos).
        assert (Q4 : 0 <= B2R az * B2R az * (B2R bx * B2R bx)) by (now apply Rmult_le_pos). assert (Q5 : 0 <= B2R az * B2R az * (B2R by' * B2R by')) by (now apply Rmult_le_pos).
        rewrite SA, SN. lra. }
      replace (1415/1000 * (A * N) * (1415/1000 * (A * N))) with (1415/1000 * (1415/1000) * (A * A * (N * N))) by ring.
      assert (0 <= A * A * (N * N)) by (apply Rmult_le_pos; apply Rle_0_sqr). lra. }
    assert (Q : (2 + / 1000) * fu p * len [m0; m1; m2] <= (2 + / 1000) * fu p * (1415/1000 * (A * N))) by (apply Rmult_le_compat_l; lra).
    assert (W : 0 <= fu p * (A * N)) by (apply Rmult_le_pos; lra). unfold dimension. cbn [length INR].
    replace ((2 + / 1000) * fu p * (1415/1000 * (A * N))) with ((2 + / 1000) * (1415/1000) * (fu p * (A * N))) in Q by ring. replace (3 * fu p * (A * N)) with (3 * (fu p * (A * N))) by ring. lra.
Qed.

(** ** A sum of squares is never negative and never NaN *)
Definition positive {p} (x : fl p) : Prop := is_nan x = false /\ Bsign x = false.
Lemma inf_positive p (x : fl p) s : B2SF x = binary_overflow (fprec p) (femax p) mode_NE s -> s = false -> positive x.
Proof. intros H ->. destruct x as [s'|s'| |s' m e B]; cbn in H; try discriminate H. injection H as ->. split; reflexivity. Qed.
Lemma fin_not_nan p (x : fl p) : is_finite x = true -> is_nan x = false. Proof. destruct x; cbn; congruence. Qed.
Lemma positive_val p (x : fl p) : positive x -> 0 <= B2R x.
Proof. intros [N S]. destruct x as [s|s| |s m e H]; cbn in *; try lra; subst s. apply F2R_ge_0. cbn. lia. Qed.
Lemma fmul_self_positive p (x : fl p) : is_nan x = false -> positive (fmul x x).
Proof.
  intro N. destruct (is_finite x) eqn:F.
  - pose proof (Bmult_correct (fprec p) (femax p) _ _ mode_NE x x) as C. fold (fmul x x) in C. rewrite F, xorb_nilpotent in C.
    destruct (Rlt_bool _ _); [|now apply (inf_positive p _ false)]. destruct C as (_ & G & S). pose proof (fin_not_nan p _ G) as G'. split; [exact G'|now apply S].
  - destruct x as [s|[|]| |s m e H]; try discriminate; split; reflexivity.
Qed.
Lemma fadd_positive p (x y : fl p) : positive x -> positive y -> positive (fadd x y).
Proof.
  intros Px Py. pose proof (positive_val p x Px) as X. pose proof (positive_val p y Py) as Y. destruct Px as [Nx Sx], Py as [Ny Sy].
  destruct (is_finite x) eqn:Fx; [destruct (is_finite y) eqn:Fy|].
  - pose proof (Bplus_correct (fprec p) (femax p) _ _ mode_NE x y Fx Fy) as C. fold (fadd x y) in C. rewrite Sx, Sy in C.
    destruct (Rlt_bool _ _); [|destruct C as [C _]; now apply (inf_positive p _ false)]. destruct C as (_ & G & S). split; [now apply fin_not_nan|]. rewrite S.
    destruct (Rcompare_spec (B2R x + B2R y) 0); [lra|reflexivity|reflexivity].
  - destruct y as [s|s| |s m e H]; try discriminate. cbn in Sy. subst s. destruct x as [s|s| |s m e H]; try discriminate; split; reflexivity.
  - destruct x as [s|s| |s m e H]; try discriminate. cbn in Sx. subst s. destruct y as [s|s| |s m e H]; try discriminate; cbn in Sy; subst; split; reflexivity.
Qed.
Lemma ffma_self_positive p (x z : fl p) : is_nan x = false -> positive z -> positive (ffma x x z).
Proof.
  intros Nx Pz. pose proof (positive_val p z Pz) as Z. destruct Pz as [Nz Sz]. destruct (is_finite x) eqn:Fx.
  - destruct (is_finite z) eqn:Fz.
    + pose proof (Bfma_correct (fprec p) (femax p) _ _ mode_NE x x z Fx Fx Fz) as C. cbv zeta in C. fold (ffma x x z) in C.
      assert (R : 0 <= B2R x * B2R x + B2R z) by (pose proof (Rle_0_sqr (B2R x)) as Q; unfold Rsqr in Q; lra).
      destruct (Rlt_bool (Rabs _) _); [|apply (inf_positive p _ _ C); now apply Rlt_bool_false]. destruct C as (_ & G & S). split; [now apply fin_not_nan|]. rewrite S. unfold Bfma_szero. rewrite xorb_nilpotent, Sz.
      destruct (Rcompare_spec (B2R x * B2R x + B2R z) 0); [lra|reflexivity|reflexivity].
    + destruct z as [s|s| |s m e H]; try discriminate. cbn in Sz. subst s. destruct x as [s|s| |s m e H]; try discriminate; split; reflexivity.
  - destruct x as [s|s| |s m e H]; try discriminate. destruct z as [s'|s'| |s' m' e' H']; try discriminate; cbn in Sz; subst; destruct s; split; reflexivity.
Qed.
Lemma feval_self_positive p (t : dtree) (c : nat -> fl p) : (forall i, In i (dleaves t) -> is_nan (c i) = false) -> positive (feval t c c).
Proof.
  induction t as [i|l IHl r IHr|i t IH]; intro H; cbn [feval dleaves] in *.
  - apply fmul_self_positive, H. now left.
  - apply fadd_positive; [apply IHl|apply IHr]; intros; apply H, in_or_app; auto.
  - apply ffma_self_positive; [apply H; now left|]. apply IH. intros. apply H. now right.
Qed.
Lemma fsqrt_positive p (x : fl p) : positive x -> positive (fsqrt x).
Proof.
  intros [N S]. unfold fsqrt. destruct (Bsqrt_correct (fprec p) (femax p) _ _ mode_NE x) as (_ & F & G).
  destruct x as [s|s| |s m e H]; cbn in S; try discriminate N; subst s; try (split; reflexivity).
  assert (Q : is_nan (Bsqrt mode_NE (B754_finite false m e H : fl p)) = false) by (now apply fin_not_nan). split; [exact Q|]. now rewrite (G Q).
Qed.
