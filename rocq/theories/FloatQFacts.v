(** Rounding errors of sums of products in any order of evaluation. *)
From Coq Require Import Reals ZArith Bool List Permutation Lra Lia Psatz.
From Flocq Require Import IEEE754.BinarySingleNaN Core.Core.
From Verif Require Import Linalg Spec SpecFacts ModelCommon FloatModel FloatFacts FloatModulo FloatWrap FloatModel2 SpecFloatQ.
Import ListNotations.
Local Open Scope R_scope.

Lemma roundoff_fu p : roundoff p = fu p.
Proof. rewrite fu_val. destruct p; cbn [roundoff]; f_equal; now rewrite pow_IZR. Qed.
Definition eta (p : prim) : R := / 2 * bpow radix2 (femin p).
Lemma eta_pos p : 0 < eta p.
Proof. unfold eta. pose proof (bpow_gt_0 radix2 (femin p)). lra. Qed.
Lemma underflow_eta p : underflow p = 32 * eta p.
Proof.
  unfold eta. replace (32 * (/ 2 * bpow radix2 (femin p))) with (bpow radix2 4 * bpow radix2 (femin p)) by (change (bpow radix2 4) with 16; field).
  rewrite <- bpow_plus. destruct p; reflexivity.
Qed.

Fixpoint rsum (f : nat -> R) (l : list nat) : R := match l with [] => 0 | i :: l => f i + rsum f l end.
Lemma rsum_app f l m : rsum f (l ++ m) = rsum f l + rsum f m.
Proof. induction l as [|i l IH]; cbn; [lra|]. rewrite IH. lra. Qed.
Lemma rsum_perm f l m : Permutation l m -> rsum f l = rsum f m.
Proof. induction 1; cbn; lra. Qed.
Lemma rsum_nonneg f l : (forall i, 0 <= f i) -> 0 <= rsum f l.
Proof. intro H. induction l as [|i l IH]; cbn; [lra|]. specialize (H i). lra. Qed.
Lemma rsum_abs f l : Rabs (rsum f l) <= rsum (fun i => Rabs (f i)) l.
Proof. induction l as [|i l IH]; cbn; [rewrite Rabs_R0; lra|]. eapply Rle_trans; [apply Rabs_triang|]. lra. Qed.

Lemma dleaves_pos t : (1 <= length (dleaves t))%nat.
Proof. induction t; cbn; rewrite ?app_length; lia. Qed.

Lemma pow1_ge1 u n : 0 <= u -> 1 <= (1 + u) ^ n.
Proof. intro H. induction n; cbn; nra. Qed.
Lemma pow1_mono u n m : 0 <= u -> (n <= m)%nat -> (1 + u) ^ n <= (1 + u) ^ m.
Proof. intros. apply Rle_pow; lra || assumption. Qed.

(** error bound for a tree with n products whose absolute values add up to s *)
Definition ebound (p : prim) (n : nat) (s : R) : R := ((1 + fu p) ^ n - 1) * s + INR n * (1 + fu p) ^ n * eta p.

Lemma ebound_nonneg p n s : 0 <= s -> 0 <= ebound p n s.
Proof.
  intro H. unfold ebound. pose proof (fu_pos p). pose proof (pow1_ge1 (fu p) n). pose proof (eta_pos p). pose proof (pos_INR n).
  assert (0 <= INR n * (1 + fu p) ^ n) by nra. nra.
Qed.
Lemma ebound_step p n s s' : 0 <= s -> s <= s' ->
  (1 + fu p) * ebound p n s + fu p * s' + eta p <= ebound p (S n) s'.
Proof.
  intros H H'. unfold ebound. pose proof (fu_pos p) as U. pose proof (pow1_ge1 (fu p) n) as P. pose proof (eta_pos p) as E. pose proof (pos_INR n) as I.
  rewrite S_INR. cbn [pow]. set (u := fu p) in *. set (q := (1 + u) ^ n) in *. clearbody q.
  assert (Q : 1 <= q) by lra. 
  assert (0 <= (q - 1) * (s' - s)) by nra. assert (1 <= (1 + u) * q) by nra. nra.
Qed.
Lemma ebound_add p n1 n2 s1 s2 : 0 <= s1 -> 0 <= s2 -> (1 <= n1)%nat -> (1 <= n2)%nat ->
  (1 + fu p) * (ebound p n1 s1 + ebound p n2 s2) + fu p * (s1 + s2) <= ebound p (n1 + n2) (s1 + s2).
Proof.
  intros H1 H2 L1 L2. unfold ebound. pose proof (fu_pos p) as U. pose proof (eta_pos p) as E.
  pose proof (pos_INR n1) as I1. pose proof (pos_INR n2) as I2. rewrite plus_INR.
  pose proof (pow1_mono (fu p) (S n1) (n1 + n2)) as A1. pose proof (pow1_mono (fu p) (S n2) (n1 + n2)) as A2.
  cbn [pow] in A1, A2. set (u := fu p) in *. set (q1 := (1 + u) ^ n1) in *. set (q2 := (1 + u) ^ n2) in *. set (q := (1 + u) ^ (n1 + n2)) in *.
  assert (B1 : (1 + u) * q1 <= q) by (apply A1; lra || lia). assert (B2 : (1 + u) * q2 <= q) by (apply A2; lra || lia).
  clearbody q1 q2 q. clear A1 A2. set (h := eta p) in *. clearbody h u.
  assert (C1 : ((1 + u) * q1) * s1 <= q * s1) by (apply Rmult_le_compat_r; lra).
  assert (C2 : ((1 + u) * q2) * s2 <= q * s2) by (apply Rmult_le_compat_r; lra).
  assert (C3 : ((1 + u) * q1) * (INR n1 * h) <= q * (INR n1 * h)) by (apply Rmult_le_compat_r; nra).
  assert (C4 : ((1 + u) * q2) * (INR n2 * h) <= q * (INR n2 * h)) by (apply Rmult_le_compat_r; nra).
  lra.
Qed.

(** the sum of products in real arithmetic, and of their absolute values *)
Definition dsum {p} (a b : nat -> fl p) (l : list nat) : R := rsum (fun i => B2R (a i) * B2R (b i)) l.
Definition dabs {p} (a b : nat -> fl p) (l : list nat) : R := rsum (fun i => Rabs (B2R (a i) * B2R (b i))) l.
Lemma dabs_nonneg p (a b : nat -> fl p) l : 0 <= dabs a b l.
Proof. apply rsum_nonneg. intro. apply Rabs_pos. Qed.
Lemma dsum_dabs p (a b : nat -> fl p) l : Rabs (dsum a b l) <= dabs a b l.
Proof. apply rsum_abs. Qed.

Lemma rnd_err_le p x : Rabs (rnd p x - x) <= fu p * Rabs x + eta p.
Proof.
  destruct (rnd_err p x) as (e & h & H1 & H2 & E). rewrite E. replace (x * (1 + e) + h - x) with (x * e + h) by ring.
  eapply Rle_trans; [apply Rabs_triang|]. rewrite Rabs_mult. fold (eta p) in H2. pose proof (Rabs_pos x). nra.
Qed.

Lemma feval_err p (a b : nat -> fl p) (t : dtree) :
  (forall i, In i (dleaves t) -> is_finite (a i) = true /\ is_finite (b i) = true) ->
  dabs a b (dleaves t) + ebound p (length (dleaves t)) (dabs a b (dleaves t)) <= fbig p ->
  is_finite (feval t a b) = true /\
  Rabs (B2R (feval t a b) - dsum a b (dleaves t)) <= ebound p (length (dleaves t)) (dabs a b (dleaves t)).
Proof.
  pose proof (fu_pos p) as U. pose proof (eta_pos p) as E.
  induction t as [i|l IHl r IHr|i t IH]; intros F B.
  - cbn [feval dleaves length]. destruct (F i) as [Fa Fb]; [left; reflexivity|].
    assert (X : dabs a b [i] = Rabs (B2R (a i) * B2R (b i))) by (unfold dabs; cbn; lra).
    assert (Y : dsum a b [i] = B2R (a i) * B2R (b i)) by (unfold dsum; cbn; lra).
    cbn [dleaves length] in B. pose proof (dabs_nonneg p a b [i]) as N. pose proof (ebound_nonneg p 1 _ N) as N'. rewrite X in *. rewrite Y.
    destruct (fmul_R p (a i) (b i) Fa Fb) as [R Fr]; [lra|]. split; [exact Fr|]. rewrite R.
    eapply Rle_trans; [apply rnd_err_le|]. unfold ebound. cbn [pow INR]. nra.
  - cbn [feval dleaves] in *. rewrite app_length in *.
    assert (X : dabs a b (dleaves l ++ dleaves r) = dabs a b (dleaves l) + dabs a b (dleaves r)) by apply rsum_app.
    assert (Y : dsum a b (dleaves l ++ dleaves r) = dsum a b (dleaves l) + dsum a b (dleaves r)) by apply rsum_app.
    rewrite X in *. rewrite Y.
    pose proof (dabs_nonneg p a b (dleaves l)) as N1. pose proof (dabs_nonneg p a b (dleaves r)) as N2.
    pose proof (ebound_add p _ _ _ _ N1 N2 (dleaves_pos l) (dleaves_pos r)) as A.
    pose proof (ebound_nonneg p (length (dleaves l)) _ N1) as E1. pose proof (ebound_nonneg p (length (dleaves r)) _ N2) as E2.
    destruct IHl as [Fl Hl]; [intros; apply F, in_or_app; auto|nra|]. destruct IHr as [Fr Hr]; [intros; apply F, in_or_app; auto|nra|].
    pose proof (dsum_dabs p a b (dleaves l)) as D1. pose proof (dsum_dabs p a b (dleaves r)) as D2.
    set (x := B2R (feval l a b)) in *. set (y := B2R (feval r a b)) in *.
    set (sl := dsum a b (dleaves l)) in *. set (sr := dsum a b (dleaves r)) in *.
    set (al := dabs a b (dleaves l)) in *. set (ar := dabs a b (dleaves r)) in *.
    set (el := ebound p (length (dleaves l)) al) in *. set (er := ebound p (length (dleaves r)) ar) in *.
    assert (Ax : Rabs x <= al + el) by (replace x with ((x - sl) + sl) by ring; eapply Rle_trans; [apply Rabs_triang|]; lra).
    assert (Ay : Rabs y <= ar + er) by (replace y with ((y - sr) + sr) by ring; eapply Rle_trans; [apply Rabs_triang|]; lra).
    assert (Axy : Rabs (x + y) <= al + ar + el + er) by (eapply Rle_trans; [apply Rabs_triang|]; lra).
    assert (G : fu p * (el + er) >= 0) by nra.
    destruct (fadd_R p (feval l a b) (feval r a b) Fl Fr) as [Q Fq]; [fold x y; nra|]. split; [exact Fq|]. rewrite Q. fold x y.
    pose proof (rnd_add_err p x y (fmt_B2R p _) (fmt_B2R p _)) as R.
    replace (rnd p (x + y) - (sl + sr)) with ((rnd p (x + y) - (x + y)) + ((x - sl) + (y - sr))) by ring.
    eapply Rle_trans; [apply Rabs_triang|]. pose proof (Rabs_triang (x - sl) (y - sr)). nra.
  - cbn [feval dleaves length] in *. destruct (F i) as [Fa Fb]; [left; reflexivity|].
    assert (X : dabs a b (i :: dleaves t) = Rabs (B2R (a i) * B2R (b i)) + dabs a b (dleaves t)) by reflexivity.
    assert (Y : dsum a b (i :: dleaves t) = B2R (a i) * B2R (b i) + dsum a b (dleaves t)) by reflexivity.
    rewrite X in *. rewrite Y. pose proof (dabs_nonneg p a b (dleaves t)) as N.
    pose proof (Rabs_pos (B2R (a i) * B2R (b i))) as N1. 
    pose proof (ebound_step p (length (dleaves t)) (dabs a b (dleaves t)) (Rabs (B2R (a i) * B2R (b i)) + dabs a b (dleaves t)) N) as A.
    pose proof (ebound_nonneg p (length (dleaves t)) _ N) as E1. pose proof (dsum_dabs p a b (dleaves t)) as D.
    set (z := B2R (a i) * B2R (b i)) in *. set (s := dabs a b (dleaves t)) in *. set (e := ebound p (length (dleaves t)) s) in *.
    destruct IH as [Ft Ht]; [intros; apply F; now right|nra|].
    set (x := B2R (feval t a b)) in *. set (sx := dsum a b (dleaves t)) in *.
    assert (Ax : Rabs x <= s + e) by (replace x with ((x - sx) + sx) by ring; eapply Rle_trans; [apply Rabs_triang|]; lra).
    assert (Az : Rabs (z + x) <= Rabs z + s + e) by (eapply Rle_trans; [apply Rabs_triang|]; lra).
    destruct (ffma_R p (a i) (b i) (feval t a b) Fa Fb Ft) as [Q Fq]; [fold z x; nra|]. split; [exact Fq|]. rewrite Q. fold z x.
    pose proof (rnd_err_le p (z + x)) as R.
    replace (rnd p (z + x) - (z + sx)) with ((rnd p (z + x) - (z + x)) + (x - sx)) by ring.
    eapply Rle_trans; [apply Rabs_triang|]. nra.
Qed.

(** ** Sums of 2, 3, 4 products *)
Lemma order_length n t : order n t -> length (dleaves t) = n.
Proof. intro H. rewrite (Permutation_length H). apply seq_length. Qed.

Definition lsum (a b : list R) : R := fold_right Rplus 0 (map (fun c => fst c * snd c) (combine a b)).
Definition labs (a b : list R) : R := fold_right Rplus 0 (map (fun c => Rabs (fst c * snd c)) (combine a b)).
Definition vals {p} (l : list (fl p)) : list R := map B2R l.

Lemma rsum_seq f n : rsum f (seq 0 n) = fold_right Rplus 0 (map f (seq 0 n)).
Proof. induction (seq 0 n); cbn; congruence. Qed.

Lemma fu_24 p : fu p <= / 16777216.
Proof. rewrite fu_val. destruct p; [right; f_equal|apply Rinv_le; [lra|apply IZR_le; vm_compute; discriminate]]. Qed.
Lemma eta_tiny p : eta p <= bpow radix2 (-150).
Proof. unfold eta. change (/ 2) with (bpow radix2 (-1)). rewrite <- bpow_plus. apply bpow_le. destruct p; vm_compute; discriminate. Qed.

Lemma ebound_small p n s : (n <= 4)%nat -> 0 <= s -> ebound p n s <= (INR n + / 1000) * fu p * s + 5 * eta p.
Proof.
  intros L N. unfold ebound. pose proof (fu_pos p) as U. pose proof (fu_24 p) as V. pose proof (eta_pos p) as E.
  set (u := fu p) in *. set (h := eta p) in *. clearbody u h.
  assert (U2 : 0 <= u * u <= u / 16777216) by nra. assert (U3 : 0 <= u * u * u <= u / 16777216) by nra. assert (U4 : 0 <= u * u * u * u <= u / 16777216) by nra.
  assert (P : (1 + u) ^ n <= 1 + (INR n + / 1000) * u /\ INR n * (1 + u) ^ n <= 5 /\ 0 <= (1 + u) ^ n).
  { do 5 (destruct n as [|n]; [cbn [pow INR]; repeat split; nra|]). lia. }
  destruct P as (P1 & P2 & P3). assert (((1 + u) ^ n - 1) * s <= (INR n + / 1000) * u * s) by nra. nra.
Qed.

Lemma big_ok p n s : (n <= 4)%nat -> 0 <= s <= bpow radix2 125 -> s + ebound p n s <= fbig p.
Proof.
  intros L [N H]. pose proof (ebound_small p n s L N) as B. pose proof (fu_pos p) as U. pose proof (fu_24 p) as V. pose proof (eta_tiny p) as T.
  assert (I : 0 <= INR n <= 4) by (split; [apply pos_INR|apply (le_INR n 4) in L; cbn in L; lra]).
  assert (W : (INR n + / 1000) * fu p <= / 1000) by nra.
  assert (X : bpow radix2 (-150) <= bpow radix2 125) by (apply bpow_le; lia).
  assert (X2 : bpow radix2 125 * 4 <= fbig p).
  { change 4 with (bpow radix2 2). rewrite <- bpow_plus. apply bpow_le. destruct p; vm_compute; discriminate. }
  assert (X3 : bpow radix2 (-150) <= bpow radix2 125 / 8).
  { unfold Rdiv. replace (/ 8) with (bpow radix2 (-3)) by (cbn; lra). rewrite <- bpow_plus. apply bpow_le; lia. }
  assert ((INR n + / 1000) * fu p * s <= / 1000 * s) by nra. lra.
Qed.

(** A sum of the products of two lists of at most four numbers, in any order *)
Definition dot (a b : list R) : R := rsum (fun i => nth i a 0 * nth i b 0) (seq 0 (length a)).
Definition dotabs (a b : list R) : R := rsum (fun i => Rabs (nth i a 0 * nth i b 0)) (seq 0 (length a)).
Lemma vals_length p (l : list (fl p)) : length (vals l) = length l.
Proof. apply map_length. Qed.
Lemma cf_val p (l : list (fl p)) i : B2R (cf fzero l i) = nth i (vals l) 0.
Proof. unfold cf, vals. symmetry. exact (map_nth (fun x : fl p => B2R x) l fzero i). Qed.
Lemma rsum_ext f g l : (forall i, f i = g i) -> rsum f l = rsum g l.
Proof. intro H. induction l; cbn; congruence. Qed.
Lemma fdot_err p (t : dtree) (a b : list (fl p)) : order (length a) t -> length b = length a -> (length a <= 4)%nat ->
  Forall (fun x => is_finite x = true) a -> Forall (fun x => is_finite x = true) b ->
  dotabs (vals a) (vals b) <= bpow radix2 125 ->
  is_finite (fdot t a b) = true /\
  Rabs (B2R (fdot t a b) - dot (vals a) (vals b)) <= (INR (length a) + / 1000) * fu p * dotabs (vals a) (vals b) + 5 * eta p.
Proof.
  intros O Lb La Fa Fb B. pose proof (order_length _ _ O) as Ln.
  assert (Hd : dsum (cf fzero a) (cf fzero b) (dleaves t) = dot (vals a) (vals b)).
  { unfold dsum, dot. rewrite (rsum_perm _ _ _ O). rewrite vals_length. apply rsum_ext. intro. now rewrite !cf_val. }
  assert (Ha : dabs (cf fzero a) (cf fzero b) (dleaves t) = dotabs (vals a) (vals b)).
  { unfold dabs, dotabs. rewrite (rsum_perm _ _ _ O). rewrite vals_length. apply rsum_ext. intro. now rewrite !cf_val. }
  pose proof (dabs_nonneg p (cf fzero a) (cf fzero b) (dleaves t)) as N. rewrite Ha in N.
  destruct (feval_err p (cf fzero a) (cf fzero b) t) as [F E].
  - intros i Hi. apply (Permutation_in i O) in Hi. apply in_seq in Hi. unfold cf.
    split; [eapply Forall_forall in Fa; [exact Fa|]|eapply Forall_forall in Fb; [exact Fb|]]; apply nth_In; lia.
  - rewrite Ha, Ln. apply big_ok; auto.
  - split; [exact F|]. unfold fdot. rewrite Hd, Ha, Ln in E. eapply Rle_trans; [exact E|]. apply ebound_small; auto.
Qed.

(** ** Four-dimensional Euclidean geometry *)
Lemma qnorm_sq q : qnorm q * qnorm q = qnorm2 q.
Proof. unfold qnorm. apply sqrt_sqrt. unfold qnorm2. nra. Qed.
Lemma qn_nonneg q : 0 <= qnorm q.
Proof. apply sqrt_pos. Qed.
Lemma sq_le_le x y : 0 <= y -> x * x <= y * y -> x <= y.
Proof. intros. nra. Qed.
Definition qdotr (a b : Quat) : R := qw a * qw b + qx a * qx b + qy a * qy b + qz a * qz b.
Lemma qcs a b : Rabs (qdotr a b) <= qnorm a * qnorm b.
Proof.
  apply sq_le_le; [apply Rmult_le_pos; apply qn_nonneg|].
  replace (qnorm a * qnorm b * (qnorm a * qnorm b)) with (qnorm2 a * qnorm2 b) by (rewrite <- !qnorm_sq; ring).
  rewrite <- Rabs_mult. rewrite Rabs_pos_eq by nra.
  destruct a as [a0 a1 a2 a3], b as [b0 b1 b2 b3]. unfold qdotr, qnorm2. cbn [qw qx qy qz].
  assert (X : (a0*a0+a1*a1+a2*a2+a3*a3)*(b0*b0+b1*b1+b2*b2+b3*b3) - (a0*b0+a1*b1+a2*b2+a3*b3)*(a0*b0+a1*b1+a2*b2+a3*b3)
    = (a0*b1-a1*b0)^2 + (a0*b2-a2*b0)^2 + (a0*b3-a3*b0)^2 + (a1*b2-a2*b1)^2 + (a1*b3-a3*b1)^2 + (a2*b3-a3*b2)^2) by ring.
  pose proof (pow2_ge_0 (a0*b1-a1*b0)). pose proof (pow2_ge_0 (a0*b2-a2*b0)). pose proof (pow2_ge_0 (a0*b3-a3*b0)).
  pose proof (pow2_ge_0 (a1*b2-a2*b1)). pose proof (pow2_ge_0 (a1*b3-a3*b1)). pose proof (pow2_ge_0 (a2*b3-a3*b2)). lra.
Qed.
Definition qaddr (a b : Quat) : Quat := mkQ (qw a + qw b) (qx a + qx b) (qy a + qy b) (qz a + qz b).
Lemma qtriang a b : qnorm (qaddr a b) <= qnorm a + qnorm b.
Proof.
  pose proof (qn_nonneg a). pose proof (qn_nonneg b).
  apply sq_le_le; [lra|]. rewrite qnorm_sq.
  assert (X : qnorm2 (qaddr a b) = qnorm2 a + qnorm2 b + 2 * qdotr a b) by (unfold qnorm2, qdotr, qaddr; cbn; ring).
  rewrite X, <- !qnorm_sq. pose proof (qcs a b). pose proof (Rle_abs (qdotr a b)). nra.
Qed.
Lemma qdist_triang a b c : qdist a c <= qdist a b + qdist b c.
Proof.
  unfold qdist. replace (qsub a c) with (qaddr (qsub a b) (qsub b c)); [apply qtriang|]. unfold qaddr, qsub; cbn; f_equal; ring.
Qed.
Lemma qdist_sym a b : qdist a b = qdist b a.
Proof. unfold qdist, qnorm. f_equal. unfold qnorm2, qsub; cbn; ring. Qed.
Lemma qdist_nonneg a b : 0 <= qdist a b. Proof. apply qn_nonneg. Qed.
Lemma qdist_self a : qdist a a = 0.
Proof. unfold qdist, qnorm. replace (qnorm2 (qsub a a)) with 0 by (unfold qnorm2, qsub; cbn; ring). apply sqrt_0. Qed.
Lemma qnorm_scale s a : qnorm (qscale s a) = Rabs s * qnorm a.
Proof.
  unfold qnorm. replace (qnorm2 (qscale s a)) with (s * s * qnorm2 a) by (unfold qnorm2, qscale; cbn; ring).
  rewrite sqrt_mult by (unfold qnorm2; nra). f_equal. apply sqrt_Rsqr_abs.
Qed.
Lemma qdist_norm a b : Rabs (qnorm a - qnorm b) <= qdist a b.
Proof.
  apply Rabs_le. split.
  - pose proof (qtriang a (qsub b a)) as H. replace (qaddr a (qsub b a)) with b in H by (destruct a, b; unfold qaddr, qsub; cbn; f_equal; ring).
    rewrite qdist_sym. unfold qdist. lra.
  - pose proof (qtriang b (qsub a b)) as H. replace (qaddr b (qsub a b)) with a in H by (destruct a, b; unfold qaddr, qsub; cbn; f_equal; ring).
    unfold qdist. lra.
Qed.
Lemma hamilton_qnorm a b : qnorm (hamilton a b) = qnorm a * qnorm b.
Proof.
  unfold qnorm. rewrite <- sqrt_mult by (unfold qnorm2; nra). f_equal. apply hamilton_norm.
Qed.
Lemma hamilton_dist_l a a' b : qdist (hamilton a b) (hamilton a' b) = qdist a a' * qnorm b.
Proof. unfold qdist. rewrite <- hamilton_qnorm. f_equal. unfold qsub. slin. Qed.
Lemma hamilton_dist_r a b b' : qdist (hamilton a b) (hamilton a b') = qnorm a * qdist b b'.
Proof. unfold qdist. rewrite <- hamilton_qnorm. f_equal. unfold qsub. slin. Qed.
(** the distance splits into the difference of lengths and of directions *)
Lemma qdist_split a b : 0 < qnorm a -> 0 < qnorm b ->
  qdist a b * qdist a b = (qnorm a - qnorm b) ^ 2 + qnorm a * qnorm b * (qdist (direction a) (direction b) * qdist (direction a) (direction b)).
Proof.
  intros A B. unfold qdist. rewrite !qnorm_sq.
  assert (X : qnorm2 (qsub a b) = qnorm a * qnorm a + qnorm b * qnorm b - 2 * qdotr a b).
  { rewrite !qnorm_sq. unfold qnorm2, qdotr, qsub; cbn; ring. }
  assert (Y : qnorm2 (qsub (direction a) (direction b)) = 2 - 2 * (qdotr a b) / (qnorm a * qnorm b)).
  { transitivity ((/ qnorm a * / qnorm a) * qnorm2 a + (/ qnorm b * / qnorm b) * qnorm2 b - 2 * (qdotr a b) / (qnorm a * qnorm b)).
    - unfold qnorm2 at 1, direction, qdotr, qscale, qsub; cbn [qw qx qy qz]. set (na := qnorm a) in *. set (nb := qnorm b) in *. unfold qnorm2. field. lra.
    - rewrite <- !qnorm_sq. field. lra. }
  rewrite X, Y. field. lra.
Qed.
Lemma direction_dist a b m : 0 < m -> m <= qnorm a -> m <= qnorm b -> qdist (direction a) (direction b) <= qdist a b / m.
Proof.
  intros M A B. pose proof (qdist_split a b) as H. pose proof (qdist_nonneg (direction a) (direction b)) as N1. pose proof (qdist_nonneg a b) as N2.
  apply sq_le_le; [apply Rmult_le_pos; [exact N2|]; apply Rlt_le, Rinv_0_lt_compat, M|].
  replace (qdist a b / m * (qdist a b / m)) with (qdist a b * qdist a b / (m * m)) by (field; lra).
  apply Rmult_le_reg_r with (m * m); [nra|]. replace (qdist a b * qdist a b / (m * m) * (m * m)) with (qdist a b * qdist a b) by (field; lra).
  rewrite H by lra. set (x := qdist (direction a) (direction b)) in *.
  assert (m * m <= qnorm a * qnorm b) by (apply Rmult_le_compat; lra). pose proof (pow2_ge_0 (qnorm a - qnorm b)).
  assert (x * x * (m * m) <= x * x * (qnorm a * qnorm b)) by (apply Rmult_le_compat_l; nra). lra.
Qed.
Lemma direction_norm a : 0 < qnorm a -> qnorm (direction a) = 1.
Proof. intro H. unfold direction. rewrite qnorm_scale. rewrite Rabs_pos_eq by (apply Rlt_le, Rinv_0_lt_compat, H). field. lra. Qed.
Lemma direction_unit a : qnorm a = 1 -> direction a = a.
Proof. intro H. unfold direction. rewrite H. destruct a. unfold qscale; cbn. f_equal; field. Qed.
Lemma direction_close a e : qnorm e = 1 -> 0 < qnorm a -> qdist a e < 1 -> qdist (direction a) e <= qdist a e / (1 - qdist a e).
Proof.
  intros U A D. pose proof (qdist_norm a e) as N. rewrite U in N. pose proof (Rle_abs (-(qnorm a - 1))). rewrite Rabs_Ropp in H.
  rewrite <- (direction_unit e U) at 1. apply direction_dist; try lra. pose proof (qdist_nonneg a e). lra.
Qed.
