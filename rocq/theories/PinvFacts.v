(** Facts about the floating-point pseudoinverse (C92). *)
From Coq Require Import ZArith Reals Lra Psatz Bool List Lia Permutation.
From Flocq Require Import IEEE754.BinarySingleNaN Core.Core.
From Verif Require Import Linalg Spec SpecFacts ModelCommon FloatModel FloatFacts FloatWrap FloatModel2 SpecFloatQ FloatQFacts FloatQProd FloatModel10 SpecVecF FloatVec FloatVec2 FloatVec4 FloatModel19 SpecPinv.
Import ListNotations.
Local Open Scope R_scope.

Lemma feval_zero p (a b : nat -> fl p) t : (forall i, In i (dleaves t) -> is_finite (a i) = true /\ is_finite (b i) = true /\ B2R (a i) * B2R (b i) = 0) ->
  is_finite (feval t a b) = true /\ B2R (feval t a b) = 0.
Proof.
  pose proof (bpow_gt_0 radix2 (femax p - 1)) as P. change (bpow radix2 (femax p - 1)) with (fbig p) in P.
  induction t as [i|l IHl r IHr|i t IH]; cbn [feval dleaves]; intro H.
  - destruct (H i) as (A & B & C); [now left|]. destruct (fmul_R p (a i) (b i) A B) as [R F]; [rewrite C, Rabs_R0; lra|]. rewrite R, C, rnd_0. tauto.
  - destruct IHl as [F1 R1]; [intros i I; apply H; apply in_or_app; tauto|]. destruct IHr as [F2 R2]; [intros i I; apply H; apply in_or_app; tauto|].
    destruct (fadd_R p _ _ F1 F2) as [R F]; [rewrite R1, R2, Rplus_0_r, Rabs_R0; lra|]. rewrite R, R1, R2, Rplus_0_r, rnd_0. tauto.
  - destruct IH as [F1 R1]; [intros j I; apply H; now right|]. destruct (H i) as (A & B & C); [now left|].
    destruct (ffma_R p (a i) (b i) _ A B F1) as [R F]; [rewrite C, R1, Rplus_0_r, Rabs_R0; lra|]. rewrite R, C, R1, Rplus_0_r, rnd_0. tauto.
Qed.

(** the maximum *)
Lemma fmaxabs_spec p (s : fvec p) : s <> [] -> all_finite s ->
  is_finite (fmaxabs s) = true /\ largest (values s) (B2R (fmaxabs s)).
Proof.
  destruct s as [|x s]; [congruence|]. intros _ H. inversion H as [|? ? Fx Fs]; subst. clear H. cbn [fmaxabs].
  assert (G : forall (r : fvec p) (m : fl p) (pre : list R), all_finite r -> is_finite m = true -> largest pre (B2R m) ->
    let z := fold_left (fun m y => if flt m (fabs y) then fabs y else m) r m in is_finite z = true /\ largest (pre ++ values r) (B2R z)).
  { induction r as [|y r IH]; intros m pre Fr Fm L; cbn [fold_left values map]; [rewrite app_nil_r; tauto|].
    inversion Fr as [|? ? Fy Fr']; subst. destruct (fabs_R p y) as [A B]. rewrite Fy in B.
    replace (pre ++ B2R y :: map B2R r) with ((pre ++ [B2R y]) ++ values r) by (rewrite <- app_assoc; reflexivity).
    destruct L as [(w & W1 & W2) W3]. rewrite (flt_R p m (fabs y) Fm B). destruct (Rlt_bool_spec (B2R m) (B2R (fabs y))) as [K|K].
    - apply (IH _ _ Fr' B). split; [exists (B2R y); split; [apply in_or_app; right; now left|now symmetry]|].
      intros v I. apply in_app_or in I. destruct I as [I|[<-|[]]]; [specialize (W3 v I); lra|rewrite A; lra].
    - apply (IH _ _ Fr' Fm). split; [exists w; split; [apply in_or_app; now left|assumption]|].
      intros v I. apply in_app_or in I. destruct I as [I|[<-|[]]]; [now apply W3|rewrite <- A; exact K]. }
  destruct (fabs_R p x) as [A B]. rewrite Fx in B. apply (G s (fabs x) [B2R x] Fs B).
  split; [exists (B2R x); split; [now left|now symmetry]|]. intros v [<-|[]]. rewrite A. lra.
Qed.
Lemma fmt_min p x : ffmt p x -> x <> 0 -> 2 * eta p <= Rabs x.
Proof.
  intros F N. unfold eta. replace (2 * (/ 2 * bpow radix2 (femin p))) with (bpow radix2 (femin p)) by field.
  apply (generic_format_ge_bpow radix2 (ffexp p) (femin p)).
  - intro e. unfold ffexp, FLT_exp. lia.
  - now apply Rabs_pos_lt.
  - now apply generic_format_abs.
Qed.
Lemma fu_le64 p : fu F64 <= fu p.
Proof. unfold fu. apply bpow_le. destruct p; cbn; lia. Qed.
Lemma eta_le64 p : eta F64 <= eta p.
Proof. unfold eta. apply Rmult_le_compat_l; [lra|]. apply bpow_le. destruct p; vm_compute; discriminate. Qed.
Lemma eta32 : eta F64 <= / 1000 * eta F32.
Proof.
  unfold eta. assert (bpow radix2 (femin F64) <= bpow radix2 (-10) * bpow radix2 (femin F32)) as H by (rewrite <- bpow_plus; apply bpow_le; vm_compute; discriminate).
  assert (bpow radix2 (-10) <= / 1000) as K by (cbn; lra). pose proof (bpow_gt_0 radix2 (femin F32)) as P.
  assert (bpow radix2 (-10) * bpow radix2 (femin F32) <= / 1000 * bpow radix2 (femin F32)) by (apply Rmult_le_compat_r; lra). lra.
Qed.
Lemma rnd_both p x : 0 <= x -> 0 <= rnd p x /\ Rabs (rnd p x - x) <= fu p * x + eta p.
Proof.
  intro H. split; [rewrite <- (rnd_0 p); now apply rnd_le|]. pose proof (rnd_err_le p x) as E. now rewrite (Rabs_pos_eq x H) in E.
Qed.
Lemma fbig64 p : fbig p <= fbig F64.
Proof. apply bpow_le. destruct p; cbn; lia. Qed.
Lemma quarter p : fbig p / 4 = bpow radix2 (femax p - 3).
Proof. unfold fbig. replace (femax p - 1)%Z with (femax p - 3 + 2)%Z by ring. rewrite bpow_plus. change (bpow radix2 2) with 4. field. Qed.
Lemma Rabs_in x y e : Rabs (x - y) <= e -> y - e <= x <= y + e.
Proof. intro H. pose proof (Rle_abs (x - y)). pose proof (Rle_abs (-(x - y))) as K. rewrite Rabs_Ropp in K. lra. Qed.

Lemma tol_ok p (eps : fl F64) (n : Z) (s : fvec p) : s <> [] -> all_finite s -> is_finite eps = true -> bpow radix2 (-900) <= B2R eps ->
  (1 <= n <= 2 ^ 24)%Z -> B2R eps * IZR n <= / 8 ->
  let tol := fcvt p (fmul (fmul eps (fofZ F64 n)) (fcvt F64 (fmaxabs s))) in
  let M := B2R (fmaxabs s) in
  is_finite tol = true /\ 0 <= B2R tol /\
  Rabs (B2R tol - B2R eps * IZR n * M) <= 4 * fu p * (B2R eps * IZR n * M) + 4 * eta p /\
  (0 < M -> B2R tol < M) /\ (M = 0 -> B2R tol = 0).
Proof.
  intros Ns Fs Fe He Hn Hp tol M. destruct (fmaxabs_spec p s Ns Fs) as [FM [(w & _ & W) _]]. fold M in W. assert (M0 : 0 <= M) by (rewrite <- W; apply Rabs_pos).
  destruct (widen_R p (fmaxabs s)) as [RW FW]. rewrite FM in FW. fold M in RW.
  destruct (fofZ_small F64 n) as [Fn Rn]; [lia|]. assert (N1 : 1 <= IZR n) by (apply (IZR_le 1); lia).
  pose proof (bpow_gt_0 radix2 (-900)) as P9. set (e := B2R eps) in *. assert (E0 : 0 <= e * IZR n) by (apply Rmult_le_pos; lra).
  assert (E9 : bpow radix2 (-900) <= e * IZR n). { rewrite <- (Rmult_1_r (bpow radix2 (-900))). apply Rmult_le_compat; lra. }
  assert (B8 : 1 <= fbig F64) by (change 1 with (bpow radix2 0); apply bpow_le; cbn; lia).
  assert (MB : M < 2 * fbig p).
  { unfold M. pose proof (abs_B2R_lt_emax (fprec p) (femax p) (fmaxabs s)) as A. rewrite Rabs_pos_eq in A by exact M0. unfold fbig.
    assert (K : bpow radix2 (femax p) = 2 * bpow radix2 (femax p - 1)); [|lra]. change 2 with (bpow radix2 1). rewrite <- bpow_plus. f_equal. ring. }
  assert (FF : ffmt p M) by (apply fmt_B2R). 
  destruct (fmul_R F64 eps (fofZ F64 n) Fe Fn) as [R1 F1]; [rewrite Rn; fold e; rewrite Rabs_pos_eq; lra|]. rewrite Rn in R1. fold e in R1.
  unfold tol in *. clear tol. set (x1 := fmul eps (fofZ F64 n)) in *. clearbody x1. set (y := fcvt F64 (fmaxabs s)) in *. clearbody y. clearbody M.
  destruct (rnd_both F64 (e * IZR n) E0) as [Q1 D1]. rewrite <- R1 in Q1, D1.
  assert (U1 : B2R x1 <= / 8).
  { rewrite R1. apply rnd_le_fmt; [|exact Hp]. replace (/ 8) with (bpow radix2 (-3)) by (cbn; lra). apply fmt_bpow. vm_compute; discriminate. }
  assert (EM : 0 <= B2R x1 * M) by (now apply Rmult_le_pos). assert (EM8 : B2R x1 * M <= M / 8). { unfold Rdiv. rewrite (Rmult_comm M). apply Rmult_le_compat_r; lra. }
  pose proof (bpow_gt_0 radix2 (femax p - 1)) as FB. fold (fbig p) in FB. pose proof (fbig64 p) as FB6.
  destruct (fmul_R F64 x1 y F1 FW) as [R2 F2]; [rewrite RW, Rabs_pos_eq; lra|]. rewrite RW in R2.
  set (x2 := fmul x1 y) in *. clearbody x2. destruct (rnd_both F64 _ EM) as [Q2 D2]. rewrite <- R2 in Q2, D2.
  assert (U2 : B2R x2 <= fbig p / 4).
  { rewrite R2. apply rnd_le_fmt; [|lra]. rewrite quarter. apply fmt_bpow. destruct p; vm_compute; discriminate. }
  destruct (fcvt_R F64 p x2 F2) as [R3 F3]; [rewrite Rabs_pos_eq; lra|]. destruct (rnd_both p _ Q2) as [Q3 D3]. rewrite <- R3 in Q3, D3.
  split; [exact F3|]. split; [exact Q3|].
  pose proof (fu_le64 p) as U. pose proof (eta_le64 p) as T. pose proof (fu_pos F64) as U0. pose proof (eta_pos F64) as T0. pose proof (fu_24 p) as V. 
  assert (D1' : Rabs (B2R x1 - e * IZR n) <= 101/100 * fu F64 * (e * IZR n)).
  { eapply Rle_trans; [exact D1|]. assert (eta F64 <= fu F64 * (/ 100 * bpow radix2 (-900))) as K.
    { apply Rle_trans with (fu F64 * bpow radix2 (-1000)).
      - unfold eta, fu. change (/ 2) with (bpow radix2 (-1)). rewrite <- !bpow_plus. apply bpow_le. vm_compute. discriminate.
      - apply Rmult_le_compat_l; [lra|]. replace (-1000)%Z with (-100 + -900)%Z by reflexivity. rewrite bpow_plus. apply Rmult_le_compat_r; [lra|].
        apply Rle_trans with (bpow radix2 (-10)); [apply bpow_le; lia|cbn; lra]. }
    assert (fu F64 * (/ 100 * bpow radix2 (-900)) <= fu F64 * (/ 100 * (e * IZR n))) by (apply Rmult_le_compat_l; lra). lra. }
  assert (KM : Rabs (B2R x1 * M - e * IZR n * M) <= 101/100 * fu F64 * (e * IZR n * M)).
  { replace (B2R x1 * M - e * IZR n * M) with ((B2R x1 - e * IZR n) * M) by ring. rewrite Rabs_mult, (Rabs_pos_eq M M0).
    replace (101/100 * fu F64 * (e * IZR n * M)) with (101/100 * fu F64 * (e * IZR n) * M) by ring. now apply Rmult_le_compat_r. }
  assert (Z0 : 0 <= e * IZR n * M) by (now apply Rmult_le_pos). set (Z := e * IZR n * M) in *. clearbody Z.
  split; [|split].
  - apply Rabs_in in KM. apply Rabs_in in D2. apply Rabs_in in D3. apply Rabs_le.
    assert (A1 : fu F64 * Z <= fu p * Z) by (apply Rmult_le_compat_r; lra). assert (A0 : fu p * Z <= / 16777216 * Z) by (apply Rmult_le_compat_r; lra).
    assert (A2 : fu F64 * (B2R x1 * M) <= 101/100 * (fu p * Z)).
    { apply Rle_trans with (fu p * (101/100 * Z)); [|lra]. apply Rmult_le_compat; lra. }
    assert (A3 : fu p * B2R x2 <= fu p * (102/100 * Z + 2 * eta p)) by (apply Rmult_le_compat_l; lra).
    assert (A4 : fu p * eta p <= / 16777216 * eta p) by (apply Rmult_le_compat_r; lra). lra.
  - intro MP. pose proof (fmt_min p M FF ltac:(lra)) as MM. rewrite (Rabs_pos_eq M M0) in MM. apply Rabs_in in D2. apply Rabs_in in D3.
    assert (A2 : fu F64 * (B2R x1 * M) <= / 16777216 * (M / 8)) by (apply Rmult_le_compat; lra).
    assert (A3 : fu p * B2R x2 <= / 16777216 * B2R x2) by (apply Rmult_le_compat_r; lra).
    destruct p.
    + pose proof eta32. lra.
    + rewrite R3, rnd_id by apply fmt_B2R. lra.
  - intros ->. rewrite R3, R2, Rmult_0_r, rnd_0. apply rnd_0.
Qed.

(** the reciprocals *)
Definition rr (tol y : R) : R := if Rlt_dec tol (Rabs y) then / y else 0.
Definition fr {p} (tol x : fl p) : fl p := if flt tol (fabs x) then fdiv (fofZ p 1) x else fzero.
Lemma fr_ok p (tol x : fl p) : is_finite tol = true -> 0 <= B2R tol -> is_finite x = true -> (B2R tol < Rabs (B2R x) -> bpow radix2 (-90) <= Rabs (B2R x)) ->
  is_finite (fr tol x) = true /\ Rabs (B2R (fr tol x) - rr (B2R tol) (B2R x)) <= fu p * Rabs (rr (B2R tol) (B2R x)) + eta p /\ Rabs (rr (B2R tol) (B2R x)) <= bpow radix2 90.
Proof.
  intros Ft T0 Fx H. unfold fr, rr. destruct (fabs_R p x) as [A B]. rewrite Fx in B. rewrite (flt_R p tol (fabs x) Ft B), A. pose proof (fu_pos p) as U. pose proof (eta_pos p) as E.
  destruct (Rlt_bool_spec (B2R tol) (Rabs (B2R x))) as [K|K]; destruct (Rlt_dec (B2R tol) (Rabs (B2R x))) as [K'|K']; try (exfalso; lra).
  - specialize (H K). pose proof (bpow_gt_0 radix2 (-90)) as P. assert (NZ : B2R x <> 0) by (intro Z; rewrite Z, Rabs_R0 in H; lra).
    assert (L : Rabs (/ B2R x) <= bpow radix2 90). { rewrite Rabs_inv. change 90%Z with (- (-90))%Z. rewrite bpow_opp. now apply Rinv_le. }
    assert (L2 : bpow radix2 90 <= fbig p) by (eapply Rle_trans; [|apply bpow100_fbig]; apply bpow_le; lia).
    destruct (fofZ1 p) as [F1 R1]. destruct (fdiv_R p (fofZ p 1) x F1 NZ) as [R F]; [rewrite R1; unfold Rdiv; rewrite Rmult_1_l; lra|].
    rewrite R, R1. unfold Rdiv. rewrite Rmult_1_l. split; [exact F|]. split; [apply rnd_err_le|exact L].
  - change (B2R (@fzero p)) with 0. rewrite Rminus_0_r, Rabs_R0, Rmult_0_r. pose proof (bpow_gt_0 radix2 90) as P. split; [reflexivity|]. split; lra.
Qed.

(** one coefficient of V * sigmaThin *)
Lemma inner_column (a : list R) (c : R) l : forall off, inner a (map (fun i => if Nat.eqb i l then c else 0) (seq off (length a))) = (if Nat.leb off l && Nat.ltb l (off + length a) then nth (l - off) a 0 * c else 0) /\
  inner_abs a (map (fun i => if Nat.eqb i l then c else 0) (seq off (length a))) = (if Nat.leb off l && Nat.ltb l (off + length a) then Rabs (nth (l - off) a 0 * c) else 0).
Proof.
  induction a as [|x a IH]; intro off; cbn [length seq map inner inner_abs].
  - destruct (Nat.leb_spec off l); destruct (Nat.ltb_spec l (off + 0)); cbn [andb]; try lia; split; reflexivity.
  - destruct (IH (S off)) as [I1 I2]. rewrite I1, I2. clear I1 I2 IH.
    destruct (Nat.eqb_spec off l) as [->|N].
    + replace (Nat.leb (S l) l) with false by (symmetry; apply Nat.leb_gt; lia). rewrite Nat.leb_refl, Nat.sub_diag. cbn [andb nth].
      replace (Nat.ltb l (l + S (length a))) with true by (symmetry; apply Nat.ltb_lt; lia). split; ring.
    + rewrite Rmult_0_r, Rabs_R0. rewrite !Rplus_0_l. destruct (Nat.leb_spec (S off) l) as [K|K]; destruct (Nat.leb_spec off l) as [K'|K']; try lia; cbn [andb]; [|split; reflexivity].
      replace (S off + length a)%nat with (off + S (length a))%nat by lia. replace (l - off)%nat with (S (l - S off)) by lia. cbn [nth]. split; reflexivity.
Qed.
Lemma column_values p (d : fvec p) l : values (fdiag_column d l) = map (fun i => if Nat.eqb i l then nth l (values d) 0 else 0) (seq 0 (length d)).
Proof.
  unfold values, fdiag_column. rewrite map_map. apply map_ext. intro i. change 0 with (B2R (@fzero p)). rewrite map_nth. now destruct (Nat.eqb i l).
Qed.
Lemma column_length p (d : fvec p) l : length (fdiag_column d l) = length d.
Proof. unfold fdiag_column. now rewrite map_length, seq_length. Qed.
Lemma nth_finite p (d : fvec p) l : all_finite d -> is_finite (nth l d fzero) = true.
Proof. intro H. destruct (nth_in_or_default l d fzero) as [I|Dz]; [|now rewrite Dz]. unfold all_finite in H. rewrite Forall_forall in H. now apply H. Qed.
Lemma column_finite p (d : fvec p) l : all_finite d -> all_finite (fdiag_column d l).
Proof.
  intro H. apply Forall_forall. intros x I. unfold fdiag_column in I. apply in_map_iff in I. destruct I as (i & <- & _). destruct (Nat.eqb i l); [now apply nth_finite|reflexivity].
Qed.
Lemma values_length p (d : fvec p) : length (values d) = length d.
Proof. apply map_length. Qed.
Lemma nth_values p (d : fvec p) l : nth l (values d) 0 = B2R (nth l d fzero).
Proof. unfold values. change 0 with (B2R (@fzero p)). apply map_nth. Qed.
Lemma dot_column p (t : dtree) (v d : fvec p) l : order (length v) t -> length v = length d -> all_finite v -> all_finite d -> (l < length d)%nat ->
  dimension v * fu p <= / 100 -> Rabs (nth l (values v) 0 * nth l (values d) 0) <= fbig p / 2 ->
  is_finite (fv_dot t v (fdiag_column d l)) = true /\
  Rabs (B2R (fv_dot t v (fdiag_column d l)) - nth l (values v) 0 * nth l (values d) 0) <= 101/100 * dimension v * fu p * Rabs (nth l (values v) 0 * nth l (values d) 0) + 102/100 * dimension v * eta p.
Proof.
  intros O L Fv Fd Hl Hn HB. destruct (inner_column (values v) (nth l (values d) 0) l 0) as [I1 I2]. rewrite values_length, L in I1, I2.
  rewrite <- column_values in I1, I2. replace (Nat.ltb l (0 + length d)) with true in * by (symmetry; apply Nat.ltb_lt; lia). cbn [Nat.leb andb] in I1, I2. rewrite Nat.sub_0_r in I1, I2.
  destruct (fv_dot_err p t v (fdiag_column d l) O) as [F E]; [now rewrite column_length|exact Fv|now apply column_finite|exact Hn|now rewrite I2|].
  rewrite I1, I2 in E. tauto.
Qed.

(** the second product *)
Lemma pinv_sum tol A B n : 0 <= A -> 0 <= B -> forall W v s u : list R, length W = n -> length v = n -> length s = n -> length u = n ->
  (forall l, (l < n)%nat -> Rabs (nth l W 0 - nth l v 0 * rr tol (nth l s 0)) <= A * Rabs (nth l v 0 * rr tol (nth l s 0)) + B) -> (forall x, In x u -> Rabs x <= 2) ->
  Rabs (inner W u - pinv_coefficient tol v s u) <= A * pinv_size tol v s u + 2 * B * INR n /\ inner_abs W u <= (1 + A) * pinv_size tol v s u + 2 * B * INR n.
Proof.
  intros HA HB. induction n as [|n IH]; intros [|w W] [|x v] [|y s] [|z u] L1 L2 L3 L4 H HU; try discriminate.
  - cbn. rewrite Rminus_0_r, Rabs_R0. lra.
  - injection L1 as L1. injection L2 as L2. injection L3 as L3. injection L4 as L4.
    destruct (IH W v s u L1 L2 L3 L4) as [I1 I2]; [intros l Hl; apply (H (S l)); lia|intros q Q; apply HU; now right|].
    specialize (H 0%nat ltac:(lia)). cbn [nth] in H. specialize (HU z ltac:(now left)).
    assert (C1 : pinv_coefficient tol (x :: v) (y :: s) (z :: u) = x * rr tol y * z + pinv_coefficient tol v s u).
    { cbn [pinv_coefficient]. unfold rr. destruct (Rlt_dec tol (Rabs y)); unfold Rdiv; ring. }
    assert (C2 : pinv_size tol (x :: v) (y :: s) (z :: u) = Rabs (x * rr tol y) * Rabs z + pinv_size tol v s u).
    { cbn [pinv_size]. unfold rr. destruct (Rlt_dec tol (Rabs y)); [|rewrite Rmult_0_r, Rabs_R0; ring]. rewrite <- Rabs_mult. f_equal. f_equal. unfold Rdiv. ring. }
    rewrite C1, C2. cbn [inner inner_abs]. set (r := x * rr tol y) in *. clearbody r. rewrite S_INR. pose proof (Rabs_pos z) as Z0.
    assert (M : Rabs ((w - r) * z) <= A * (Rabs r * Rabs z) + 2 * B).
    { rewrite Rabs_mult. apply Rle_trans with ((A * Rabs r + B) * Rabs z); [now apply Rmult_le_compat_r|]. assert (B * Rabs z <= B * 2) by (now apply Rmult_le_compat_l). lra. }
    split.
    + replace (w * z + inner W u - (r * z + pinv_coefficient tol v s u)) with ((w - r) * z + (inner W u - pinv_coefficient tol v s u)) by ring.
      eapply Rle_trans; [apply Rabs_triang|]. lra.
    + replace (w * z) with ((w - r) * z + r * z) by ring. eapply Rle_trans; [apply Rplus_le_compat_r, Rabs_triang|]. rewrite (Rabs_mult r z). lra.
Qed.
Lemma pinv_size_le tol b n : 0 <= b -> forall v s u : list R, length v = n -> length s = n -> length u = n -> (forall x, In x v -> Rabs x <= 2) -> (forall x, In x u -> Rabs x <= 2) ->
  (forall y, In y s -> Rabs (rr tol y) <= b) -> 0 <= pinv_size tol v s u <= 4 * b * INR n.
Proof.
  intro Hb. induction n as [|n IH]; intros [|x v] [|y s] [|z u] L1 L2 L3 HV HU HS; try discriminate; [cbn; lra|].
  injection L1 as L1. injection L2 as L2. injection L3 as L3. destruct (IH v s u L1 L2 L3) as [I1 I2]; [intros q Q; apply HV; now right|intros q Q; apply HU; now right|intros q Q; apply HS; now right|].
  specialize (HV x ltac:(now left)). specialize (HU z ltac:(now left)). specialize (HS y ltac:(now left)).
  assert (C2 : pinv_size tol (x :: v) (y :: s) (z :: u) = Rabs x * Rabs z * Rabs (rr tol y) + pinv_size tol v s u).
  { cbn [pinv_size]. unfold rr. destruct (Rlt_dec tol (Rabs y)); [|rewrite Rabs_R0; ring]. rewrite <- !Rabs_mult. f_equal. }
  rewrite C2, S_INR. pose proof (Rabs_pos x). pose proof (Rabs_pos z). pose proof (Rabs_pos (rr tol y)).
  assert (0 <= Rabs x * Rabs z <= 4) by (split; [apply Rmult_le_pos; lra|replace 4 with (2 * 2) by lra; apply Rmult_le_compat; lra]).
  assert (0 <= Rabs x * Rabs z * Rabs (rr tol y) <= 4 * b) by (split; [apply Rmult_le_pos; lra|apply Rmult_le_compat; lra]). lra.
Qed.

(** one coefficient of the result *)
Lemma sigma_length p (tol : fl p) s : length (fsigmaThin tol s) = length s.
Proof. apply map_length. Qed.
Lemma sigma_nth p (tol : fl p) s l : (l < length s)%nat -> nth l (fsigmaThin tol s) fzero = fr tol (nth l s fzero).
Proof. intro H. unfold fsigmaThin. rewrite (nth_indep _ fzero (fr tol fzero)) by (now rewrite map_length). exact (map_nth (fr tol) s fzero l). Qed.
Lemma row_nth p t (v d : fvec p) l : (l < length d)%nat -> nth l (frow_diag t v d) fzero = fv_dot (t l) v (fdiag_column d l).
Proof.
  intro H. unfold frow_diag. rewrite (nth_indep _ fzero (fv_dot (t 0%nat) v (fdiag_column d 0))) by (now rewrite map_length, seq_length).
  rewrite (map_nth (fun l => fv_dot (t l) v (fdiag_column d l))). now rewrite seq_nth.
Qed.
Lemma row_length p t (v d : fvec p) : length (frow_diag t v d) = length d.
Proof. unfold frow_diag. now rewrite map_length, seq_length. Qed.
Lemma big_ok p D : D * fu p <= / 100 -> 0 <= D -> 8 * bpow radix2 92 * D <= fbig p / 16.
Proof.
  intros H H0. assert (K : bpow radix2 98 <= fu p * fbig p). { unfold fu, fbig. rewrite <- bpow_plus. apply bpow_le. destruct p; cbn; lia. }
  pose proof (fu_pos p) as U. apply Rmult_le_reg_r with (fu p); [exact U|]. pose proof (bpow_gt_0 radix2 92) as P.
  assert (A : 8 * bpow radix2 92 * D * fu p <= 8 * bpow radix2 92 * / 100) by (rewrite Rmult_assoc; apply Rmult_le_compat_l; lra).
  replace 98%Z with (6 + 92)%Z in K by reflexivity. rewrite bpow_plus in K. change (bpow radix2 6) with 64 in K. lra.
Qed.
Lemma pinv_entry p (t : nat -> dtree) (t' : dtree) (tol : fl p) (v s u : fvec p) : s <> [] -> length v = length s -> length u = length s ->
  (forall l, order (length s) (t l)) -> order (length s) t' -> all_finite v -> all_finite s -> all_finite u -> is_finite tol = true -> 0 <= B2R tol ->
  (forall x, In x (values v) -> Rabs x <= 2) -> (forall x, In x (values u) -> Rabs x <= 2) -> (forall x, In x (values s) -> B2R tol < Rabs x -> bpow radix2 (-90) <= Rabs x) ->
  dimension s * fu p <= / 100 ->
  is_finite (fv_dot t' (frow_diag t v (fsigmaThin tol s)) u) = true /\
  Rabs (B2R (fv_dot t' (frow_diag t v (fsigmaThin tol s)) u) - pinv_coefficient (B2R tol) (values v) (values s) (values u)) <=
    (207/100 * dimension s + 1) * fu p * pinv_size (B2R tol) (values v) (values s) (values u) + 10 * (dimension s * dimension s) * eta p.
Proof.
  intros Ns Lv Lu O O' Fv Fs Fu Ft T0 Hv Hu Hs Hn. set (d := fsigmaThin tol s). set (W := frow_diag t v d).
  assert (Ld : length d = length s) by apply sigma_length. assert (LW : length W = length s) by (unfold W; now rewrite row_length).
  pose proof (order_pos _ _ O') as D1. unfold dimension in *. set (n := length s) in *. set (D := INR n) in *. pose proof (fu_pos p) as U. pose proof (eta_pos p) as E. pose proof (fu_24 p) as U24.
  pose proof (bpow_gt_0 radix2 90) as P90. pose proof (big_ok p D Hn ltac:(lra)) as BG.
  assert (P92 : bpow radix2 92 = 4 * bpow radix2 90) by (change 92%Z with (2 + 90)%Z; rewrite bpow_plus; reflexivity). rewrite P92 in BG. set (b := bpow radix2 90) in *.
  assert (b1 : 1 <= b) by (change 1 with (bpow radix2 0); apply bpow_le; lia).
  assert (bD : b <= b * D) by (rewrite <- (Rmult_1_r b) at 1; apply Rmult_le_compat_l; lra).
  assert (ET : eta p <= / 1000). { eapply Rle_trans; [apply eta_tiny|]. apply Rle_trans with (bpow radix2 (-10)); [apply bpow_le; lia|cbn; lra]. }
  assert (FR : forall l, (l < n)%nat -> is_finite (nth l d fzero) = true /\ Rabs (nth l (values d) 0 - rr (B2R tol) (nth l (values s) 0)) <= fu p * Rabs (rr (B2R tol) (nth l (values s) 0)) + eta p /\ Rabs (rr (B2R tol) (nth l (values s) 0)) <= b).
  { intros l Hl. rewrite !nth_values. unfold d. rewrite sigma_nth by exact Hl. apply fr_ok; [exact Ft|exact T0|now apply nth_finite|].
    intro K. rewrite <- nth_values in *. apply Hs; [|exact K]. apply nth_In. rewrite values_length. exact Hl. }
  assert (Fd : all_finite d). { apply Forall_forall. intros x I. destruct (In_nth d x fzero I) as (l & Hl & <-). apply FR. lia. }
  assert (WE : forall l, (l < n)%nat -> is_finite (nth l W fzero) = true /\
    Rabs (nth l (values W) 0 - nth l (values v) 0 * rr (B2R tol) (nth l (values s) 0)) <= (102/100 * D + 1) * fu p * Rabs (nth l (values v) 0 * rr (B2R tol) (nth l (values s) 0)) + 4 * D * eta p).
  { intros l Hl. destruct (FR l Hl) as (G1 & G2 & G3). rewrite (nth_values p W). unfold W. rewrite row_nth by lia.
    assert (V2 : Rabs (nth l (values v) 0) <= 2) by (apply Hv, nth_In; rewrite values_length; lia).
    destruct (dot_column p (t l) v d l) as [H1 H2]; [rewrite Lv; apply O|lia|exact Fv|exact Fd|lia|unfold dimension; now rewrite Lv| |].
    - rewrite Rabs_mult. apply Rle_trans with (2 * (3 * b)); [|lra]. apply Rmult_le_compat; try apply Rabs_pos; [exact V2|]. apply Rabs_in in G2.
      set (x := nth l (values d) 0) in *. set (r := rr _ _) in *. replace x with ((x - r) + r) by ring. eapply Rle_trans; [apply Rabs_triang|].
      assert (Rabs (x - r) <= fu p * Rabs r + eta p) by (apply Rabs_le; lra). assert (fu p * Rabs r <= / 16777216 * Rabs r) by (apply Rmult_le_compat_r; [apply Rabs_pos|lra]). pose proof (Rabs_pos r). lra.
    - split; [exact H1|]. unfold dimension in H2. rewrite Lv in H2. fold D in H2. set (y := B2R (fv_dot (t l) v (fdiag_column d l))) in *. set (x := nth l (values d) 0) in *. set (r := rr _ _) in *. set (a := nth l (values v) 0) in *.
      assert (K1 : Rabs (a * x - a * r) <= fu p * Rabs (a * r) + 2 * eta p).
      { replace (a * x - a * r) with (a * (x - r)) by ring. rewrite !Rabs_mult. apply Rle_trans with (Rabs a * (fu p * Rabs r + eta p)); [apply Rmult_le_compat_l; [apply Rabs_pos|exact G2]|].
        assert (Rabs a * eta p <= 2 * eta p) by (apply Rmult_le_compat_r; lra). lra. }
      assert (K2 : Rabs (a * x) <= (1 + fu p) * Rabs (a * r) + 2 * eta p).
      { replace (a * x) with ((a * x - a * r) + a * r) by ring. eapply Rle_trans; [apply Rabs_triang|]. lra. }
      replace (y - a * r) with ((y - a * x) + (a * x - a * r)) by ring. eapply Rle_trans; [apply Rabs_triang|].
      assert (K3 : 101/100 * D * fu p * Rabs (a * x) <= 101/100 * D * fu p * ((1 + fu p) * Rabs (a * r) + 2 * eta p)) by (apply Rmult_le_compat_l; [repeat apply Rmult_le_pos; lra|exact K2]).
      pose proof (Rabs_pos (a * r)) as Z. set (z := Rabs (a * r)) in *. clearbody z.
      assert (K4 : D * fu p * (fu p * z) <= D * fu p * (/ 16777216 * z)) by (apply Rmult_le_compat_l; [apply Rmult_le_pos; lra|]; apply Rmult_le_compat_r; lra).
      assert (K5 : D * fu p * eta p <= / 100 * eta p) by (apply Rmult_le_compat_r; lra).
      assert (K6 : 1 * eta p <= D * eta p) by (apply Rmult_le_compat_r; lra).
      assert (K7 : 0 <= D * fu p * z) by (repeat apply Rmult_le_pos; lra). lra. }
  assert (FW : all_finite W). { apply Forall_forall. intros x I. destruct (In_nth W x fzero I) as (l & Hl & <-). apply WE. lia. }
  destruct (pinv_sum (B2R tol) ((102/100 * D + 1) * fu p) (4 * D * eta p) n) with (W := values W) (v := values v) (s := values s) (u := values u) as [S1 S2];
    [apply Rmult_le_pos; lra|apply Rmult_le_pos; [apply Rmult_le_pos; lra|lra]|now rewrite values_length|now rewrite values_length|now rewrite values_length|now rewrite values_length|intros l Hl; apply (WE l Hl)|exact Hu|].
  destruct (pinv_size_le (B2R tol) b n) with (v := values v) (s := values s) (u := values u) as [Z0 Z1];
    [lra|now rewrite values_length|now rewrite values_length|now rewrite values_length|exact Hv|exact Hu| |].
  { intros y I. destruct (In_nth _ y 0 I) as (l & Hl & <-). rewrite values_length in Hl. apply (FR l Hl). }
  fold D in S1, S2, Z1. set (Z := pinv_size _ _ _ _) in *. clearbody Z.
  assert (DD : D * D * eta p <= D).
  { pose proof (eta_u p) as EU. assert (bpow radix2 (-126) <= 1) as Q by (change 1 with (bpow radix2 0); apply bpow_le; lia). rewrite Rmult_assoc. apply Rle_trans with (D * 1); [|lra]. apply Rmult_le_compat_l; [lra|].
    apply Rle_trans with (D * (fu p * 1)); [apply Rmult_le_compat_l; [lra|]; eapply Rle_trans; [exact EU|]; apply Rmult_le_compat_l; lra|lra]. }
  assert (Q1 : inner_abs (values W) (values u) <= 1022/1000 * Z + 8 * (D * D * eta p)).
  { eapply Rle_trans; [exact S2|]. assert (((102/100 * D + 1) * fu p) * Z <= (1021/100000) * Z) by (apply Rmult_le_compat_r; lra). lra. }
  destruct (fv_dot_err p t' W u) as [F2 E2]; [now rewrite LW|lia|exact FW|exact Fu|unfold dimension; now rewrite LW| |].
  { eapply Rle_trans; [exact Q1|]. assert (D <= b * D) by (rewrite <- (Rmult_1_l D) at 1; apply Rmult_le_compat_r; lra). lra. }
  split; [exact F2|]. unfold dimension in E2. rewrite LW in E2. fold n in E2. fold D in E2.
  set (y := B2R (fv_dot t' W u)) in *. set (w := inner (values W) (values u)) in *. set (c := pinv_coefficient _ _ _ _) in *. clearbody y w c.
  replace (y - c) with ((y - w) + (w - c)) by ring. eapply Rle_trans; [apply Rabs_triang|].
  assert (K3 : 101/100 * D * fu p * inner_abs (values W) (values u) <= 101/100 * D * fu p * (1022/1000 * Z + 8 * (D * D * eta p))) by (apply Rmult_le_compat_l; [repeat apply Rmult_le_pos; lra|exact Q1]).
  assert (K4 : D * fu p * (D * D * eta p) <= / 100 * (D * D * eta p)) by (apply Rmult_le_compat_r; [apply Rmult_le_pos; [apply Rmult_le_pos|]; lra|exact Hn]).
  assert (K5 : 1 * (D * eta p) <= D * (D * eta p)) by (apply Rmult_le_compat_r; [apply Rmult_le_pos; lra|exact D1]).
  assert (K7 : 0 <= D * fu p * Z) by (repeat apply Rmult_le_pos; lra). assert (K8 : 0 <= D * D * eta p) by (apply Rmult_le_pos; [apply Rmult_le_pos|]; lra). lra.
Qed.
