(** wrapPosNegPI and wrapTwoPI with rounding. *)
From Coq Require Import ZArith Reals Lra Psatz Bool Lia.
From Flocq Require Import IEEE754.BinarySingleNaN Core.Core.
From Verif Require Import ModelCommon PiBounds FloatModel FloatFacts FloatModulo.
Local Open Scope R_scope.

(** T(M_PI) as a real *)
Definition piT (p : prim) : R := B2R (fcvt p fM_PI).
Definition ftwopi (p : prim) : fl p := fcvt p (fmul (fofZ F64 2) fM_PI).

Lemma B2R_of_SF p (a : fl p) s m e : B2SF a = SpecFloat.S754_finite s m e -> B2R a = F2R (Float radix2 (cond_Zopp s (Zpos m)) e).
Proof. intro H. rewrite <- SF2R_B2SF, H. reflexivity. Qed.
Lemma M_PI_val : B2R fM_PI = IZR 7074237752028440 * / IZR (2 ^ 51).
Proof. rewrite (B2R_of_SF F64 fM_PI false 7074237752028440 (-51)) by (vm_compute; reflexivity). reflexivity. Qed.
Lemma M_PI_fin : is_finite fM_PI = true. Proof. reflexivity. Qed.
Lemma piT_val p : piT p = match p with F32 => IZR 13176795 * / IZR (2 ^ 22) | F64 => IZR 7074237752028440 * / IZR (2 ^ 51) end.
Proof.
  unfold piT. destruct p.
  - rewrite (B2R_of_SF F32 (fcvt F32 fM_PI) false 13176795 (-22)) by (vm_compute; reflexivity). reflexivity.
  - rewrite (B2R_of_SF F64 (fcvt F64 fM_PI) false 7074237752028440 (-51)) by (vm_compute; reflexivity). reflexivity.
Qed.
Lemma ftwopi_val p : B2R (ftwopi p) = 2 * piT p.
Proof.
  rewrite piT_val. unfold ftwopi. destruct p.
  - rewrite (B2R_of_SF F32 (fcvt F32 (fmul (fofZ F64 2) fM_PI)) false 13176795 (-21)) by (vm_compute; reflexivity). unfold F2R. cbn. lra.
  - rewrite (B2R_of_SF F64 (fcvt F64 (fmul (fofZ F64 2) fM_PI)) false 7074237752028440 (-50)) by (vm_compute; reflexivity). unfold F2R. cbn. lra.
Qed.
Lemma piT_fin p : is_finite (fcvt p fM_PI) = true. Proof. destruct p; vm_compute; reflexivity. Qed.
Lemma ftwopi_fin p : is_finite (ftwopi p) = true. Proof. destruct p; vm_compute; reflexivity. Qed.
Lemma fu_val p : fu p = match p with F32 => / IZR (2 ^ 24) | F64 => / IZR (2 ^ 53) end.
Proof. destruct p; reflexivity. Qed.

Ltac zlit := change (2 ^ 51)%Z with 2251799813685248%Z in *; change (2 ^ 53)%Z with 9007199254740992%Z in *; change (2 ^ 22)%Z with 4194304%Z in *;
  change (2 ^ 24)%Z with 16777216%Z in *; change (10 ^ 17)%Z with 100000000000000000%Z in *; change (2 ^ 21)%Z with 2097152%Z in *; change (2 ^ 50)%Z with 1125899906842624%Z in *.
(** distances between pi, M_PI and T(M_PI) in units of the roundoff *)
Lemma pi_consts p : let u := fu p in
  Rabs (PI - piT p) <= 3 / 2 * u /\ 0 <= piT p - B2R fM_PI <= 3 / 2 * u /\ 0 <= PI - B2R fM_PI <= 3 / 2 * u /\ 314 / 100 <= piT p <= 315 / 100 /\
  fu F64 <= u /\ 314 / 100 <= B2R fM_PI <= 315 / 100.
Proof.
  cbv zeta. pose proof PI_close as [A B]. rewrite M_PI_val, piT_val, !fu_val.
  destruct p; zlit.
  - split; [apply Rabs_le; lra|]. repeat split; lra.
  - split; [apply Rabs_le; lra|]. repeat split; lra.
Qed.

(** largest number of the type below T(M_PI) *)
Definition piPred (p : prim) : R := match p with F32 => IZR 13176794 * / IZR (2 ^ 22) | F64 => IZR 7074237752028439 * / IZR (2 ^ 51) end.
Lemma piPred_fmt p : ffmt p (piPred p).
Proof.
  destruct p; cbn [piPred].
  - change (/ IZR (2 ^ 22)) with (bpow radix2 (-22)). apply fmt_multiple; [unfold femin; cbn; lia|]. cbn. rewrite Rabs_pos_eq by lra. lra.
  - change (/ IZR (2 ^ 51)) with (bpow radix2 (-51)). apply fmt_multiple; [unfold femin; cbn; lia|]. cbn. rewrite Rabs_pos_eq by lra. lra.
Qed.
Lemma piPred_lt p : piPred p < piT p.
Proof. rewrite piT_val. destruct p; cbn; lra. Qed.
Lemma piPred_bound p r0 : r0 + fu p * r0 < 2 * piT p -> r0 - B2R fM_PI <= piPred p.
Proof. rewrite M_PI_val, piT_val, fu_val. destruct p; cbn; lra. Qed.

Lemma rnd_pi p : rnd p (B2R fM_PI) = piT p.
Proof.
  unfold piT. destruct (fcvt_R F64 p fM_PI M_PI_fin) as [E _]; [|now rewrite E].
  rewrite M_PI_val. rewrite Rabs_pos_eq by (cbn; lra). apply Rle_trans with 4; [cbn; lra|].
  change 4 with (bpow radix2 2). apply bpow_le. destruct p; cbn; lia.
Qed.

(** accuracy of the modulo by 2 T(M_PI), relative to multiples of 2 pi *)
Lemma mod_2pi p (s r0 : R) (k : Z) E : 0 <= r0 <= 2 * piT p ->
  Rabs (r0 - (s - IZR k * (2 * piT p))) <= E -> E <= 4 * fu p * (Rabs s + 2 * piT p) ->
  Rabs (2 * IZR k * (PI - piT p)) <= fu p * (Rabs s / 2 + 33 / 10).
Proof.
  intros R0 H HE. pose proof (pi_consts p) as (P1 & _ & _ & P4 & _ & _).
  pose proof (fu_pos p) as U0. pose proof (fu_small p) as U1. set (u := fu p) in *. set (a := Rabs s) in *.
  assert (A0 : 0 <= a) by apply Rabs_pos.
  rewrite !Rabs_mult, (Rabs_pos_eq 2) by lra.
  assert (K : Rabs (IZR k) * (2 * piT p) <= a + 2 * piT p + E).
  { replace (Rabs (IZR k) * (2 * piT p)) with (Rabs (IZR k * (2 * piT p))) by (rewrite Rabs_mult, (Rabs_pos_eq (2 * piT p)); lra).
    replace (IZR k * (2 * piT p)) with (r0 - (s - IZR k * (2 * piT p)) + (s - r0)) by ring.
    apply Rle_trans with (1 := Rabs_triang _ _).
    assert (Rabs (s - r0) <= a + 2 * piT p).
    { apply Rle_trans with (1 := Rabs_triang _ _). rewrite Rabs_Ropp, (Rabs_pos_eq r0) by lra. unfold a. lra. }
    lra. }
  assert (HE' : E <= 4 / 1000 * (a + 2 * piT p)).
  { apply Rle_trans with (1 := HE). replace (4 / 1000 * (a + 2 * piT p)) with (4 * / 1000 * (a + 2 * piT p)) by (unfold Rdiv; ring).
    apply Rmult_le_compat_r; lra. }
  set (K0 := Rabs (IZR k)) in *. assert (0 <= K0) by apply Rabs_pos.
  assert (K1 : 2 * K0 * (314 / 100) <= 1004 / 1000 * (a + 63 / 10)) by nra.
  apply Rle_trans with (2 * K0 * (3 / 2 * u)).
  - apply Rmult_le_compat_l; lra.
  - nra.
Qed.

Lemma s_bounds p a : Rabs a <= bpow radix2 (fprec p - 2) ->
  Rabs (a + piT p) <= fbig p /\ (1 + fu p) * (Rabs a + piT p) <= bpow radix2 (fprec p - 2) * (2 * piT p) /\
  (1 + fu p) * (Rabs a + piT p) <= bpow radix2 (femax p - 3) /\ 2 * piT p <= bpow radix2 (femax p - 3).
Proof.
  intro H. pose proof (pi_consts p) as (_ & _ & _ & P4 & _ & _). pose proof (fu_pos p) as U0. pose proof (fu_small p) as U1.
  set (B := bpow radix2 (fprec p - 2)) in *.
  assert (HB : 1000 <= B) by (unfold B; destruct p; cbn; lra).
  assert (HF : 8 * B <= bpow radix2 (femax p - 3)).
  { unfold B. change 8 with (bpow radix2 3). rewrite <- bpow_plus. apply bpow_le. destruct p; cbn; lia. }
  pose proof (Rabs_pos a). rewrite fbig_split. pose proof (Rabs_triang a (piT p)) as T. rewrite (Rabs_pos_eq (piT p)) in T by lra.
  assert ((1 + fu p) * (Rabs a + piT p) <= 2 * (Rabs a + piT p)) by (apply Rmult_le_compat_r; lra).
  repeat split; try lra. nra.
Qed.

Lemma wrapPosNegPI_ok p ev (a : fl p) : is_finite a = true -> Rabs (B2R a) <= bpow radix2 (fprec p - 2) ->
  let r := fwrapPosNegPI ev a in
  is_finite r = true /\ - piT p <= B2R r <= piT p /\ (ev <> FloorDouble \/ p = F64 -> B2R r < piT p) /\
  exists k : Z, Rabs (B2R r - (B2R a - 2 * IZR k * PI)) <= 8 * fu p * (Rabs (B2R a) + 8).
Proof.
  intros Fa Ha. cbv zeta.
  destruct (s_bounds p (B2R a) Ha) as (S1 & S2 & S3 & S4).
  pose proof (pi_consts p) as (P1 & P2 & P3 & P4 & P5 & P6). pose proof (fu_pos p) as U0. pose proof (fu_small p) as U1.
  pose proof (fu_pos F64) as U64.
  unfold fwrapPosNegPI. fold (ftwopi p).
  destruct (fadd_R p a (fcvt p fM_PI) Fa (piT_fin p) S1) as [Es Fs]. fold (piT p) in Es.
  set (s := fadd a (fcvt p fM_PI)) in *.
  pose proof (rnd_add_err p (B2R a) (piT p) (fmt_B2R p a) (fmt_B2R p _)) as EE. rewrite <- Es in EE.
  set (sr := B2R s) in *. set (ar := B2R a) in *. set (u := fu p) in *.
  pose proof (Rabs_triang ar (piT p)) as TR. rewrite (Rabs_pos_eq (piT p)) in TR by lra.
  assert (A0 : 0 <= Rabs ar) by apply Rabs_pos.
  assert (Es1 : Rabs (sr - (ar + piT p)) <= u * (Rabs ar + piT p)) by (apply Rle_trans with (1 := EE); apply Rmult_le_compat_l; lra).
  assert (As : Rabs sr <= (1 + u) * (Rabs ar + piT p)).
  { replace sr with (sr - (ar + piT p) + (ar + piT p)) by ring. apply Rle_trans with (1 := Rabs_triang _ _). lra. }
  assert (HR : in_range p sr (B2R (ftwopi p))).
  { rewrite ftwopi_val. unfold in_range. rewrite (Rabs_pos_eq (2 * piT p)) by lra. repeat split; lra. }
  destruct (fmodulo_ok p ev s (ftwopi p) Fs (ftwopi_fin p) HR) as (Fm & Mp & _ & k & Mk).
  destruct Mp as [M1 M2]; [rewrite ftwopi_val; lra|]. rewrite ftwopi_val in M1, M2, Mk. rewrite (Rabs_pos_eq (2 * piT p)) in Mk by lra.
  set (mo := fmodulo ev s (ftwopi p)) in *. set (r0 := B2R mo) in *. fold sr in Mk. fold u in Mk.
  destruct (widen_R p mo) as [W Fw]. rewrite Fm in Fw.
  assert (B64 : Rabs (B2R (fcvt F64 mo) - B2R fM_PI) <= 4).
  { rewrite W. fold r0. apply Rabs_le. lra. }
  destruct (fsub_R F64 (fcvt F64 mo) fM_PI Fw M_PI_fin) as [Ew Fsub].
  { apply Rle_trans with (1 := B64). change 4 with (bpow radix2 2). apply bpow_le. cbn. lia. }
  rewrite W in Ew, B64. fold r0 in Ew, B64.
  set (w := fsub (fcvt F64 mo) fM_PI) in *.
  assert (Aw : Rabs (B2R w) <= 4).
  { rewrite Ew. change 4 with (bpow radix2 2). apply rnd_abs_le; [unfold femin; cbn; lia|]. exact B64. }
  destruct (fcvt_R F64 p w Fsub) as [Er Fr].
  { apply Rle_trans with (1 := Aw). change 4 with (bpow radix2 2). apply bpow_le. destruct p; cbn; lia. }
  split; [exact Fr|].
  assert (EW : Rabs (B2R w - (r0 - B2R fM_PI)) <= fu F64 * 4).
  { rewrite Ew. pose proof (rnd_add_err F64 r0 (- B2R fM_PI)) as Q.
    change (r0 - B2R fM_PI) with (r0 + - B2R fM_PI). eapply Rle_trans; [apply Q|].
    - apply (fmt_widen p). apply fmt_B2R.
    - apply fmt_opp. apply (fmt_B2R F64).
    - apply Rmult_le_compat_l; [lra|exact B64]. }
  assert (ER : Rabs (B2R (fcvt p w) - B2R w) <= u * 4 + u / 1000).
  { rewrite Er. destruct (rnd_err p (B2R w)) as (eps & eta & E1 & E2 & E3). rewrite E3.
    replace (B2R w * (1 + eps) + eta - B2R w) with (eps * B2R w + eta) by ring.
    apply Rle_trans with (1 := Rabs_triang _ _). rewrite Rabs_mult. apply Rplus_le_compat.
    - apply Rmult_le_compat; try apply Rabs_pos; assumption.
    - apply Rle_trans with (1 := E2). apply Rle_trans with (1 := h_small p). pose proof (fu_small F64). nra. }
  pose proof (Rle_abs (B2R w - (r0 - B2R fM_PI))) as W1. pose proof (Rle_abs (- (B2R w - (r0 - B2R fM_PI)))) as W2. rewrite Rabs_Ropp in W2.
  split; [split|split].
  - rewrite Er. rewrite <- rnd_pi, <- rnd_opp. apply rnd_le. rewrite Ew. apply rnd_ge_fmt; [apply fmt_opp, (fmt_B2R F64)|lra].
  - destruct (Rle_or_lt (B2R (fcvt p w)) (piT p)) as [|C]; [assumption|exfalso].
    pose proof (fmt_gap p (piT p) (B2R (fcvt p w)) (fmt_B2R p _) (fmt_B2R p _) ltac:(lra)) as G. fold u in G.
    assert (N : Rabs (B2R (fcvt p w) - B2R w) <= Rabs (piT p - B2R w)).
    { rewrite Er. destruct (round_N_pt radix2 (ffexp p) (fun x => negb (Z.even x)) (B2R w)) as [_ N]. exact (N (piT p) (fmt_B2R p _)). }
    pose proof (Rle_abs (B2R (fcvt p w) - B2R w)) as N1.
    assert (L : B2R w <= piT p + (piT p - B2R fM_PI)).
    { destruct p.
      - pose proof (fu_val F64) as V. lra || idtac.
        rewrite Ew. apply rnd_le_fmt; [|lra].
        rewrite M_PI_val, piT_val. clear. replace (IZR 13176795 * / IZR (2 ^ 22) + (IZR 13176795 * / IZR (2 ^ 22) - IZR 7074237752028440 * / IZR (2 ^ 51))) with (IZR (2 * 13176795 * 2 ^ 29 - 7074237752028440) * bpow radix2 (-51)).
        + apply fmt_multiple; [unfold femin; cbn; lia|]. cbn. rewrite Rabs_pos_eq by lra. lra.
        + cbn. lra.
      - rewrite Ew. apply rnd_le_fmt; [|].
        + rewrite M_PI_val, piT_val, Rminus_diag_eq, Rplus_0_r by reflexivity. rewrite <- M_PI_val. apply (fmt_B2R F64).
        + lra. }
    destruct (Rle_or_lt (B2R w) (piT p)) as [L2|L2].
    + assert (B2R (fcvt p w) <= piT p); [|lra]. rewrite Er. apply rnd_le_fmt; [apply fmt_B2R|exact L2].
    + rewrite (Rabs_left (piT p - B2R w)) in N by lra.
      assert (314 / 100 * u <= u * piT p) by nra. lra.
  - intro Q. specialize (M2 Q).
    apply Rle_lt_trans with (2 := piPred_lt p). rewrite Er. apply rnd_le_fmt; [apply piPred_fmt|].
    rewrite Ew. apply rnd_le_fmt; [apply (fmt_widen p), piPred_fmt|].
    apply piPred_bound. fold u.
    destruct (Rle_lt_or_eq_dec 0 r0 (proj1 M1)) as [Z|Z].
    + assert (Ft : ffmt p (2 * piT p)) by (rewrite <- ftwopi_val; apply fmt_B2R).
      pose proof (fmt_gap p r0 (2 * piT p) (fmt_B2R p mo) Ft (Logic.conj Z M2)) as G. fold u in G. lra.
    + rewrite <- Z. lra.
  - exists k.
    pose proof (mod_2pi p sr r0 k _ M1 Mk (Rle_refl _)) as K. fold u in K.
    set (err := 4 * u * (Rabs sr + 2 * piT p)) in *.
    assert (Herr : err <= 4 * u * ((1 + u) * (Rabs ar + piT p) + 2 * piT p)) by (unfold err; apply Rmult_le_compat_l; lra).
    set (b := Rabs ar) in *. set (d := fu F64) in *.
    replace (B2R (fcvt p w) - (ar - 2 * IZR k * PI)) with
      ((B2R (fcvt p w) - B2R w) + ((B2R w - (r0 - B2R fM_PI)) + ((r0 - (sr - IZR k * (2 * piT p))) + ((sr - (ar + piT p)) + ((piT p - B2R fM_PI) + 2 * IZR k * (PI - piT p)))))) by ring.
    apply Rle_trans with ((u * 4 + u / 1000) + (d * 4 + (err + (u * (b + piT p) + (3 / 2 * u + u * (Rabs sr / 2 + 33 / 10)))))).
    { repeat (apply Rle_trans with (1 := Rabs_triang _ _); apply Rplus_le_compat; [assumption|]).
      apply Rle_trans with (1 := Rabs_triang _ _). apply Rplus_le_compat; [|exact K]. rewrite Rabs_pos_eq by lra. lra. }
    assert (X1 : u * (Rabs sr) <= u * (1001 / 1000 * (b + 315 / 100))).
    { apply Rmult_le_compat_l; [lra|]. apply Rle_trans with (1 := As). apply Rmult_le_compat; lra. }
    assert (X2 : u * piT p <= u * (315 / 100)) by (apply Rmult_le_compat_l; lra).
    assert (X3 : 0 <= u * b) by nra.
    unfold err. lra.
Qed.

Lemma wrapTwoPI_ok p ev (a : fl p) : is_finite a = true -> Rabs (B2R a) <= bpow radix2 (fprec p - 2) ->
  let r := fwrapTwoPI ev a in
  is_finite r = true /\ 0 <= B2R r <= 2 * piT p /\ (ev <> FloorDouble \/ p = F64 -> B2R r < 2 * piT p) /\
  exists k : Z, Rabs (B2R r - (B2R a - 2 * IZR k * PI)) <= 8 * fu p * (Rabs (B2R a) + 8).
Proof.
  intros Fa Ha. cbv zeta. unfold fwrapTwoPI. fold (ftwopi p).
  destruct (s_bounds p (B2R a) Ha) as (S1 & S2 & S3 & S4).
  pose proof (pi_consts p) as (P1 & P2 & P3 & P4 & P5 & P6). pose proof (fu_pos p) as U0. pose proof (fu_small p) as U1.
  set (ar := B2R a) in *. set (u := fu p) in *. assert (A0 : 0 <= Rabs ar) by apply Rabs_pos.
  assert (HR : in_range p ar (B2R (ftwopi p))).
  { rewrite ftwopi_val. unfold in_range. rewrite (Rabs_pos_eq (2 * piT p)) by lra. 
    assert (Rabs ar <= (1 + u) * (Rabs ar + piT p)) by nra. repeat split; lra. }
  destruct (fmodulo_ok p ev a (ftwopi p) Fa (ftwopi_fin p) HR) as (Fm & Mp & _ & k & Mk).
  destruct Mp as [M1 M2]; [rewrite ftwopi_val; lra|]. rewrite ftwopi_val in M1, M2, Mk. rewrite (Rabs_pos_eq (2 * piT p)) in Mk by lra.
  fold ar in Mk. fold u in Mk. split; [exact Fm|]. split; [exact M1|]. split; [exact M2|]. exists k.
  set (r0 := B2R (fmodulo ev a (ftwopi p))) in *.
  pose proof (mod_2pi p ar r0 k _ M1 Mk (Rle_refl _)) as K. fold u in K.
  replace (r0 - (ar - 2 * IZR k * PI)) with ((r0 - (ar - IZR k * (2 * piT p))) + 2 * IZR k * (PI - piT p)) by ring.
  apply Rle_trans with (1 := Rabs_triang _ _).
  assert (X2 : u * piT p <= u * (315 / 100)) by (apply Rmult_le_compat_l; lra).
  assert (X3 : 0 <= u * Rabs ar) by nra. lra.
Qed.
