(** C50 (wrapping in floating point), C51 (AngleAxis::getUnique in floating
    point). *)
From Coq Require Import ZArith Reals Lra Psatz Bool Lia List.
From Flocq Require Import IEEE754.BinarySingleNaN Core.Core.
From Verif Require Import ModelCommon PiBounds FloatModel FloatFacts FloatModulo FloatWrap.
Import ListNotations.
Local Open Scope R_scope.

(** ** C50 *)

(** C50: for every pair of finite numbers of type T (float or double) with
    y <> 0 and |x| <= 2^(prec-2) |y| (and both below a quarter of the overflow
    threshold), whichever way the compiler evaluates the expression:
    floatingPointModulo(x,y) is finite, lies in [0,y] resp. [y,0], excludes the
    end y unless T = float and floor is the double one, and differs from
    x - k*y, for some integer k, by at most 4 roundoffs of |x|+|y|. *)
Lemma C50_modulo_lemma : forall (p : prim) (ev : evaluation) (x y : fl p),
  is_finite x = true -> is_finite y = true -> B2R y <> 0 ->
  Rabs (B2R x) <= bpow radix2 (fprec p - 2) * Rabs (B2R y) ->
  Rabs (B2R x) <= bpow radix2 (femax p - 3) -> Rabs (B2R y) <= bpow radix2 (femax p - 3) ->
  let r := fmodulo ev x y in
  is_finite r = true /\
  (0 < B2R y -> 0 <= B2R r <= B2R y) /\ (B2R y < 0 -> B2R y <= B2R r <= 0) /\
  (ev <> FloorDouble \/ p = F64 -> B2R r <> B2R y) /\
  exists k : Z, Rabs (B2R r - (B2R x - IZR k * B2R y)) <= 4 * bpow radix2 (- fprec p) * (Rabs (B2R x) + Rabs (B2R y)).
Proof.
  intros p ev x y Fx Fy Y0 H1 H2 H3 r.
  destruct (fmodulo_ok p ev x y Fx Fy) as (F & Mp & Mn & K); [repeat split; assumption|].
  fold r in F, Mp, Mn, K. split; [exact F|]. split; [intro H; apply Mp, H|]. split; [intro H; apply Mn, H|]. split; [|exact K].
  intro Q. destruct (Rtotal_order (B2R y) 0) as [L|[L|L]]; [|contradiction|].
  - pose proof (proj2 (Mn L) Q). lra.
  - pose proof (proj2 (Mp L) Q). lra.
Qed.
Lemma C50_modulo_ex : let x := fofZ F64 17 in let y := fofZ F64 (-5) in
  is_finite x = true /\ is_finite y = true /\ B2R y <> 0 /\ Rabs (B2R x) <= bpow radix2 (fprec F64 - 2) * Rabs (B2R y) /\
  Rabs (B2R x) <= bpow radix2 (femax F64 - 3) /\ Rabs (B2R y) <= bpow radix2 (femax F64 - 3) /\ B2SF (fmodulo InType x y) = B2SF (fofZ F64 (-3)).
Proof.
  assert (X : B2R (fofZ F64 17) = 17). { rewrite (B2R_of_SF F64 _ false 4785074604081152 (-48)) by (vm_compute; reflexivity). unfold F2R. cbn. lra. }
  assert (Y : B2R (fofZ F64 (-5)) = -5). { rewrite (B2R_of_SF F64 _ true 5629499534213120 (-50)) by (vm_compute; reflexivity). unfold F2R. cbn. lra. }
  cbv zeta. rewrite X, Y, (Rabs_pos_eq 17), (Rabs_left (-5)) by lra.
  assert (B : 32 <= bpow radix2 (femax F64 - 3)) by (change 32 with (bpow radix2 5); apply bpow_le; cbn; lia).
  split; [reflexivity|]. split; [reflexivity|]. split; [lra|]. split; [cbn; lra|]. split; [lra|]. split; [lra|]. vm_compute. reflexivity.
Qed.

(** C50: wrapPosNegPI, for every finite angle up to 2^(prec-2) (4.2e6 for
    float, 2.2e15 for double): in [-T(pi), T(pi)] where T(pi) is M_PI converted
    to T; T(pi) itself excluded (same proviso); a multiple of the true 2 pi away
    from the angle, up to 8 roundoffs of |angle|+8. *)
Lemma C50_wrapPosNegPI_lemma : forall (p : prim) (ev : evaluation) (a : fl p),
  is_finite a = true -> Rabs (B2R a) <= bpow radix2 (fprec p - 2) ->
  let r := fwrapPosNegPI ev a in
  is_finite r = true /\ - B2R (fcvt p fM_PI) <= B2R r <= B2R (fcvt p fM_PI) /\
  (ev <> FloorDouble \/ p = F64 -> B2R r < B2R (fcvt p fM_PI)) /\
  exists k : Z, Rabs (B2R r - (B2R a - 2 * IZR k * PI)) <= 8 * bpow radix2 (- fprec p) * (Rabs (B2R a) + 8).
Proof. exact wrapPosNegPI_ok. Qed.
(** T(pi) is the nearest number of the type to pi; for double it is just below
    pi and for float just above. *)
Lemma C50_pi_lemma : B2R (fcvt F32 fM_PI) = 13176795 / 2 ^ 22 /\ B2R (fcvt F64 fM_PI) = 7074237752028440 / 2 ^ 51 /\
  PI < B2R (fcvt F32 fM_PI) <= PI + 9 / 10 ^ 8 /\ B2R (fcvt F64 fM_PI) < PI <= B2R (fcvt F64 fM_PI) + 13 / 10 ^ 17.
Proof.
  pose proof PI_close as [A B]. pose proof (piT_val F32) as X. pose proof (piT_val F64) as Y. unfold piT in X, Y. rewrite X, Y. zlit.
  repeat split; lra.
Qed.
Lemma C50_wrapPosNegPI_ex : let a := fofZ F64 1000 in is_finite a = true /\ Rabs (B2R a) <= bpow radix2 (fprec F64 - 2) /\
  B2R (fwrapPosNegPI InType a) = 8768834160816032 / 2 ^ 53.
Proof.
  assert (X : B2R (fofZ F64 1000) = 1000). { rewrite (B2R_of_SF F64 _ false 8796093022208000 (-43)) by (vm_compute; reflexivity). unfold F2R. cbn. lra. }
  cbv zeta. rewrite X, Rabs_pos_eq by lra. split; [reflexivity|]. split; [cbn; lra|].
  rewrite (B2R_of_SF F64 _ false 8768834160816032 (-53)) by (vm_compute; reflexivity). unfold F2R. cbn. lra.
Qed.

(** C50: wrapTwoPI likewise, in [0, 2 T(pi)]. *)
Lemma C50_wrapTwoPI_lemma : forall (p : prim) (ev : evaluation) (a : fl p),
  is_finite a = true -> Rabs (B2R a) <= bpow radix2 (fprec p - 2) ->
  let r := fwrapTwoPI ev a in
  is_finite r = true /\ 0 <= B2R r <= 2 * B2R (fcvt p fM_PI) /\
  (ev <> FloorDouble \/ p = F64 -> B2R r < 2 * B2R (fcvt p fM_PI)) /\
  exists k : Z, Rabs (B2R r - (B2R a - 2 * IZR k * PI)) <= 8 * bpow radix2 (- fprec p) * (Rabs (B2R a) + 8).
Proof. exact wrapTwoPI_ok. Qed.
Lemma C50_wrapTwoPI_ex : let a := fofZ F64 1000 in is_finite a = true /\ Rabs (B2R a) <= bpow radix2 (fprec F64 - 2) /\
  B2R (fwrapTwoPI InType a) = 8768834160816128 / 2 ^ 53.
Proof.
  assert (X : B2R (fofZ F64 1000) = 1000). { rewrite (B2R_of_SF F64 _ false 8796093022208000 (-43)) by (vm_compute; reflexivity). unfold F2R. cbn. lra. }
  cbv zeta. rewrite X, Rabs_pos_eq by lra. split; [reflexivity|]. split; [cbn; lra|].
  rewrite (B2R_of_SF F64 _ false 8768834160816128 (-53)) by (vm_compute; reflexivity). unfold F2R. cbn. lra.
Qed.

(** C50: wrapAngle(a,x1,x2), for x1 < x2 as computed: the result is never below
    x1, and at most x2 when x2-x1 is representable; the end x2 is not always
    excluded (C50_wrapAngle_end_refuted). *)
Lemma C50_wrapAngle_lemma : forall (p : prim) (ev : evaluation) (a x1 x2 : fl p),
  is_finite a = true -> is_finite x1 = true -> is_finite x2 = true -> B2R x1 < B2R x2 ->
  Rabs (B2R a) <= bpow radix2 (femax p - 5) -> Rabs (B2R x1) <= bpow radix2 (femax p - 5) -> Rabs (B2R x2) <= bpow radix2 (femax p - 5) ->
  Rabs (B2R a - B2R x1) <= bpow radix2 (fprec p - 4) * (B2R x2 - B2R x1) ->
  let r := fwrapAngle ev a x1 x2 in
  is_finite r = true /\ B2R x1 <= B2R r /\
  (generic_format radix2 (FLT_exp (3 - femax p - fprec p) (fprec p)) (B2R x2 - B2R x1) -> B2R r <= B2R x2) /\
  exists k : Z, Rabs (B2R r - (B2R a - IZR k * (B2R x2 - B2R x1))) <=
    bpow radix2 (- fprec p) * (8 * Rabs (B2R a - B2R x1) + 8 * (B2R x2 - B2R x1) + 2 * Rabs (B2R x1)).
Proof.
  intros p ev a x1 x2 Fa F1 F2 L Ba B1 B2 HR r.
  pose proof (fu_pos p) as U0. pose proof (fu_small p) as U1.
  assert (Big : 4 * bpow radix2 (femax p - 5) = bpow radix2 (femax p - 3)).
  { change 4 with (bpow radix2 2). rewrite <- bpow_plus. f_equal. ring. }
  assert (Big2 : 16 * bpow radix2 (femax p - 5) = fbig p).
  { unfold fbig. change 16 with (bpow radix2 4). rewrite <- bpow_plus. f_equal. ring. }
  set (G := bpow radix2 (femax p - 5)) in *. assert (G0 : 0 < G) by apply bpow_gt_0.
  set (ar := B2R a) in *. set (r1 := B2R x1) in *. set (r2 := B2R x2) in *.
  assert (TA : Rabs (ar - r1) <= 2 * G). { apply Rle_trans with (1 := Rabs_triang _ _). rewrite Rabs_Ropp. lra. }
  assert (TB : Rabs (r2 - r1) <= 2 * G). { apply Rle_trans with (1 := Rabs_triang _ _). rewrite Rabs_Ropp. lra. }
  destruct (fsub_R p a x1 Fa F1) as [Ex Fx]; [fold ar r1; lra|]. fold ar r1 in Ex.
  destruct (fsub_R p x2 x1 F2 F1) as [Ey Fy]; [fold r2 r1; lra|]. fold r2 r1 in Ey.
  pose proof (rnd_add_err p ar (- r1) (fmt_B2R p a) (fmt_opp _ _ (fmt_B2R p x1))) as Qx.
  pose proof (rnd_add_err p r2 (- r1) (fmt_B2R p x2) (fmt_opp _ _ (fmt_B2R p x1))) as Qy.
  change (ar + - r1) with (ar - r1) in Qx. change (r2 + - r1) with (r2 - r1) in Qy. rewrite <- Ex in Qx. rewrite <- Ey in Qy.
  set (x := fsub a x1) in *. set (y := fsub x2 x1) in *. set (xr := B2R x) in *. set (yr := B2R y) in *.
  rewrite (Rabs_pos_eq (r2 - r1)) in Qy by lra. set (d := r2 - r1) in *. assert (D0 : 0 < d) by (unfold d; lra).
  assert (TD : d <= 2 * G) by (rewrite Rabs_pos_eq in TB; lra).
  set (u := fu p) in *. set (w := Rabs (ar - r1)) in *. assert (W0 : 0 <= w) by apply Rabs_pos.
  pose proof (Rle_abs (yr - d)) as Y1. pose proof (Rle_abs (- (yr - d))) as Y2. rewrite Rabs_Ropp in Y2.
  assert (UD : u * d <= d / 1000) by nra. assert (UW : u * w <= w / 1000) by nra.
  assert (X1 : Rabs xr <= w + u * w).
  { replace xr with ((xr - (ar - r1)) + (ar - r1)) by ring. apply Rle_trans with (1 := Rabs_triang _ _). fold w. lra. }
  assert (Y0 : 0 < yr) by lra. assert (Ay : Rabs yr = yr) by (apply Rabs_pos_eq; lra).
  assert (BP : bpow radix2 (fprec p - 2) = 4 * bpow radix2 (fprec p - 4)).
  { change 4 with (bpow radix2 2). rewrite <- bpow_plus. f_equal. ring. }
  set (K := bpow radix2 (fprec p - 4)) in *. assert (K0 : 0 < K) by apply bpow_gt_0.
  assert (IR : in_range p xr yr).
  { unfold in_range. rewrite Ay, BP, <- Big. split; [lra|]. split; [|lra].
    assert (K * d <= K * (2 * yr)) by (apply Rmult_le_compat_l; lra). lra. }
  destruct (fmodulo_ok p ev x y Fx Fy IR) as (Fm & Mp & _ & k & Mk). fold yr in Mp. destruct (Mp Y0) as [[M0 M1] _]. fold xr yr in Mk.
  rewrite Ay in Mk. fold u in Mk.
  set (mo := fmodulo ev x y) in *. set (m := B2R mo) in *.
  assert (Tm : Rabs (m + r1) <= fbig p). { apply Rle_trans with (1 := Rabs_triang _ _). rewrite Rabs_pos_eq by exact M0. lra. }
  destruct (fadd_R p mo x1 Fm F1 Tm) as [Er Fr]. fold m r1 in Er.
  split; [exact Fr|]. unfold r, fwrapAngle. fold x y mo. rewrite Er.
  split; [apply rnd_ge_fmt; [apply fmt_B2R|lra]|].
  split.
  - intro Hd. assert (E : yr = d). { rewrite Ey. apply rnd_id. exact Hd. }
    apply rnd_le_fmt; [apply fmt_B2R|]. unfold d in E. fold r2. lra.
  - exists k. pose proof (rnd_add_err p m r1 (fmt_B2R p mo) (fmt_B2R p x1)) as Qr. fold u in Qr.
    change (bpow radix2 (- fprec p)) with u.
    replace (rnd p (m + r1) - (ar - IZR k * d)) with
      ((rnd p (m + r1) - (m + r1)) + ((m - (xr - IZR k * yr)) + ((xr - (ar - r1)) + IZR k * (d - yr)))) by ring.
    assert (Kb : Rabs (IZR k) * yr <= Rabs xr + yr + 4 * u * (Rabs xr + yr)).
    { replace (Rabs (IZR k) * yr) with (Rabs ((m - (xr - IZR k * yr)) + (xr - m))).
      - apply Rle_trans with (1 := Rabs_triang _ _).
        assert (Rabs (xr - m) <= Rabs xr + yr). { apply Rle_trans with (1 := Rabs_triang _ _). rewrite Rabs_Ropp, (Rabs_pos_eq m) by exact M0. lra. }
        lra.
      - replace (m - (xr - IZR k * yr) + (xr - m)) with (IZR k * yr) by ring. rewrite Rabs_mult, Ay. reflexivity. }
    set (kk := Rabs (IZR k)) in *. assert (0 <= kk) by apply Rabs_pos.
    set (ax := Rabs xr) in *. assert (0 <= ax) by apply Rabs_pos.
    assert (UX : 4 * u * (ax + yr) <= 4 / 1000 * (ax + yr)) by nra.
    assert (Kd : kk * (u * d) <= u * (11 / 10 * (w + d))).
    { assert (kk * d <= 11 / 10 * (w + d)); [|nra].
      assert (kk * (d * (999 / 1000)) <= kk * yr) by (apply Rmult_le_compat_l; lra). lra. }
    assert (Mr : u * Rabs (m + r1) <= u * (d + d / 1000 + Rabs r1)).
    { apply Rmult_le_compat_l; [lra|]. apply Rle_trans with (1 := Rabs_triang _ _). rewrite (Rabs_pos_eq m) by exact M0. lra. }
    assert (Mx : 4 * u * (ax + yr) <= 4 * u * (w + d + (w + d) / 1000)) by (apply Rmult_le_compat_l; lra).
    apply Rle_trans with (1 := Rabs_triang _ _).
    apply Rle_trans with (u * Rabs (m + r1) + (4 * u * (ax + yr) + (u * w + kk * (u * d)))).
    + apply Rplus_le_compat; [exact Qr|]. apply Rle_trans with (1 := Rabs_triang _ _). apply Rplus_le_compat; [exact Mk|].
      apply Rle_trans with (1 := Rabs_triang _ _). apply Rplus_le_compat; [exact Qx|]. rewrite Rabs_mult. apply Rmult_le_compat_l; [assumption|].
      rewrite Rabs_minus_sym. exact Qy.
    + assert (0 <= u * w) by nra. assert (0 < u * d) by nra. assert (0 <= u * Rabs r1) by (apply Rmult_le_pos; [lra|apply Rabs_pos]). lra.
Qed.
Lemma C50_wrapAngle_ex : B2SF (fwrapAngle InType (fofZ F64 17) (fofZ F64 (-3)) (fofZ F64 4)) = B2SF (fofZ F64 3).
Proof. vm_compute. reflexivity. Qed.

Lemma widen_finite p s m e H : exists m' e' H', fcvt F64 (B754_finite s m e H : fl p) = B754_finite s m' e' H'.
Proof.
  destruct (widen_R p (B754_finite s m e H)) as [W F]. cbn [is_finite] in F. cbn [B2R] in W.
  destruct (fcvt F64 (B754_finite s m e H : fl p)) as [s'|s'| |s' m' e' H'] eqn:E; try discriminate F.
  - exfalso. cbn [B2R] in W. destruct s; unfold F2R in W; cbn [Fnum Fexp cond_Zopp Z.opp] in W;
    pose proof (bpow_gt_0 radix2 e); [assert (IZR (Z.neg m) < 0) by (apply IZR_lt; lia)|assert (0 < IZR (Z.pos m)) by (apply IZR_lt; lia)]; nra.
  - replace s' with s in *; [now exists m', e', H'|].
    cbn [B2R] in W. destruct s, s'; try reflexivity; exfalso; unfold F2R in W; cbn [Fnum Fexp cond_Zopp Z.opp] in W;
    pose proof (bpow_gt_0 radix2 e); pose proof (bpow_gt_0 radix2 e').
    + assert (IZR (Z.neg m) < 0) by (apply IZR_lt; lia). assert (0 < IZR (Z.pos m')) by (apply IZR_lt; lia). nra.
    + assert (IZR (Z.neg m') < 0) by (apply IZR_lt; lia). assert (0 < IZR (Z.pos m)) by (apply IZR_lt; lia). nra.
Qed.
(** C50: if an argument is NaN or infinite (and the modulus is not zero) the
    result is NaN, never an arbitrary number. *)
Lemma C50_nonfinite_lemma : forall (p : prim) (ev : evaluation) (x y : fl p),
  is_finite x = false \/ is_finite y = false -> B2SF y <> SpecFloat.S754_zero false -> B2SF y <> SpecFloat.S754_zero true ->
  fmodulo ev x y = B754_nan.
Proof.
  intros p ev x y H N1 N2.
  assert (M : fmodulo_m ev x y = B754_nan).
  { destruct x as [sx|sx| |sx mx ex Hx], y as [sy|sy| |sy my ey Hy]; cbn in H; try (exfalso; destruct H; discriminate);
    try (exfalso; destruct sy; [apply N2|apply N1]; reflexivity); destruct ev; try reflexivity; try (destruct sx, sy; reflexivity);
    unfold fmodulo_m.
    all: try (destruct (widen_finite p sy my ey Hy) as (m' & e' & H' & ->)).
    all: try (destruct (widen_finite p sx mx ex Hx) as (m' & e' & H' & ->)).
    all: try reflexivity; try (destruct sx, sy; reflexivity); try (destruct sx; reflexivity); try (destruct sy; reflexivity). }
  unfold fmodulo. rewrite M.
  replace (feq (fcvt F64 y) fzero) with false.
  - destruct (flt fzero y); destruct (fcvt F64 y) as [s|[|]| |[|] m e He]; reflexivity.
  - destruct y as [sy|[|]| |sy my ey Hy]; try reflexivity.
    + exfalso; destruct sy; [apply N2|apply N1]; reflexivity.
    + destruct (widen_finite p sy my ey Hy) as (m' & e' & H' & ->). destruct sy; reflexivity.
Qed.
Lemma C50_nonfinite_ex : fwrapTwoPI InType (B754_infinity false : fl F32) = B754_nan /\ fwrapPosNegPI Fused (B754_nan : fl F64) = B754_nan.
Proof. split; reflexivity. Qed.

(** C50 fails for arguments beyond the proved bound: wrapTwoPI of the double
    114787470635671232 (1.1e17) is -9.7..., not in [0, 2 pi); and
    floatingPointModulo(1e300,1e-300) is minus infinity. *)
Lemma C50_huge_refuted_lemma : (forall ev, ev <> Fused -> B2R (fwrapTwoPI ev (fofZ F64 114787470635671232)) = - (5470080378726772 / 2 ^ 49)) /\
  B2R (fofZ F64 114787470635671232) = 114787470635671232 /\
  fmodulo InType (fofZ F64 (10 ^ 300)) (fdiv (fofZ F64 1) (fofZ F64 (10 ^ 300))) = B754_infinity true.
Proof.
  split; [|split].
  - intros [| |] N; [| |congruence]; rewrite (B2R_of_SF F64 _ true 5470080378726772 (-49)) by (vm_compute; reflexivity); unfold F2R; cbn; lra.
  - rewrite (B2R_of_SF F64 _ false 7174216914729452 4) by (vm_compute; reflexivity). unfold F2R. cbn. lra.
  - vm_compute. reflexivity.
Qed.
(** C50, end of the range: with the double floor, wrapTwoPI of the float -1e-10
    is 2 T(pi), which is not in [0, 2 pi); with a float floor it is 0. *)
Lemma C50_float_end_refuted_lemma : fwrapTwoPI FloorDouble (flit F32 (-1) (10 ^ 10)) = fcvt F32 (fmul (fofZ F64 2) fM_PI) /\
  fwrapTwoPI InType (flit F32 (-1) (10 ^ 10)) = fzero.
Proof. split; [apply B2SF_inj|]; vm_compute; reflexivity. Qed.
(** C50, wrapAngle: the end x2 can be returned: wrapAngle(1-2^-53, 1, 2) = 2. *)
Lemma C50_wrapAngle_end_refuted_lemma : forall ev, fwrapAngle ev (fsub (fofZ F64 1) (fdiv (fofZ F64 1) (fofZ F64 (2 ^ 53)))) (fofZ F64 1) (fofZ F64 2) = fofZ F64 2.
Proof. intros [| |]; apply B2SF_inj; vm_compute; reflexivity. Qed.

(** ** C51 *)

(** C51: no float, promoted to double, equals -M_PI: the half-turn test of
    AngleAxis<float>::getUnique never succeeds. *)
Lemma C51_dead_branch_lemma : forall a : fl F32, feq (fcvt F64 a) (fneg fM_PI) = false.
Proof.
  intro a. destruct (is_finite a) eqn:F.
  - destruct (widen_R F32 a) as [W Fw]. rewrite F in Fw. destruct (fneg_R F64 fM_PI) as [N Fn].
    rewrite (feq_R F64) by (try exact Fw; rewrite Fn; reflexivity).
    rewrite W, N. apply Req_bool_false. intro E.
    pose proof (fmt_opp _ _ (fmt_B2R F32 a)) as G. rewrite E, Ropp_involutive in G.
    pose proof (rnd_id F32 _ G) as R. rewrite rnd_pi, piT_val, M_PI_val in R. zlit. lra.
  - destruct a as [s|[|]| |s m e H]; try discriminate F; reflexivity.
Qed.
(** C51: so at a half turn the float version flips the axis every time, whatever
    the axis: it is not idempotent and (pi,n), (pi,-n) keep two unique forms. *)
Lemma C51_float_half_turn_lemma : forall (ev : evaluation) (n : fl F32 * fl F32 * fl F32),
  fgetUnique ev (fcvt F32 fM_PI, n) = (fcvt F32 fM_PI, fneg3 n) /\
  fgetUnique ev (fgetUnique ev (fcvt F32 fM_PI, n)) = (fcvt F32 fM_PI, n).
Proof.
  assert (H : forall ev (n : fl F32 * fl F32 * fl F32), fgetUnique ev (fcvt F32 fM_PI, n) = (fcvt F32 fM_PI, fneg3 n)).
  { intros ev n. unfold fgetUnique.
    replace (fwrapPosNegPI ev (fcvt F32 fM_PI)) with (fneg (fcvt F32 fM_PI)).
    - replace (flt fzero (fneg (fcvt F32 fM_PI))) with false by (vm_compute; reflexivity).
      replace (flt (fneg (fcvt F32 fM_PI)) fzero) with true by (vm_compute; reflexivity).
      rewrite C51_dead_branch_lemma. cbn [negb]. reflexivity.
    - apply B2SF_inj. destruct ev; vm_compute; reflexivity. }
  intros ev n. split; [apply H|]. rewrite !H. destruct n as [[a b] c]. unfold fneg3, fneg. now rewrite !Bopp_involutive.
Qed.
Definition feq3 {p} (u v : fl p * fl p * fl p) : bool :=
  match u, v with (a, b, c), (a', b', c') => (feq a a' && feq b b' && feq c c')%bool end.
Lemma feq_refl' p (a : fl p) : is_nan a = false -> feq a a = true.
Proof.
  intro N. unfold feq. destruct a as [s|[|]| |s m e H]; try discriminate N; try reflexivity.
  rewrite Beqb_correct by reflexivity. now apply Req_bool_true.
Qed.
Lemma flt_fneg_l p (a : fl p) : flt (fneg a) fzero = flt fzero a.
Proof. destruct a as [[|]|[|]| |[|] m e H]; reflexivity. Qed.
Lemma flt_fneg_r p (a : fl p) : flt fzero (fneg a) = flt a fzero.
Proof. destruct a as [[|]|[|]| |[|] m e H]; reflexivity. Qed.
Lemma fneg_zero_eq p (a : fl p) : is_nan a = false -> flt a fzero = false -> flt fzero a = false -> feq a (fneg a) = true /\ feq (fneg a) a = true.
Proof. destruct a as [[|]|[|]| |[|] m e H]; cbn; intros; try discriminate; split; reflexivity. Qed.
(** C51: the double version treats (pi,n) and (pi,-n) alike: equal unique forms
    (as == compares them) for every axis without NaN, and the unique form of
    the half turn is a fixed point. *)
Lemma C51_double_half_turn_lemma : forall (ev : evaluation) (n : fl F64 * fl F64 * fl F64),
  (match n with (a, b, c) => is_nan a = false /\ is_nan b = false /\ is_nan c = false end) ->
  let f := fgetUnique ev (fM_PI, n) in let g := fgetUnique ev (fM_PI, fneg3 n) in
  fst f = fM_PI /\ fst g = fM_PI /\ feq3 (snd f) (snd g) = true /\ (snd f = n \/ snd f = fneg3 n) /\ fgetUnique ev f = f.
Proof.
  assert (H : forall ev n, fgetUnique ev (fM_PI, n) = match n with (v0, v1, v2) =>
      if flt v0 fzero then (fM_PI, fneg3 n)
      else if flt fzero v0 then (fM_PI, n)
      else if flt v1 fzero then (fM_PI, fneg3 n)
      else if flt fzero v1 then (fM_PI, n)
      else if flt v2 fzero then (fM_PI, fneg3 n)
      else (fM_PI, n) end).
  { intros ev n. unfold fgetUnique.
    replace (fwrapPosNegPI ev fM_PI) with (fneg fM_PI) by (apply B2SF_inj; destruct ev; vm_compute; reflexivity).
    replace (flt fzero (fneg fM_PI)) with false by (vm_compute; reflexivity).
    replace (flt (fneg fM_PI) fzero) with true by (vm_compute; reflexivity).
    rewrite fcvt_id. replace (feq (fneg fM_PI) (fneg fM_PI)) with true by (vm_compute; reflexivity). cbn [negb].
    replace (fneg (fneg fM_PI)) with fM_PI by (unfold fneg; now rewrite Bopp_involutive). reflexivity. }
  intros ev [[a b] c] (Na & Nb & Nc). cbv zeta. rewrite !H. cbn [fneg3]. rewrite !flt_fneg_l, !flt_fneg_r.
  assert (INV : forall x : fl F64, fneg (fneg x) = x) by (intro x; unfold fneg; apply Bopp_involutive).
  assert (Ne : forall x : fl F64, is_nan (fneg x) = is_nan x) by (intro x; apply is_nan_Bopp).
  assert (EX : forall x : fl F64, flt x fzero = true -> flt fzero x = false) by (intros [[|]|[|]| |[|] m e E]; cbn; congruence).
  destruct (flt a fzero) eqn:A1; [rewrite (EX a A1)|destruct (flt fzero a) eqn:A2].
  3: destruct (flt b fzero) eqn:B1; [rewrite (EX b B1)|destruct (flt fzero b) eqn:B2].
  5: destruct (flt c fzero) eqn:C1; [rewrite (EX c C1)|destruct (flt fzero c) eqn:C2].
  all: cbn [fst snd]; rewrite ?H; cbn [fneg3]; rewrite ?flt_fneg_l, ?flt_fneg_r, ?INV, ?A1, ?A2, ?B1, ?B2, ?C1, ?C2;
    try rewrite (EX a A1); try rewrite (EX b B1); try rewrite (EX c C1);
    (split; [reflexivity|]; split; [reflexivity|]; split; [|split; [tauto|reflexivity]]);
    unfold feq3; repeat (apply andb_true_intro; split);
    try (apply feq_refl'; rewrite ?Ne; assumption); try (apply fneg_zero_eq; assumption).
Qed.
Lemma C51_double_half_turn_ex : fgetUnique InType (fM_PI, (fofZ F64 0, fofZ F64 (-1), fofZ F64 0)) = (fM_PI, (fneg (fofZ F64 0), fofZ F64 1, fneg (fofZ F64 0))).
Proof.
  unfold fgetUnique.
  replace (fwrapPosNegPI InType fM_PI) with (fneg fM_PI) by (apply B2SF_inj; vm_compute; reflexivity).
  replace (fofZ F64 1) with (fneg (fofZ F64 (-1))) by (apply B2SF_inj; vm_compute; reflexivity).
  replace (fM_PI, (fneg (fofZ F64 0), fneg (fofZ F64 (-1)), fneg (fofZ F64 0))) with (fneg (fneg fM_PI), fneg3 (fofZ F64 0, fofZ F64 (-1), fofZ F64 0)).
  - vm_compute (flt _ _). reflexivity.
  - cbn [fneg3]. unfold fneg at 1 2. now rewrite Bopp_involutive.
Qed.

(** C51: for every finite angle up to 2^(prec-2), in float and in double, the
    unique angle is finite and in [0, T(pi)], and the pair is the same rotation
    up to rounding: for a sign s and an integer k the axis is s*axis and the
    angle s*(angle - 2 k pi) within 9 roundoffs of |angle|+8; or the result is
    the identity (0,(1,0,0)) and the angle is that close to a multiple of 2 pi. *)
Lemma C51_unique_lemma : forall (p : prim) (ev : evaluation) (a : fl p) (n : fl p * fl p * fl p),
  is_finite a = true -> Rabs (B2R a) <= bpow radix2 (fprec p - 2) ->
  let r := fgetUnique ev (a, n) in
  let bound := 9 * bpow radix2 (- fprec p) * (Rabs (B2R a) + 8) in
  is_finite (fst r) = true /\ 0 <= B2R (fst r) <= B2R (fcvt p fM_PI) /\
  exists k : Z,
    (0 < B2R (fst r) /\ snd r = n /\ Rabs (B2R (fst r) - (B2R a - 2 * IZR k * PI)) <= bound) \/
    (0 < B2R (fst r) /\ snd r = fneg3 n /\ Rabs (B2R (fst r) + (B2R a - 2 * IZR k * PI)) <= bound) \/
    (r = (fzero, (fofZ p 1, fzero, fzero)) /\ Rabs (B2R a - 2 * IZR k * PI) <= bound).
Proof.
  intros p ev a n Fa Ha r bound.
  destruct (wrapPosNegPI_ok p ev a Fa Ha) as (Fw & Rw & _ & k & Kw).
  pose proof (fu_pos p) as U0. change (bpow radix2 (- fprec p)) with (fu p) in bound.
  assert (B : 8 * fu p * (Rabs (B2R a) + 8) + 3 * fu p <= bound).
  { unfold bound. pose proof (Rabs_pos (B2R a)). nra. }
  unfold piT in Rw. unfold r, fgetUnique.
  set (w := fwrapPosNegPI ev a) in *.
  assert (Z0 : B2R (@fzero p) = 0 /\ is_finite (@fzero p) = true) by (split; reflexivity). destruct Z0 as [Z0 Fz].
  destruct (fneg_R p w) as [Nw Fn]. rewrite Fw in Fn.
  rewrite !(flt_R p) by assumption. rewrite Z0.
  destruct (Rlt_bool_spec 0 (B2R w)) as [P|P]; cbn [fst snd].
  - split; [exact Fw|]. split; [lra|]. exists k. left. split; [lra|]. split; [reflexivity|]. lra.
  - destruct (Rlt_bool_spec (B2R w) 0) as [Q|Q]; cbn [fst snd].
    + assert (Flip : forall axis', axis' = fneg3 n -> is_finite (fst (fneg w, axis')) = true /\ 0 <= B2R (fst (fneg w, axis')) <= B2R (fcvt p fM_PI) /\
        exists k : Z,
          (0 < B2R (fst (fneg w, axis')) /\ snd (fneg w, axis') = n /\ Rabs (B2R (fst (fneg w, axis')) - (B2R a - 2 * IZR k * PI)) <= bound) \/
          (0 < B2R (fst (fneg w, axis')) /\ snd (fneg w, axis') = fneg3 n /\ Rabs (B2R (fst (fneg w, axis')) + (B2R a - 2 * IZR k * PI)) <= bound) \/
          ((fneg w, axis') = (fzero, (fofZ p 1, fzero, fzero)) /\ Rabs (B2R a - 2 * IZR k * PI) <= bound)).
      { intros axis' E. cbn [fst snd]. rewrite Nw. split; [exact Fn|]. split; [lra|]. exists k. right. left. split; [lra|]. split; [exact E|].
        replace (- B2R w + (B2R a - 2 * IZR k * PI)) with (- (B2R w - (B2R a - 2 * IZR k * PI))) by ring. rewrite Rabs_Ropp. lra. }
      destruct (feq (fcvt F64 w) (fneg fM_PI)) eqn:E; cbn [negb]; [|now apply Flip].
      assert (Same : is_finite (fst (fneg w, n)) = true /\ 0 <= B2R (fst (fneg w, n)) <= B2R (fcvt p fM_PI) /\
        exists k : Z,
          (0 < B2R (fst (fneg w, n)) /\ snd (fneg w, n) = n /\ Rabs (B2R (fst (fneg w, n)) - (B2R a - 2 * IZR k * PI)) <= bound) \/
          (0 < B2R (fst (fneg w, n)) /\ snd (fneg w, n) = fneg3 n /\ Rabs (B2R (fst (fneg w, n)) + (B2R a - 2 * IZR k * PI)) <= bound) \/
          ((fneg w, n) = (fzero, (fofZ p 1, fzero, fzero)) /\ Rabs (B2R a - 2 * IZR k * PI) <= bound)).
      { destruct (widen_R p w) as [W FW]. rewrite Fw in FW. destruct (fneg_R F64 fM_PI) as [N Fn'].
        rewrite (feq_R F64) in E by (try exact FW; rewrite Fn'; reflexivity). rewrite W, N in E.
        assert (E' : B2R w = - B2R fM_PI) by (destruct (Req_bool_spec (B2R w) (- B2R fM_PI)); [assumption|discriminate]).
        cbn [fst snd]. rewrite Nw. split; [exact Fn|]. split; [lra|]. exists (k - 1)%Z. left. split; [lra|]. split; [reflexivity|].
        pose proof (pi_consts p) as (_ & _ & P3 & _).
        rewrite minus_IZR.
        replace (- B2R w - (B2R a - 2 * (IZR k - 1) * PI)) with ((B2R w - (B2R a - 2 * IZR k * PI)) + - (2 * (PI - B2R fM_PI))) by (rewrite E'; ring).
        apply Rle_trans with (1 := Rabs_triang _ _). rewrite Rabs_Ropp, (Rabs_pos_eq (2 * (PI - B2R fM_PI))) by lra. lra. }
      destruct n as [[v0 v1] v2]. cbn [fneg3] in Flip.
      destruct (flt v0 fzero); [now apply Flip|]. destruct (flt fzero v0); [exact Same|].
      destruct (flt v1 fzero); [now apply Flip|]. destruct (flt fzero v1); [exact Same|].
      destruct (flt v2 fzero); [now apply Flip|]. exact Same.
    + split; [reflexivity|]. split; [rewrite Z0; lra|]. exists k. right. right. split; [reflexivity|].
      assert (W0 : B2R w = 0) by lra. rewrite W0 in Kw. rewrite <- Rabs_Ropp.
      replace (- (B2R a - 2 * IZR k * PI)) with (0 - (B2R a - 2 * IZR k * PI)) by ring. lra.
Qed.
Lemma C51_unique_ex : is_finite (fofZ F32 5) = true /\ Rabs (B2R (fofZ F32 5)) <= bpow radix2 (fprec F32 - 2).
Proof.
  split; [reflexivity|]. rewrite (B2R_of_SF F32 _ false 10485760 (-21)) by (vm_compute; reflexivity). unfold F2R. cbn. rewrite Rabs_pos_eq; lra.
Qed.
