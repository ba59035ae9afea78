(** Claims about getUnique() of the Euler angle classes in floating-point arithmetic (C77). *)
From Coq Require Import ZArith Reals Lra Psatz Bool List Lia.
From Flocq Require Import IEEE754.BinarySingleNaN Core.Core.
From Verif Require Import Linalg Spec SpecFacts SpecClose ModelCommon ModelEigen CommonFacts CloseFacts EulerFacts PiBounds
  FloatModel FloatFacts FloatModel2 SpecFloatQ FloatQFacts FloatQProd FloatQHist FloatQRot FloatModulo FloatWrap FloatCast FloatModel3 FloatModel4 FloatModel7 FloatModel8 FloatBuild FloatBox FloatModel9 SpecUnique FloatUnique.
Import ListNotations.
Local Open Scope R_scope.

Lemma wrap_error_pos p t : 0 <= wrap_error p t.
Proof. unfold wrap_error. rewrite !roundoff_fu. pose proof (Rabs_pos t). pose proof (fu_pos p). pose proof (fu_pos F64). assert (0 <= 8 * fu F64 * (Rabs t + 8)) by (apply Rmult_le_pos; lra). lra. Qed.

(** C77: getUnique() of EulerAnglesZyx and EulerAnglesXyz, for float and double and
    angles up to 2^51, when the middle angle is further than 1e-3 (plus the error of
    its wrap) from every odd multiple of pi/2: the first and last angle are in
    [-pi,pi], the middle one is in [-pi/2,pi/2], up to the rounding of pi, and the
    rotation changes by at most [euler_error]. *)
Lemma C77_clear_lemma : forall (p : prim) (ev : evaluation) (a b c x y z : fl p),
  is_finite a = true -> is_finite b = true -> is_finite c = true ->
  Rabs (B2R a) <= 2 ^ 51 -> Rabs (B2R b) <= 2 ^ 51 -> Rabs (B2R c) <= 2 ^ 51 ->
  (forall s k, s = 1 \/ s = -1 -> pitch_off (B2R b) s k > / 1000 + wrap_error p (B2R b) + 2 * roundoff F64) ->
  feuler_unique ev a b c = (x, y, z) ->
  is_finite x = true /\ is_finite y = true /\ is_finite z = true /\
  Rabs (B2R x) <= B2R (fcvt p fM_PI) /\ Rabs (B2R z) <= B2R (fcvt p fM_PI) /\ Rabs (B2R y) <= PI/2 - / 1000 + 10 * roundoff p /\
  close (euler_error p (B2R a) (B2R b) (B2R c)) (zyx_rot (mkZyx (B2R x) (B2R y) (B2R z))) (zyx_rot (mkZyx (B2R a) (B2R b) (B2R c))) /\
  close (euler_error p (B2R a) (B2R b) (B2R c)) (xyz_rot (mkXyz (B2R x) (B2R y) (B2R z))) (xyz_rot (mkXyz (B2R a) (B2R b) (B2R c))).
Proof.
  intros p ev a b c x y z Fa Fb Fc Ha Hb Hc CL E.
  assert (B51 : 2 ^ 51 = bpow radix2 51) by (cbn; lra). rewrite B51 in Ha, Hb, Hc.
  destruct (feuler_unique_spec p ev a b c Fa Fb Fc Ha Hb Hc) as (x' & y' & z' & E' & Fx & Fy & Fz & H). rewrite E in E'. injection E' as <- <- <-.
  split; [exact Fx|]. split; [exact Fy|]. split; [exact Fz|]. rewrite !roundoff_fu in *.
  destruct H as [(x0 & y0 & z0 & [SZ SX] & DX & DY & DZ & BX & BZ & BY & _)|(s & k & x0 & z0 & S & P & _)].
  - split; [exact BX|]. split; [exact BZ|]. split; [exact BY|]. unfold euler_error. rewrite roundoff_fu. split.
    + rewrite <- SZ. eapply close_mono; [|apply zyx_close; eassumption]. lra.
    + rewrite <- SX. eapply close_mono; [|apply xyz_close; eassumption]. lra.
  - exfalso. specialize (CL s k S). lra.
Qed.

(** C77: EulerAnglesXyz::getUnique() of any finite triple changes the rotation by at
    most 0.002 plus the roundings; *)
Lemma C77_xyz_lemma : forall (p : prim) (ev : evaluation) (a b c x y z : fl p),
  is_finite a = true -> is_finite b = true -> is_finite c = true ->
  Rabs (B2R a) <= 2 ^ 51 -> Rabs (B2R b) <= 2 ^ 51 -> Rabs (B2R c) <= 2 ^ 51 ->
  feuler_unique ev a b c = (x, y, z) ->
  is_finite x = true /\ is_finite y = true /\ is_finite z = true /\
  Rabs (B2R x) <= 2 * B2R (fcvt p fM_PI) /\ Rabs (B2R z) <= B2R (fcvt p fM_PI) /\ Rabs (B2R y) <= PI/2 + / 1000 + 10 * roundoff p /\
  close (2 / 1000 + euler_error p (B2R a) (B2R b) (B2R c)) (xyz_rot (mkXyz (B2R x) (B2R y) (B2R z))) (xyz_rot (mkXyz (B2R a) (B2R b) (B2R c))).
Proof.
  intros p ev a b c x y z Fa Fb Fc Ha Hb Hc E.
  assert (B51 : 2 ^ 51 = bpow radix2 51) by (cbn; lra). rewrite B51 in Ha, Hb, Hc.
  destruct (feuler_unique_spec p ev a b c Fa Fb Fc Ha Hb Hc) as (x' & y' & z' & E' & Fx & Fy & Fz & H). rewrite E in E'. injection E' as <- <- <-.
  split; [exact Fx|]. split; [exact Fy|]. split; [exact Fz|]. pose proof (pi_consts p) as (_ & _ & _ & P4 & P5 & _). pose proof (fu_pos p) as U. pose proof (fu_pos F64) as U6. unfold euler_error. rewrite !roundoff_fu in *. pose proof PI_RGT_0.
  change (B2R (fcvt p fM_PI)) with (piT p).
  destruct H as [(x0 & y0 & z0 & [SZ SX] & DX & DY & DZ & BX & BZ & BY & _)|(s & k & x0 & z0 & S & P & SA & SC & DX & BX & BY & DY & Z0)].
  - split; [lra|]. split; [exact BZ|]. split; [lra|]. rewrite <- SX. eapply close_mono; [|apply xyz_close; eassumption]. lra.
  - split; [exact BX|]. split; [rewrite Z0; change (B2R (@fzero p)) with 0; rewrite Rabs_R0; lra|]. split.
    { replace (B2R y) with ((B2R y - s * (PI/2)) + s * (PI/2)) by ring. eapply Rle_trans; [apply Rabs_triang|]. replace (Rabs (s * (PI/2))) with (PI/2) by (destruct S; subst s; unfold Rabs; destruct (Rcase_abs _); lra). lra. }
    rewrite Z0. change (B2R (@fzero p)) with 0.
    assert (C1 : close (wrap_error p (B2R a) + wrap_error p (B2R c) + 8 * fu p + (/ 1000 + 2 * fu F64) + 0) (xyz_rot (mkXyz (B2R x) (B2R y) 0)) (xyz_rot (mkXyz (x0 + s * z0) (s * (PI/2)) 0))).
    { apply xyz_close; [exact DX|exact BY|]. rewrite Rminus_0_r, Rabs_R0. lra. }
    rewrite xyz_lock in C1 by exact S.
    assert (C2 : close (0 + (/ 1000 + wrap_error p (B2R b) + 2 * fu F64) + 0) (xyz_rot (mkXyz (B2R a) (B2R b) (B2R c))) (xyz_rot (mkXyz (B2R a) (s * (PI/2) + 2 * PI * IZR k) (B2R c)))).
    { apply xyz_close; [rewrite Rminus_eq_0, Rabs_R0; lra|exact P|rewrite Rminus_eq_0, Rabs_R0; lra]. }
    assert (EQ : xyz_rot (mkXyz x0 (s * (PI/2)) z0) = xyz_rot (mkXyz (B2R a) (s * (PI/2) + 2 * PI * IZR k) (B2R c))).
    { apply same_euler_turns; [exact SA| |exact SC]. exists (- k)%Z. rewrite opp_IZR. ring. }
    rewrite EQ in C1. eapply close_mono; [|eapply close_trans; [exact C1|apply close_sym, C2]]. lra.
Qed.
(** and at distance d of the middle angle from an odd multiple of pi/2 the change is
    at most 2 d plus the roundings. *)
Lemma C77_xyz_lock_lemma : forall (p : prim) (ev : evaluation) (a b c x y z : fl p) (s : R) (k : Z),
  is_finite a = true -> is_finite b = true -> is_finite c = true ->
  Rabs (B2R a) <= 2 ^ 51 -> Rabs (B2R b) <= 2 ^ 51 -> Rabs (B2R c) <= 2 ^ 51 -> s = 1 \/ s = -1 ->
  feuler_unique ev a b c = (x, y, z) ->
  close (2 * pitch_off (B2R b) s k + 2 * euler_error p (B2R a) (B2R b) (B2R c)) (xyz_rot (mkXyz (B2R x) (B2R y) (B2R z))) (xyz_rot (mkXyz (B2R a) (B2R b) (B2R c))).
Proof.
  intros p ev a b c x y z s k Fa Fb Fc Ha Hb Hc S E.
  assert (B51 : 2 ^ 51 = bpow radix2 51) by (cbn; lra). rewrite B51 in Ha, Hb, Hc.
  destruct (feuler_unique_spec p ev a b c Fa Fb Fc Ha Hb Hc) as (x' & y' & z' & E' & Fx & Fy & Fz & H). rewrite E in E'. injection E' as <- <- <-.
  pose proof (pi_consts p) as (_ & _ & _ & P4 & P5 & _). pose proof (fu_pos p) as U. pose proof (fu_pos F64) as U6. pose proof (fu_24 p) as V. pose proof (wrap_error_pos p (B2R a)) as WA. pose proof (wrap_error_pos p (B2R b)) as WB. pose proof (wrap_error_pos p (B2R c)) as WC.
  assert (PO : 0 <= pitch_off (B2R b) s k) by apply Rabs_pos.
  unfold euler_error. rewrite !roundoff_fu in *. pose proof FloatExt2.PI_num as PN.
  destruct H as [(x0 & y0 & z0 & [SZ SX] & DX & DY & DZ & _)|(s' & k' & x0 & z0 & S' & P & SA & SC & DX & BX & BY & DY & Z0)].
  - rewrite <- SX. eapply close_mono; [|apply xyz_close; eassumption]. lra.
  - destruct (Rle_or_lt 1 (wrap_error p (B2R b))) as [BIG|SMALL]. { eapply close_mono; [|apply close_2; apply xyz_rot_SO3]. lra. }
    destruct (Rle_or_lt 1 (pitch_off (B2R b) s k)) as [FAR|NEAR]. { eapply close_mono; [|apply close_2; apply xyz_rot_SO3]. lra. }
    assert (KK : s' = s /\ k' = k).
    { unfold pitch_off in P, NEAR. assert (D : Rabs ((s' - s) * (PI/2) + 2 * PI * (IZR k' - IZR k)) < 21/10).
      { replace ((s' - s) * (PI/2) + 2 * PI * (IZR k' - IZR k)) with (- (B2R b - (s' * (PI/2) + 2 * PI * IZR k')) + (B2R b - (s * (PI/2) + 2 * PI * IZR k))) by ring. eapply Rle_lt_trans; [apply Rabs_triang|]. rewrite Rabs_Ropp. lra. }
      rewrite <- minus_IZR in D. set (j := (k' - k)%Z) in *. assert (J : j = 0%Z \/ 1 <= IZR j \/ IZR j <= -1).
      { destruct (Z_lt_le_dec j 0) as [A|A]; [right; right; apply (IZR_le j (-1)); lia|]. destruct (Z.eq_dec j 0) as [B|B]; [now left|right; left; apply (IZR_le 1); lia]. }
      destruct J as [J|J].
      - rewrite J in D. split; [|unfold j in J; lia]. destruct S, S'; subst s s'; try reflexivity; exfalso; revert D; unfold Rabs; destruct (Rcase_abs _); lra.
      - exfalso. assert (J2 : PI <= PI * IZR j \/ PI * IZR j <= - PI). { destruct J as [J|J]; [left|right]; [replace PI with (PI * 1) at 1 by ring|replace (- PI) with (PI * -1) by ring]; apply Rmult_le_compat_l; lra. }
        replace (2 * PI * IZR j) with (2 * (PI * IZR j)) in D by ring. set (q := PI * IZR j) in *. revert D. unfold Rabs. destruct (Rcase_abs _); destruct S, S'; subst s s'; destruct J2; lra. }
    destruct KK as [-> ->]. set (d := pitch_off (B2R b) s k) in *.
    rewrite Z0. change (B2R (@fzero p)) with 0.
    assert (BY2 : Rabs (B2R y - s * (PI/2)) <= d + wrap_error p (B2R b)).
    { unfold d, pitch_off. replace (B2R y - s * (PI/2)) with ((B2R y - (B2R b - 2 * PI * IZR k)) + (B2R b - (s * (PI/2) + 2 * PI * IZR k))) by ring. eapply Rle_trans; [apply Rabs_triang|]. lra. }
    assert (C1 : close (wrap_error p (B2R a) + wrap_error p (B2R c) + 8 * fu p + (d + wrap_error p (B2R b)) + 0) (xyz_rot (mkXyz (B2R x) (B2R y) 0)) (xyz_rot (mkXyz (x0 + s * z0) (s * (PI/2)) 0))).
    { apply xyz_close; [exact DX|exact BY2|]. rewrite Rminus_0_r, Rabs_R0. lra. }
    rewrite xyz_lock in C1 by exact S.
    assert (C2 : close (0 + d + 0) (xyz_rot (mkXyz (B2R a) (B2R b) (B2R c))) (xyz_rot (mkXyz (B2R a) (s * (PI/2) + 2 * PI * IZR k) (B2R c)))).
    { apply xyz_close; [rewrite Rminus_eq_0, Rabs_R0; lra|unfold d, pitch_off; lra|rewrite Rminus_eq_0, Rabs_R0; lra]. }
    assert (EQ : xyz_rot (mkXyz x0 (s * (PI/2)) z0) = xyz_rot (mkXyz (B2R a) (s * (PI/2) + 2 * PI * IZR k) (B2R c))).
    { apply same_euler_turns; [exact SA| |exact SC]. exists (- k)%Z. rewrite opp_IZR. ring. }
    rewrite EQ in C1. eapply close_mono; [|eapply close_trans; [exact C1|apply close_sym, C2]]. lra.
Qed.

(** C77: EulerAnglesZyx::getUnique() near gimbal lock: within 1e-3 of s pi/2 (s = +-1)
    the result is the input turned about the z axis by 2 s roll, up to 0.002 and
    roundings: the rotation is lost unless the roll is a multiple of pi. *)
Lemma C77_zyx_band_lemma : forall (p : prim) (ev : evaluation) (a b c x y z : fl p) (s : R) (k : Z),
  is_finite a = true -> is_finite b = true -> is_finite c = true ->
  Rabs (B2R a) <= 2 ^ 51 -> Rabs (B2R b) <= 2 ^ 51 -> Rabs (B2R c) <= 2 ^ 51 -> s = 1 \/ s = -1 ->
  pitch_off (B2R b) s k <= / 1000 - wrap_error p (B2R b) - 2 * roundoff F64 ->
  feuler_unique ev a b c = (x, y, z) ->
  z = fzero /\ close (2 / 1000 + euler_error p (B2R a) (B2R b) (B2R c)) (zyx_rot (mkZyx (B2R x) (B2R y) (B2R z))) (mmul (Rot_z (2 * s * B2R c)) (zyx_rot (mkZyx (B2R a) (B2R b) (B2R c)))).
Proof.
  intros p ev a b c x y z s k Fa Fb Fc Ha Hb Hc S IN E.
  assert (B51 : 2 ^ 51 = bpow radix2 51) by (cbn; lra). rewrite B51 in Ha, Hb, Hc.
  destruct (feuler_unique_spec p ev a b c Fa Fb Fc Ha Hb Hc) as (x' & y' & z' & E' & Fx & Fy & Fz & H). rewrite E in E'. injection E' as <- <- <-.
  pose proof (pi_consts p) as (_ & _ & _ & P4 & P5 & _). pose proof (fu_pos p) as U. pose proof (fu_pos F64) as U6. pose proof (fu_24 p) as V. pose proof (wrap_error_pos p (B2R a)) as WA. pose proof (wrap_error_pos p (B2R b)) as WB. pose proof (wrap_error_pos p (B2R c)) as WC.
  assert (PO : 0 <= pitch_off (B2R b) s k) by apply Rabs_pos.
  unfold euler_error. rewrite !roundoff_fu in *. pose proof FloatExt2.PI_num as PN.
  destruct H as [(x0 & y0 & z0 & _ & _ & _ & _ & _ & _ & _ & OUT)|(s' & k' & x0 & z0 & S' & P & SA & SC & DX & BX & BY & DY & Z0)].
  { exfalso. specialize (OUT s k S). lra. }
  split; [exact Z0|].
  assert (KK : s' = s /\ k' = k).
  { unfold pitch_off in P, IN. assert (D : Rabs ((s' - s) * (PI/2) + 2 * PI * (IZR k' - IZR k)) < 21/10).
    { replace ((s' - s) * (PI/2) + 2 * PI * (IZR k' - IZR k)) with (- (B2R b - (s' * (PI/2) + 2 * PI * IZR k')) + (B2R b - (s * (PI/2) + 2 * PI * IZR k))) by ring. eapply Rle_lt_trans; [apply Rabs_triang|]. rewrite Rabs_Ropp. lra. }
    rewrite <- minus_IZR in D. set (j := (k' - k)%Z) in *. assert (J : j = 0%Z \/ 1 <= IZR j \/ IZR j <= -1).
    { destruct (Z_lt_le_dec j 0) as [A|A]; [right; right; apply (IZR_le j (-1)); lia|]. destruct (Z.eq_dec j 0) as [B|B]; [now left|right; left; apply (IZR_le 1); lia]. }
    destruct J as [J|J].
    - rewrite J in D. split; [|unfold j in J; lia]. destruct S, S'; subst s s'; try reflexivity; exfalso; revert D; unfold Rabs; destruct (Rcase_abs _); lra.
    - exfalso. assert (J2 : PI <= PI * IZR j \/ PI * IZR j <= - PI). { destruct J as [J|J]; [left|right]; [replace PI with (PI * 1) at 1 by ring|replace (- PI) with (PI * -1) by ring]; apply Rmult_le_compat_l; lra. }
      replace (2 * PI * IZR j) with (2 * (PI * IZR j)) in D by ring. set (q := PI * IZR j) in *. revert D. unfold Rabs. destruct (Rcase_abs _); destruct S, S'; subst s s'; destruct J2; lra. }
  destruct KK as [-> ->]. rewrite Z0. change (B2R (@fzero p)) with 0.
  assert (C1 : close (wrap_error p (B2R a) + wrap_error p (B2R c) + 8 * fu p + (/ 1000 + 2 * fu F64) + 0) (zyx_rot (mkZyx (B2R x) (B2R y) 0)) (zyx_rot (mkZyx (x0 + s * z0) (s * (PI/2)) 0))).
  { apply zyx_close; [exact DX|exact BY|]. rewrite Rminus_0_r, Rabs_R0. lra. }
  rewrite zyx_lock in C1 by exact S.
  assert (C2 : close (0 + (/ 1000) + 0) (zyx_rot (mkZyx (B2R a) (B2R b) (B2R c))) (zyx_rot (mkZyx (B2R a) (s * (PI/2) + 2 * PI * IZR k) (B2R c)))).
  { apply zyx_close; [rewrite Rminus_eq_0, Rabs_R0; lra|unfold pitch_off in IN; lra|rewrite Rminus_eq_0, Rabs_R0; lra]. }
  assert (EQ : zyx_rot (mkZyx x0 (s * (PI/2)) z0) = zyx_rot (mkZyx (B2R a) (s * (PI/2) + 2 * PI * IZR k) (B2R c))).
  { apply same_euler_turns; [exact SA| |exact SC]. exists (- k)%Z. rewrite opp_IZR. ring. }
  rewrite EQ in C1. assert (RZ : Rot_z (2 * s * z0) = Rot_z (2 * s * B2R c)).
  { apply Rot_z_same. destruct SC as [j SC]. destruct S; subst s; [exists (2 * j)%Z|exists (-2 * j)%Z]; rewrite SC, mult_IZR; ring. }
  rewrite RZ in C1. eapply close_mono; [|eapply close_trans; [exact C1|apply close_mul_l; [apply Rot_z_SO3|apply close_sym, C2]]]. lra.
Qed.
(** the smallest case: yaw 0, pitch and roll the number nearest to pi/2: the rotation
    changes by (almost) half a turn, for float and double. *)
Lemma half_pi_val p : is_finite (fcvt p fhalf_pi) = true /\ Rabs (B2R (fcvt p fhalf_pi) - PI/2) <= / 10 ^ 7.
Proof.
  pose proof PI_close as [A B]. destruct p; (split; [vm_compute; reflexivity|]).
  - rewrite (B2R_of_SF F32 _ false 13176795 (-23)) by (vm_compute; reflexivity). unfold F2R; cbn [Fnum Fexp SpecFloat.cond_Zopp]. change (bpow radix2 (-23)) with (/ IZR (2 ^ 23)). revert A B. zlit. intros A B. apply Rabs_le. lra.
  - rewrite (B2R_of_SF F64 _ false 7074237752028440 (-52)) by (vm_compute; reflexivity). unfold F2R; cbn [Fnum Fexp SpecFloat.cond_Zopp]. change (bpow radix2 (-52)) with (/ IZR (2 ^ 52)). revert A B. zlit. intros A B. apply Rabs_le. lra.
Qed.
Lemma wrap_error_small p t : Rabs t <= 1000 -> wrap_error p t <= / 1000000.
Proof.
  intro H. unfold wrap_error. rewrite !roundoff_fu. pose proof (fu_24 p) as V. pose proof (fu_pos p). assert (W : fu F64 <= / 1000000000000000). { rewrite fu_val. zlit. lra. }
  pose proof (fu_pos F64). assert (8 * fu F64 * (Rabs t + 8) <= 8 * fu F64 * 1008) by (apply Rmult_le_compat_l; lra). lra.
Qed.
Lemma C77_zyx_refuted_lemma : forall (p : prim) (ev : evaluation),
  let b := fcvt p fhalf_pi in
  exists x y z, feuler_unique ev fzero b b = (x, y, z) /\ is_finite b = true /\ Rabs (B2R b - PI/2) <= / 10 ^ 7 /\
    ~ close (19/10) (zyx_rot (mkZyx (B2R x) (B2R y) (B2R z))) (zyx_rot (mkZyx 0 (B2R b) (B2R b))).
Proof.
  intros p ev. cbv zeta. destruct (half_pi_val p) as [F V]. set (b := fcvt p fhalf_pi) in *. destruct (feuler_unique ev fzero b b) as [[x y] z] eqn:E. exists x, y, z.
  split; [reflexivity|]. split; [exact F|]. split; [exact V|]. intro C. pose proof FloatExt2.PI_num as PN. pose proof (fu_24 p) as V24. pose proof (fu_pos p) as U. pose proof (u64_le p) as U6. pose proof (fu_pos F64) as U0.
  apply Rabs_both in V. assert (AB : Rabs (B2R b) <= 1000) by (apply Rabs_le; lra). pose proof (wrap_error_small p _ AB) as W. assert (W0 : wrap_error p 0 <= / 1000000) by (apply wrap_error_small; rewrite Rabs_R0; lra).
  assert (P51 : 1000 <= 2 ^ 51) by (cbn; lra).
  assert (H0 : Rabs (B2R (@fzero p)) <= 2 ^ 51) by (change (B2R (@fzero p)) with 0; rewrite Rabs_R0; lra). assert (HB : Rabs (B2R b) <= 2 ^ 51) by lra.
  assert (IN : pitch_off (B2R b) 1 0 <= / 1000 - wrap_error p (B2R b) - 2 * roundoff F64).
  { rewrite roundoff_fu. unfold pitch_off. apply Rle_trans with (/ 10 ^ 7); [|lra]. apply Rabs_le. lra. }
  assert (FZ : is_finite (@fzero p) = true) by reflexivity.
  pose proof (proj2 (C77_zyx_band_lemma p ev fzero b b x y z 1 0%Z FZ F F H0 HB HB (or_introl eq_refl) IN E)) as D.
  change (B2R (@fzero p)) with 0 in D. set (r := zyx_rot (mkZyx 0 (B2R b) (B2R b))) in *.
  assert (SR : SO3 r) by apply zyx_rot_SO3.
  assert (CC : close (191/100) (Rot_z (2 * B2R b)) mid).
  { replace (Rot_z (2 * B2R b)) with (mmul (mmul (Rot_z (2 * B2R b)) r) (mtrans r)) by (rewrite <- mmul_assoc, SO3_inv_r by exact SR; apply mmul_id_r).
    rewrite <- (SO3_inv_r r SR). apply close_mul_r; [apply SO3_trans, SR|]. replace (2 * 1 * B2R b) with (2 * B2R b) in D by ring.
    eapply close_mono; [|eapply close_trans; [apply close_sym, D|exact C]]. unfold euler_error. rewrite !roundoff_fu. lra. }
  specialize (CC (mkV3 1 0 0)). assert (N1 : vnorm (mkV3 1 0 0) = 1) by (unfold vnorm, vnorm2, vdot; cbn [Linalg.vx Linalg.vy Linalg.vz]; replace (1 * 1 + 0 * 0 + 0 * 0) with 1 by ring; apply sqrt_1).
  rewrite N1, Rmult_1_r in CC. set (v := vsub (mvmul (Rot_z (2 * B2R b)) (mkV3 1 0 0)) (mvmul mid (mkV3 1 0 0))) in *.
  assert (N2 : vnorm2 v = 2 - 2 * cos (2 * B2R b)).
  { unfold v, Rot_z. lin_unfold. pose proof (sin2_cos2 (2 * B2R b)) as SC. unfold Rsqr in SC. nra. }
  assert (VN : vnorm v * vnorm v = vnorm2 v) by (unfold vnorm; apply sqrt_sqrt; rewrite N2; pose proof (COS_bound (2 * B2R b)); lra).
  assert (SQ : vnorm2 v <= 191/100 * (191/100)). { rewrite <- VN. assert (0 <= vnorm v) by apply sqrt_pos. apply Rmult_le_compat; lra. }
  assert (CS : cos (2 * B2R b) = - cos (2 * B2R b - PI)). { unfold Rminus. rewrite cos_plus, cos_neg, sin_neg, cos_PI, sin_PI. ring. }
  pose proof (one_minus_cos (2 * B2R b - PI)) as OM. assert ((2 * B2R b - PI) * (2 * B2R b - PI) <= / 1000). { set (e := 2 * B2R b - PI) in *. assert (Rabs e <= / 1000) by (apply Rabs_le; unfold e; lra). pose proof (Rabs_pos e). pose proof (Rle_abs (e * e)) as RA. rewrite Rabs_mult in RA. assert (Rabs e * Rabs e <= / 1000 * 1) by (apply Rmult_le_compat; lra). lra. }
  lra.
Qed.

(** Examples: pitch 3 (beyond pi/2), yaw 100, roll -5. *)
Lemma fofZ_vals p : B2R (fofZ p 3) = 3 /\ B2R (fofZ p 100) = 100 /\ B2R (fofZ p (-5)) = -5 /\ is_finite (fofZ p 3) = true /\ is_finite (fofZ p 100) = true /\ is_finite (fofZ p (-5)) = true.
Proof.
  destruct p.
  - rewrite (B2R_of_SF F32 (fofZ F32 3) false 12582912 (-22)), (B2R_of_SF F32 (fofZ F32 100) false 13107200 (-17)), (B2R_of_SF F32 (fofZ F32 (-5)) true 10485760 (-21)) by (vm_compute; reflexivity).
    unfold F2R; cbn [Fnum Fexp SpecFloat.cond_Zopp Z.opp]. change (bpow radix2 (-22)) with (/ IZR (2 ^ 22)). change (bpow radix2 (-17)) with (/ IZR (2 ^ 17)). change (bpow radix2 (-21)) with (/ IZR (2 ^ 21)). zlit. repeat split; try lra; vm_compute; reflexivity.
  - rewrite (B2R_of_SF F64 (fofZ F64 3) false 6755399441055744 (-51)), (B2R_of_SF F64 (fofZ F64 100) false 7036874417766400 (-46)), (B2R_of_SF F64 (fofZ F64 (-5)) true 5629499534213120 (-50)) by (vm_compute; reflexivity).
    unfold F2R; cbn [Fnum Fexp SpecFloat.cond_Zopp Z.opp]. change (bpow radix2 (-51)) with (/ IZR (2 ^ 51)). change (bpow radix2 (-46)) with (/ IZR (2 ^ 46)). change (bpow radix2 (-50)) with (/ IZR (2 ^ 50)). zlit. repeat split; try lra; vm_compute; reflexivity.
Qed.
Lemma pitch_three s k : s = 1 \/ s = -1 -> 1 <= pitch_off 3 s k.
Proof.
  intro S. pose proof FloatExt2.PI_num as PN. unfold pitch_off.
  destruct (Z_lt_le_dec k 1) as [A|A].
  - destruct (Z_lt_le_dec k 0) as [B|B].
    + assert (K : IZR k <= -1) by (apply (IZR_le k (-1)); lia). assert (PI * IZR k <= PI * -1) by (apply Rmult_le_compat_l; lra). replace (2 * PI * IZR k) with (2 * (PI * IZR k)) by ring. unfold Rabs. destruct (Rcase_abs _); destruct S; subst s; lra.
    + assert (k = 0%Z) by lia. subst k. unfold Rabs. destruct (Rcase_abs _); destruct S; subst s; lra.
  - assert (K : 1 <= IZR k) by (apply (IZR_le 1); lia). assert (PI * 1 <= PI * IZR k) by (apply Rmult_le_compat_l; lra). replace (2 * PI * IZR k) with (2 * (PI * IZR k)) by ring. unfold Rabs. destruct (Rcase_abs _); destruct S; subst s; lra.
Qed.
Lemma C77_clear_ex : forall p : prim, let a := fofZ p 100 in let b := fofZ p 3 in let c := fofZ p (-5) in
  is_finite a = true /\ is_finite b = true /\ is_finite c = true /\ Rabs (B2R a) <= 2 ^ 51 /\ Rabs (B2R b) <= 2 ^ 51 /\ Rabs (B2R c) <= 2 ^ 51 /\
  (forall s k, s = 1 \/ s = -1 -> pitch_off (B2R b) s k > / 1000 + wrap_error p (B2R b) + 2 * roundoff F64) /\ euler_error p (B2R a) (B2R b) (B2R c) <= / 100000.
Proof.
  intro p. cbv zeta. destruct (fofZ_vals p) as (-> & -> & -> & F3 & F100 & F5). assert (P51 : 1000 <= 2 ^ 51) by (cbn; lra). pose proof (fu_24 p) as V. pose proof (u64_le p) as U6.
  assert (A3 : Rabs 3 <= 1000) by (apply Rabs_le; lra). assert (A100 : Rabs 100 <= 1000) by (apply Rabs_le; lra). assert (A5 : Rabs (-5) <= 1000) by (apply Rabs_le; lra).
  pose proof (wrap_error_small p _ A3). pose proof (wrap_error_small p _ A100). pose proof (wrap_error_small p _ A5). repeat split; try assumption; try lra.
  - intros s k S. pose proof (pitch_three s k S). rewrite roundoff_fu. lra.
  - unfold euler_error. rewrite roundoff_fu. lra.
Qed.
Lemma C77_xyz_ex : forall p : prim, is_finite (fofZ p 100) = true /\ Rabs (B2R (fofZ p 100)) <= 2 ^ 51.
Proof. intro p. destruct (C77_clear_ex p) as (A & _ & _ & B & _). split; assumption. Qed.
Lemma C77_xyz_lock_ex : forall p : prim, is_finite (fcvt p fhalf_pi) = true /\ pitch_off (B2R (fcvt p fhalf_pi)) 1 0 <= / 10 ^ 7.
Proof. intro p. destruct (half_pi_val p) as [F V]. split; [exact F|]. unfold pitch_off. replace (1 * (PI/2) + 2 * PI * 0) with (PI/2) by ring. exact V. Qed.
Lemma C77_zyx_band_ex : forall p : prim, let b := fcvt p fhalf_pi in pitch_off (B2R b) 1 0 <= / 1000 - wrap_error p (B2R b) - 2 * roundoff F64.
Proof.
  intro p. cbv zeta. destruct (C77_xyz_lock_ex p) as [_ A]. eapply Rle_trans; [exact A|]. destruct (half_pi_val p) as [_ V]. pose proof FloatExt2.PI_num as PN. apply Rabs_both in V.
  assert (B : Rabs (B2R (fcvt p fhalf_pi)) <= 1000) by (apply Rabs_le; lra). pose proof (wrap_error_small p _ B). rewrite roundoff_fu. pose proof (fu_24 F64). lra.
Qed.
