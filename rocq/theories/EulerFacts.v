(** * EulerFacts: getUnique of the Euler angle classes. *)
From Coq Require Import Reals Lra Psatz Bool.
From Verif Require Import Linalg Spec SpecFacts ModelCommon ModelEigen ModelRotation CommonFacts ConvFacts RVFacts Windows RotFacts UniqueFacts MetricFacts.
Local Open Scope R_scope.

Definition euler_range (v : V3) : Prop :=
  - PI <= vx v < PI /\ - (PI / 2) < vy v < PI / 2 /\ - PI <= vz v < PI.

Lemma Rabs_le_between' a b : Rabs a <= b -> - b <= a <= b.
Proof. unfold Rabs. destruct (Rcase_abs a); lra. Qed.

Lemma flip_range t : - PI <= t < PI -> - PI <= (if Rlt_dec t 0 then t + PI else t - PI) < PI.
Proof. intros H. pose proof PI_RGT_0. destruct (Rlt_dec t 0); lra. Qed.
Lemma flip_trig t : let f := if Rlt_dec t 0 then t + PI else t - PI in sin f = - sin t /\ cos f = - cos t.
Proof.
  cbv zeta. destruct (Rlt_dec t 0).
  - rewrite neg_sin, neg_cos. auto.
  - unfold Rminus. rewrite sin_plus, cos_plus, cos_neg, sin_neg, cos_PI, sin_PI. split; ring.
Qed.
Lemma sin_refl1 y : sin (- (y + PI)) = sin y /\ cos (- (y + PI)) = - cos y.
Proof. rewrite sin_neg, cos_neg, neg_sin, neg_cos. split; ring. Qed.
Lemma sin_refl2 y : sin (- (y - PI)) = sin y /\ cos (- (y - PI)) = - cos y.
Proof.
  rewrite sin_neg, cos_neg. unfold Rminus. rewrite sin_plus, cos_plus, sin_neg, cos_neg, sin_PI, cos_PI.
  split; ring.
Qed.

Lemma euler_unique_clear a b c : pitch_clear b ->
  let v := euler_unique a b c in
  euler_range v /\
  ((sin (vx v) = sin a /\ cos (vx v) = cos a /\ sin (vy v) = sin b /\ cos (vy v) = cos b /\
    sin (vz v) = sin c /\ cos (vz v) = cos c) \/
   (sin (vx v) = - sin a /\ cos (vx v) = - cos a /\ sin (vy v) = sin b /\ cos (vy v) = - cos b /\
    sin (vz v) = - sin c /\ cos (vz v) = - cos c)).
Proof.
  intros H v. unfold v, euler_unique, euler_range.
  change (floatingPointModulo (a + PI) (2 * PI) - PI) with (wrapPosNegPI a).
  change (floatingPointModulo (b + PI) (2 * PI) - PI) with (wrapPosNegPI b).
  change (floatingPointModulo (c + PI) (2 * PI) - PI) with (wrapPosNegPI c).
  pose proof (wrapPosNegPI_range a) as Ra. pose proof (same_angle_trig _ _ (wrapPosNegPI_same a)) as [Sa Ca].
  pose proof (wrapPosNegPI_range b) as Rb. pose proof (same_angle_trig _ _ (wrapPosNegPI_same b)) as [Sb Cb].
  pose proof (wrapPosNegPI_range c) as Rc. pose proof (same_angle_trig _ _ (wrapPosNegPI_same c)) as [Sc Cc].
  unfold pitch_clear in H.
  set (x := wrapPosNegPI a) in *. set (y := wrapPosNegPI b) in *. set (z := wrapPosNegPI c) in *.
  pose proof PI_RGT_0 as HP.
  assert (T : 0 < / 10 ^ 3) by (apply Rinv_0_lt_compat; lra). set (tol := / 10 ^ 3) in *.
  pose proof (flip_range x Ra) as Fx. pose proof (flip_range z Rc) as Fz.
  pose proof (flip_trig x) as [Fsx Fcx]. pose proof (flip_trig z) as [Fsz Fcz]. cbv zeta in *.
  assert (K : y < - PI/2 - tol \/ (- PI/2 + tol < y < PI/2 - tol) \/ PI/2 + tol < y).
  { unfold Rabs in H. destruct (Rcase_abs y) in H; destruct (Rcase_abs _) in H; lra. }
  unfold Rltb, Rleb.
  destruct (Rlt_dec y (- PI/2 - tol)) as [B1|B1].
  { cbn [vx vy vz]. pose proof (sin_refl1 y) as [E1 E2]. split; [lra|right].
    rewrite Fsx, Fcx, Fsz, Fcz, E1, E2, Sa, Ca, Sb, Cb, Sc, Cc. repeat split; reflexivity. }
  destruct K as [K|[K|K]]; [lra| |].
  - destruct (Rle_dec (- PI/2 - tol) y); [|lra]. destruct (Rle_dec y (- PI/2 + tol)); [lra|].
    destruct (Rlt_dec (- PI/2 + tol) y); [|lra]. destruct (Rlt_dec y (PI/2 - tol)); [|lra].
    cbn [andb vx vy vz]. split; [lra|left]. rewrite Sa, Ca, Sb, Cb, Sc, Cc. repeat split; reflexivity.
  - destruct (Rle_dec (- PI/2 - tol) y); [|lra]. destruct (Rle_dec y (- PI/2 + tol)); [lra|].
    destruct (Rlt_dec (- PI/2 + tol) y); [|lra]. destruct (Rlt_dec y (PI/2 - tol)); [lra|].
    destruct (Rle_dec (PI/2 - tol) y); [|lra]. destruct (Rle_dec y (PI/2 + tol)); [lra|].
    cbn [andb vx vy vz]. pose proof (sin_refl2 y) as [E1 E2]. split; [lra|right].
    rewrite Fsx, Fcx, Fsz, Fcz, E1, E2, Sa, Ca, Sb, Cb, Sc, Cc. repeat split; reflexivity.
Qed.

Lemma zyx_unique_clear e : pitch_clear (zpitch e) ->
  zyx_rot (zyx_unique e) = zyx_rot e /\
  euler_range (mkV3 (zyaw (zyx_unique e)) (zpitch (zyx_unique e)) (zroll (zyx_unique e))).
Proof.
  intros H. destruct e as [a b c]. pose proof (euler_unique_clear a b c H) as [R T].
  unfold zyx_unique; cbn [zyaw zpitch zroll]. cbv zeta in *.
  set (v := euler_unique a b c) in *. destruct v as [x y z]; cbn [vx vy vz] in *. cbn [zyaw zpitch zroll].
  split; [|exact R].
  destruct T as [(E1&E2&E3&E4&E5&E6)|(E1&E2&E3&E4&E5&E6)];
    unfold zyx_rot, Rot_z, Rot_y, Rot_x; cbn [zyaw zpitch zroll]; rewrite E1, E2, E3, E4, E5, E6; lin.
Qed.
Lemma xyz_unique_clear e : pitch_clear (xpitch e) ->
  xyz_rot (xyz_unique e) = xyz_rot e /\
  euler_range (mkV3 (xroll (xyz_unique e)) (xpitch (xyz_unique e)) (xyaw (xyz_unique e))).
Proof.
  intros H. destruct e as [a b c]. pose proof (euler_unique_clear a b c H) as [R T].
  unfold xyz_unique; cbn [xyaw xpitch xroll]. cbv zeta in *.
  set (v := euler_unique a b c) in *. destruct v as [x y z]; cbn [vx vy vz] in *. cbn [xyaw xpitch xroll].
  split; [|exact R].
  destruct T as [(E1&E2&E3&E4&E5&E6)|(E1&E2&E3&E4&E5&E6)];
    unfold xyz_rot, Rot_z, Rot_y, Rot_x; cbn [xyaw xpitch xroll]; rewrite E1, E2, E3, E4, E5, E6; lin.
Qed.

(** Uniqueness of in-range Euler triples away from gimbal lock. *)
Lemma scaled_trig k a b : k <> 0 -> k * sin a = k * sin b -> k * cos a = k * cos b ->
  - PI <= a < PI -> - PI <= b < PI -> a = b.
Proof.
  intros Hk S C Ra Rb. assert (sin a = sin b) by (eapply Rmult_eq_reg_l; eassumption).
  assert (cos a = cos b) by (eapply Rmult_eq_reg_l; eassumption).
  apply (same_angle_range (- PI)); [apply trig_same_angle; assumption|lra|lra].
Qed.
Lemma sin_inj_half a b : - (PI/2) < a < PI/2 -> - (PI/2) < b < PI/2 -> sin a = sin b -> a = b.
Proof.
  intros Ha Hb E. destruct (Rtotal_order a b) as [L|[L|L]]; [|exact L|];
    [pose proof (sin_increasing_1 a b) as K|pose proof (sin_increasing_1 b a) as K]; lra.
Qed.
Lemma zyx_range_inj a b c a' b' c' :
  euler_range (mkV3 a b c) -> euler_range (mkV3 a' b' c') ->
  zyx_rot (mkZyx a b c) = zyx_rot (mkZyx a' b' c') -> a = a' /\ b = b' /\ c = c'.
Proof.
  intros (R1&R2&R3) (R1'&R2'&R3') E. cbn [vx vy vz] in *.
  unfold zyx_rot, Rot_z, Rot_y, Rot_x in E; lin_unfold; cbn [zyaw zpitch zroll] in E.
  injection E; intros.
  assert (b = b') by (apply sin_inj_half; lra). subst b'.
  assert (Cb : 0 < cos b) by (apply cos_gt_0; lra).
  repeat split; apply (scaled_trig (cos b)); lra.
Qed.
Lemma xyz_range_inj a b c a' b' c' :
  euler_range (mkV3 a b c) -> euler_range (mkV3 a' b' c') ->
  xyz_rot (mkXyz a b c) = xyz_rot (mkXyz a' b' c') -> a = a' /\ b = b' /\ c = c'.
Proof.
  intros (R1&R2&R3) (R1'&R2'&R3') E. cbn [vx vy vz] in *.
  unfold xyz_rot, Rot_z, Rot_y, Rot_x in E; lin_unfold; cbn [xyaw xpitch xroll] in E.
  injection E; intros.
  assert (b = b') by (apply sin_inj_half; lra). subst b'.
  assert (Cb : 0 < cos b) by (apply cos_gt_0; lra).
  repeat split; apply (scaled_trig (cos b)); lra.
Qed.
(** the unique triple of a clear pitch is itself clear, so getUnique is idempotent *)
Lemma pitch_clear_unique a b c : pitch_clear b -> pitch_clear (vy (euler_unique a b c)).
Proof.
  intros H. unfold pitch_clear in H |- *. unfold euler_unique.
  change (floatingPointModulo (a + PI) (2 * PI) - PI) with (wrapPosNegPI a).
  change (floatingPointModulo (b + PI) (2 * PI) - PI) with (wrapPosNegPI b).
  change (floatingPointModulo (c + PI) (2 * PI) - PI) with (wrapPosNegPI c).
  pose proof (wrapPosNegPI_range b) as Rb. set (y := wrapPosNegPI b) in *. pose proof PI_RGT_0 as HP.
  assert (T : 0 < / 10 ^ 3) by (apply Rinv_0_lt_compat; lra). set (tol := / 10 ^ 3) in *.
  assert (K : y < - PI/2 - tol \/ (- PI/2 + tol < y < PI/2 - tol) \/ PI/2 + tol < y).
  { unfold Rabs in H. destruct (Rcase_abs y) in H; destruct (Rcase_abs _) in H; lra. }
  assert (G : forall t, - PI/2 + tol < t < PI/2 - tol -> tol < Rabs (Rabs (wrapPosNegPI t) - PI/2)).
  { intros t Ht. rewrite wrapPosNegPI_id by lra.
    unfold Rabs. destruct (Rcase_abs t); destruct (Rcase_abs _); lra. }
  unfold Rltb, Rleb.
  destruct (Rlt_dec y (- PI/2 - tol)) as [B1|B1]; [cbn [vy]; apply G; lra|].
  destruct K as [K|[K|K]]; [lra| |].
  - destruct (Rle_dec (- PI/2 - tol) y); [|lra]. destruct (Rle_dec y (- PI/2 + tol)); [lra|].
    destruct (Rlt_dec (- PI/2 + tol) y); [|lra]. destruct (Rlt_dec y (PI/2 - tol)); [|lra].
    cbn [andb vy]. apply G; lra.
  - destruct (Rle_dec (- PI/2 - tol) y); [|lra]. destruct (Rle_dec y (- PI/2 + tol)); [lra|].
    destruct (Rlt_dec (- PI/2 + tol) y); [|lra]. destruct (Rlt_dec y (PI/2 - tol)); [lra|].
    destruct (Rle_dec (PI/2 - tol) y); [|lra]. destruct (Rle_dec y (PI/2 + tol)); [lra|].
    cbn [andb vy]. apply G; lra.
Qed.
Lemma zyx_unique_canonical e f : pitch_clear (zpitch e) -> pitch_clear (zpitch f) ->
  (zyx_rot e = zyx_rot f <-> zyx_unique e = zyx_unique f).
Proof.
  intros He Hf. destruct (zyx_unique_clear e He) as [Me Re]. destruct (zyx_unique_clear f Hf) as [Mf Rf].
  split; intros E.
  - rewrite <- Me, <- Mf in E. destruct (zyx_unique e) as [a b c], (zyx_unique f) as [a' b' c'].
    destruct (zyx_range_inj a b c a' b' c' Re Rf E) as (-> & -> & ->). reflexivity.
  - rewrite <- Me, <- Mf, E. reflexivity.
Qed.
Lemma xyz_unique_canonical e f : pitch_clear (xpitch e) -> pitch_clear (xpitch f) ->
  (xyz_rot e = xyz_rot f <-> xyz_unique e = xyz_unique f).
Proof.
  intros He Hf. destruct (xyz_unique_clear e He) as [Me Re]. destruct (xyz_unique_clear f Hf) as [Mf Rf].
  split; intros E.
  - rewrite <- Me, <- Mf in E. destruct (xyz_unique e) as [a b c], (xyz_unique f) as [a' b' c'].
    destruct (xyz_range_inj a b c a' b' c' Re Rf E) as (-> & -> & ->). reflexivity.
  - rewrite <- Me, <- Mf, E. reflexivity.
Qed.
Lemma zyx_unique_idem e : pitch_clear (zpitch e) -> zyx_unique (zyx_unique e) = zyx_unique e.
Proof.
  intros H. apply zyx_unique_canonical; [|exact H|apply zyx_unique_clear, H].
  destruct e; apply pitch_clear_unique, H.
Qed.
Lemma xyz_unique_idem e : pitch_clear (xpitch e) -> xyz_unique (xyz_unique e) = xyz_unique e.
Proof.
  intros H. apply xyz_unique_canonical; [|exact H|apply xyz_unique_clear, H].
  destruct e; apply pitch_clear_unique, H.
Qed.

(** ** Inside the bands *)
Lemma euler_unique_band_plus a b c : Rabs (wrapPosNegPI b - PI/2) <= / 10 ^ 3 ->
  euler_unique a b c = mkV3 (wrapPosNegPI a + wrapPosNegPI c) (wrapPosNegPI b) 0.
Proof.
  intros H. unfold euler_unique.
  change (floatingPointModulo (a + PI) (2 * PI) - PI) with (wrapPosNegPI a).
  change (floatingPointModulo (b + PI) (2 * PI) - PI) with (wrapPosNegPI b).
  change (floatingPointModulo (c + PI) (2 * PI) - PI) with (wrapPosNegPI c).
  pose proof PI2_1. apply Rabs_le_between' in H.
  assert (T : 0 < / 10 ^ 3 < 1/2) by lra.
  set (tol := / 10 ^ 3) in *. set (y := wrapPosNegPI b) in *. unfold Rltb, Rleb.
  destruct (Rlt_dec y (- PI/2 - tol)); [lra|].
  destruct (Rle_dec (- PI/2 - tol) y); [|lra]. destruct (Rle_dec y (- PI/2 + tol)); [lra|].
  destruct (Rlt_dec (- PI/2 + tol) y); [|lra].
  destruct (Rlt_dec y (PI/2 - tol)); [lra|]. destruct (Rle_dec (PI/2 - tol) y); [|lra].
  destruct (Rle_dec y (PI/2 + tol)); [|lra]. reflexivity.
Qed.
Lemma euler_unique_band_minus a b c : Rabs (wrapPosNegPI b + PI/2) <= / 10 ^ 3 ->
  euler_unique a b c = mkV3 (wrapPosNegPI a - wrapPosNegPI c) (wrapPosNegPI b) 0.
Proof.
  intros H. unfold euler_unique.
  change (floatingPointModulo (a + PI) (2 * PI) - PI) with (wrapPosNegPI a).
  change (floatingPointModulo (b + PI) (2 * PI) - PI) with (wrapPosNegPI b).
  change (floatingPointModulo (c + PI) (2 * PI) - PI) with (wrapPosNegPI c).
  pose proof PI2_1. apply Rabs_le_between' in H.
  assert (T : 0 < / 10 ^ 3 < 1/2) by lra.
  set (tol := / 10 ^ 3) in *. set (y := wrapPosNegPI b) in *. unfold Rltb, Rleb.
  destruct (Rlt_dec y (- PI/2 - tol)); [lra|].
  destruct (Rle_dec (- PI/2 - tol) y); [|lra]. destruct (Rle_dec y (- PI/2 + tol)); [reflexivity|lra].
Qed.
(** what the extreme pitch does: Zyx depends on yaw -+ roll, Xyz on roll +- yaw *)
Lemma wrap_half s : s = 1 \/ s = -1 -> wrapPosNegPI (s * (PI/2)) = s * (PI/2).
Proof. intros H. pose proof PI_RGT_0. apply wrapPosNegPI_id. destruct H; subst; lra. Qed.

Lemma Rot_x_plus a b : Rot_x (a + b) = mmul (Rot_x a) (Rot_x b).
Proof. unfold Rot_x. rewrite cos_plus, sin_plus. lin. Qed.
Lemma Rot_y_plus a b : Rot_y (a + b) = mmul (Rot_y a) (Rot_y b).
Proof. unfold Rot_y. rewrite cos_plus, sin_plus. lin. Qed.
Lemma Rot_z_plus a b : Rot_z (a + b) = mmul (Rot_z a) (Rot_z b).
Proof. unfold Rot_z. rewrite cos_plus, sin_plus. lin. Qed.
Lemma Rot_y_half_z c : mmul (Rot_y (PI/2)) (Rot_z c) = mmul (Rot_x c) (Rot_y (PI/2)).
Proof. unfold Rot_x, Rot_y, Rot_z. rewrite cos_PI2, sin_PI2. lin. Qed.
Lemma Rot_y_mhalf_z c : mmul (Rot_y (- (PI/2))) (Rot_z c) = mmul (Rot_x (- c)) (Rot_y (- (PI/2))).
Proof. unfold Rot_x, Rot_y, Rot_z. rewrite !cos_neg, !sin_neg, cos_PI2, sin_PI2. lin. Qed.
Lemma Rot_y_half_x c : mmul (Rot_y (PI/2)) (Rot_x c) = mmul (Rot_z (- c)) (Rot_y (PI/2)).
Proof. unfold Rot_x, Rot_y, Rot_z. rewrite !cos_neg, !sin_neg, cos_PI2, sin_PI2. lin. Qed.
Lemma Rot_y_mhalf_x c : mmul (Rot_y (- (PI/2))) (Rot_x c) = mmul (Rot_z c) (Rot_y (- (PI/2))).
Proof. unfold Rot_x, Rot_y, Rot_z. rewrite !cos_neg, !sin_neg, cos_PI2, sin_PI2. lin. Qed.
Lemma Rot_x_same a b : same_angle a b -> Rot_x a = Rot_x b.
Proof. intros H. destruct (same_angle_trig _ _ H) as [S C]. unfold Rot_x. rewrite S, C. reflexivity. Qed.
Lemma Rot_y_same a b : same_angle a b -> Rot_y a = Rot_y b.
Proof. intros H. destruct (same_angle_trig _ _ H) as [S C]. unfold Rot_y. rewrite S, C. reflexivity. Qed.
Lemma Rot_z_same a b : same_angle a b -> Rot_z a = Rot_z b.
Proof. intros H. destruct (same_angle_trig _ _ H) as [S C]. unfold Rot_z. rewrite S, C. reflexivity. Qed.
Lemma Rot_x_0 : Rot_x 0 = mid.
Proof. unfold Rot_x. rewrite cos_0, sin_0. lin. Qed.
Lemma Rot_z_0 : Rot_z 0 = mid.
Proof. unfold Rot_z. rewrite cos_0, sin_0. lin. Qed.

(** angle between Ry(y) and Ry(y') seen from any side *)
Lemma Rot_y_angle g h y y' : SO3 g -> SO3 h -> Rabs (y - y') <= PI ->
  is_rotation_angle (mmul (mmul g (mmul (Rot_y y) h)) (mtrans (mmul g (mmul (Rot_y y') h)))) (Rabs (y - y')).
Proof.
  intros Hg Hh Hy.
  replace (mmul (mmul g (mmul (Rot_y y) h)) (mtrans (mmul g (mmul (Rot_y y') h))))
    with (mmul g (mmul (Rot_y (y - y')) (mtrans g))).
  - apply angle_conj; [exact Hg|]. split; [split; [apply Rabs_pos|exact Hy]|].
    replace (cos (Rabs (y - y'))) with (cos (y - y'))
      by (unfold Rabs; destruct (Rcase_abs _); [rewrite cos_neg|]; reflexivity).
    unfold Rot_y; lin_unfold. ring.
  - rewrite !mtrans_mmul, <- Rot_y_neg. unfold Rminus. rewrite Rot_y_plus.
    repeat rewrite <- mmul_assoc. f_equal. f_equal.
    rewrite (mmul_assoc h), SO3_inv_r, mmul_id_l by exact Hh. reflexivity.
Qed.

(** EulerAnglesXyz::getUnique in a band: the rotation moves by at most twice
    the distance of the pitch from +-pi/2. *)
Lemma xyz_unique_band s e : s = 1 \/ s = -1 ->
  Rabs (wrapPosNegPI (xpitch e) - s * (PI/2)) <= / 10 ^ 3 ->
  exists d, is_rotation_angle (mmul (xyz_rot (xyz_unique e)) (mtrans (xyz_rot e))) d /\
    d <= 2 * Rabs (wrapPosNegPI (xpitch e) - s * (PI/2)).
Proof.
  intros Hs H. destruct e as [a b c]; cbn [xpitch] in *.
  set (y := wrapPosNegPI b) in *.
  assert (U : xyz_unique (mkXyz a b c) = mkXyz (wrapPosNegPI a + s * wrapPosNegPI c) y 0).
  { unfold xyz_unique; cbn [xroll xpitch xyaw].
    destruct Hs; subst s.
    - rewrite euler_unique_band_plus; [cbn [vx vy vz]; f_equal; ring|].
      fold y. replace (y - PI/2) with (y - 1 * (PI/2)) by ring. exact H.
    - rewrite euler_unique_band_minus; [cbn [vx vy vz]; f_equal; ring|].
      fold y. replace (y + PI/2) with (y - -1 * (PI/2)) by ring. exact H. }
  rewrite U.
  set (A := wrapPosNegPI a) in *. set (C := wrapPosNegPI c) in *.
  assert (E0 : xyz_rot (mkXyz a b c) = xyz_rot (mkXyz A y C)).
  { unfold xyz_rot; cbn [xroll xpitch xyaw]. f_equal; [|f_equal].
    - apply Rot_x_same, same_angle_sym, wrapPosNegPI_same.
    - apply Rot_y_same, same_angle_sym, wrapPosNegPI_same.
    - apply Rot_z_same, same_angle_sym, wrapPosNegPI_same. }
  rewrite E0. set (h := s * (PI/2)) in *.
  assert (EQ : xyz_rot (mkXyz (A + s * C) h 0) = xyz_rot (mkXyz A h C)).
  { unfold xyz_rot; cbn [xroll xpitch xyaw]. rewrite Rot_z_0, mmul_id_r, Rot_x_plus, <- mmul_assoc. f_equal.
    unfold h. destruct Hs; subst s.
    - replace (1 * (PI/2)) with (PI/2) by ring. rewrite Rot_y_half_z. f_equal. f_equal. ring.
    - replace (-1 * (PI/2)) with (- (PI/2)) by ring. rewrite Rot_y_mhalf_z. f_equal. f_equal. ring. }
  set (M1 := xyz_rot (mkXyz (A + s * C) y 0)). set (M2 := xyz_rot (mkXyz A y C)).
  set (M0 := xyz_rot (mkXyz A h C)) in *.
  assert (S0 : SO3 M0) by apply xyz_rot_SO3. assert (S1 : SO3 M1) by apply xyz_rot_SO3.
  assert (S2 : SO3 M2) by apply xyz_rot_SO3.
  assert (P : Rabs (y - h) <= PI) by (pose proof PI2_1; lra).
  assert (A1 : is_rotation_angle (mmul M1 (mtrans M0)) (Rabs (y - h))).
  { rewrite <- EQ. apply Rot_y_angle; [apply Rot_x_SO3|apply Rot_z_SO3|exact P]. }
  assert (A2 : is_rotation_angle (mmul M0 (mtrans M2)) (Rabs (y - h))).
  { rewrite Rabs_minus_sym. apply Rot_y_angle; [apply Rot_x_SO3|apply Rot_z_SO3|rewrite Rabs_minus_sym; exact P]. }
  destruct (angle_exists (mmul M1 (mtrans M2))) as (d & D).
  { apply SO3_mmul; [exact S1|apply SO3_trans, S2]. }
  exists d. split; [exact D|].
  replace (mmul M1 (mtrans M2)) with (mmul (mmul M1 (mtrans M0)) (mmul M0 (mtrans M2))) in D.
  - pose proof (angle_subadd _ _ _ _ _ (SO3_mmul _ _ S1 (SO3_trans _ S0)) (SO3_mmul _ _ S0 (SO3_trans _ S2)) A1 A2 D). lra.
  - rewrite <- mmul_assoc. f_equal. rewrite mmul_assoc, SO3_inv_l, mmul_id_l by exact S0. reflexivity.
Qed.
Lemma xyz_unique_lock s e : s = 1 \/ s = -1 -> same_angle (xpitch e) (s * (PI/2)) ->
  xyz_rot (xyz_unique e) = xyz_rot e.
Proof.
  intros Hs H.
  assert (W : wrapPosNegPI (xpitch e) = s * (PI/2)).
  { rewrite <- (wrap_half s Hs). apply wrapPosNegPI_eq, H. }
  destruct (xyz_unique_band s e Hs) as (d & A & D).
  { rewrite W, Rminus_diag_eq, Rabs_R0 by reflexivity. lra. }
  rewrite W, Rminus_diag_eq, Rabs_R0 in D by reflexivity.
  assert (d = 0) by (destruct A as [A _]; lra). subst d.
  apply angle_zero in A; [|apply SO3_mmul; [apply xyz_rot_SO3|apply SO3_trans, xyz_rot_SO3]].
  rewrite <- (mmul_cancel (xyz_rot (xyz_unique e)) (xyz_rot e)) by apply xyz_rot_SO3.
  rewrite A, mmul_id_l. reflexivity.
Qed.

(** EulerAnglesZyx::getUnique at gimbal lock: the rotation is kept only if
    the roll is a multiple of pi. *)
Lemma Rot_z_inj a b : Rot_z a = Rot_z b -> same_angle a b.
Proof. unfold Rot_z. intros E. injection E; intros. apply trig_same_angle; lra. Qed.
Lemma mmul_reg_r a b c : SO3 c -> mmul a c = mmul b c -> a = b.
Proof. intros H E. rewrite <- (mmul_cancel' a c H), <- (mmul_cancel' b c H), E. reflexivity. Qed.
Lemma same_angle_double c : same_angle c (- c) <-> sin c = 0.
Proof.
  split.
  - intros H. destruct (same_angle_trig _ _ H) as [S _]. rewrite sin_neg in S. lra.
  - intros H. apply trig_same_angle; rewrite ?sin_neg, ?cos_neg; lra.
Qed.
Lemma zyx_unique_lock s e : s = 1 \/ s = -1 -> same_angle (zpitch e) (s * (PI/2)) ->
  (zyx_rot (zyx_unique e) = zyx_rot e <-> sin (zroll e) = 0).
Proof.
  intros Hs H. destruct e as [a b c]; cbn [zpitch zroll] in *.
  assert (W : wrapPosNegPI b = s * (PI/2)).
  { rewrite <- (wrap_half s Hs). apply wrapPosNegPI_eq, H. }
  assert (U : zyx_unique (mkZyx a b c) = mkZyx (wrapPosNegPI a + s * wrapPosNegPI c) (s * (PI/2)) 0).
  { unfold zyx_unique; cbn [zroll zpitch zyaw].
    destruct Hs; subst s.
    - rewrite euler_unique_band_plus; [cbn [vx vy vz]; rewrite W; f_equal; ring|].
      rewrite W. replace (1 * (PI/2) - PI/2) with 0 by ring. rewrite Rabs_R0. lra.
    - rewrite euler_unique_band_minus; [cbn [vx vy vz]; rewrite W; f_equal; ring|].
      rewrite W. replace (-1 * (PI/2) + PI/2) with 0 by ring. rewrite Rabs_R0. lra. }
  rewrite U. unfold zyx_rot; cbn [zroll zpitch zyaw].
  rewrite (Rot_y_same b _ H), Rot_x_0, mmul_id_r.
  assert (Z1 : Rot_z (wrapPosNegPI a + s * wrapPosNegPI c) = mmul (Rot_z a) (Rot_z (s * c))).
  { rewrite Rot_z_plus. f_equal; [apply Rot_z_same, wrapPosNegPI_same|].
    destruct (wrapPosNegPI_same c) as [k K]. apply Rot_z_same. destruct Hs; subst s.
    - exists k. lra.
    - exists (- k)%Z. rewrite opp_IZR. lra. }
  rewrite Z1.
  assert (Z2 : mmul (Rot_z a) (mmul (Rot_y (s * (PI/2))) (Rot_x c))
     = mmul (mmul (Rot_z a) (Rot_z (- (s * c)))) (Rot_y (s * (PI/2)))).
  { rewrite <- mmul_assoc. f_equal. destruct Hs; subst s.
    - replace (1 * (PI/2)) with (PI/2) by ring. rewrite Rot_y_half_x. f_equal. f_equal. ring.
    - replace (-1 * (PI/2)) with (- (PI/2)) by ring. rewrite Rot_y_mhalf_x. f_equal. f_equal. ring. }
  rewrite Z2.
  assert (SC : same_angle (s * c) (- (s * c)) <-> sin c = 0).
  { rewrite same_angle_double. destruct Hs; subst s.
    - replace (1 * c) with c by ring. tauto.
    - replace (-1 * c) with (- c) by ring. rewrite sin_neg. split; lra. }
  rewrite <- SC. split; intros E.
  - apply mmul_reg_r in E; [|apply Rot_y_SO3]. rewrite <- !Rot_z_plus in E.
    apply Rot_z_inj in E. destruct E as [k K]. exists k. lra.
  - rewrite (Rot_z_same _ _ E). reflexivity.
Qed.
