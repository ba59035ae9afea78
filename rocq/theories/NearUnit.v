(** Quaternions that are only nearly unit (they arise from the truncated
    series for short rotation vectors): the rotation they denote up to scale,
    and what each conversion makes of them. *)
From Coq Require Import Reals Lra Psatz Bool.
From Verif Require Import Linalg Spec SpecFacts ModelCommon ModelEigen ModelRotation SpecClose
  CommonFacts ConvFacts RVFacts Windows RotFacts CloseFacts.
Local Open Scope R_scope.

Definition rot_of (q : Quat) : M33 := mscale (/ qnorm2 q) (quat_rot q).

Lemma mscale_mscale a b m : mscale a (mscale b m) = mscale (a * b) m. Proof. lin. Qed.
Lemma mscale_1 m : mscale 1 m = m. Proof. lin. Qed.
Lemma mmul_mscale a b m n : mmul (mscale a m) (mscale b n) = mscale (a * b) (mmul m n). Proof. lin. Qed.

Lemma rot_of_unit q : qnorm2 q = 1 -> rot_of q = quat_rot q.
Proof. intros H. unfold rot_of. rewrite H, Rinv_1. apply mscale_1. Qed.
Lemma rot_of_scale k q : k <> 0 -> qnorm2 q <> 0 ->
  rot_of (mkQ (k * qw q) (k * qx q) (k * qy q) (k * qz q)) = rot_of q.
Proof.
  intros K N. unfold rot_of.
  replace (qnorm2 (mkQ (k * qw q) (k * qx q) (k * qy q) (k * qz q))) with (k * k * qnorm2 q) by lin.
  replace (quat_rot (mkQ (k * qw q) (k * qx q) (k * qy q) (k * qz q))) with (mscale (k * k) (quat_rot q))
    by (rewrite !quat_rot_entries; lin).
  rewrite mscale_mscale. f_equal. field. split; assumption.
Qed.
Lemma rot_of_SO3 q : 0 < qnorm2 q -> SO3 (rot_of q).
Proof.
  intros H. unfold rot_of. split.
  - replace (mtrans (mscale (/ qnorm2 q) (quat_rot q))) with (mscale (/ qnorm2 q) (mtrans (quat_rot q))) by lin.
    rewrite mmul_mscale, quat_rot_orth, mscale_mscale.
    replace (/ qnorm2 q * / qnorm2 q * (qnorm2 q * qnorm2 q)) with 1 by (field; lra). apply mscale_1.
  - replace (mdet (mscale (/ qnorm2 q) (quat_rot q))) with (/ qnorm2 q * / qnorm2 q * / qnorm2 q * mdet (quat_rot q)) by (generalize (quat_rot q); lin).
    rewrite quat_rot_det. field. lra.
Qed.
Lemma rot_of_mul a b : 0 < qnorm2 a -> 0 < qnorm2 b -> rot_of (e_mul a b) = mmul (rot_of a) (rot_of b).
Proof.
  intros A B. unfold rot_of. rewrite e_mul_hamilton, hamilton_norm, quat_rot_hamilton, mmul_mscale.
  f_equal. field. split; lra.
Qed.
Lemma rot_of_conj a : rot_of (e_conjugate a) = mtrans (rot_of a).
Proof. unfold rot_of. rewrite e_conjugate_conj, qnorm2_conj, quat_rot_conj. lin. Qed.
Lemma qnorm2_neg a : qnorm2 (qneg a) = qnorm2 a. Proof. lin. Qed.
Lemma rot_of_neg a : rot_of (qneg a) = rot_of a.
Proof. unfold rot_of. rewrite qnorm2_neg, quat_rot_neg. reflexivity. Qed.

(** the quaternion scaled to length one *)
Lemma unit_scaled q : 0 < qnorm2 q -> exists k qu, 0 < k /\ k * k * qnorm2 q = 1 /\
  qu = mkQ (k * qw q) (k * qx q) (k * qy q) (k * qz q) /\ qnorm2 qu = 1 /\ quat_rot qu = rot_of q.
Proof.
  intros H. assert (S : 0 < qnorm q) by (apply sqrt_lt_R0, H). pose proof (qnorm_sqr q) as Q.
  exists (/ qnorm q), (mkQ (/ qnorm q * qw q) (/ qnorm q * qx q) (/ qnorm q * qy q) (/ qnorm q * qz q)).
  assert (K : / qnorm q * / qnorm q * qnorm2 q = 1) by (rewrite <- Q; field; lra).
  split; [apply Rinv_0_lt_compat, S|]. split; [exact K|]. split; [reflexivity|].
  assert (U : qnorm2 (mkQ (/ qnorm q * qw q) (/ qnorm q * qx q) (/ qnorm q * qy q) (/ qnorm q * qz q)) = 1).
  { replace (qnorm2 (mkQ (/ qnorm q * qw q) (/ qnorm q * qx q) (/ qnorm q * qy q) (/ qnorm q * qz q)))
      with (/ qnorm q * / qnorm q * qnorm2 q) by (unfold qnorm2; cbn [qw qx qy qz]; ring). exact K. }
  split; [exact U|]. rewrite <- rot_of_unit by exact U. apply rot_of_scale; [apply Rinv_neq_0_compat|]; lra.
Qed.

(** ** to a matrix *)
Lemma e_toRot_split q : e_toRotationMatrix q = madd (quat_rot q) (mscale (1 - qnorm2 q) mid).
Proof. rewrite quat_rot_entries. unfold e_toRotationMatrix. lin. Qed.
Lemma e_toRot_rot_of q : 0 < qnorm2 q ->
  e_toRotationMatrix q = madd (mscale (qnorm2 q) (rot_of q)) (mscale (1 - qnorm2 q) mid).
Proof. intros H. rewrite e_toRot_split. f_equal. unfold rot_of. rewrite mscale_mscale, Rinv_r, mscale_1 by lra. reflexivity. Qed.
Lemma e_toRot_close q : 0 < qnorm2 q -> close (2 * Rabs (1 - qnorm2 q)) (e_toRotationMatrix q) (rot_of q).
Proof.
  intros H v. rewrite e_toRot_rot_of by exact H.
  pose proof (rot_of_SO3 q H) as S. set (r := rot_of q) in *.
  replace (vsub (mvmul (madd (mscale (qnorm2 q) r) (mscale (1 - qnorm2 q) mid)) v) (mvmul r v))
    with (vscale (1 - qnorm2 q) (vsub (mvmul mid v) (mvmul r v))) by (generalize (qnorm2 q) r; lin).
  rewrite vnorm_vscale. pose proof (close_2 mid r SO3_mid S v). pose proof (Rabs_pos (1 - qnorm2 q)). nra.
Qed.

(** ** to an angle-axis *)
Lemma atan2_scale k y x : 0 < k -> atan2 (k * y) (k * x) = atan2 y x.
Proof.
  intros K. unfold atan2.
  assert (Q : x <> 0 -> k * y / (k * x) = y / x) by (intros; field; lra).
  assert (S1 : forall t, 0 < k * t <-> 0 < t) by (intros; split; intros; nra).
  assert (S2 : forall t, k * t < 0 <-> t < 0) by (intros; split; intros; nra).
  assert (S3 : forall t, 0 <= k * t <-> 0 <= t) by (intros; split; intros; nra).
  destruct (Rlt_dec 0 (k * x)) as [A|A], (Rlt_dec 0 x) as [A'|A']; try (exfalso; rewrite S1 in A; lra).
  { rewrite Q by lra. reflexivity. }
  destruct (Rlt_dec (k * x) 0) as [B|B], (Rlt_dec x 0) as [B'|B']; try (exfalso; rewrite S2 in B; lra).
  { rewrite Q by lra. destruct (Rle_dec 0 (k * y)) as [C|C], (Rle_dec 0 y) as [C'|C']; try (exfalso; rewrite S3 in C; lra); reflexivity. }
  destruct (Rlt_dec 0 (k * y)) as [C|C], (Rlt_dec 0 y) as [C'|C']; try (exfalso; rewrite S1 in C; lra); [reflexivity|].
  destruct (Rlt_dec (k * y) 0) as [D|D], (Rlt_dec y 0) as [D'|D']; try (exfalso; rewrite S2 in D; lra); reflexivity.
Qed.
Lemma qvec_scale k q : qvec (mkQ (k * qw q) (k * qx q) (k * qy q) (k * qz q)) = vscale k (qvec q). Proof. lin. Qed.
Lemma e_aa_of_quat_scale k q : 0 < k -> e_aa_of_quat (mkQ (k * qw q) (k * qx q) (k * qy q) (k * qz q)) = e_aa_of_quat q.
Proof.
  intros K. unfold e_aa_of_quat. rewrite qvec_scale, vnorm_vscale, (Rabs_pos_eq k) by lra.
  set (n := vnorm (qvec q)). cbn [qw qx qy qz].
  destruct (Req_EM_T (k * n) 0) as [A|A], (Req_EM_T n 0) as [B|B]; try nra; [reflexivity|].
  rewrite Rabs_mult, (Rabs_pos_eq k), atan2_scale by lra. f_equal.
  destruct (Rlt_dec (k * qw q) 0), (Rlt_dec (qw q) 0); try nra; f_equal; field; split; nra.
Qed.
Lemma e_aa_of_quat_near q : 0 < qnorm2 q ->
  vnorm2 (aaxis (e_aa_of_quat q)) = 1 /\ aa_rot (e_aa_of_quat q) = rot_of q.
Proof.
  intros H. destruct (unit_scaled q H) as (k & qu & K & _ & E & U & R).
  rewrite <- (e_aa_of_quat_scale k q K), <- E, <- R. apply e_aa_of_quat_rot, U.
Qed.

(** ** to a rotation vector *)
Lemma quat_to_rv_near p q : Rabs (qnorm2 q - 1) <= dummy_precision p / 2 ->
  exists v, quat_to_rv p q = Val v /\ close (dummy_precision p / 20) (vec_rot v) (rot_of q).
Proof.
  intros HN. pose proof (dummy_pos p) as P. pose proof (dummy_small p) as Q.
  assert (HN' : - (dummy_precision p / 2) <= qnorm2 q - 1 <= dummy_precision p / 2).
  { unfold Rabs in HN. destruct (Rcase_abs (qnorm2 q - 1)); lra. }
  assert (N0 : 0 < qnorm2 q) by lra.
  destruct (unit_scaled q N0) as (k & qu & K & KK & E & U & R).
  pose proof (vnorm_sqr (qvec q)) as V2. pose proof (qnorm2_vec q) as QV. set (n := vnorm (qvec q)) in *.
  assert (Nn : 0 <= n) by apply vnorm_nonneg.
  assert (NU : vnorm (qvec qu) = k * n) by (rewrite E, qvec_scale, vnorm_vscale, Rabs_pos_eq by lra; reflexivity).
  assert (WU : qw qu = k * qw q) by (rewrite E; reflexivity).
  pose proof (qvec_norm_unit qu U) as PU. rewrite NU, WU in PU.
  unfold quat_to_rv. fold n.
  destruct (Rlt_dec (1 - qw q * qw q) (dummy_precision p)) as [L|L].
  - set (sg := if Rlt_dec 0 (qw q) then 1 else -1).
    assert (SG : (sg = 1 /\ 0 < qw q) \/ (sg = -1 /\ qw q < 0)).
    { unfold sg. destruct (Rlt_dec 0 (qw q)); [left; split; lra|right; split; [reflexivity|]]. nra. }
    assert (EV : (if Rlt_dec 0 (qw q) then Val (vscale 2 (qvec q)) else Val (vscale (-2) (qvec q)))
       = Val (vscale (2 * sg) (qvec q))).
    { unfold sg. destruct (Rlt_dec 0 (qw q)); f_equal; unfold vscale; f_equal; ring. }
    rewrite EV. eexists; split; [reflexivity|].
    destruct (Req_dec n 0) as [Z|Z].
    { assert (V0 : qvec q = vzero) by (apply vnorm_zero; exact Z).
      replace (vscale (2 * sg) (qvec q)) with vzero by (rewrite V0; lin). rewrite vec_rot_zero.
      apply close_eq; [|lra]. rewrite <- R, E. rewrite quat_rot_entries. destruct q as [w x y z]. lin_unfold.
      injection V0; intros; subst. assert (k * w * (k * w) = 1) by nra. f_equal; lra. }
    set (phi := atan2 (k * n) (Rabs (qw qu))).
    assert (Aq : Rabs (qw qu) * Rabs (qw qu) = k * qw q * (k * qw q)).
    { rewrite <- Rabs_mult, Rabs_pos_eq by nra. rewrite WU. ring. }
    destruct (atan2_unit (k * n) (Rabs (qw qu))) as [C S]; [lra|]. fold phi in C, S.
    pose proof (atan2_pos (k * n) (Rabs (qw qu)) ltac:(nra)) as [PH0 _].
    pose proof (atan2_right (k * n) (Rabs (qw qu)) (Rabs_pos _)) as [_ PH1]. fold phi in PH0, PH1.
    assert (Un : vnorm2 (unit_of (qvec q)) = 1) by (apply vnorm2_unitize; exact Z).
    assert (ER : rot_of q = aa_rot (mkAA (2 * phi * sg) (unit_of (qvec q)))).
    { rewrite <- R, <- half_quat_rot by exact Un.
      assert (HQ : half_quat (2 * phi * sg) (unit_of (qvec q)) = qu \/
                   half_quat (2 * phi * sg) (unit_of (qvec q)) = qneg qu).
      { unfold half_quat. replace (2 * phi * sg / 2) with (phi * sg) by field.
        unfold unit_of; fold n.
        destruct SG as [[-> W]|[-> W]]; [left|right].
        - replace (phi * 1) with phi by ring. rewrite C, S, Rabs_right by (rewrite WU; nra).
          rewrite E. destruct q as [w x y z]; cbn [qvec vscale vx vy vz qw qx qy qz] in *. f_equal; field; exact Z.
        - replace (phi * -1) with (- phi) by ring. rewrite cos_neg, sin_neg, C, S, Rabs_left by (rewrite WU; nra).
          rewrite E. destruct q as [w x y z]; unfold qneg, vscale, qvec; cbn [vx vy vz qw qx qy qz] in *. f_equal; field; exact Z. }
      destruct HQ as [-> | ->]; [reflexivity|symmetry; apply quat_rot_neg]. }
    rewrite ER.
    replace (vscale (2 * sg) (qvec q)) with (vscale (2 * n * sg) (unit_of (qvec q))).
    2:{ unfold unit_of; fold n. unfold vscale; cbn [vx vy vz]. f_equal; field; exact Z. }
    rewrite vec_rot_scaled by exact Un.
    eapply close_mono; [|apply aa_close, Un].
    replace (2 * n * sg - 2 * phi * sg) with (2 * sg * (n - phi)) by ring. rewrite Rabs_mult.
    assert (SA : Rabs (2 * sg) = 2) by (destruct SG as [[-> _]|[-> _]]; [rewrite Rabs_right|rewrite Rabs_left]; lra).
    rewrite SA.
    (* sizes *)
    assert (n2 : n * n < 3 / 2 * dummy_precision p) by lra.
    assert (n1 : n < 1 / 250) by (assert (n * n < 1 / 250 * (1 / 250)) by lra; nra).
    assert (k1 : Rabs (k - 1) <= dummy_precision p).
    { assert (KB : (k - 1) * ((k + 1) * qnorm2 q) = 1 - qnorm2 q) by nra.
      assert (B1 : 1 / 2 <= (k + 1) * qnorm2 q) by nra.
      apply Rabs_le. nra. }
    assert (k2 : 1 - dummy_precision p <= k <= 1 + dummy_precision p)
      by (unfold Rabs in k1; destruct (Rcase_abs (k - 1)); lra).
    assert (s1 : 0 < k * n < 1 / 200) by nra.
    (* phi is small: on [0,pi/2], sin phi >= phi/2 *)
    assert (PH2 : phi <= 2 * (k * n)).
    { rewrite <- S. destruct (Rle_or_lt phi 1) as [L1|L1].
      - pose proof (sin_lo phi ltac:(pose proof PI2_1; lra)) as SL. assert (phi ^ 3 <= phi) by (simpl; nra). lra.
      - exfalso. assert (sin 1 <= sin phi).
        { destruct (Req_dec phi 1); [subst; lra|left; apply sin_increasing_1; pose proof PI2_1; lra]. }
        pose proof (sin_lo 1 ltac:(pose proof PI2_1; lra)). lra. }
    pose proof (sin_lo phi ltac:(pose proof PI2_1; lra)) as SL. rewrite S in SL.
    assert (SU : k * n <= phi) by (rewrite <- S; left; apply sin_lt_x; lra).
    assert (phi3 : phi ^ 3 / 6 <= 8 / 6 * (k * n * (k * n)) * (k * n)).
    { assert (phi ^ 3 <= (2 * (k * n)) ^ 3) by (apply pow_incr; lra). simpl in *. nra. }
    assert (kn2 : k * n * (k * n) <= 2 * dummy_precision p) by nra.
    assert (D : Rabs (n - phi) <= dummy_precision p * (1 / 200) + 8 / 6 * (2 * dummy_precision p) * (1 / 200)).
    { replace (n - phi) with ((1 - k) * n + (k * n - phi)) by ring.
      eapply Rle_trans; [apply Rabs_triang|]. apply Rplus_le_compat.
      - rewrite Rabs_mult, (Rabs_pos_eq n), Rabs_minus_sym by lra. nra.
      - rewrite Rabs_left1 by lra. apply Rle_trans with (phi ^ 3 / 6); [lra|]. eapply Rle_trans; [exact phi3|]. nra. }
    lra.
  - assert (N2 : 0 < n * n) by lra. assert (Np : n <> 0) by nra.
    unfold cdiv. destruct (Req_EM_T n 0); [contradiction|]. cbn [obind]. eexists; split; [reflexivity|].
    apply close_eq; [|lra].
    set (t := atan2 n (qw q)).
    assert (Un : vnorm2 (unit_of (qvec q)) = 1) by (apply vnorm2_unitize; exact Np).
    destruct (atan2_unit (k * n) (k * qw q)) as [C S]; [lra|]. rewrite atan2_scale in C, S by exact K. fold t in C, S.
    replace (vscale (2 * t / n) (qvec q)) with (vscale (2 * t) (unit_of (qvec q))).
    2:{ unfold unit_of; fold n. unfold vscale; cbn [vx vy vz]. f_equal; field; exact Np. }
    rewrite vec_rot_scaled by exact Un. rewrite <- half_quat_rot by exact Un. rewrite <- R. f_equal.
    unfold half_quat. replace (2 * t / 2) with t by field. rewrite C, S, E.
    unfold unit_of. fold n. destruct q as [w x y z]; cbn [qvec vscale vx vy vz qw qx qy qz].
    f_equal; field; exact Np.
Qed.

(** ** the truncated series *)
Lemma e_toRot_action q v :
  mvmul (e_toRotationMatrix q) v =
  vadd v (vadd (vscale (2 * qw q) (vcross (qvec q) v)) (vscale 2 (vcross (qvec q) (vcross (qvec q) v)))).
Proof. unfold e_toRotationMatrix. lin. Qed.
Lemma e_toRot_lipschitz q q' : qw q = qw q' -> Rabs (qw q) <= 1 -> vnorm (qvec q) <= 1 -> vnorm (qvec q') <= 2 ->
  close (8 * vnorm (vsub (qvec q') (qvec q))) (e_toRotationMatrix q') (e_toRotationMatrix q).
Proof.
  intros W W1 A B v. rewrite !e_toRot_action, <- W. set (u := qvec q) in *. set (u' := qvec q') in *. set (d := vsub u' u).
  replace (vsub (vadd v (vadd (vscale (2 * qw q) (vcross u' v)) (vscale 2 (vcross u' (vcross u' v)))))
                (vadd v (vadd (vscale (2 * qw q) (vcross u v)) (vscale 2 (vcross u (vcross u v))))))
    with (vadd (vscale (2 * qw q) (vcross d v)) (vadd (vscale 2 (vcross u' (vcross d v))) (vscale 2 (vcross d (vcross u v)))))
    by (unfold d; generalize u u' (qw q); lin).
  eapply Rle_trans; [apply vnorm_triang|]. 
  pose proof (vnorm_triang (vscale 2 (vcross u' (vcross d v))) (vscale 2 (vcross d (vcross u v)))) as T.
  rewrite !vnorm_vscale in *. rewrite (Rabs_pos_eq 2) in T by lra. rewrite Rabs_mult, (Rabs_pos_eq 2) by lra.
  pose proof (vnorm_cross_le d v) as C1. pose proof (vnorm_cross_le u' (vcross d v)) as C2.
  pose proof (vnorm_cross_le u v) as C3. pose proof (vnorm_cross_le d (vcross u v)) as C4.
  pose proof (vnorm_nonneg d). pose proof (vnorm_nonneg v). pose proof (vnorm_nonneg u). pose proof (vnorm_nonneg u').
  pose proof (vnorm_nonneg (vcross d v)). pose proof (vnorm_nonneg (vcross u v)). pose proof (Rabs_pos (qw q)).
  assert (vnorm (vcross u' (vcross d v)) <= 2 * (vnorm d * vnorm v)) by nra.
  assert (vnorm (vcross u v) <= vnorm v) by nra.
  assert (vnorm (vcross d (vcross u v)) <= vnorm d * vnorm v) by nra.
  assert (2 * Rabs (qw q) * vnorm (vcross d v) <= 2 * (vnorm d * vnorm v)) by nra.
  lra.
Qed.
Lemma rv_short p v : vnorm v < eps4throot p -> vnorm v < 1 / 50.
Proof. pose proof (eps4_small p). lra. Qed.
(** the quaternion of a rotation vector, any length *)
Lemma rv_to_quat_near p v :
  let q := rv_to_quat p v in
  Rabs (qnorm2 q - 1) <= epsilon p / 10 ^ 6 /\ 0 < qnorm2 q /\
  close (epsilon p * vnorm v / 480) (e_toRotationMatrix q) (vec_rot v) /\
  close (epsilon p / 24000) (e_toRotationMatrix q) (vec_rot v) /\
  close (epsilon p / 20000) (rot_of q) (vec_rot v).
Proof.
  intros q. pose proof (epsilon_pos p) as EP. pose proof (epsilon_small p) as ES. pose proof (vnorm_nonneg v) as V0.
  assert (EV : 0 <= epsilon p * vnorm v) by (apply Rmult_le_pos; lra).
  destruct (Req_dec (vnorm v) 0) as [Z|Z].
  { assert (V : v = vzero) by (apply vnorm_zero, Z). destruct (rv_to_quat_exact p v (or_introl V)) as [U R]. fold q in U, R.
    rewrite U. replace (1 - 1) with 0 by ring. rewrite Rabs_R0. split; [lra|]. split; [lra|].
    rewrite (e_toRotationMatrix_unit q U), (rot_of_unit q U), R. repeat split; apply close_refl; lra. }
  destruct (Rlt_or_le (vnorm v) (eps4throot p)) as [L|L].
  2:{ destruct (rv_to_quat_exact p v (or_intror L)) as [U R]. fold q in U, R.
    rewrite U. replace (1 - 1) with 0 by ring. rewrite Rabs_R0. split; [lra|]. split; [lra|].
    rewrite (e_toRotationMatrix_unit q U), (rot_of_unit q U), R. repeat split; apply close_refl; lra. }
  pose proof (rv_short p v L) as L2.
  destruct (rv_to_quat_error p v Z) as (W & D & N). fold q in W, D, N.
  set (h := half_quat (vnorm v) (unit_of v)) in *.
  assert (Un : vnorm2 (unit_of v) = 1) by (apply vnorm2_unitize; exact Z).
  assert (UH : qnorm2 h = 1) by (apply half_quat_norm, Un).
  assert (RH : quat_rot h = vec_rot v).
  { unfold h. rewrite half_quat_rot by exact Un. symmetry. apply vec_rot_aa, Z. }
  assert (N' : Rabs (qnorm2 q - 1) <= epsilon p / (96 * 10 ^ 5)).
  { eapply Rle_trans; [exact N|]. assert (vnorm v * vnorm v <= 1 / 2500) by nra.
    apply Rle_trans with (epsilon p * (1 / 2500) / 3840); [|lra].
    apply Rmult_le_compat_r; [lra|]. apply Rmult_le_compat_l; lra. }
  assert (N0 : 0 < qnorm2 q) by (unfold Rabs in N'; destruct (Rcase_abs (qnorm2 q - 1)); lra).
  assert (C1 : close (epsilon p * vnorm v / 480) (e_toRotationMatrix q) (vec_rot v)).
  { rewrite <- RH, <- (e_toRotationMatrix_unit h UH).
    pose proof (qnorm2_vec h) as HV. pose proof (vnorm_sqr (qvec h)) as HS. pose proof (vnorm_nonneg (qvec h)).
    assert (H1 : vnorm (qvec h) <= 1) by nra.
    eapply close_mono; [|apply e_toRot_lipschitz].
    - lra.
    - symmetry. exact W.
    - apply Rabs_le. nra.
    - exact H1.
    - apply vnorm_le_add in D. eapply Rle_trans; [exact D|].
      assert (epsilon p * vnorm v <= 1 * (1/50)) by (apply Rmult_le_compat; lra). lra. }
  assert (C2 : close (epsilon p / 24000) (e_toRotationMatrix q) (vec_rot v)).
  { eapply close_mono; [|exact C1]. assert (epsilon p * vnorm v <= epsilon p * (1 / 50)) by (apply Rmult_le_compat_l; lra). lra. }
  split; [lra|]. split; [exact N0|]. split; [exact C1|]. split; [exact C2|].
  eapply close_mono; [|eapply close_trans; [apply close_sym, (e_toRot_close q N0)|exact C2]].
  rewrite Rabs_minus_sym. lra.
Qed.
