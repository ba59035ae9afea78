(** Euler angles extracted (Eigen's eulerAngles) from the matrix of a nearly
    unit quaternion: the error is linear in the deviation of the norm, at
    gimbal lock too. *)
From Coq Require Import Reals Lra Psatz Bool.
From Verif Require Import Linalg Spec SpecFacts ModelCommon ModelEigen ModelRotation SpecClose
  CommonFacts ConvFacts RVFacts Windows RotFacts CloseFacts NearUnit.
Local Open Scope R_scope.

Lemma polar y x : exists h, 0 <= h /\ h * h = x * x + y * y /\ h * cos (atan2 y x) = x /\ h * sin (atan2 y x) = y.
Proof.
  destruct (Req_dec x 0) as [X|X]; [destruct (Req_dec y 0) as [Y|Y]|].
  - exists 0. subst. repeat split; lra.
  - destruct (atan2_polar y x (or_intror Y)) as (_ & C & S). exists (sqrt (x * x + y * y)).
    assert (0 <= x * x + y * y) by nra.
    split; [apply sqrt_pos|]. split; [apply sqrt_sqrt; assumption|]. split; lra.
  - destruct (atan2_polar y x (or_introl X)) as (_ & C & S). exists (sqrt (x * x + y * y)).
    assert (0 <= x * x + y * y) by nra.
    split; [apply sqrt_pos|]. split; [apply sqrt_sqrt; assumption|]. split; lra.
Qed.

(** a rotation that nearly fixes two orthogonal unit vectors is nearly the identity *)
Lemma close_two_axes D e g a b : SO3 D -> vnorm2 e = 1 -> vnorm2 g = 1 -> vdot e g = 0 ->
  vnorm (vsub (mvmul D e) e) <= a -> vnorm (vsub (mvmul D g) g) <= b ->
  close (2 * (a + b)) D mid.
Proof.
  intros HD He Hg Hp Ha Hb v. rewrite mvmul_id.
  assert (Ne : vnorm e = 1) by (apply vnorm_unit, He). assert (Ng : vnorm g = 1) by (apply vnorm_unit, Hg).
  set (f := vcross e g).
  assert (HF : vnorm2 f = 1).
  { assert (E : vnorm2 e * vnorm2 g - vdot e g * vdot e g = vnorm2 f) by (unfold f; lin). rewrite He, Hg, Hp in E. lra. }
  assert (Nf : vnorm f = 1) by (apply vnorm_unit, HF).
  assert (DF : mvmul D f = vcross (mvmul D e) (mvmul D g)).
  { assert (C : mvmul (mtrans D) (vcross (mvmul D e) (mvmul D g)) = vscale (mdet D) f).
    { unfold f. lin. }
    destruct HD as [H1 H2]. rewrite H2 in C.
    assert (I : mvmul D (mvmul (mtrans D) (vcross (mvmul D e) (mvmul D g))) = mvmul D (vscale 1 f)) by (rewrite C; reflexivity).
    rewrite <- mvmul_mmul, H1, mvmul_id in I. rewrite I. f_equal. lin. }
  assert (Nde : vnorm (mvmul D e) = 1) by (rewrite SO3_vnorm; assumption).
  assert (Ndg : vnorm (mvmul D g) = 1) by (rewrite SO3_vnorm; assumption).
  assert (Hf : vnorm (vsub (mvmul D f) f) <= a + b).
  { rewrite DF. unfold f.
    replace (vsub (vcross (mvmul D e) (mvmul D g)) (vcross e g))
      with (vadd (vcross (vsub (mvmul D e) e) (mvmul D g)) (vcross e (vsub (mvmul D g) g)))
      by (generalize (mvmul D e) (mvmul D g); lin).
    eapply Rle_trans; [apply vnorm_triang|].
    pose proof (vnorm_cross_le (vsub (mvmul D e) e) (mvmul D g)). pose proof (vnorm_cross_le e (vsub (mvmul D g) g)).
    rewrite Ndg in *. rewrite Ne in *. lra. }
  (* v in the basis e, g, f *)
  assert (B : v = vadd (vscale (vdot e v) e) (vadd (vscale (vdot g v) g) (vscale (vdot f v) f))).
  { assert (T : vscale (vnorm2 e * vnorm2 g - vdot e g * vdot e g) v =
       vadd (vscale (vnorm2 g * vdot e v - vdot e g * vdot g v) e)
            (vadd (vscale (vnorm2 e * vdot g v - vdot e g * vdot e v) g) (vscale (vdot f v) f))) by (unfold f; lin).
    rewrite He, Hg, Hp in T. transitivity (vscale (1 * 1 - 0 * 0) v); [lin|]. rewrite T. f_equal; [f_equal; ring|].
    f_equal. f_equal. ring. }
  assert (DB : vsub (mvmul D v) v = vadd (vscale (vdot e v) (vsub (mvmul D e) e))
     (vadd (vscale (vdot g v) (vsub (mvmul D g) g)) (vscale (vdot f v) (vsub (mvmul D f) f)))).
  { rewrite B at 1 2. generalize (vdot e v) (vdot g v) (vdot f v). clear. intros. lin. }
  rewrite DB. 
  assert (CS : forall x, vnorm x = 1 -> Rabs (vdot x v) <= vnorm v).
  { intros x Hx. pose proof (cauchy_schwarz x v) as C. rewrite Hx in C. pose proof (cauchy_schwarz (vneg x) v) as C'.
    rewrite vnorm_vneg, Hx in C'. replace (vdot (vneg x) v) with (- vdot x v) in C' by lin. apply Rabs_le. lra. }
  pose proof (CS e Ne) as C1. pose proof (CS g Ng) as C2. pose proof (CS f Nf) as C3.
  eapply Rle_trans; [apply vnorm_triang|]. 
  pose proof (vnorm_triang (vscale (vdot g v) (vsub (mvmul D g) g)) (vscale (vdot f v) (vsub (mvmul D f) f))) as T.
  rewrite !vnorm_vscale in *.
  pose proof (vnorm_nonneg (vsub (mvmul D e) e)). pose proof (vnorm_nonneg (vsub (mvmul D g) g)).
  pose proof (vnorm_nonneg (vsub (mvmul D f) f)). pose proof (vnorm_nonneg v).
  pose proof (Rabs_pos (vdot e v)). pose proof (Rabs_pos (vdot g v)). pose proof (Rabs_pos (vdot f v)).
  assert (Rabs (vdot e v) * vnorm (vsub (mvmul D e) e) <= vnorm v * a) by (apply Rmult_le_compat; lra).
  assert (Rabs (vdot g v) * vnorm (vsub (mvmul D g) g) <= vnorm v * b) by (apply Rmult_le_compat; lra).
  assert (Rabs (vdot f v) * vnorm (vsub (mvmul D f) f) <= vnorm v * (a + b)) by (apply Rmult_le_compat; lra).
  lra.
Qed.

Lemma hyp_range N d r c h : 0 <= h -> 0 <= c -> 0 <= N -> Rabs r <= c -> h * h = N * N * (c * c) + 2 * N * d * r + d * d ->
  N * c - Rabs d <= h <= N * c + Rabs d.
Proof.
  intros H0 C0 N0 R E. pose proof (Rabs_pos d) as D0.
  assert (D2 : d * d = Rabs d * Rabs d) by (rewrite <- Rabs_mult, Rabs_pos_eq; nra).
  assert (X : Rabs (d * r) <= Rabs d * c) by (rewrite Rabs_mult; apply Rmult_le_compat_l; lra).
  assert (X' : - (Rabs d * c) <= d * r <= Rabs d * c) by (unfold Rabs in X at 1; destruct (Rcase_abs (d * r)); lra).
  assert (Y : - (N * (Rabs d * c)) <= N * (d * r) <= N * (Rabs d * c)) by (split; nra).
  assert (NC : 0 <= N * c) by nra.
  split.
  - destruct (Rle_or_lt (N * c - Rabs d) h) as [L|L]; [exact L|]. exfalso.
    assert (h * h < (N * c - Rabs d) * (N * c - Rabs d)) by nra. nra.
  - destruct (Rle_or_lt h (N * c + Rabs d)) as [L|L]; [exact L|]. exfalso.
    assert ((N * c + Rabs d) * (N * c + Rabs d) < h * h) by nra. nra.
Qed.

Lemma Rabs_sqr_le r c : 0 <= c -> r * r <= c * c -> Rabs r <= c.
Proof. intros C H. apply Rabs_le. nra. Qed.

(** the common core of both extractions *)
Lemma euler_core_near r d (flip : bool) : SO3 r -> Rabs d <= 1 / 10 ->
  let m := madd (mscale (1 - d) r) (mscale d mid) in
  let r0 := atan2 (m10 m) (m00 m) in
  let c2 := sqrt (m22 m * m22 m + m21 m * m21 m) in
  let r0' := if flip then (if Rlt_dec 0 r0 then r0 - PI else r0 + PI) else r0 in
  let r1 := if flip then atan2 (- m20 m) (- c2) else atan2 (- m20 m) c2 in
  let r2 := atan2 (sin r0' * m02 m - cos r0' * m12 m) (cos r0' * m11 m - sin r0' * m01 m) in
  close (24 * Rabs d) (mmul (Rot_z r0') (mmul (Rot_y r1) (Rot_x r2))) r.
Proof.
  intros HR Hd m r0 c2 r0' r1 r2.
  assert (Dp : 0 <= Rabs d) by apply Rabs_pos.
  assert (Db : -1/10 <= d <= 1/10) by (unfold Rabs in Hd; destruct (Rcase_abs d); lra).
  assert (C20 : 0 <= c2) by apply sqrt_pos.
  assert (C22 : c2 * c2 = m22 m * m22 m + m21 m * m21 m) by (apply sqrt_sqrt; nra).
  (* polar forms *)
  set (s := if flip then -1 else 1).
  assert (SS : s * s = 1) by (unfold s; destruct flip; lra).
  assert (SA : Rabs s = 1) by (unfold s; destruct flip; [rewrite Rabs_left|rewrite Rabs_right]; lra).
  assert (PH : exists h, 0 <= h /\ h * h = m00 m * m00 m + m10 m * m10 m /\ s * h * cos r0' = m00 m /\ s * h * sin r0' = m10 m).
  { destruct (polar (m10 m) (m00 m)) as (h & H0 & H2 & HC & HS). fold r0 in HC, HS. exists h.
    split; [exact H0|]. split; [exact H2|]. unfold s, r0'. destruct flip; [|split; lra].
    destruct (Rlt_dec 0 r0).
    - replace (r0 - PI) with (- (PI - r0)) by ring.
      rewrite cos_neg, sin_neg, Rtrigo_facts.cos_pi_minus, Rtrigo_facts.sin_pi_minus. split; lra.
    - rewrite neg_cos, neg_sin. split; lra. }
  destruct PH as (h & H0 & H2 & HC & HS).
  assert (PY : exists y, 0 <= y /\ y * y = c2 * c2 + m20 m * m20 m /\ y * cos r1 = s * c2 /\ y * sin r1 = - m20 m).
  { unfold r1, s. destruct flip.
    - destruct (polar (- m20 m) (- c2)) as (y & Y0 & Y2 & YC & YS). exists y. repeat split; lra.
    - destruct (polar (- m20 m) c2) as (y & Y0 & Y2 & YC & YS). exists y. repeat split; lra. }
  destruct PY as (y & Y0 & Y2 & YC & YS).
  destruct (polar (sin r0' * m02 m - cos r0' * m12 m) (cos r0' * m11 m - sin r0' * m01 m)) as (rho & R0 & R2 & RC & RS).
  fold r2 in RC, RS.
  pose proof (sin2_cos2' r0') as T0. pose proof (sin2_cos2' r1) as T1. pose proof (sin2_cos2' r2) as T2.
  (* the matrix is at distance 2|d| of r, and so is its transpose *)
  assert (CM : forall v, vnorm (vsub (mvmul m v) (mvmul r v)) <= 2 * Rabs d * vnorm v).
  { intros v. unfold m.
    replace (vsub (mvmul (madd (mscale (1 - d) r) (mscale d mid)) v) (mvmul r v))
      with (vscale d (vsub (mvmul mid v) (mvmul r v))) by (clear; lin).
    rewrite vnorm_vscale. pose proof (close_2 mid r SO3_mid HR v). nra. }
  assert (CT : forall v, vnorm (vsub (mvmul (mtrans m) v) (mvmul (mtrans r) v)) <= 2 * Rabs d * vnorm v)
    by (apply (close_trans_mat (2 * Rabs d) m r CM)).
  assert (RT : SO3 (mtrans r)) by (apply SO3_trans, HR).
  (* sizes of h and c2 *)
  set (E := mmul (Rot_z r0') (mmul (Rot_y r1) (Rot_x r2))).
  assert (HE : SO3 E) by (unfold E; repeat apply SO3_mmul; auto using Rot_z_SO3, Rot_y_SO3, Rot_x_SO3).
  assert (COL : m00 r * m00 r + m10 r * m10 r + m20 r * m20 r = 1).
  { pose proof (SO3_inv_l _ HR) as I. apply (f_equal m00) in I. revert I. clear. destruct r. lin_unfold. intros; lra. }
  assert (ROW : m20 r * m20 r + m21 r * m21 r + m22 r * m22 r = 1).
  { pose proof (SO3_inv_r _ HR) as I. apply (f_equal m22) in I. revert I. clear. destruct r. lin_unfold. intros; lra. }
  set (c := sqrt (1 - m20 r * m20 r)).
  assert (c0 : 0 <= c) by apply sqrt_pos.
  assert (cc : c * c = 1 - m20 r * m20 r) by (apply sqrt_sqrt; nra).
  assert (HH : (1 - d) * c - Rabs d <= h <= (1 - d) * c + Rabs d).
  { apply hyp_range with (r := m00 r); try lra.
    - apply Rabs_sqr_le; [exact c0|nra].
    - rewrite H2, cc. replace (1 - m20 r * m20 r) with (m00 r * m00 r + m10 r * m10 r) by lra. unfold m. clear. destruct r; lin_unfold. ring. }
  assert (CC : (1 - d) * c - Rabs d <= c2 <= (1 - d) * c + Rabs d).
  { apply hyp_range with (r := m22 r); try lra.
    - apply Rabs_sqr_le; [exact c0|nra].
    - rewrite C22, cc. replace (1 - m20 r * m20 r) with (m22 r * m22 r + m21 r * m21 r) by lra. unfold m. clear. destruct r; lin_unfold. ring. }
  assert (HC2 : Rabs (c2 - h) <= 2 * Rabs d) by (apply Rabs_le; lra).
  (* y, the length of the last row *)
  assert (YN : y = vnorm (mvmul (mtrans m) ez)).
  { unfold vnorm. replace (vnorm2 (mvmul (mtrans m) ez)) with (y * y). { symmetry. apply sqrt_square, Y0. }
    rewrite Y2, C22. clear. destruct m. lin_unfold. ring. }
  assert (Nez : vnorm ez = 1) by (apply vnorm_unit; lin).
  assert (YB : 1 - 2 * Rabs d <= y <= 1 + 2 * Rabs d).
  { pose proof (CT ez) as K. pose proof K as K'. rewrite vnorm_sub_sym in K'. apply vnorm_le_add in K. apply vnorm_le_add in K'.
    rewrite <- YN, Nez, (SO3_vnorm _ _ RT), Nez in *. lra. }
  assert (Yp : 0 < y) by lra.
  (* first axis *)
  assert (A1 : vnorm (vsub (mvmul E ex) (mvmul r ex)) <= 8 * Rabs d).
  { eapply Rle_trans; [apply vnorm_sub_triang with (b := mvmul m ex)|].
    pose proof (CM ex) as K. replace (vnorm ex) with 1 in K by (symmetry; apply vnorm_unit; lin).
    assert (EX : vsub (mvmul E ex) (mvmul m ex) =
      vadd (vscale (cos r1 - s * h) (mkV3 (cos r0') (sin r0') 0)) (vscale (- sin r1 - m20 m) ez)).
    { assert (E1 : mvmul E ex = mkV3 (cos r0' * cos r1) (sin r0' * cos r1) (- sin r1)).
      { unfold E. spec_unfold. lin_unfold. f_equal; ring. }
      assert (E2 : mvmul m ex = mkV3 (s * h * cos r0') (s * h * sin r0') (m20 m)).
      { rewrite HC, HS. clear. destruct m. lin_unfold. f_equal; ring. }
      rewrite E1, E2. lin_unfold. f_equal; ring. }
    rewrite EX.
    pose proof (vnorm_triang (vscale (cos r1 - s * h) (mkV3 (cos r0') (sin r0') 0)) (vscale (- sin r1 - m20 m) ez)) as T.
    rewrite !vnorm_vscale, Nez in T.
    replace (vnorm (mkV3 (cos r0') (sin r0') 0)) with 1 in T by (symmetry; apply vnorm_unit; lin_unfold; lra).
    assert (B1 : Rabs (cos r1 - s * h) <= Rabs (1 - y) + 2 * Rabs d).
    { replace (cos r1 - s * h) with ((1 - y) * cos r1 + s * (c2 - h)) by (replace (s * (c2 - h)) with (s * c2 - s * h) by ring; rewrite <- YC; ring).
      eapply Rle_trans; [apply Rabs_triang|]. rewrite !Rabs_mult, SA.
      assert (Rabs (cos r1) <= 1) by (apply Rabs_le, COS_bound). pose proof (Rabs_pos (1 - y)). nra. }
    assert (B2 : Rabs (- sin r1 - m20 m) <= Rabs (1 - y)).
    { replace (- sin r1 - m20 m) with ((y - 1) * sin r1) by lra.
      rewrite Rabs_mult, (Rabs_minus_sym y 1).
      assert (Rabs (sin r1) <= 1) by (apply Rabs_le, SIN_bound). pose proof (Rabs_pos (1 - y)). nra. }
    assert (Rabs (1 - y) <= 2 * Rabs d) by (apply Rabs_le; lra).
    lra. }
  (* second axis *)
  set (f := mkV3 (- sin r0') (cos r0') 0). set (g := mkV3 0 (cos r2) (- sin r2)).
  assert (Nf : vnorm f = 1) by (apply vnorm_unit; unfold f; lin_unfold; lra).
  assert (Ng : vnorm g = 1) by (apply vnorm_unit; unfold g; lin_unfold; lra).
  assert (Eg : mvmul E g = f).
  { unfold E, f, g. rewrite !mvmul_mmul.
    replace (mvmul (Rot_x r2) (mkV3 0 (cos r2) (- sin r2))) with ey.
    2:{ unfold Rot_x. lin_unfold. f_equal; try ring. rewrite <- T2. ring. }
    unfold Rot_y, Rot_z. lin_unfold. f_equal; ring. }
  assert (Mf : mvmul (mtrans m) f = vscale rho g).
  { unfold f, g. transitivity (mkV3 (- sin r0' * m00 m + cos r0' * m10 m) (cos r0' * m11 m - sin r0' * m01 m) (- (sin r0' * m02 m - cos r0' * m12 m))).
    - clear. destruct m. lin_unfold. f_equal; ring.
    - rewrite <- RC, <- RS, <- HC, <- HS. unfold vscale; cbn [vx vy vz]. f_equal; ring. }
  assert (A2 : vnorm (vsub g (mvmul (mtrans r) f)) <= 4 * Rabs d).
  { pose proof (CT f) as K. rewrite Nf in K.
    assert (RB : rho = vnorm (mvmul (mtrans m) f)) by (rewrite Mf, vnorm_vscale, Ng, Rabs_pos_eq; lra).
    pose proof K as K1. pose proof K as K2. rewrite vnorm_sub_sym in K2. apply vnorm_le_add in K1. apply vnorm_le_add in K2.
    rewrite (SO3_vnorm _ _ RT), Nf, <- RB in *.
    eapply Rle_trans; [apply vnorm_sub_triang with (b := mvmul (mtrans m) f)|].
    rewrite Mf at 1. replace (vsub g (vscale rho g)) with (vscale (1 - rho) g) by (generalize g; clear; lin).
    rewrite vnorm_vscale, Ng. assert (Rabs (1 - rho) <= 2 * Rabs d) by (apply Rabs_le; lra). lra. }
  apply close_sym. apply close_inv_SO3; [exact HR|exact HE|].
  replace (24 * Rabs d) with (2 * (8 * Rabs d + 4 * Rabs d)) by ring.
  apply close_two_axes with (e := ex) (g := g).
  - apply SO3_mmul; assumption.
  - lin.
  - apply vnorm_unit, Ng.
  - unfold g. lin.
  - rewrite mvmul_mmul. rewrite <- (SO3_vnorm r (vsub (mvmul (mtrans r) (mvmul E ex)) ex) HR).
    replace (mvmul r (vsub (mvmul (mtrans r) (mvmul E ex)) ex)) with (vsub (mvmul (mmul r (mtrans r)) (mvmul E ex)) (mvmul r ex))
      by (generalize (mvmul E ex); clear; lin).
    rewrite (SO3_inv_r _ HR), mvmul_id. exact A1.
  - rewrite mvmul_mmul, Eg, vnorm_sub_sym. exact A2.
Qed.

Lemma quat_to_zyx_near q : Rabs (1 - qnorm2 q) <= 1 / 10 ->
  close (24 * Rabs (1 - qnorm2 q)) (zyx_rot (quat_to_zyx q)) (rot_of q).
Proof.
  intros H. assert (N0 : 0 < qnorm2 q) by (unfold Rabs in H; destruct (Rcase_abs (1 - qnorm2 q)); lra).
  pose proof (rot_of_SO3 q N0) as HR. unfold quat_to_zyx. rewrite (e_toRot_rot_of q N0).
  replace (mscale (qnorm2 q) (rot_of q)) with (mscale (1 - (1 - qnorm2 q)) (rot_of q)) by (f_equal; ring).
  set (d := 1 - qnorm2 q) in *. unfold e_eulerAngles_210, e_eulerAngles_core.
  set (m := madd (mscale (1 - d) (rot_of q)) (mscale d mid)).
  pose proof (fun fl => euler_core_near (rot_of q) d fl HR H) as C. cbv zeta in C. fold m in C.
  unfold zyx_rot; cbn [zyaw zpitch zroll vx vy vz]. apply C.
Qed.

Definition swap02 (m : M33) : M33 :=
  mkM33 (m22 m) (m21 m) (m20 m) (m12 m) (m11 m) (m10 m) (m02 m) (m01 m) (m00 m).
Definition vswap (v : V3) : V3 := mkV3 (vz v) (vy v) (vx v).
Lemma swap02_mv m v : mvmul (swap02 m) v = vswap (mvmul m (vswap v)).
Proof. unfold swap02, vswap. lin. Qed.
Lemma vnorm_vswap v : vnorm (vswap v) = vnorm v.
Proof. unfold vnorm, vswap. f_equal. lin. Qed.
Lemma swap02_close d a b : close d a b -> close d (swap02 a) (swap02 b).
Proof.
  intros H v. rewrite !swap02_mv.
  replace (vsub (vswap (mvmul a (vswap v))) (vswap (mvmul b (vswap v)))) with (vswap (vsub (mvmul a (vswap v)) (mvmul b (vswap v))))
    by (unfold vswap; lin).
  rewrite vnorm_vswap. rewrite <- (vnorm_vswap v). apply H.
Qed.
Lemma swap02_swap02 m : swap02 (swap02 m) = m. Proof. destruct m; reflexivity. Qed.
Lemma swap02_mul a b : swap02 (mmul a b) = mmul (swap02 a) (swap02 b).
Proof. unfold swap02. lin. Qed.
Lemma swap02_SO3 m : SO3 m -> SO3 (swap02 m).
Proof.
  intros [A B]. split.
  - replace (mtrans (swap02 m)) with (swap02 (mtrans m)) by (unfold swap02; lin). rewrite <- swap02_mul, A. reflexivity.
  - rewrite <- B. unfold swap02. lin.
Qed.
Lemma quat_to_xyz_near q : Rabs (1 - qnorm2 q) <= 1 / 10 ->
  close (24 * Rabs (1 - qnorm2 q)) (xyz_rot (quat_to_xyz q)) (rot_of q).
Proof.
  intros H. assert (N0 : 0 < qnorm2 q) by (unfold Rabs in H; destruct (Rcase_abs (1 - qnorm2 q)); lra).
  pose proof (swap02_SO3 _ (rot_of_SO3 q N0)) as HR. unfold quat_to_xyz. rewrite (e_toRot_rot_of q N0).
  replace (mscale (qnorm2 q) (rot_of q)) with (mscale (1 - (1 - qnorm2 q)) (rot_of q)) by (f_equal; ring).
  set (d := 1 - qnorm2 q) in *. unfold e_eulerAngles_012, e_eulerAngles_core.
  set (m := madd (mscale (1 - d) (rot_of q)) (mscale d mid)).
  pose proof (fun fl => swap02_close _ _ _ (euler_core_near (swap02 (rot_of q)) d fl HR H)) as C. cbv zeta in C.
  replace (madd (mscale (1 - d) (swap02 (rot_of q))) (mscale d mid)) with (swap02 m) in C
    by (unfold m, swap02; generalize (rot_of q); clear; lin).
  rewrite swap02_swap02 in C.
  assert (X : forall a b c, swap02 (mmul (Rot_z a) (mmul (Rot_y b) (Rot_x c))) = xyz_rot (mkXyz (- a) (- b) (- c))).
  { intros. rewrite !swap02_mul. unfold xyz_rot; cbn [xroll xpitch xyaw].
    rewrite Rot_z_neg, Rot_x_neg, Rot_y_neg. unfold Rot_x, Rot_y, Rot_z, swap02. lin. }
  setoid_rewrite X in C. cbn [vx vy vz]. unfold swap02 in C; cbn [m00 m01 m02 m10 m11 m12 m20 m21 m22] in C. apply C.
Qed.
