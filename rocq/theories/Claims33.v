(** Claims about the second-order mappings of EulerAnglesXyzDiff in floating-point
    arithmetic (C86). *)
From Coq Require Import ZArith Reals Lra Psatz Bool List Lia Permutation.
From Flocq Require Import IEEE754.BinarySingleNaN Core.Core.
From Verif Require Import Linalg Spec SpecFacts SpecClose SpecDiff ModelDiff DerivFacts DiffFacts DiffFacts2 ModelCommon ModelEigen CommonFacts CloseFacts
  FloatModel FloatFacts FloatWrap FloatModel2 SpecFloatQ FloatQFacts FloatQProd FloatQHist FloatQRot FloatMHist FloatCast FloatModel3 SpecLibm SpecBuild FloatBuild FloatBuild4 FloatModel4 FloatModel5 FloatPose FloatModel6 FloatMat Claims16 FloatModel12 FloatDiff2 FloatDiff3 FloatJac FloatJac2 FloatModel15 SpecSecond FloatSecond FloatSecond2 Claims4 Claims28 Claims30 FloatExt3.
Import ListNotations.
Local Open Scope R_scope.

(** there is only one such matrix *)
Lemma mat_ext a b : (forall d, mvmul a d = mvmul b d) -> a = b.
Proof.
  intro H. pose proof (H (mkV3 1 0 0)) as H0. pose proof (H (mkV3 0 1 0)) as H1. pose proof (H (mkV3 0 0 1)) as H2. destruct a, b. unfold mvmul in *. cbn in *.
  injection H0 as A0 A1 A2; injection H1 as B0 B1 B2; injection H2 as C0 C1 C2. f_equal; lra.
Qed.
Lemma only_local A e : gives_local A -> A e = xyz_diff_to_local e.
Proof.
  intro H. apply mat_ext. intro d. destruct (line_xyz_ok e d) as [E D]. pose proof (H _ _ _ D) as H1. pose proof (xyz_curve_local _ _ _ D) as H2. rewrite E in H1, H2.
  exact (local_velocity_uniq _ 0 _ _ (xyz_rot_SO3 (line_xyz e d 0)) H1 H2).
Qed.
Lemma only_global A e : gives_global A -> A e = xyz_diff_to_global e.
Proof.
  intro H. apply mat_ext. intro d. destruct (line_xyz_ok e d) as [E D]. pose proof (H _ _ _ D) as H1. pose proof (xyz_curve_global _ _ _ D) as H2. rewrite E in H1, H2.
  exact (global_velocity_uniq _ 0 _ _ (xyz_rot_SO3 (line_xyz e d 0)) H1 H2).
Qed.
Lemma the_local : gives_local xyz_diff_to_local. Proof. exact xyz_curve_local. Qed.
Lemma the_global : gives_global xyz_diff_to_global. Proof. exact xyz_curve_global. Qed.
Lemma mmul_mid_r' m : mmul m mid = m. Proof. destruct m; lin. Qed.
Lemma mmul_mid_l' m : mmul mid m = m. Proof. destruct m; lin. Qed.
Lemma mmul_assoc3 a b c : mmul (mmul a b) c = mmul a (mmul b c). Proof. destruct a, b, c; lin. Qed.
Lemma only_local_inv A B e : gives_local A -> inverts B A -> cos (xpitch e) <> 0 -> xyz_local_to_diff e = Val (B e).
Proof.
  intros H I N. specialize (I e N). rewrite (only_local A e H) in I. destruct (xyz_local_to_diff e) as [M| |] eqn:E; [|exfalso; exact (xyz_local_no_nan _ E)|exfalso; apply N; now apply xyz_local_throws].
  destruct (xyz_local_inverse _ _ E) as (_ & _ & R). f_equal. rewrite <- (mmul_mid_l' M), <- I, mmul_assoc3, R. apply mmul_mid_r'.
Qed.
Lemma only_global_inv A B e : gives_global A -> inverts B A -> cos (xpitch e) <> 0 -> xyz_global_to_diff e = Val (B e).
Proof.
  intros H I N. specialize (I e N). rewrite (only_global A e H) in I. destruct (xyz_global_to_diff e) as [M| |] eqn:E; [|exfalso; exact (xyz_global_no_nan _ E)|exfalso; apply N; now apply xyz_global_throws].
  destruct (xyz_global_inverse _ _ E) as (_ & _ & R). f_equal. rewrite <- (mmul_mid_l' M), <- I, mmul_assoc3, R. apply mmul_mid_r'.
Qed.
(** the pitch stays away from gimbal lock for a while *)
Lemma near_nonzero (f : R -> R) t l : derivable_pt_lim f t l -> cos (f t) <> 0 -> exists eps, 0 < eps /\ forall s, Rabs (s - t) < eps -> cos (f s) <> 0.
Proof.
  intros D N. assert (C : continuity_pt (fun s => cos (f s)) t).
  { apply (continuity_pt_comp f cos); [|apply derivable_continuous, derivable_cos]. apply derivable_continuous_pt. exists l. exact D. }
  destruct (C (Rabs (cos (f t))) (Rabs_pos_lt _ N)) as (eps & P & H). exists eps. split; [exact P|]. intros s Hs E.
  destruct (Req_dec t s) as [<-|NE]; [contradiction|]. specialize (H s). cbn in H. unfold R_dist in H. rewrite E in H.
  replace (0 - cos (f t)) with (- cos (f t)) in H by ring. rewrite Rabs_Ropp in H. assert (Rabs (cos (f t)) < Rabs (cos (f t))); [|lra]. apply H. split; [split; [exact I|exact NE]|exact Hs].
Qed.
Lemma tiny_eq : bpow radix2 (-100) = / 2 ^ 100.
Proof. rewrite <- bpow_nat. change (Z.of_nat 100) with 100%Z. change (-100)%Z with (Z.opp 100). apply bpow_opp. Qed.

(** C86: getMappingFromSecondDiffToLocalAngularVelocity and ...ToGlobalAngularVelocity.
    A is the matrix that takes rates of the angles to the angular velocity; the angles
    and the rates of a motion are exactly those of the objects. Then the computed
    matrix is the time derivative of A along the motion, up to 44 roundings of the
    length of the rates. *)
Lemma C86_forward_lemma : forall (p : prim) (L : libm) (o : second_choices) (x y z : fl p) (d : FV p) (A : Xyz -> M33) (c : R -> Xyz) (t : R),
  libm_ok L -> second_ok o -> is_finite x = true -> is_finite y = true -> is_finite z = true -> vfinite d -> vnorm (vval d) <= 1000 ->
  c t = mkXyz (B2R x) (B2R y) (B2R z) -> Xyzderiv c t (vval d) ->
  (gives_local A -> exists m, Mderiv (fun s => A (c s)) t m /\
    mfinite (fxyz_second_to_local L o x y z d) /\ close (44 * roundoff p * (vnorm (vval d) + / 2 ^ 100)) (mval (fxyz_second_to_local L o x y z d)) m) /\
  (gives_global A -> exists m, Mderiv (fun s => A (c s)) t m /\
    mfinite (fxyz_second_to_global L o x y z d) /\ close (44 * roundoff p * (vnorm (vval d) + / 2 ^ 100)) (mval (fxyz_second_to_global L o x y z d)) m).
Proof.
  intros p L o x y z d A c t HL HO Fx Fy Fz Fd HD C D. rewrite roundoff_fu, <- tiny_eq. destruct (C36_second_order_forward_lemma c t _ D) as [DL DG].
  pose proof (fu_pos p) as U. pose proof (vn_nonneg (vval d)). pose proof (bpow_gt_0 radix2 (-100)) as T. set (b := bpow radix2 (-100)) in *.
  assert (W : 49/16 * (141/10 * (1 * fu p * (vnorm (vval d) + b))) <= 44 * fu p * (vnorm (vval d) + b)) by (assert (0 <= fu p * (vnorm (vval d) + b)) by (apply Rmult_le_pos; lra); lra).
  split; intro H1; eexists.
  - split. { apply (Mderiv_ext (fun s => xyz_diff_to_local (c s))); [|exact DL]. intro s. symmetry. apply only_local, H1. }
    rewrite C. destruct (every_close _ _ _ _ (second_to_local_ok p L HL o HO x y z d Fx Fy Fz Fd HD)) as [F E]. split; [exact F|]. eapply close_mono; [|exact E]. exact W.
  - split. { apply (Mderiv_ext (fun s => xyz_diff_to_global (c s))); [|exact DG]. intro s. symmetry. apply only_global, H1. }
    rewrite C. destruct (every_close _ _ _ _ (second_to_global_ok p L HL o HO x y z d Fx Fy Fz Fd HD)) as [F E]. split; [exact F|]. eapply close_mono; [|exact E]. exact W.
Qed.
Definition std_second : second_choices := mkSC two_products two_products two_products two_products two_products two_products.
Lemma std_second_ok : second_ok std_second.
Proof. repeat split; apply Permutation_refl. Qed.
Lemma fvec212_1000 : vnorm (vval fvec212) <= 1000.
Proof. rewrite fvec212_norm. lra. Qed.
Lemma C86_forward_ex : libm_ok exact_libm /\ second_ok std_second /\ vfinite fvec212 /\ vnorm (vval fvec212) <= 1000 /\
  path_xyz 1 = mkXyz (B2R (fofZ F32 1)) (B2R (fofZ F32 1)) (B2R (fofZ F32 2)) /\ Xyzderiv path_xyz 1 (vval fvec212) /\ (exists A, gives_local A) /\ (exists A, gives_global A).
Proof.
  split; [apply exact_libm_ok|]. split; [apply std_second_ok|]. split; [apply fvec212_val|]. split; [apply fvec212_1000|]. split; [apply path_xyz_ok|]. split; [apply path_xyz_ok|].
  split; eexists; [exact the_local|exact the_global].
Qed.

(** C86: getMappingFromLocalAngularVelocityToSecondDiff and the global one, away from
    gimbal lock: B is the inverse of A; there is no exception, and the computed matrix
    is the time derivative of B along the motion up to 111 roundings of the length of
    the rates, divided by the cube of the cosine of the pitch. *)
Lemma C86_inverse_lemma : forall (p : prim) (L : libm) (o : second_choices) (x y z : fl p) (d : FV p) (A B : Xyz -> M33) (c : R -> Xyz) (t : R),
  libm_ok L -> second_ok o -> is_finite x = true -> is_finite y = true -> is_finite z = true -> vfinite d -> vnorm (vval d) <= 1000 ->
  c t = mkXyz (B2R x) (B2R y) (B2R z) -> Xyzderiv c t (vval d) -> 1000 * roundoff p <= Rabs (cos (B2R y)) -> inverts B A ->
  let err := 111 * roundoff p * (vnorm (vval d) + / 2 ^ 100) / Rabs (cos (B2R y)) ^ 3 in
  (gives_local A -> exists f m, fxyz_local_to_second L o x y z d = Some f /\ Mderiv (fun s => B (c s)) t m /\ mfinite f /\ close err (mval f) m) /\
  (gives_global A -> exists f m, fxyz_global_to_second L o x y z d = Some f /\ Mderiv (fun s => B (c s)) t m /\ mfinite f /\ close err (mval f) m).
Proof.
  intros p L o x y z d A B c t HL HO Fx Fy Fz Fd HD C D HC HI. cbv zeta. rewrite roundoff_fu in *. rewrite <- tiny_eq.
  pose proof (fu_pos p) as U. pose proof (vn_nonneg (vval d)). pose proof (bpow_gt_0 radix2 (-100)) as T. set (b := bpow radix2 (-100)) in *. set (nd := vnorm (vval d)) in *. set (k := Rabs (cos (B2R y))) in *.
  assert (k0 : 0 < k) by lra. assert (N : cos (xpitch (c t)) <> 0) by (rewrite C; cbn [xpitch]; intro E; unfold k in k0; rewrite E, Rabs_R0 in k0; lra).
  assert (W : 49/16 * (36 * (/ k * fu p * ((nd + b) * (/ k * / k)))) <= 111 * fu p * (nd + b) / k ^ 3).
  { replace (49/16 * (36 * (/ k * fu p * ((nd + b) * (/ k * / k))))) with (49/16 * 36 * (fu p * (nd + b) / k ^ 3)) by (field; lra).
    replace (111 * fu p * (nd + b) / k ^ 3) with (111 * (fu p * (nd + b) / k ^ 3)) by (unfold Rdiv; ring). apply Rmult_le_compat_r; [|lra].
    apply Rmult_le_pos; [apply Rmult_le_pos; lra|]. left. apply Rinv_0_lt_compat, pow_lt, k0. }
  destruct (near_nonzero (fun s => xpitch (c s)) t (vy (vval d)) (proj1 (proj2 D)) N) as (eps & P & NZ).
  destruct (C36_second_order_inverse_lemma c t (vval d) (fun s => B (c s)) eps D P) as [DL DG].
  split; intro HG.
  - destruct (local_to_second_ok p L HL o HO x y z d Fx Fy Fz Fd HD HC) as (f & E & n & EN & EV). exists f, n. split; [exact E|].
    destruct DL as (m & EM & DM); [intros s Hs; apply (only_local_inv A B (c s) HG HI); exact (NZ s Hs)|]. rewrite C, EN in EM. injection EM as <-. split; [exact DM|].
    destruct (every_close _ _ _ _ EV) as [F X]. split; [exact F|]. eapply close_mono; [exact W|exact X].
  - destruct (global_to_second_ok p L HL o HO x y z d Fx Fy Fz Fd HD HC) as (f & E & n & EN & EV). exists f, n. split; [exact E|].
    destruct DG as (m & EM & DM); [intros s Hs; apply (only_global_inv A B (c s) HG HI); exact (NZ s Hs)|]. rewrite C, EN in EM. injection EM as <-. split; [exact DM|].
    destruct (every_close _ _ _ _ EV) as [F X]. split; [exact F|]. eapply close_mono; [exact W|exact X].
Qed.
Definition the_local_inv (e : Xyz) : M33 := match xyz_local_to_diff e with Val m => m | _ => mid end.
Definition the_global_inv (e : Xyz) : M33 := match xyz_global_to_diff e with Val m => m | _ => mid end.
Lemma the_local_inverts : inverts the_local_inv xyz_diff_to_local.
Proof.
  intros e N. unfold the_local_inv. destruct (xyz_local_to_diff e) as [M| |] eqn:E; [apply (xyz_local_inverse _ _ E)|exfalso; exact (xyz_local_no_nan _ E)|exfalso; apply N; now apply xyz_local_throws].
Qed.
Lemma the_global_inverts : inverts the_global_inv xyz_diff_to_global.
Proof.
  intros e N. unfold the_global_inv. destruct (xyz_global_to_diff e) as [M| |] eqn:E; [apply (xyz_global_inverse _ _ E)|exfalso; exact (xyz_global_no_nan _ E)|exfalso; apply N; now apply xyz_global_throws].
Qed.
Lemma cos1_1000 : 1000 * roundoff F32 <= Rabs (cos (B2R (fofZ F32 1))).
Proof.
  rewrite (proj2 (fofZ1 F32)), roundoff_fu, fu_32. rewrite Rabs_pos_eq by (left; apply cos_gt_0; pose proof PI2_1; pose proof PI_RGT_0; lra).
  assert (cos (PI / 3) <= cos 1). { apply cos_decr_1; try (pose proof PI_4; pose proof PI2_1; lra). pose proof PI2_3_2. lra. }
  rewrite cos_PI3 in H. lra.
Qed.
Lemma C86_inverse_ex : vnorm (vval fvec212) <= 1000 /\ path_xyz 1 = mkXyz (B2R (fofZ F32 1)) (B2R (fofZ F32 1)) (B2R (fofZ F32 2)) /\ Xyzderiv path_xyz 1 (vval fvec212) /\
  1000 * roundoff F32 <= Rabs (cos (B2R (fofZ F32 1))) /\ (exists A B, gives_local A /\ inverts B A) /\ (exists A B, gives_global A /\ inverts B A).
Proof.
  split; [apply fvec212_1000|]. split; [apply path_xyz_ok|]. split; [apply path_xyz_ok|]. split; [exact cos1_1000|].
  split; [exists xyz_diff_to_local, the_local_inv; split; [exact the_local|exact the_local_inverts]|exists xyz_diff_to_global, the_global_inv; split; [exact the_global|exact the_global_inverts]].
Qed.

(** C86: the exception is thrown exactly when the math library returns zero for the
    cosine of the pitch; then the true cosine is at most 2 roundings. *)
Lemma C86_gimbal_lemma : forall (p : prim) (L : libm) (o : second_choices) (x y z : fl p) (d : FV p), libm_ok L -> is_finite y = true ->
  ((fxyz_local_to_second L o x y z d = None <-> B2R (lcos L p y) = 0) /\ (fxyz_global_to_second L o x y z d = None <-> B2R (lcos L p y) = 0)) /\
  (B2R (lcos L p y) = 0 -> Rabs (cos (B2R y)) <= 2 * roundoff p).
Proof.
  intros p L o x y z d HL Fy. destruct (lcos_ok p L HL y Fy) as [FC _]. split.
  - unfold fxyz_local_to_second, fxyz_global_to_second. cbv zeta. rewrite <- (feq_zero p _ FC). destruct (feq (lcos L p y) fzero); repeat split; intro; try reflexivity; try discriminate.
  - apply (C83_gimbal_lemma p L std3 x y z d HL Fy).
Qed.
Lemma C86_gimbal_ex : libm_ok zero_libm /\ fxyz_local_to_second zero_libm std_second (fofZ F32 1) half_pi (fofZ F32 2) fvec212 = None /\
  libm_ok exact_libm /\ fxyz_global_to_second exact_libm std_second (fofZ F32 1) (fofZ F32 1) (fofZ F32 2) fvec212 <> None.
Proof.
  split; [exact zero_libm_ok|]. split.
  - apply (C86_gimbal_lemma F32 zero_libm std_second _ half_pi _ fvec212 zero_libm_ok (proj1 half_pi_val)). cbn [lcos zero_libm]. destruct (Rle_dec _ _) as [_|N]; [reflexivity|exfalso; exact (N half_pi_cos)].
  - split; [apply exact_libm_ok|]. destruct (fofZ1 F32) as [F1 _]. destruct (fofZ2 F32) as [F2 _]. pose proof cos1_1000 as K. rewrite roundoff_fu in K.
    destruct (global_to_second_ok F32 exact_libm exact_libm_ok std_second std_second_ok (fofZ F32 1) (fofZ F32 1) (fofZ F32 2) fvec212 F1 F1 F2 (proj1 fvec212_val) fvec212_1000 K) as (f & E & _). rewrite E. discriminate.
Qed.

(** C86, what the mappings are for: along a twice differentiable motion with the rates
    r and the angular velocity w, the angular acceleration is A times the second
    derivative of the angles plus the computed matrix times the rates; *)
Lemma Mderiv_prod M m v a t : Mderiv M t m -> Vderiv v t a -> Vderiv (fun s => mvmul (M s) (v s)) t (vadd (mvmul (M t) a) (mvmul m (v t))).
Proof.
  intros ((L1&L2&L3)&(L4&L5&L6)&(L7&L8&L9)) (A0 & A1 & A2). unfold Vderiv, mvmul, vadd. cbn [vx vy vz]. repeat split; dl_solve; ring.
Qed.
Lemma Vderiv_near f g t a eps : 0 < eps -> (forall s, Rabs (s - t) < eps -> f s = g s) -> Vderiv f t a -> Vderiv g t a.
Proof.
  intros P E (A0 & A1 & A2). split; [|split]; [eapply derivable_pt_lim_locally_ext with (f := fun s => vx (f s)) (a := t - eps) (b := t + eps)|eapply derivable_pt_lim_locally_ext with (f := fun s => vy (f s)) (a := t - eps) (b := t + eps)|eapply derivable_pt_lim_locally_ext with (f := fun s => vz (f s)) (a := t - eps) (b := t + eps)];
    try eassumption; try lra; intros s Hs; rewrite E; try reflexivity; apply Rabs_def1; lra.
Qed.
Lemma Vderiv_uniq f t a b : Vderiv f t a -> Vderiv f t b -> a = b.
Proof. intros (A0 & A1 & A2) (B0 & B1 & B2). destruct a, b; cbn in *. f_equal; eapply uniqueness_limite; eassumption. Qed.
Lemma accel_close e (f m A : M33) (u v a : V3) : close e f m -> a = vadd (mvmul A u) (mvmul m v) -> vdist (vadd (mvmul A u) (mvmul f v)) a <= e * vnorm v.
Proof.
  intros H ->. unfold vdist. replace (vsub (vadd (mvmul A u) (mvmul f v)) (vadd (mvmul A u) (mvmul m v))) with (vsub (mvmul f v) (mvmul m v)); [apply H|].
  generalize (mvmul A u) (mvmul f v) (mvmul m v). clear. intros [a0 a1 a2] [b0 b1 b2] [c0 c1 c2]. unfold vadd, vsub; cbn [vx vy vz]. f_equal; ring.
Qed.
Lemma C86_acceleration_lemma : forall (p : prim) (L : libm) (o : second_choices) (x y z : fl p) (d : FV p) (A : Xyz -> M33) (c : R -> Xyz) (r w : R -> V3) (t : R) (acc alpha : V3),
  libm_ok L -> second_ok o -> is_finite x = true -> is_finite y = true -> is_finite z = true -> vfinite d -> vnorm (vval d) <= 1000 ->
  c t = mkXyz (B2R x) (B2R y) (B2R z) -> (forall s, Xyzderiv c s (r s)) -> r t = vval d -> Vderiv r t acc -> Vderiv w t alpha ->
  let err := 44 * roundoff p * (vnorm (vval d) + / 2 ^ 100) * vnorm (vval d) in
  (gives_local A -> (forall s, has_local_velocity (fun s => xyz_rot (c s)) s (w s)) ->
    vdist (vadd (mvmul (A (c t)) acc) (mvmul (mval (fxyz_second_to_local L o x y z d)) (vval d))) alpha <= err) /\
  (gives_global A -> (forall s, has_global_velocity (fun s => xyz_rot (c s)) s (w s)) ->
    vdist (vadd (mvmul (A (c t)) acc) (mvmul (mval (fxyz_second_to_global L o x y z d)) (vval d))) alpha <= err).
Proof.
  intros p L o x y z d A c r w t acc alpha HL HO Fx Fy Fz Fd HD C DC RT DR DW. cbv zeta. pose proof (DC t) as D. rewrite RT in D.
  destruct (C86_forward_lemma p L o x y z d A c t HL HO Fx Fy Fz Fd HD C D) as [FL FG]. split; intros HA HV.
  - destruct (FL HA) as (m & DM & _ & CL). apply (accel_close _ _ m); [exact CL|]. apply (Vderiv_uniq w t); [exact DW|]. rewrite <- RT.
    apply (Vderiv_near (fun s => mvmul (A (c s)) (r s)) w t _ 1); [lra| |apply Mderiv_prod; assumption]. intros s _. symmetry. exact (local_velocity_uniq _ s _ _ (xyz_rot_SO3 (c s)) (HV s) (HA c s (r s) (DC s))).
  - destruct (FG HA) as (m & DM & _ & CL). apply (accel_close _ _ m); [exact CL|]. apply (Vderiv_uniq w t); [exact DW|]. rewrite <- RT.
    apply (Vderiv_near (fun s => mvmul (A (c s)) (r s)) w t _ 1); [lra| |apply Mderiv_prod; assumption]. intros s _. symmetry. exact (global_velocity_uniq _ s _ _ (xyz_rot_SO3 (c s)) (HV s) (HA c s (r s) (DC s))).
Qed.
Definition path_rates (s : R) : V3 := mkV3 (2 * s) 1 2.
Lemma path_rates_ok : (forall s, Xyzderiv path_xyz s (path_rates s)) /\ path_rates 1 = vval fvec212 /\ Vderiv path_rates 1 (mkV3 2 0 0).
Proof.
  rewrite (proj2 fvec212_val). split; [|split].
  - intro s. unfold Xyzderiv, path_xyz, path_rates; cbn [xyaw xpitch xroll vx vy vz]; repeat split; dl_solve; ring.
  - unfold path_rates. f_equal; ring.
  - unfold Vderiv, path_rates; cbn [vx vy vz]; repeat split; dl_solve; ring.
Qed.
Definition path_local (s : R) : V3 := mvmul (xyz_diff_to_local (path_xyz s)) (path_rates s).
Definition path_global (s : R) : V3 := mvmul (xyz_diff_to_global (path_xyz s)) (path_rates s).
Lemma path_velocities : (forall s, has_local_velocity (fun s => xyz_rot (path_xyz s)) s (path_local s)) /\ (forall s, has_global_velocity (fun s => xyz_rot (path_xyz s)) s (path_global s)) /\
  (exists a, Vderiv path_local 1 a) /\ (exists a, Vderiv path_global 1 a).
Proof.
  destruct path_rates_ok as (D & E & DD). pose proof (D 1) as D1. destruct (C36_second_order_forward_lemma _ _ _ D1) as [M1 M2].
  split; [intro s; apply the_local, D|]. split; [intro s; apply the_global, D|]. split; eexists; unfold path_local, path_global; apply Mderiv_prod; eassumption.
Qed.
Lemma C86_acceleration_ex : path_xyz 1 = mkXyz (B2R (fofZ F32 1)) (B2R (fofZ F32 1)) (B2R (fofZ F32 2)) /\ (forall s, Xyzderiv path_xyz s (path_rates s)) /\ path_rates 1 = vval fvec212 /\ Vderiv path_rates 1 (mkV3 2 0 0) /\
  (exists w a, Vderiv w 1 a /\ forall s, has_local_velocity (fun s => xyz_rot (path_xyz s)) s (w s)) /\ (exists w a, Vderiv w 1 a /\ forall s, has_global_velocity (fun s => xyz_rot (path_xyz s)) s (w s)).
Proof.
  destruct path_rates_ok as (D & E & DD). destruct path_velocities as (V1 & V2 & (a1 & A1) & (a2 & A2)). split; [apply path_xyz_ok|]. repeat (split; [assumption|]).
  split; [exists path_local, a1|exists path_global, a2]; split; assumption.
Qed.
(** C86: ... and the second derivative of the angles is B times the angular
    acceleration plus the computed matrix times the angular velocity. *)
Lemma C86_second_derivative_lemma : forall (p : prim) (L : libm) (o : second_choices) (x y z : fl p) (d : FV p) (A B : Xyz -> M33) (c : R -> Xyz) (r w : R -> V3) (t : R) (acc alpha : V3),
  libm_ok L -> second_ok o -> is_finite x = true -> is_finite y = true -> is_finite z = true -> vfinite d -> vnorm (vval d) <= 1000 ->
  c t = mkXyz (B2R x) (B2R y) (B2R z) -> (forall s, Xyzderiv c s (r s)) -> r t = vval d -> Vderiv r t acc -> Vderiv w t alpha ->
  1000 * roundoff p <= Rabs (cos (B2R y)) -> inverts B A ->
  let err := 111 * roundoff p * (vnorm (vval d) + / 2 ^ 100) / Rabs (cos (B2R y)) ^ 3 * vnorm (w t) in
  (gives_local A -> (forall s, has_local_velocity (fun s => xyz_rot (c s)) s (w s)) ->
    exists f, fxyz_local_to_second L o x y z d = Some f /\ vdist (vadd (mvmul (B (c t)) alpha) (mvmul (mval f) (w t))) acc <= err) /\
  (gives_global A -> (forall s, has_global_velocity (fun s => xyz_rot (c s)) s (w s)) ->
    exists f, fxyz_global_to_second L o x y z d = Some f /\ vdist (vadd (mvmul (B (c t)) alpha) (mvmul (mval f) (w t))) acc <= err).
Proof.
  intros p L o x y z d A B c r w t acc alpha HL HO Fx Fy Fz Fd HD C DC RT DR DW HC HI. cbv zeta. pose proof (DC t) as D. rewrite RT in D.
  destruct (C86_inverse_lemma p L o x y z d A B c t HL HO Fx Fy Fz Fd HD C D HC HI) as [FL FG].
  assert (N : cos (xpitch (c t)) <> 0). { rewrite C; cbn [xpitch]. rewrite roundoff_fu in HC. pose proof (fu_pos p). intro E. rewrite E, Rabs_R0 in HC. lra. }
  destruct (near_nonzero (fun s => xpitch (c s)) t (vy (vval d)) (proj1 (proj2 D)) N) as (eps & P & NZ).
  split; intros HA HV.
  - destruct (FL HA) as (f & m & EF & DM & _ & CL). exists f. split; [exact EF|]. apply (accel_close _ _ m); [exact CL|]. apply (Vderiv_uniq r t); [exact DR|].
    apply (Vderiv_near (fun s => mvmul (B (c s)) (w s)) r t _ eps); [exact P| |apply (Mderiv_prod (fun s => B (c s))); assumption]. intros s Hs.
    rewrite (local_velocity_uniq _ s _ _ (xyz_rot_SO3 (c s)) (HV s) (HA c s (r s) (DC s))), <- mvmul_mmul, (HI (c s) (NZ s Hs)). apply mvmul_id.
  - destruct (FG HA) as (f & m & EF & DM & _ & CL). exists f. split; [exact EF|]. apply (accel_close _ _ m); [exact CL|]. apply (Vderiv_uniq r t); [exact DR|].
    apply (Vderiv_near (fun s => mvmul (B (c s)) (w s)) r t _ eps); [exact P| |apply (Mderiv_prod (fun s => B (c s))); assumption]. intros s Hs.
    rewrite (global_velocity_uniq _ s _ _ (xyz_rot_SO3 (c s)) (HV s) (HA c s (r s) (DC s))), <- mvmul_mmul, (HI (c s) (NZ s Hs)). apply mvmul_id.
Qed.
Lemma C86_second_derivative_ex : 1000 * roundoff F32 <= Rabs (cos (B2R (fofZ F32 1))) /\ (forall s, Xyzderiv path_xyz s (path_rates s)) /\ path_rates 1 = vval fvec212 /\
  (exists A B w a, gives_local A /\ inverts B A /\ Vderiv w 1 a /\ forall s, has_local_velocity (fun s => xyz_rot (path_xyz s)) s (w s)) /\
  (exists A B w a, gives_global A /\ inverts B A /\ Vderiv w 1 a /\ forall s, has_global_velocity (fun s => xyz_rot (path_xyz s)) s (w s)).
Proof.
  destruct path_rates_ok as (D & E & DD). destruct path_velocities as (V1 & V2 & (a1 & A1) & (a2 & A2)). split; [exact cos1_1000|]. repeat (split; [assumption|]).
  split; [exists xyz_diff_to_local, the_local_inv, path_local, a1|exists xyz_diff_to_global, the_global_inv, path_global, a2]; repeat (split; [first [exact the_local|exact the_global|exact the_local_inverts|exact the_global_inverts|assumption]|]); assumption.
Qed.
