(** * EqFacts: operator== within and across classes. *)
From Coq Require Import Reals Lra Psatz Bool.
From Verif Require Import Linalg Spec SpecFacts ModelCommon ModelEigen ModelRotation CommonFacts ConvFacts RVFacts Windows RotFacts UniqueFacts MetricFacts EulerFacts.
Local Open Scope R_scope.

Lemma get_unique_exact p r : valid r -> unique_exact p r ->
  kind_of (get_unique p r) = kind_of r /\ valid (get_unique p r) /\ meaning (get_unique p r) = meaning r.
Proof.
  intros V X. destruct r; cbn [get_unique kind_of valid meaning unique_exact] in *; (split; [reflexivity|]).
  - rewrite (proj1 (quat_unique_ok q)). split; [exact V|apply quat_unique_ok].
  - destruct (aa_unique_ok a V) as (U & R & _). auto.
  - split; [exact I|apply rv_unique_ok, X].
  - auto.
  - split; [exact I|apply zyx_unique_clear, X].
  - split; [exact I|apply xyz_unique_clear, X].
Qed.

Lemma bool_iff_val (b : bool) (P : Prop) : (b = true <-> P) -> exists c, Some (Val b) = Some (Val c) /\ (c = true <-> P).
Proof. intros H. exists b. split; [reflexivity|exact H]. Qed.

Lemma quat_equal p a b : qnorm2 a = 1 -> qnorm2 b = 1 ->
  exists c, is_equal p (RotQuat a) (RotQuat b) = Some (Val c) /\ (c = true <-> quat_rot a = quat_rot b).
Proof.
  intros Ha Hb. cbn [is_equal get_unique]. apply bool_iff_val. rewrite qeqb_true.
  destruct (quat_unique_ok a) as [Na Ra]. destruct (quat_unique_ok b) as [Nb Rb].
  split; intros E.
  - rewrite <- Ra, <- Rb, E. reflexivity.
  - apply canonical_quat_eq; [congruence|congruence|apply quat_unique_canonical, Ha|
      apply quat_unique_canonical, Hb|congruence].
Qed.
Lemma vec_equal p a b : unique_exact p (RotVec a) -> unique_exact p (RotVec b) ->
  exists c, is_equal p (RotVec a) (RotVec b) = Some (Val c) /\ (c = true <-> vec_rot a = vec_rot b).
Proof.
  intros Ha Hb. cbn [is_equal get_unique to_rv obind]. apply bool_iff_val. rewrite veqb_true.
  destruct (rv_unique_ok p a Ha) as [Ra Ca]. destruct (rv_unique_ok p b Hb) as [Rb Cb].
  split; intros E.
  - rewrite <- Ra, <- Rb, E. reflexivity.
  - apply canonical_vec_eq; [exact Ca|exact Cb|congruence].
Qed.
Lemma zyx_equal p a b : pitch_clear (zpitch a) -> pitch_clear (zpitch b) ->
  exists c, is_equal p (RotZyx a) (RotZyx b) = Some (Val c) /\ (c = true <-> zyx_rot a = zyx_rot b).
Proof.
  intros Ha Hb. cbn [is_equal get_unique to_zyx obind]. apply bool_iff_val. rewrite veqb_true.
  rewrite zyx_unique_canonical by assumption.
  destruct (zyx_unique a) as [a1 a2 a3], (zyx_unique b) as [b1 b2 b3]; cbn [zyaw zpitch zroll]. split; intros E; injection E; intros; subst; reflexivity.
Qed.
Lemma xyz_equal p a b : pitch_clear (xpitch a) -> pitch_clear (xpitch b) ->
  exists c, is_equal p (RotXyz a) (RotXyz b) = Some (Val c) /\ (c = true <-> xyz_rot a = xyz_rot b).
Proof.
  intros Ha Hb. cbn [is_equal get_unique to_xyz obind]. apply bool_iff_val. rewrite veqb_true.
  rewrite xyz_unique_canonical by assumption.
  destruct (xyz_unique a) as [a1 a2 a3], (xyz_unique b) as [b1 b2 b3]; cbn [xyaw xpitch xroll]. split; intros E; injection E; intros; subst; reflexivity.
Qed.

(** RotationMatrix on the left: any class on the right *)
Lemma mat_equal p m r : valid r -> unique_exact p r -> exact_operand p (get_unique p r) ->
  exists c, is_equal p (RotMat m) r = Some (Val c) /\ (c = true <-> m = meaning r).
Proof.
  intros V X Y. destruct (get_unique_exact p r V X) as (K & V' & M).
  change (is_equal p (RotMat m) r) with (Some (b <- to_mat p (get_unique p r) ;; Val (meqb m b))).
  rewrite to_mat_exact by assumption. cbn [obind]. apply bool_iff_val. rewrite meqb_true, M. reflexivity.
Qed.

(** RotationVector on the left; angle-axis or quaternion on the right *)
Lemma canonical_aa_vec a : vnorm2 (aaxis a) = 1 -> canonical_aa a -> canonical_vec (aa_to_rv a).
Proof.
  intros U C. pose proof (canonical_aa_range a C) as R. unfold aa_to_rv, canonical_vec.
  rewrite vnorm_vscale, (proj2 (vnorm_unit _) U), Rabs_right by lra. rewrite Rmult_1_r.
  pose proof PI_RGT_0. destruct C as [[E _]|[E|[E L]]]; [left; lra|left; lra|right].
  split; [exact E|]. apply lexpos_scale; [lra|exact L].
Qed.
Lemma vec_aa_equal p v a : vnorm2 (aaxis a) = 1 -> unique_exact p (RotVec v) ->
  exists c, is_equal p (RotVec v) (RotAA a) = Some (Val c) /\ (c = true <-> vec_rot v = aa_rot a).
Proof.
  intros U X. cbn [is_equal get_unique to_rv obind]. apply bool_iff_val. rewrite veqb_true.
  destruct (rv_unique_ok p v X) as [Rv Cv]. destruct (aa_unique_ok a U) as (U' & Ra & Ca).
  assert (Rr : vec_rot (aa_to_rv (aa_unique a)) = aa_rot a).
  { unfold aa_to_rv. rewrite vec_rot_scaled by exact U'. rewrite <- Ra. destruct (aa_unique a); reflexivity. }
  split; intros E.
  - rewrite <- Rv, <- Rr, E. reflexivity.
  - apply canonical_vec_eq; [exact Cv|apply canonical_aa_vec; assumption|congruence].
Qed.
Lemma canonical_quat_vec p q v : qnorm2 q = 1 -> canonical_quat q -> regular_angle p (quat_rot q) ->
  quat_to_rv p q = Val v -> canonical_vec v.
Proof.
  intros H C X E. apply regular_quat in X; [|exact H].
  assert (W : 0 <= qw q) by (destruct C as [C|[C _]]; lra).
  pose proof (dummy_pos p) as P. pose proof PI_RGT_0 as HP.
  unfold quat_to_rv in E.
  destruct X as [X|X].
  - rewrite X in E.
    assert (Z : forall s, vscale s vzero = vzero) by (intros; lin).
    assert (W1 : qw q * qw q = 1). { pose proof (qvec_norm_unit q H) as N. rewrite X, vnorm_vzero in N. lra. }
    destruct (Rlt_dec (1 - qw q * qw q) (dummy_precision p)); [|lra].
    rewrite !Z in E. destruct (Rlt_dec 0 (qw q)); injection E as <-; left; rewrite vnorm_vzero; lra.
  - destruct (Rlt_dec (1 - qw q * qw q) (dummy_precision p)) as [L|L]; [lra|].
    pose proof (qvec_norm_unit q H) as N. pose proof (vnorm_nonneg (qvec q)) as Nn.
    set (n := vnorm (qvec q)) in *.
    assert (Np : 0 < n) by (destruct (Req_dec n 0) as [Z|Z]; [rewrite Z in N; lra|lra]).
    unfold cdiv in E. destruct (Req_EM_T n 0); [lra|]. cbn [obind] in E. injection E as <-.
    pose proof (atan2_pos n (qw q) Np) as [T0 _]. pose proof (atan2_right n (qw q) W) as [_ T1].
    destruct (atan2_unit n (qw q)) as [Tc Ts]; [lra|].
    set (t := atan2 n (qw q)) in *.
    assert (K0 : 0 < 2 * t / n) by (apply Rdiv_lt_0_compat; lra).
    unfold canonical_vec. rewrite vnorm_vscale, Rabs_right by lra. fold n.
    replace (2 * t / n * n) with (2 * t) by (field; lra).
    destruct C as [C|[C1 C2]].
    + left. destruct (Req_dec t (PI/2)) as [Z|Z]; [|lra]. rewrite Z, cos_PI2 in Tc. lra.
    + right. split.
      * assert (t = PI/2) by (apply cos_inj; [lra|lra|rewrite cos_PI2, Tc; exact C1]). lra.
      * apply lexpos_scale; [exact K0|exact C2].
Qed.
Lemma vec_quat_equal p v q : qnorm2 q = 1 -> unique_exact p (RotVec v) -> regular_angle p (quat_rot q) ->
  exists c, is_equal p (RotVec v) (RotQuat q) = Some (Val c) /\ (c = true <-> vec_rot v = quat_rot q).
Proof.
  intros H X Y. cbn [is_equal get_unique to_rv obind].
  destruct (rv_unique_ok p v X) as [Rv Cv]. destruct (quat_unique_ok q) as [Nq Rq].
  assert (H' : qnorm2 (quat_unique q) = 1) by congruence.
  assert (Y' : regular_angle p (quat_rot (quat_unique q))) by (rewrite Rq; exact Y).
  destruct (quat_to_rv_exact p (quat_unique q) H') as (w & Ew & Mw & _).
  { apply regular_quat; assumption. }
  rewrite Ew; cbn [obind]. apply bool_iff_val. rewrite veqb_true. split; intros E.
  - rewrite <- Rv, <- Rq, <- Mw, E. reflexivity.
  - apply canonical_vec_eq; [exact Cv| |congruence].
    eapply canonical_quat_vec; [exact H'|apply quat_unique_canonical, H|exact Y'|exact Ew].
Qed.

(** ** Failures across classes *)
(** Eigen's eulerAngles puts the first angle in [0,pi]. *)
Lemma euler_core_first odd mjk mkk mii mij mik mki mji mjj mkj :
  0 <= vx (e_eulerAngles_core odd mjk mkk mii mij mik mki mji mjj mkj) <= PI.
Proof.
  unfold e_eulerAngles_core. pose proof (atan2_range mjk mkk) as R. set (r0 := atan2 mjk mkk) in *.
  pose proof PI_RGT_0.
  destruct odd; cbn [vx].
  - destruct (Rlt_dec r0 0); [destruct (Rlt_dec 0 r0); lra|lra].
  - destruct (Rlt_dec 0 r0); [destruct (Rlt_dec 0 r0); lra|lra].
Qed.
Lemma quat_to_zyx_yaw q : 0 <= zyaw (quat_to_zyx q) <= PI.
Proof. unfold quat_to_zyx, e_eulerAngles_210; cbn [zyaw]. apply euler_core_first. Qed.
Lemma quat_to_xyz_roll q : 0 <= xroll (quat_to_xyz q) <= PI.
Proof. unfold quat_to_xyz, e_eulerAngles_012; cbn [xroll]. apply euler_core_first. Qed.

Lemma zyx_mixed_never p e r : kind_of r <> KZyx -> zyaw (zyx_unique e) < 0 ->
  is_equal p (RotZyx e) r = Some (Val true) -> False.
Proof.
  intros K Y.
  change (is_equal p (RotZyx e) r) with (Some (b <- to_zyx p (get_unique p r) ;;
    Val (veqb (mkV3 (zyaw (zyx_unique e)) (zpitch (zyx_unique e)) (zroll (zyx_unique e)))
              (mkV3 (zyaw b) (zpitch b) (zroll b))))).
  assert (K' : kind_of (get_unique p r) <> KZyx) by (destruct r; cbn in *; congruence).
  assert (exists o : outcome Quat, to_zyx p (get_unique p r) = obind o (fun q => Val (quat_to_zyx q))) as [o Eo].
  { unfold get_unique. destruct r; cbn [kind_of get_unique] in K'; try congruence; eexists; cbn [to_zyx]; reflexivity. }
  intros E.
  rewrite Eo in E. destruct o as [q| |]; cbn [obind] in E; try discriminate.
  pose proof (quat_to_zyx_yaw q) as B. set (u := zyx_unique e) in *. set (w := quat_to_zyx q) in *. clearbody u w.
  injection E as E. apply veqb_true in E. apply (f_equal vx) in E; cbn [vx] in E. lra.
Qed.
Lemma xyz_mixed_never p e r : kind_of r <> KXyz -> xroll (xyz_unique e) < 0 ->
  is_equal p (RotXyz e) r = Some (Val true) -> False.
Proof.
  intros K Y.
  change (is_equal p (RotXyz e) r) with (Some (b <- to_xyz p (get_unique p r) ;;
    Val (veqb (mkV3 (xroll (xyz_unique e)) (xpitch (xyz_unique e)) (xyaw (xyz_unique e)))
              (mkV3 (xroll b) (xpitch b) (xyaw b))))).
  assert (exists o : outcome Quat, to_xyz p (get_unique p r) = obind o (fun q => Val (quat_to_xyz q))) as [o Eo].
  { unfold get_unique. destruct r as [q|a|v|m|z|z]; cbn [kind_of get_unique] in K; try congruence; cbn [to_xyz].
    - eexists; reflexivity.
    - eexists; reflexivity.
    - exists (Val (e_quat_of_aa (rv_to_aa p (rv_unique p v)))). reflexivity.
    - eexists; reflexivity.
    - eexists; reflexivity. }
  intros E.
  rewrite Eo in E. destruct o as [q| |]; cbn [obind] in E; try discriminate.
  pose proof (quat_to_xyz_roll q) as B. set (u := xyz_unique e) in *. set (w := quat_to_xyz q) in *. clearbody u w.
  injection E as E. apply veqb_true in E. apply (f_equal vx) in E; cbn [vx] in E. lra.
Qed.

(** RotationVector == RotationMatrix fails for a rotation by -120 degrees
    about x: Eigen returns a quaternion with negative w. *)
Lemma vec_mat_counterexample p :
  let v := mkV3 (- (2 * (PI / 3))) 0 0 in
  let m := Rot_x (- (2 * (PI / 3))) in
  vec_rot v = m /\ SO3 m /\ is_equal p (RotVec v) (RotMat m) = Some (Val false).
Proof.
  intros v m. pose proof PI_RGT_0 as HP. pose proof PI2_1 as HP1.
  assert (Mv : vec_rot v = m).
  { unfold v, m. replace (mkV3 (- (2 * (PI/3))) 0 0) with (vscale (- (2 * (PI/3))) ex) by (unfold ex; lin).
    rewrite vec_rot_scaled by (unfold ex; lin). symmetry. apply Rot_x_aa. }
  split; [exact Mv|]. split; [apply Rot_x_SO3|].
  assert (Nv : vnorm v = 2 * (PI/3)).
  { unfold v. replace (mkV3 (- (2 * (PI/3))) 0 0) with (vscale (- (2 * (PI/3))) ex) by (unfold ex; lin).
    rewrite vnorm_vscale. rewrite (proj2 (vnorm_unit ex)) by (unfold ex; lin).
    rewrite Rabs_left by lra. ring. }
  pose proof (dummy_pos p) as P. pose proof (dummy_small p) as Q.
  assert (Uv : rv_unique p v = v).
  { apply rv_unique_fix; [right; lra|left; lra]. }
  cbn [is_equal get_unique]. rewrite Uv.
  set (s := sqrt 3 / 2).
  assert (S3 : 0 < sqrt 3) by (apply sqrt_lt_R0; lra).
  assert (S3s : sqrt 3 * sqrt 3 = 3) by (apply sqrt_sqrt; lra).
  assert (Em : m = mkM33 1 0 0 0 (-1/2) s 0 (- s) (-1/2)).
  { unfold m, Rot_x. rewrite cos_neg, sin_neg, cos_2PI3, sin_2PI3. unfold s. f_equal; field. }
  assert (Eq : e_quat_of_matrix m = Val (mkQ (-1/2) s 0 0)).
  { rewrite Em. unfold e_quat_of_matrix, mtrace. cbn [m00 m01 m02 m10 m11 m12 m20 m21 m22].
    destruct (Rlt_dec 0 (1 + -1/2 + -1/2)); [lra|].
    destruct (Rlt_dec 1 (-1/2)); [lra|].
    unfold csqrt. destruct (Rlt_dec (1 - -1/2 - -1/2 + 1) 0); [lra|]. cbn [obind].
    replace (1 - -1/2 - -1/2 + 1) with 3 by lra.
    unfold cdiv. destruct (Req_EM_T (sqrt 3) 0); [lra|]. cbn [obind].
    f_equal. unfold s. f_equal; field; lra. }
  cbn [to_rv]. rewrite Eq. cbn [obind]. unfold quat_to_rv. cbn [qw].
  destruct (Rlt_dec (1 - -1/2 * (-1/2)) (dummy_precision p)); [lra|].
  assert (Nq : vnorm (qvec (mkQ (-1/2) s 0 0)) = s).
  { replace (qvec (mkQ (-1/2) s 0 0)) with (vscale s ex) by (unfold ex; lin).
    rewrite vnorm_vscale. rewrite (proj2 (vnorm_unit ex)) by (unfold ex; lin).
    rewrite Rabs_right by (unfold s; lra). ring. }
  rewrite Nq. assert (Sp : 0 < s) by (unfold s; lra).
  unfold cdiv. destruct (Req_EM_T s 0); [lra|]. cbn [obind].
  do 2 f_equal. destruct (veqb _ _) eqn:B; [|reflexivity]. exfalso.
  apply veqb_true in B. unfold v, vscale, qvec in B; cbn [vx vy vz qx] in B. injection B as B _ _.
  pose proof (atan2_pos s (-1/2) Sp) as [T _].
  assert (0 < 2 * atan2 s (-1/2) / s * s) by (apply Rmult_lt_0_compat; [apply Rdiv_lt_0_compat; lra|lra]).
  lra.
Qed.

(** ** AngleAxis *)
Lemma compareRelative_refl a t : 0 <= t -> compareRelative a a t = true.
Proof.
  intros Ht. unfold compareRelative.
  destruct (_ || _)%bool; [reflexivity|].
  rewrite Rminus_diag_eq, Rabs_R0 by reflexivity. unfold Rltb.
  destruct (Rlt_dec _ _) as [L|L]; [|reflexivity]. exfalso. unfold Rdiv in L. rewrite Rmult_0_l in L.
  assert (0 <= t * / 10 ^ 2) by (apply Rmult_le_pos; lra). lra.
Qed.
Lemma aa_equal_complete p a b : vnorm2 (aaxis a) = 1 -> vnorm2 (aaxis b) = 1 -> aa_rot a = aa_rot b ->
  is_equal p (RotAA a) (RotAA b) = Some (Val true).
Proof.
  intros Ua Ub E. cbn [is_equal get_unique].
  destruct (aa_unique_ok a Ua) as (U1 & R1 & C1). destruct (aa_unique_ok b Ub) as (U2 & R2 & C2).
  rewrite (canonical_aa_eq (aa_unique a) (aa_unique b)) by (assumption || congruence).
  unfold aa_isEqual. rewrite !compareRelative_refl by lra. reflexivity.
Qed.
(** what a positive answer means *)
Lemma compareRelative_true a b t : 0 <= t -> compareRelative a b t = true ->
  Rabs (a - b) <= / 10 ^ 6 \/ Rabs (a - b) <= t / 10 ^ 2 * Rmax (Rabs a) (Rabs b).
Proof.
  intros Ht H. unfold compareRelative in H.
  unfold Rltb, Reqb in H.
  destruct (Rlt_dec (Rabs a) (/ 10 ^ 15)) as [A|A]; destruct (Rlt_dec (Rabs b) (/ 10 ^ 15)) as [B|B];
  destruct (Req_EM_T (Rabs a) 0) as [C|C]; destruct (Rlt_dec (Rabs b) (/ 10 ^ 6)) as [D|D];
  destruct (Req_EM_T (Rabs b) 0) as [E|E]; destruct (Rlt_dec (Rabs a) (/ 10 ^ 6)) as [F|F];
  cbn [andb orb] in H;
  try (left; pose proof (Rabs_triang a (- b)) as T; rewrite Rabs_Ropp in T;
       replace (a + - b) with (a - b) in T by ring; lra);
  (destruct (Rlt_dec (t * / 10 ^ 2) (Rabs (a - b) / Rmax (Rabs a) (Rabs b))) as [L|L]; [discriminate|];
   right; pose proof (Rmax_l (Rabs a) (Rabs b)) as M1; pose proof (Rmax_r (Rabs a) (Rabs b)) as M2;
   pose proof (Rabs_pos a); pose proof (Rabs_pos b);
   assert (MP : 0 < Rmax (Rabs a) (Rabs b)) by lra;
   apply Rnot_lt_le in L;
   apply (Rmult_le_compat_r (Rmax (Rabs a) (Rabs b))) in L; [|lra];
   unfold Rdiv in L; rewrite Rmult_assoc, Rinv_l, Rmult_1_r in L by lra; unfold Rdiv; exact L).
Qed.
