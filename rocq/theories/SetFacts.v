(** * SetFacts: setFromVectors, fix, AngleAxis equality, wrong answers. *)
From Coq Require Import Reals Lra Psatz Bool.
From Verif Require Import Linalg Spec SpecFacts ModelCommon ModelEigen ModelRotation CommonFacts ConvFacts RVFacts Windows RotFacts UniqueFacts MetricFacts EulerFacts EqFacts.
Local Open Scope R_scope.

(** ** setFromVectors *)
(** the SVD contract: last right singular vector of the 2x3 matrix [a; b] *)
Definition svd_null (svd_axis : V3 -> V3 -> V3) : Prop :=
  forall a b, vnorm2 (svd_axis a b) = 1 /\ vdot (svd_axis a b) a = 0 /\ vdot (svd_axis a b) b = 0.

Lemma sandwich_formula q v :
  mvmul (quat_rot q) v =
  vadd (vadd (vscale (qw q * qw q - vnorm2 (qvec q)) v) (vscale (2 * vdot (qvec q) v) (qvec q)))
       (vscale (2 * qw q) (vcross (qvec q) v)).
Proof. rewrite <- sandwich_matrix. destruct q, v; slin; ring. Qed.

Lemma lagrange a b : vnorm2 (vcross a b) = vnorm2 a * vnorm2 b - vdot a b * vdot a b.
Proof. destruct a, b; lin. Qed.
Lemma unit_opposite a b : vnorm2 a = 1 -> vnorm2 b = 1 -> vdot b a = -1 -> b = vneg a.
Proof.
  intros Ha Hb Hd. assert (Z : vnorm2 (vadd a b) = 0).
  { replace (vnorm2 (vadd a b)) with (vnorm2 a + vnorm2 b + 2 * vdot b a) by (destruct a, b; lin). lra. }
  apply vnorm2_zero in Z. destruct a as [x y z], b as [u v w]; unfold vadd, vzero, vneg in *; cbn [vx vy vz] in *.
  injection Z as Z1 Z2 Z3. f_equal; lra.
Qed.

(** Both branches: legal quaternion; exact in the regular branch and for
    exactly opposite vectors; otherwise off by at most 3 sqrt(dummy). *)
Lemma from_two_regular p svd a b : vnorm2 a = 1 -> vnorm2 b = 1 ->
  -1 + dummy_precision p <= vdot b a ->
  exists q, e_setFromTwoVectors p svd a b = Val q /\ qnorm2 q = 1 /\ mvmul (quat_rot q) a = b.
Proof.
  intros Ha Hb Hc. pose proof (dummy_pos p) as P.
  assert (NA : forall u, vnorm2 u = 1 -> e_normalized u = u).
  { intros u Hu. assert (N1 : vnorm u = 1) by (apply vnorm_unit, Hu). rewrite e_normalized_unit by lra.
    unfold unit_of. rewrite N1. destruct u; lin; field. }
  unfold e_setFromTwoVectors. rewrite !NA by assumption. set (c := vdot b a) in *.
  destruct (Rlt_dec c (-1 + dummy_precision p)); [lra|].
  unfold csqrt. destruct (Rlt_dec ((1 + c) * 2) 0); [lra|]. cbn [obind].
  set (s := sqrt ((1 + c) * 2)).
  assert (Sp : 0 < s) by (apply sqrt_lt_R0; lra).
  assert (Ss : s * s = (1 + c) * 2) by (apply sqrt_sqrt; lra).
  unfold cdiv. destruct (Req_EM_T s 0); [lra|]. cbn [obind].
  set (i := 1 / s). assert (Is : i * s = 1) by (unfold i; field; lra).
  eexists; split; [reflexivity|].
  set (q := mkQ _ _ _ _).
  assert (Wq : qw q = s * (1/2)) by reflexivity.
  assert (Vq : qvec q = vscale i (vcross a b)) by (unfold q, qvec; destruct a, b; lin).
  assert (Cd : vdot a b = c) by (unfold c; destruct a, b; lin).
  assert (Ii : i * i * ((1 + c) * 2) = 1).
  { rewrite <- Ss. replace (i * i * (s * s)) with ((i * s) * (i * s)) by ring. rewrite Is. ring. }
  assert (N2 : vnorm2 (qvec q) = (1 - c) / 2).
  { rewrite Vq, vnorm2_vscale, lagrange, Ha, Hb, Cd.
    replace (i * i * (1 * 1 - c * c)) with (i * i * ((1 + c) * 2) * ((1 - c) / 2)) by field.
    rewrite Ii. ring. }
  split.
  - rewrite qnorm2_vec, N2, Wq. replace (s * (1/2) * (s * (1/2))) with (s * s / 4) by field. rewrite Ss. field.
  - rewrite sandwich_formula, N2, Wq.
    replace (s * (1/2) * (s * (1/2)) - (1 - c) / 2) with c.
    2:{ replace (s * (1/2) * (s * (1/2))) with (s * s / 4) by field. rewrite Ss. field. }
    assert (D0 : vdot (qvec q) a = 0) by (rewrite Vq; destruct a, b; lin).
    rewrite D0.
    assert (X : vcross (qvec q) a = vscale i (vsub b (vscale c a))).
    { rewrite Vq.
      replace (vcross (vscale i (vcross a b)) a)
        with (vscale i (vsub (vscale (vnorm2 a) b) (vscale (vdot a b) a))) by (destruct a, b; lin).
      rewrite Ha, Cd. destruct a, b; lin. }
    rewrite X.
    replace (vscale (2 * (s * (1 / 2))) (vscale i (vsub b (vscale c a))))
      with (vscale (i * s) (vsub b (vscale c a))) by (destruct a, b; lin; field).
    rewrite Is. destruct (qvec q), a, b; lin.
Qed.

Lemma from_two_opposite p svd a b : svd_null svd -> vnorm2 a = 1 -> vnorm2 b = 1 ->
  vdot b a < -1 + dummy_precision p ->
  exists q, e_setFromTwoVectors p svd a b = Val q /\ qnorm2 q = 1 /\
    (vdot b a = -1 -> mvmul (quat_rot q) a = b) /\
    vnorm2 (vsub (mvmul (quat_rot q) a) b) <= 8 * dummy_precision p.
Proof.
  intros Hs Ha Hb Hc. pose proof (dummy_pos p) as P. pose proof (dummy_small p) as Q.
  assert (NA : forall u, vnorm2 u = 1 -> e_normalized u = u).
  { intros u Hu. assert (N1 : vnorm u = 1) by (apply vnorm_unit, Hu). rewrite e_normalized_unit by lra.
    unfold unit_of. rewrite N1. destruct u; lin; field. }
  pose proof (cauchy3 b a Hb Ha) as CS.
  unfold e_setFromTwoVectors. rewrite !NA by assumption. set (c := vdot b a) in *.
  destruct (Rlt_dec c (-1 + dummy_precision p)); [|lra].
  rewrite Rmax_left by lra.
  destruct (Hs a b) as (Hn & Hna & Hnb). set (n := svd a b) in *.
  unfold csqrt. destruct (Rlt_dec ((1 + c) * (1/2)) 0); [lra|]. cbn [obind].
  destruct (Rlt_dec (1 - (1 + c) * (1/2)) 0); [lra|]. cbn [obind].
  set (w := sqrt ((1 + c) * (1/2))). set (s := sqrt (1 - (1 + c) * (1/2))).
  assert (Ww : w * w = (1 + c) * (1/2)) by (apply sqrt_sqrt; lra).
  assert (Ss : s * s = 1 - (1 + c) * (1/2)) by (apply sqrt_sqrt; lra).
  eexists; split; [reflexivity|]. set (q := mkQ _ _ _ _).
  assert (Vq : qvec q = vscale s n) by (unfold q, qvec; destruct n; lin).
  assert (N2 : vnorm2 (qvec q) = s * s) by (rewrite Vq, vnorm2_vscale, Hn; ring).
  assert (F : mvmul (quat_rot q) a = vadd (vscale c a) (vscale (2 * w * s) (vcross n a))).
  { rewrite sandwich_formula, N2. change (qw q) with w. rewrite Ww, Ss.
    replace (vdot (qvec q) a) with (s * vdot n a) by (rewrite Vq; destruct n, a; lin).
    rewrite Hna, Vq. destruct n, a; lin; field. }
  split; [rewrite qnorm2_vec, N2; change (qw q) with w; lra|].
  assert (D : vnorm2 (vsub (mvmul (quat_rot q) a) b) =
      vnorm2 (vsub b (vscale c a)) + 4 * (w*w) * (s*s) - 2 * (2 * w * s) * vdot (vcross n a) b).
  { rewrite F.
    replace (vnorm2 (vsub (vadd (vscale c a) (vscale (2*w*s) (vcross n a))) b))
      with (vnorm2 (vsub b (vscale c a)) + (2*w*s)*(2*w*s) * vnorm2 (vcross n a)
            - 2 * (2*w*s) * vdot (vcross n a) b) by (destruct n, a, b; lin).
    rewrite lagrange, Hn, Ha, Hna. ring. }
  assert (B1 : vnorm2 (vsub b (vscale c a)) = 1 - c * c).
  { replace (vnorm2 (vsub b (vscale c a))) with (vnorm2 b - 2 * c * vdot b a + c * c * vnorm2 a)
      by (destruct a, b; lin). rewrite Ha, Hb. fold c. ring. }
  assert (B2 : vdot (vcross n a) b * vdot (vcross n a) b <= 1 - c * c).
  { pose proof (vnorm2_nonneg (vsub (vscale (vdot (vcross n a) b) (vcross n a)) (vsub b (vscale c a)))) as K.
    replace (vnorm2 (vsub (vscale (vdot (vcross n a) b) (vcross n a)) (vsub b (vscale c a))))
      with (vdot (vcross n a) b * vdot (vcross n a) b * vnorm2 (vcross n a)
            - 2 * (vdot (vcross n a) b * vdot (vcross n a) b) + vnorm2 (vsub b (vscale c a))) in K
      by (destruct n, a, b; lin).
    rewrite lagrange, Hn, Ha, Hna, B1 in K. lra. }
  split.
  - intros E. rewrite F, E. fold c in E.
    assert (w * w = 0) as W0 by (rewrite Ww, E; lra).
    assert (w = 0) as W by nra. rewrite W, (unit_opposite a b Ha Hb E). destruct a, n; lin.
  - rewrite D, B1.
    set (x := vdot (vcross n a) b) in *. set (k := 2 * w * s).
    assert (K2 : k * k = 1 - c * c). { unfold k. replace (2*w*s*(2*w*s)) with (4*(w*w)*(s*s)) by ring. rewrite Ww, Ss. field. }
    replace (4 * (w*w) * (s*s)) with (k*k) by (unfold k; ring). rewrite K2.
    assert (1 - c * c <= 2 * dummy_precision p) by nra.
    assert (- (2 * k * x) <= k * k + x * x) by nra. lra.
Qed.

Lemma e_setFromTwoVectors_unit p svd a b : vnorm a <> 0 -> vnorm b <> 0 ->
  e_setFromTwoVectors p svd a b = e_setFromTwoVectors p svd (unit_of a) (unit_of b).
Proof.
  intros Ha Hb. unfold e_setFromTwoVectors.
  assert (NA : forall u, vnorm2 u = 1 -> e_normalized u = u).
  { intros u Hu. assert (N1 : vnorm u = 1) by (apply vnorm_unit, Hu). rewrite e_normalized_unit by lra.
    unfold unit_of. rewrite N1. destruct u; lin; field. }
  rewrite !(NA (unit_of _)) by (apply vnorm2_unitize; assumption).
  rewrite !e_normalized_unit by assumption. reflexivity.
Qed.

Lemma setFromVectors_zero p svd k a b :
  setFromVectors p svd k a b = Throws <-> (a = vzero \/ b = vzero).
Proof.
  unfold setFromVectors. split.
  - intros E. destruct (Req_EM_T (vnorm a * vnorm b) 0) as [Z|Z].
    + apply Rmult_integral in Z. destruct Z as [Z|Z]; [left|right]; apply vnorm_zero, Z.
    + exfalso. destruct (e_setFromTwoVectors p svd a b) as [q| |] eqn:F; cbn [obind] in E; try discriminate.
      * unfold convert in E. destruct k; cbn in E; try discriminate.
        unfold quat_to_rv, cdiv in E. repeat destruct (Rlt_dec _ _); cbn in E; try discriminate.
        destruct (Req_EM_T _ _); cbn in E; discriminate.
      * unfold e_setFromTwoVectors, csqrt, cdiv in F.
        repeat destruct (Rlt_dec _ _); cbn in F; try discriminate.
        destruct (Req_EM_T _ _); cbn in F; discriminate.
  - intros H. destruct (Req_EM_T (vnorm a * vnorm b) 0) as [Z|Z]; [reflexivity|].
    exfalso. apply Z. destruct H as [-> | ->]; rewrite vnorm_vzero; ring.
Qed.

Lemma setFromVectors_exact p svd k a b : svd_null svd -> a <> vzero -> b <> vzero ->
  let c := vdot (unit_of b) (unit_of a) in
  c = -1 \/ -1 + dummy_precision p <= c ->
  (forall m, mvmul m (unit_of a) = unit_of b -> exact_result p k m) ->
  exists r, setFromVectors p svd k a b = Val r /\ kind_of r = k /\ valid r /\
    mvmul (meaning r) (unit_of a) = unit_of b.
Proof.
  intros Hs Ha Hb c Hc X. pose proof (dummy_pos p) as P.
  assert (Na : vnorm a <> 0) by (intro; apply Ha, vnorm_zero; assumption).
  assert (Nb : vnorm b <> 0) by (intro; apply Hb, vnorm_zero; assumption).
  assert (Ua : vnorm2 (unit_of a) = 1) by (apply vnorm2_unitize; assumption).
  assert (Ub : vnorm2 (unit_of b) = 1) by (apply vnorm2_unitize; assumption).
  assert (exists q, e_setFromTwoVectors p svd a b = Val q /\ qnorm2 q = 1 /\
     mvmul (quat_rot q) (unit_of a) = unit_of b) as (q & E & Hq & Mq).
  { rewrite e_setFromTwoVectors_unit by assumption. destruct Hc as [Hc|Hc].
    - destruct (from_two_opposite p svd _ _ Hs Ua Ub) as (q & E & Hq & M & _).
      { fold c. lra. }
      exists q. split; [exact E|]. split; [exact Hq|apply M, Hc].
    - apply from_two_regular; assumption. }
  unfold setFromVectors. destruct (Req_EM_T (vnorm a * vnorm b) 0) as [Z|Z].
  { apply Rmult_integral in Z. tauto. }
  rewrite E; cbn [obind].
  destruct (convert_quat p k q Hq (X _ Mq)) as (r & Er & Kr & Vr & Mr).
  exists r. rewrite Mr. repeat split; assumption.
Qed.
(** nearly opposite vectors: still legal, direction off by at most
    sqrt(8 dummy_precision) *)
Lemma setFromVectors_near p svd k a b : svd_null svd -> a <> vzero -> b <> vzero -> k <> KVec ->
  exists r, setFromVectors p svd k a b = Val r /\ kind_of r = k /\ valid r /\
    vnorm2 (vsub (mvmul (meaning r) (unit_of a)) (unit_of b)) <= 8 * dummy_precision p.
Proof.
  intros Hs Ha Hb K. pose proof (dummy_pos p) as P.
  assert (Na : vnorm a <> 0) by (intro; apply Ha, vnorm_zero; assumption).
  assert (Nb : vnorm b <> 0) by (intro; apply Hb, vnorm_zero; assumption).
  assert (Ua : vnorm2 (unit_of a) = 1) by (apply vnorm2_unitize; assumption).
  assert (Ub : vnorm2 (unit_of b) = 1) by (apply vnorm2_unitize; assumption).
  assert (exists q, e_setFromTwoVectors p svd a b = Val q /\ qnorm2 q = 1 /\
     vnorm2 (vsub (mvmul (quat_rot q) (unit_of a)) (unit_of b)) <= 8 * dummy_precision p) as (q & E & Hq & Mq).
  { rewrite e_setFromTwoVectors_unit by assumption.
    destruct (Rlt_or_le (vdot (unit_of b) (unit_of a)) (-1 + dummy_precision p)) as [L|L].
    - destruct (from_two_opposite p svd _ _ Hs Ua Ub L) as (q & E & Hq & _ & M). eauto.
    - destruct (from_two_regular p svd _ _ Ua Ub L) as (q & E & Hq & M). exists q. rewrite M.
      replace (vsub (unit_of b) (unit_of b)) with vzero by (destruct (unit_of b); lin).
      repeat split; try assumption. replace (vnorm2 vzero) with 0 by lin. lra. }
  unfold setFromVectors. destruct (Req_EM_T (vnorm a * vnorm b) 0) as [Z|Z].
  { apply Rmult_integral in Z. tauto. }
  rewrite E; cbn [obind].
  destruct (convert_quat p k q Hq) as (r & Er & Kr & Vr & Mr); [intro; contradiction|].
  exists r. rewrite Mr. repeat split; assumption.
Qed.

(** ** fix *)
Lemma e_qnormalize_ok q : 0 < qnorm2 q ->
  qnorm2 (e_qnormalize q) = 1 /\ exists k, 0 < k /\
    e_qnormalize q = mkQ (k * qw q) (k * qx q) (k * qy q) (k * qz q).
Proof.
  intros H. unfold e_qnormalize. destruct (Rlt_dec 0 (qnorm2 q)); [|lra].
  assert (N : qnorm q * qnorm q = qnorm2 q) by apply qnorm_sqr.
  assert (Np : 0 < qnorm q) by (unfold qnorm; apply sqrt_lt_R0, H).
  set (n := qnorm q) in *. split.
  - destruct q as [w x y z]. unfold qnorm2 in N |- *; cbn [qw qx qy qz] in *.
    replace (w/n*(w/n) + x/n*(x/n) + y/n*(y/n) + z/n*(z/n)) with ((w*w+x*x+y*y+z*z)/(n*n)) by (field; lra).
    rewrite N. unfold qnorm2; cbn [qw qx qy qz]. field. unfold qnorm2 in H; cbn in H; lra.
  - exists (/ n). split; [apply Rinv_0_lt_compat, Np|]. f_equal; field; lra.
Qed.
Lemma e_qnormalize_id q : qnorm2 q = 1 -> e_qnormalize q = q.
Proof.
  intros H. unfold e_qnormalize. destruct (Rlt_dec 0 (qnorm2 q)); [|lra].
  assert (qnorm q = 1) as -> by (apply qnorm_unit, H). destruct q as [w x y z]; cbn [qw qx qy qz]. f_equal; field.
Qed.
Lemma e_normalized_id v : vnorm2 v = 1 -> e_normalized v = v.
Proof.
  intros Hu. assert (N1 : vnorm v = 1) by (apply vnorm_unit, Hu). rewrite e_normalized_unit by lra.
  unfold unit_of. rewrite N1. destruct v; lin; field.
Qed.
Lemma fix_valid r : valid r -> fix_rot r = Val r.
Proof.
  intros V. destruct r as [q|[a n]|v|m|e|e]; cbn [fix_rot valid aangle aaxis] in *; try reflexivity.
  - rewrite e_qnormalize_id by exact V. reflexivity.
  - rewrite e_normalized_id by exact V. reflexivity.
  - destruct V as [_ V]. rewrite V. destruct (Rlt_dec 0 1); [|lra].
    do 2 f_equal. unfold Rpower. rewrite ln_1, Rmult_0_r, exp_0. destruct m; lin; field.
Qed.
Lemma fix_quat q : 0 < qnorm2 q -> exists q', fix_rot (RotQuat q) = Val (RotQuat q') /\ qnorm2 q' = 1 /\
  exists k, 0 < k /\ q' = mkQ (k * qw q) (k * qx q) (k * qy q) (k * qz q).
Proof. intros H. exists (e_qnormalize q). split; [reflexivity|]. apply e_qnormalize_ok, H. Qed.
Lemma fix_aa a : aaxis a <> vzero -> exists a', fix_rot (RotAA a) = Val (RotAA a') /\ vnorm2 (aaxis a') = 1 /\
  aangle a' = aangle a /\ exists k, 0 < k /\ aaxis a' = vscale k (aaxis a).
Proof.
  intros H. assert (N : vnorm (aaxis a) <> 0) by (intro; apply H, vnorm_zero; assumption).
  eexists; split; [reflexivity|]. cbn [aaxis aangle]. rewrite e_normalized_unit by exact N.
  split; [apply vnorm2_unitize, N|]. split; [reflexivity|].
  exists (/ vnorm (aaxis a)). pose proof (vnorm_nonneg (aaxis a)).
  split; [apply Rinv_0_lt_compat; lra|reflexivity].
Qed.
Lemma mdet_mscale k m : mdet (mscale k m) = k * k * k * mdet m.
Proof. destruct m; lin. Qed.
Lemma fix_mat_det m : 0 < mdet m -> exists m' k, fix_rot (RotMat m) = Val (RotMat m') /\ mdet m' = 1 /\
  0 < k /\ m' = mscale k m.
Proof.
  intros H. cbn [fix_rot]. destruct (Rlt_dec 0 (mdet m)); [|lra].
  exists (mscale (1 / Rpower (mdet m) (1/3)) m), (1 / Rpower (mdet m) (1/3)).
  set (c := Rpower (mdet m) (1/3)).
  assert (Cp : 0 < c) by apply exp_pos.
  assert (C3 : c * c * c = mdet m).
  { unfold c. rewrite <- !Rpower_plus. replace (1/3+1/3+1/3) with 1 by field. apply Rpower_1, H. }
  split; [reflexivity|]. split; [|split; [apply Rdiv_lt_0_compat; lra|reflexivity]].
  rewrite mdet_mscale. rewrite <- C3. field. lra.
Qed.
(** fix() on a matrix succeeds iff the matrix was a positive multiple of a rotation *)
Lemma fix_mat_iff m m' : fix_rot (RotMat m) = Val (RotMat m') ->
  (SO3 m' <-> exists s, s <> 0 /\ mmul m (mtrans m) = mscale s mid).
Proof.
  intros E. cbn [fix_rot] in E. destruct (Rlt_dec 0 (mdet m)) as [H|H]; [|discriminate].
  destruct (fix_mat_det m H) as (m'' & k & E' & D & Kp & Em).
  cbn [fix_rot] in E'. destruct (Rlt_dec 0 (mdet m)); [|lra]. rewrite E in E'. injection E' as <-.
  assert (MM : mmul m' (mtrans m') = mscale (k * k) (mmul m (mtrans m))) by (rewrite Em; destruct m; lin).
  split.
  - intros [O _]. rewrite MM in O. exists (/ (k * k)). split; [apply Rinv_neq_0_compat; nra|].
    assert (K : mscale (/ (k*k)) (mscale (k * k) (mmul m (mtrans m))) = mscale (/ (k*k)) mid) by (rewrite O; reflexivity).
    rewrite <- K. destruct (mmul m (mtrans m)); lin; field; lra.
  - intros (s & Sn & O). split; [|exact D]. rewrite MM, O.
    assert (D2 : (k * k * s) * (k * k * s) * (k * k * s) = 1).
    { transitivity (mdet (mmul m' (mtrans m'))).
      - rewrite MM, O. lin.
      - rewrite mdet_mmul, mdet_mtrans, D. ring. }
    set (u := k * k * s) in *. assert (U : u = 1).
    { assert ((u - 1) * (u * u + u + 1) = 0) by (ring_simplify; lra).
      assert (0 < u * u + u + 1) by nra. nra. }
    replace (mscale (k * k) (mscale s mid)) with (mscale u mid) by (unfold u; unfold mscale, mid; cbn [m00 m01 m02 m10 m11 m12 m20 m21 m22]; f_equal; ring).
    rewrite U. unfold mscale, mid; cbn [m00 m01 m02 m10 m11 m12 m20 m21 m22]; f_equal; ring.
Qed.
Lemma fix_mat_counterexample :
  let m := mkM33 2 0 0  0 (1/2) 0  0 0 1 in
  fix_rot (RotMat m) = Val (RotMat m) /\ mdet m = 1 /\ ~ SO3 m.
Proof.
  intros m. assert (D : mdet m = 1) by (unfold m; lin_unfold; lra).
  split; [|split; [exact D|]].
  - cbn [fix_rot]. rewrite D. destruct (Rlt_dec 0 1); [|lra]. do 2 f_equal.
    unfold Rpower. rewrite ln_1, Rmult_0_r, exp_0. unfold m; lin; field.
  - intros [O _]. unfold m in O; lin_unfold. injection O; intros; lra.
Qed.

(** ** AngleAxis == is neither exact nor transitive *)
Lemma aa_equal_angles p s t : 0 < s < PI -> 0 < t < PI ->
  is_equal p (RotAA (mkAA s ex)) (RotAA (mkAA t ex)) = Some (Val (compareRelative s t (/ 10 ^ 2))).
Proof.
  intros Hs Ht. cbn [is_equal get_unique].
  rewrite !aa_unique_fix by (right; left; cbn; assumption).
  unfold aa_isEqual; cbn [aangle aaxis]. rewrite !compareRelative_refl by lra.
  rewrite !andb_true_r. reflexivity.
Qed.
Lemma compareRelative_big a b t : / 10 ^ 6 <= a -> a <= b -> 0 <= t ->
  compareRelative a b t = if Rltb (t * / 10 ^ 2) ((b - a) / b) then false else true.
Proof.
  intros Ha Hb Ht. unfold compareRelative, Reqb.
  rewrite (Rabs_right a), (Rabs_right b) by lra.
  assert (L15 : / 10 ^ 15 < / 10 ^ 6) by lra.
  unfold Rltb at 1 2. destruct (Rlt_dec a (/ 10 ^ 15)); [lra|].
  destruct (Req_EM_T a 0); [lra|]. destruct (Req_EM_T b 0); [lra|]. cbn [andb orb].
  rewrite Rmax_right by lra. rewrite Rabs_minus_sym, Rabs_right by lra. reflexivity.
Qed.
Lemma aa_not_transitive p :
  let a := mkAA 1 ex in let b := mkAA (1 + 8 / 10 ^ 5) ex in let c := mkAA (1 + 16 / 10 ^ 5) ex in
  is_equal p (RotAA a) (RotAA b) = Some (Val true) /\ aa_rot a <> aa_rot b /\
  is_equal p (RotAA b) (RotAA c) = Some (Val true) /\
  is_equal p (RotAA a) (RotAA c) = Some (Val false).
Proof.
  intros a b c. pose proof PI2_1 as HP. unfold a, b, c.
  rewrite !aa_equal_angles by lra.
  rewrite !compareRelative_big by lra. unfold Rltb.
  split; [|split; [|split]].
  - destruct (Rlt_dec _ _) as [L|L]; [exfalso|reflexivity].
    replace ((1 + 8 / 10 ^ 5 - 1) / (1 + 8 / 10 ^ 5)) with (8 / 100008) in L by field. lra.
  - intros E.
    assert (U : vnorm2 ex = 1) by (unfold ex; lin).
    assert (K : mkAA 1 ex = mkAA (1 + 8 / 10 ^ 5) ex).
    { apply canonical_aa_eq; [exact U|exact U| | |exact E]; right; left; cbn [aangle]; lra. }
    apply (f_equal aangle) in K; cbn [aangle] in K; lra.
  - destruct (Rlt_dec _ _) as [L|L]; [exfalso|reflexivity].
    replace ((1 + 16 / 10 ^ 5 - (1 + 8 / 10 ^ 5)) / (1 + 16 / 10 ^ 5)) with (8 / 100016) in L by field. lra.
  - destruct (Rlt_dec _ _) as [L|L]; [reflexivity|exfalso].
    replace ((1 + 16 / 10 ^ 5 - 1) / (1 + 16 / 10 ^ 5)) with (16 / 100016) in L by field. lra.
Qed.
