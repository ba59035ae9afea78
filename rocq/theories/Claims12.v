(** Claims C58-C63: proofs (statements are copied to Prop12.v). *)
From Coq Require Import Reals Lra Psatz Bool List ZArith Lia.
From Verif Require Import Linalg Spec SpecFacts ModelCommon ModelEigen ModelRotation CommonFacts ConvFacts RVFacts Windows RotFacts UniqueFacts MetricFacts EulerFacts EqFacts SetFacts ModelHistory SpecHistory HistoryFacts SpecClose CloseFacts NearUnit EulerNear RoundTrip TotalFacts TotalFacts2.
Local Open Scope R_scope.
Import ListNotations.

Lemma tolerance_dummy p : tolerance p = dummy_precision p. Proof. destruct p; reflexivity. Qed.
Lemma machine_eps_epsilon p : machine_eps p = epsilon p. Proof. destruct p; reflexivity. Qed.
Lemma rotates_like_mono p d e r m : d <= e -> rotates_like p d r m -> rotates_like p e r m.
Proof.
  intros L H v. destruct (H v) as (u & E & B). exists u. split; [exact E|]. pose proof (vnorm_nonneg v). nra.
Qed.

(** ** C58 *)
(** C58: quaternion -> matrix -> quaternion round trips. However small the
    deviation [eps] from unit length, some quaternion that deviates at most
    that much, hence is [eps]-close to a rotation [R], is driven by finitely
    many round trips to a rotation at distance more than 0.3 from [R]; and a
    RotationMatrix object that is multiplied [n] times by the identity
    RotationQuaternion ends there as well. *)
Lemma C58_round_trip_unstable_lemma : forall (p : prim) (eps : R), 0 < eps ->
  exists (R m mn : M33) (q qn : Quat) (n : nat),
    SO3 R /\ Rabs (qnorm2 q - 1) <= eps /\ to_mat p (RotQuat q) = Val m /\ close eps m R /\
    round_trips p n q = Val qn /\ to_mat p (RotQuat qn) = Val mn /\ ~ close (3/10) mn R /\
    rrun p (RotMat m) (repeat (OpMulRight (RotQuat qid)) n) = Val (RotMat mn).
Proof.
  intros p eps He. set (d := Rmin (eps / 2) (1/10)).
  assert (D : 0 < d <= 1/10 /\ d <= eps / 2).
  { unfold d, Rmin. destruct (Rle_dec (eps/2) (1/10)); lra. }
  destruct (curve_exists 0) as (q0 & C0); [lra|]. destruct (curve_exists d) as (q & C); [lra|].
  destruct (curve_escapes p d q ltac:(lra) C) as (n & qn & dn & E1 & E2 & Cn & Dn).
  exists (e_toRotationMatrix q0), (e_toRotationMatrix q), (e_toRotationMatrix qn), q, qn, n.
  assert (U0 : qnorm2 q0 = 1).
  { destruct C0 as (W & X & Y & Z & B & P). unfold qnorm2. rewrite Y, Z. nra. }
  assert (DM : forall e r v, on_curve e r -> vsub (mvmul (e_toRotationMatrix r) v) (mvmul (e_toRotationMatrix q0) v) = mkV3 0 (2 * e * vy v) (2 * e * vz v)).
  { intros e r v Cr. rewrite (curve_matrix _ _ Cr), (curve_matrix _ _ C0). set (c := sqrt (21/100)). destruct v; lin_unfold. f_equal; field. }
  split; [rewrite e_toRotationMatrix_unit by exact U0; apply (meaning_SO3 (RotQuat q0) U0)|].
  split.
  { destruct C as (W & X & Y & Z & B & P). assert (N : (qnorm2 q - 1) * (7/10 - d) = d * (d - 4/10)).
    { unfold qnorm2. rewrite Y, Z. rewrite <- B at 1.
      replace ((qw q * qw q + qx q * qx q + 0 * 0 + 0 * 0 - 1) * (qx q * qx q)) with (qw q * qw q * (qx q * qx q) + (qx q * qx q) * (qx q * qx q) - qx q * qx q) by ring.
      rewrite P, B. field. }
    apply Rabs_le. split; [|]; apply Rmult_le_reg_r with (7/10 - d); try lra; rewrite N; nra. }
  split; [reflexivity|]. split.
  { intros v. rewrite (DM d q v C). pose proof (vnorm_nonneg v). apply vnorm_le_sq; [nra|].
    replace (eps * vnorm v * (eps * vnorm v)) with (eps * eps * (vnorm v * vnorm v)) by ring. rewrite vnorm_sqr.
    destruct v as [x y z]. lin_unfold. assert (4 * (d * d) <= eps * eps) by nra.
    assert (0 <= x * x) by nra. assert (0 <= y * y) by nra. assert (0 <= z * z) by nra. nra. }
  split; [exact E1|]. split; [reflexivity|]. split; [|exact E2].
  intros H. specialize (H (mkV3 0 1 0)). rewrite (DM dn qn _ Cn) in H.
  assert (V1 : vnorm (mkV3 0 1 0) = 1) by (apply vnorm_unit; lin). rewrite V1 in H. cbn [vy vz] in H.
  assert (V2 : vnorm (mkV3 0 (2 * dn * 1) (2 * dn * 0)) = 2 * dn).
  { unfold vnorm. replace (vnorm2 (mkV3 0 (2 * dn * 1) (2 * dn * 0))) with ((2 * dn) * (2 * dn)) by (lin_unfold; ring). apply sqrt_square; lra. }
  rewrite V2 in H. lra.
Qed.
(** C58: what one round trip does, for every quaternion whatsoever: below 120
    degrees the deviation of the squared norm from 1 is multiplied by
    v2/(1-v2) (v2 the squared length of the vector part: more than 1 beyond 90
    degrees, at most 3), from 120 degrees on the quaternion comes back
    unchanged up to its sign; and the rotation moves by at most four times the
    deviation. *)
Lemma C58_round_trip_step_lemma : forall (p : prim) (q : Quat),
  let v2 := qx q * qx q + qy q * qy q + qz q * qz q in
  exists q', round_trips p 1 q = Val q' /\
    (v2 < 3/4 -> qnorm2 q' - 1 = (qnorm2 q - 1) * (v2 / (1 - v2))) /\
    (3/4 <= v2 -> q' = q \/ q' = qneg q) /\
    (Rabs (qnorm2 q - 1) <= 1/100 ->
       Rabs (qnorm2 q' - 1) <= 3 * Rabs (qnorm2 q - 1) /\
       exists m m', to_mat p (RotQuat q) = Val m /\ to_mat p (RotQuat q') = Val m' /\
         close (12 * Rabs (qnorm2 q - 1)) m' m).
Proof.
  intros p q v2. change v2 with (b2 q). clear v2.
  assert (E : exists q', e_quat_of_matrix (e_toRotationMatrix q) = Val q').
  { destruct (Rlt_or_le (b2 q) (3/4)) as [H|H]; [eexists; apply rt_low, H|]. destruct (rt_high q H) as [E|E]; eauto. }
  destruct E as (q' & E). exists q'. split; [cbn; rewrite E; reflexivity|]. split; [|split].
  - intros H. apply rt_norm; assumption.
  - intros H. destruct (rt_high q H) as [X|X]; rewrite E in X; injection X; auto.
  - intros H. destruct (rt_near q _ (Rle_refl _) H) as (q1 & E1 & N1 & C1). rewrite E in E1. injection E1 as <-.
    split; [exact N1|]. eexists; eexists. split; [reflexivity|]. split; [reflexivity|].
    assert (P : 0 < qnorm2 q) by (revert H; unfold Rabs; destruct (Rcase_abs _); lra).
    assert (P' : 0 < qnorm2 q') by (revert N1 H; unfold Rabs; repeat destruct (Rcase_abs _); lra).
    pose proof (e_toRot_close q P) as A. pose proof (e_toRot_close q' P') as B. rewrite Rabs_minus_sym in A, B.
    eapply close_mono; [|eapply close_trans; [exact B|eapply close_trans; [exact C1|apply close_sym, A]]].
    lra.
Qed.
(** C58: exactly unit quaternions survive any number of round trips. *)
Lemma C58_round_trip_exact_lemma : forall (p : prim) (n : nat) (q : Quat), qnorm2 q = 1 ->
  exists q', round_trips p n q = Val q' /\ qnorm2 q' = 1 /\ (q' = q \/ q' = qneg q).
Proof.
  intros p n. induction n as [|n IH]; intros q U.
  - exists q. cbn. auto.
  - assert (S : exists q1, e_quat_of_matrix (e_toRotationMatrix q) = Val q1 /\ qnorm2 q1 = 1 /\ (q1 = q \/ q1 = qneg q)).
    { destruct (Rlt_or_le (b2 q) (3/4)) as [H|H].
      - eexists. split; [apply rt_low, H|]. assert (A : qnorm2 q = qw q * qw q + b2 q) by (unfold b2, qnorm2; ring).
        assert (W : 1 - b2 q = qw q * qw q) by lra. rewrite W.
        assert (W0 : qw q <> 0) by nra.
        destruct q as [w x y z]; cbn [qw qx qy qz] in *. destruct (Rlt_dec 0 w) as [P|P].
        + rewrite sqrt_square by lra. assert (Q : mkQ w (w * x / w) (w * y / w) (w * z / w) = mkQ w x y z) by (f_equal; field; exact W0).
          rewrite Q. auto.
        + replace (w * w) with ((- w) * (- w)) by ring. rewrite sqrt_square by lra.
          assert (Q : mkQ (- w) (w * x / - w) (w * y / - w) (w * z / - w) = qneg (mkQ w x y z)) by (unfold qneg; cbn; f_equal; field; exact W0).
          rewrite Q. rewrite qnorm2_neg. auto.
      - destruct (rt_high q H) as [E|E]; rewrite E; eexists; (split; [reflexivity|]); rewrite ?qnorm2_neg; auto. }
    destruct S as (q1 & E & U1 & S). destruct (IH q1 U1) as (q' & E' & U' & S'). exists q'.
    cbn [round_trips to_mat to_quat obind]. rewrite E. cbn [obind]. split; [exact E'|]. split; [exact U'|].
    destruct S' as [-> | ->]; destruct S as [-> | ->]; auto. left. destruct q; unfold qneg; cbn; f_equal; ring.
Qed.
Lemma C58_round_trip_exact_ex : qnorm2 (mkQ (3/5) 0 (4/5) 0) = 1.
Proof. unfold qnorm2; cbn. field. Qed.

(** ** C59 *)
(** C59: every conversion (hence every constructor, converting assignment,
    exponentialMap and setRandom) of every legal rotation, no matter how small
    its angle: the result is there, has the class asked for and rotates
    every vector as the source does, up to a relative error of 1/1000 of the
    rounding unit (quaternion, matrix, Euler zyx) or twice the truncation
    tolerance (the other classes). *)
Lemma C59_conversion_total_lemma : forall (p : prim) (k : kind) (r : rotation), valid r ->
  exists r', convert p k r = Val r' /\ kind_of r' = k /\
    rotates_like p (match k with KQuat | KMat | KZyx => machine_eps p / 1000 | _ => 2 * tolerance p end) r' (meaning r).
Proof.
  intros p k r V. rewrite tolerance_dummy, machine_eps_epsilon.
  destruct (convert_total_near p k r V) as (r' & E & K & N). exists r'. split; [exact E|]. split; [exact K|].
  pose proof (eta_pos p) as EP. pose proof (eta_small p). pose proof (epsilon_pos p) as EPS. pose proof (eps_dummy p). pose proof (dummy_pos p).
  eapply rotates_like_mono; [|apply (near_rotates p (eta p) (dtot p k)); [lra|exact N]].
  unfold eta. destruct k; cbn [dtot]; lra.
Qed.
(** C59, instantiated to the functions that are conversions from a rotation
    vector. *)
Lemma C59_exp_random_total_lemma : forall (p : prim) (k : kind) (v : V3),
  exists r, exponentialMap p k v = Val r /\ set_random p k v = Val r /\ kind_of r = k /\
    rotates_like p (match k with KQuat | KMat | KZyx => machine_eps p / 1000 | _ => 2 * tolerance p end) r (vec_rot v).
Proof.
  intros p k v. destruct (C59_conversion_total_lemma p k (RotVec v) I) as (r & E & K & L). exists r. repeat split; assumption.
Qed.
Lemma C59_conversion_total_ex : forall p, let v := mkV3 (tolerance p / 2) 0 0 in
  valid (RotVec v) /\ v <> vzero /\ vnorm v < tolerance p.
Proof.
  intros p v. rewrite tolerance_dummy in *. pose proof (dummy_pos p). split; [exact I|]. split.
  - intros H0. apply (f_equal vx) in H0. unfold v in H0. rewrite tolerance_dummy in H0. cbn in H0. lra.
  - unfold v. rewrite tolerance_dummy. unfold vnorm. replace (vnorm2 (mkV3 (dummy_precision p / 2) 0 0)) with ((dummy_precision p / 2) * (dummy_precision p / 2)) by (lin_unfold; ring).
    rewrite sqrt_square; lra.
Qed.

(** ** C60 *)
(** C60: rotate and inverseRotate of every legal rotation. *)
Lemma C60_rotate_total_lemma : forall (p : prim) (r : rotation) (v : V3), valid r ->
  exists u w x, rotate p r v = Val u /\ inverseRotate p r v = Val w /\ inverseRotate p r u = Val x /\
    vnorm (vsub u (mvmul (meaning r) v)) <= machine_eps p / 24000 * vnorm v /\
    vnorm (vsub w (mvmul (mtrans (meaning r)) v)) <= machine_eps p / 24000 * vnorm v /\
    vnorm (vsub x v) <= machine_eps p / 10000 * vnorm v.
Proof.
  intros p r v V. rewrite machine_eps_epsilon. pose proof (epsilon_pos p) as EP. pose proof (epsilon_small p) as ES.
  assert (R : forall s, valid s -> rotates_like p (epsilon p / 24000) s (meaning s)).
  { intros s Vs. eapply rotates_like_mono; [|apply (near_rotates p 0 0); [lra|apply valid_near; [lra|exact Vs|apply close_refl; lra]]]. lra. }
  destruct (inverted_exact r V) as (s & E & _ & Vs & M). unfold inverseRotate. rewrite E. cbn [obind].
  destruct (R r V v) as (u & Eu & Bu). destruct (R s Vs v) as (w & Ew & Bw). destruct (R s Vs u) as (x & Ex & Bx). rewrite M in *.
  exists u, w, x. rewrite Ex. split; [exact Eu|]. split; [exact Ew|]. split; [reflexivity|]. split; [exact Bu|]. split; [exact Bw|].
  pose proof (meaning_SO3 r V) as S. pose proof (SO3_trans _ S) as ST.
  assert (G : vnorm (vsub (mvmul (mtrans (meaning r)) u) v) <= epsilon p / 24000 * vnorm v).
  { replace v with (mvmul (mtrans (meaning r)) (mvmul (meaning r) v)) at 1.
    2: { rewrite <- mvmul_mmul, (SO3_inv_l _ S). apply mvmul_id. }
    replace (vsub (mvmul (mtrans (meaning r)) u) (mvmul (mtrans (meaning r)) (mvmul (meaning r) v)))
      with (mvmul (mtrans (meaning r)) (vsub u (mvmul (meaning r) v))) by (destruct (meaning r), u, v; lin).
    rewrite (SO3_vnorm _ _ ST). exact Bu. }
  pose proof (vnorm_sub_triang x (mvmul (mtrans (meaning r)) u) v) as T.
  pose proof (vnorm_le_add u (mvmul (meaning r) v) _ Bu) as T2. rewrite (SO3_vnorm _ _ S) in T2.
  pose proof (vnorm_nonneg v) as V0. pose proof (vnorm_nonneg u).
  assert (epsilon p / 24000 * vnorm u <= epsilon p / 24000 * (2 * vnorm v)).
  { apply Rmult_le_compat_l; [lra|]. nra. }
  nra.
Qed.

(** ** C61 *)
(** C61: products of legal rotations of any two classes and boxPlus, for every
    pair of operands. *)
Lemma C61_product_total_lemma : forall (p : prim) (l r : rotation), valid l -> valid r ->
  exists s, mult p l r = Val s /\ kind_of s = kind_of l /\
    rotates_like p (match kind_of l with KVec => tolerance p | _ => machine_eps p / 1000 end) s (mmul (meaning l) (meaning r)).
Proof.
  intros p l r Vl Vr. rewrite tolerance_dummy, machine_eps_epsilon.
  destruct (mult_total_near p l r Vl Vr) as (s & E & K & N). exists s. split; [exact E|]. split; [exact K|].
  pose proof (eta_pos p) as EP. pose proof (eta_small p). pose proof (epsilon_pos p) as EPS. pose proof (eps_dummy p). pose proof (dummy_pos p).
  eapply rotates_like_mono; [|apply (near_rotates p (2 * eta p) (dmul p (kind_of l))); [lra|exact N]].
  unfold eta. destruct (kind_of l); cbn [dmul]; lra.
Qed.
Lemma C61_boxplus_total_lemma : forall (p : prim) (r : rotation) (v : V3), valid r ->
  exists s, boxPlus p r v = Val s /\ kind_of s = kind_of r /\
    rotates_like p (match kind_of r with KQuat | KMat | KZyx => machine_eps p / 500 | _ => 3 * tolerance p end) s (mmul (vec_rot v) (meaning r)).
Proof.
  intros p r v V. rewrite tolerance_dummy, machine_eps_epsilon.
  destruct (boxPlus_total p r v V) as (s & E & K & N). exists s. split; [exact E|]. split; [exact K|].
  pose proof (eta_pos p) as EP. pose proof (eta_small p). pose proof (epsilon_pos p) as EPS. pose proof (eps_dummy p). pose proof (dummy_pos p).
  eapply rotates_like_mono; [|apply (near_rotates p (3 * eta p) (dplus p (kind_of r))); [lra|exact N]].
  unfold eta. destruct (kind_of r); cbn [dplus]; lra.
Qed.
Lemma C61_product_total_ex : forall p, valid (RotMat (Rot_x 2)) /\ valid (RotVec (mkV3 (tolerance p / 3) 0 0)).
Proof. intros p. split; [apply Rot_x_SO3|exact I]. Qed.

(** ** C62 *)
(** C62: logarithm, box minus and disparity of every pair of legal rotations. *)
Lemma C62_log_boxminus_total_lemma : forall (p : prim) (l r : rotation), valid l -> valid r ->
  exists v w, logarithmicMap p l = Val v /\ vnorm v <= PI /\ close (2 * tolerance p) (vec_rot v) (meaning l) /\
    boxMinus p l r = Val w /\ vnorm w <= PI /\ close (2 * tolerance p) (vec_rot w) (mmul (meaning l) (mtrans (meaning r))).
Proof.
  intros p l r Vl Vr. rewrite tolerance_dummy. destruct (log_total p l Vl) as (v & A & B & C).
  destruct (boxMinus_total p l r Vl Vr) as (w & A' & B' & C'). exists v, w. repeat split; assumption.
Qed.
(** C62: the disparity angle is the true angle up to the stated error, and
    isNear can only be wrong when the angle is that close to the threshold. *)
Lemma C62_disparity_total_lemma : forall (p : prim) (l r : rotation) (tol : R), valid l -> valid r ->
  let err := match kind_of l with KVec => 4 * tolerance p | _ => machine_eps p / 100 end in
  exists d t c, disparity p l r = Val d /\ 0 <= d <= PI /\
    is_rotation_angle (mmul (meaning l) (mtrans (meaning r))) t /\ Rabs (d - t) <= err /\
    isNear p l r tol = Val c /\ (t <= tol - err -> c = true) /\ (tol + err < t -> c = false).
Proof.
  intros p l r tol Vl Vr err. unfold err. rewrite tolerance_dummy, machine_eps_epsilon.
  destruct (disparity_total p l r Vl Vr) as (d & t & E & R & T & B).
  exists d, t, (Rleb d tol). split; [exact E|]. split; [exact R|]. split; [exact T|]. split; [exact B|].
  unfold isNear. rewrite E. cbn [obind]. split; [reflexivity|].
  set (e := match kind_of l with KVec => _ | _ => _ end) in *. clearbody e.
  split; intros H; destruct (Rleb_spec d tol); auto; exfalso; revert B; unfold Rabs; destruct (Rcase_abs _); lra.
Qed.
(** C62: box plus undoes box minus and interpolation meets its end points, up
    to the truncation tolerance, for every pair of legal rotations. *)
Lemma C62_endpoints_total_lemma : forall (p : prim) (a b : rotation) (ratio : R), valid a -> valid b ->
  exists v s t, boxMinus p b a = Val v /\ boxPlus p a v = Val s /\ kind_of s = kind_of a /\ rotates_like p (5 * tolerance p) s (meaning b) /\
    interpolate p a b ratio = Val t /\ kind_of t = kind_of a /\
    (ratio <= 0 -> rotates_like p (5 * tolerance p) t (meaning a)) /\
    (1 <= ratio -> rotates_like p (5 * tolerance p) t (meaning b)) /\
    (0 <= ratio <= 1 -> rotates_like p (5 * tolerance p) t (mmul (vec_rot (vscale ratio v)) (meaning a))).
Proof.
  intros p a b ratio Va Vb. rewrite tolerance_dummy.
  pose proof (eta_pos p) as EP. pose proof (eta_small p) as ES. pose proof (epsilon_pos p) as EPS. pose proof (eps_dummy p) as ED. pose proof (dummy_pos p) as P.
  pose proof (meaning_SO3 a Va) as Sa. pose proof (meaning_SO3 b Vb) as Sb.
  destruct (boxMinus_total p b a Vb Va) as (v & Ev & _ & Cv).
  assert (G : forall u, exists s, boxPlus p a u = Val s /\ kind_of s = kind_of a /\ rotates_like p (3 * dummy_precision p) s (mmul (vec_rot u) (meaning a))).
  { intros u. destruct (C61_boxplus_total_lemma p a u Va) as (s & E & K & L). exists s. split; [exact E|]. split; [exact K|].
    eapply rotates_like_mono; [|exact L]. rewrite tolerance_dummy, machine_eps_epsilon. destruct (kind_of a); lra. }
  assert (T : forall s m m' d e, rotates_like p d s m -> close e m m' -> rotates_like p (d + e) s m').
  { intros s m m' d e H C x. destruct (H x) as (u & E & B). exists u. split; [exact E|].
    pose proof (vnorm_sub_triang u (mvmul m x) (mvmul m' x)). specialize (C x). lra. }
  assert (CB : close (2 * dummy_precision p) (mmul (vec_rot v) (meaning a)) (meaning b)).
  { replace (meaning b) with (mmul (mmul (meaning b) (mtrans (meaning a))) (meaning a)).
    - apply close_mul_r; [exact Sa|exact Cv].
    - rewrite <- mmul_assoc, (SO3_inv_l _ Sa). apply mmul_id_r. }
  set (c := if Rlt_dec 1 ratio then 1 else if Rlt_dec ratio 0 then 0 else ratio).
  destruct (G v) as (s & Es & Ks & Ls). destruct (G (vscale c v)) as (t & Et & Kt & Lt).
  assert (V1 : vscale 1 v = v) by lin. assert (V0 : vscale 0 v = vzero) by lin.
  exists v, s, t. split; [exact Ev|]. split; [exact Es|]. split; [exact Ks|]. split.
  { eapply rotates_like_mono; [|exact (T _ _ _ _ _ Ls CB)]. lra. }
  unfold interpolate. fold c. rewrite Ev. cbn [obind]. split; [exact Et|]. split; [exact Kt|]. unfold c in Lt. split; [|split]; intros H.
  - replace (if Rlt_dec 1 ratio then 1 else if Rlt_dec ratio 0 then 0 else ratio) with 0 in Lt
      by (destruct (Rlt_dec 1 ratio); [lra|]; destruct (Rlt_dec ratio 0); lra).
    rewrite V0, vec_rot_zero, mmul_id_l in Lt. eapply rotates_like_mono; [|exact Lt]. lra.
  - replace (if Rlt_dec 1 ratio then 1 else if Rlt_dec ratio 0 then 0 else ratio) with 1 in Lt
      by (destruct (Rlt_dec 1 ratio); [lra|]; destruct (Rlt_dec ratio 0); lra).
    rewrite V1 in Lt. eapply rotates_like_mono; [|exact (T _ _ _ _ _ Lt CB)]. lra.
  - replace (if Rlt_dec 1 ratio then 1 else if Rlt_dec ratio 0 then 0 else ratio) with ratio in Lt
      by (destruct (Rlt_dec 1 ratio); [lra|]; destruct (Rlt_dec ratio 0); lra).
    eapply rotates_like_mono; [|exact Lt]. lra.
Qed.

(** ** C63 *)
(** C63: any history of calls with legal operands (no windows) on an object
    that is not a matrix: no call fails, the class never changes, and after n
    calls the object rotates every vector as the history prescribes, up to
    2(n+1) times the truncation tolerance. Only for quaternion objects is the
    number of calls limited (their norm drifts). *)
Lemma C63_history_total_lemma : forall (p : prim) (s : rotation) (os : list rop), valid s -> kind_of s <> KMat ->
  Forall (op_total (kind_of s)) os -> (kind_of s = KQuat -> INR (length os) <= 10 ^ 5) ->
  exists t, rrun p s os = Val t /\ kind_of t = kind_of s /\
    rotates_like p (2 * (INR (length os) + 1) * tolerance p) t (fold_left spec_step os (meaning s)).
Proof.
  intros p s os V K F L. rewrite tolerance_dummy.
  pose proof (eta_pos p) as EP. pose proof (eta_small p) as ES. pose proof (epsilon_pos p) as EPS. pose proof (epsilon_small p) as EPM. pose proof (eps_dummy p) as ED. pose proof (dummy_pos p) as P.
  pose proof (pos_INR (length os)) as L0. pose proof (meaning_SO3 s V) as S.
  assert (N0 : near 0 0 s (meaning s)) by (apply valid_near; [lra|exact V|apply close_refl; lra]).
  destruct (kind_of s) eqn:Ks.
  1: { specialize (L eq_refl). assert (X : 3 * eta p * INR (length os) <= epsilon p / 2) by (unfold eta; nra).
       destruct (rrun_near p os 0 0 s (meaning s)) as (t & E & Kt & N); [lra|lra|congruence|exact S|exact N0|rewrite Ks; exact F|].
       exists t. split; [exact E|]. split; [congruence|]. rewrite !Rplus_0_l in N.
       eapply rotates_like_mono; [|apply (near_rotates p _ _ _ _) in N; [exact N|]].
       - nra.
       - split; [|lra]. apply Rmult_le_pos; lra. }
  all: destruct (rrun_near_nonquat p os 0 s (meaning s)) as (t & E & Kt & N); [congruence|congruence|exact S|exact N0|rewrite Ks; exact F|];
    exists t; (split; [exact E|]); (split; [congruence|]); rewrite !Rplus_0_l in N;
    (eapply rotates_like_mono; [|apply (near_rotates p 0 _ _ _) in N; [exact N|lra]]); nra.
Qed.
(** C63: for quaternion objects the error per call is 1/5000 of the rounding
    unit as long as left operands are quaternions. *)
Lemma C63_quaternion_history_total_lemma : forall (p : prim) (q : Quat) (os : list rop), qnorm2 q = 1 ->
  Forall op_quat os -> INR (length os) <= 10 ^ 5 ->
  exists q', rrun p (RotQuat q) os = Val (RotQuat q') /\
    Rabs (qnorm2 q' - 1) <= machine_eps p * INR (length os) / 10 ^ 5 /\
    rotates_like p ((INR (length os) + 1) * machine_eps p / 5000) (RotQuat q') (fold_left spec_step os (quat_rot q)).
Proof.
  intros p q os U F L. rewrite machine_eps_epsilon.
  pose proof (eta_pos p) as EP. pose proof (eta_small p) as ES. pose proof (epsilon_pos p) as EPS. pose proof (epsilon_small p) as EPM.
  pose proof (pos_INR (length os)) as L0.
  assert (N0 : near 0 0 (RotQuat q) (quat_rot q)) by (apply valid_near; [lra|exact U|apply close_refl; lra]).
  assert (X : 2 * eta p * INR (length os) <= epsilon p / 2) by (unfold eta; nra).
  destruct (rrun_near_quat p os 0 0 q (quat_rot q)) as (q' & E & N); [lra|lra|exact (meaning_SO3 (RotQuat q) U)|exact N0|exact F|].
  exists q'. split; [exact E|]. rewrite !Rplus_0_l in N. split.
  - destruct N as [N _]. eapply Rle_trans; [exact N|]. unfold eta. nra.
  - eapply rotates_like_mono; [|apply (near_rotates p _ _ _ _) in N; [exact N|]].
    + unfold eta. nra.
    + split; [|lra]. apply Rmult_le_pos; lra.
Qed.
Lemma C63_history_total_ex : forall p,
  let s := RotVec (mkV3 (tolerance p / 3) 0 0) in
  let os := [OpMulRight (RotMat (Rot_x 2)); OpMulLeft (RotMat (Rot_x 1)); OpInvert; OpSetUnique; OpMulLeft (RotZyx (mkZyx 1 2 3));
             OpAssign (RotVec (mkV3 0 (machine_eps p) 0)); OpFix] in
  valid s /\ kind_of s <> KMat /\ Forall (op_total (kind_of s)) os /\ (kind_of s = KQuat -> INR (length os) <= 10 ^ 5) /\
  fold_left spec_step os (meaning s) = vec_rot (mkV3 0 (machine_eps p) 0).
Proof.
  intros p s os. split; [exact I|]. split; [discriminate|]. split; [|split; [discriminate|reflexivity]].
  repeat constructor; cbn; try discriminate; try apply Rot_x_SO3.
Qed.
