(** * MotionFacts: a motion whose angular velocity stays near a constant stays near the
    rotation with that constant velocity. *)
From Coq Require Import Reals Lra Psatz.
From Verif Require Import Linalg Spec SpecFacts SpecDiff SpecClose ModelCommon ModelEigen CommonFacts CloseFacts ModelRotation RVFacts RotFacts DerivFacts JacFacts.
Local Open Scope R_scope.

Lemma vec_rot_along k w : mvmul (vec_rot (vscale k w)) w = w.
Proof.
  unfold vec_rot. destruct (Req_EM_T (vnorm (vscale k w)) 0) as [Z|Z]; [apply mvmul_id|].
  set (v := vscale k w) in *. set (N := vnorm v) in *. set (n := vscale (/ N) v).
  assert (X : mvmul (mat_of (rodrigues N n)) w = rodrigues N n w) by (unfold mat_of, rodrigues; destruct n as [n1 n2 n3], w as [e1 e2 e3]; lin).
  rewrite X. unfold rodrigues.
  assert (NN : N * N = k * k * vnorm2 w). { unfold N, vnorm. rewrite sqrt_sqrt; [unfold v; lin|]. unfold v, vnorm2, vdot, vscale; cbn [vx vy vz]. nra. }
  assert (C : vcross n w = vzero) by (unfold n, v; lin). rewrite C.
  assert (D : vscale (vdot n w) n = w).
  { unfold n, v. replace (vdot (vscale (/ N) (vscale k w)) w) with (/ N * k * vnorm2 w) by lin.
    replace (vscale (/ N * k * vnorm2 w) (vscale (/ N) (vscale k w))) with (vscale ((k * k * vnorm2 w) / (N * N)) w) by (unfold vscale; cbn [vx vy vz]; f_equal; field; exact Z).
    rewrite <- NN. replace (N * N / (N * N)) with 1 by (field; exact Z). lin. }
  replace (vscale ((1 - cos N) * vdot n w) n) with (vscale (1 - cos N) (vscale (vdot n w) n)) by (unfold vscale; cbn [vx vy vz]; f_equal; ring).
  rewrite D. clear. destruct w as [a b c]. unfold vadd, vscale, vzero; cbn [vx vy vz]. f_equal; ring.
Qed.
Lemma vnorm_zero v : vnorm v = 0 -> v = vzero.
Proof.
  intro H. assert (Q : vnorm2 v = 0) by (apply sqrt_eq_0; [unfold vnorm2, vdot; nra|exact H]).
  destruct v as [a b c]. unfold vnorm2, vdot in Q; cbn [vx vy vz] in Q. unfold vzero. f_equal; nra.
Qed.
Lemma jac_parallel k w c : mvmul (exact_jac (vscale k w)) (vscale c w) = vscale c w.
Proof.
  unfold exact_jac. generalize ((1 - cos (vnorm (vscale k w))) / (vnorm (vscale k w) * vnorm (vscale k w))). generalize ((vnorm (vscale k w) - sin (vnorm (vscale k w))) / (vnorm (vscale k w) * vnorm (vscale k w) * vnorm (vscale k w))).
  intros a b. destruct w as [x y z]. lin.
Qed.
Lemma steady_velocity t0 w s : has_global_velocity (fun s => vec_rot (vscale (t0 - s) w)) s (vneg w).
Proof.
  assert (D : Vderiv (fun s => vscale (t0 - s) w) s (vneg w)) by (unfold Vderiv, vscale, vneg; cbn [vx vy vz]; repeat split; dl_solve; ring).
  destruct (Req_dec (vnorm (vscale (t0 - s) w)) 0) as [Z|Z].
  - apply (vec_rot_deriv_zero (fun s => vscale (t0 - s) w)); [now apply vnorm_zero|exact D].
  - pose proof (vec_rot_deriv (fun s => vscale (t0 - s) w) s _ Z D) as H. cbv beta in H. replace (vneg w) with (vscale (-1) w) in H |- * by (destruct w; lin). rewrite jac_parallel in H. exact H.
Qed.
Lemma Mderiv_mul a b a' b' t : Mderiv a t a' -> Mderiv b t b' -> Mderiv (fun s => mmul (a s) (b s)) t (madd (mmul a' (b t)) (mmul (a t) b')).
Proof.
  intros ((A1&A2&A3)&(A4&A5&A6)&(A7&A8&A9)) ((B1&B2&B3)&(B4&B5&B6)&(B7&B8&B9)).
  unfold Mderiv, mmul, madd. cbn [m00 m01 m02 m10 m11 m12 m20 m21 m22]. repeat split; dl_solve; ring.
Qed.
Lemma Mderiv_form M D t u v : Mderiv M t D -> derivable_pt_lim (fun s => vdot u (mvmul (M s) v)) t (vdot u (mvmul D v)).
Proof.
  intros ((A1&A2&A3)&(A4&A5&A6)&(A7&A8&A9)). unfold vdot, mvmul. cbn [vx vy vz]. dl_solve. ring.
Qed.
(** a matrix curve whose derivative is bounded *)
Lemma bounded_curve M D t0 t1 e : t0 <= t1 -> 0 <= e -> (forall s, t0 <= s <= t1 -> Mderiv M s (D s) /\ forall v, vnorm (mvmul (D s) v) <= e * vnorm v) ->
  close (e * (t1 - t0)) (M t1) (M t0).
Proof.
  intros T E H v. destruct (Req_dec t0 t1) as [Q|Q].
  - subst t1. replace (vsub (mvmul (M t0) v) (mvmul (M t0) v)) with vzero by (unfold vsub, vzero; f_equal; ring). replace (vnorm vzero) with 0; [|unfold vnorm, vnorm2, vdot, vzero; cbn [vx vy vz]; replace (0 * 0 + 0 * 0 + 0 * 0) with 0 by ring; now rewrite sqrt_0].
    replace (t0 - t0) with 0 by ring. lra.
  - set (u := vsub (mvmul (M t1) v) (mvmul (M t0) v)).
    destruct (MVT_cor2 (fun s => vdot u (mvmul (M s) v)) (fun s => vdot u (mvmul (D s) v)) t0 t1) as (c & Hc & Ic); [lra|intros c Hc; apply Mderiv_form, H, Hc|].
    assert (UU : vnorm u * vnorm u = vdot u (mvmul (M t1) v) - vdot u (mvmul (M t0) v)).
    { unfold vnorm at 1 2. rewrite sqrt_sqrt by (unfold vnorm2, vdot; nra). unfold vnorm2. fold u. replace (vdot u (mvmul (M t1) v) - vdot u (mvmul (M t0) v)) with (vdot u u); [reflexivity|].
      unfold u at 2. generalize u. intro. unfold vdot, vsub; cbn [vx vy vz]. ring. }
    pose proof (cauchy_schwarz u (mvmul (D c) v)) as CS. destruct (H c ltac:(lra)) as [_ B]. specialize (B v).
    assert (U0 : 0 <= vnorm u) by apply sqrt_pos. assert (V0 : 0 <= vnorm v) by apply sqrt_pos.
    assert (CS' : vnorm u * vnorm (mvmul (D c) v) <= vnorm u * (e * vnorm v)) by (apply Rmult_le_compat_l; assumption).
    assert (K : vnorm u * vnorm u <= vnorm u * (e * (t1 - t0) * vnorm v)).
    { rewrite UU, Hc. replace (vnorm u * (e * (t1 - t0) * vnorm v)) with (vnorm u * (e * vnorm v) * (t1 - t0)) by ring. apply Rmult_le_compat_r; lra. }
    destruct (Req_dec (vnorm u) 0) as [Z|Z]; [rewrite Z; apply Rmult_le_pos; [apply Rmult_le_pos; lra|exact V0]|]. apply Rmult_le_reg_l with (vnorm u); [lra|exact K].
Qed.
(** a motion whose global velocity stays within e of w *)
Lemma motion_global (R : Rdefinitions.R -> M33) (om : Rdefinitions.R -> V3) t0 t1 w e : t0 <= t1 -> 0 <= e ->
  (forall s, t0 <= s <= t1 -> SO3 (R s) /\ has_global_velocity R s (om s) /\ vnorm (vsub (om s) w) <= e) ->
  close (e * (t1 - t0)) (R t1) (mmul (vec_rot (vscale (t1 - t0) w)) (R t0)).
Proof.
  intros T E H. set (F := fun s => vec_rot (vscale (t0 - s) w)).
  set (D := fun s => madd (mmul (mmul (mcross (vneg w)) (F s)) (R s)) (mmul (F s) (mmul (mcross (om s)) (R s)))).
  assert (SF : forall s, SO3 (F s)) by (intro; apply vec_rot_SO3).
  assert (B : close (e * (t1 - t0)) (mmul (F t1) (R t1)) (mmul (F t0) (R t0))).
  { apply (bounded_curve (fun s => mmul (F s) (R s)) D t0 t1 e T E). intros s Hs. destruct (H s Hs) as (S & V & N). split; [apply (Mderiv_mul F R _ _ s (steady_velocity t0 w s) V)|].
    intro v. assert (Q : mvmul (D s) v = mvmul (F s) (vcross (vsub (om s) w) (mvmul (R s) v))).
    { unfold D. pose proof (mcross_rotate (F s) w (SF s)) as C. assert (W : mvmul (F s) w = w) by apply vec_rot_along. rewrite W in C.
      replace (mmul (mcross (vneg w)) (F s)) with (mscale (-1) (mmul (F s) (mcross w))) by (rewrite <- C; generalize (F s); intros g; destruct w; lin).
      generalize (F s) (R s) (om s). intros g r o. clear. destruct w, v, o. lin. }
    rewrite Q, (SO3_vnorm _ _ (SF s)). eapply Rle_trans; [apply vnorm_cross_le|]. rewrite (SO3_vnorm _ _ S). apply Rmult_le_compat_r; [apply sqrt_pos|exact N]. }
  assert (F0 : F t0 = mid). { unfold F. replace (vscale (t0 - t0) w) with vzero by (unfold vscale, vzero; f_equal; ring). apply vec_rot_zero. }
  assert (F1 : F t1 = mtrans (vec_rot (vscale (t1 - t0) w))). { unfold F. rewrite <- vec_rot_neg. f_equal. unfold vscale, vneg; cbn [vx vy vz]; f_equal; ring. }
  rewrite F0, F1, mmul_id_l in B. set (G := vec_rot (vscale (t1 - t0) w)) in *. assert (SG : SO3 G) by apply vec_rot_SO3.
  pose proof (close_mul_l _ G _ _ SG B) as X. rewrite mmul_assoc, (SO3_inv_r G SG), mmul_id_l in X. exact X.
Qed.
(** the same for the local velocity *)
Lemma motion_local (R : Rdefinitions.R -> M33) (om : Rdefinitions.R -> V3) t0 t1 w e : t0 <= t1 -> 0 <= e ->
  (forall s, t0 <= s <= t1 -> SO3 (R s) /\ has_local_velocity R s (om s) /\ vnorm (vsub (om s) w) <= e) ->
  close (e * (t1 - t0)) (R t1) (mmul (R t0) (vec_rot (vscale (t1 - t0) w))).
Proof.
  intros T E H. set (F := fun s => vec_rot (vscale (t0 - s) w)).
  set (D := fun s => madd (mmul (mmul (R s) (mcross (om s))) (F s)) (mmul (R s) (mmul (mcross (vneg w)) (F s)))).
  assert (SF : forall s, SO3 (F s)) by (intro; apply vec_rot_SO3).
  assert (B : close (e * (t1 - t0)) (mmul (R t1) (F t1)) (mmul (R t0) (F t0))).
  { apply (bounded_curve (fun s => mmul (R s) (F s)) D t0 t1 e T E). intros s Hs. destruct (H s Hs) as (S & V & N). split; [apply (Mderiv_mul R F _ _ s V (steady_velocity t0 w s))|].
    intro v. assert (Q : mvmul (D s) v = mvmul (R s) (vcross (vsub (om s) w) (mvmul (F s) v))).
    { unfold D. generalize (F s) (R s) (om s). intros g r o. clear. destruct w, v, o. lin. }
    rewrite Q, (SO3_vnorm _ _ S). eapply Rle_trans; [apply vnorm_cross_le|]. rewrite (SO3_vnorm _ _ (SF s)). apply Rmult_le_compat_r; [apply sqrt_pos|exact N]. }
  assert (F0 : F t0 = mid). { unfold F. replace (vscale (t0 - t0) w) with vzero by (unfold vscale, vzero; f_equal; ring). apply vec_rot_zero. }
  assert (F1 : F t1 = mtrans (vec_rot (vscale (t1 - t0) w))). { unfold F. rewrite <- vec_rot_neg. f_equal. unfold vscale, vneg; cbn [vx vy vz]; f_equal; ring. }
  rewrite F0, F1, mmul_id_r in B. set (G := vec_rot (vscale (t1 - t0) w)) in *. assert (SG : SO3 G) by apply vec_rot_SO3.
  pose proof (close_mul_r _ G _ _ SG B) as X. rewrite <- mmul_assoc, (SO3_inv_l G SG), mmul_id_r in X. exact X.
Qed.

(** ** The exact motion during one step *)
Lemma local_of_global R t w : SO3 (R t) -> has_global_velocity R t w -> has_local_velocity R t (mvmul (mtrans (R t)) w).
Proof.
  intros S H. unfold has_local_velocity, has_global_velocity in *. rewrite <- (mcross_rotate (R t) _ S).
  replace (mvmul (R t) (mvmul (mtrans (R t)) w)) with w; [exact H|]. rewrite <- mvmul_mmul, (SO3_inv_r _ S). symmetry. apply mvmul_id.
Qed.
Lemma close_exp v d : vnorm v <= d -> close d (vec_rot v) mid.
Proof. intro H. eapply close_mono; [exact H|apply vec_close_id]. Qed.
Definition advance (body : bool) (v : V3) (r : M33) : M33 := if body then mmul r (vec_rot v) else mmul (vec_rot v) r.
Lemma motion_step (Rt : R -> M33) (om : R -> V3) (t h : R) (v : V3) (body : bool) (d : R) : 0 <= h ->
  (forall u, t <= u <= t + h -> SO3 (Rt u) /\ has_global_velocity Rt u (om u) /\ vnorm (vsub (vscale h (if body then mvmul (mtrans (Rt u)) (om u) else om u)) v) <= d) ->
  close d (Rt (t + h)) (advance body v (Rt t)).
Proof.
  intros H0 H. destruct (H t ltac:(lra)) as (S & _ & D0). assert (d0 : 0 <= d) by (eapply Rle_trans; [apply sqrt_pos|exact D0]).
  destruct (Req_dec h 0) as [Z|Z].
  - subst h. rewrite Rplus_0_r. replace (vscale 0 (if body then mvmul (mtrans (Rt t)) (om t) else om t)) with vzero in D0 by (unfold vscale, vzero; f_equal; ring).
    assert (N : vnorm v <= d). { rewrite vnorm_sub_sym in D0. replace (vsub v vzero) with v in D0; [exact D0|]. destruct v as [v1 v2 v3]; unfold vsub, vzero; cbn [vx vy vz]; f_equal; ring. }
    pose proof (close_exp v d N) as C. apply close_sym. unfold advance. destruct body.
    + pose proof (close_mul_l _ (Rt t) _ _ S C) as Q. rewrite mmul_id_r in Q. exact Q.
    + pose proof (close_mul_r _ (Rt t) _ _ S C) as Q. rewrite mmul_id_l in Q. exact Q.
  - assert (hp : 0 < h) by lra. assert (Ih : 0 < / h) by (now apply Rinv_0_lt_compat). set (w := vscale (/ h) v).
    assert (W : vscale (t + h - t) w = v) by (unfold w; destruct v as [v1 v2 v3]; unfold vscale; cbn [vx vy vz]; f_equal; field; lra).
    assert (E : d / h * (t + h - t) = d) by (field; lra). assert (e0 : 0 <= d / h) by (apply Rmult_le_pos; lra).
    assert (SC : forall o, vnorm (vsub (vscale h o) v) <= d -> vnorm (vsub o w) <= d / h).
    { intros o Q. replace (vsub o w) with (vscale (/ h) (vsub (vscale h o) v)) by (unfold w; destruct o as [o1 o2 o3], v as [v1 v2 v3]; unfold vsub, vscale; cbn [vx vy vz]; f_equal; field; lra).
      rewrite vnorm_vscale, Rabs_pos_eq by lra. unfold Rdiv. rewrite Rmult_comm. apply Rmult_le_compat_r; [lra|exact Q]. }
    unfold advance. destruct body.
    + pose proof (motion_local Rt (fun u => mvmul (mtrans (Rt u)) (om u)) t (t + h) w (d / h) ltac:(lra) e0) as M. rewrite W, E in M. apply M.
      intros s Hs. destruct (H s Hs) as (A & B & C). split; [exact A|]. split; [now apply local_of_global|now apply SC].
    + pose proof (motion_global Rt om t (t + h) w (d / h) ltac:(lra) e0) as M. rewrite W, E in M. apply M.
      intros s Hs. destruct (H s Hs) as (A & B & C). split; [exact A|]. split; [exact B|now apply SC].
Qed.
Lemma close_advance e body v a b : close e a b -> close e (advance body v a) (advance body v b).
Proof. intro C. unfold advance. destruct body; [apply close_mul_r|apply close_mul_l]; try exact C; apply vec_rot_SO3. Qed.
(** a path whose velocity times the duration stays within d of a displacement *)
Lemma path_step (X V : R -> V3) (t h : R) (a : V3) (d : R) : 0 <= h ->
  (forall u, t <= u <= t + h -> Vderiv X u (V u) /\ vnorm (vsub (vscale h (V u)) a) <= d) ->
  vnorm (vsub (X (t + h)) (vadd (X t) a)) <= d.
Proof.
  intros H0 H. set (w := vsub (X (t + h)) (vadd (X t) a)). assert (W0 : 0 <= vnorm w) by apply sqrt_pos.
  destruct (Req_dec h 0) as [Z|Z].
  - destruct (H t ltac:(lra)) as [_ D]. rewrite vnorm_sub_sym in D. subst h. unfold w. rewrite Rplus_0_r. rewrite vnorm_sub_sym in D. replace (vsub (X t) (vadd (X t) a)) with (vsub (vscale 0 (V t)) a); [exact D|].
    unfold vsub, vadd, vscale; cbn [vx vy vz]. f_equal; ring.
  - destruct (MVT_cor2 (fun s => vdot w (X s)) (fun s => vdot w (V s)) t (t + h)) as (c & Hc & Ic); [lra| |].
    { intros c Hc. destruct (H c Hc) as [(D1 & D2 & D3) _]. unfold vdot. dl_solve. ring. }
    destruct (H c ltac:(lra)) as [_ B]. pose proof (cauchy_schwarz w (vsub (vscale h (V c)) a)) as CS.
    assert (WW : vnorm w * vnorm w = vdot w (vsub (vscale h (V c)) a)).
    { transitivity (vdot w w); [unfold vnorm; rewrite sqrt_sqrt by (unfold vnorm2, vdot; nra); reflexivity|].
      transitivity (vdot w (X (t + h)) - vdot w (X t) - vdot w a); [unfold w at 2; generalize w; intro; unfold vdot, vsub, vadd; cbn [vx vy vz]; ring|].
      rewrite Hc. generalize w. intro. unfold vdot, vsub, vscale; cbn [vx vy vz]. ring. }
    assert (K : vnorm w * vnorm w <= vnorm w * d) by (rewrite WW; eapply Rle_trans; [exact CS|]; apply Rmult_le_compat_l; assumption).
    destruct (Req_dec (vnorm w) 0) as [Q|Q]; [rewrite Q; destruct (H t ltac:(lra)) as [_ D]; eapply Rle_trans; [apply sqrt_pos|exact D]|]. apply Rmult_le_reg_l with (vnorm w); [lra|exact K].
Qed.
