(** * RandomFacts: the exponential map does not increase distances; every rotation is the
    exponential of a vector of length at most pi. *)
From Coq Require Import Reals Lra Psatz.
From Verif Require Import Linalg Spec SpecFacts SpecDiff SpecClose ModelCommon ModelEigen CommonFacts CloseFacts ModelRotation RVFacts RotFacts DerivFacts JacFacts MetricFacts MotionFacts.
Local Open Scope R_scope.

Lemma one_minus_cos_le x : 2 - 2 * cos x <= x * x.
Proof.
  replace (2 - 2 * cos x) with (4 * (sin (x/2) * sin (x/2))). 2:{ replace x with (2 * (x/2)) at 3 by field. rewrite cos_2a_sin. ring. }
  assert (H : forall y, 0 <= y -> - y <= sin y <= y).
  { intros y Y. destruct (Req_dec y 0) as [-> | Z]; [rewrite sin_0; lra|]. pose proof (sin_lt_x y ltac:(lra)). split; [|lra]. destruct (Rle_dec y 1) as [G|G]; [|pose proof (SIN_bound y); lra]. assert (0 <= sin y) by (apply sin_ge_0; [lra|pose proof PI2_3_2; lra]). lra. }
  assert (A : Rabs (sin (x/2)) <= Rabs (x/2)).
  { destruct (Rle_dec 0 (x/2)) as [G|G].
    - rewrite (Rabs_pos_eq (x/2)) by exact G. apply Rabs_le. apply H; exact G.
    - rewrite (Rabs_left (x/2)) by lra. specialize (H (- (x/2)) ltac:(lra)). rewrite sin_neg in H. apply Rabs_le. lra. }
  apply Rsqr_le_abs_1 in A. unfold Rsqr in A. lra.
Qed.
Lemma jac_contracts v d : vnorm v <> 0 -> vnorm (mvmul (exact_jac v) d) <= vnorm d.
Proof.
  intro N. apply sqrt_le_1_alt. unfold exact_jac. set (n := vnorm v) in *.
  assert (NN : n * n = vnorm2 v) by (unfold n, vnorm; apply sqrt_sqrt; unfold vnorm2, vdot; nra).
  set (a := (1 - cos n) / (n * n)). set (b := (n - sin n) / (n * n * n)).
  assert (K : a * a + b * b * vnorm2 v - 2 * b = (2 - 2 * cos n - n * n) / (n * n * n * n)).
  { rewrite <- NN. unfold a, b. pose proof (sin2_cos2 n) as T. unfold Rsqr in T. apply Rmult_eq_reg_r with (n * n * n * n); [|repeat apply Rmult_integral_contrapositive_currified; exact N].
    transitivity ((1 - cos n) * (1 - cos n) + (n - sin n) * (n - sin n) - 2 * n * (n - sin n)); [field; exact N|]. transitivity (2 - 2 * cos n - n * n); [|field; exact N]. lra. }
  assert (KN : a * a + b * b * vnorm2 v - 2 * b <= 0).
  { rewrite K. pose proof (one_minus_cos_le n). assert (P : 0 < n * n * n * n) by (replace (n * n * n * n) with ((n * n) * (n * n)) by ring; assert (0 < n * n) by nra; nra). unfold Rdiv. rewrite <- (Rmult_0_l (/ (n * n * n * n))). apply Rmult_le_compat_r; [left; now apply Rinv_0_lt_compat|lra]. }
  assert (E : vnorm2 (mvmul (madd (madd mid (mscale a (mcross v))) (mscale b (mmul (mcross v) (mcross v)))) d) = vnorm2 d + (a * a + b * b * vnorm2 v - 2 * b) * vnorm2 (vcross v d)).
  { clearbody a b. clear. destruct v as [v1 v2 v3], d as [d1 d2 d3]. lin. }
  rewrite E. assert (C : 0 <= vnorm2 (vcross v d)) by (unfold vnorm2, vdot; nra). nra.
Qed.
(** rotation vectors close to each other stand for rotations as close to each other *)
Lemma vec_rot_lipschitz v w : close (vnorm (vsub v w)) (vec_rot v) (vec_rot w).
Proof.
  set (d := vsub v w). set (c := fun s => vadd w (vscale s d)).
  assert (DV : forall s, Vderiv c s d) by (intro s; unfold c, Vderiv, vadd, vscale; cbn [vx vy vz]; repeat split; dl_solve; ring).
  set (o := fun s => if Req_EM_T (vnorm (c s)) 0 then d else mvmul (exact_jac (c s)) d).
  assert (V : forall s, has_global_velocity (fun s => vec_rot (c s)) s (o s) /\ vnorm (o s) <= vnorm d).
  { intro s. unfold o. destruct (Req_EM_T (vnorm (c s)) 0) as [Z|Z].
    - split; [|lra]. apply (vec_rot_deriv_zero c); [now apply vnorm_zero|apply DV].
    - split; [apply (vec_rot_deriv c); [exact Z|apply DV]|now apply jac_contracts]. }
  pose proof (bounded_curve (fun s => vec_rot (c s)) (fun s => mmul (mcross (o s)) (vec_rot (c s))) 0 1 (vnorm d) ltac:(lra) (sqrt_pos _)) as B. cbv beta in B.
  assert (C0 : c 0 = w) by (unfold c; clear; destruct w as [w1 w2 w3]; unfold vadd, vscale; cbn [vx vy vz]; f_equal; ring).
  assert (C1 : c 1 = v) by (unfold c, d; clear; destruct v as [v1 v2 v3], w as [w1 w2 w3]; unfold vadd, vscale, vsub; cbn [vx vy vz]; f_equal; ring).
  rewrite C0, C1 in B. replace (vnorm d * (1 - 0)) with (vnorm d) in B by ring. apply B. intros s _. destruct (V s) as [G H]. split; [exact G|].
  intro x. replace (mvmul (mmul (mcross (o s)) (vec_rot (c s))) x) with (vcross (o s) (mvmul (vec_rot (c s)) x)) by (generalize (vec_rot (c s)) (o s); intros g q; clear; destruct q as [q1 q2 q3], x as [x1 x2 x3]; lin).
  eapply Rle_trans; [apply vnorm_cross_le|]. rewrite SO3_vnorm by apply vec_rot_SO3. apply Rmult_le_compat_r; [apply sqrt_pos|exact H].
Qed.
Lemma SO3_has_vec m : SO3 m -> exists v, vnorm v <= PI /\ vec_rot v = m.
Proof.
  intro H. destruct (SO3_has_aa m H) as (a & U & R & E). exists (vscale (aangle a) (aaxis a)).
  assert (N1 : vnorm (aaxis a) = 1) by (unfold vnorm; now rewrite U, sqrt_1).
  split; [rewrite vnorm_vscale, N1, Rabs_pos_eq; lra|]. rewrite <- E.
  assert (NV : vnorm (vscale (aangle a) (aaxis a)) = aangle a) by (rewrite vnorm_vscale, N1, Rabs_pos_eq; lra).
  unfold vec_rot. rewrite NV. destruct (Req_EM_T (aangle a) 0) as [Z|Z].
  - unfold aa_rot. rewrite Z. unfold rodrigues. rewrite sin_0, cos_0. unfold mat_of. destruct (aaxis a) as [n1 n2 n3]. lin.
  - unfold aa_rot. do 2 f_equal. destruct (aaxis a) as [n1 n2 n3]. unfold vscale; cbn [vx vy vz]. f_equal; field; exact Z.
Qed.
