(** * JacFacts: the derivative of the exponential map. *)
From Coq Require Import Reals Lra Psatz Bool.
From Verif Require Import Linalg Spec SpecFacts SpecDiff ModelCommon ModelEigen ModelRotation ModelDiff CommonFacts ConvFacts RVFacts MetricFacts DerivFacts DiffFacts DiffFacts2.
Local Open Scope R_scope.

Lemma vnorm_deriv v t d : vnorm (v t) <> 0 -> Vderiv v t d ->
  derivable_pt_lim (fun s => vnorm (v s)) t (vdot (v t) d / vnorm (v t)).
Proof.
  intros N (H0 & H1 & H2).
  assert (P : 0 < vnorm2 (v t)).
  { rewrite <- vnorm_sqr. pose proof (vnorm_nonneg (v t)). nra. }
  unfold vnorm at 1. unfold vnorm2 at 1, vdot at 1.
  dl_solve. change (vx (v t) * vx (v t) + vy (v t) * vy (v t) + vz (v t) * vz (v t)) with (vnorm2 (v t)).
  change (sqrt (vnorm2 (v t))) with (vnorm (v t)). unfold vdot. field. exact N.
Qed.

(** The exact Jacobian away from zero. *)
Definition exact_jac (v : V3) : M33 :=
  let n := vnorm v in let S := mcross v in
  madd (madd mid (mscale ((1 - cos n) / (n * n)) S)) (mscale ((n - sin n) / (n * n * n)) (mmul S S)).

Lemma vec_rot_deriv v t d : vnorm (v t) <> 0 -> Vderiv v t d ->
  has_global_velocity (fun s => vec_rot (v s)) t (mvmul (exact_jac (v t)) d).
Proof.
  intros N H. pose proof (vnorm_deriv v t d N H) as HN.
  destruct (dl_nonzero _ _ _ HN N) as (e & He).
  apply (Mderiv_local (fun s => mat_of (rodrigues (vnorm (v s)) (vscale (/ vnorm (v s)) (v s)))) _ t _ e).
  { intros s Hs. specialize (He s Hs). unfold vec_rot. destruct (Req_EM_T (vnorm (v s)) 0); [contradiction|reflexivity]. }
  assert (Hn : vnorm2 (v t) = vnorm (v t) * vnorm (v t)) by (rewrite vnorm_sqr; reflexivity).
  rewrite vec_rot_aa by exact N. destruct H as (H0 & H1 & H2).
  unfold has_global_velocity, Mderiv, exact_jac, aa_rot, rodrigues.
  pose proof (sin2_cos2' (vnorm (v t))) as SC.
  destruct d as [d0 d1 d2]. unfold vnorm2, vdot in Hn.
  cbv beta iota zeta delta [aangle aaxis mat_of vdot vadd vscale vcross ex ey ez mid mmul mvmul madd mscale mcross m00 m01 m02 m10 m11 m12 m20 m21 m22] in *.
  cbn [vx vy vz] in *.
  repeat split; dl_solve; cbv beta.
  all: clear H0 H1 H2 HN He.
  all: generalize dependent (sin (vnorm (v t))); intros sn SC.
  all: generalize dependent (cos (vnorm (v t))); intros cn SC.
  all: generalize dependent (vnorm (v t)); intros n Nn Hn.
  all: generalize dependent (vx (v t)); intros x Hn; generalize dependent (vy (v t)); intros y Hn; generalize dependent (vz (v t)); intros z Hn.
  all: assert (A1 : x * x = n * n - y * y - z * z) by lra.
  all: assert (A2 : sn * sn = 1 - cn * cn) by lra.
  all: field_simplify_eq [A1 A2]; try assumption; try ring [A1 A2].
Qed.

(** ** At zero *)
Lemma one_minus_cos_bound x : 0 <= 1 - cos x <= x * x / 2.
Proof.
  rewrite double_cos. pose proof (sin2_cos2' (x/2)).
  assert (B : sin (x/2) * sin (x/2) <= (x/2) * (x/2)).
  { destruct (Rle_dec 0 (x/2)) as [P|P].
    - pose proof (sin_le_x _ P). destruct (Rle_dec 0 (sin (x/2))); [nra|].
      assert (- sin (x/2) <= x/2); [|nra].
      destruct (Rle_dec (x/2) PI) as [Q|Q]; [pose proof (sin_ge_0 _ P Q); lra|].
      pose proof (SIN_bound (x/2)). pose proof PI2_1. lra.
    - assert (P' : 0 <= - (x/2)) by lra. pose proof (sin_le_x _ P'). rewrite sin_neg in *.
      destruct (Rle_dec 0 (- sin (x/2))); [nra|].
      assert (sin (x/2) <= - (x/2)); [|nra].
      destruct (Rle_dec (-(x/2)) PI) as [Q|Q]; [pose proof (sin_ge_0 _ P' Q) as G; rewrite sin_neg in G; lra|].
      pose proof (SIN_bound (x/2)). pose proof PI2_1. lra. }
  nra.
Qed.
Lemma sin_minus_id_bound x : 0 <= x -> 0 <= x - sin x <= x * x.
Proof.
  intros P. split; [pose proof (sin_le_x _ P); lra|].
  destruct (Rle_dec x PI) as [Q|Q].
  - pose proof (sin_lo x (Logic.conj P Q)) as L. pose proof PI_4. replace (x^3) with (x*x*x) in L by ring. nra.
  - pose proof (SIN_bound x). pose proof PI2_1. nra.
Qed.

Lemma dl_small w n t K : derivable_pt_lim n t 0 -> n t = 0 -> (forall s, Rabs (w s) <= K * n s) ->
  derivable_pt_lim w t 0.
Proof.
  intros H Z B.
  assert (W : w t = 0).
  { specialize (B t). rewrite Z, Rmult_0_r in B. pose proof (Rabs_pos (w t)).
    destruct (Req_dec (w t) 0) as [E|E]; [exact E|]. pose proof (Rabs_pos_lt _ E). lra. }
  set (K' := Rabs K + 1). assert (KP : 0 < K') by (unfold K'; pose proof (Rabs_pos K); lra).
  intros eps He. destruct (H (eps / K')) as [d Hd]; [apply Rdiv_lt_0_compat; assumption|].
  exists d. intros h h0 hd. specialize (Hd h h0 hd).
  rewrite Z, !Rminus_0_r in Hd. rewrite W, !Rminus_0_r.
  assert (A : Rabs (w (t + h)) <= K' * Rabs (n (t + h))).
  { specialize (B (t + h)). eapply Rle_trans; [exact B|]. unfold K'.
    eapply Rle_trans; [apply Rle_abs|]. rewrite Rabs_mult. pose proof (Rabs_pos (n (t + h))). nra. }
  unfold Rdiv in *. rewrite Rabs_mult in *. 
  assert (HI : 0 < Rabs (/ h)) by (apply Rabs_pos_lt, Rinv_neq_0_compat, h0).
  apply Rle_lt_trans with (K' * (Rabs (n (t + h)) * Rabs (/ h))); [nra|].
  apply Rlt_le_trans with (K' * (eps * / K')); [apply Rmult_lt_compat_l; assumption|].
  right. field. lra.
Qed.

Lemma unit_coeff_bound (n : V3) : vnorm2 n = 1 ->
  (Rabs (vx n) <= 1 /\ Rabs (vy n) <= 1 /\ Rabs (vz n) <= 1).
Proof.
  destruct n as [a b c]. unfold vnorm2, vdot; cbn. intros H.
  repeat split; apply Rabs_le; nra.
Qed.

Lemma rod_entry_bound t a b (d : R) : Rabs a <= 1 -> Rabs b <= 1 -> 0 <= t -> (d = 0 \/ d = 1) ->
  forall k, Rabs k <= 1 ->
  Rabs ((cos t * d + sin t * k + (1 - cos t) * a * b) - (d + t * k)) <= 3 * (t * t).
Proof.
  intros Ha Hb Ht Hd k Hk.
  replace ((cos t * d + sin t * k + (1 - cos t) * a * b) - (d + t * k))
    with (- ((1 - cos t) * d) + - ((t - sin t) * k) + (1 - cos t) * (a * b)) by ring.
  pose proof (one_minus_cos_bound t) as C. pose proof (sin_minus_id_bound t Ht) as S.
  assert (AB : Rabs (a * b) <= 1) by (rewrite Rabs_mult; pose proof (Rabs_pos a); pose proof (Rabs_pos b); nra).
  assert (D : Rabs d <= 1) by (destruct Hd; subst; [rewrite Rabs_R0|rewrite Rabs_R1]; lra).
  eapply Rle_trans; [eapply Rle_trans; [apply Rabs_triang|]; apply Rplus_le_compat_r, Rabs_triang|].
  rewrite !Rabs_Ropp, !Rabs_mult.
  rewrite (Rabs_right (1 - cos t)) by lra. rewrite (Rabs_right (t - sin t)) by lra.
  assert (0 <= Rabs a * Rabs b) by (apply Rmult_le_pos; apply Rabs_pos).
  rewrite Rabs_mult in AB.
  pose proof (Rabs_pos d); pose proof (Rabs_pos k).
  assert ((1 - cos t) * Rabs d <= t * t / 2) by nra.
  assert ((t - sin t) * Rabs k <= t * t) by nra.
  assert ((1 - cos t) * (Rabs a * Rabs b) <= t * t / 2) by nra.
  lra.
Qed.

Lemma vec_rot_near_zero v : 
  (Rabs (m00 (vec_rot v) - 1) <= 3 * vnorm2 v /\ Rabs (m01 (vec_rot v) - - vz v) <= 3 * vnorm2 v /\ Rabs (m02 (vec_rot v) - vy v) <= 3 * vnorm2 v) /\
  (Rabs (m10 (vec_rot v) - vz v) <= 3 * vnorm2 v /\ Rabs (m11 (vec_rot v) - 1) <= 3 * vnorm2 v /\ Rabs (m12 (vec_rot v) - - vx v) <= 3 * vnorm2 v) /\
  (Rabs (m20 (vec_rot v) - - vy v) <= 3 * vnorm2 v /\ Rabs (m21 (vec_rot v) - vx v) <= 3 * vnorm2 v /\ Rabs (m22 (vec_rot v) - 1) <= 3 * vnorm2 v).
Proof.
  destruct (Req_EM_T (vnorm v) 0) as [Z|N].
  - apply vnorm_zero in Z. subst v. rewrite vec_rot_zero. lin_unfold.
    repeat split; match goal with |- Rabs ?x <= _ => replace x with 0 by ring end; rewrite Rabs_R0; lra.
  - pose proof (vnorm_nonneg v) as T. rewrite vec_rot_aa by exact N.
    assert (U : vnorm2 (vscale (/ vnorm v) v) = 1) by (apply vnorm2_unitize, N).
    rewrite <- vnorm_sqr.
    assert (E : v = vscale (vnorm v) (vscale (/ vnorm v) v)).
    { destruct v as [x y z]. generalize dependent (vnorm (mkV3 x y z)). intros. unfold vscale; cbn. f_equal; field; assumption. }
    pose proof (f_equal vx E) as EX; pose proof (f_equal vy E) as EY; pose proof (f_equal vz E) as EZ.
    destruct (unit_coeff_bound _ U) as (BX & BY & BZ).
    generalize dependent (vscale (/ vnorm v) v). intros n _ EN EX EY EZ BX BY BZ.
    rewrite EX, EY, EZ. generalize dependent (vnorm v). intros t Nt Ht EN EX EY EZ. clear EN EX EY EZ.
    destruct n as [a b c]. unfold aa_rot, rodrigues. cbn [aangle aaxis].
    cbv beta iota zeta delta [mat_of vdot vadd vscale vcross ex ey ez m00 m01 m02 m10 m11 m12 m20 m21 m22 vx vy vz] in *.
    assert (O : Rabs 0 <= 1) by (rewrite Rabs_R0; lra).
    assert (NA : Rabs (- a) <= 1) by (rewrite Rabs_Ropp; exact BX).
    assert (NB : Rabs (- b) <= 1) by (rewrite Rabs_Ropp; exact BY).
    assert (NC : Rabs (- c) <= 1) by (rewrite Rabs_Ropp; exact BZ).
    assert (D0 : 0 = 0 \/ 0 = 1) by (left; reflexivity). assert (D1 : 1 = 0 \/ 1 = 1) by (right; reflexivity).
    repeat split.
    + pose proof (rod_entry_bound t a a 1 BX BX Ht D1 0 O) as G; match type of G with Rabs ?x <= _ => match goal with |- Rabs ?y <= _ => replace y with x by ring end end; exact G.
    + pose proof (rod_entry_bound t a b 0 BX BY Ht D0 (-c) NC) as G; match type of G with Rabs ?x <= _ => match goal with |- Rabs ?y <= _ => replace y with x by ring end end; exact G.
    + pose proof (rod_entry_bound t a c 0 BX BZ Ht D0 b BY) as G; match type of G with Rabs ?x <= _ => match goal with |- Rabs ?y <= _ => replace y with x by ring end end; exact G.
    + pose proof (rod_entry_bound t a b 0 BX BY Ht D0 c BZ) as G; match type of G with Rabs ?x <= _ => match goal with |- Rabs ?y <= _ => replace y with x by ring end end; exact G.
    + pose proof (rod_entry_bound t b b 1 BY BY Ht D1 0 O) as G; match type of G with Rabs ?x <= _ => match goal with |- Rabs ?y <= _ => replace y with x by ring end end; exact G.
    + pose proof (rod_entry_bound t b c 0 BY BZ Ht D0 (-a) NA) as G; match type of G with Rabs ?x <= _ => match goal with |- Rabs ?y <= _ => replace y with x by ring end end; exact G.
    + pose proof (rod_entry_bound t a c 0 BX BZ Ht D0 (-b) NB) as G; match type of G with Rabs ?x <= _ => match goal with |- Rabs ?y <= _ => replace y with x by ring end end; exact G.
    + pose proof (rod_entry_bound t b c 0 BY BZ Ht D0 a BX) as G; match type of G with Rabs ?x <= _ => match goal with |- Rabs ?y <= _ => replace y with x by ring end end; exact G.
    + pose proof (rod_entry_bound t c c 1 BZ BZ Ht D1 0 O) as G; match type of G with Rabs ?x <= _ => match goal with |- Rabs ?y <= _ => replace y with x by ring end end; exact G.
Qed.

Lemma dl_near f g n t a K : derivable_pt_lim g t a -> derivable_pt_lim n t 0 -> n t = 0 ->
  (forall s, Rabs (f s - g s) <= K * n s) -> derivable_pt_lim f t a.
Proof.
  intros G H Z B. pose proof (dl_small (fun s => f s - g s) n t K H Z B) as W.
  apply (dl_ext (fun s => (f s - g s) + g s)); [intros s; ring|].
  eapply dl_eq; [apply dl_plus; eassumption|ring].
Qed.

Lemma vec_rot_deriv_zero v t d : v t = vzero -> Vderiv v t d ->
  has_global_velocity (fun s => vec_rot (v s)) t d.
Proof.
  intros Z (H0 & H1 & H2). unfold has_global_velocity. rewrite Z, vec_rot_zero, mmul_id_r.
  assert (HN : derivable_pt_lim (fun s => vnorm2 (v s)) t 0).
  { unfold vnorm2, vdot. dl_solve. rewrite Z. cbn. ring. }
  assert (N0 : vnorm2 (v t) = 0) by (rewrite Z; lin).
  destruct d as [d0 d1 d2]. unfold Mderiv, mcross. cbn [m00 m01 m02 m10 m11 m12 m20 m21 m22 vx vy vz] in *.
  assert (B := fun s => vec_rot_near_zero (v s)).
  repeat split.
  - apply (dl_near _ (fun _ => 1) (fun s => vnorm2 (v s)) t _ 3); [apply dl_const|exact HN|exact N0|intros s; apply B].
  - apply (dl_near _ (fun s => - vz (v s)) (fun s => vnorm2 (v s)) t _ 3); [repeat dl_step|exact HN|exact N0|intros s; apply B].
  - apply (dl_near _ (fun s => vy (v s)) (fun s => vnorm2 (v s)) t _ 3); [repeat dl_step|exact HN|exact N0|intros s; apply B].
  - apply (dl_near _ (fun s => vz (v s)) (fun s => vnorm2 (v s)) t _ 3); [repeat dl_step|exact HN|exact N0|intros s; apply B].
  - apply (dl_near _ (fun _ => 1) (fun s => vnorm2 (v s)) t _ 3); [apply dl_const|exact HN|exact N0|intros s; apply B].
  - apply (dl_near _ (fun s => - vx (v s)) (fun s => vnorm2 (v s)) t _ 3); [repeat dl_step|exact HN|exact N0|intros s; apply B].
  - apply (dl_near _ (fun s => - vy (v s)) (fun s => vnorm2 (v s)) t _ 3); [repeat dl_step|exact HN|exact N0|intros s; apply B].
  - apply (dl_near _ (fun s => vx (v s)) (fun s => vnorm2 (v s)) t _ 3); [repeat dl_step|exact HN|exact N0|intros s; apply B].
  - apply (dl_near _ (fun _ => 1) (fun s => vnorm2 (v s)) t _ 3); [apply dl_const|exact HN|exact N0|intros s; apply B].
Qed.

(** ** The small-norm branch *)
Lemma Rdiv_le_0_compat' a b : 0 <= a -> 0 < b -> 0 <= a / b.
Proof. intros A B. apply Rmult_le_pos; [exact A|left; apply Rinv_0_lt_compat, B]. Qed.
Lemma small_coeffs x : 0 < x -> x < 1 ->
  Rabs (1/2 - (1 - cos x) / (x * x)) <= x * x / 24 /\ Rabs ((x - sin x) / (x * x * x)) <= 1/6.
Proof.
  intros P Q. pose proof PI2_1 as PP. pose proof PI2_3_2.
  assert (S1 := sin_lo x ltac:(lra)). 
  destruct (cos_bound x 0 ltac:(lra) ltac:(lra)) as (C1 & C2).
  unfold cos_approx, cos_term in C1, C2. simpl in C1, C2.
  assert (X2 : 0 < x * x) by nra. assert (X3 : 0 < x * x * x) by nra.
  split.
  - apply Rabs_le.
    replace (1/2 - (1 - cos x) / (x * x)) with ((x * x / 2 - 1 + cos x) / (x * x)) by (field; lra).
    pose proof (one_minus_cos_bound x).
    split.
    + apply Rle_trans with 0; [nra|]. apply Rdiv_le_0_compat'; lra.
    + apply Rmult_le_reg_r with (x * x); [exact X2|]. unfold Rdiv at 1. rewrite Rmult_assoc, Rinv_l by lra.
      field_simplify in C2. field_simplify. lra.
  - rewrite Rabs_right.
    + apply Rmult_le_reg_r with (x * x * x); [exact X3|]. unfold Rdiv at 1. rewrite Rmult_assoc, Rinv_l by lra. 
      replace (x ^ 3) with (x * x * x) in S1 by ring. lra.
    + apply Rle_ge, Rdiv_le_0_compat'; [|exact X3]. pose proof (sin_le_x x ltac:(lra)). lra.
Qed.

Lemma vnorm_triang a b : vnorm (vadd a b) <= vnorm a + vnorm b.
Proof.
  pose proof (vnorm_nonneg a); pose proof (vnorm_nonneg b); pose proof (vnorm_nonneg (vadd a b)).
  assert (CS : vdot a b <= vnorm a * vnorm b).
  { apply Rsqr_incr_0_var; [|nra]. unfold Rsqr.
    replace (vnorm a * vnorm b * (vnorm a * vnorm b)) with (vnorm2 a * vnorm2 b) by (rewrite <- (vnorm_sqr a), <- (vnorm_sqr b); ring).
    assert (E : vnorm2 a * vnorm2 b - vdot a b * vdot a b = vnorm2 (vcross a b)) by (clear; lin).
    pose proof (vnorm2_nonneg (vcross a b)). lra. }
  apply Rsqr_incr_0_var; [|lra]. unfold Rsqr. rewrite vnorm_sqr.
  replace (vnorm2 (vadd a b)) with (vnorm2 a + vnorm2 b + 2 * vdot a b) by (clear; lin).
  rewrite <- (vnorm_sqr a), <- (vnorm_sqr b). nra.
Qed.
Lemma vnorm_cross_le a b : vnorm (vcross a b) <= vnorm a * vnorm b.
Proof.
  pose proof (vnorm_nonneg a); pose proof (vnorm_nonneg b).
  apply Rsqr_incr_0_var; [|nra]. unfold Rsqr. rewrite vnorm_sqr.
  replace (vnorm a * vnorm b * (vnorm a * vnorm b)) with (vnorm2 a * vnorm2 b) by (rewrite <- (vnorm_sqr a), <- (vnorm_sqr b); ring).
  assert (E : vnorm2 a * vnorm2 b - vdot a b * vdot a b = vnorm2 (vcross a b)) by (clear; lin).
  nra.
Qed.

Lemma jac_window v d : vnorm v <> 0 -> vnorm v < / 10 ^ 4 ->
  vnorm (vsub (mvmul (getJacobianOfExponentialMap v) d) (mvmul (exact_jac v) d)) <= vnorm v * vnorm v / 5 * vnorm d.
Proof.
  intros N W. pose proof (vnorm_nonneg v) as P. unfold getJacobianOfExponentialMap.
  destruct (Rlt_dec (vnorm v) (/ 10 ^ 4)) as [_|]; [|contradiction].
  assert (W1 : vnorm v < 1) by (eapply Rlt_trans; [exact W|]; lra).
  destruct (small_coeffs (vnorm v) ltac:(lra) W1) as (A & B).
  unfold exact_jac. set (a := (1 - cos (vnorm v)) / _) in *. set (b := (vnorm v - sin (vnorm v)) / _) in *.
  replace (vsub _ _) with (vadd (vscale (1/2 - a) (vcross v d)) (vscale (- b) (vcross v (vcross v d)))) by (clear; unfold getSkewMatrixFromVector; lin).
  eapply Rle_trans; [apply vnorm_triang|]. rewrite !vnorm_vscale, Rabs_Ropp.
  pose proof (vnorm_cross_le v d) as C1. pose proof (vnorm_cross_le v (vcross v d)) as C2.
  pose proof (vnorm_nonneg d) as PD. pose proof (vnorm_nonneg (vcross v d)). pose proof (vnorm_nonneg (vcross v (vcross v d))).
  pose proof (Rabs_pos (1/2 - a)); pose proof (Rabs_pos b).
  set (n := vnorm v) in *. set (m := vnorm d) in *.
  assert (T1 : Rabs (1/2 - a) * vnorm (vcross v d) <= (n * n / 24) * (n * m)) by (apply Rmult_le_compat; assumption).
  assert (T2 : Rabs b * vnorm (vcross v (vcross v d)) <= 1/6 * (n * (n * m))).
  { apply Rmult_le_compat; try assumption. eapply Rle_trans; [exact C2|]. apply Rmult_le_compat_l; assumption. }
  assert (n * n * m * n <= n * n * m * (/ 10 ^ 4)).
  { apply Rmult_le_compat_l; [|lra]. apply Rmult_le_pos; [nra|assumption]. }
  assert (0 <= n * n * m) by (apply Rmult_le_pos; [nra|assumption]).
  assert (/ 10 ^ 4 <= / 10) by lra. nra.
Qed.
