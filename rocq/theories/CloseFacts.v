(** Facts about [close]. *)
From Coq Require Import Reals Lra Psatz.
From Verif Require Import Linalg Spec SpecFacts ModelCommon ModelRotation SpecClose.
Local Open Scope R_scope.

Lemma cauchy_schwarz a b : vdot a b <= vnorm a * vnorm b.
Proof.
  pose proof (vnorm_nonneg a) as A. pose proof (vnorm_nonneg b) as B.
  pose proof (vnorm_sqr a) as SA. pose proof (vnorm_sqr b) as SB.
  assert (L : vdot a b * vdot a b <= vnorm2 a * vnorm2 b).
  { assert (E : vnorm2 a * vnorm2 b - vdot a b * vdot a b = vnorm2 (vcross a b)) by lin.
    pose proof (vnorm2_nonneg (vcross a b)). lra. }
  rewrite <- SA, <- SB in L.
  destruct (Rle_or_lt (vdot a b) (vnorm a * vnorm b)) as [H|H]; [exact H|].
  exfalso. pose proof (Rmult_le_pos _ _ A B). nra.
Qed.
Lemma vnorm_le_sq a x : 0 <= x -> vnorm2 a <= x * x -> vnorm a <= x.
Proof. intros H L. unfold vnorm. rewrite <- (sqrt_square x) by exact H. apply sqrt_le_1_alt, L. Qed.
Lemma vnorm_triang a b : vnorm (vadd a b) <= vnorm a + vnorm b.
Proof.
  pose proof (vnorm_nonneg a) as A. pose proof (vnorm_nonneg b) as B.
  apply vnorm_le_sq; [lra|].
  replace (vnorm2 (vadd a b)) with (vnorm2 a + vnorm2 b + 2 * vdot a b) by lin.
  rewrite <- (vnorm_sqr a), <- (vnorm_sqr b). pose proof (cauchy_schwarz a b). nra.
Qed.
Lemma vnorm_vneg a : vnorm (vneg a) = vnorm a.
Proof. unfold vnorm. f_equal. lin. Qed.
Lemma vnorm_sub_sym a b : vnorm (vsub a b) = vnorm (vsub b a).
Proof. unfold vnorm. f_equal. lin. Qed.
Lemma vnorm_sub_triang a b c : vnorm (vsub a c) <= vnorm (vsub a b) + vnorm (vsub b c).
Proof. replace (vsub a c) with (vadd (vsub a b) (vsub b c)) by lin. apply vnorm_triang. Qed.
Lemma vnorm_sub_le a b : vnorm (vsub a b) <= vnorm a + vnorm b.
Proof. replace (vsub a b) with (vadd a (vneg b)) by lin. rewrite <- (vnorm_vneg b). apply vnorm_triang. Qed.
Lemma vnorm_le_add a b d : vnorm (vsub a b) <= d -> vnorm a <= vnorm b + d.
Proof. intros H. pose proof (vnorm_triang (vsub a b) b) as T. replace (vadd (vsub a b) b) with a in T by lin. lra. Qed.
Lemma vnorm_cross_le a b : vnorm (vcross a b) <= vnorm a * vnorm b.
Proof.
  apply vnorm_le_sq; [apply Rmult_le_pos; apply vnorm_nonneg|].
  replace (vnorm a * vnorm b * (vnorm a * vnorm b)) with (vnorm a * vnorm a * (vnorm b * vnorm b)) by ring.
  rewrite !vnorm_sqr.
  assert (E : vnorm2 a * vnorm2 b - vdot a b * vdot a b = vnorm2 (vcross a b)) by lin. nra.
Qed.

(** rotations keep lengths *)
Lemma SO3_vnorm m v : SO3 m -> vnorm (mvmul m v) = vnorm v.
Proof.
  intros H. unfold vnorm. f_equal.
  replace (vnorm2 (mvmul m v)) with (vdot v (mvmul (mmul (mtrans m) m) v)) by lin.
  rewrite (SO3_inv_l _ H), mvmul_id. reflexivity.
Qed.

Lemma close_refl d a : 0 <= d -> close d a a.
Proof. intros H v. replace (vsub (mvmul a v) (mvmul a v)) with vzero by lin. rewrite vnorm_vzero.
  apply Rmult_le_pos; [exact H|apply vnorm_nonneg]. Qed.
Lemma close_eq d a b : a = b -> 0 <= d -> close d a b.
Proof. intros ->. apply close_refl. Qed.
Lemma close_sym d a b : close d a b -> close d b a.
Proof. intros H v. rewrite vnorm_sub_sym. apply H. Qed.
Lemma close_trans d e a b c : close d a b -> close e b c -> close (d + e) a c.
Proof. intros H K v. eapply Rle_trans; [apply vnorm_sub_triang with (b := mvmul b v)|]. specialize (H v). specialize (K v). lra. Qed.
Lemma close_mono d e a b : d <= e -> close d a b -> close e a b.
Proof. intros L H v. eapply Rle_trans; [apply H|]. apply Rmult_le_compat_r; [apply vnorm_nonneg|exact L]. Qed.
Lemma close_nonneg d a b : close d a b -> 0 <= d.
Proof. intros H. specialize (H ex). replace (vnorm ex) with 1 in H by (symmetry; apply vnorm_unit; lin).
  pose proof (vnorm_nonneg (vsub (mvmul a ex) (mvmul b ex))). lra. Qed.
Lemma close_mul_l d g a b : SO3 g -> close d a b -> close d (mmul g a) (mmul g b).
Proof.
  intros G H v. rewrite !mvmul_mmul.
  replace (vsub (mvmul g (mvmul a v)) (mvmul g (mvmul b v))) with (mvmul g (vsub (mvmul a v) (mvmul b v))) by lin.
  rewrite SO3_vnorm by exact G. apply H.
Qed.
Lemma close_mul_r d g a b : SO3 g -> close d a b -> close d (mmul a g) (mmul b g).
Proof. intros G H v. rewrite !mvmul_mmul. rewrite <- (SO3_vnorm g v G). apply H. Qed.
Lemma close_mul d e a b c f : SO3 b -> SO3 c -> close d a b -> close e c f -> close (d + e) (mmul a c) (mmul b f).
Proof. intros B C H K. apply close_trans with (b := mmul b c); [apply close_mul_r; assumption|apply close_mul_l; assumption]. Qed.
Lemma close_trans_mat d a b : close d a b -> close d (mtrans a) (mtrans b).
Proof.
  intros H v. pose proof (close_nonneg _ _ _ H) as D.
  set (w := vsub (mvmul (mtrans a) v) (mvmul (mtrans b) v)).
  assert (E : vnorm2 w = vdot v (vsub (mvmul a w) (mvmul b w))).
  { assert (G : forall w, vdot w w = vdot w (vsub (mvmul (mtrans a) v) (mvmul (mtrans b) v)) ->
      vdot w w = vdot v (vsub (mvmul a w) (mvmul b w))).
    { intros w' ->. generalize w'. clear. lin. }
    unfold vnorm2. apply G. reflexivity. }
  assert (L : vnorm w * vnorm w <= d * vnorm v * vnorm w).
  { rewrite vnorm_sqr, E. eapply Rle_trans; [apply cauchy_schwarz|]. specialize (H w). pose proof (vnorm_nonneg v). nra. }
  pose proof (vnorm_nonneg w). pose proof (vnorm_nonneg v). destruct (Req_dec (vnorm w) 0) as [Z|Z]; [rewrite Z; nra|nra].
Qed.
Lemma close_inv_SO3 d a b : SO3 a -> SO3 b -> close d (mmul (mtrans a) b) mid -> close d a b.
Proof.
  intros A B H. apply close_sym.
  replace b with (mmul a (mmul (mtrans a) b)) at 1 by (rewrite mmul_assoc, (SO3_inv_r _ A); apply mmul_id_l).
  replace a with (mmul a mid) at 3 by apply mmul_id_r. apply close_mul_l; assumption.
Qed.
Lemma close_2 a b : SO3 a -> SO3 b -> close 2 a b.
Proof. intros A B v. eapply Rle_trans; [apply vnorm_sub_le|]. rewrite !SO3_vnorm by assumption. lra. Qed.

(** chord lengths are below arc lengths: two rotations about the same axis *)
Lemma sin_abs_le x : Rabs (sin x) <= Rabs x.
Proof.
  assert (P : forall x, 0 <= x -> Rabs (sin x) <= x).
  { intros y Hy. destruct (Rle_or_lt y 1) as [L|L].
    - destruct (Req_dec y 0) as [->|N]; [rewrite sin_0, Rabs_R0; lra|].
      pose proof PI2_1. rewrite Rabs_pos_eq; [left; apply sin_lt_x; lra|]. apply sin_ge_0; lra.
    - pose proof (SIN_bound y) as [A B]. apply Rabs_le. lra. }
  destruct (Rle_or_lt 0 x) as [H|H].
  - rewrite (Rabs_pos_eq x H). apply P, H.
  - replace x with (- - x) at 1 by ring. rewrite sin_neg, !Rabs_Ropp, (Rabs_left x H). apply P. lra.
Qed.
Lemma one_minus_cos x : 1 - cos x <= x * x / 2.
Proof.
  assert (E : 1 - cos x = 2 * (sin (x/2) * sin (x/2))).
  { replace x with (2 * (x / 2)) at 1 by field. rewrite cos_2a_sin. ring. }
  rewrite E. pose proof (sin_abs_le (x/2)) as L. pose proof (Rabs_pos (sin (x/2))).
  assert (sin (x/2) * sin (x/2) <= x / 2 * (x / 2)).
  { rewrite <- (Rabs_pos_eq (sin (x/2) * sin (x/2))) by nra. rewrite Rabs_mult.
    replace (x/2*(x/2)) with (Rabs (x/2) * Rabs (x/2)) by (rewrite <- Rabs_mult; apply Rabs_pos_eq; nra). nra. }
  lra.
Qed.
Lemma rodrigues_chord t n v : vnorm2 n = 1 -> vnorm2 (vsub (rodrigues t n v) v) = 2 * (1 - cos t) * vnorm2 (vcross n v).
Proof.
  intros H. pose proof (sin2_cos2' t) as T. set (c := vcross n v).
  assert (E : vsub (rodrigues t n v) v = vadd (vscale (sin t) c) (vscale (1 - cos t) (vcross n c))).
  { replace (vsub (rodrigues t n v) v) with
      (vadd (vadd (vscale (sin t) c) (vscale (1 - cos t) (vcross n c))) (vscale ((1 - cos t) * (vnorm2 n - 1)) v))
      by (unfold rodrigues, c; lin).
    rewrite H. lin. }
  assert (L : vnorm2 (vcross n c) = vnorm2 c).
  { assert (E2 : vnorm2 n * vnorm2 c - vdot n c * vdot n c = vnorm2 (vcross n c)) by lin.
    assert (Z : vdot n c = 0) by (unfold c; lin). rewrite H, Z in E2. lra. }
  rewrite E.
  replace (vnorm2 (vadd (vscale (sin t) c) (vscale (1 - cos t) (vcross n c))))
    with (sin t * sin t * vnorm2 c + (1 - cos t) * (1 - cos t) * vnorm2 (vcross n c)) by lin.
  rewrite L. replace (sin t * sin t) with (1 - cos t * cos t) by lra. ring.
Qed.
Lemma aa_close_id t n : vnorm2 n = 1 -> close (Rabs t) (aa_rot (mkAA t n)) mid.
Proof.
  intros H v. rewrite <- rodrigues_matrix, mvmul_id. pose proof (Rabs_pos t).
  apply vnorm_le_sq; [apply Rmult_le_pos; [assumption|apply vnorm_nonneg]|].
  rewrite (rodrigues_chord t n v H).
  pose proof (vnorm_cross_le n v) as C. replace (vnorm n) with 1 in C by (symmetry; apply vnorm_unit, H).
  pose proof (vnorm_sqr (vcross n v)) as S. pose proof (vnorm_nonneg (vcross n v)). pose proof (vnorm_nonneg v).
  pose proof (one_minus_cos t) as O. pose proof (COS_bound t) as B.
  assert (T : Rabs t * Rabs t = t * t) by (rewrite <- Rabs_mult; apply Rabs_pos_eq; nra).
  replace (Rabs t * vnorm v * (Rabs t * vnorm v)) with (Rabs t * Rabs t * (vnorm v * vnorm v)) by ring.
  rewrite T, <- S. assert (vnorm (vcross n v) * vnorm (vcross n v) <= vnorm v * vnorm v) by nra.
  apply Rmult_le_compat; nra.
Qed.
Lemma aa_rot_add s t n : vnorm2 n = 1 -> mmul (aa_rot (mkAA s n)) (aa_rot (mkAA t n)) = aa_rot (mkAA (s + t) n).
Proof.
  intros H. rewrite <- !half_quat_rot by exact H. rewrite <- quat_rot_hamilton. f_equal.
  unfold half_quat. replace ((s + t) / 2) with (s / 2 + t / 2) by field. rewrite cos_plus, sin_plus.
  destruct n as [a b c]. unfold hamilton. lin_unfold. 
  assert (H' : c * c = 1 - a * a - b * b) by lra.
  f_equal; try ring.
  match goal with |- _ = ?r => replace r with (cos (s/2) * cos (t/2) - sin (s/2) * sin (t/2) * (a*a+b*b+c*c)) by (rewrite H; ring) end. ring.
Qed.
Lemma aa_close s t n : vnorm2 n = 1 -> close (Rabs (s - t)) (aa_rot (mkAA s n)) (aa_rot (mkAA t n)).
Proof.
  intros H. replace (aa_rot (mkAA s n)) with (mmul (aa_rot (mkAA (s - t) n)) (aa_rot (mkAA t n)))
    by (rewrite aa_rot_add by exact H; do 2 f_equal; ring).
  replace (aa_rot (mkAA t n)) with (mmul mid (aa_rot (mkAA t n))) at 2 by apply mmul_id_l.
  apply close_mul_r; [apply aa_rot_SO3, H|apply aa_close_id, H].
Qed.
Lemma vec_close_id v : close (vnorm v) (vec_rot v) mid.
Proof.
  destruct (Req_dec (vnorm v) 0) as [Z|Z].
  - apply vnorm_zero in Z. subst v. rewrite vec_rot_zero, vnorm_vzero. apply close_refl. lra.
  - rewrite vec_rot_aa by exact Z. rewrite <- (Rabs_pos_eq (vnorm v)) at 1 by apply vnorm_nonneg.
    apply aa_close_id, vnorm2_unitize, Z.
Qed.

Lemma rotates_like_close p d r m m' : to_mat p r = Val m' -> close d m' m -> rotates_like p d r m.
Proof. intros E H v. exists (mvmul m' v). unfold rotate. rewrite E. split; [reflexivity|apply H]. Qed.
