(** * SpecFacts: sanity facts about the specification and trigonometry. *)
From Coq Require Import Reals Lra Psatz Lia.
From Verif Require Import Linalg Spec.
Local Open Scope R_scope.

Ltac spec_unfold :=
  cbv beta iota zeta delta [quat_rot aa_rot sandwich hamilton conj rodrigues zyx_rot xyz_rot
    Rot_x Rot_y Rot_z aangle aaxis zyaw zpitch zroll xroll xpitch xyaw
    vnorm qnorm mat_of mtrace mdet mcross mmul mvmul mtrans mscale
    msub madd mid mzero vnorm2 vdot vcross vscale vneg vsub vadd vzero
    ex ey ez qnorm2 qvec qneg qid
    vx vy vz m00 m01 m02 m10 m11 m12 m20 m21 m22 qw qx qy qz] in *.
Ltac slin := intros; lin_destruct; spec_unfold; lin_eq; try ring.

(** Explicit entries of the quaternion rotation matrix (unit or not). *)
Lemma quat_rot_entries q :
  let w := qw q in let x := qx q in let y := qy q in let z := qz q in
  quat_rot q =
  mkM33 (w*w+x*x-y*y-z*z) (2*(x*y-w*z)) (2*(x*z+w*y))
        (2*(x*y+w*z)) (w*w-x*x+y*y-z*z) (2*(y*z-w*x))
        (2*(x*z-w*y)) (2*(y*z+w*x)) (w*w-x*x-y*y+z*z).
Proof. cbv zeta. slin. Qed.

Lemma sandwich_matrix q v : sandwich q v = mvmul (quat_rot q) v.
Proof. slin. Qed.
Lemma rodrigues_matrix a n v : rodrigues a n v = mvmul (aa_rot (mkAA a n)) v.
Proof. slin. Qed.

Lemma hamilton_assoc a b c : hamilton a (hamilton b c) = hamilton (hamilton a b) c.
Proof. slin. Qed.
Lemma hamilton_id_l a : hamilton qid a = a.
Proof. slin. Qed.
Lemma hamilton_id_r a : hamilton a qid = a.
Proof. slin. Qed.
Lemma hamilton_norm a b : qnorm2 (hamilton a b) = qnorm2 a * qnorm2 b.
Proof. slin. Qed.
Lemma hamilton_conj_r a : hamilton a (conj a) = mkQ (qnorm2 a) 0 0 0.
Proof. slin. Qed.
Lemma hamilton_conj_l a : hamilton (conj a) a = mkQ (qnorm2 a) 0 0 0.
Proof. slin. Qed.
Lemma conj_hamilton a b : conj (hamilton a b) = hamilton (conj b) (conj a).
Proof. slin. Qed.
Lemma conj_conj a : conj (conj a) = a.
Proof. slin. Qed.
Lemma qnorm2_conj a : qnorm2 (conj a) = qnorm2 a.
Proof. slin. Qed.

Lemma quat_rot_hamilton a b : quat_rot (hamilton a b) = mmul (quat_rot a) (quat_rot b).
Proof. rewrite !quat_rot_entries. slin. Qed.
Lemma quat_rot_conj a : quat_rot (conj a) = mtrans (quat_rot a).
Proof. slin. Qed.
Lemma quat_rot_neg a : quat_rot (qneg a) = quat_rot a.
Proof. slin. Qed.
Lemma quat_rot_id : quat_rot qid = mid.
Proof. slin. Qed.

Lemma quat_rot_orth a : mmul (quat_rot a) (mtrans (quat_rot a)) = mscale (qnorm2 a * qnorm2 a) mid.
Proof. rewrite !quat_rot_entries. slin. Qed.
Lemma quat_rot_det a : mdet (quat_rot a) = qnorm2 a * qnorm2 a * qnorm2 a.
Proof. rewrite !quat_rot_entries. slin. Qed.
Lemma quat_rot_SO3 a : qnorm2 a = 1 -> SO3 (quat_rot a).
Proof.
  intros H; split.
  - rewrite quat_rot_orth, H. lin.
  - rewrite quat_rot_det, H. ring.
Qed.

Lemma SO3_mid : SO3 mid.
Proof. split; lin. Qed.
Lemma SO3_mmul a b : SO3 a -> SO3 b -> SO3 (mmul a b).
Proof.
  intros [Ha Da] [Hb Db]; split.
  - rewrite mtrans_mmul, <- mmul_assoc, (mmul_assoc b), Hb, mmul_id_l. exact Ha.
  - rewrite mdet_mmul, Da, Db. ring.
Qed.
Lemma SO3_trans a : SO3 a -> SO3 (mtrans a).
Proof.
  intros [Ha Da]; split.
  - rewrite mtrans_mtrans. apply mmul_inv_comm. exact Ha.
  - rewrite mdet_mtrans. exact Da.
Qed.
Lemma SO3_inv_l a : SO3 a -> mmul (mtrans a) a = mid.
Proof. intros [Ha _]. apply mmul_inv_comm, Ha. Qed.
Lemma SO3_inv_r a : SO3 a -> mmul a (mtrans a) = mid.
Proof. intros [Ha _]. exact Ha. Qed.

(** ** Trigonometry *)
Lemma sin2_cos2' x : sin x * sin x + cos x * cos x = 1.
Proof. pose proof (sin2_cos2 x) as H. unfold Rsqr in H. exact H. Qed.

Lemma double_cos a : cos a = cos (a/2) * cos (a/2) - sin (a/2) * sin (a/2).
Proof. replace a with (a/2 + a/2) at 1 by field. apply cos_plus. Qed.
Lemma double_sin a : sin a = 2 * sin (a/2) * cos (a/2).
Proof. replace a with (a/2 + a/2) at 1 by field. rewrite sin_plus. ring. Qed.

(** The half-angle quaternion of an axis and an angle. *)
Definition half_quat (a : R) (n : V3) : Quat :=
  mkQ (cos (a/2)) (sin (a/2) * vx n) (sin (a/2) * vy n) (sin (a/2) * vz n).

Lemma half_quat_norm a n : vnorm2 n = 1 -> qnorm2 (half_quat a n) = 1.
Proof.
  intros H. unfold half_quat; lin_destruct; lin_unfold.
  pose proof (sin2_cos2' (a/2)). nra.
Qed.

Lemma half_quat_rot a n : vnorm2 n = 1 -> quat_rot (half_quat a n) = aa_rot (mkAA a n).
Proof.
  intros H.
  rewrite quat_rot_entries. unfold half_quat; cbn [qw qx qy qz].
  spec_unfold. lin_destruct; lin_unfold.
  rewrite (double_cos a), (double_sin a).
  pose proof (sin2_cos2' (a/2)) as T.
  set (s := sin (a/2)) in *; set (c := cos (a/2)) in *.
  assert (Hc : c * c = 1 - s * s) by lra.
  f_equal; try (rewrite Hc; ring [H]); nra.
Qed.

Lemma aa_rot_SO3 a : vnorm2 (aaxis a) = 1 -> SO3 (aa_rot a).
Proof.
  destruct a as [a n]; cbn [aaxis]; intros H.
  rewrite <- half_quat_rot by exact H. apply quat_rot_SO3, half_quat_norm, H.
Qed.

Lemma Rot_x_SO3 a : SO3 (Rot_x a).
Proof. pose proof (sin2_cos2' a). split; spec_unfold; lin_unfold; lin_eq; nra. Qed.
Lemma Rot_y_SO3 a : SO3 (Rot_y a).
Proof. pose proof (sin2_cos2' a). split; spec_unfold; lin_unfold; lin_eq; nra. Qed.
Lemma Rot_z_SO3 a : SO3 (Rot_z a).
Proof. pose proof (sin2_cos2' a). split; spec_unfold; lin_unfold; lin_eq; nra. Qed.

Lemma Rot_x_aa a : Rot_x a = aa_rot (mkAA a ex).
Proof. slin. Qed.
Lemma Rot_y_aa a : Rot_y a = aa_rot (mkAA a ey).
Proof. slin. Qed.
Lemma Rot_z_aa a : Rot_z a = aa_rot (mkAA a ez).
Proof. slin. Qed.

Lemma vec_rot_zero : vec_rot vzero = mid.
Proof.
  unfold vec_rot. destruct (Req_EM_T (vnorm vzero) 0) as [_|N]; [reflexivity|].
  exfalso; apply N, vnorm_vzero.
Qed.

Lemma vnorm2_unitize v : vnorm v <> 0 -> vnorm2 (vscale (/ vnorm v) v) = 1.
Proof.
  intros H. rewrite vnorm2_vscale, <- vnorm_sqr. field. exact H.
Qed.

Lemma vec_rot_aa v : vnorm v <> 0 -> vec_rot v = aa_rot (mkAA (vnorm v) (vscale (/ vnorm v) v)).
Proof.
  intros H. unfold vec_rot. destruct (Req_EM_T (vnorm v) 0) as [E|_]; [contradiction|].
  reflexivity.
Qed.

(** [vec_rot] of a multiple of a unit vector. *)
Lemma vec_rot_scaled a n : vnorm2 n = 1 -> vec_rot (vscale a n) = aa_rot (mkAA a n).
Proof.
  intros H.
  assert (Hn : vnorm (vscale a n) = Rabs a).
  { rewrite vnorm_vscale. replace (vnorm n) with 1; [ring|]. symmetry; apply vnorm_unit, H. }
  destruct (Req_EM_T a 0) as [->|Ha].
  - replace (vscale 0 n) with vzero by lin. rewrite vec_rot_zero.
    slin; rewrite ?cos_0, ?sin_0; ring.
  - rewrite vec_rot_aa by (rewrite Hn; apply Rabs_no_R0, Ha).
    rewrite Hn.
    destruct (Rle_or_lt 0 a) as [L|L].
    + rewrite Rabs_right by lra.
      f_equal. f_equal. destruct n; lin_unfold; f_equal; field; exact Ha.
    + rewrite Rabs_left by lra.
      replace (vscale (/ - a) (vscale a n)) with (vneg n)
        by (destruct n; lin_unfold; f_equal; field; lra).
      spec_unfold. rewrite cos_neg, sin_neg. lin.
Qed.

Lemma vec_rot_SO3 v : SO3 (vec_rot v).
Proof.
  destruct (Req_EM_T (vnorm v) 0) as [E|E].
  - rewrite (vnorm_zero _ E), vec_rot_zero. apply SO3_mid.
  - rewrite vec_rot_aa by exact E. apply aa_rot_SO3; cbn [aaxis]. apply vnorm2_unitize, E.
Qed.

Lemma zyx_rot_SO3 e : SO3 (zyx_rot e).
Proof. unfold zyx_rot; repeat apply SO3_mmul; auto using Rot_x_SO3, Rot_y_SO3, Rot_z_SO3. Qed.
Lemma xyz_rot_SO3 e : SO3 (xyz_rot e).
Proof. unfold xyz_rot; repeat apply SO3_mmul; auto using Rot_x_SO3, Rot_y_SO3, Rot_z_SO3. Qed.

(** Every legal value denotes an element of SO(3). *)
Lemma meaning_SO3 r : valid r -> SO3 (meaning r).
Proof.
  destruct r as [q|a|v|m|e|e]; cbn [valid meaning]; intros H.
  - apply quat_rot_SO3, H.
  - apply aa_rot_SO3, H.
  - apply vec_rot_SO3.
  - exact H.
  - apply zyx_rot_SO3.
  - apply xyz_rot_SO3.
Qed.

(** ** Angles up to full turns *)
Lemma sin_period_Z x k : sin (x + 2 * PI * IZR k) = sin x.
Proof.
  assert (E : forall p, INR (Pos.to_nat p) = IZR (Z.pos p)).
  { intros p. rewrite INR_IZR_INZ, positive_nat_Z. reflexivity. }
  destruct k as [|p|p].
  - f_equal; simpl; ring.
  - rewrite <- (E p).
    replace (2 * PI * INR (Pos.to_nat p)) with (2 * INR (Pos.to_nat p) * PI) by ring.
    apply sin_period.
  - rewrite <- (sin_period _ (Pos.to_nat p)).
    f_equal. rewrite (E p). replace (IZR (Z.neg p)) with (- IZR (Z.pos p)); [ring|].
    rewrite <- opp_IZR. reflexivity.
Qed.
Lemma cos_period_Z x k : cos (x + 2 * PI * IZR k) = cos x.
Proof.
  rewrite <- !sin_shift. replace (PI/2 - (x + 2*PI*IZR k)) with ((PI/2 - x) + 2*PI*IZR (-k)).
  - apply sin_period_Z.
  - rewrite opp_IZR. ring.
Qed.
Lemma same_angle_trig a b : same_angle a b -> sin a = sin b /\ cos a = cos b.
Proof. intros [k ->]. split; [apply sin_period_Z | apply cos_period_Z]. Qed.
Lemma same_angle_refl a : same_angle a a.
Proof. exists 0%Z. simpl; ring. Qed.
Lemma same_angle_sym a b : same_angle a b -> same_angle b a.
Proof. intros [k ->]. exists (-k)%Z. rewrite opp_IZR. ring. Qed.
Lemma same_angle_trans a b c : same_angle a b -> same_angle b c -> same_angle a c.
Proof. intros [k ->] [l ->]. exists (k + l)%Z. rewrite plus_IZR. ring. Qed.

(** Uniqueness of an angle inside one half-open turn. *)
Lemma same_angle_range lo a b :
  same_angle a b -> lo <= a < lo + 2 * PI -> lo <= b < lo + 2 * PI -> a = b.
Proof.
  intros [k E] Ha Hb. pose proof PI_RGT_0 as HP.
  assert (Hk : (-1 < k < 1)%Z).
  { split; apply lt_IZR; nra. }
  replace k with 0%Z in E by lia. simpl in E. lra.
Qed.

(** Same sine and cosine: same angle up to whole turns. *)
Lemma trig_same_angle a b : sin a = sin b -> cos a = cos b -> same_angle a b.
Proof.
  intros Hs Hc. pose proof PI_RGT_0 as HP.
  set (d := a - b).
  assert (Hsd : sin d = 0).
  { unfold d. rewrite sin_minus, Hs, Hc. ring. }
  assert (Hcd : cos d = 1).
  { unfold d. rewrite cos_minus, Hs, Hc. pose proof (sin2_cos2' b). lra. }
  (* sin d = 0 gives d = k PI *)
  destruct (sin_eq_0_0 d Hsd) as [k Hk].
  destruct (Z.Even_or_Odd k) as [[m Hm]|[m Hm]].
  - exists m. subst k. rewrite mult_IZR in Hk. unfold d in Hk. lra.
  - exfalso. subst k. rewrite plus_IZR, mult_IZR in Hk.
    assert (E : cos d = -1).
    { rewrite Hk. replace ((2 * IZR m + 1) * PI) with (PI + 2 * PI * IZR m) by ring.
      rewrite cos_period_Z. apply cos_PI. }
    lra.
Qed.
