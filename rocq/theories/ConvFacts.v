(** * ConvFacts: every elementary conversion of ModelRotation against Spec. *)
From Coq Require Import Reals Lra Psatz Lia Bool.
From Verif Require Import Linalg Spec SpecFacts ModelCommon ModelEigen CommonFacts ModelRotation.
Local Open Scope R_scope.

(** ** Eigen quaternion functions *)
Lemma e_mul_hamilton a b : e_mul a b = hamilton a b.
Proof. unfold e_mul. slin. Qed.
Lemma e_conjugate_conj a : e_conjugate a = conj a.
Proof. reflexivity. Qed.
Lemma e_toRotationMatrix_unit q : qnorm2 q = 1 -> e_toRotationMatrix q = quat_rot q.
Proof.
  intros H. rewrite quat_rot_entries. unfold e_toRotationMatrix.
  destruct q; lin_unfold. f_equal; lra.
Qed.
Lemma e_quat_of_aa_half a : e_quat_of_aa a = half_quat (aangle a) (aaxis a).
Proof.
  unfold e_quat_of_aa, half_quat. replace (1/2 * aangle a) with (aangle a / 2) by field. reflexivity.
Qed.
Lemma e_aa_toRotationMatrix_spec a : e_aa_toRotationMatrix a = aa_rot a.
Proof. destruct a as [a n]. unfold e_aa_toRotationMatrix. slin. Qed.

(** Two unit quaternions denote the same rotation iff they agree up to sign. *)
Lemma quat_rot_eq_id q : qnorm2 q = 1 -> quat_rot q = mid -> q = qid \/ q = qneg qid.
Proof.
  intros H E. rewrite quat_rot_entries in E. destruct q as [w x y z].
  lin_unfold. injection E; intros.
  assert (x * x + y * y = 0) by lra. assert (y * y + z * z = 0) by lra.
  assert (x = 0) by nra. assert (y = 0) by nra. assert (z = 0) by nra. subst.
  assert (W : (w - 1) * (w + 1) = 0) by lra.
  destruct (Rmult_integral _ _ W); [left|right]; f_equal; lra.
Qed.
Lemma quat_rot_eq p q : qnorm2 p = 1 -> qnorm2 q = 1 ->
  quat_rot p = quat_rot q -> p = q \/ p = qneg q.
Proof.
  intros Hp Hq E.
  set (d := hamilton (conj q) p).
  assert (Hd : qnorm2 d = 1) by (unfold d; rewrite hamilton_norm, qnorm2_conj, Hp, Hq; ring).
  assert (Ed : quat_rot d = mid).
  { unfold d. rewrite quat_rot_hamilton, quat_rot_conj, E. apply SO3_inv_l, quat_rot_SO3, Hq. }
  assert (P : p = hamilton q d).
  { unfold d. rewrite hamilton_assoc, hamilton_conj_r, Hq. symmetry. apply hamilton_id_l. }
  destruct (quat_rot_eq_id d Hd Ed) as [D|D]; rewrite P, D; [left|right].
  - apply hamilton_id_r.
  - slin.
Qed.

(** ** Equations satisfied by the entries of a rotation matrix *)
Lemma SO3_cofactor m : SO3 m ->
  (m11 m * m22 m - m12 m * m21 m = m00 m /\
   m12 m * m20 m - m10 m * m22 m = m01 m /\
   m10 m * m21 m - m11 m * m20 m = m02 m) /\
  (m02 m * m21 m - m01 m * m22 m = m10 m /\
   m00 m * m22 m - m02 m * m20 m = m11 m /\
   m01 m * m20 m - m00 m * m21 m = m12 m) /\
  (m01 m * m12 m - m02 m * m11 m = m20 m /\
   m02 m * m10 m - m00 m * m12 m = m21 m /\
   m00 m * m11 m - m01 m * m10 m = m22 m).
Proof.
  intros H. pose proof (SO3_inv_l m H) as HL. destruct H as [HR HD].
  set (adj := mkM33
     (m11 m * m22 m - m12 m * m21 m) (m02 m * m21 m - m01 m * m22 m) (m01 m * m12 m - m02 m * m11 m)
     (m12 m * m20 m - m10 m * m22 m) (m00 m * m22 m - m02 m * m20 m) (m02 m * m10 m - m00 m * m12 m)
     (m10 m * m21 m - m11 m * m20 m) (m01 m * m20 m - m00 m * m21 m) (m00 m * m11 m - m01 m * m10 m)).
  assert (Ha : mmul adj m = mscale (mdet m) mid).
  { unfold adj. destruct m; lin_unfold; f_equal; ring. }
  assert (E : adj = mtrans m).
  { rewrite <- (mmul_id_r adj), <- HR, mmul_assoc, Ha, HD.
    destruct m; lin_unfold; f_equal; ring. }
  unfold adj in E. destruct m; lin_unfold. injection E; intros. repeat split; lra.
Qed.
Lemma SO3_rows m : SO3 m ->
  (m00 m * m00 m + m01 m * m01 m + m02 m * m02 m = 1 /\
   m10 m * m10 m + m11 m * m11 m + m12 m * m12 m = 1 /\
   m20 m * m20 m + m21 m * m21 m + m22 m * m22 m = 1) /\
  (m00 m * m10 m + m01 m * m11 m + m02 m * m12 m = 0 /\
   m00 m * m20 m + m01 m * m21 m + m02 m * m22 m = 0 /\
   m10 m * m20 m + m11 m * m21 m + m12 m * m22 m = 0).
Proof.
  intros [HR _]. destruct m; lin_unfold. injection HR; intros. repeat split; lra.
Qed.
Lemma SO3_cols m : SO3 m ->
  (m00 m * m00 m + m10 m * m10 m + m20 m * m20 m = 1 /\
   m01 m * m01 m + m11 m * m11 m + m21 m * m21 m = 1 /\
   m02 m * m02 m + m12 m * m12 m + m22 m * m22 m = 1) /\
  (m00 m * m01 m + m10 m * m11 m + m20 m * m21 m = 0 /\
   m00 m * m02 m + m10 m * m12 m + m20 m * m22 m = 0 /\
   m01 m * m02 m + m11 m * m12 m + m21 m * m22 m = 0).
Proof.
  intros H. exact (SO3_rows (mtrans m) (SO3_trans m H)).
Qed.

(** ** Quaternion from matrix *)
(** The ten products 4 q_a q_b determine the rotation. *)
Definition qprod_ok (q : Quat) (m : M33) : Prop :=
  4 * (qw q * qw q) = 1 + m00 m + m11 m + m22 m /\
  4 * (qx q * qx q) = 1 + m00 m - m11 m - m22 m /\
  4 * (qy q * qy q) = 1 - m00 m + m11 m - m22 m /\
  4 * (qz q * qz q) = 1 - m00 m - m11 m + m22 m /\
  4 * (qw q * qx q) = m21 m - m12 m /\
  4 * (qw q * qy q) = m02 m - m20 m /\
  4 * (qw q * qz q) = m10 m - m01 m /\
  4 * (qx q * qy q) = m10 m + m01 m /\
  4 * (qx q * qz q) = m20 m + m02 m /\
  4 * (qy q * qz q) = m21 m + m12 m.

Lemma qprod_ok_rot q m : qprod_ok q m -> qnorm2 q = 1 /\ quat_rot q = m.
Proof.
  intros (H1 & H2 & H3 & H4 & H5 & H6 & H7 & H8 & H9 & H10).
  rewrite quat_rot_entries. destruct q, m; lin_unfold. split; [lra|]. f_equal; lra.
Qed.

Lemma pivot_prod t1 t2 K a b c : t1 * t1 = K -> 0 < K -> t2 = (1/2) / t1 ->
  a * b = K * c -> 4 * ((a * t2) * (b * t2)) = c.
Proof.
  intros H1 HK -> E.
  assert (t1 <> 0) by (intro; subst; lra).
  replace (4 * (a * (1 / 2 / t1) * (b * (1 / 2 / t1)))) with (a * b / (t1 * t1)) by (field; assumption).
  rewrite E, H1. field. lra.
Qed.
Lemma pivot_self t1 t2 K a : t1 * t1 = K -> 0 < K -> t2 = (1/2) / t1 ->
  4 * ((1/2 * t1) * (a * t2)) = a.
Proof.
  intros H1 HK ->. assert (t1 <> 0) by (intro; subst; lra). field. assumption.
Qed.

Lemma pivot_self' t1 t2 K a : t1 * t1 = K -> 0 < K -> t2 = (1/2) / t1 ->
  4 * ((a * t2) * (1/2 * t1)) = a.
Proof.
  intros H1 HK ->. assert (t1 <> 0) by (intro; subst; lra). field. assumption.
Qed.
Lemma pivot_sq t1 K : t1 * t1 = K -> 4 * (1/2*t1*(1/2*t1)) = K.
Proof. intros <-. field. Qed.
Ltac pivot_tac S2 E2 :=
  first [ rewrite (pivot_sq _ _ S2); lra
        | rewrite (pivot_self _ _ _ _ S2 ltac:(lra) E2); lra
        | rewrite (pivot_self' _ _ _ _ S2 ltac:(lra) E2); lra
        | eapply (pivot_prod _ _ _ _ _ _ S2 ltac:(lra) E2); lra ].

Lemma e_quat_of_matrix_spec m : SO3 m ->
  exists q, e_quat_of_matrix m = Val q /\ qprod_ok q m.
Proof.
  intros H.
  pose proof (SO3_cofactor m H) as ((C1&C2&C3)&(C4&C5&C6)&(C7&C8&C9)).
  pose proof (SO3_rows m H) as ((R1&R2&R3)&(R4&R5&R6)).
  pose proof (SO3_cols m H) as ((L1&L2&L3)&(L4&L5&L6)).
  clear H. unfold e_quat_of_matrix, mtrace.
  destruct m as [a b c d e f g h i]; cbn [m00 m01 m02 m10 m11 m12 m20 m21 m22] in *.
  assert (fin : forall K, 0 < K -> exists t1, csqrt K = Val t1 /\ t1 * t1 = K /\
             cdiv (1/2) t1 = Val (1/2 / t1)).
  { intros K HK. exists (sqrt K). unfold csqrt, cdiv.
    destruct (Rlt_dec K 0); [lra|]. destruct (Req_EM_T (sqrt K) 0) as [E|E].
    - apply sqrt_eq_0 in E; lra.
    - split; [reflexivity|]. split; [apply sqrt_sqrt; lra|reflexivity]. }
  destruct (Rlt_dec 0 (a + e + i)) as [T|T].
  { destruct (fin (a + e + i + 1) ltac:(lra)) as (t1 & S1 & S2 & S3).
    rewrite S1; cbn [obind]. rewrite S3; cbn [obind].
    eexists; split; [reflexivity|].
    unfold qprod_ok; cbn [qw qx qy qz m00 m01 m02 m10 m11 m12 m20 m21 m22].
    remember (1/2/t1) as t2 eqn:E2.
    repeat split; pivot_tac S2 E2. }
  destruct (Rlt_dec a e) as [A|A]; [destruct (Rlt_dec e i) as [B|B] | destruct (Rlt_dec a i) as [B|B]].
  all: cbv iota.
  1,3: destruct (fin (i - a - e + 1) ltac:(lra)) as (t1 & S1 & S2 & S3).
  3: destruct (fin (e - i - a + 1) ltac:(lra)) as (t1 & S1 & S2 & S3).
  4: destruct (fin (a - e - i + 1) ltac:(lra)) as (t1 & S1 & S2 & S3).
  all: rewrite S1; cbn [obind]; rewrite S3; cbn [obind].
  all: eexists; split; [reflexivity|].
  all: unfold qprod_ok; cbn [qw qx qy qz m00 m01 m02 m10 m11 m12 m20 m21 m22].
  all: remember (1/2/t1) as t2 eqn:E2.
  all: repeat split; pivot_tac S2 E2.
Qed.

Lemma e_quat_of_matrix_ok m : SO3 m ->
  exists q, e_quat_of_matrix m = Val q /\ qnorm2 q = 1 /\ quat_rot q = m.
Proof.
  intros H. destruct (e_quat_of_matrix_spec m H) as (q & E & K).
  exists q. split; [exact E|]. apply qprod_ok_rot, K.
Qed.

(** Every rotation matrix comes from a unit quaternion. *)
Lemma SO3_has_quat m : SO3 m -> exists q, qnorm2 q = 1 /\ quat_rot q = m.
Proof. intros H. destruct (e_quat_of_matrix_ok m H) as (q & _ & K). exists q; exact K. Qed.

(** ** Angle-axis from quaternion *)
Lemma qvec_norm_unit q : qnorm2 q = 1 -> vnorm (qvec q) * vnorm (qvec q) = 1 - qw q * qw q.
Proof. intros H. rewrite vnorm_sqr. rewrite qnorm2_vec in H. lra. Qed.

(** polar form of a point of the unit circle with non-negative ordinate *)
Lemma atan2_unit n w : n * n + w * w = 1 -> cos (atan2 n w) = w /\ sin (atan2 n w) = n.
Proof.
  intros H.
  assert (N : w <> 0 \/ n <> 0).
  { destruct (Req_dec w 0) as [->|]; [right|left; assumption]. intros ->. lra. }
  destruct (atan2_polar n w N) as (_ & C & S).
  replace (w * w + n * n) with 1 in C, S by lra. rewrite sqrt_1 in C, S. split; lra.
Qed.

Lemma e_aa_of_quat_spec q : qnorm2 q = 1 ->
  let a := e_aa_of_quat q in
  vnorm2 (aaxis a) = 1 /\ 0 <= aangle a <= PI /\
  (half_quat (aangle a) (aaxis a) = q \/ half_quat (aangle a) (aaxis a) = qneg q).
Proof.
  intros H a. pose proof (qvec_norm_unit q H) as Hn. pose proof PI_RGT_0 as P.
  unfold a, e_aa_of_quat. set (n := vnorm (qvec q)) in *.
  assert (Nn : 0 <= n) by apply vnorm_nonneg.
  destruct (Req_EM_T n 0) as [E|E]; cbn [aangle aaxis].
  - split; [lin|]. split; [lra|].
    assert (V : qvec q = vzero) by (apply vnorm_zero; exact E).
    unfold half_quat. replace (0/2) with 0 by field. rewrite cos_0, sin_0.
    destruct q as [w x y z]; lin_unfold. injection V; intros; subst.
    assert (W : (w - 1) * (w + 1) = 0) by nra.
    destruct (Rmult_integral _ _ W); [left|right]; f_equal; lra.
  - set (n' := if Rlt_dec (qw q) 0 then - n else n).
    assert (Hn' : n' <> 0) by (unfold n'; destruct (Rlt_dec (qw q) 0); lra).
    assert (Hnn : n' * n' = n * n) by (unfold n'; destruct (Rlt_dec (qw q) 0); ring).
    assert (V2 : qx q * qx q + qy q * qy q + qz q * qz q = n * n).
    { rewrite Hn. unfold qnorm2 in H. lra. }
    assert (A : n * n + Rabs (qw q) * Rabs (qw q) = 1).
    { pose proof (Rsqr_abs (qw q)) as RA. unfold Rsqr in RA. rewrite <- RA. lra. }
    destruct (atan2_unit _ _ A) as [C S].
    split; [|split].
    + unfold vnorm2, vdot; cbn [vx vy vz].
      replace (qx q / n' * (qx q / n') + qy q / n' * (qy q / n') + qz q / n' * (qz q / n'))
        with ((qx q * qx q + qy q * qy q + qz q * qz q) / (n' * n')) by (field; exact Hn').
      rewrite V2, Hnn. field. exact E.
    + pose proof (atan2_nonneg n (Rabs (qw q)) Nn).
      pose proof (atan2_right n (Rabs (qw q)) (Rabs_pos _)). lra.
    + unfold half_quat. replace (2 * atan2 n (Rabs (qw q)) / 2) with (atan2 n (Rabs (qw q))) by field.
      rewrite C, S. cbn [vx vy vz]. unfold n' in *.
      destruct (Rlt_dec (qw q) 0) as [W|W]; [right|left]; destruct q as [w x y z]; lin_unfold.
      * rewrite Rabs_left by lra. f_equal; field; lra.
      * rewrite Rabs_right by lra. f_equal; field; lra.
Qed.

Lemma e_aa_of_quat_rot q : qnorm2 q = 1 ->
  vnorm2 (aaxis (e_aa_of_quat q)) = 1 /\ aa_rot (e_aa_of_quat q) = quat_rot q.
Proof.
  intros H. destruct (e_aa_of_quat_spec q H) as (U & _ & E). split; [exact U|].
  destruct (e_aa_of_quat q) as [a n]; cbn [aangle aaxis] in *.
  rewrite <- half_quat_rot by exact U. destruct E as [-> | ->]; [reflexivity|apply quat_rot_neg].
Qed.

(** ** Euler angles to quaternion *)
Lemma ex_unit : vnorm2 ex = 1. Proof. lin. Qed.
Lemma ey_unit : vnorm2 ey = 1. Proof. lin. Qed.
Lemma ez_unit : vnorm2 ez = 1. Proof. lin. Qed.

Lemma zyx_to_quat_ok e : qnorm2 (zyx_to_quat e) = 1 /\ quat_rot (zyx_to_quat e) = zyx_rot e.
Proof.
  unfold zyx_to_quat. rewrite !e_mul_hamilton, !e_quat_of_aa_half; cbn [aangle aaxis].
  change (mkV3 0 0 1) with ez; change (mkV3 0 1 0) with ey; change (mkV3 1 0 0) with ex.
  split.
  - rewrite !hamilton_norm, !half_quat_norm by auto using ex_unit, ey_unit, ez_unit. ring.
  - rewrite !quat_rot_hamilton, !half_quat_rot by auto using ex_unit, ey_unit, ez_unit.
    rewrite <- Rot_x_aa, <- Rot_y_aa, <- Rot_z_aa. unfold zyx_rot. symmetry; apply mmul_assoc.
Qed.
Lemma xyz_to_quat_ok e : qnorm2 (xyz_to_quat e) = 1 /\ quat_rot (xyz_to_quat e) = xyz_rot e.
Proof.
  unfold xyz_to_quat. rewrite !e_mul_hamilton, !e_quat_of_aa_half; cbn [aangle aaxis].
  change (mkV3 0 0 1) with ez; change (mkV3 0 1 0) with ey; change (mkV3 1 0 0) with ex.
  split.
  - rewrite !hamilton_norm, !half_quat_norm by auto using ex_unit, ey_unit, ez_unit. ring.
  - rewrite !quat_rot_hamilton, !half_quat_rot by auto using ex_unit, ey_unit, ez_unit.
    rewrite <- Rot_x_aa, <- Rot_y_aa, <- Rot_z_aa. unfold xyz_rot. symmetry; apply mmul_assoc.
Qed.

(** ** Euler angles from a matrix *)
Lemma Rot_z_neg a : Rot_z (- a) = mtrans (Rot_z a).
Proof. spec_unfold. rewrite cos_neg, sin_neg. f_equal; ring. Qed.
Lemma Rot_x_neg a : Rot_x (- a) = mtrans (Rot_x a).
Proof. spec_unfold. rewrite cos_neg, sin_neg. f_equal; ring. Qed.
Lemma Rot_y_neg a : Rot_y (- a) = mtrans (Rot_y a).
Proof. spec_unfold. rewrite cos_neg, sin_neg. f_equal; ring. Qed.

(** First two Eigen angles: with s = +1 or -1, (x,y) = s c2 (cos r0', sin r0'),
    cos r1 = s c2 and sin r1 = - t. *)
Lemma euler_first y x t c2 (flip : bool) :
  x * x + y * y = c2 * c2 -> c2 * c2 + t * t = 1 -> 0 <= c2 ->
  let r0 := atan2 y x in
  let r0' := if flip then (if Rlt_dec 0 r0 then r0 - PI else r0 + PI) else r0 in
  let r1 := if flip then atan2 (- t) (- c2) else atan2 (- t) c2 in
  x = cos r1 * cos r0' /\ y = cos r1 * sin r0' /\ sin r1 = - t.
Proof.
  intros H1 H2 H3 r0 r0' r1.
  assert (P0 : x = c2 * cos r0 /\ y = c2 * sin r0).
  { destruct (Req_dec c2 0) as [E|E].
    - subst c2. assert (x = 0) by nra. assert (y = 0) by nra. subst. split; ring.
    - assert (N : x <> 0 \/ y <> 0).
      { destruct (Req_dec x 0) as [X|X]; [right|left; exact X]. intro Y. subst. nra. }
      destruct (atan2_polar y x N) as (_ & C & S).
      assert (Q : sqrt (x*x+y*y) = c2) by (rewrite H1; apply sqrt_square; exact H3).
      rewrite Q in C, S. fold r0 in C, S. split; lra. }
  destruct P0 as [X Y].
  destruct flip.
  - assert (F : cos r0' = - cos r0 /\ sin r0' = - sin r0).
    { unfold r0'. destruct (Rlt_dec 0 r0).
      - replace (r0 - PI) with (- (PI - r0)) by ring.
        rewrite cos_neg, sin_neg, Rtrigo_facts.cos_pi_minus, Rtrigo_facts.sin_pi_minus. split; ring.
      - rewrite neg_cos, neg_sin. split; ring. }
    destruct F as [F1 F2]. unfold r1.
    destruct (atan2_unit (- t) (- c2)) as [C S]; [lra|].
    rewrite C, S, F1, F2. repeat split; lra.
  - unfold r0', r1. destruct (atan2_unit (- t) c2) as [C S]; [lra|].
    rewrite C, S. repeat split; lra.
Qed.

Lemma e_eulerAngles_210_ok m : SO3 m ->
  let v := e_eulerAngles_210 m in zyx_rot (mkZyx (vx v) (vy v) (vz v)) = m.
Proof.
  intros H v.
  pose proof (SO3_rows m H) as ((R1&R2&R3)&(R4&R5&R6)).
  pose proof (SO3_cols m H) as ((L1&L2&L3)&(L4&L5&L6)).
  assert (Hc : 0 <= sqrt (m22 m * m22 m + m21 m * m21 m)) by apply sqrt_pos.
  assert (Hc2 : sqrt (m22 m * m22 m + m21 m * m21 m) * sqrt (m22 m * m22 m + m21 m * m21 m)
          = m22 m * m22 m + m21 m * m21 m) by (apply sqrt_sqrt; nra).
  unfold v, e_eulerAngles_210, e_eulerAngles_core.
  set (c2 := sqrt (m22 m * m22 m + m21 m * m21 m)) in *.
  set (r0 := atan2 (m10 m) (m00 m)).
  set (flip := if Rlt_dec r0 0 then true else false).
  pose proof (euler_first (m10 m) (m00 m) (m20 m) c2 flip ltac:(lra) ltac:(lra) Hc) as F.
  cbv zeta in F. fold r0 in F.
  set (r0' := if flip then (if Rlt_dec 0 r0 then r0 - PI else r0 + PI) else r0) in *.
  set (r1 := if flip then atan2 (- m20 m) (- c2) else atan2 (- m20 m) c2) in *.
  destruct F as (F1 & F2 & F3).
  cbv zeta. cbn [vx vy vz].
  set (r2 := atan2 (sin r0' * m02 m - cos r0' * m12 m) (cos r0' * m11 m - sin r0' * m01 m)).
  set (B := mmul (mtrans (Rot_z r0')) m).
  assert (HB : SO3 B) by (apply SO3_mmul; [apply SO3_trans, Rot_z_SO3|exact H]).
  pose proof (sin2_cos2' r0') as T0.
  assert (B10 : m10 B = 0).
  { unfold B. spec_unfold. destruct m; lin_unfold. rewrite F1, F2. ring. }
  assert (B00 : m00 B = cos r1).
  { unfold B. spec_unfold. destruct m; lin_unfold. rewrite F1, F2.
    replace (cos r0' * (cos r1 * cos r0') + sin r0' * (cos r1 * sin r0') + 0 * m20)
      with (cos r1 * (sin r0' * sin r0' + cos r0' * cos r0')) by ring. rewrite T0; ring. }
  assert (B20 : m20 B = - sin r1).
  { unfold B. spec_unfold. destruct m; lin_unfold. rewrite F3. ring. }
  pose proof (SO3_rows B HB) as ((_&U&_)&_). rewrite B10 in U.
  assert (E11 : m11 B = cos r0' * m11 m - sin r0' * m01 m).
  { unfold B. spec_unfold. destruct m; lin_unfold. ring. }
  assert (E12 : - m12 B = sin r0' * m02 m - cos r0' * m12 m).
  { unfold B. spec_unfold. destruct m; lin_unfold. ring. }
  assert (T2 : cos r2 = m11 B /\ sin r2 = - m12 B).
  { unfold r2. rewrite <- E11, <- E12. apply atan2_unit. lra. }
  destruct T2 as [C2 S2].
  pose proof (SO3_cofactor B HB) as ((C11&C12&C13)&(C14&C15&C16)&(C17&C18&C19)).
  rewrite B10, B20, B00 in *.
  assert (EB : B = mmul (Rot_y r1) (Rot_x r2)).
  { assert (EBx : B = mkM33 (m00 B) (m01 B) (m02 B) (m10 B) (m11 B) (m12 B) (m20 B) (m21 B) (m22 B))
      by (destruct B; reflexivity).
    rewrite EBx. spec_unfold. f_equal; rewrite ?C2, ?S2; try lra. }
  assert (Em : m = mmul (Rot_z r0') B).
  { unfold B. rewrite mmul_assoc, (SO3_inv_r _ (Rot_z_SO3 r0')), mmul_id_l. reflexivity. }
  unfold zyx_rot; cbn [zyaw zpitch zroll]. rewrite <- EB. symmetry; exact Em.
Qed.

Lemma e_eulerAngles_012_ok m : SO3 m ->
  let v := e_eulerAngles_012 m in xyz_rot (mkXyz (vx v) (vy v) (vz v)) = m.
Proof.
  intros H v.
  pose proof (SO3_rows m H) as ((R1&R2&R3)&(R4&R5&R6)).
  pose proof (SO3_cols m H) as ((L1&L2&L3)&(L4&L5&L6)).
  assert (Hc : 0 <= sqrt (m00 m * m00 m + m01 m * m01 m)) by apply sqrt_pos.
  assert (Hc2 : sqrt (m00 m * m00 m + m01 m * m01 m) * sqrt (m00 m * m00 m + m01 m * m01 m)
          = m00 m * m00 m + m01 m * m01 m) by (apply sqrt_sqrt; nra).
  unfold v, e_eulerAngles_012, e_eulerAngles_core.
  set (c2 := sqrt (m00 m * m00 m + m01 m * m01 m)) in *.
  set (r0 := atan2 (m12 m) (m22 m)).
  set (flip := if Rlt_dec 0 r0 then true else false).
  pose proof (euler_first (m12 m) (m22 m) (m02 m) c2 flip ltac:(lra) ltac:(lra) Hc) as F.
  cbv zeta in F. fold r0 in F.
  set (r0' := if flip then (if Rlt_dec 0 r0 then r0 - PI else r0 + PI) else r0) in *.
  set (r1 := if flip then atan2 (- m02 m) (- c2) else atan2 (- m02 m) c2) in *.
  destruct F as (F1 & F2 & F3).
  cbv zeta. cbn [vx vy vz].
  set (r2 := atan2 (sin r0' * m20 m - cos r0' * m10 m) (cos r0' * m11 m - sin r0' * m21 m)).
  set (B := mmul (Rot_x r0') m).
  assert (HB : SO3 B) by (apply SO3_mmul; [apply Rot_x_SO3|exact H]).
  pose proof (sin2_cos2' r0') as T0.
  assert (B12 : m12 B = 0).
  { unfold B. spec_unfold. destruct m; lin_unfold. rewrite F1, F2. ring. }
  assert (B22 : m22 B = cos r1).
  { unfold B. spec_unfold. destruct m; lin_unfold. rewrite F1, F2.
    replace (0 * m02 + sin r0' * (cos r1 * sin r0') + cos r0' * (cos r1 * cos r0'))
      with (cos r1 * (sin r0' * sin r0' + cos r0' * cos r0')) by ring. rewrite T0; ring. }
  assert (B02 : m02 B = - sin r1).
  { unfold B. spec_unfold. destruct m; lin_unfold. rewrite F3. ring. }
  pose proof (SO3_rows B HB) as ((_&U&_)&_). rewrite B12 in U.
  assert (E11 : m11 B = cos r0' * m11 m - sin r0' * m21 m).
  { unfold B. spec_unfold. destruct m; lin_unfold. ring. }
  assert (E10 : - m10 B = sin r0' * m20 m - cos r0' * m10 m).
  { unfold B. spec_unfold. destruct m; lin_unfold. ring. }
  assert (T2 : cos r2 = m11 B /\ sin r2 = - m10 B).
  { unfold r2. rewrite <- E11, <- E10. apply atan2_unit. lra. }
  destruct T2 as [C2 S2].
  pose proof (SO3_cofactor B HB) as ((C11&C12&C13)&(C14&C15&C16)&(C17&C18&C19)).
  rewrite B12, B02, B22 in *.
  assert (EB : B = mmul (Rot_y (- r1)) (Rot_z (- r2))).
  { assert (EBx : B = mkM33 (m00 B) (m01 B) (m02 B) (m10 B) (m11 B) (m12 B) (m20 B) (m21 B) (m22 B))
      by (destruct B; reflexivity).
    rewrite EBx. spec_unfold. rewrite !cos_neg, !sin_neg. f_equal; rewrite ?C2, ?S2; try lra. }
  assert (Em : m = mmul (Rot_x (- r0')) B).
  { unfold B. rewrite mmul_assoc, Rot_x_neg, (SO3_inv_l _ (Rot_x_SO3 r0')), mmul_id_l. reflexivity. }
  unfold xyz_rot; cbn [xroll xpitch xyaw]. rewrite <- EB. symmetry; exact Em.
Qed.

Lemma quat_to_zyx_ok q : qnorm2 q = 1 -> zyx_rot (quat_to_zyx q) = quat_rot q.
Proof.
  intros H. unfold quat_to_zyx. rewrite e_toRotationMatrix_unit by exact H.
  apply e_eulerAngles_210_ok, quat_rot_SO3, H.
Qed.
Lemma quat_to_xyz_ok q : qnorm2 q = 1 -> xyz_rot (quat_to_xyz q) = quat_rot q.
Proof.
  intros H. unfold quat_to_xyz. rewrite e_toRotationMatrix_unit by exact H.
  apply e_eulerAngles_012_ok, quat_rot_SO3, H.
Qed.
