(** * MixedEq: operator== across classes, soundness and the Euler classes. *)
From Coq Require Import Reals Lra Psatz Bool.
From Verif Require Import Linalg Spec SpecFacts ModelCommon ModelEigen ModelRotation CommonFacts ConvFacts RVFacts Windows RotFacts UniqueFacts MetricFacts EulerFacts EqFacts.
Local Open Scope R_scope.

Lemma opp_swap a b : a = - b -> - a = b. Proof. intros ->. ring. Qed.
(** Eigen's extraction on a proper rotation given by angles in the stated
    ranges returns these angles. *)
Lemma euler_210_inverts a b c : 0 <= a < PI -> - (PI/2) < b < PI/2 -> - PI < c <= PI ->
  e_eulerAngles_210 (zyx_rot (mkZyx a b c)) = mkV3 a b c.
Proof.
  intros A B C. pose proof PI_RGT_0 as P.
  assert (CB : 0 < cos b) by (apply cos_gt_0; lra).
  unfold e_eulerAngles_210, e_eulerAngles_core.
  assert (E0 : atan2 (m10 (zyx_rot (mkZyx a b c))) (m00 (zyx_rot (mkZyx a b c))) = a).
  { apply atan2_unique with (cos b); [exact CB| | |lra]; unfold zyx_rot, Rot_z, Rot_y, Rot_x; lin_unfold; cbn [zyaw zpitch zroll]; ring. }
  rewrite E0. destruct (Rlt_dec a 0); [lra|].
  assert (C2 : m22 (zyx_rot (mkZyx a b c)) * m22 (zyx_rot (mkZyx a b c)) + m21 (zyx_rot (mkZyx a b c)) * m21 (zyx_rot (mkZyx a b c)) = cos b * cos b).
  { pose proof (sin2_cos2 c) as T. unfold Rsqr in T. unfold zyx_rot, Rot_z, Rot_y, Rot_x; lin_unfold; cbn [zyaw zpitch zroll].
    replace (cos b * cos b) with (cos b * cos b * (sin c * sin c + cos c * cos c)) by (rewrite T; ring). ring. }
  rewrite C2, sqrt_square by lra. f_equal.
  - apply atan2_unique with 1; [lra| | |lra]; unfold zyx_rot, Rot_z, Rot_y, Rot_x; lin_unfold; cbn [zyaw zpitch zroll]; ring.
  - pose proof (sin2_cos2 a) as T. unfold Rsqr in T.
    apply atan2_unique with 1; [lra| | |lra]; unfold zyx_rot, Rot_z, Rot_y, Rot_x; lin_unfold; cbn [zyaw zpitch zroll].
    + transitivity (cos c * (sin a * sin a + cos a * cos a)); [ring|rewrite T; ring].
    + transitivity (sin c * (sin a * sin a + cos a * cos a)); [ring|rewrite T; ring].
Qed.
Lemma euler_012_inverts a b c : 0 <= a < PI -> - (PI/2) < b < PI/2 -> - PI <= c < PI ->
  e_eulerAngles_012 (xyz_rot (mkXyz a b c)) = mkV3 a b c.
Proof.
  intros A B C. pose proof PI_RGT_0 as P.
  assert (CB : 0 < cos b) by (apply cos_gt_0; lra).
  unfold e_eulerAngles_012, e_eulerAngles_core.
  assert (E0 : atan2 (m12 (xyz_rot (mkXyz a b c))) (m22 (xyz_rot (mkXyz a b c))) = - a).
  { apply atan2_unique with (cos b); [exact CB| | |lra]; rewrite ?sin_neg, ?cos_neg; unfold xyz_rot, Rot_z, Rot_y, Rot_x; lin_unfold; cbn [xyaw xpitch xroll]; ring. }
  rewrite E0. destruct (Rlt_dec 0 (- a)); [lra|].
  assert (C2 : m00 (xyz_rot (mkXyz a b c)) * m00 (xyz_rot (mkXyz a b c)) + m01 (xyz_rot (mkXyz a b c)) * m01 (xyz_rot (mkXyz a b c)) = cos b * cos b).
  { pose proof (sin2_cos2 c) as T. unfold Rsqr in T. unfold xyz_rot, Rot_z, Rot_y, Rot_x; lin_unfold; cbn [xyaw xpitch xroll].
    replace (cos b * cos b) with (cos b * cos b * (sin c * sin c + cos c * cos c)) by (rewrite T; ring). ring. }
  rewrite C2, sqrt_square by lra. rewrite sin_neg, cos_neg. f_equal; [ring| |].
  - apply opp_swap.
    apply atan2_unique with 1; [lra| | |lra]; rewrite ?sin_neg, ?cos_neg; unfold xyz_rot, Rot_z, Rot_y, Rot_x; lin_unfold; cbn [xyaw xpitch xroll]; ring.
  - pose proof (sin2_cos2 a) as T. unfold Rsqr in T. apply opp_swap.
    apply atan2_unique with 1; [lra| | |lra]; rewrite ?sin_neg, ?cos_neg; unfold xyz_rot, Rot_z, Rot_y, Rot_x; lin_unfold; cbn [xyaw xpitch xroll].
    + transitivity (cos c * (sin a * sin a + cos a * cos a)); [ring|rewrite T; ring].
    + transitivity (- sin c * (sin a * sin a + cos a * cos a)); [ring|rewrite T; ring].
Qed.

(** Conversion to an Euler class: through a quaternion of the rotation. *)
Lemma to_zyx_via p r : valid r -> kind_of r <> KZyx -> exact_conversion p KZyx r ->
  exists q, to_zyx p r = Val (quat_to_zyx q) /\ qnorm2 q = 1 /\ quat_rot q = meaning r.
Proof.
  intros V K X.
  assert (Y : exact_operand p r) by (destruct r; exact X || exact I).
  destruct (to_quat_exact p r V Y) as (q & E & U & M).
  exists q. split; [|split; assumption].
  destruct r; cbn [kind_of] in K; try congruence; cbn [to_zyx]; rewrite E; reflexivity.
Qed.
Lemma to_xyz_via p r : valid r -> kind_of r <> KXyz -> exact_conversion p KXyz r ->
  exists q, to_xyz p r = Val (quat_to_xyz q) /\ qnorm2 q = 1 /\ quat_rot q = meaning r.
Proof.
  intros V K X. destruct r as [q|a|v|m|e|e]; cbn [kind_of] in K; try congruence.
  3: { cbn [exact_conversion] in X. pose proof (rv_to_aa_exact p v X) as [H1 H2].
       destruct (to_quat_exact p (RotAA (rv_to_aa p v)) H1 I) as (q & E & Hq & M).
       cbn [to_quat] in E. injection E as E. exists q. split; [cbn [to_xyz]; rewrite E; reflexivity|].
       split; [exact Hq|]. rewrite M. exact H2. }
  all: match goal with |- exists _, to_xyz ?pp ?r = _ /\ _ => destruct (to_quat_exact pp r V I) as (q' & E & U & M) end.
  all: exists q'; split; [|split; assumption].
  all: cbn [to_xyz]; rewrite E; reflexivity.
Qed.

(** the conversion of the unique right operand to another class *)
Lemma zyx_mixed p e r : pitch_clear (zpitch e) -> valid r -> unique_exact p r -> kind_of r <> KZyx ->
  exact_conversion p KZyx (get_unique p r) ->
  exists c, is_equal p (RotZyx e) r = Some (Val c) /\
    (c = true <-> zyx_rot e = meaning r /\ 0 <= zyaw (zyx_unique e) /\ zroll (zyx_unique e) <> - PI).
Proof.
  intros He V X K Y. destruct (get_unique_exact p r V X) as (K' & V' & M).
  destruct (to_zyx_via p (get_unique p r) V' ltac:(congruence) Y) as (q & E & U & Q).
  change (is_equal p (RotZyx e) r) with (Some (b <- to_zyx p (get_unique p r) ;;
    Val (veqb (mkV3 (zyaw (zyx_unique e)) (zpitch (zyx_unique e)) (zroll (zyx_unique e)))
              (mkV3 (zyaw b) (zpitch b) (zroll b))))).
  rewrite E. cbn [obind]. destruct (zyx_unique_clear e He) as [Ze Re].
  rewrite <- Ze, <- M, <- Q. clear E Ze M Q V X K Y K' V'.
  destruct (zyx_unique e) as [a b c]. cbn [zyaw zpitch zroll] in *. destruct Re as (Ra & Rb & Rc). cbn [vx vy vz] in *.
  pose proof PI_RGT_0 as P.
  exists (veqb (mkV3 a b c) (mkV3 (zyaw (quat_to_zyx q)) (zpitch (quat_to_zyx q)) (zroll (quat_to_zyx q)))).
  split; [reflexivity|]. rewrite veqb_true. split.
  - intros H. pose proof (quat_to_zyx_ok q U) as Z. pose proof (quat_to_zyx_yaw q) as Y.
    assert (RL : - PI < zroll (quat_to_zyx q)).
    { unfold quat_to_zyx, e_eulerAngles_210, e_eulerAngles_core; cbn [zroll vz]. apply atan2_range. }
    destruct (quat_to_zyx q) as [a' b' c']; cbn [zyaw zpitch zroll] in *. injection H as -> -> ->.
    split; [exact Z|]. split; lra.
  - intros (H & A & C). unfold quat_to_zyx. rewrite e_toRotationMatrix_unit by exact U. rewrite <- H.
    rewrite euler_210_inverts by lra. reflexivity.
Qed.
Lemma xyz_mixed p e r : pitch_clear (xpitch e) -> valid r -> unique_exact p r -> kind_of r <> KXyz ->
  exact_conversion p KXyz (get_unique p r) ->
  exists c, is_equal p (RotXyz e) r = Some (Val c) /\
    (c = true <-> xyz_rot e = meaning r /\ 0 <= xroll (xyz_unique e)).
Proof.
  intros He V X K Y. destruct (get_unique_exact p r V X) as (K' & V' & M).
  destruct (to_xyz_via p (get_unique p r) V' ltac:(congruence) Y) as (q & E & U & Q).
  change (is_equal p (RotXyz e) r) with (Some (b <- to_xyz p (get_unique p r) ;;
    Val (veqb (mkV3 (xroll (xyz_unique e)) (xpitch (xyz_unique e)) (xyaw (xyz_unique e)))
              (mkV3 (xroll b) (xpitch b) (xyaw b))))).
  rewrite E. cbn [obind]. destruct (xyz_unique_clear e He) as [Ze Re].
  rewrite <- Ze, <- M, <- Q. clear E Ze M Q V X K Y K' V'.
  destruct (xyz_unique e) as [a b c]. cbn [xyaw xpitch xroll] in *. destruct Re as (Ra & Rb & Rc). cbn [vx vy vz] in *.
  pose proof PI_RGT_0 as P.
  exists (veqb (mkV3 a b c) (mkV3 (xroll (quat_to_xyz q)) (xpitch (quat_to_xyz q)) (xyaw (quat_to_xyz q)))).
  split; [reflexivity|]. rewrite veqb_true. split.
  - intros H. pose proof (quat_to_xyz_ok q U) as Z. pose proof (quat_to_xyz_roll q) as Y.
    destruct (quat_to_xyz q) as [a' b' c']; cbn [xyaw xpitch xroll] in *. injection H as -> -> ->.
    split; [exact Z|]. lra.
  - intros (H & A). unfold quat_to_xyz. rewrite e_toRotationMatrix_unit by exact U. rewrite <- H.
    rewrite euler_012_inverts by lra. reflexivity.
Qed.

(** RotationVector on the left, matrix or Euler angles on the right *)
Lemma vec_mat_equal p v m : SO3 m -> unique_exact p (RotVec v) -> regular_angle p m -> 0 < mtrace m ->
  exists c, is_equal p (RotVec v) (RotMat m) = Some (Val c) /\ (c = true <-> vec_rot v = m).
Proof.
  intros S X Y T. cbn [is_equal get_unique to_rv obind].
  destruct (rv_unique_ok p v X) as [Rv Cv].
  destruct (e_quat_of_matrix_ok m S) as (q & E & H & Q). rewrite E. cbn [obind].
  assert (W : 0 < qw q).
  { revert E. unfold e_quat_of_matrix. destruct (Rlt_dec 0 (mtrace m)); [|lra].
    unfold csqrt. destruct (Rlt_dec (mtrace m + 1) 0); [discriminate|]. cbn [obind]. unfold cdiv.
    assert (Z : 0 < sqrt (mtrace m + 1)) by (apply sqrt_lt_R0; lra).
    destruct (Req_EM_T _ 0); [discriminate|]. cbn [obind]. intros [= <-]. cbn [qw]. lra. }
  rewrite <- Q in Y. destruct (quat_to_rv_exact p q H) as (w & Ew & Mw & _); [apply regular_quat; assumption|].
  rewrite Ew; cbn [obind]. apply bool_iff_val. rewrite veqb_true. split; intros F.
  - rewrite <- Rv, <- Q, <- Mw, F. reflexivity.
  - apply canonical_vec_eq; [exact Cv| |congruence].
    eapply canonical_quat_vec; [exact H|left; exact W|exact Y|exact Ew].
Qed.
Lemma vec_aaq_equal p v q : qnorm2 q = 1 -> unique_exact p (RotVec v) -> qw q <> 0 ->
  let w := aa_to_rv (e_aa_of_quat q) in
  rv_unique p v = w <-> vec_rot v = quat_rot q.
Proof.
  intros U X W w. destruct (rv_unique_ok p v X) as [Rv Cv].
  destruct (e_aa_of_quat_spec q U) as (N & A & D). destruct (e_aa_of_quat_rot q U) as (_ & M).
  assert (Rw : vec_rot w = quat_rot q).
  { unfold w, aa_to_rv. rewrite vec_rot_scaled by exact N. rewrite <- M. destruct (e_aa_of_quat q); reflexivity. }
  split; intros F.
  - rewrite <- Rv, F. exact Rw.
  - apply canonical_vec_eq; [exact Cv| |congruence]. left. unfold w, aa_to_rv.
    rewrite vnorm_vscale, (proj2 (vnorm_unit _) N), Rabs_right by lra. rewrite Rmult_1_r.
    destruct (Req_dec (aangle (e_aa_of_quat q)) PI) as [Z|Z]; [|lra]. exfalso.
    assert (C : cos (aangle (e_aa_of_quat q) / 2) = 0) by (rewrite Z; apply cos_PI2).
    destruct D as [D|D]; apply (f_equal qw) in D; unfold half_quat, qneg in D; cbn [qw] in D;
      replace (1 / 2 * aangle (e_aa_of_quat q)) with (aangle (e_aa_of_quat q) / 2) in D by field; rewrite C in D; lra.
Qed.
Lemma vec_euler_equal p v r : kind_of r = KZyx \/ kind_of r = KXyz -> unique_exact p (RotVec v) -> unique_exact p r ->
  -1 < mtrace (meaning r) ->
  exists c, is_equal p (RotVec v) r = Some (Val c) /\ (c = true <-> vec_rot v = meaning r).
Proof.
  intros K X Y T.
  assert (G : forall q, qnorm2 q = 1 -> quat_rot q = meaning r ->
     exists c, Some (Val (veqb (rv_unique p v) (aa_to_rv (e_aa_of_quat q)))) = Some (Val c) /\ (c = true <-> vec_rot v = meaning r)).
  { intros q U Q. apply bool_iff_val. rewrite veqb_true, <- Q. apply vec_aaq_equal; [exact U|exact X|].
    intros W. pose proof (quat_trace q U) as Tr. rewrite Q, W in Tr. lra. }
  destruct r as [q|a|w|m|e|e]; cbn [kind_of] in K; try (destruct K; discriminate).
  - cbn [is_equal get_unique to_rv to_aa obind]. destruct (zyx_to_quat_ok (zyx_unique e)) as [U Q].
    apply G; [exact U|]. rewrite Q. apply zyx_unique_clear, Y.
  - cbn [is_equal get_unique to_rv to_aa obind]. destruct (xyz_to_quat_ok (xyz_unique e)) as [U Q].
    apply G; [exact U|]. rewrite Q. apply xyz_unique_clear, Y.
Qed.

(** soundness: a true answer implies the same rotation, whatever the classes *)
Lemma equal_sound p l r : kind_of l <> KAA -> valid l -> valid r -> unique_exact p l -> unique_exact p r ->
  exact_conversion p (kind_of l) (get_unique p r) ->
  is_equal p l r = Some (Val true) -> meaning l = meaning r.
Proof.
  intros K Vl Vr Xl Xr Y E.
  destruct (get_unique_exact p l Vl Xl) as (Kl & _ & Ml). destruct (get_unique_exact p r Vr Xr) as (Kr & V' & Mr).
  destruct (convert_exact p (kind_of l) (get_unique p r) V' Y) as (s & Es & Ks & _ & Ms).
  rewrite <- Ml, <- Mr, <- Ms. unfold is_equal in E. rewrite <- Kl in *. clear Kl Ml Xl Vl.
  destruct (get_unique p l) as [a|a|a|a|a|a]; cbn [kind_of] in *; try congruence; cbn [convert] in Es.
  - destruct (get_unique p r) as [b|b|b|b|b|b]; try discriminate. injection E as E. apply qeqb_true in E.
    cbn in Es. injection Es as <-. rewrite E. reflexivity.
  - unfold omap, obind in *. destruct (to_rv p (get_unique p r)) as [b| |]; try discriminate. injection Es as <-. injection E as E. apply veqb_true in E. rewrite E. reflexivity.
  - unfold omap, obind in *. destruct (to_mat p (get_unique p r)) as [b| |]; try discriminate. injection Es as <-. injection E as E. apply meqb_true in E. rewrite E. reflexivity.
  - unfold omap, obind in *. destruct (to_zyx p (get_unique p r)) as [b| |]; try discriminate. injection Es as <-. injection E as E. apply veqb_true in E. destruct a, b; cbn in E. injection E as -> -> ->. reflexivity.
  - unfold omap, obind in *. destruct (to_xyz p (get_unique p r)) as [b| |]; try discriminate. injection Es as <-. injection E as E. apply veqb_true in E. destruct a, b; cbn in E. injection E as -> -> ->. reflexivity.
Qed.
