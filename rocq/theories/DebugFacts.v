(** * DebugFacts: the debug build against the release build. *)
From Coq Require Import Reals Lra Psatz Bool List.
From Verif Require Import Linalg Spec SpecFacts ModelCommon ModelEigen ModelRotation CommonFacts ConvFacts RVFacts Windows RotFacts UniqueFacts MetricFacts EulerFacts SetFacts ModelDebug ModelHistory SpecHistory HistoryFacts ModelDebug2 ModelQuaternion QuatDebugFacts SpecClose CloseFacts NearUnit EulerNear RoundTrip TotalFacts TotalFacts2.
Import ListNotations.
Local Open Scope R_scope.

(** ** whatever the debug build returns, the release build returns *)
Definition refines {A} (d r : outcome A) : Prop := d = r \/ d = Throws.
Lemma ref_refl {A} (x : outcome A) : refines x x. Proof. left; reflexivity. Qed.
Lemma ref_bind {A B} (d r : outcome A) (f g : A -> outcome B) :
  refines d r -> (forall x, refines (f x) (g x)) -> refines (obind d f) (obind r g).
Proof. intros [-> | ->] H; [|right; reflexivity]. destruct r; cbn; [apply H|apply ref_refl|apply ref_refl]. Qed.
Lemma ref_map {A B} (d r : outcome A) (f : A -> B) : refines d r -> refines (omap f d) (omap f r).
Proof. intros [-> | ->]; [left|right]; reflexivity. Qed.
Lemma ref_ctor q : refines (dbg_quat_ctor q) (Val q).
Proof. unfold dbg_quat_ctor, assert_scalar_near. destruct (compareRelative _ _ _); [left|right]; reflexivity. Qed.
Lemma ref_aactor a : refines (dbg_aa_ctor a) (Val a).
Proof. unfold dbg_aa_ctor, assert_scalar_near. destruct (compareRelative _ _ _); [left|right]; reflexivity. Qed.
Lemma ref_ctor_bind {A} (x : outcome Quat) (f : Quat -> outcome A) (g : Quat -> outcome A) :
  (forall q, refines (f q) (g q)) -> refines (q <- x ;; q' <- dbg_quat_ctor q ;; f q') (q <- x ;; g q).
Proof.
  intros H. apply ref_bind; [apply ref_refl|]. intros q. destruct (ref_ctor q) as [-> | ->]; [apply H|right; reflexivity].
Qed.
Lemma ref_then_ctor (x : outcome Quat) : refines (q <- x ;; dbg_quat_ctor q) x.
Proof. destruct x; cbn; [apply ref_ctor|apply ref_refl|apply ref_refl]. Qed.
Lemma ref_then_aactor (x : outcome AA) : refines (q <- x ;; dbg_aa_ctor q) x.
Proof. destruct x; cbn; [apply ref_aactor|apply ref_refl|apply ref_refl]. Qed.
Lemma ref_to_quat p r : refines (dbg_to_quat p r) (to_quat p r).
Proof. destruct r; unfold dbg_to_quat; try apply ref_then_ctor. apply ref_refl. Qed.
Lemma ref_to_aa p r : refines (dbg_to_aa p r) (to_aa p r).
Proof.
  destruct r; unfold dbg_to_aa; try apply ref_then_aactor; try apply ref_refl.
  cbn [to_aa]. unfold rv_to_aa. destruct (Rlt_dec _ _); [apply ref_refl|apply ref_aactor].
Qed.
Lemma ref_to_mat p r : refines (dbg_to_mat p r) (to_mat p r).
Proof.
  assert (H : forall r', refines (q <- dbg_to_quat p r' ;; Val (e_toRotationMatrix q)) (q <- to_quat p r' ;; Val (e_toRotationMatrix q))).
  { intros r'. apply ref_bind; [apply ref_to_quat|intros; apply ref_refl]. }
  destruct r; cbn [dbg_to_mat]; try apply ref_refl; exact (H _).
Qed.
Lemma ref_to_rv p r : refines (dbg_to_rv p r) (to_rv p r).
Proof.
  destruct r; cbn [dbg_to_rv]; try apply ref_refl; cbn [to_rv].
  - apply (ref_bind (dbg_to_quat p (RotMat m)) (e_quat_of_matrix m)); [apply (ref_to_quat p (RotMat m))|intros; apply ref_refl].
  - apply ref_bind; [apply ref_to_aa|intros; apply ref_refl].
  - apply ref_bind; [apply ref_to_aa|intros; apply ref_refl].
Qed.
Lemma ref_to_zyx p r : refines (dbg_to_zyx p r) (to_zyx p r).
Proof.
  unfold dbg_to_zyx, to_zyx; destruct r; try apply ref_refl; (apply ref_bind; [apply ref_to_quat|intros; apply ref_refl]).
Qed.
Lemma ref_to_xyz p r : refines (dbg_to_xyz p r) (to_xyz p r).
Proof.
  unfold dbg_to_xyz, to_xyz; destruct r; try apply ref_refl; try (apply ref_bind; [apply ref_to_quat|intros; apply ref_refl]).
  apply (ref_bind _ (Val (rv_to_aa p v)) _ (fun a => q <- to_quat p (RotAA a) ;; Val (quat_to_xyz q))); [apply (ref_to_aa p (RotVec v))|].
  intros a. apply ref_bind; [apply ref_to_quat|intros; apply ref_refl].
Qed.
Lemma ref_convert p k r : refines (dbg_convert p k r) (convert p k r).
Proof. destruct k; cbn [dbg_convert convert]; apply ref_map; auto using ref_to_quat, ref_to_aa, ref_to_rv, ref_to_mat, ref_to_zyx, ref_to_xyz. Qed.
Lemma ref_mult p l r : refines (dbg_mult p l r) (mult p l r).
Proof.
  assert (G : refines (ql <- dbg_to_quat p l ;; qr <- dbg_to_quat p r ;; q <- dbg_quat_ctor (e_mul ql qr) ;; dbg_convert p (kind_of l) (RotQuat q))
                      (ql <- to_quat p l ;; qr <- to_quat p r ;; convert p (kind_of l) (RotQuat (e_mul ql qr)))).
  { apply ref_bind; [apply ref_to_quat|]. intros ql. apply ref_bind; [apply ref_to_quat|]. intros qr.
    destruct (ref_ctor (e_mul ql qr)) as [-> | ->]; [|right; reflexivity]. cbn [obind]. apply ref_convert. }
  destruct l, r; try exact G. apply ref_refl.
Qed.
Lemma ref_inverted p r : refines (dbg_inverted p r) (inverted r).
Proof.
  destruct r; cbn [dbg_inverted inverted]; try apply ref_refl.
  - destruct (ref_ctor (e_conjugate q)) as [-> | ->]; [left|right]; reflexivity.
  - destruct (ref_aactor (aa_inverted a)) as [-> | ->]; [left|right]; reflexivity.
  - destruct (ref_to_quat p (RotZyx e)) as [-> | ->]; [|right; reflexivity]. cbn [to_quat obind].
    destruct (ref_ctor (e_conjugate (zyx_to_quat e))) as [-> | ->]; [left|right]; reflexivity.
  - destruct (ref_to_quat p (RotXyz e)) as [-> | ->]; [|right; reflexivity]. cbn [to_quat obind].
    destruct (ref_ctor (e_conjugate (xyz_to_quat e))) as [-> | ->]; [left|right]; reflexivity.
Qed.
Lemma ref_quat_unique q : refines (dbg_quat_unique q) (Val (quat_unique q)).
Proof. unfold dbg_quat_unique, quat_unique. repeat destruct (Rlt_dec _ _); try apply ref_refl; apply ref_ctor. Qed.
Lemma ref_aa_unique a : refines (dbg_aa_unique a) (Val (aa_unique a)).
Proof.
  unfold dbg_aa_unique. destruct (ref_aactor (mkAA (wrapPosNegPI (aangle a)) (aaxis a))) as [-> | ->]; [|right; reflexivity].
  cbn [obind aangle aaxis]. unfold aa_unique.
  repeat match goal with |- context [Rlt_dec ?a ?b] => destruct (Rlt_dec a b) end; try apply ref_refl; try apply ref_aactor;
    destruct (negb _); apply ref_aactor.
Qed.
Lemma ref_get_unique p r : refines (dbg_get_unique p r) (Val (get_unique p r)).
Proof.
  destruct r; cbn [dbg_get_unique get_unique]; try apply ref_refl.
  - apply (ref_map _ (Val (quat_unique q))), ref_quat_unique.
  - apply (ref_map _ (Val (aa_unique a))), ref_aa_unique.
  - destruct (ref_to_aa p (RotVec v)) as [-> | ->]; [|right; reflexivity]. cbn [to_aa obind].
    destruct (ref_aa_unique (rv_to_aa p v)) as [-> | ->]; [left|right]; reflexivity.
Qed.
Lemma ref_fix r : refines (dbg_fix r) (fix_rot r).
Proof.
  destruct r; cbn [dbg_fix fix_rot]; try apply ref_refl.
  destruct (ref_aactor (mkAA (aangle a) (e_normalized (aaxis a)))) as [-> | ->]; [left|right]; reflexivity.
Qed.
Lemma ref_step p s o : refines (dbg_step p s o) (rstep p s o).
Proof.
  destruct o; cbn [dbg_step rstep]; auto using ref_inverted, ref_mult, ref_convert, ref_get_unique, ref_fix.
  - destruct (kind_of s); cbn [dbg_identity]; try apply ref_refl. apply (ref_map _ (Val (mkAA 0 (mkV3 1 0 0)))), ref_aactor.
  - apply ref_bind; [apply ref_mult|intros; apply ref_convert].
Qed.
Lemma ref_run p os : forall s, refines (dbg_run p s os) (rrun p s os).
Proof.
  induction os as [|o os IH]; intros s; cbn [dbg_run rrun]; [apply ref_refl|]. apply ref_bind; [apply ref_step|exact IH].
Qed.
Lemma ref_rotate p r v : refines (dbg_rotate p r v) (rotate p r v).
Proof. apply ref_bind; [apply ref_to_mat|intros; apply ref_refl]. Qed.
Lemma ref_inverseRotate p r v : refines (dbg_inverseRotate p r v) (inverseRotate p r v).
Proof. apply ref_bind; [apply ref_inverted|intros; apply ref_rotate]. Qed.
Lemma ref_disparity p l r : refines (dbg_disparity p l r) (disparity p l r).
Proof.
  apply ref_bind; [apply ref_inverted|intros]. apply ref_bind; [apply ref_mult|intros]. apply ref_bind; [apply ref_to_aa|intros; apply ref_refl].
Qed.
Lemma ref_isNear p l r t : refines (dbg_isNear p l r t) (isNear p l r t).
Proof. apply ref_bind; [apply ref_disparity|intros; apply ref_refl]. Qed.
Lemma ref_log p r : refines (dbg_logarithmicMap p r) (logarithmicMap p r).
Proof.
  apply ref_bind; [apply ref_to_rv|]. intros v.
  destruct (ref_get_unique p (RotVec v)) as [-> | ->]; [left|right]; reflexivity.
Qed.
Lemma ref_boxMinus p l r : refines (dbg_boxMinus p l r) (boxMinus p l r).
Proof. apply ref_bind; [apply ref_inverted|intros]. apply ref_bind; [apply ref_mult|intros; apply ref_log]. Qed.
Lemma ref_boxPlus p r v : refines (dbg_boxPlus p r v) (boxPlus p r v).
Proof. apply ref_bind; [apply ref_convert|intros]. apply ref_bind; [apply ref_mult|intros; apply ref_convert]. Qed.
Lemma ref_interpolate p l r t : refines (dbg_interpolate p l r t) (interpolate p l r t).
Proof. apply ref_bind; [apply ref_boxMinus|intros; apply ref_boxPlus]. Qed.
Lemma ref_setFromVectors p svd k a b : refines (dbg_setFromVectors p svd k a b) (setFromVectors p svd k a b).
Proof.
  unfold dbg_setFromVectors, setFromVectors. destruct (Req_EM_T _ _); [right; reflexivity|].
  apply (ref_ctor_bind _ (fun q' => dbg_convert p k (RotQuat q'))). intros q. apply ref_convert.
Qed.
Definition ref_opt {A} (d r : option (outcome A)) : Prop :=
  match d, r with Some d, Some r => refines d r | None, None => True | _, _ => False end.
Lemma ref_is_equal p l r : ref_opt (dbg_is_equal p l r) (is_equal p l r).
Proof.
  assert (U1 := ref_get_unique p l). assert (U2 := ref_get_unique p r).
  unfold is_equal.
  destruct l as [q|a|v|m|e|e]; cbn [dbg_is_equal get_unique ref_opt].
  - destruct r as [q'|a'|v'|m'|e'|e']; cbn [get_unique]; try exact I. cbn [get_unique] in U1, U2.
    destruct U1 as [-> | ->]; [|right; reflexivity]. cbn [obind]. destruct U2 as [-> | ->]; [left|right]; reflexivity.
  - destruct r as [q'|a'|v'|m'|e'|e']; cbn [get_unique]; try exact I. cbn [get_unique] in U1, U2.
    destruct U1 as [-> | ->]; [|right; reflexivity]. cbn [obind]. destruct U2 as [-> | ->]; [left|right]; reflexivity.
  - destruct U1 as [-> | ->]; [|right; reflexivity]. destruct U2 as [-> | ->]; [|right; reflexivity]. cbn [obind get_unique kind_of dbg_convert].
    destruct (ref_to_rv p (get_unique p r)) as [-> | ->]; [|right; reflexivity]. left. destruct (to_rv p (get_unique p r)); reflexivity.
  - destruct U1 as [-> | ->]; [|right; reflexivity]. destruct U2 as [-> | ->]; [|right; reflexivity]. cbn [obind get_unique kind_of dbg_convert].
    destruct (ref_to_mat p (get_unique p r)) as [-> | ->]; [|right; reflexivity]. left. destruct (to_mat p (get_unique p r)); reflexivity.
  - destruct U1 as [-> | ->]; [|right; reflexivity]. destruct U2 as [-> | ->]; [|right; reflexivity]. cbn [obind get_unique kind_of dbg_convert].
    destruct (ref_to_zyx p (get_unique p r)) as [-> | ->]; [|right; reflexivity]. left. destruct (to_zyx p (get_unique p r)); reflexivity.
  - destruct U1 as [-> | ->]; [|right; reflexivity]. destruct U2 as [-> | ->]; [|right; reflexivity]. cbn [obind get_unique kind_of dbg_convert].
    destruct (ref_to_xyz p (get_unique p r)) as [-> | ->]; [|right; reflexivity]. left. destruct (to_xyz p (get_unique p r)); reflexivity.
Qed.

(** ** checks that always pass *)
Lemma ctor_near q : Rabs (qnorm2 q - 1) <= / 10 ^ 4 -> dbg_quat_ctor q = Val q.
Proof.
  intros H. unfold dbg_quat_ctor. apply (proj1 (assert_near_iff (qnorm q) (/ 10 ^ 2) q (qnorm_nonneg q) ltac:(lra))).
  pose proof (qnorm_nonneg q) as N. pose proof (qnorm_sqr q) as Q. pose proof (Rmax_r (qnorm q) 1) as M.
  assert (Rabs (qnorm q - 1) <= / 10 ^ 4).
  { eapply Rle_trans; [|exact H]. rewrite <- Q. replace (qnorm q * qnorm q - 1) with ((qnorm q - 1) * (qnorm q + 1)) by ring.
    rewrite Rabs_mult, (Rabs_pos_eq (qnorm q + 1)) by lra. pose proof (Rabs_pos (qnorm q - 1)). nra. }
  replace (/ 10 ^ 2 / 10 ^ 2) with (/ 10 ^ 4) by (field; lra). assert (0 < / 10 ^ 4) by lra. nra.
Qed.
Lemma aactor_unit a : vnorm2 (aaxis a) = 1 -> dbg_aa_ctor a = Val a.
Proof.
  intros H. unfold dbg_aa_ctor. apply (proj1 (assert_near_iff (vnorm (aaxis a)) (/ 10 ^ 4) a (vnorm_nonneg _) ltac:(lra))).
  rewrite (proj2 (vnorm_unit _) H), Rminus_diag_eq, Rabs_R0, Rmax_left by lra. lra.
Qed.
Lemma e_aa_of_quat_unit q : vnorm2 (aaxis (e_aa_of_quat q)) = 1.
Proof.
  unfold e_aa_of_quat. pose proof (vnorm_sqr (qvec q)) as Q. destruct (Req_EM_T (vnorm (qvec q)) 0) as [E|E]; cbn [aaxis].
  - lin_unfold; ring.
  - assert (G : forall n, n <> 0 -> n * n = vnorm2 (qvec q) -> vnorm2 (mkV3 (qx q / n) (qy q / n) (qz q / n)) = 1).
    { intros n N0 N. replace (vnorm2 (mkV3 (qx q / n) (qy q / n) (qz q / n))) with (vnorm2 (qvec q) / (n * n))
        by (unfold vnorm2, vdot, qvec; cbn [vx vy vz]; field; exact N0). rewrite <- N. field. exact N0. }
    destruct (Rlt_dec (qw q) 0); apply G; lra.
Qed.
(** building an angle-axis from any other class never throws *)
Lemma dbg_to_aa_total p r : dbg_to_aa p r = to_aa p r.
Proof.
  destruct r as [q|a|v|m|e|e]; cbn [dbg_to_aa to_aa obind]; try reflexivity; try (apply aactor_unit, e_aa_of_quat_unit).
  - unfold rv_to_aa. destruct (Rlt_dec _ _) as [L|L]; [reflexivity|]. apply aactor_unit. cbn [aaxis].
    pose proof (dummy_pos p). assert (vnorm v <> 0) by lra. rewrite e_normalized_unit by assumption. apply vnorm2_unitize; assumption.
  - unfold e_aa_of_matrix. destruct (e_quat_of_matrix m); cbn [omap obind]; try reflexivity. apply aactor_unit, e_aa_of_quat_unit.
Qed.
(** so does converting any quaternion to any class *)
Lemma dbg_convert_quat p k q : dbg_convert p k (RotQuat q) = convert p k (RotQuat q).
Proof. destruct k; try reflexivity. cbn [dbg_convert convert]. rewrite dbg_to_aa_total. reflexivity. Qed.

(** objects whose quaternion the debug build accepts *)
Definition tame (p : prim) (r : rotation) : Prop := exists q, to_quat p r = Val q /\ Rabs (qnorm2 q - 1) <= / 10 ^ 5.
Lemma tame_quat p r : tame p r -> dbg_to_quat p r = to_quat p r.
Proof.
  intros (q & E & N). destruct r; try reflexivity; unfold dbg_to_quat; rewrite E; cbn [obind]; apply ctor_near; lra.
Qed.
Lemma tame_vec p v : tame p (RotVec v).
Proof.
  eexists; split; [reflexivity|]. destruct (rv_to_quat_near p v) as (U & _). pose proof (epsilon_small p).
  eapply Rle_trans; [exact U|]. lra.
Qed.
Lemma tame_valid p r : valid r -> tame p r.
Proof.
  intros V. destruct (to_quat_total p r V) as (q & E & U & _). exists q. split; [exact E|]. pose proof (eta_small p). lra.
Qed.
Lemma tame_near p nu d r m : 0 <= nu <= / 10 ^ 5 -> kind_of r <> KMat -> near nu d r m -> tame p r.
Proof.
  intros HN K H. destruct (to_quat_near p nu d r m (proj1 HN) K H) as (q & E & U & _). exists q. split; [exact E|].
  pose proof (eta_small p). destruct r; lra.
Qed.
Lemma tame_mat p q : Rabs (qnorm2 q - 1) <= / 10 ^ 6 -> tame p (RotMat (e_toRotationMatrix q)).
Proof.
  intros H. destruct (rt_near q (/ 10 ^ 6) H) as (q' & E & N & _); [lra|]. exists q'. split; [exact E|]. lra.
Qed.
Lemma tame_mild p nu d m r : nu <= / 10 ^ 6 -> mild nu d m r -> tame p r.
Proof.
  intros HN M. inversion M as [r' V C E|q U C E|q U C E]; subst r.
  - apply tame_valid, V.
  - exists q. split; [reflexivity|]. lra.
  - apply tame_mat. lra.
Qed.
Lemma tame_convert p k r : tame p r -> dbg_convert p k r = convert p k r.
Proof.
  intros T. pose proof (tame_quat p r T) as Q. destruct k; cbn [dbg_convert convert].
  - rewrite Q; reflexivity.
  - rewrite dbg_to_aa_total; reflexivity.
  - destruct r; cbn [dbg_to_rv]; rewrite ?Q, ?dbg_to_aa_total; reflexivity.
  - destruct r; cbn [dbg_to_mat]; rewrite ?Q; reflexivity.
  - destruct r; cbn [dbg_to_zyx]; rewrite ?Q; reflexivity.
  - destruct r as [q|a|v|m|e|e]; cbn [dbg_to_xyz]; rewrite ?Q; try reflexivity.
    rewrite dbg_to_aa_total. cbn [to_aa obind to_xyz]. destruct (rv_to_aa_near p v) as [U _].
    rewrite tame_quat by (apply tame_valid; exact U). reflexivity.
Qed.
Lemma tame_mult p l r : tame p l -> tame p r -> dbg_mult p l r = mult p l r.
Proof.
  intros Tl Tr. pose proof (tame_quat p l Tl) as Ql. pose proof (tame_quat p r Tr) as Qr.
  destruct Tl as (ql & El & Nl), Tr as (qr & Er & Nr).
  assert (C : dbg_quat_ctor (e_mul ql qr) = Val (e_mul ql qr)).
  { apply ctor_near. eapply Rle_trans; [apply (norm_mul ql qr (/ 10 ^ 5) (/ 10 ^ 5)); [lra|exact Nl|exact Nr]|]. lra. }
  assert (G : (ql <- dbg_to_quat p l ;; qr <- dbg_to_quat p r ;; q <- dbg_quat_ctor (e_mul ql qr) ;; dbg_convert p (kind_of l) (RotQuat q)) =
              (ql <- to_quat p l ;; qr <- to_quat p r ;; convert p (kind_of l) (RotQuat (e_mul ql qr)))).
  { rewrite Ql, Qr, El, Er. cbn [obind]. rewrite C. cbn [obind]. apply dbg_convert_quat. }
  destruct l, r; try exact G. reflexivity.
Qed.
(** axis checked exactly *)
Definition tame_aa (r : rotation) : Prop := match r with RotAA a => vnorm2 (aaxis a) = 1 | _ => True end.
Lemma zyx_unit e : qnorm2 (zyx_to_quat e) = 1.
Proof. destruct (to_quat_exact F64 (RotZyx e) I I) as (q & E & U & _). cbn in E. injection E as <-. exact U. Qed.
Lemma xyz_unit e : qnorm2 (xyz_to_quat e) = 1.
Proof. destruct (to_quat_exact F64 (RotXyz e) I I) as (q & E & U & _). cbn in E. injection E as <-. exact U. Qed.
Lemma abs_unit x : x = 1 -> Rabs (x - 1) <= / 10 ^ 4.
Proof. intros ->. rewrite Rminus_diag_eq, Rabs_R0 by reflexivity. lra. Qed.
Lemma vnorm2_vneg v : vnorm2 (vneg v) = vnorm2 v. Proof. destruct v; lin. Qed.
Lemma tame_inverted p r : tame p r -> tame_aa r -> dbg_inverted p r = inverted r.
Proof.
  intros T A. pose proof (tame_quat p r T) as Q. destruct r as [q|a|v|m|e|e]; cbn [dbg_inverted inverted]; try reflexivity.
  - destruct T as (q' & E & N). cbn in E. injection E as <-.
    rewrite ctor_near; [reflexivity|]. rewrite e_conjugate_conj, qnorm2_conj. lra.
  - rewrite aactor_unit; [reflexivity|]. cbn in A |- *. rewrite vnorm2_vneg. exact A.
  - rewrite Q. cbn [to_quat obind]. rewrite ctor_near; [reflexivity|]. rewrite e_conjugate_conj, qnorm2_conj. apply abs_unit, zyx_unit.
  - rewrite Q. cbn [to_quat obind]. rewrite ctor_near; [reflexivity|]. rewrite e_conjugate_conj, qnorm2_conj. apply abs_unit, xyz_unit.
Qed.
Lemma tame_aa_unique a : vnorm2 (aaxis a) = 1 -> dbg_aa_unique a = Val (aa_unique a).
Proof.
  intros A. unfold dbg_aa_unique. rewrite aactor_unit by exact A. cbn [obind aangle aaxis]. unfold aa_unique.
  assert (B : vnorm2 (vneg (aaxis a)) = 1) by (rewrite vnorm2_vneg; exact A).
  repeat match goal with |- context [Rlt_dec ?a ?b] => destruct (Rlt_dec a b) end; try reflexivity;
    try destruct (negb _); apply aactor_unit; assumption.
Qed.
Lemma tame_unique p r : tame p r -> tame_aa r -> dbg_get_unique p r = Val (get_unique p r).
Proof.
  intros T A. destruct r as [q|a|v|m|e|e]; cbn [dbg_get_unique get_unique]; try reflexivity.
  - destruct T as (q' & E & N). cbn in E. injection E as <-.
    assert (C : dbg_quat_ctor (qneg q) = Val (qneg q)) by (apply ctor_near; rewrite qnorm2_neg; lra).
    unfold dbg_quat_unique, quat_unique. repeat destruct (Rlt_dec _ _); rewrite ?C; reflexivity.
  - rewrite tame_aa_unique by exact A. reflexivity.
  - rewrite dbg_to_aa_total. cbn [to_aa obind]. rewrite tame_aa_unique by (apply rv_to_aa_near). reflexivity.
Qed.
Lemma valid_tame_aa r : valid r -> tame_aa r. Proof. destruct r; cbn; auto. Qed.
Lemma near_tame_aa nu d r m : near nu d r m -> tame_aa r. Proof. destruct r; cbn; tauto. Qed.
Lemma tame_fix p r : tame p r -> tame_aa r -> dbg_fix r = fix_rot r.
Proof.
  intros T A. destruct r as [q|a|v|m|e|e]; cbn [dbg_fix fix_rot]; try reflexivity.
  rewrite aactor_unit; [reflexivity|]. cbn [aaxis] in *. cbn in A.
  assert (vnorm (aaxis a) = 1) by (apply vnorm_unit, A). rewrite e_normalized_unit by lra. apply vnorm2_unitize. lra.
Qed.
Lemma dbg_identity_total k : dbg_identity k = Val (identity k).
Proof. destruct k; try reflexivity. cbn [dbg_identity]. rewrite aactor_unit; [reflexivity|]. cbn. lin_unfold; ring. Qed.
Lemma tame_rotate p r v : tame p r -> dbg_rotate p r v = rotate p r v.
Proof.
  intros T. pose proof (tame_convert p KMat r T) as C. cbn [dbg_convert convert] in C. unfold dbg_rotate, rotate.
  destruct (dbg_to_mat p r), (to_mat p r); cbn in C; try discriminate; [|reflexivity|reflexivity]. injection C as ->. reflexivity.
Qed.
Lemma tame_to_rv p r : tame p r -> dbg_to_rv p r = to_rv p r.
Proof.
  intros T. pose proof (tame_convert p KVec r T) as C. cbn [dbg_convert convert] in C.
  destruct (dbg_to_rv p r), (to_rv p r); cbn in C; try discriminate; [|reflexivity|reflexivity]. injection C as ->. reflexivity.
Qed.
Lemma tame_log p r : tame p r -> dbg_logarithmicMap p r = logarithmicMap p r.
Proof.
  intros T. unfold dbg_logarithmicMap, logarithmicMap. rewrite tame_to_rv by exact T. destruct (to_rv p r) as [v| |]; cbn [obind]; try reflexivity.
  rewrite tame_unique by (try apply tame_vec; exact I). reflexivity.
Qed.

(** ** the interface on legal rotations *)
Lemma dbg_inverted_valid p r : valid r -> dbg_inverted p r = inverted r.
Proof. intros V. apply tame_inverted; [apply tame_valid, V|apply valid_tame_aa, V]. Qed.
Lemma inverted_valid r : valid r -> exists i, inverted r = Val i /\ valid i.
Proof. intros V. destruct (inverted_exact r V) as (i & E & _ & Vi & _). eauto. Qed.
Lemma mult_tame p l r : valid l -> valid r -> exists s, mult p l r = Val s /\ tame p s.
Proof.
  intros Vl Vr. destruct (mult_mild p l r Vl Vr) as (s & E & _ & M). exists s. split; [exact E|].
  eapply tame_mild; [|exact M]. pose proof (eta_small p). lra.
Qed.
Lemma dbg_mult_valid p l r : valid l -> valid r -> dbg_mult p l r = mult p l r.
Proof. intros Vl Vr. apply tame_mult; apply tame_valid; assumption. Qed.
Lemma dbg_disparity_valid p l r : valid l -> valid r -> dbg_disparity p l r = disparity p l r.
Proof.
  intros Vl Vr. unfold dbg_disparity, disparity. rewrite dbg_inverted_valid by exact Vr. destruct (inverted_valid r Vr) as (i & -> & Vi). cbn [obind].
  rewrite dbg_mult_valid by assumption. destruct (mult p l i); cbn [obind]; try reflexivity. rewrite dbg_to_aa_total. reflexivity.
Qed.
Lemma dbg_boxMinus_valid p l r : valid l -> valid r -> dbg_boxMinus p l r = boxMinus p l r.
Proof.
  intros Vl Vr. unfold dbg_boxMinus, boxMinus. rewrite dbg_inverted_valid by exact Vr. destruct (inverted_valid r Vr) as (i & -> & Vi). cbn [obind].
  rewrite dbg_mult_valid by assumption. destruct (mult_tame p l i Vl Vi) as (s & -> & T). cbn [obind]. apply tame_log, T.
Qed.
Lemma dbg_convert_self p k s : kind_of s = k -> dbg_convert p k s = Val s.
Proof. intros <-. destruct s; reflexivity. Qed.
Lemma dbg_boxPlus_valid p r v : valid r -> dbg_boxPlus p r v = boxPlus p r v.
Proof.
  intros V. unfold dbg_boxPlus, boxPlus, dbg_exponentialMap, exponentialMap. rewrite (tame_convert p _ (RotVec v)) by apply tame_vec.
  destruct (convert_total_near p (kind_of r) (RotVec v) I) as (e & Ee & Ke & Ne). rewrite Ee. cbn [obind].
  assert (E : dbg_mult p e r = mult p e r).
  { destruct (kind_of r) eqn:K.
    4: { destruct r; try discriminate K. destruct e; try discriminate Ke. reflexivity. }
    all: apply tame_mult; [|apply tame_valid, V]; (apply (tame_near p (eta p) _ e _) in Ne; [exact Ne| |congruence]);
      pose proof (eta_small p); pose proof (eta_pos p); lra. }
  rewrite E. destruct (mult p e r) as [s| |] eqn:Es; cbn [obind]; try reflexivity.
  assert (Ks : kind_of s = kind_of r).
  { rewrite <- Ke. clear - Es.
    assert (G : forall (x : outcome Quat) (y : outcome Quat), (ql <- x ;; qr <- y ;; convert p (kind_of e) (RotQuat (e_mul ql qr))) = Val s -> kind_of s = kind_of e).
    { intros [x| |] [y| |]; cbn [obind]; try discriminate. intros E.
      destruct (kind_of e); cbn [convert to_quat to_aa to_mat to_zyx to_xyz omap obind] in E; try (injection E as <-; reflexivity).
      destruct (to_rv p (RotQuat (e_mul x y))); cbn in E; [injection E as <-; reflexivity|discriminate|discriminate]. }
    destruct e, r; try exact (G _ _ Es). injection Es as <-. reflexivity. }
  rewrite dbg_convert_self, convert_self by exact Ks. reflexivity.
Qed.
Lemma dbg_interpolate_valid p l r t : valid l -> valid r -> dbg_interpolate p l r t = interpolate p l r t.
Proof.
  intros Vl Vr. unfold dbg_interpolate, interpolate. rewrite dbg_boxMinus_valid by assumption.
  destruct (boxMinus p r l); cbn [obind]; try reflexivity. apply dbg_boxPlus_valid, Vl.
Qed.
Lemma unique_valid p r : valid r -> valid (get_unique p r).
Proof.
  intros V. destruct r as [q|a|v|m|e|e]; cbn [valid get_unique] in *; try exact I; try exact V.
  - rewrite (proj1 (quat_unique_ok q)). exact V.
  - apply aa_unique_ok, V.
Qed.
Lemma dbg_is_equal_valid p l r : valid l -> valid r -> dbg_is_equal p l r = is_equal p l r.
Proof.
  intros Vl Vr. pose proof (tame_unique p l (tame_valid p l Vl) (valid_tame_aa l Vl)) as U1.
  pose proof (tame_unique p r (tame_valid p r Vr) (valid_tame_aa r Vr)) as U2.
  assert (C : forall k, dbg_convert p k (get_unique p r) = convert p k (get_unique p r)) by (intros; apply tame_convert, tame_valid, unique_valid, Vr).
  unfold is_equal. destruct l as [q|a|v|m|e|e]; cbn [dbg_is_equal get_unique kind_of] in *.
  - destruct r as [q'|a'|v'|m'|e'|e']; cbn [get_unique] in *; try reflexivity. rewrite U1, U2. reflexivity.
  - destruct r as [q'|a'|v'|m'|e'|e']; cbn [get_unique] in *; try reflexivity. rewrite U1, U2. reflexivity.
  - rewrite U1, U2. cbn [obind]. rewrite C. cbn [convert]. destruct (to_rv p (get_unique p r)); reflexivity.
  - rewrite U1, U2. cbn [obind]. rewrite C. cbn [convert]. destruct (to_mat p (get_unique p r)); reflexivity.
  - rewrite U1, U2. cbn [obind]. rewrite C. cbn [convert]. destruct (to_zyx p (get_unique p r)); reflexivity.
  - rewrite U1, U2. cbn [obind]. rewrite C. cbn [convert]. destruct (to_xyz p (get_unique p r)); reflexivity.
Qed.
Lemma dbg_setFromVectors_ok p svd k a b : svd_null svd -> dbg_setFromVectors p svd k a b = setFromVectors p svd k a b.
Proof.
  intros S. unfold dbg_setFromVectors, setFromVectors. destruct (Req_EM_T (vnorm a * vnorm b) 0) as [Z|Z]; [reflexivity|].
  assert (Na : vnorm a <> 0) by (intro E; apply Z; rewrite E; ring). assert (Nb : vnorm b <> 0) by (intro E; apply Z; rewrite E; ring).
  assert (exists q, e_setFromTwoVectors p svd a b = Val q /\ qnorm2 q = 1) as (q & E & U).
  { rewrite e_setFromTwoVectors_unit by assumption.
    assert (Ua : vnorm2 (unit_of a) = 1) by (apply vnorm2_unitize; assumption).
    assert (Ub : vnorm2 (unit_of b) = 1) by (apply vnorm2_unitize; assumption).
    destruct (Rlt_or_le (vdot (unit_of b) (unit_of a)) (-1 + dummy_precision p)) as [L|L].
    - destruct (from_two_opposite p svd _ _ S Ua Ub L) as (q & E & Hq & _). eauto.
    - destruct (from_two_regular p svd _ _ Ua Ub L) as (q & E & Hq & _). eauto. }
  rewrite E. cbn [obind]. rewrite ctor_near by (apply abs_unit, U). cbn [obind]. apply dbg_convert_quat.
Qed.

(** ** histories *)
Lemma dbg_step_near p nu d s m o : 0 <= nu <= epsilon p -> kind_of s <> KMat -> SO3 m -> near nu d s m -> op_total (kind_of s) o ->
  dbg_step p s o = rstep p s o.
Proof.
  intros HN K S H O. pose proof (epsilon_small p) as ES.
  assert (T : tame p s) by (apply (tame_near p nu d s m); [lra|exact K|exact H]).
  assert (A : tame_aa s) by (eapply near_tame_aa, H).
  destruct o as [| |r|r|r| |]; cbn [dbg_step rstep op_total] in *.
  - apply dbg_identity_total.
  - apply tame_inverted; assumption.
  - apply tame_mult; [exact T|apply tame_valid, O].
  - destruct O as [V KO]. rewrite tame_mult by (try exact T; apply tame_valid, V).
    destruct (mult p r s) as [t| |] eqn:Et; cbn [obind]; try reflexivity. apply tame_convert.
    (* the product, before it is converted back *)
    destruct (to_quat_near p nu d s m (proj1 HN) K H) as (qs & Es & Us & Cs).
    destruct (to_quat_total p r V) as (qo & Eo & Uo & Co). pose proof (eta_small p) as ETS. pose proof (eta_pos p) as ETP. pose proof (epsilon_pos p) as EPP.
    assert (NSn : Rabs (qnorm2 qs - 1) <= 2 * epsilon p) by (destruct s; unfold eta in *; lra).
    assert (M : mult p r s = convert p (kind_of r) (RotQuat (e_mul qo qs))).
    { destruct r; try (cbn [mult]; rewrite Es, Eo; reflexivity). cbn [mult to_quat] in *. destruct s; try (rewrite Es, Eo; reflexivity). cbn in K; congruence. }
    assert (U : Rabs (qnorm2 (e_mul qo qs) - 1) <= 3 * epsilon p).
    { eapply Rle_trans; [apply (norm_mul qo qs (eta p) (2 * epsilon p)); [lra|exact Uo|exact NSn]|]. unfold eta; nra. }
    rewrite M in Et. destruct (kind_of r) eqn:Kr.
    4: { cbn in Et. injection Et as <-. apply tame_mat. lra. }
    all: destruct (convert_near p (kind_of r) (e_mul qo qs) (3 * epsilon p) U) as (t' & E' & Kt & Nt);
      [lra|intros _; pose proof (eps_dummy p); lra|];
      rewrite Kr in E'; rewrite Et in E'; injection E' as <-; (eapply tame_near; [| |exact Nt]; [lra|congruence]).
  - apply tame_convert, tame_valid, O.
  - apply tame_unique; assumption.
  - apply (tame_fix p); assumption.
Qed.
Lemma dbg_run_near p os : forall nu d s m, 0 <= nu -> nu + 3 * eta p * INR (length os) <= epsilon p -> kind_of s <> KMat -> SO3 m ->
  near nu d s m -> Forall (op_total (kind_of s)) os -> dbg_run p s os = rrun p s os.
Proof.
  pose proof (eta_pos p) as EP. pose proof (epsilon_pos p) as EPS.
  induction os as [|o os IH]; intros nu d s m HN HL K S H F; [reflexivity|].
  inversion F as [|? ? O F']; subst. cbn [length] in HL. rewrite S_INR in HL. pose proof (pos_INR (length os)) as P.
  assert (HN' : 0 <= nu <= epsilon p) by (split; [exact HN|nra]).
  destruct (rstep_near p nu d s m o HN' K S H O) as (t & E & Kt & N).
  cbn [dbg_run rrun]. rewrite (dbg_step_near p nu d s m o HN' K S H O), E. cbn [obind].
  apply (IH (nu + 3 * eta p) (d + 2 * dummy_precision p) t (spec_step m o)).
  - lra.
  - lra.
  - congruence.
  - eapply spec_step_SO3; eassumption.
  - unfold nstep in N. destruct (kind_of s) eqn:Ks; try (apply (near_nonquat 0); [congruence|exact N]). exact N.
  - rewrite Kt. exact F'.
Qed.
Lemma dbg_run_near_nonquat p os : forall d s m, kind_of s <> KMat -> kind_of s <> KQuat -> SO3 m ->
  near 0 d s m -> Forall (op_total (kind_of s)) os -> dbg_run p s os = rrun p s os.
Proof.
  pose proof (epsilon_pos p) as EPS.
  induction os as [|o os IH]; intros d s m K KQ S H F; [reflexivity|].
  inversion F as [|? ? O F']; subst.
  destruct (rstep_near p 0 d s m o ltac:(lra) K S H O) as (t & E & Kt & N).
  cbn [dbg_run rrun]. rewrite (dbg_step_near p 0 d s m o ltac:(lra) K S H O), E. cbn [obind].
  apply (IH (d + 2 * dummy_precision p) t (spec_step m o)); try congruence.
  - eapply spec_step_SO3; eassumption.
  - unfold nstep in N. destruct (kind_of s) eqn:Ks; try exact N. congruence.
Qed.
Lemma dbg_step_valid p s o : valid s -> step_ok p (kind_of s) (meaning s) o -> exact_operand p s -> dbg_step p s o = rstep p s o.
Proof.
  intros V [C O] X. assert (T := tame_valid p s V). assert (A := valid_tame_aa s V).
  destruct o as [| |r|r|r| |]; cbn [dbg_step rstep] in *.
  - apply dbg_identity_total.
  - apply tame_inverted; assumption.
  - apply tame_mult; [exact T|apply tame_valid, O].
  - destruct O as [[Vr Xr] O]. rewrite tame_mult by (try exact T; apply tame_valid, Vr).
    destruct (mult_tame p r s Vr V) as (t & -> & Tt). cbn [obind]. apply tame_convert, Tt.
  - apply tame_convert, tame_valid, O.
  - apply tame_unique; assumption.
  - apply (tame_fix p); assumption.
Qed.
Lemma dbg_run_exact p os : forall s, valid s -> exact_operand p s -> steps_ok p (kind_of s) (meaning s) os -> dbg_run p s os = rrun p s os.
Proof.
  induction os as [|o os IH]; intros s V X H; [reflexivity|]. destruct H as [H1 H2]. cbn [dbg_run rrun].
  rewrite dbg_step_valid by assumption. destruct (rstep_ok p s o V X H1) as (t & -> & Kt & Vt & Xt & Mt). cbn [obind].
  apply IH; [exact Vt|exact Xt|]. rewrite Kt, Mt. exact H2.
Qed.
