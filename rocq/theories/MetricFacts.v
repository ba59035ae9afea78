(** * MetricFacts: disparity angle, exponential/logarithm, box operators,
    interpolation. *)
From Coq Require Import Reals Lra Psatz Bool.
From Verif Require Import Linalg Spec SpecFacts ModelCommon ModelEigen ModelRotation CommonFacts ConvFacts RVFacts Windows RotFacts UniqueFacts.
Local Open Scope R_scope.

(** ** The rotation angle of a matrix (pure mathematics) *)
Lemma aa_rot_trace a : vnorm2 (aaxis a) = 1 -> mtrace (aa_rot a) = 1 + 2 * cos (aangle a).
Proof.
  intros H. destruct a as [t [x y z]]. cbn [aangle aaxis] in *.
  replace (mtrace (aa_rot (mkAA t (mkV3 x y z)))) with (3 * cos t + (1 - cos t) * vnorm2 (mkV3 x y z)).
  - rewrite H. ring.
  - spec_unfold; cbv beta; lin_unfold. ring.
Qed.
Lemma SO3_has_aa m : SO3 m -> exists a, vnorm2 (aaxis a) = 1 /\ 0 <= aangle a <= PI /\ aa_rot a = m.
Proof.
  intros H. destruct (SO3_has_quat m H) as (q & Hq & E).
  destruct (e_aa_of_quat_spec q Hq) as (U & R & _). exists (e_aa_of_quat q).
  split; [exact U|]. split; [exact R|]. rewrite <- E. apply e_aa_of_quat_rot, Hq.
Qed.
Lemma angle_exists m : SO3 m -> exists d, is_rotation_angle m d.
Proof.
  intros H. destruct (SO3_has_aa m H) as (a & U & R & E). exists (aangle a). split; [exact R|].
  rewrite <- E, aa_rot_trace by exact U. lra.
Qed.
Lemma angle_unique m d e : is_rotation_angle m d -> is_rotation_angle m e -> d = e.
Proof. intros [R1 E1] [R2 E2]. apply cos_inj; lra. Qed.
Lemma mtrace_trans m : mtrace (mtrans m) = mtrace m.
Proof. destruct m; lin. Qed.
Lemma angle_trans m d : is_rotation_angle m d -> is_rotation_angle (mtrans m) d.
Proof. intros [R E]. split; [exact R|]. rewrite mtrace_trans. exact E. Qed.
Lemma mtrace_comm a b : mtrace (mmul a b) = mtrace (mmul b a).
Proof. destruct a, b; lin. Qed.
Lemma angle_conj g m d : SO3 g -> is_rotation_angle m d -> is_rotation_angle (mmul g (mmul m (mtrans g))) d.
Proof.
  intros H [R E]. split; [exact R|]. rewrite mtrace_comm, <- mmul_assoc, SO3_inv_l, mmul_id_r by exact H. exact E.
Qed.
Lemma angle_aa a : vnorm2 (aaxis a) = 1 -> 0 <= aangle a <= PI -> is_rotation_angle (aa_rot a) (aangle a).
Proof. intros U R. split; [exact R|]. rewrite aa_rot_trace by exact U. lra. Qed.
Lemma angle_zero m : SO3 m -> (is_rotation_angle m 0 <-> m = mid).
Proof.
  intros H. split.
  - intros K. destruct (SO3_has_aa m H) as (a & U & R & E).
    assert (aangle a = 0) as Z.
    { apply (angle_unique m); [|exact K]. rewrite <- E. apply angle_aa; assumption. }
    rewrite <- E. destruct a as [t n]; cbn [aangle] in Z. subst t. apply aa_rot_0_id.
  - intros ->. split; [pose proof PI_RGT_0; lra|]. rewrite cos_0. lin_unfold. lra.
Qed.
Lemma cauchy3 a b : vnorm2 a = 1 -> vnorm2 b = 1 -> -1 <= vdot a b <= 1.
Proof.
  intros Ha Hb. destruct a as [x y z], b as [u v w]; lin_unfold.
  pose proof (Rle_0_sqr (x - u)); pose proof (Rle_0_sqr (y - v)); pose proof (Rle_0_sqr (z - w)).
  pose proof (Rle_0_sqr (x + u)); pose proof (Rle_0_sqr (y + v)); pose proof (Rle_0_sqr (z + w)).
  unfold Rsqr in *. split; lra.
Qed.
(** angle of a product <= sum of angles *)
Lemma angle_subadd a b d1 d2 d3 : SO3 a -> SO3 b ->
  is_rotation_angle a d1 -> is_rotation_angle b d2 -> is_rotation_angle (mmul a b) d3 -> d3 <= d1 + d2.
Proof.
  intros Ha Hb A1 A2 A3.
  destruct (SO3_has_aa a Ha) as (u & Uu & Ru & Eu). destruct (SO3_has_aa b Hb) as (v & Uv & Rv & Ev).
  assert (aangle u = d1) by (apply (angle_unique a); [rewrite <- Eu; apply angle_aa; assumption|exact A1]).
  assert (aangle v = d2) by (apply (angle_unique b); [rewrite <- Ev; apply angle_aa; assumption|exact A2]).
  destruct u as [s m], v as [t n]; cbn [aangle aaxis] in *. subst s t.
  rewrite <- half_quat_rot in Eu, Ev by assumption.
  set (q := hamilton (half_quat d1 m) (half_quat d2 n)).
  assert (Mq : quat_rot q = mmul a b) by (unfold q; rewrite quat_rot_hamilton, Eu, Ev; reflexivity).
  assert (Hq : qnorm2 q = 1) by (unfold q; rewrite hamilton_norm, !half_quat_norm by assumption; ring).
  assert (Wq : qw q = cos (d1/2) * cos (d2/2) - sin (d1/2) * sin (d2/2) * vdot m n).
  { unfold q, half_quat, hamilton, vdot, qvec; cbv zeta; destruct m as [mx my mz], n as [nx ny nz]; cbn [qw qx qy qz vx vy vz]; unfold vdot; cbn [vx vy vz]; ring. }
  pose proof (cauchy3 m n Uu Uv) as CS.
  assert (S1 : 0 <= sin (d1/2)) by (apply sin_ge_0; lra).
  assert (S2 : 0 <= sin (d2/2)) by (apply sin_ge_0; lra).
  assert (LB : cos ((d1 + d2)/2) <= qw q).
  { rewrite Wq. replace ((d1 + d2)/2) with (d1/2 + d2/2) by field. rewrite cos_plus.
    assert (0 <= sin (d1/2) * sin (d2/2)) by (apply Rmult_le_pos; assumption). nra. }
  destruct (Rle_or_lt d3 (d1 + d2)) as [G|G]; [exact G|exfalso].
  destruct A3 as [R3 E3]. rewrite <- Mq in E3.
  assert (C3 : cos (d3/2) * cos (d3/2) = qw q * qw q).
  { pose proof (quat_trace q Hq) as T. rewrite (double_cos d3) in E3.
    pose proof (sin2_cos2' (d3/2)). lra. }
  assert (P3 : 0 <= cos (d3/2)) by (apply cos_ge_0; lra).
  assert (L : cos (d3/2) < cos ((d1+d2)/2)) by (apply cos_decreasing_1; lra).
  nra.
Qed.

(** ** Windows *)
Lemma vec_rot_trace v : mtrace (vec_rot v) = 1 + 2 * cos (vnorm v).
Proof.
  destruct (Req_dec (vnorm v) 0) as [Z|Z].
  - rewrite Z, cos_0. apply vnorm_zero in Z. subst v. rewrite vec_rot_zero. lin_unfold. ring.
  - rewrite vec_rot_aa by exact Z. rewrite aa_rot_trace; [reflexivity|]. apply vnorm2_unitize, Z.
Qed.
Lemma sin_le_x x : 0 <= x -> sin x <= x.
Proof. intros [H|<-]; [left; apply sin_lt_x, H|rewrite sin_0; lra]. Qed.
Lemma regular_vec p v : regular_angle p (vec_rot v) -> v = vzero \/ dummy_precision p <= vnorm v.
Proof.
  intros H. pose proof (vnorm_nonneg v) as Nn. pose proof (dummy_pos p) as P. pose proof (dummy_small p) as Q.
  destruct (Req_dec (vnorm v) 0) as [Z|Z]; [left; apply vnorm_zero, Z|right].
  destruct (Rle_or_lt (dummy_precision p) (vnorm v)) as [G|G]; [exact G|exfalso].
  pose proof PI2_1.
  destruct H as [H|H].
  - pose proof (vec_rot_trace v) as T. rewrite H in T.
    assert (C : cos (vnorm v) = 1) by (unfold mtrace, mid in T; cbn in T; lra).
    assert (vnorm v = 0) by (apply cos_inj; [lra|lra|rewrite cos_0; exact C]). contradiction.
  - rewrite vec_rot_trace in H. rewrite (double_cos (vnorm v)) in H.
    pose proof (sin2_cos2' (vnorm v / 2)).
    assert (S : 0 <= sin (vnorm v / 2)) by (apply sin_ge_0; lra).
    pose proof (sin_le_x (vnorm v / 2) ltac:(lra)).
    assert (sin (vnorm v/2) * sin (vnorm v/2) <= vnorm v / 2 * (vnorm v / 2)) by nra.
    nra.
Qed.
Lemma clear_regular p m : clear_angle p m -> regular_angle p m.
Proof.
  intros [->|H]; [left; reflexivity|right].
  pose proof (eps4_pos p) as P. pose proof (eps4_small p) as Q. pose proof (eps4_pow p) as E.
  set (e := eps4throot p) in *.
  pose proof PI2_1.
  rewrite (double_cos e) in H. pose proof (sin2_cos2' (e/2)).
  pose proof (sin_lo (e/2) ltac:(lra)) as L.
  assert (e * e <= 1) by nra.
  assert (L2 : e * (2/5) <= sin (e/2)) by nra.
  assert (e * (2/5) * (e * (2/5)) <= sin (e/2) * sin (e/2)) by nra.
  assert (K : dummy_precision p * 25 / 4 <= e * e).
  { destruct (Rle_or_lt (dummy_precision p * 25 / 4) (e*e)) as [G|G]; [exact G|exfalso].
    assert (E4 : e ^ 4 < (dummy_precision p * 25/4) * (dummy_precision p * 25/4)).
    { replace (e^4) with ((e*e)*(e*e)) by ring. assert (0 < e * e) by nra. nra. }
    rewrite E in E4. unfold epsilon, dummy_precision in *; destruct p; lra. }
  lra.
Qed.
Lemma clear_vec p v : canonical_vec v -> clear_angle p (vec_rot v) -> v = vzero \/ eps4throot p <= vnorm v.
Proof.
  intros C H. pose proof (vnorm_nonneg v) as Nn. pose proof (canonical_vec_norm v C) as Np.
  pose proof (eps4_pos p) as P. pose proof (eps4_small p) as Q. pose proof PI2_1.
  destruct (Req_dec (vnorm v) 0) as [Z|Z]; [left; apply vnorm_zero, Z|right].
  destruct (Rle_or_lt (eps4throot p) (vnorm v)) as [G|G]; [exact G|exfalso].
  destruct H as [H|H].
  - destruct (regular_vec p v (or_introl H)) as [K|K]; [subst; rewrite vnorm_vzero in Z; lra|].
    pose proof (vec_rot_trace v) as T. rewrite H in T.
    assert (C1 : cos (vnorm v) = 1) by (unfold mtrace, mid in T; cbn in T; lra).
    assert (vnorm v = 0) by (apply cos_inj; [lra|lra|rewrite cos_0; exact C1]). contradiction.
  - rewrite vec_rot_trace in H.
    assert (cos (eps4throot p) < cos (vnorm v)) by (apply cos_decreasing_1; lra). lra.
Qed.
Lemma canonical_vec_angle v : canonical_vec v -> is_rotation_angle (vec_rot v) (vnorm v).
Proof.
  intros C. split; [split; [apply vnorm_nonneg|apply canonical_vec_norm, C]|]. rewrite vec_rot_trace. lra.
Qed.

(** ** Disparity *)
Lemma to_aa_exact p r : valid r -> exact_conversion p KAA r ->
  exists a, to_aa p r = Val a /\ vnorm2 (aaxis a) = 1 /\ aa_rot a = meaning r.
Proof.
  intros V X. destruct (convert_exact p KAA r V X) as (r' & E & K & V' & M). cbn [convert] in E.
  destruct (to_aa p r) as [a| |]; cbn [omap] in E; try discriminate. injection E as <-.
  exists a. repeat split; assumption.
Qed.
Lemma regular_to_aa p r : regular_angle p (meaning r) -> exact_conversion p KAA r.
Proof. destruct r; cbn; try (intros; exact I). apply regular_vec. Qed.
Lemma wrap_abs_angle m t : 2 * cos t = mtrace m - 1 ->
  is_rotation_angle m (Rabs (floatingPointModulo (t + PI) (2 * PI) - PI)).
Proof.
  intros E. change (floatingPointModulo (t + PI) (2 * PI) - PI) with (wrapPosNegPI t).
  pose proof (wrapPosNegPI_range t) as R. pose proof (same_angle_trig _ _ (wrapPosNegPI_same t)) as [_ C].
  split.
  - split; [apply Rabs_pos|]. apply Rabs_le. lra.
  - unfold Rabs. destruct (Rcase_abs (wrapPosNegPI t)); rewrite ?cos_neg, C; exact E.
Qed.
Lemma exact_to_aa p k m s : kind_of s = k -> meaning s = m -> exact_result p k m -> exact_conversion p KAA s.
Proof. intros <- <- X. destruct s; cbn in *; try exact I. apply regular_vec, X; reflexivity. Qed.

Lemma disparity_exact p l r : valid l -> valid r -> exact_operand p l -> exact_operand p r ->
  exact_result p (kind_of l) (mmul (meaning l) (mtrans (meaning r))) ->
  exists d, disparity p l r = Val d /\ is_rotation_angle (mmul (meaning l) (mtrans (meaning r))) d.
Proof.
  intros Vl Vr Xl Xr Y. unfold disparity.
  destruct (inverted_exact r Vr) as (ri & Ei & Ki & Vi & Mi). rewrite Ei; cbn [obind].
  destruct (mult_exact p l ri Vl Vi Xl (inverted_operand p r ri Ei Xr)) as (d & Ed & Kd & Vd & Md).
  { rewrite Mi. exact Y. }
  rewrite Ed; cbn [obind]. rewrite Mi in Md.
  destruct (to_aa_exact p d Vd) as (a & Ea & Ua & Ma).
  { eapply exact_to_aa; eassumption. }
  rewrite Ea; cbn [obind]. eexists; split; [reflexivity|].
  apply wrap_abs_angle. rewrite <- Md, <- Ma, aa_rot_trace by exact Ua. ring.
Qed.

(** ** Exponential / logarithm / box *)
Lemma log_exact p r : valid r -> regular_angle p (meaning r) ->
  exists v, logarithmicMap p r = Val v /\ vec_rot v = meaning r /\ canonical_vec v.
Proof.
  intros V X. destruct (convert_exact p KVec r V) as (r' & E & K & V' & M).
  { destruct r; cbn; try exact I; exact X. }
  unfold logarithmicMap. cbn [convert] in E. destruct (to_rv p r) as [v| |]; cbn [omap] in E; try discriminate.
  injection E as <-. cbn [meaning] in M. cbn [obind].
  destruct (rv_unique_ok p v) as [R C]. { apply regular_vec. rewrite M. exact X. }
  eexists; split; [reflexivity|]. rewrite R. split; assumption.
Qed.
Lemma exp_exact p k v : exact_conversion p k (RotVec v) ->
  exists r, exponentialMap p k v = Val r /\ kind_of r = k /\ valid r /\ meaning r = vec_rot v.
Proof. intros X. apply (convert_exact p k (RotVec v)); [exact I|exact X]. Qed.

Lemma boxMinus_exact p l r : valid l -> valid r -> exact_operand p l -> exact_operand p r ->
  regular_angle p (mmul (meaning l) (mtrans (meaning r))) ->
  exists v, boxMinus p l r = Val v /\ vec_rot v = mmul (meaning l) (mtrans (meaning r)) /\ canonical_vec v.
Proof.
  intros Vl Vr Xl Xr Y. unfold boxMinus.
  destruct (inverted_exact r Vr) as (ri & Ei & Ki & Vi & Mi). rewrite Ei; cbn [obind].
  destruct (mult_exact p l ri Vl Vi Xl (inverted_operand p r ri Ei Xr)) as (d & Ed & Kd & Vd & Md).
  { rewrite Mi. intros _. exact Y. }
  rewrite Ed; cbn [obind]. rewrite Mi in Md. rewrite <- Md. apply log_exact; [exact Vd|]. rewrite Md. exact Y.
Qed.

Lemma convert_same p r : convert p (kind_of r) r = Val r.
Proof. destruct r; reflexivity. Qed.

Lemma boxPlus_exact p r v : valid r -> exact_operand p r -> exact_operand p (RotVec v) ->
  exact_result p (kind_of r) (mmul (vec_rot v) (meaning r)) ->
  exists s, boxPlus p r v = Val s /\ kind_of s = kind_of r /\ valid s /\ meaning s = mmul (vec_rot v) (meaning r).
Proof.
  intros V X Xv Y. unfold boxPlus.
  destruct (exp_exact p (kind_of r) v) as (e & Ee & Ke & Ve & Me).
  { destruct (kind_of r) eqn:K; cbn; try exact I; try exact Xv; cbn in Xv; pose proof (dummy_le_eps4 p);
      destruct Xv as [Xv|Xv]; [left; exact Xv|right; lra|left; exact Xv|right; lra]. }
  rewrite Ee; cbn [obind].
  assert (Xe : exact_operand p e).
  { destruct (kind_of r) eqn:K; destruct e; try discriminate Ke; try exact I.
    cbn in Ee. injection Ee as <-. exact Xv. }
  destruct (mult_exact p e r Ve V Xe X) as (s & Es & Ks & Vs & Ms).
  { rewrite Ke, Me. exact Y. }
  rewrite Es; cbn [obind]. rewrite <- Ke, <- Ks, convert_same.
  exists s. split; [reflexivity|]. split; [reflexivity|]. split; [exact Vs|]. congruence.
Qed.

Lemma mmul_cancel a b : SO3 b -> mmul (mmul a (mtrans b)) b = a.
Proof. intros H. rewrite <- mmul_assoc, SO3_inv_l, mmul_id_r by exact H. reflexivity. Qed.
Lemma mmul_cancel' a b : SO3 b -> mmul (mmul a b) (mtrans b) = a.
Proof. intros H. rewrite <- mmul_assoc, SO3_inv_r, mmul_id_r by exact H. reflexivity. Qed.

Lemma boxPlus_boxMinus p a b : valid a -> valid b -> exact_operand p a -> exact_operand p b ->
  clear_angle p (mmul (meaning b) (mtrans (meaning a))) -> exact_result p (kind_of a) (meaning b) ->
  exists v s, boxMinus p b a = Val v /\ boxPlus p a v = Val s /\ kind_of s = kind_of a /\ valid s /\
              meaning s = meaning b.
Proof.
  intros Va Vb Xa Xb Y Z.
  destruct (boxMinus_exact p b a Vb Va Xb Xa (clear_regular _ _ Y)) as (v & Ev & Mv & Cv).
  pose proof (meaning_SO3 a Va) as Sa.
  destruct (boxPlus_exact p a v Va Xa) as (s & Es & Ks & Vs & Ms).
  { apply (clear_vec p v Cv). rewrite Mv. exact Y. }
  { rewrite Mv, mmul_cancel by exact Sa. exact Z. }
  exists v, s. rewrite Ms, Mv, mmul_cancel by exact Sa. repeat split; assumption.
Qed.

Lemma boxMinus_boxPlus p a v : valid a -> exact_operand p a -> exact_operand p (RotVec v) -> vnorm v < PI ->
  exact_result p (kind_of a) (mmul (vec_rot v) (meaning a)) ->
  (forall s, boxPlus p a v = Val s -> exact_operand p s) ->
  regular_angle p (vec_rot v) ->
  exists s, boxPlus p a v = Val s /\ boxMinus p s a = Val v.
Proof.
  intros Va Xa Xv Nv Y Xs Rv. destruct (boxPlus_exact p a v Va Xa Xv Y) as (s & Es & Ks & Vs & Ms).
  exists s. split; [exact Es|]. pose proof (meaning_SO3 a Va) as Sa.
  assert (MM : mmul (meaning s) (mtrans (meaning a)) = vec_rot v).
  { rewrite Ms, mmul_cancel' by exact Sa. reflexivity. }
  destruct (boxMinus_exact p s a Vs Va (Xs _ Es) Xa) as (w & Ew & Mw & Cw).
  { rewrite MM. exact Rv. }
  rewrite Ew. f_equal. apply canonical_vec_eq; [exact Cw|left; exact Nv|]. rewrite Mw. exact MM.
Qed.
Lemma exact_vec_regular p v : exact_operand p (RotVec v) -> vnorm v <= PI -> regular_angle p (vec_rot v).
Proof.
  intros [->|H] N; [left; apply vec_rot_zero|]. apply clear_regular. right. rewrite vec_rot_trace.
  pose proof (eps4_pos p). pose proof (eps4_small p). pose proof PI2_1.
  assert (cos (vnorm v) <= cos (eps4throot p)) by (apply cos_decr_1; lra). lra.
Qed.

(** ** Interpolation *)
Definition clamp01 (x : R) : R := if Rlt_dec 1 x then 1 else if Rlt_dec x 0 then 0 else x.
Lemma clamp01_range x : 0 <= clamp01 x <= 1.
Proof. unfold clamp01. destruct (Rlt_dec 1 x); [lra|]. destruct (Rlt_dec x 0); lra. Qed.
Lemma clamp01_Rmax x : clamp01 x = Rmax 0 (Rmin 1 x).
Proof.
  unfold clamp01. destruct (Rlt_dec 1 x); [rewrite Rmin_left, Rmax_right; lra|].
  rewrite (Rmin_right 1 x) by lra.
  destruct (Rlt_dec x 0); [rewrite Rmax_left; lra|rewrite Rmax_right; lra].
Qed.
Lemma canonical_scale c v : 0 <= c <= 1 -> canonical_vec v -> canonical_vec (vscale c v).
Proof.
  intros Hc C. pose proof (vnorm_nonneg v) as N. pose proof PI_RGT_0.
  unfold canonical_vec. rewrite vnorm_vscale, Rabs_right by lra.
  destruct C as [C|[C L]]; [left; nra|].
  destruct (Req_dec c 1) as [->|D]; [right; split; [lra|]|left; nra].
  apply lexpos_scale; [lra|exact L].
Qed.
Lemma interpolate_exact p a b ratio : valid a -> valid b -> exact_operand p a -> exact_operand p b ->
  regular_angle p (mmul (meaning b) (mtrans (meaning a))) ->
  (forall v, boxMinus p b a = Val v ->
     exact_operand p (RotVec (vscale (clamp01 ratio) v)) /\
     exact_result p (kind_of a) (mmul (vec_rot (vscale (clamp01 ratio) v)) (meaning a))) ->
  exists v s, boxMinus p b a = Val v /\ canonical_vec v /\ vec_rot v = mmul (meaning b) (mtrans (meaning a)) /\
    interpolate p a b ratio = Val s /\ kind_of s = kind_of a /\ valid s /\
    meaning s = mmul (vec_rot (vscale (clamp01 ratio) v)) (meaning a) /\
    is_rotation_angle (mmul (meaning s) (mtrans (meaning a))) (clamp01 ratio * vnorm v).
Proof.
  intros Va Vb Xa Xb Y Z.
  destruct (boxMinus_exact p b a Vb Va Xb Xa Y) as (v & Ev & Mv & Cv).
  destruct (Z v Ev) as [Z1 Z2].
  destruct (boxPlus_exact p a _ Va Xa Z1 Z2) as (s & Es & Ks & Vs & Ms).
  exists v, s. split; [exact Ev|]. split; [exact Cv|]. split; [exact Mv|].
  unfold interpolate. rewrite Ev; cbn [obind]. split; [exact Es|]. split; [exact Ks|]. split; [exact Vs|].
  split; [exact Ms|]. rewrite Ms, mmul_cancel' by (apply meaning_SO3, Va).
  pose proof (clamp01_range ratio) as CR.
  replace (clamp01 ratio * vnorm v) with (vnorm (vscale (clamp01 ratio) v))
    by (rewrite vnorm_vscale, Rabs_right by lra; reflexivity).
  apply canonical_vec_angle, canonical_scale; assumption.
Qed.
