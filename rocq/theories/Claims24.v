(** Claims about getDisparityAngle, isNear, getUnique, exponentialMap, logarithmicMap,
    boxPlus, boxMinus and interpolate in floating-point arithmetic (C76). *)
From Coq Require Import ZArith Reals Lra Psatz Bool List Lia.
From Flocq Require Import IEEE754.BinarySingleNaN Core.Core.
From Verif Require Import Linalg Spec SpecFacts SpecClose ModelCommon ModelEigen CommonFacts CloseFacts MetricFacts PiBounds
  FloatModel FloatFacts FloatModel2 SpecFloatQ FloatQFacts FloatQProd FloatQHist FloatQRot FloatMHist FloatCast FloatModulo FloatWrap FloatModel3 SpecLibm SpecBuild FloatBuild FloatBuild2 FloatBuild3 FloatBuild4 FloatModel4 SpecExt FloatExt FloatExt2 FloatExt3 FloatExt4 FloatExt5 FloatExt6 FloatModel5 FloatModel6 FloatMat Claims21 FloatModel7 SpecSix FloatSix FloatFix FloatOHist FloatModel8 SpecBox FloatBox Claims16 Claims18 Claims19 Claims22.
Import ListNotations.
Local Open Scope R_scope.

Lemma SO3_left p A B (x : fobject p) k r : stands (64/10) A x r -> prod_limit p (okind_of x) k A B -> SO3 r.
Proof. intros H LIM. apply (stands_SO3 _ _ _ _ _ H). intro Q. rewrite Q in LIM. exact (prod_small_l _ _ _ _ LIM). Qed.
Lemma SO3_right p A B (y : fobject p) k r : stands (64/10) B y r -> prod_limit p k (okind_of y) A B -> SO3 r.
Proof. intros H LIM. apply (stands_SO3 _ _ _ _ _ H). intro Q. rewrite Q in LIM. exact (prod_small_r _ _ _ _ LIM). Qed.

(** C76: x.getDisparityAngle(y) for objects of any of the six classes is a number
    between 0 and the float pi; it is the angle between the two rotations up to 8/5
    of the errors of the difference x * y^-1 and of its conversion to AngleAxis, plus
    120 roundings, also where the angle is near 0 or near pi. *)
Lemma C76_disparity_lemma : forall (p : prim) (L : libm) (c : choices6) (ev : evaluation) (x y : fobject p) (rx ry : M33) (A B : R),
  libm_ok L -> choices6_ok c -> stands (64/10) A x rx -> stands (64/10) B y ry -> diff_limit p (okind_of x) (okind_of y) (KSrc SAA) A B ->
  let d := fdisparity L c ev x y in
  exists t, is_rotation_angle (mmul rx (mtrans ry)) t /\ is_finite d = true /\ 0 <= B2R d <= B2R (fcvt p fM_PI) /\
    Rabs (B2R d - t) <= 8/5 * diff_conv_error p (okind_of x) (okind_of y) (KSrc SAA) A B + 120 * roundoff p.
Proof.
  intros p L c ev x y rx ry A B HL HC Hx Hy LIM. cbv zeta. rewrite (roundoff_fu p).
  apply fdisparity_ok; try assumption; [exact (SO3_left _ _ _ _ _ _ Hx (proj1 LIM))|exact (SO3_right _ _ _ _ _ _ Hy (proj1 LIM))].
Qed.
Lemma C76_disparity_ex : libm_ok exact_libm /\ choices6_ok stdsix /\ stands (64/10) 6 (OQuat q345) (quat_rot (direction (qval q345))) /\ stands (64/10) 61 (OMat m345) (quat_rot (mkQ (3/5) (4/5) 0 0)) /\
  diff_limit F32 KQuat KMat (KSrc SAA) 6 61 /\ diff_limit F32 KMat KQuat (KSrc SAA) 2 6.
Proof.
  split; [apply exact_libm_ok|]. split; [apply stdsix_ok|]. split; [apply q345_stands|]. split; [apply m345_stands|].
  unfold diff_limit. cbn [prod_limit prod_defect conv_limit conv_defect extract_limit]. unfold qprod_defect, qjoint; cbn [conv_defect]. rewrite roundoff_fu, fu_32.
  pose proof (Rmin_l 6 (3 * 61 + 14)). pose proof (Rmin_r (3 * 2 + 14) 6). repeat split; lra.
Qed.

(** C76: isNear(other, tol) holds if the angle between the rotations is at most tol
    minus that error, and does not hold if it is more than tol plus that error. *)
Lemma C76_is_near_lemma : forall (p : prim) (L : libm) (c : choices6) (ev : evaluation) (x y : fobject p) (rx ry : M33) (A B t : R) (tol : fl p),
  libm_ok L -> choices6_ok c -> stands (64/10) A x rx -> stands (64/10) B y ry -> diff_limit p (okind_of x) (okind_of y) (KSrc SAA) A B ->
  is_finite tol = true -> is_rotation_angle (mmul rx (mtrans ry)) t ->
  let err := 8/5 * diff_conv_error p (okind_of x) (okind_of y) (KSrc SAA) A B + 120 * roundoff p in
  (t <= B2R tol - err -> fis_near L c ev x y tol = true) /\ (t > B2R tol + err -> fis_near L c ev x y tol = false).
Proof.
  intros p L c ev x y rx ry A B t tol HL HC Hx Hy LIM FT TA. cbv zeta.
  destruct (C76_disparity_lemma p L c ev x y rx ry A B HL HC Hx Hy LIM) as (t' & T' & F & _ & D). rewrite (angle_unique _ _ _ T' TA) in D. apply Rabs_both in D.
  unfold fis_near. rewrite (fle_R p) by assumption. split; intro H; [apply Rle_bool_true|apply Rle_bool_false]; lra.
Qed.
Lemma C76_is_near_ex : is_finite (flit F32 1 100) = true /\ is_rotation_angle (mmul mid (mtrans mid)) 0.
Proof. split; [vm_compute; reflexivity|]. replace (mmul mid (mtrans mid)) with mid by lin. apply angle_zero; [exact SO3_mid|reflexivity]. Qed.

(** C76: two RotationQuaternions whose norms are one up to 6 roundings (what fix()
    leaves): getDisparityAngle is off by at most 250 roundings, 1.5e-5 for float. *)
Lemma C76_quaternions_lemma : forall (p : prim) (L : libm) (c : choices6) (ev : evaluation) (a b : FQ p),
  libm_ok L -> choices6_ok c -> qfinite a -> qfinite b -> Rabs (qnorm (qval a) - 1) <= 6 * roundoff p -> Rabs (qnorm (qval b) - 1) <= 6 * roundoff p ->
  let d := fdisparity L c ev (OQuat a) (OQuat b) in
  exists t, is_rotation_angle (mmul (quat_rot (direction (qval a))) (mtrans (quat_rot (direction (qval b))))) t /\ is_finite d = true /\ Rabs (B2R d - t) <= 250 * roundoff p.
Proof.
  intros p L c ev a b HL HC Fa Fb Na Nb. cbv zeta. pose proof (fu_pos p) as U. pose proof (fu_24 p) as V.
  assert (LIM : diff_limit p KQuat KQuat (KSrc SAA) 6 6).
  { unfold diff_limit. cbn [prod_limit prod_defect conv_limit conv_defect extract_limit]. unfold qprod_defect, qjoint; cbn [conv_defect]. rewrite roundoff_fu. pose proof (Rmin_l 6 6). set (m := Rmin 6 6) in *.
    assert (M : 0 <= m) by (unfold m; apply Rmin_glb; lra). assert (m * fu p <= 6 * fu p) by (apply Rmult_le_compat_r; lra). repeat split; lra. }
  destruct (C76_disparity_lemma p L c ev (OQuat a) (OQuat b) _ _ 6 6 HL HC (Logic.conj Fa (Logic.conj Na eq_refl)) (Logic.conj Fb (Logic.conj Nb eq_refl)) LIM) as (t & T & F & _ & D).
  exists t. split; [exact T|]. split; [exact F|]. eapply Rle_trans; [exact D|]. unfold diff_conv_error, diff_error, conv_error, inv_error. cbn [okind_of prod_error prod_defect conv_defect conv_drop conv_roundings extract_roundings].
  unfold conv_error, qprod_roundings, qprod_defect, qjoint. cbn [conv_defect conv_roundings conv_drop]. rewrite !roundoff_fu. pose proof (Rmin_l 6 6). set (m := Rmin 6 6) in *. assert (m * fu p <= 6 * fu p) by (apply Rmult_le_compat_r; lra). lra.
Qed.
Lemma C76_quaternions_ex : qfinite q345 /\ Rabs (qnorm (qval q345) - 1) <= 6 * roundoff F32.
Proof. destruct q345_stands as (F & N & _). split; assumption. Qed.

(** C76: getUnique() of an AngleAxis: the angle is between 0 and the float pi, the
    axis is the old one, its negative, or the x axis, and the rotation changes by at
    most 132 roundings. *)
Lemma C76_unique_angle_axis_lemma : forall (p : prim) (ev : evaluation) (a : fl p) (n : FV p),
  object_ok (655/100) (SrcAA a n) ->
  let a' := fst (faa_unique ev a n) in let n' := snd (faa_unique ev a n) in
  is_finite a' = true /\ vfinite n' /\ 0 <= B2R a' <= B2R (fcvt p fM_PI) /\ (n' = n \/ n' = fvneg n \/ n' = funit_x p) /\
  close (132 * roundoff p) (turns (SrcAA a' n')) (turns (SrcAA a n)).
Proof. intros p ev a n H. cbv zeta. rewrite (roundoff_fu p). apply (faa_unique_ok p ev a n (655/100)); [lra|exact H]. Qed.
Lemma C76_unique_angle_axis_ex : match aa345 with SrcAA a n => object_ok (655/100) (SrcAA a n) | _ => False end.
Proof. apply (object_wider F32 (64/10)); [lra|]. apply aa345_object. Qed.
(** C76: getUnique() of a RotationVector of length at most 6.55: the length is at
    most pi + 170 roundings, and the rotation changes by at most 600 roundings, plus
    1.01e-5 (float) or 1.01e-12 (double). *)
Lemma C76_unique_vector_lemma : forall (p : prim) (ev : evaluation) (b : ext_orders) (v : FV p),
  ext_ok b -> vfinite v -> vnorm (vval v) <= 655/100 ->
  let v' := frv_unique ev b v in
  vfinite v' /\ vnorm (vval v') <= PI + 170 * roundoff p /\ close (unique_error p) (vec_rot (vval v')) (vec_rot (vval v)).
Proof. intros p ev b v H F N. cbv zeta. unfold unique_error. rewrite (roundoff_fu p). apply frv_unique_ok; [apply H|exact F|exact N]. Qed.
Lemma C76_unique_vector_ex : let v := mkFV (fofZ F32 4) (fofZ F32 3) (fofZ F32 0) in vfinite v /\ vnorm (vval v) = 5.
Proof.
  cbv zeta. split; [repeat split; vm_compute; reflexivity|].
  assert (E : vval (mkFV (fofZ F32 4) (fofZ F32 3) (fofZ F32 0)) = mkV3 4 3 0).
  { unfold vval; cbn [gx gy gz]. f_equal; [rewrite (B2R_of_SF F32 _ false 8388608 (-21)) by (vm_compute; reflexivity)|rewrite (B2R_of_SF F32 _ false 12582912 (-22)) by (vm_compute; reflexivity)]; unfold F2R; cbn [Fnum Fexp SpecFloat.cond_Zopp].
    - change (bpow radix2 (-21)) with (/ 2097152). lra.
    - change (bpow radix2 (-22)) with (/ 4194304). lra. }
  rewrite E. unfold vnorm, vnorm2, vdot; cbn [Linalg.vx Linalg.vy Linalg.vz]. replace (4 * 4 + 3 * 3 + 0 * 0) with (5 * 5) by ring. apply sqrt_square. lra.
Qed.

(** C76: logarithmicMap() of an object of any of the six classes is a finite vector
    of length at most pi + 170 roundings whose rotation is the one the object stands
    for, up to [log_error]. *)
Lemma C76_log_lemma : forall (p : prim) (L : libm) (c : choices6) (ev : evaluation) (x : fobject p) (r : M33) (A : R),
  libm_ok L -> choices6_ok c -> stands (64/10) A x r -> conv_limit p (okind_of x) (KSrc SRv) A ->
  let v := flog L c ev x in
  vfinite v /\ vnorm (vval v) <= PI + 170 * roundoff p /\ close (log_error p (okind_of x) A) (vec_rot (vval v)) r.
Proof. intros p L c ev x r A HL HC H LIM. cbv zeta. rewrite (roundoff_fu p). apply (flog_ok p L c ev A (64/10)); try assumption. lra. Qed.
Lemma C76_log_ex : libm_ok exact_libm /\ choices6_ok stdsix /\ stands (64/10) 6 (OQuat q345) (quat_rot (direction (qval q345))) /\ conv_limit F32 KQuat (KSrc SRv) 6.
Proof. split; [apply exact_libm_ok|]. split; [apply stdsix_ok|]. split; [apply q345_stands|]. cbn [conv_limit extract_limit]. lra. Qed.

(** C76: x.boxMinus(y) is the logarithm of rx * ry^-1 in the same sense. *)
Lemma C76_box_minus_lemma : forall (p : prim) (L : libm) (c : choices6) (ev : evaluation) (x y : fobject p) (rx ry : M33) (A B : R),
  libm_ok L -> choices6_ok c -> stands (64/10) A x rx -> stands (64/10) B y ry -> diff_limit p (okind_of x) (okind_of y) (KSrc SRv) A B ->
  let v := fbox_minus L c ev x y in
  vfinite v /\ vnorm (vval v) <= PI + 170 * roundoff p /\
  close (diff_error p (okind_of x) (okind_of y) A B + log_error p (okind_of x) (prod_defect (okind_of x) (okind_of y) A B)) (vec_rot (vval v)) (mmul rx (mtrans ry)).
Proof.
  intros p L c ev x y rx ry A B HL HC Hx Hy LIM. cbv zeta. rewrite (roundoff_fu p).
  apply fbox_minus_ok; try assumption; [exact (SO3_left _ _ _ _ _ _ Hx (proj1 LIM))|exact (SO3_right _ _ _ _ _ _ Hy (proj1 LIM))].
Qed.
Lemma C76_box_minus_ex : diff_limit F32 KQuat KQuat (KSrc SRv) 6 6 /\ diff_limit F32 (KSrc SZyx) KMat (KSrc SRv) 0 61 /\ diff_limit F32 KMat KMat (KSrc SRv) 2 2 /\
  stands (64/10) 0 (OMat (cyclic F32)) (mkM33 0 0 1 1 0 0 0 1 0).
Proof.
  unfold diff_limit. cbn [prod_limit prod_defect conv_limit conv_defect extract_limit]. unfold qprod_defect, qjoint, joint; cbn [conv_defect]. rewrite roundoff_fu, fu_32.
  pose proof (Rmin_l 6 6). pose proof (Rmin_l (166/5) (3 * 61 + 14)). pose proof (Rmin_l 2 2). repeat split; try lra; apply cyclic_stands.
Qed.

(** C76: x.boxPlus(v) has the class of x and stands for exp(v) * rx, up to
    [plus_defect] and [plus_error]; |v| at most 6.4. *)
Lemma C76_box_plus_lemma : forall (p : prim) (L : libm) (c : choices6) (x : fobject p) (r : M33) (A : R) (v : FV p),
  libm_ok L -> choices6_ok c -> stands (64/10) A x r -> vfinite v -> vnorm (vval v) <= 64/10 -> plus_limit p (okind_of x) A ->
  let z := fbox_plus L c x v in
  okind_of z = okind_of x /\
  exists r', stands (64/10 + 320 * roundoff p) (plus_defect (okind_of x) A) z r' /\ close (plus_error p (okind_of x) A) r' (mmul (vec_rot (vval v)) r).
Proof.
  intros p L c x r A v HL HC H Fv Hv LIM. cbv zeta. rewrite (roundoff_fu p). apply fbox_plus_ok; try assumption. exact (SO3_right _ _ _ _ _ _ H LIM).
Qed.
Lemma plus_limits p : plus_limit p KQuat 6 /\ plus_limit p KMat 61 /\ plus_limit p (KSrc SAA) 0 /\ plus_limit p (KSrc SRv) 0 /\ plus_limit p (KSrc SZyx) 0 /\ plus_limit p (KSrc SXyz) 0.
Proof.
  pose proof (fu_pos p) as U. pose proof (fu_24 p) as V. unfold plus_limit. cbn [prod_limit conv_limit conv_defect extract_limit]. unfold qprod_defect, qjoint; cbn [conv_defect]. rewrite roundoff_fu.
  pose proof (Rmin_r (166/5) 6). pose proof (Rmin_l (166/5) (166/5)). set (m := Rmin (166/5) 6) in *. set (k := Rmin (166/5) (166/5)) in *.
  assert (m * fu p <= 6 * fu p) by (apply Rmult_le_compat_r; lra). repeat split; lra.
Qed.
Lemma C76_box_plus_ex : forall p : prim, plus_limit p KQuat 6 /\ plus_limit p KMat 61 /\ plus_limit p (KSrc SAA) 0 /\ plus_limit p (KSrc SRv) 0 /\ plus_limit p (KSrc SZyx) 0 /\ plus_limit p (KSrc SXyz) 0.
Proof. exact plus_limits. Qed.

(** C76: y.boxPlus(x.boxMinus(y)) stands for the rotation of x. *)
Lemma C76_box_round_trip_lemma : forall (p : prim) (L : libm) (c1 c2 : choices6) (ev : evaluation) (x y : fobject p) (rx ry : M33) (A B : R),
  libm_ok L -> choices6_ok c1 -> choices6_ok c2 -> stands (64/10) A x rx -> stands (64/10) B y ry ->
  diff_limit p (okind_of x) (okind_of y) (KSrc SRv) A B -> plus_limit p (okind_of y) B ->
  let z := fbox_plus L c1 y (fbox_minus L c2 ev x y) in
  okind_of z = okind_of y /\
  exists r', stands (64/10 + 320 * roundoff p) (plus_defect (okind_of y) B) z r' /\
    close (plus_error p (okind_of y) B + (diff_error p (okind_of x) (okind_of y) A B + log_error p (okind_of x) (prod_defect (okind_of x) (okind_of y) A B))) r' rx.
Proof.
  intros p L c1 c2 ev x y rx ry A B HL H1 H2 Hx Hy LIM PL. cbv zeta. pose proof (fu_pos p) as U. pose proof (fu_24 p) as V. pose proof PI_num as PN.
  destruct (C76_box_minus_lemma p L c2 ev x y rx ry A B HL H2 Hx Hy LIM) as (F & N & C). rewrite roundoff_fu in N.
  destruct (C76_box_plus_lemma p L c1 y ry B (fbox_minus L c2 ev x y) HL H1 Hy F ltac:(lra) PL) as (K & r' & S & C'). split; [exact K|]. exists r'. split; [exact S|].
  pose proof (SO3_left _ _ _ _ _ _ Hx (proj1 LIM)) as Sx. pose proof (SO3_right _ _ _ _ _ _ Hy (proj1 LIM)) as Sy.
  eapply close_trans; [exact C'|]. assert (CC : close (diff_error p (okind_of x) (okind_of y) A B + log_error p (okind_of x) (prod_defect (okind_of x) (okind_of y) A B)) (mmul (vec_rot (vval (fbox_minus L c2 ev x y))) ry) (mmul (mmul rx (mtrans ry)) ry)) by (apply close_mul_r; [exact Sy|exact C]).
  replace (mmul (mmul rx (mtrans ry)) ry) with rx in CC by (rewrite <- mmul_assoc, (SO3_inv_l ry Sy), mmul_id_r; reflexivity). exact CC.
Qed.
Lemma C76_box_round_trip_ex : diff_limit F32 KQuat KQuat (KSrc SRv) 6 6 /\ plus_limit F32 KQuat 6 /\ stands (64/10) 6 (OQuat q345) (quat_rot (direction (qval q345))).
Proof. split; [apply C76_box_minus_ex|]. split; [apply plus_limits|apply q345_stands]. Qed.

(** ** interpolate *)
Lemma fclamp_R (r : fl F64) : is_finite r = true -> is_finite (fclamp r) = true /\ B2R (fclamp r) = Rmax 0 (Rmin 1 (B2R r)).
Proof.
  intro F. destruct (fofZ1 F64) as [F1 E1]. unfold fclamp. rewrite !(flt_R F64) by (try exact F; try exact F1; reflexivity). rewrite E1. change (B2R (@fzero F64)) with 0.
  destruct (Rlt_bool_spec 1 (B2R r)) as [H|H].
  - split; [exact F1|]. rewrite E1, Rmin_left by lra. symmetry. apply Rmax_right. lra.
  - destruct (Rlt_bool_spec (B2R r) 0) as [K|K].
    + split; [reflexivity|]. change (B2R (@fzero F64)) with 0. rewrite Rmin_right by lra. symmetry. apply Rmax_left. lra.
    + split; [exact F|]. rewrite Rmin_right by lra. symmetry. apply Rmax_right. lra.
Qed.
(** C76: x.interpolate(y, ratio) has the class of x and stands for exp(s v) * rx, where
    s is the ratio clamped to [0,1] and v = y.boxMinus(x); at ratio 1 (or more) this is
    the rotation of y. *)
Lemma C76_interpolate_lemma : forall (p : prim) (L : libm) (c : choices6) (ev : evaluation) (x y : fobject p) (rx ry : M33) (A B : R) (ratio : fl F64),
  libm_ok L -> choices6_ok c -> stands (64/10) A x rx -> stands (64/10) B y ry ->
  diff_limit p (okind_of y) (okind_of x) (KSrc SRv) B A -> plus_limit p (okind_of x) A -> is_finite ratio = true ->
  let v := vval (fbox_minus L c ev y x) in let s := Rmax 0 (Rmin 1 (B2R ratio)) in
  let z := finterpolate L c ev x y ratio in
  let verr := diff_error p (okind_of y) (okind_of x) B A + log_error p (okind_of y) (prod_defect (okind_of y) (okind_of x) B A) in
  vnorm v <= PI + 170 * roundoff p /\ close verr (mmul (vec_rot v) rx) ry /\
  okind_of z = okind_of x /\
  exists r', stands (64/10 + 320 * roundoff p) (plus_defect (okind_of x) A) z r' /\ close (plus_error p (okind_of x) A + 25 * roundoff p) r' (mmul (vec_rot (vscale s v)) rx).
Proof.
  intros p L c ev x y rx ry A B ratio HL HC Hx Hy LIM PL FR. cbv zeta. pose proof (fu_pos p) as U. pose proof (fu_24 p) as V. pose proof PI_num as PN. pose proof (eta_u7 p) as T7. pose proof (eta_pos p) as EP.
  destruct (C76_box_minus_lemma p L c ev y x ry rx B A HL HC Hy Hx LIM) as (F & N & C). split; [exact N|]. rewrite roundoff_fu in N.
  pose proof (SO3_right _ _ _ _ _ _ Hx (proj1 LIM)) as Sx.
  split.
  { assert (CC : close (diff_error p (okind_of y) (okind_of x) B A + log_error p (okind_of y) (prod_defect (okind_of y) (okind_of x) B A)) (mmul (vec_rot (vval (fbox_minus L c ev y x))) rx) (mmul (mmul ry (mtrans rx)) rx)) by (apply close_mul_r; [exact Sx|exact C]).
    replace (mmul (mmul ry (mtrans rx)) rx) with ry in CC by (rewrite <- mmul_assoc, (SO3_inv_l rx Sx), mmul_id_r; reflexivity). exact CC. }
  unfold finterpolate. set (v := fbox_minus L c ev y x) in *. destruct (fclamp_R ratio FR) as [Fc Ec]. set (s := Rmax 0 (Rmin 1 (B2R ratio))) in *.
  assert (S01 : 0 <= s <= 1). { split; [apply Rmax_l|]. unfold s. apply Rmax_lub; [lra|apply Rmin_l]. }
  destruct (fcvt_R F64 p (fclamp ratio) Fc) as [Et Ft]. { rewrite Ec, Rabs_pos_eq by lra. apply Rle_trans with (2 := four_fbig p). lra. }
  set (t := fcvt p (fclamp ratio)) in *. assert (Dt : Rabs (B2R t - s) <= fu p + eta p).
  { rewrite Et, Ec. eapply Rle_trans; [apply rnd_err_le|]. rewrite Rabs_pos_eq by lra. assert (fu p * s <= fu p * 1) by (apply Rmult_le_compat_l; lra). lra. }
  assert (T1 : Rabs (B2R t) <= 101/100). { apply Rabs_both in Dt. apply Rabs_le. lra. }
  pose proof (vn_nonneg (vval v)) as V0.
  destruct (fscale_err p t v (101/100) Ft F T1) as [Fw Ew].
  { apply Rle_trans with (bpow radix2 5); [change (bpow radix2 5) with 32; lra|apply bpow_le; lia]. }
  change (mkFV (fmul t (gx v)) (fmul t (gy v)) (fmul t (gz v))) with (fvscale t v) in *.
  assert (DV : vdist (vval (fvscale t v)) (vscale s (vval v)) <= 8 * fu p).
  { eapply Rle_trans; [apply (vdist_triang _ (vscale (B2R t) (vval v)))|].
    replace (vdist (vscale (B2R t) (vval v)) (vscale s (vval v))) with (Rabs (B2R t - s) * vnorm (vval v)).
    2: { unfold vdist. replace (vsub (vscale (B2R t) (vval v)) (vscale s (vval v))) with (vscale (B2R t - s) (vval v)) by lin. symmetry. apply vnorm_vscale. }
    assert (Rabs (B2R t - s) * vnorm (vval v) <= (fu p + eta p) * (316/100)) by (apply Rmult_le_compat; [apply Rabs_pos|lra|lra|lra]).
    assert (fu p * (101/100 * vnorm (vval v)) <= fu p * (32/10)) by (apply Rmult_le_compat_l; lra). lra. }
  assert (NW : vnorm (vval (fvscale t v)) <= 64/10).
  { pose proof (vnorm_diff (vval (fvscale t v)) (vscale s (vval v))) as DD. rewrite vnorm_vscale, (Rabs_pos_eq s) in DD by lra. apply Rabs_both in DD. assert (s * vnorm (vval v) <= 1 * vnorm (vval v)) by (apply Rmult_le_compat_r; lra). lra. }
  destruct (C76_box_plus_lemma p L c x rx A (fvscale t v) HL HC Hx Fw NW PL) as (K & r' & S & C'). split; [exact K|]. exists r'. split; [exact S|].
  eapply close_trans; [exact C'|]. apply close_mul_r; [exact Sx|]. rewrite roundoff_fu.
  change (vec_rot (vval (fvscale t v))) with (turns (SrcRv (fvscale t v))). rewrite turns_rv. destruct (rv_quat_ok (vscale s (vval v))) as [Q1 Q2]. rewrite <- Q2.
  eapply close_mono; [|apply from_qdist; [apply rv_quat_ok|exact Q1|eapply Rle_trans; [apply rv_quat_lipschitz|apply Rmult_le_compat_l; [lra|exact DV]]]]. lra.
Qed.
Lemma C76_interpolate_ex : diff_limit F32 KQuat KQuat (KSrc SRv) 6 6 /\ plus_limit F32 KQuat 6 /\ is_finite (flit F64 3 10) = true.
Proof. split; [apply C76_box_minus_ex|]. split; [apply plus_limits|vm_compute; reflexivity]. Qed.
