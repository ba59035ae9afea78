(** Rounding errors of toRotationMatrix, of matrix-vector and of matrix products. *)
From Coq Require Import Reals ZArith Bool List Permutation Lra Lia Psatz.
From Flocq Require Import IEEE754.BinarySingleNaN Core.Core.
From Verif Require Import Linalg Spec SpecFacts ModelCommon ModelEigen SpecClose CloseFacts NearUnit FloatModel FloatFacts FloatModulo FloatWrap FloatModel2 SpecFloatQ FloatQFacts FloatQProd FloatQHist.
Import ListNotations.
Local Open Scope R_scope.

Lemma dotabs3 a0 a1 a2 b0 b1 b2 :
  0 <= dotabs [a0; a1; a2] [b0; b1; b2] <= vnorm (mkV3 a0 a1 a2) * vnorm (mkV3 b0 b1 b2).
Proof.
  split; [apply rsum_nonneg; intro; apply Rabs_pos|].
  replace (vnorm (mkV3 a0 a1 a2)) with (vnorm (mkV3 (Rabs a0) (Rabs a1) (Rabs a2))).
  replace (vnorm (mkV3 b0 b1 b2)) with (vnorm (mkV3 (Rabs b0) (Rabs b1) (Rabs b2))).
  eapply Rle_trans; [|apply cauchy_schwarz]. unfold dotabs, vdot; cbn. rewrite !Rabs_mult. lra.
  all: unfold vnorm, vnorm2, vdot; cbn [vx vy vz]; f_equal; rewrite <- !Rabs_mult, !Rabs_pos_eq by nra; reflexivity.
Qed.
Lemma fdot3_err p (t : dtree) (a0 a1 a2 b0 b1 b2 : fl p) (N : R) : order 3 t ->
  is_finite a0 = true -> is_finite a1 = true -> is_finite a2 = true ->
  is_finite b0 = true -> is_finite b1 = true -> is_finite b2 = true ->
  dotabs [B2R a0; B2R a1; B2R a2] [B2R b0; B2R b1; B2R b2] <= N -> N <= bpow radix2 120 ->
  is_finite (fdot t [a0; a1; a2] [b0; b1; b2]) = true /\
  Rabs (B2R (fdot t [a0; a1; a2] [b0; b1; b2]) - (B2R a0 * B2R b0 + B2R a1 * B2R b1 + B2R a2 * B2R b2)) <= (3 + / 1000) * fu p * N + 5 * eta p.
Proof.
  intros O A0 A1 A2 B0 B1 B2 HN HB. pose proof bpow_120_125 as BB.
  destruct (fdot_err p t [a0; a1; a2] [b0; b1; b2] O eq_refl ltac:(cbn; lia)) as [F E].
  1,2: repeat constructor; assumption.
  1: cbn [vals map]; lra.
  split; [exact F|]. cbn [vals map] in E.
  replace (dot [B2R a0; B2R a1; B2R a2] [B2R b0; B2R b1; B2R b2]) with (B2R a0 * B2R b0 + B2R a1 * B2R b1 + B2R a2 * B2R b2) in E by (unfold dot; cbn; ring).
  eapply Rle_trans; [exact E|]. replace (INR (length [a0; a1; a2])) with 3 by (cbn; ring). pose proof (fu_pos p) as U.
  assert ((3 + / 1000) * fu p * dotabs [B2R a0; B2R a1; B2R a2] [B2R b0; B2R b1; B2R b2] <= (3 + / 1000) * fu p * N) by (apply Rmult_le_compat_l; lra).
  lra.
Qed.
Lemma fdot2_err p (t : dtree) (a0 a1 b0 b1 : fl p) (N : R) : order 2 t ->
  is_finite a0 = true -> is_finite a1 = true -> is_finite b0 = true -> is_finite b1 = true ->
  Rabs (B2R a0 * B2R b0) + Rabs (B2R a1 * B2R b1) <= N -> N <= bpow radix2 120 ->
  is_finite (fdot t [a0; a1] [b0; b1]) = true /\
  Rabs (B2R (fdot t [a0; a1] [b0; b1]) - (B2R a0 * B2R b0 + B2R a1 * B2R b1)) <= (2 + / 1000) * fu p * N + 5 * eta p.
Proof.
  intros O A0 A1 B0 B1 HN HB. pose proof bpow_120_125 as BB.
  assert (D : dotabs [B2R a0; B2R a1] [B2R b0; B2R b1] = Rabs (B2R a0 * B2R b0) + Rabs (B2R a1 * B2R b1)) by (unfold dotabs; cbn; ring).
  destruct (fdot_err p t [a0; a1] [b0; b1] O eq_refl ltac:(cbn; lia)) as [F E].
  1,2: repeat constructor; assumption.
  1: cbn [vals map]; lra.
  split; [exact F|]. cbn [vals map] in E. rewrite D in E.
  replace (dot [B2R a0; B2R a1] [B2R b0; B2R b1]) with (B2R a0 * B2R b0 + B2R a1 * B2R b1) in E by (unfold dot; cbn; ring).
  eapply Rle_trans; [exact E|]. replace (INR (length [a0; a1])) with 2 by (cbn; ring). pose proof (fu_pos p) as U.
  assert ((2 + / 1000) * fu p * (Rabs (B2R a0 * B2R b0) + Rabs (B2R a1 * B2R b1)) <= (2 + / 1000) * fu p * N) by (apply Rmult_le_compat_l; lra).
  lra.
Qed.

(** doubling is exact *)
Lemma fmt_double p x : ffmt p x -> ffmt p (2 * x).
Proof.
  intro F. apply FLT_format_generic in F; [|apply fprec_pos]. destruct F as [f E M X].
  apply generic_format_FLT. apply (FLT_spec _ _ _ _ (Float radix2 (Fnum f) (Fexp f + 1))).
  - rewrite E. unfold F2R; cbn [Fnum Fexp]. rewrite bpow_plus. change (bpow radix2 1) with 2. ring.
  - exact M.
  - cbn [Fexp]. lia.
Qed.
Lemma fdouble p (a : fl p) : is_finite a = true -> Rabs (B2R a) <= bpow radix2 100 ->
  is_finite (fmul (fofZ p 2) a) = true /\ B2R (fmul (fofZ p 2) a) = 2 * B2R a.
Proof.
  intros F H. destruct (fofZ2 p) as [F2 V2]. destruct (fmul_R p (fofZ p 2) a F2 F) as [R Fr].
  - rewrite V2, Rabs_mult, (Rabs_pos_eq 2) by lra. apply Rle_trans with (bpow radix2 1 * bpow radix2 100); [change (bpow radix2 1) with 2; lra|].
    rewrite <- bpow_plus. apply bpow_le. destruct p; vm_compute; discriminate.
  - split; [exact Fr|]. rewrite R, V2. apply rnd_id, fmt_double, fmt_B2R.
Qed.

(** lengths of vectors from bounds on the coefficients *)
Lemma abs_sq x y : Rabs x <= y -> x * x <= y * y.
Proof. intro H. rewrite <- (Rabs_pos_eq (x * x)) by nra. rewrite Rabs_mult. pose proof (Rabs_pos x). nra. Qed.
Lemma vnorm_le3 v m : Rabs (vx v) <= m -> Rabs (vy v) <= m -> Rabs (vz v) <= m -> vnorm v <= 7/4 * m.
Proof.
  intros A B C. pose proof (Rabs_pos (vx v)). apply vnorm_le_sq; [lra|]. unfold vnorm2, vdot.
  pose proof (abs_sq _ _ A). pose proof (abs_sq _ _ B). pose proof (abs_sq _ _ C). nra.
Qed.
Definition vrow0 (m : M33) := mkV3 (m00 m) (m01 m) (m02 m).
Definition vrow1 (m : M33) := mkV3 (m10 m) (m11 m) (m12 m).
Definition vrow2 (m : M33) := mkV3 (m20 m) (m21 m) (m22 m).
Lemma vcs_abs a b : Rabs (vdot a b) <= vnorm a * vnorm b.
Proof.
  apply Rabs_le. split; [|apply cauchy_schwarz].
  pose proof (cauchy_schwarz (vneg a) b) as H. rewrite vnorm_vneg in H. replace (vdot (vneg a) b) with (- vdot a b) in H by lin. lra.
Qed.
Lemma close_rows r a b : vnorm (vrow0 (msub a b)) <= r -> vnorm (vrow1 (msub a b)) <= r -> vnorm (vrow2 (msub a b)) <= r -> close (7/4 * r) a b.
Proof.
  intros A B C v. rewrite Rmult_assoc. apply vnorm_le3.
  - eapply Rle_trans; [|apply Rmult_le_compat_r; [apply sqrt_pos|exact A]]. eapply Rle_trans; [right|apply vcs_abs]. f_equal. unfold vrow0, vrow1, vrow2. lin.
  - eapply Rle_trans; [|apply Rmult_le_compat_r; [apply sqrt_pos|exact B]]. eapply Rle_trans; [right|apply vcs_abs]. f_equal. unfold vrow0, vrow1, vrow2. lin.
  - eapply Rle_trans; [|apply Rmult_le_compat_r; [apply sqrt_pos|exact C]]. eapply Rle_trans; [right|apply vcs_abs]. f_equal. unfold vrow0, vrow1, vrow2. lin.
Qed.
(** a row of a matrix close to a rotation is nearly of length one *)
Lemma vnorm_sq v : vnorm v * vnorm v = vnorm2 v.
Proof. apply sqrt_sqrt. unfold vnorm2, vdot. nra. Qed.
Lemma vn_nonneg v : 0 <= vnorm v. Proof. apply sqrt_pos. Qed.
Lemma self_bound (x d : R) : 0 <= x -> 0 <= d -> x * x <= d * x -> x <= d.
Proof. intros. destruct (Req_dec x 0); nra. Qed.
Lemma close_row_norm d a b : close d a b -> vnorm (vrow0 (msub a b)) <= d /\ vnorm (vrow1 (msub a b)) <= d /\ vnorm (vrow2 (msub a b)) <= d.
Proof.
  intro H. pose proof (close_nonneg _ _ _ H) as D.
  assert (X : forall r : V3, (forall v, Rabs (vdot r v) <= d * vnorm v) -> vnorm r <= d).
  { intros r Hr. apply self_bound; [apply vn_nonneg|exact D|]. rewrite vnorm_sq. specialize (Hr r). pose proof (Rle_abs (vdot r r)). unfold vnorm2. lra. }
  assert (Y : forall w : V3, Rabs (vx w) <= vnorm w /\ Rabs (vy w) <= vnorm w /\ Rabs (vz w) <= vnorm w).
  { intro w. pose proof (vn_nonneg w). pose proof (vnorm_sq w) as S1. unfold vnorm2, vdot in S1.
    assert (Q : forall x, x * x <= vnorm w * vnorm w -> Rabs x <= vnorm w).
    { intros x Hx. apply sq_le_le; [assumption|]. rewrite <- Rabs_mult, Rabs_pos_eq by nra. exact Hx. }
    repeat split; apply Q; nra. }
  repeat split; apply X; intro v; destruct (Y (vsub (mvmul a v) (mvmul b v))) as (Y0 & Y1 & Y2); specialize (H v).
  - eapply Rle_trans; [|exact H]. eapply Rle_trans; [|exact Y0]. right. f_equal. unfold vrow0. clear. lin.
  - eapply Rle_trans; [|exact H]. eapply Rle_trans; [|exact Y1]. right. f_equal. unfold vrow1. clear. lin.
  - eapply Rle_trans; [|exact H]. eapply Rle_trans; [|exact Y2]. right. f_equal. unfold vrow2. clear. lin.
Qed.

(** ** Matrix times vector *)
Lemma fmv_err p (o : orders3) (m : FM p) (v : FV p) (B : R) : orders3_ok 3 3 3 o -> mfinite m -> vfinite v ->
  vnorm (vrow0 (mval m)) <= B -> vnorm (vrow1 (mval m)) <= B -> vnorm (vrow2 (mval m)) <= B ->
  B * vnorm (vval v) <= bpow radix2 120 ->
  vfinite (fmv o m v) /\
  vdist (vval (fmv o m v)) (mvmul (mval m) (vval v)) <= 7/4 * ((3 + / 1000) * fu p * (B * vnorm (vval v)) + 5 * eta p).
Proof.
  intros (O0 & O1 & O2) ((F00 & F01 & F02) & (F10 & F11 & F12) & (F20 & F21 & F22)) (G0 & G1 & G2) B0 B1 B2 HB.
  pose proof (vn_nonneg (vval v)) as NV.
  assert (Dm : forall r : V3, vnorm r <= B -> vnorm r * vnorm (vval v) <= B * vnorm (vval v)) by (intros; apply Rmult_le_compat_r; assumption).
  destruct (fdot3_err p (o0 o) (gx (r0 m)) (gy (r0 m)) (gz (r0 m)) (gx v) (gy v) (gz v) (B * vnorm (vval v)) O0) as [X0 E0]; try assumption.
  { eapply Rle_trans; [apply dotabs3|]. exact (Dm _ B0). }
  destruct (fdot3_err p (o1 o) (gx (r1 m)) (gy (r1 m)) (gz (r1 m)) (gx v) (gy v) (gz v) (B * vnorm (vval v)) O1) as [X1 E1]; try assumption.
  { eapply Rle_trans; [apply dotabs3|]. exact (Dm _ B1). }
  destruct (fdot3_err p (o2 o) (gx (r2 m)) (gy (r2 m)) (gz (r2 m)) (gx v) (gy v) (gz v) (B * vnorm (vval v)) O2) as [X2 E2]; try assumption.
  { eapply Rle_trans; [apply dotabs3|]. exact (Dm _ B2). }
  split; [repeat split; assumption|]. unfold vdist. apply vnorm_le3; assumption.
Qed.

(** ** Quaternion to matrix *)
Lemma ftoRot_err p (o : orders9) (q : FQ p) : orders9_rot_ok o -> qfinite q -> Rabs (qnorm (qval q) - 1) <= / 50 ->
  mfinite (ftoRot o q) /\ close (18 * fu p) (mval (ftoRot o q)) (e_toRotationMatrix (qval q)).
Proof.
  intros ((O00 & O01 & O02) & (O10 & O11 & O12) & (O20 & O21 & O22)) (Fw & Fx & Fy & Fz) N.
  destruct (comp_le_norm (qval q)) as (Cw & Cx & Cy & Cz). pose proof (qnorm_sq (qval q)) as Q.
  assert (NN : 0 <= qnorm (qval q) <= 102/100) by (pose proof (qn_nonneg (qval q)); pose proof (Rle_abs (qnorm (qval q) - 1)); lra).
  assert (Q2 : qnorm2 (qval q) <= 1041/1000) by nra. unfold qnorm2 in Q2.
  cbn [qval qw qx qy qz] in *.
  assert (Big : 102/100 <= bpow radix2 100) by (apply Rle_trans with (bpow radix2 1); [cbn; lra|apply bpow_le; lia]).
  destruct (fdouble p (fx q) Fx ltac:(lra)) as [Gx Vx]. destruct (fdouble p (fy q) Fy ltac:(lra)) as [Gy Vy]. destruct (fdouble p (fz q) Fz ltac:(lra)) as [Gz Vz].
  destruct (fofZ1 p) as [F1 V1]. unfold ftoRot, mfinite, vfinite. cbn [r0 r1 r2 gx gy gz].
  set (w := fw q) in *. set (x := fx q) in *. set (y := fy q) in *. set (z := fz q) in *.
  set (tx := fmul (fofZ p 2) x) in *. set (ty := fmul (fofZ p 2) y) in *. set (tz := fmul (fofZ p 2) z) in *. set (one := fofZ p 1) in *.
  pose proof (fu_pos p) as U. pose proof (fu_24 p) as V. pose proof (eta_u p) as T.
  assert (T1 : 5 * eta p <= / 1000 * fu p).
  { assert (bpow radix2 (-126) <= / 1048576) by (apply Rle_trans with (bpow radix2 (-20)); [apply bpow_le; lia|cbn; lra]). nra. }
  assert (L120 : 4 <= bpow radix2 120) by (change 4 with (bpow radix2 2); apply bpow_le; lia).
  (* the two kinds of entries *)
  assert (P2 : forall (t : dtree) (a0 a1 b0 b1 : fl p), order 2 t -> is_finite a0 = true -> is_finite a1 = true -> is_finite b0 = true -> is_finite b1 = true ->
     Rabs (B2R a0 * B2R b0) + Rabs (B2R a1 * B2R b1) <= 1041/1000 ->
     is_finite (fdot t [a0; a1] [b0; b1]) = true /\ Rabs (B2R (fdot t [a0; a1] [b0; b1]) - (B2R a0 * B2R b0 + B2R a1 * B2R b1)) <= (21/10) * fu p).
  { intros t a0 a1 b0 b1 Ot A0 A1 B0 B1 H. destruct (fdot2_err p t a0 a1 b0 b1 (1041/1000) Ot A0 A1 B0 B1 H ltac:(lra)) as [F E]. split; [exact F|]. lra. }
  assert (P3 : forall (t : dtree) (a1 a2 b1 b2 : fl p), order 3 t -> is_finite a1 = true -> is_finite a2 = true -> is_finite b1 = true -> is_finite b2 = true ->
     Rabs (B2R a1 * B2R b1) + Rabs (B2R a2 * B2R b2) <= 2 * (1041/1000) ->
     is_finite (fdot t [one; a1; a2] [one; b1; b2]) = true /\ Rabs (B2R (fdot t [one; a1; a2] [one; b1; b2]) - (1 + B2R a1 * B2R b1 + B2R a2 * B2R b2)) <= (93/10) * fu p).
  { intros t a1 a2 b1 b2 Ot A1 A2 B1 B2 H. destruct (fdot3_err p t one a1 a2 one b1 b2 (1 + 2 * (1041/1000)) Ot F1 A1 A2 F1 B1 B2) as [F E].
    - unfold dotabs; cbn [seq length rsum nth]. rewrite V1, Rmult_1_l, Rabs_R1. lra.
    - lra.
    - rewrite V1, Rmult_1_l in E. split; [exact F|]. lra. }
  assert (AB2 : forall a b : R, Rabs (2 * a * b) <= a * a + b * b).
  { intros a b. pose proof (pow2_ge_0 (a - b)). pose proof (pow2_ge_0 (a + b)). apply Rabs_le. split; lra. }
  assert (SQ : forall a : R, Rabs (2 * a * a) = 2 * (a * a)) by (intro a; rewrite Rabs_pos_eq by nra; ring).
  assert (SQn : forall a : R, Rabs (- (2 * a) * a) = 2 * (a * a)) by (intro a; replace (- (2 * a) * a) with (- (2 * a * a)) by ring; rewrite Rabs_Ropp, Rabs_pos_eq by nra; ring).
  assert (ABn : forall a b : R, Rabs (- (2 * a) * b) <= a * a + b * b) by (intros a b; replace (- (2 * a) * b) with (- (2 * a * b)) by ring; rewrite Rabs_Ropp; apply AB2).
  set (W := B2R w) in *. set (X := B2R x) in *. set (Y := B2R y) in *. set (Z := B2R z) in *.
  destruct (P3 (o0 (ro0 o)) (fneg ty) (fneg tz) y z O00) as [D00 E00]; rewrite ?fneg_fin, ?fneg_val, ?Vx, ?Vy, ?Vz; fold W X Y Z; try assumption; [rewrite !SQn; nra|].
  destruct (P2 (o1 (ro0 o)) ty (fneg tz) x w O01) as [D01 E01]; rewrite ?fneg_fin, ?fneg_val, ?Vx, ?Vy, ?Vz; fold W X Y Z; try assumption; [pose proof (AB2 Y X); pose proof (ABn Z W); lra|].
  destruct (P2 (o2 (ro0 o)) tz ty x w O02) as [D02 E02]; rewrite ?fneg_fin, ?fneg_val, ?Vx, ?Vy, ?Vz; fold W X Y Z; try assumption; [pose proof (AB2 Z X); pose proof (AB2 Y W); lra|].
  destruct (P2 (o0 (ro1 o)) ty tz x w O10) as [D10 E10]; rewrite ?fneg_fin, ?fneg_val, ?Vx, ?Vy, ?Vz; fold W X Y Z; try assumption; [pose proof (AB2 Y X); pose proof (AB2 Z W); lra|].
  destruct (P3 (o1 (ro1 o)) (fneg tx) (fneg tz) x z O11) as [D11 E11]; rewrite ?fneg_fin, ?fneg_val, ?Vx, ?Vy, ?Vz; fold W X Y Z; try assumption; [rewrite !SQn; nra|].
  destruct (P2 (o2 (ro1 o)) tz (fneg tx) y w O12) as [D12 E12]; rewrite ?fneg_fin, ?fneg_val, ?Vx, ?Vy, ?Vz; fold W X Y Z; try assumption; [pose proof (AB2 Z Y); pose proof (ABn X W); lra|].
  destruct (P2 (o0 (ro2 o)) tz (fneg ty) x w O20) as [D20 E20]; rewrite ?fneg_fin, ?fneg_val, ?Vx, ?Vy, ?Vz; fold W X Y Z; try assumption; [pose proof (AB2 Z X); pose proof (ABn Y W); lra|].
  destruct (P2 (o1 (ro2 o)) tz tx y w O21) as [D21 E21]; rewrite ?fneg_fin, ?fneg_val, ?Vx, ?Vy, ?Vz; fold W X Y Z; try assumption; [pose proof (AB2 Z Y); pose proof (AB2 X W); lra|].
  destruct (P3 (o2 (ro2 o)) (fneg tx) (fneg ty) x y O22) as [D22 E22]; rewrite ?fneg_fin, ?fneg_val, ?Vx, ?Vy, ?Vz; fold W X Y Z; try assumption; [rewrite !SQn; nra|].
  split; [repeat split; assumption|].
  rewrite !fneg_val, ?Vx, ?Vy, ?Vz in *. fold W X Y Z in E00, E01, E02, E10, E11, E12, E20, E21, E22.
  assert (VR : forall a b c, Rabs a <= 93/10 * fu p -> Rabs b <= 21/10 * fu p -> Rabs c <= 21/10 * fu p -> a * a + b * b + c * c <= (98/10 * fu p) * (98/10 * fu p)).
  { intros a b c A B C. pose proof (abs_sq _ _ A). pose proof (abs_sq _ _ B). pose proof (abs_sq _ _ C). set (uu := fu p) in *. assert (0 <= uu * uu) by nra. lra. }
  apply close_mono with (7/4 * (98/10 * fu p)); [lra|]. unfold mval, e_toRotationMatrix, qval. cbn [r0 r1 r2 gx gy gz qw qx qy qz].
  apply close_rows; apply vnorm_le_sq; try lra; unfold vnorm2, vdot, vrow0, vrow1, vrow2, msub; cbn [vx vy vz m00 m01 m02 m10 m11 m12 m20 m21 m22]; fold w x y z; fold W X Y Z.
  - apply VR; [eapply Rle_trans; [right|exact E00]|eapply Rle_trans; [right|exact E01]|eapply Rle_trans; [right|exact E02]]; apply f_equal; ring.
  - rewrite (Rplus_comm (_ * _) (_ * _)). apply VR; [eapply Rle_trans; [right|exact E11]|eapply Rle_trans; [right|exact E10]|eapply Rle_trans; [right|exact E12]]; apply f_equal; ring.
  - rewrite Rplus_comm, <- Rplus_assoc. apply VR; [eapply Rle_trans; [right|exact E22]|eapply Rle_trans; [right|exact E20]|eapply Rle_trans; [right|exact E21]]; apply f_equal; ring.
Qed.

(** ** Rotating a vector *)
Lemma rot_of_direction q : 0 < qnorm q -> rot_of q = quat_rot (direction q).
Proof.
  intro H. assert (U : qnorm2 (direction q) = 1) by (rewrite <- qnorm_sq, direction_norm by exact H; ring).
  rewrite <- rot_of_unit by exact U. unfold direction, qscale. symmetry. apply rot_of_scale; [apply Rinv_neq_0_compat; lra|].
  rewrite <- qnorm_sq. nra.
Qed.
Lemma sandwich_linear q v : mvmul (quat_rot q) v = sandwich q v.
Proof. unfold quat_rot. slin. Qed.
Lemma vnorm_qvec x : vnorm (qvec x) <= qnorm x.
Proof. apply sqrt_le_1_alt. unfold vnorm2, vdot, qvec, qnorm2; cbn. nra. Qed.
Lemma quat_rot_close a b : qnorm a = 1 -> qnorm b = 1 -> close (2 * qdist a b) (quat_rot a) (quat_rot b).
Proof.
  intros A B v. rewrite !sandwich_linear. unfold sandwich. set (w := mkQ 0 (vx v) (vy v) (vz v)).
  assert (W : qnorm w = vnorm v) by (unfold qnorm, vnorm, qnorm2, vnorm2, vdot, w; cbn; f_equal; ring).
  set (x := hamilton (hamilton a w) (conj a)). set (y := hamilton (hamilton b w) (conj b)).
  replace (vsub (qvec x) (qvec y)) with (qvec (qsub x y)) by (unfold qsub, qvec, vsub; cbn; reflexivity).
  eapply Rle_trans; [apply vnorm_qvec|]. fold (qdist x y).
  eapply Rle_trans; [apply (qdist_triang _ (hamilton (hamilton b w) (conj a)))|]. unfold x, y.
  rewrite hamilton_dist_l, hamilton_dist_r, hamilton_dist_l, qdist_conj, qnorm_conj, hamilton_qnorm, A, B, W. lra.
Qed.
Lemma quat_rot_sign s q : s = 1 \/ s = -1 -> quat_rot (qscale s q) = quat_rot q.
Proof. intros [-> | ->]; rewrite !quat_rot_entries; unfold qscale; cbn [qw qx qy qz]; f_equal; ring. Qed.
Lemma turned_close d a e : 0 < qnorm a -> qnorm e = 1 -> turned_like d a e -> close (2 * d) (quat_rot (direction a)) (quat_rot e).
Proof.
  intros A E (s & Hs & D). rewrite <- (quat_rot_sign s e Hs).
  eapply close_mono; [|apply quat_rot_close; [now apply direction_norm|]]; [lra|].
  rewrite qnorm_scale, E. destruct Hs as [-> | ->]; rewrite ?Rabs_R1, ?Rabs_m1; ring.
Qed.

Lemma SO3_rows m : SO3 m -> vnorm (vrow0 m) = 1 /\ vnorm (vrow1 m) = 1 /\ vnorm (vrow2 m) = 1.
Proof.
  intros [H _]. assert (X : forall v, vnorm2 v = 1 -> vnorm v = 1) by (intros v Hv; unfold vnorm; rewrite Hv; apply sqrt_1).
  destruct m as [a b c d e f g h i]. unfold mmul, mtrans, mid, vrow0, vrow1, vrow2 in *. cbn [m00 m01 m02 m10 m11 m12 m20 m21 m22] in *. injection H as H0 _ _ _ H4 _ _ _ H8.
  repeat split; apply X; unfold vnorm2, vdot; cbn [vx vy vz]; assumption.
Qed.
Lemma close_rows_bound d a r : SO3 r -> close d a r -> vnorm (vrow0 a) <= 1 + d /\ vnorm (vrow1 a) <= 1 + d /\ vnorm (vrow2 a) <= 1 + d.
Proof.
  intros S1 C. destruct (SO3_rows r S1) as (A & B & D). destruct (close_row_norm d a r C) as (X & Y & Z).
  rewrite <- A at 1. rewrite <- B at 1. rewrite <- D at 1.
  repeat split; apply vnorm_le_add.
  - replace (vsub (vrow0 a) (vrow0 r)) with (vrow0 (msub a r)) by (unfold vrow0; lin). exact X.
  - replace (vsub (vrow1 a) (vrow1 r)) with (vrow1 (msub a r)) by (unfold vrow1; lin). exact Y.
  - replace (vsub (vrow2 a) (vrow2 r)) with (vrow2 (msub a r)) by (unfold vrow2; lin). exact Z.
Qed.

Lemma eta5_u p : 5 * eta p <= / 1000 * fu p.
Proof. pose proof (underflow_u p) as H. rewrite underflow_eta in H. pose proof (eta_pos p). lra. Qed.

Lemma n2_bound N : Rabs (N - 1) <= / 50 -> 2 * Rabs (1 - N * N) <= 5 * Rabs (N - 1) /\ 5 * Rabs (N - 1) <= / 10.
Proof.
  intro H. replace (1 - N * N) with ((N - 1) * - (1 + N)) by ring. rewrite Rabs_mult, Rabs_Ropp.
  pose proof (Rle_abs (N - 1)). pose proof (Rle_abs (- (N - 1))) as X. rewrite Rabs_Ropp in X. pose proof (Rabs_pos (N - 1)).
  rewrite (Rabs_pos_eq (1 + N)) by lra. split; [|lra]. nra.
Qed.

(** the matrix of a quaternion object *)
Lemma ftoRot_close p (o : orders9) (q : FQ p) : orders9_rot_ok o -> qfinite q -> Rabs (qnorm (qval q) - 1) <= / 50 ->
  mfinite (ftoRot o q) /\ close (18 * fu p + 5 * Rabs (qnorm (qval q) - 1)) (mval (ftoRot o q)) (quat_rot (direction (qval q))).
Proof.
  intros O F N. destruct (ftoRot_err p o q O F N) as [Fm C]. split; [exact Fm|].
  pose proof (Rle_abs (- (qnorm (qval q) - 1))) as X. rewrite Rabs_Ropp in X.
  assert (P : 0 < qnorm (qval q)) by lra.
  rewrite <- rot_of_direction by exact P.
  assert (P2 : 0 < qnorm2 (qval q)) by (rewrite <- qnorm_sq; nra).
  pose proof (close_trans _ _ _ _ _ C (e_toRot_close (qval q) P2)) as D. eapply close_mono; [|exact D].
  rewrite <- qnorm_sq. destruct (n2_bound _ N). lra.
Qed.

Lemma fquat_rotate_err p (o : orders9) (o' : orders3) (q : FQ p) (v : FV p) :
  orders9_rot_ok o -> orders3_ok 3 3 3 o' -> qfinite q -> vfinite v ->
  Rabs (qnorm (qval q) - 1) <= / 50 -> vnorm (vval v) <= bpow radix2 100 ->
  vfinite (fquat_rotate o o' q v) /\
  vdist (vval (fquat_rotate o o' q v)) (mvmul (quat_rot (direction (qval q))) (vval v))
    <= (24 * fu p + 5 * Rabs (qnorm (qval q) - 1)) * vnorm (vval v) + underflow p.
Proof.
  intros O O' F Fv N Hv. destruct (ftoRot_close p o q O F N) as [Fm C]. pose proof (fu_pos p) as U. pose proof (fu_24 p) as V.
  destruct (n2_bound _ N) as [N2 N3]. pose proof (vn_nonneg (vval v)) as NV.
  pose proof (Rle_abs (- (qnorm (qval q) - 1))) as X. rewrite Rabs_Ropp in X. assert (P : 0 < qnorm (qval q)) by lra.
  assert (S1 : SO3 (quat_rot (direction (qval q)))) by (apply quat_rot_SO3; rewrite <- qnorm_sq, direction_norm by exact P; ring).
  destruct (close_rows_bound _ _ _ S1 C) as (B0 & B1 & B2).
  destruct (fmv_err p o' (ftoRot o q) v (11/10 + / 1000) O' Fm Fv) as [Fr E]; try lra.
  { apply Rle_trans with (bpow radix2 1 * bpow radix2 100); [change (bpow radix2 1) with 2; apply Rmult_le_compat; lra|]. rewrite <- bpow_plus. apply bpow_le; lia. }
  split; [exact Fr|]. unfold fquat_rotate, vdist in *. eapply Rle_trans; [apply (vnorm_sub_triang _ (mvmul (mval (ftoRot o q)) (vval v)))|]. specialize (C (vval v)).
  rewrite underflow_eta. pose proof (eta_pos p). assert (0 <= fu p * vnorm (vval v)) by nra. lra.
Qed.
