(** Claims about repeated conversions between RotationQuaternion and RotationMatrix
    (C75). *)
From Coq Require Import ZArith Reals Lra Psatz Bool List Lia.
From Flocq Require Import IEEE754.BinarySingleNaN Core.Core.
From Verif Require Import Linalg Spec SpecFacts SpecClose ModelCommon ModelEigen CommonFacts ModelRotation CloseFacts SpecTrip
  FloatModel FloatFacts FloatModel2 SpecFloatQ FloatQFacts FloatQProd FloatQHist FloatQRot FloatWrap FloatBuild FloatBuild3 FloatExt FloatModel3 FloatModel4 FloatModel6 Claims16 Claims18 Claims19 FloatModel7 Claims22.
Import ListNotations.
Local Open Scope R_scope.

(** ** One round trip in exact arithmetic *)
Definition tripped (q : Quat) : Quat :=
  let h := sqrt (1 - half_sine2 q) in mkQ h (qw q * qx q / h) (qw q * qy q / h) (qw q * qz q / h).
Lemma half_sine2_eq q : half_sine2 q = qx q * qx q + qy q * qy q + qz q * qz q.
Proof. reflexivity. Qed.
Lemma trip_eq p q : half_sine2 q < 3/4 ->
  (m <- convert p ModelRotation.KMat (RotQuat q) ;; convert p ModelRotation.KQuat m) = Val (RotQuat (tripped q)).
Proof.
  intro H. cbn [convert omap obind to_mat to_quat]. set (s := half_sine2 q) in *. set (m := e_toRotationMatrix q).
  assert (T : mtrace m = 3 - 4 * s). { unfold m, s. rewrite half_sine2_eq. unfold mtrace, e_toRotationMatrix; cbn [m00 m11 m22]. ring. }
  unfold e_quat_of_matrix. rewrite T. destruct (Rlt_dec 0 (3 - 4 * s)) as [P|P]; [|lra].
  replace (3 - 4 * s + 1) with (2 * 2 * (1 - s)) by ring. unfold csqrt. destruct (Rlt_dec (2 * 2 * (1 - s)) 0) as [N|N]; [lra|]. cbn [obind].
  rewrite sqrt_mult by lra. rewrite sqrt_square by lra. set (h := sqrt (1 - s)). assert (H0 : 0 < h) by (apply sqrt_lt_R0; lra).
  unfold cdiv. destruct (Req_EM_T (2 * h) 0) as [Z|Z]; [lra|]. cbn [obind omap]. unfold tripped. fold s h. unfold m, e_toRotationMatrix; cbn [m00 m01 m02 m10 m11 m12 m20 m21 m22].
  do 3 f_equal; field; lra.
Qed.
Lemma tripped_facts q : half_sine2 q < 3/4 ->
  0 < qw (tripped q) /\ qw (tripped q) * qw (tripped q) = 1 - half_sine2 q /\ vscale (qw (tripped q)) (vec_part (tripped q)) = vscale (qw q) (vec_part q).
Proof.
  intro H. unfold tripped; cbn [qw]. set (s := half_sine2 q) in *. set (h := sqrt (1 - s)). assert (H0 : 0 < h) by (apply sqrt_lt_R0; lra).
  split; [exact H0|]. split; [apply sqrt_sqrt; lra|]. unfold vscale, vec_part; cbn [qx qy qz vx vy vz]. f_equal; field; lra.
Qed.
Lemma scaled_sine a b w v : vscale a (vec_part v) = vscale b (vec_part w) -> a * a * half_sine2 v = b * b * half_sine2 w.
Proof.
  intro E. assert (X : vnorm2 (vscale a (vec_part v)) = vnorm2 (vscale b (vec_part w))) by (now rewrite E).
  assert (Q : forall k u, vnorm2 (vscale k u) = k * k * vnorm2 u) by (intros; lin). rewrite !Q in X. exact X.
Qed.
Lemma norm2_split q : qnorm2 q = qw q * qw q + half_sine2 q.
Proof. rewrite half_sine2_eq. unfold qnorm2. ring. Qed.

(** C75: one round trip through the matrix, in exact arithmetic, for a quaternion
    (w, v) that need not be a unit quaternion, with |v|^2 < 3/4 (rotation angles below
    120 degrees): w v is preserved, and the defect |q|^2 - 1 is multiplied by
    |v|^2/(1 - |v|^2), the squared tangent of half the rotation angle: a defect
    shrinks for angles below 90 degrees, and grows, up to threefold, for angles
    between 90 and 120 degrees. *)
Lemma C75_defect_lemma : forall (p : prim) (q : Quat), half_sine2 q < 3/4 ->
  exists q', round_trips p 1 (RotQuat q) = Val (RotQuat q') /\ 0 < qw q' /\
    vscale (qw q') (vec_part q') = vscale (qw q) (vec_part q) /\
    qnorm2 q' - 1 = half_sine2 q / (1 - half_sine2 q) * (qnorm2 q - 1).
Proof.
  intros p q H. exists (tripped q). destruct (tripped_facts q H) as (A & B & C). split; [|split; [exact A|split; [exact C|]]].
  { cbn [round_trips]. pose proof (trip_eq p q H) as T. cbn [obind convert omap to_mat to_quat] in T |- *. destruct (e_quat_of_matrix (e_toRotationMatrix q)); try discriminate T. exact T. }
  pose proof (scaled_sine _ _ _ _ C) as D. rewrite !norm2_split. set (s := half_sine2 q) in *. rewrite B in D |- *.
  assert (E : half_sine2 (tripped q) = qw q * qw q * s / (1 - s)) by (apply Rmult_eq_reg_l with (1 - s); [rewrite D; field; lra|lra]). rewrite E. field. lra.
Qed.
Lemma C75_defect_ex : half_sine2 (mkQ (59/100) (4/5) 0 0) < 3/4 /\ half_sine2 (mkQ (59/100) (4/5) 0 0) / (1 - half_sine2 (mkQ (59/100) (4/5) 0 0)) = 16/9 /\ qnorm2 (mkQ (59/100) (4/5) 0 0) - 1 = -119/10000.
Proof. rewrite norm2_split, half_sine2_eq. cbn [qw qx qy qz]. lra. Qed.

(** ** Many round trips *)
Lemma round_trips_S p : forall n r, round_trips p (S n) r = (r' <- round_trips p n r ;; m <- convert p ModelRotation.KMat r' ;; convert p ModelRotation.KQuat m).
Proof.
  induction n as [|n IH]; intro r.
  - cbn [round_trips obind]. destruct (convert p ModelRotation.KMat r) as [m| |]; cbn [obind]; try reflexivity. destruct (convert p ModelRotation.KQuat m); reflexivity.
  - change (round_trips p (S (S n)) r) with (m <- convert p ModelRotation.KMat r ;; q <- convert p ModelRotation.KQuat m ;; round_trips p (S n) q).
    change (round_trips p (S n) r) with (m <- convert p ModelRotation.KMat r ;; q <- convert p ModelRotation.KQuat m ;; round_trips p n q).
    destruct (convert p ModelRotation.KMat r) as [m| |]; cbn [obind]; try reflexivity. destruct (convert p ModelRotation.KQuat m) as [q| |]; cbn [obind]; try reflexivity. apply IH.
Qed.
(** [s1] is the smaller root of s (1 - s) = c *)
Lemma trips_sequence p q s1 : 0 < qw q -> 0 < s1 -> s1 < half_sine2 q -> half_sine2 q < 1 - s1 -> half_sine2 q < 3/4 -> qw q * qw q * half_sine2 q = s1 * (1 - s1) ->
  forall n, exists q', round_trips p n (RotQuat q) = Val (RotQuat q') /\ qw q <= qw q' /\ vscale (qw q') (vec_part q') = vscale (qw q) (vec_part q) /\
    s1 < half_sine2 q' <= half_sine2 q /\ half_sine2 q' - s1 <= (s1 / (1 - half_sine2 q)) ^ n * (half_sine2 q - s1).
Proof.
  intros W P1 L1 L2 L3 EC. set (s := half_sine2 q) in *. set (k := s1 / (1 - s)).
  assert (K : 0 < k < 1). { unfold k. split; [apply Rdiv_lt_0_compat; lra|]. apply Rmult_lt_reg_r with (1 - s); [lra|]. unfold Rdiv. rewrite Rmult_assoc, Rinv_l by lra. lra. }
  induction n as [|n (q' & R & WQ & V & (S1 & S2) & D)].
  - exists q. cbn [round_trips pow]. fold s. repeat split; lra.
  - exists (tripped q'). assert (H : half_sine2 q' < 3/4) by lra. destruct (tripped_facts q' H) as (A & B & C). rewrite round_trips_S, R. cbn [obind]. rewrite (trip_eq p q' H). split; [reflexivity|].
    rewrite V in C. pose proof (scaled_sine _ _ _ _ V) as E1. pose proof (scaled_sine _ _ _ _ C) as E2. fold s in E1, E2. rewrite EC in E1, E2.
    set (t := half_sine2 q') in *. set (t' := half_sine2 (tripped q')) in *. rewrite B in E2. set (w' := qw (tripped q')) in *.
    assert (T' : t' - s1 = s1 / (1 - t) * (t - s1)). { apply Rmult_eq_reg_l with (1 - t); [|lra]. replace ((1 - t) * (t' - s1)) with ((1 - t) * t' - (1 - t) * s1) by ring. rewrite E2. field. lra. }
    assert (KT : 0 < s1 / (1 - t) <= k). { unfold k, Rdiv. split; [apply Rmult_lt_0_compat; [lra|apply Rinv_0_lt_compat; lra]|]. apply Rmult_le_compat_l; [lra|]. apply Rinv_le_contravar; lra. }
    assert (M : 0 < s1 / (1 - t) * (t - s1)) by (apply Rmult_lt_0_compat; lra).
    assert (M2 : s1 / (1 - t) * (t - s1) <= k * (t - s1)) by (apply Rmult_le_compat_r; lra).
    assert (M3 : k * (t - s1) <= 1 * (t - s1)) by (apply Rmult_le_compat_r; lra).
    split.
    { (* w' >= w *) assert (X : qw q * qw q <= w' * w'). { rewrite B. apply Rmult_le_reg_r with s; [lra|]. rewrite EC. assert ((1 - s) * s <= (1 - t) * s) by (apply Rmult_le_compat_r; lra).
        assert (s1 * (1 - s1) <= (1 - s) * s); [|lra]. assert (0 <= (s - s1) * (1 - s1 - s)) by (apply Rmult_le_pos; lra). lra. }
      apply Rsqr_incr_0; [exact X|lra|lra]. }
    split; [exact C|]. split; [lra|]. cbn [pow]. rewrite T'. eapply Rle_trans; [exact M2|]. rewrite Rmult_assoc. apply Rmult_le_compat_l; lra.
Qed.

(** C75: a quaternion (w, v) with norm below one, however close to one, and
    |v|^2 between 1/2 and 3/4 (a rotation by an angle between 90 and 120 degrees) does
    not keep its rotation when it is converted to a matrix and back again and again,
    in exact arithmetic: the quaternions converge to a unit quaternion of a rotation
    about the same axis by less than 90 degrees, with the same sine: the supplementary
    angle. *)
Lemma C75_unstable_lemma : forall (p : prim) (q : Quat), 0 < qw q -> qnorm2 q < 1 -> 1/2 < half_sine2 q < 3/4 ->
  exists e : Quat, qnorm e = 1 /\ 0 < qw e /\ 1/2 < qw e * qw e /\ vscale (qw e) (vec_part e) = vscale (qw q) (vec_part q) /\
    forall d, 0 < d -> exists N, forall n, (N <= n)%nat -> exists q', round_trips p n (RotQuat q) = Val (RotQuat q') /\ qdist q' e <= d.
Proof.
  intros p q W N S. rewrite norm2_split in N. set (s := half_sine2 q) in *. set (w := qw q) in *. set (c := w * w * s).
  assert (W2 : 0 < w * w) by (apply Rmult_lt_0_compat; exact W).
  assert (C0 : 0 < c) by (apply Rmult_lt_0_compat; lra).
  assert (CL : c < s * (1 - s)). { unfold c. rewrite Rmult_comm. apply Rmult_lt_compat_l; lra. }
  assert (CM : 4 * c < 1). { pose proof (Rle_0_sqr (1 - 2 * s)) as X. unfold Rsqr in X. lra. }
  set (g := sqrt (1 - 4 * c)). assert (G2 : g * g = 1 - 4 * c) by (apply sqrt_sqrt; lra). assert (G0 : 0 < g) by (apply sqrt_lt_R0; lra).
  assert (G1 : g < 1). { destruct (Rlt_or_le g 1) as [H|H]; [exact H|]. assert (1 * 1 <= g * g) by (apply Rmult_le_compat; lra). lra. }
  assert (GS : 2 * s - 1 < g). { destruct (Rlt_or_le (2 * s - 1) g) as [H|H]; [exact H|]. assert (g * g <= (2 * s - 1) * (2 * s - 1)) by (apply Rmult_le_compat; lra). lra. }
  set (s1 := (1 - g) / 2). assert (R1 : s1 * (1 - s1) = c) by (unfold s1; lra). assert (B1 : 0 < s1 < 1/2) by (unfold s1; lra). assert (L2 : s < 1 - s1) by (unfold s1; lra).
  set (E := sqrt (1 - s1)). assert (E2 : E * E = 1 - s1) by (apply sqrt_sqrt; lra). assert (E0 : 0 < E) by (apply sqrt_lt_R0; lra).
  exists (mkQ E (w * qx q / E) (w * qy q / E) (w * qz q / E)). cbn [qw].
  assert (VE : vscale E (vec_part (mkQ E (w * qx q / E) (w * qy q / E) (w * qz q / E))) = vscale w (vec_part q)) by (unfold vscale, vec_part; cbn [qx qy qz vx vy vz]; f_equal; field; lra).
  split.
  { unfold qnorm. rewrite norm2_split. cbn [qw]. pose proof (scaled_sine _ _ _ _ VE) as X. fold s in X. fold c in X. rewrite E2 in X |- *.
    replace (half_sine2 _) with s1; [replace (1 - s1 + s1) with 1 by ring; apply sqrt_1|]. symmetry. apply Rmult_eq_reg_l with (1 - s1); [rewrite X; lra|lra]. }
  split; [exact E0|]. split; [rewrite E2; lra|]. split; [exact VE|].
  intros d Hd. set (k := s1 / (1 - s)).
  assert (K : 0 < k < 1). { unfold k. split; [apply Rdiv_lt_0_compat; lra|]. apply Rmult_lt_reg_r with (1 - s); [lra|]. unfold Rdiv. rewrite Rmult_assoc, Rinv_l by lra. lra. }
  destruct (pow_lt_1_zero k ltac:(rewrite Rabs_pos_eq; lra) (d * s1 / 10)) as [N0 HN]. { apply Rdiv_lt_0_compat; [apply Rmult_lt_0_compat; lra|lra]. }
  exists N0. intros n Hn. specialize (HN n Hn). pose proof (pow_le k n ltac:(lra)) as KP. rewrite Rabs_pos_eq in HN by exact KP.
  destruct (trips_sequence p q s1 W ltac:(lra) ltac:(fold s; lra) L2 ltac:(fold s; lra) ltac:(fold w s c; lra) n) as (q' & R & WQ & V & (S1 & S2) & D). fold s k in D. fold s in S2. fold w in WQ, V.
  exists q'. split; [exact R|]. set (t := half_sine2 q') in *. set (w' := qw q') in *.
  pose proof (scaled_sine _ _ _ _ V) as X. fold s t in X. fold c in X. rewrite <- R1 in X.
  assert (TS : t - s1 <= k ^ n). { eapply Rle_trans; [exact D|]. apply Rle_trans with (k ^ n * 1); [apply Rmult_le_compat_l; lra|lra]. }
  assert (W'0 : 0 < w') by lra.
  (* w'^2 = s1 (1 - s1) / t *)
  assert (DW : 0 <= E - w' <= d / 5).
  { assert (Y : (E - w') * (E + w') * t = (1 - s1) * (t - s1)) by (replace ((E - w') * (E + w') * t) with (E * E * t - w' * w' * t) by ring; rewrite X, E2; ring).
    assert (ES : 7/10 <= E). { destruct (Rle_or_lt (7/10) E) as [H|H]; [exact H|]. assert (E * E <= 7/10 * (7/10)) by (apply Rmult_le_compat; lra). lra. }
    assert (Z : 0 < (E + w') * t) by (apply Rmult_lt_0_compat; lra). rewrite Rmult_assoc in Y.
    assert (Y0 : 0 <= (E - w') * ((E + w') * t)) by (rewrite Y; apply Rmult_le_pos; lra).
    assert (F0 : 0 <= E - w'). { destruct (Rle_or_lt 0 (E - w')) as [H|H]; [exact H|]. assert ((E - w') * ((E + w') * t) < 0 * ((E + w') * t)) by (apply Rmult_lt_compat_r; lra). lra. }
    split; [exact F0|].
    assert (Z2 : 7/10 * s1 <= (E + w') * t) by (apply Rmult_le_compat; lra).
    assert (Z3 : (E - w') * (7/10 * s1) <= (1 - s1) * (t - s1)) by (rewrite <- Y; apply Rmult_le_compat_l; lra).
    assert (Z4 : (1 - s1) * (t - s1) <= 1 * (d * s1 / 10)) by (apply Rmult_le_compat; lra).
    apply Rmult_le_reg_r with (7/10 * s1); [lra|]. eapply Rle_trans; [exact Z3|]. eapply Rle_trans; [exact Z4|]. assert (0 < d * s1) by (apply Rmult_lt_0_compat; lra). lra. }
  (* the vector parts *)
  set (e := mkQ E (w * qx q / E) (w * qy q / E) (w * qz q / E)) in *.
  assert (VQ : vsub (vec_part q') (vec_part e) = vscale (w * (E - w') / (w' * E)) (vec_part q)).
  { assert (A1 : vec_part q' = vscale (/ w') (vscale w (vec_part q))). { rewrite <- V. destruct (vec_part q') as [x y z]. unfold vscale; cbn [vx vy vz]. f_equal; field; lra. }
    rewrite A1. unfold e, vec_part, vscale, vsub; cbn [qx qy qz vx vy vz]. f_equal; field; lra. }
  assert (SQ : qnorm2 (qsub q' e) = (w' - E) * (w' - E) + vnorm2 (vsub (vec_part q') (vec_part e))).
  { unfold e, qnorm2, qsub, vnorm2, vdot, vsub, vec_part; cbn [qw qx qy qz vx vy vz]. fold w'. ring. }
  unfold qdist. apply sq_le_le; [lra|]. rewrite qnorm_sq, SQ, VQ.
  assert (Q : forall j u, vnorm2 (vscale j u) = j * j * vnorm2 u) by (intros; lin). rewrite Q. change (vnorm2 (vec_part q)) with s.
  assert (J : 0 <= w * (E - w') / (w' * E) <= 3/2 * (d / 5)).
  { assert (ES : 7/10 <= E). { destruct (Rle_or_lt (7/10) E) as [H|H]; [exact H|]. assert (E * E <= 7/10 * (7/10)) by (apply Rmult_le_compat; lra). lra. }
    assert (WE : 0 < w' * E) by (apply Rmult_lt_0_compat; lra).
    split; [apply Rmult_le_pos; [apply Rmult_le_pos; lra|left; apply Rinv_0_lt_compat; exact WE]|].
    apply Rmult_le_reg_r with (w' * E); [exact WE|]. unfold Rdiv at 1. rewrite Rmult_assoc, Rinv_l, Rmult_1_r by lra.
    assert (w * (E - w') <= w' * (d / 5)) by (apply Rmult_le_compat; lra).
    assert (7/10 * (w' * (d / 5)) <= E * (w' * (d / 5))) by (apply Rmult_le_compat_r; [apply Rmult_le_pos; lra|lra]). assert (0 <= w' * (d/5)) by (apply Rmult_le_pos; lra). lra. }
  set (j := w * (E - w') / (w' * E)) in *.
  assert (J2 : j * j <= 3/2 * (d / 5) * (3/2 * (d / 5))) by (apply Rmult_le_compat; lra).
  assert (J3 : j * j * s <= 3/2 * (d / 5) * (3/2 * (d / 5)) * 1) by (apply Rmult_le_compat; try lra; apply Rmult_le_pos; lra).
  assert (J4 : (w' - E) * (w' - E) <= d / 5 * (d / 5)) by (replace ((w' - E) * (w' - E)) with ((E - w') * (E - w')) by ring; apply Rmult_le_compat; lra).
  assert (0 < d * d) by (apply Rmult_lt_0_compat; lra). lra.
Qed.
Lemma C75_unstable_ex : 0 < qw (mkQ (59/100) (4/5) 0 0) /\ qnorm2 (mkQ (59/100) (4/5) 0 0) < 1 /\ 1/2 < half_sine2 (mkQ (59/100) (4/5) 0 0) < 3/4.
Proof. rewrite norm2_split, half_sine2_eq. cbn [qw qx qy qz]. lra. Qed.

(** ** Floating-point arithmetic *)
(** [n] times: RotationMatrix m(q); q = RotationQuaternion(m) *)
Fixpoint trips {p} (n : nat) : list (oop p * choices6) := match n with O => [] | S n => (OConvert KMat, stdsix) :: (OConvert KQuat, stdsix) :: trips n end.
(** 118 degrees about x: (cos 59, sin 59, 0, 0), rounded *)
Definition q118 (p : prim) : FQ p := mkFQ (flit p 515038074910054 (10^15)) (flit p 857167300702112 (10^15)) fzero fzero.
Definition qbits {p} (x : fobject p) := match x with OQuat q => Some (B2SF (fw q), B2SF (fx q), B2SF (fy q), B2SF (fz q)) | _ => None end.
Lemma trips118_32 L P : qbits (orun L P (OQuat (q118 F32)) (trips 60)) = Some (SpecFloat.S754_finite false 14380883 (-24), SpecFloat.S754_finite false 8640901 (-24), SpecFloat.S754_zero false, SpecFloat.S754_zero false).
Proof. vm_compute. reflexivity. Qed.
Lemma trips118_64 L P : qbits (orun L P (OQuat (q118 F64)) (trips 60)) = Some (SpecFloat.S754_finite false 7720676672063363 (-53), SpecFloat.S754_finite false 4639050564498510 (-53), SpecFloat.S754_zero false, SpecFloat.S754_zero false).
Proof. vm_compute. reflexivity. Qed.
Lemma near_norm q d : Rabs (qnorm2 q - 1) <= 19/10 * d -> 19/10 * d <= / 10 -> Rabs (qnorm q - 1) <= d.
Proof.
  intros H D. pose proof (qn_nonneg q) as N. rewrite <- qnorm_sq in H. assert (N9 : 9/10 <= qnorm q).
  { destruct (Rle_or_lt (9/10) (qnorm q)) as [K|K]; [exact K|]. assert (qnorm q * qnorm q <= 9/10 * (9/10)) by (apply Rmult_le_compat; lra). apply Rabs_both in H. lra. }
  replace (qnorm q * qnorm q - 1) with ((qnorm q - 1) * (qnorm q + 1)) in H by ring. rewrite Rabs_mult, (Rabs_pos_eq (qnorm q + 1)) in H by lra.
  pose proof (Rabs_pos (qnorm q - 1)). assert (Rabs (qnorm q - 1) * (19/10) <= Rabs (qnorm q - 1) * (qnorm q + 1)) by (apply Rmult_le_compat_l; lra). lra.
Qed.
(** C75: it happens with float and with double: the quaternion of a rotation by 118
    degrees about the x axis, rounded, with norm one up to 4 roundings, stands for a
    rotation by 62 degrees after 60 conversions to RotationMatrix and back, with the
    operations in the order in which Eigen writes them. *)
Lemma C75_float_lemma : forall (p : prim) (L : libm) (P : fl F64 -> fl F64 -> fl F64), exists q q' : FQ p,
  qfinite q /\ Rabs (qnorm (qval q) - 1) <= 4 * roundoff p /\
  515/1000 <= qw (qval q) <= 516/1000 /\ 857/1000 <= qx (qval q) <= 858/1000 /\ qy (qval q) = 0 /\ qz (qval q) = 0 /\
  orun L P (OQuat q) (trips 60) = OQuat q' /\
  qfinite q' /\ 857/1000 <= qw (qval q') <= 858/1000 /\ 515/1000 <= qx (qval q') <= 516/1000 /\ qy (qval q') = 0 /\ qz (qval q') = 0.
Proof.
  assert (FIN : forall p (a : fl p) f, B2SF a = f -> (match f with SpecFloat.S754_zero _ => true | SpecFloat.S754_finite _ _ _ => true | _ => false end) = true -> is_finite a = true) by (intros p a f <-; destruct a; cbn; intro H; (reflexivity || discriminate H)).
  assert (ZR : forall p (a : fl p) s, B2SF a = SpecFloat.S754_zero s -> B2R a = 0) by (intros p a s H; rewrite <- SF2R_B2SF, H; reflexivity).
  intros p L P. exists (q118 p). destruct p.
  - pose proof (trips118_32 L P) as T. destruct (orun L P (OQuat (q118 F32)) (trips 60)) as [q'| |]; try discriminate T. cbn [qbits] in T. injection T as Tw Tx Ty Tz. exists q'.
    assert (W0 : B2R (fw (q118 F32)) = 8640905 / 16777216). { rewrite (B2R_of_SF F32 _ false 8640905 (-24)) by (vm_compute; reflexivity). unfold F2R; cbn [Fnum Fexp cond_Zopp]. change (bpow radix2 (-24)) with (/ 16777216). reflexivity. }
    assert (X0 : B2R (fx (q118 F32)) = 14380881 / 16777216). { rewrite (B2R_of_SF F32 _ false 14380881 (-24)) by (vm_compute; reflexivity). unfold F2R; cbn [Fnum Fexp cond_Zopp]. change (bpow radix2 (-24)) with (/ 16777216). reflexivity. }
    assert (W1 : B2R (fw q') = 14380883 / 16777216). { rewrite (B2R_of_SF F32 _ _ _ _ Tw). unfold F2R; cbn [Fnum Fexp cond_Zopp]. change (bpow radix2 (-24)) with (/ 16777216). reflexivity. }
    assert (X1 : B2R (fx q') = 8640901 / 16777216). { rewrite (B2R_of_SF F32 _ _ _ _ Tx). unfold F2R; cbn [Fnum Fexp cond_Zopp]. change (bpow radix2 (-24)) with (/ 16777216). reflexivity. }
    assert (Y0 : B2R (fy (q118 F32)) = 0) by reflexivity. assert (Z0 : B2R (fz (q118 F32)) = 0) by reflexivity.
    split; [repeat split; vm_compute; reflexivity|]. split.
    { rewrite roundoff_fu. change (fu F32) with (/ 16777216). apply near_norm; [|lra]. unfold qnorm2, qval; cbn [qw qx qy qz]. rewrite W0, X0, Y0, Z0. apply Rabs_le. lra. }
    unfold qval; cbn [qw qx qy qz]. rewrite W0, X0, Y0, Z0, W1, X1, (ZR F32 _ _ Ty), (ZR F32 _ _ Tz). split; [lra|]. split; [lra|]. split; [reflexivity|]. split; [reflexivity|]. split; [reflexivity|].
    split; [exact (Logic.conj (FIN F32 _ _ Tw eq_refl) (Logic.conj (FIN F32 _ _ Tx eq_refl) (Logic.conj (FIN F32 _ _ Ty eq_refl) (FIN F32 _ _ Tz eq_refl))))|]. repeat split; lra.
  - pose proof (trips118_64 L P) as T. destruct (orun L P (OQuat (q118 F64)) (trips 60)) as [q'| |]; try discriminate T. cbn [qbits] in T. injection T as Tw Tx Ty Tz. exists q'.
    assert (B53 : bpow radix2 (-53) = / 9007199254740992) by reflexivity.
    assert (W0 : B2R (fw (q118 F64)) = 4639050564493074 / 9007199254740992). { rewrite (B2R_of_SF F64 _ false 4639050564493074 (-53)) by (vm_compute; reflexivity). unfold F2R; cbn [Fnum Fexp cond_Zopp]. rewrite B53. reflexivity. }
    assert (X0 : B2R (fx (q118 F64)) = 7720676672072411 / 9007199254740992). { rewrite (B2R_of_SF F64 _ false 7720676672072411 (-53)) by (vm_compute; reflexivity). unfold F2R; cbn [Fnum Fexp cond_Zopp]. rewrite B53. reflexivity. }
    assert (W1 : B2R (fw q') = 7720676672063363 / 9007199254740992). { rewrite (B2R_of_SF F64 _ _ _ _ Tw). unfold F2R; cbn [Fnum Fexp cond_Zopp]. rewrite B53. reflexivity. }
    assert (X1 : B2R (fx q') = 4639050564498510 / 9007199254740992). { rewrite (B2R_of_SF F64 _ _ _ _ Tx). unfold F2R; cbn [Fnum Fexp cond_Zopp]. rewrite B53. reflexivity. }
    assert (Y0 : B2R (fy (q118 F64)) = 0) by reflexivity. assert (Z0 : B2R (fz (q118 F64)) = 0) by reflexivity.
    split; [repeat split; vm_compute; reflexivity|]. split.
    { rewrite roundoff_fu. change (fu F64) with (/ 9007199254740992). apply near_norm; [|lra]. unfold qnorm2, qval; cbn [qw qx qy qz]. rewrite W0, X0, Y0, Z0. apply Rabs_le. lra. }
    unfold qval; cbn [qw qx qy qz]. rewrite W0, X0, Y0, Z0, W1, X1, (ZR F64 _ _ Ty), (ZR F64 _ _ Tz). split; [lra|]. split; [lra|]. split; [reflexivity|]. split; [reflexivity|]. split; [reflexivity|].
    split; [exact (Logic.conj (FIN F64 _ _ Tw eq_refl) (Logic.conj (FIN F64 _ _ Tx eq_refl) (Logic.conj (FIN F64 _ _ Ty eq_refl) (FIN F64 _ _ Tz eq_refl))))|]. repeat split; lra.
Qed.
