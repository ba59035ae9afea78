(** * DiffFacts: the conversions between derivatives and angular velocities. *)
From Coq Require Import Reals Lra Psatz Bool.
From Verif Require Import Linalg Spec SpecFacts SpecDiff ModelCommon ModelEigen ModelRotation ModelDiff DerivFacts.
Local Open Scope R_scope.

Ltac diff_unfold :=
  cbv beta iota zeta delta [quat_rot sandwich hamilton conj
    quatdiff_of_local quatdiff_of_global local_of_quatdiff global_of_quatdiff
    matdiff_of_local matdiff_of_global local_of_matdiff global_of_matdiff
    getLocalQuaternionDiffMatrix getGlobalQuaternionDiffMatrix
    getSkewMatrixFromVector getVectorFromSkewMatrix
    m34_apply m34_tapply dot4 qscale r340 r341 r342]; lin_unfold.

Definition qdotp (a b : Quat) : R := qw a * qw b + qx a * qx b + qy a * qy b + qz a * qz b.

(** ** Quaternions *)
(** derivative of q v q* with respect to q in direction dq *)
Definition quat_rot_d (q dq : Quat) : M33 :=
  mat_of (fun v => let p := mkQ 0 (vx v) (vy v) (vz v) in
    vadd (qvec (hamilton (hamilton dq p) (conj q))) (qvec (hamilton (hamilton q p) (conj dq)))).

Lemma quat_rot_deriv c t d : Qderiv c t d -> Mderiv (fun s => quat_rot (c s)) t (quat_rot_d (c t) d).
Proof.
  intros (H0 & H1 & H2 & H3).
  unfold Mderiv, quat_rot_d, quat_rot, sandwich, hamilton, conj.
  destruct d as [d0 d1 d2 d3].
  cbv beta iota zeta delta [mat_of vadd vscale vcross vdot qvec ex ey ez vx vy vz m00 m01 m02 m10 m11 m12 m20 m21 m22] in *.
  cbn [qw qx qy qz] in *.
  repeat split; (dl_solve; ring).
Qed.

Lemma quat_local_identity q dq :
  mmul (quat_rot q) (mcross (local_of_quatdiff q dq))
  = msub (mscale (qnorm2 q) (quat_rot_d q dq)) (mscale (2 * qdotp q dq) (quat_rot q)).
Proof. destruct q, dq. unfold quat_rot_d, qdotp. diff_unfold. f_equal; ring. Qed.
Lemma quat_global_identity q dq :
  mmul (mcross (global_of_quatdiff q dq)) (quat_rot q)
  = msub (mscale (qnorm2 q) (quat_rot_d q dq)) (mscale (2 * qdotp q dq) (quat_rot q)).
Proof. destruct q, dq. unfold quat_rot_d, qdotp. diff_unfold. f_equal; ring. Qed.

Lemma unit_curve_tangent c t d : (forall s, qnorm2 (c s) = 1) -> Qderiv c t d -> qdotp (c t) d = 0.
Proof.
  intros U (H0 & H1 & H2 & H3).
  assert (A : derivable_pt_lim (fun s => qnorm2 (c s)) t (2 * qdotp (c t) d)).
  { unfold qnorm2, qdotp. dl_solve. ring. }
  assert (B : derivable_pt_lim (fun s => qnorm2 (c s)) t 0).
  { apply (dl_ext (fun _ => 1)); [intros s; symmetry; apply U|apply dl_const]. }
  pose proof (uniqueness_limite _ _ _ _ A B). lra.
Qed.

Lemma msub_scale1 a b : msub (mscale 1 a) (mscale 0 b) = a.
Proof. lin. Qed.

Lemma quat_curve_local c t d : (forall s, qnorm2 (c s) = 1) -> Qderiv c t d ->
  has_local_velocity (fun s => quat_rot (c s)) t (local_of_quatdiff (c t) d).
Proof.
  intros U H. unfold has_local_velocity. rewrite quat_local_identity, U, (unit_curve_tangent _ _ _ U H).
  replace (2 * 0) with 0 by ring. rewrite msub_scale1. apply quat_rot_deriv, H.
Qed.
Lemma quat_curve_global c t d : (forall s, qnorm2 (c s) = 1) -> Qderiv c t d ->
  has_global_velocity (fun s => quat_rot (c s)) t (global_of_quatdiff (c t) d).
Proof.
  intros U H. unfold has_global_velocity. rewrite quat_global_identity, U, (unit_curve_tangent _ _ _ U H).
  replace (2 * 0) with 0 by ring. rewrite msub_scale1. apply quat_rot_deriv, H.
Qed.

Lemma local_quatdiff_back q w : qnorm2 q = 1 -> local_of_quatdiff q (quatdiff_of_local q w) = w.
Proof.
  intros H. transitivity (vscale (qnorm2 q) w); [|rewrite H; lin].
  clear. destruct q, w. diff_unfold. f_equal; field.
Qed.
Lemma global_quatdiff_back q w : qnorm2 q = 1 -> global_of_quatdiff q (quatdiff_of_global q w) = w.
Proof.
  intros H. transitivity (vscale (qnorm2 q) w); [|rewrite H; lin].
  clear. destruct q, w. diff_unfold. f_equal; field.
Qed.
Lemma quatdiff_tangent q w : qdotp q (quatdiff_of_local q w) = 0 /\ qdotp q (quatdiff_of_global q w) = 0.
Proof. destruct q, w. unfold qdotp. diff_unfold. split; ring. Qed.
Lemma quatdiff_local_back q dq : qnorm2 q = 1 -> qdotp q dq = 0 ->
  quatdiff_of_local q (local_of_quatdiff q dq) = dq.
Proof.
  intros H K.
  transitivity (mkQ (qnorm2 q * qw dq - qdotp q dq * qw q) (qnorm2 q * qx dq - qdotp q dq * qx q)
                    (qnorm2 q * qy dq - qdotp q dq * qy q) (qnorm2 q * qz dq - qdotp q dq * qz q)).
  - clear. destruct q, dq. unfold qdotp. diff_unfold. f_equal; field.
  - rewrite H, K. destruct dq; simpl; f_equal; ring.
Qed.
Lemma quatdiff_global_back q dq : qnorm2 q = 1 -> qdotp q dq = 0 ->
  quatdiff_of_global q (global_of_quatdiff q dq) = dq.
Proof.
  intros H K.
  transitivity (mkQ (qnorm2 q * qw dq - qdotp q dq * qw q) (qnorm2 q * qx dq - qdotp q dq * qx q)
                    (qnorm2 q * qy dq - qdotp q dq * qy q) (qnorm2 q * qz dq - qdotp q dq * qz q)).
  - clear. destruct q, dq. unfold qdotp. diff_unfold. f_equal; field.
  - rewrite H, K. destruct dq; simpl; f_equal; ring.
Qed.

(** ** Matrices *)
Lemma skew_mcross w : getSkewMatrixFromVector w = mcross w.
Proof. reflexivity. Qed.
Lemma unskew_skew w : getVectorFromSkewMatrix (mcross w) = w.
Proof. destruct w; reflexivity. Qed.
(** antisymmetric matrices are skew matrices *)
Lemma antisym_mcross a : mtrans a = mscale (-1) a -> a = mcross (getVectorFromSkewMatrix a).
Proof.
  intros H.
  pose proof (f_equal m00 H); pose proof (f_equal m11 H); pose proof (f_equal m22 H).
  pose proof (f_equal m10 H); pose proof (f_equal m20 H); pose proof (f_equal m21 H).
  destruct a as [a0 a1 a2 a3 a4 a5 a6 a7 a8]; cbv [getVectorFromSkewMatrix mcross]; lin_unfold.
  f_equal; lra.
Qed.
Lemma local_matdiff_back m w : SO3 m -> local_of_matdiff m (matdiff_of_local m w) = w.
Proof.
  intros (H & _). unfold local_of_matdiff, matdiff_of_local.
  rewrite mmul_assoc, (mmul_inv_comm _ _ H), mmul_id_l. apply unskew_skew.
Qed.
Lemma global_matdiff_back m w : SO3 m -> global_of_matdiff m (matdiff_of_global m w) = w.
Proof.
  intros (H & _). unfold global_of_matdiff, matdiff_of_global.
  rewrite <- mmul_assoc, H, mmul_id_r. apply unskew_skew.
Qed.
Lemma Mderiv_trans c t d : Mderiv c t d -> Mderiv (fun s => mtrans (c s)) t (mtrans d).
Proof. unfold Mderiv, mtrans; cbn; tauto. Qed.
Lemma Mderiv_mmul a b t da db : Mderiv a t da -> Mderiv b t db ->
  Mderiv (fun s => mmul (a s) (b s)) t (madd (mmul da (b t)) (mmul (a t) db)).
Proof.
  intros ((A1&A2&A3)&(A4&A5&A6)&(A7&A8&A9)) ((B1&B2&B3)&(B4&B5&B6)&(B7&B8&B9)).
  destruct da as [a0 a1 a2 a3 a4 a5 a6 a7 a8], db as [b0 b1 b2 b3 b4 b5 b6 b7 b8].
  unfold Mderiv, mmul, madd. cbn [m00 m01 m02 m10 m11 m12 m20 m21 m22] in *.
  repeat split; (dl_solve; ring).
Qed.
Lemma Mderiv_const m t : Mderiv (fun _ => m) t mzero.
Proof. unfold Mderiv, mzero; cbn. repeat split; apply dl_const. Qed.
Lemma Mderiv_ext f g t d : (forall s, f s = g s) -> Mderiv f t d -> Mderiv g t d.
Proof.
  intros E ((A1&A2&A3)&(A4&A5&A6)&(A7&A8&A9)).
  repeat split; (eapply dl_ext; [|eassumption]); intros s; cbv beta; rewrite E; reflexivity.
Qed.

Lemma madd_neg a b : madd a b = mzero -> a = mscale (-1) b.
Proof.
  intros H.
  pose proof (f_equal m00 H); pose proof (f_equal m01 H); pose proof (f_equal m02 H).
  pose proof (f_equal m10 H); pose proof (f_equal m11 H); pose proof (f_equal m12 H).
  pose proof (f_equal m20 H); pose proof (f_equal m21 H); pose proof (f_equal m22 H).
  clear H. destruct a, b; cbn in *; unfold mscale; cbn; f_equal; lra.
Qed.
Lemma mat_curve_local c t d : (forall s, SO3 (c s)) -> Mderiv c t d ->
  has_local_velocity c t (local_of_matdiff (c t) d).
Proof.
  intros S H. pose proof (Mderiv_mmul _ _ _ _ _ (Mderiv_trans _ _ _ H) H) as P. cbv beta in P.
  assert (Z : Mderiv (fun s => mmul (mtrans (c s)) (c s)) t mzero).
  { apply (Mderiv_ext (fun _ => mid)); [|apply Mderiv_const].
    intros s. symmetry. destruct (S s) as (A & _). apply mmul_inv_comm, A. }
  pose proof (Mderiv_uniq _ _ _ _ P Z) as E. apply madd_neg in E.
  unfold has_local_velocity, local_of_matdiff. rewrite <- antisym_mcross.
  - rewrite mmul_assoc. destruct (S t) as (A & _). rewrite A, mmul_id_l. exact H.
  - rewrite mtrans_mmul, mtrans_mtrans. exact E.
Qed.
Lemma mat_curve_global c t d : (forall s, SO3 (c s)) -> Mderiv c t d ->
  has_global_velocity c t (global_of_matdiff (c t) d).
Proof.
  intros S H. pose proof (Mderiv_mmul _ _ _ _ _ H (Mderiv_trans _ _ _ H)) as P. cbv beta in P.
  assert (Z : Mderiv (fun s => mmul (c s) (mtrans (c s))) t mzero).
  { apply (Mderiv_ext (fun _ => mid)); [|apply Mderiv_const].
    intros s. symmetry. apply (S s). }
  pose proof (Mderiv_uniq _ _ _ _ P Z) as E.
  assert (E' : madd (mmul (c t) (mtrans d)) (mmul d (mtrans (c t))) = mzero).
  { rewrite <- E. clear. generalize (mmul (c t) (mtrans d)) (mmul d (mtrans (c t))). lin. }
  apply madd_neg in E'.
  unfold has_global_velocity, global_of_matdiff. rewrite <- antisym_mcross.
  - rewrite <- mmul_assoc. destruct (S t) as (A & _). rewrite (mmul_inv_comm _ _ A), mmul_id_r. exact H.
  - rewrite mtrans_mmul, mtrans_mtrans. exact E'.
Qed.

(** ** Euler angles *)
Ltac sc1 := (* sin^2 = 1 - cos^2 for every angle in the goal *)
  repeat match goal with
  | |- context [sin ?a] => 
      let H := fresh "SC" in pose proof (sin2_cos2 a) as H; unfold Rsqr in H;
      assert (sin a * sin a = 1 - cos a * cos a) by lra; clear H;
      generalize dependent (sin a); generalize dependent (cos a); intros
  end.

Ltac euler_unfold :=
  cbv beta iota zeta delta [zyx_rot xyz_rot Rot_x Rot_y Rot_z zyx_diff_to_local
    xyz_diff_to_local xyz_diff_to_global xyz_second_to_local xyz_second_to_global mcross mmul mvmul
    m00 m01 m02 m10 m11 m12 m20 m21 m22 vx vy vz].

Lemma zyx_curve_local c t d : Zyxderiv c t d ->
  has_local_velocity (fun s => zyx_rot (c s)) t (mvmul (zyx_diff_to_local (c t)) d).
Proof.
  intros (H0 & H1 & H2). destruct d as [d0 d1 d2]. unfold has_local_velocity, Mderiv.
  euler_unfold. cbn [vx vy vz] in *.
  repeat split; dl_solve; sc1;
    match goal with
    | H1 : _ * _ = 1 - _, H2 : _ * _ = 1 - _, H3 : _ * _ = 1 - _ |- _ => ring [H1 H2 H3]
    | H1 : _ * _ = 1 - _, H2 : _ * _ = 1 - _ |- _ => ring [H1 H2]
    end.
Qed.
Lemma xyz_curve_local c t d : Xyzderiv c t d ->
  has_local_velocity (fun s => xyz_rot (c s)) t (mvmul (xyz_diff_to_local (c t)) d).
Proof.
  intros (H0 & H1 & H2). destruct d as [d0 d1 d2]. unfold has_local_velocity, Mderiv.
  euler_unfold. cbn [vx vy vz] in *.
  repeat split; dl_solve; sc1;
    match goal with
    | H1 : _ * _ = 1 - _, H2 : _ * _ = 1 - _, H3 : _ * _ = 1 - _ |- _ => ring [H1 H2 H3]
    | H1 : _ * _ = 1 - _, H2 : _ * _ = 1 - _ |- _ => ring [H1 H2]
    end.
Qed.
Lemma xyz_curve_global c t d : Xyzderiv c t d ->
  has_global_velocity (fun s => xyz_rot (c s)) t (mvmul (xyz_diff_to_global (c t)) d).
Proof.
  intros (H0 & H1 & H2). destruct d as [d0 d1 d2]. unfold has_global_velocity, Mderiv.
  euler_unfold. cbn [vx vy vz] in *.
  repeat split; dl_solve; sc1;
    match goal with
    | H1 : _ * _ = 1 - _, H2 : _ * _ = 1 - _, H3 : _ * _ = 1 - _ |- _ => ring [H1 H2 H3]
    | H1 : _ * _ = 1 - _, H2 : _ * _ = 1 - _ |- _ => ring [H1 H2]
    end.
Qed.
