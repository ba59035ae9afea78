(** * DiffFacts2: inverse rate mappings, second-order mappings. *)
From Coq Require Import Reals Lra Psatz Bool.
From Verif Require Import Linalg Spec SpecFacts SpecDiff ModelCommon ModelEigen ModelRotation ModelDiff DerivFacts DiffFacts.
Local Open Scope R_scope.

Ltac map_unfold :=
  cbv beta iota zeta delta [zyx_diff_to_local xyz_diff_to_local xyz_diff_to_global
    mid mmul mvmul m00 m01 m02 m10 m11 m12 m20 m21 m22 vx vy vz].
Ltac sc_field :=
  repeat match goal with
  | |- context [sin ?a] =>
      let H := fresh "SC" in pose proof (sin2_cos2 a) as H; unfold Rsqr in H;
      assert (sin a * sin a = 1 - cos a * cos a) by lra; clear H;
      generalize dependent (sin a); generalize dependent (cos a); intros
  end;
  match goal with
    | H1 : _ * _ = 1 - _, H2 : _ * _ = 1 - _, H3 : _ * _ = 1 - _ |- _ => field [H1 H2 H3]
    | H1 : _ * _ = 1 - _, H2 : _ * _ = 1 - _ |- _ => field [H1 H2]
    | H1 : _ * _ = 1 - _ |- _ => field [H1]
    | |- _ => field
    end; try assumption.

Lemma zyx_inverse e m : zyx_local_to_diff e = Val m ->
  cos (zpitch e) <> 0 /\ mmul m (zyx_diff_to_local e) = mid /\ mmul (zyx_diff_to_local e) m = mid.
Proof.
  unfold zyx_local_to_diff. destruct (Req_EM_T _ 0) as [E|N]; [discriminate|]. intros H.
  injection H as <-. split; [exact N|].
  enough (G : mmul (zyx_diff_to_local e) (mkM33 0 (1 / cos (zpitch e) * sin (zroll e)) (1 / cos (zpitch e) * cos (zroll e)) 0 (cos (zroll e)) (- sin (zroll e)) 1
    (1 / cos (zpitch e) * sin (zroll e) * sin (zpitch e)) (1 / cos (zpitch e) * cos (zroll e) * sin (zpitch e))) = mid)
    by (split; [apply mmul_inv_comm, G|exact G]).
  map_unfold. f_equal; sc_field.
Qed.
Lemma xyz_local_inverse e m : xyz_local_to_diff e = Val m ->
  cos (xpitch e) <> 0 /\ mmul m (xyz_diff_to_local e) = mid /\ mmul (xyz_diff_to_local e) m = mid.
Proof.
  unfold xyz_local_to_diff. destruct (Req_EM_T _ 0) as [E|N]; [discriminate|]. intros H.
  apply (f_equal (fun x => match x with Val a => a | _ => mid end)) in H. cbv beta iota zeta in H. subst m.
  split; [exact N|].
  match goal with |- mmul ?a ?b = mid /\ _ => enough (G : mmul b a = mid) by (split; [apply mmul_inv_comm, G|exact G]) end.
  map_unfold. f_equal; sc_field.
Qed.
Lemma xyz_global_inverse e m : xyz_global_to_diff e = Val m ->
  cos (xpitch e) <> 0 /\ mmul m (xyz_diff_to_global e) = mid /\ mmul (xyz_diff_to_global e) m = mid.
Proof.
  unfold xyz_global_to_diff. destruct (Req_EM_T _ 0) as [E|N]; [discriminate|]. intros H.
  apply (f_equal (fun x => match x with Val a => a | _ => mid end)) in H. cbv beta iota zeta in H. subst m.
  split; [exact N|].
  match goal with |- mmul ?a ?b = mid /\ _ => enough (G : mmul b a = mid) by (split; [apply mmul_inv_comm, G|exact G]) end.
  map_unfold. f_equal; sc_field.
Qed.

(** ** Gimbal lock *)
Lemma zyx_throws e : zyx_local_to_diff e = Throws <-> cos (zpitch e) = 0.
Proof. unfold zyx_local_to_diff. destruct (Req_EM_T _ 0); split; intros; try assumption; try reflexivity; try discriminate; contradiction. Qed.
Lemma xyz_local_throws e : xyz_local_to_diff e = Throws <-> cos (xpitch e) = 0.
Proof. unfold xyz_local_to_diff. destruct (Req_EM_T _ 0); split; intros; try assumption; try reflexivity; try discriminate; contradiction. Qed.
Lemma xyz_global_throws e : xyz_global_to_diff e = Throws <-> cos (xpitch e) = 0.
Proof. unfold xyz_global_to_diff. destruct (Req_EM_T _ 0); split; intros; try assumption; try reflexivity; try discriminate; contradiction. Qed.
Lemma zyx_no_nan e : zyx_local_to_diff e <> NaN.
Proof. unfold zyx_local_to_diff. destruct (Req_EM_T _ 0); discriminate. Qed.
Lemma xyz_local_no_nan e : xyz_local_to_diff e <> NaN.
Proof. unfold xyz_local_to_diff. destruct (Req_EM_T _ 0); discriminate. Qed.
Lemma xyz_global_no_nan e : xyz_global_to_diff e <> NaN.
Proof. unfold xyz_global_to_diff. destruct (Req_EM_T _ 0); discriminate. Qed.

Lemma zyx_singular e : cos (zpitch e) = 0 -> exists w, forall d, mvmul (zyx_diff_to_local e) d <> w.
Proof.
  intros E. exists (mkV3 0 (sin (zroll e)) (cos (zroll e))). intros d H.
  pose proof (f_equal vy H) as H1. pose proof (f_equal vz H) as H2.
  destruct d as [d0 d1 d2]. cbv [zyx_diff_to_local mvmul m10 m11 m12 m20 m21 m22 vx vy vz] in H1, H2.
  rewrite E in H1, H2. pose proof (sin2_cos2 (zroll e)) as S; unfold Rsqr in S. nra.
Qed.
Lemma xyz_local_singular e : cos (xpitch e) = 0 -> exists w, forall d, mvmul (xyz_diff_to_local e) d <> w.
Proof.
  intros E. exists (mkV3 (cos (xyaw e)) (- sin (xyaw e)) 0). intros d H.
  pose proof (f_equal vx H) as H1. pose proof (f_equal vy H) as H2.
  destruct d as [d0 d1 d2]. cbv [xyz_diff_to_local mvmul m00 m01 m02 m10 m11 m12 m20 m21 m22 vx vy vz] in H1, H2.
  rewrite E in H1, H2. pose proof (sin2_cos2 (xyaw e)) as S; unfold Rsqr in S. nra.
Qed.
Lemma xyz_global_singular e : cos (xpitch e) = 0 -> exists w, forall d, mvmul (xyz_diff_to_global e) d <> w.
Proof.
  intros E. exists (mkV3 0 (- sin (xroll e)) (cos (xroll e))). intros d H.
  pose proof (f_equal vy H) as H1. pose proof (f_equal vz H) as H2.
  destruct d as [d0 d1 d2]. cbv [xyz_diff_to_global mvmul m00 m01 m02 m10 m11 m12 m20 m21 m22 vx vy vz] in H1, H2.
  rewrite E in H1, H2. pose proof (sin2_cos2 (xroll e)) as S; unfold Rsqr in S. nra.
Qed.

(** ** Second-order mappings *)
Lemma second_to_local c t d : Xyzderiv c t d ->
  Mderiv (fun s => xyz_diff_to_local (c s)) t (xyz_second_to_local d (c t)).
Proof.
  intros (H0 & H1 & H2). destruct d as [d0 d1 d2]. unfold Mderiv.
  euler_unfold. cbn [vx vy vz] in *.
  repeat split; dl_solve; ring.
Qed.
Lemma second_to_global c t d : Xyzderiv c t d ->
  Mderiv (fun s => xyz_diff_to_global (c s)) t (xyz_second_to_global d (c t)).
Proof.
  intros (H0 & H1 & H2). destruct d as [d0 d1 d2]. unfold Mderiv.
  euler_unfold. cbn [vx vy vz] in *.
  repeat split; dl_solve; ring.
Qed.
Lemma Mderiv_local f g t d (e : posreal) : (forall s, Rabs (s - t) < e -> f s = g s) -> Mderiv f t d -> Mderiv g t d.
Proof.
  intros E ((A1&A2&A3)&(A4&A5&A6)&(A7&A8&A9)).
  repeat split; (eapply (dl_local _ _ _ _ e); [|eassumption]); intros s Hs; cbv beta; rewrite (E s Hs); reflexivity.
Qed.

Lemma local_to_second c t d (first : R -> M33) (e : posreal) : Xyzderiv c t d ->
  (forall s, Rabs (s - t) < e -> xyz_local_to_diff (c s) = Val (first s)) ->
  exists m, xyz_local_to_second d (c t) = Val m /\ Mderiv first t m.
Proof.
  intros H F.
  assert (N : cos (xpitch (c t)) <> 0).
  { destruct (xyz_local_inverse (c t) (first t)) as (N & _); [|exact N].
    apply F. replace (t - t) with 0 by ring. rewrite Rabs_R0. apply cond_pos. }
  unfold xyz_local_to_second. destruct (Req_EM_T _ 0) as [E|_]; [contradiction|].
  eexists. split; [reflexivity|].
  apply (Mderiv_local (fun s => let y := xpitch (c s) in let z := xyaw (c s) in
     mkM33 (1 / cos y * cos z) (- (1 / cos y) * sin z) 0 (sin z) (cos z) 0
       (- (1 / cos y) * cos z * sin y) (1 / cos y * sin z * sin y) 1) first t _ e).
  - intros s Hs. specialize (F s Hs). unfold xyz_local_to_diff in F.
    destruct (Req_EM_T _ 0); [discriminate|].
    apply (f_equal (fun x => match x with Val a => a | _ => mid end)) in F. exact F.
  - destruct H as (H0 & H1 & H2). destruct d as [d0 d1 d2]. unfold Mderiv.
    cbv beta iota zeta delta [m00 m01 m02 m10 m11 m12 m20 m21 m22 vx vy vz] in *.
    repeat split; (dl_solve; [exact N..|]); sc_field.
Qed.
Lemma global_to_second c t d (first : R -> M33) (e : posreal) : Xyzderiv c t d ->
  (forall s, Rabs (s - t) < e -> xyz_global_to_diff (c s) = Val (first s)) ->
  exists m, xyz_global_to_second d (c t) = Val m /\ Mderiv first t m.
Proof.
  intros H F.
  assert (N : cos (xpitch (c t)) <> 0).
  { destruct (xyz_global_inverse (c t) (first t)) as (N & _); [|exact N].
    apply F. replace (t - t) with 0 by ring. rewrite Rabs_R0. apply cond_pos. }
  unfold xyz_global_to_second. destruct (Req_EM_T _ 0) as [E|_]; [contradiction|].
  eexists. split; [reflexivity|].
  apply (Mderiv_local (fun s => let x := xroll (c s) in let y := xpitch (c s) in
     mkM33 1 (1 / cos y * sin y * sin x) (- (1 / cos y) * sin y * cos x) 0 (cos x) (sin x)
       0 (- (1 / cos y) * sin x) (1 / cos y * cos x)) first t _ e).
  - intros s Hs. specialize (F s Hs). unfold xyz_global_to_diff in F.
    destruct (Req_EM_T _ 0); [discriminate|].
    apply (f_equal (fun x => match x with Val a => a | _ => mid end)) in F. exact F.
  - destruct H as (H0 & H1 & H2). destruct d as [d0 d1 d2]. unfold Mderiv.
    cbv beta iota zeta delta [m00 m01 m02 m10 m11 m12 m20 m21 m22 vx vy vz] in *.
    repeat split; (dl_solve; [exact N..|]); sc_field.
Qed.
