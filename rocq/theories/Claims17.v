(** * Claims17: time derivatives of rotations as objects (C69). *)
From Coq Require Import Reals Lra Psatz Bool List ZArith Lia.
From Verif Require Import Linalg Spec SpecRates SpecDiff SpecFacts ModelCommon ModelEigen ModelRotation ModelDiff ModelRates SpecDcall RotFacts.
Local Open Scope R_scope.
Import ListNotations.

Ltac two_names n i j := destruct n as [| | | | | | |i j]; try (destruct i as [|[|[|?]]]; destruct j as [|[|[|?]]]).
Lemma dstep_class x k y : dstep x k = Some y -> class_of y = class_of x.
Proof.
  destruct k as [d|d|d|d|f| |m u|d].
  1-4, 8: destruct x, d; cbn [dstep diff_add diff_sub]; intros H; try discriminate H; injection H; intros; subst; reflexivity.
  - destruct x; cbn [dstep]; intros H; try discriminate H; injection H; intros; subst; reflexivity.
  - destruct x; cbn [dstep]; intros H; injection H; intros; subst; reflexivity.
  - destruct x as [d|d|d|d|d|d]; [destruct d as [a b c d]|destruct d as [a b c d e f g h l]|destruct d..]; cbn [dstep]; intros H;
    two_names m k l'; try discriminate H; cbn in H; injection H; intros; subst; reflexivity.
Qed.
Lemma dread_has x n : (exists v, dread x n = Some v) <-> has_rate (class_of x) n = true.
Proof.
  destruct x, n; cbn; split; intros H; try (destruct H; discriminate); try discriminate H; try reflexivity; try (eexists; reflexivity).
  - destruct H as [v H]. destruct i as [|[|[|?]]]; destruct j as [|[|[|?]]]; try discriminate H; reflexivity.
  - destruct i as [|[|[|?]]]; destruct j as [|[|[|?]]]; try discriminate H; eexists; reflexivity.
Qed.
Lemma dstep_effect x k y n v : dstep x k = Some y -> dread x n = Some v -> dread y n = Some (effect (class_of x) n v k).
Proof.
  destruct k as [d|d|d|d|f| |m u|d].
  1-4: destruct x, d; cbn [dstep diff_add diff_sub]; intros H R; try discriminate H; injection H; intros; subst;
       two_names n i j; try discriminate R; cbn in R |- *; injection R; intros; subst; reflexivity.
  - destruct x; cbn [dstep]; intros H R; try discriminate H; injection H; intros; subst;
       two_names n i j; try discriminate R; cbn in R |- *; injection R; intros; subst; reflexivity.
  - destruct x; cbn [dstep]; intros H R; injection H; intros; subst;
       two_names n i j; try discriminate R; cbn in R |- *; reflexivity.
  - destruct x as [d|d|d|d|d|d]; [destruct d as [a b c d]|destruct d as [a b c d e f g h l]|destruct d..]; cbn [dstep]; intros H R;
    two_names m k l'; try discriminate H; cbn in H; injection H; intros; subst;
    two_names n i j; try discriminate R; cbn in R |- *; exact R || reflexivity.
  - destruct x, d; cbn [dstep]; intros H R; try discriminate H; injection H; intros; subst;
       two_names n i j; try discriminate R; cbn in R |- *; reflexivity.
Qed.
(** C69: an object of any derivative class after any history of calls that
    compiles: it has kept its class, and every rate, under each of its names,
    is what the documented effects of the calls make of its initial value. *)
Lemma C69_history_lemma : forall (l : list dcall) (x y : diff), drun x l = Some y ->
  class_of y = class_of x /\
  (forall n v, dread x n = Some v -> dread y n = Some (fold_left (effect (class_of x) n) l v)) /\
  (forall n, (exists v, dread y n = Some v) <-> has_rate (class_of x) n = true) /\
  map (dread y) (vector_order (class_of x)) = map Some (dvector y).
Proof.
  intros l x y H.
  assert (A : class_of y = class_of x /\ forall n v, dread x n = Some v -> dread y n = Some (fold_left (effect (class_of x) n) l v)).
  { revert x H. induction l as [|k l IH]; intros x H; cbn [drun fold_left] in *.
    - injection H; intros; subst. split; auto.
    - destruct (dstep x k) as [z|] eqn:E; [|discriminate H]. destruct (IH z H) as [C D].
      pose proof (dstep_class _ _ _ E) as CZ. split; [congruence|]. intros n v R. rewrite <- CZ.
      apply D. rewrite CZ. now apply dstep_effect. }
  destruct A as [C D]. split; [exact C|]. split; [exact D|]. split.
  - intros n. rewrite <- C. apply dread_has.
  - rewrite <- C. destruct y; reflexivity.
Qed.
Lemma C69_history_ex :
  drun (DZyx (mkV3 1 2 3)) [CallPlus (DZyx (mkV3 10 20 30)); CallWrite X 7; CallMinus (DZyx (mkV3 1 1 1))]
    = Some (DZyx (mkV3 (1 + 10 - 1) (2 + 20 - 1) (7 - 1))) /\
  drun (DLocal (mkV3 1 2 3)) [CallPlusAssign (DGlobal (mkV3 1 0 0)); CallTimes 2; CallMinusAssign (DLocal (mkV3 0 1 0))] <> None.
Proof. split; [reflexivity|discriminate]. Qed.

(** f a + g b in each representation *)
Definition vcomb f a g b := vadd (vscale f a) (vscale g b).
Definition mcomb f a g b := madd (mscale f a) (mscale g b).
Definition qcomb f a g b := mkQ (f * qw a + g * qw b) (f * qx a + g * qx b) (f * qy a + g * qy b) (f * qz a + g * qz b).
Definition dcomb f a g b : option diff :=
  match a, b with
  | DQuat x, DQuat y => Some (DQuat (qcomb f x g y))
  | DMat x, DMat y => Some (DMat (mcomb f x g y))
  | DZyx x, DZyx y => Some (DZyx (vcomb f x g y))
  | DXyz x, DXyz y => Some (DXyz (vcomb f x g y))
  | DLocal x, DLocal y => Some (DLocal (vcomb f x g y))
  | DGlobal x, DGlobal y => Some (DGlobal (vcomb f x g y))
  | _, _ => None
  end.
Lemma comb_iff f a g b s : combination f a g b s <-> dcomb f a g b = Some s.
Proof.
  split.
  - intros (C & C' & H). destruct a, b; try discriminate C; destruct s; try discriminate C'; cbn [dcomb]; f_equal.
    + pose proof (H W _ _ eq_refl eq_refl) as H1. pose proof (H X _ _ eq_refl eq_refl) as H2.
      pose proof (H Y _ _ eq_refl eq_refl) as H3. pose proof (H Z _ _ eq_refl eq_refl) as H4. cbn in H1, H2, H3, H4.
      destruct d1. cbn in *. unfold qcomb. congruence.
    + pose proof (H (Entry 0 0) _ _ eq_refl eq_refl) as H1. pose proof (H (Entry 0 1) _ _ eq_refl eq_refl) as H2. pose proof (H (Entry 0 2) _ _ eq_refl eq_refl) as H3.
      pose proof (H (Entry 1 0) _ _ eq_refl eq_refl) as H4. pose proof (H (Entry 1 1) _ _ eq_refl eq_refl) as H5. pose proof (H (Entry 1 2) _ _ eq_refl eq_refl) as H6.
      pose proof (H (Entry 2 0) _ _ eq_refl eq_refl) as H7. pose proof (H (Entry 2 1) _ _ eq_refl eq_refl) as H8. pose proof (H (Entry 2 2) _ _ eq_refl eq_refl) as H9.
      cbn in H1, H2, H3, H4, H5, H6, H7, H8, H9. destruct d1. cbn in *. unfold mcomb, madd, mscale. cbn. congruence.
    + pose proof (H X _ _ eq_refl eq_refl) as H1. pose proof (H Y _ _ eq_refl eq_refl) as H2. pose proof (H Z _ _ eq_refl eq_refl) as H3.
      cbn in H1, H2, H3. destruct d1. cbn in *. unfold vcomb, vadd, vscale; cbn. congruence.
    + pose proof (H X _ _ eq_refl eq_refl) as H1. pose proof (H Y _ _ eq_refl eq_refl) as H2. pose proof (H Z _ _ eq_refl eq_refl) as H3.
      cbn in H1, H2, H3. destruct d1. cbn in *. unfold vcomb, vadd, vscale; cbn. congruence.
    + pose proof (H X _ _ eq_refl eq_refl) as H1. pose proof (H Y _ _ eq_refl eq_refl) as H2. pose proof (H Z _ _ eq_refl eq_refl) as H3.
      cbn in H1, H2, H3. destruct w1. cbn in *. unfold vcomb, vadd, vscale; cbn. congruence.
    + pose proof (H X _ _ eq_refl eq_refl) as H1. pose proof (H Y _ _ eq_refl eq_refl) as H2. pose proof (H Z _ _ eq_refl eq_refl) as H3.
      cbn in H1, H2, H3. destruct w1. cbn in *. unfold vcomb, vadd, vscale; cbn. congruence.
  - intros H. destruct a, b; try discriminate H; injection H; intros; subst; (split; [reflexivity|split; [reflexivity|]]);
     intros n u v A B; two_names n i j; try discriminate A; cbn in A, B |- *; congruence.
Qed.
Lemma mvmul_comb m f a g b : mvmul m (vcomb f a g b) = vcomb f (mvmul m a) g (mvmul m b).
Proof. unfold vcomb. lin. Qed.
Lemma rotate_comb p r f a g b x y : rotate p r a = Val x -> rotate p r b = Val y -> rotate p r (vcomb f a g b) = Val (vcomb f x g y).
Proof.
  unfold rotate. destruct (to_mat p r) as [m| |]; cbn [obind]; intros A B; try discriminate A.
  injection A; injection B; intros; subst. now rewrite mvmul_comb.
Qed.
Lemma inverseRotate_comb p r f a g b x y : inverseRotate p r a = Val x -> inverseRotate p r b = Val y -> inverseRotate p r (vcomb f a g b) = Val (vcomb f x g y).
Proof. unfold inverseRotate. destruct (inverted r) as [i| |]; cbn [obind]; intros A B; try discriminate A. eapply rotate_comb; eassumption. Qed.
(** C69: every conversion between two classes of derivatives, at a fixed
    rotation, is linear: superposed derivatives convert to superposed
    derivatives (so the angular velocity of a sum is the sum of the angular
    velocities), and the zero derivative converts to the zero derivative. *)
Lemma C69_superposition_lemma : forall (p : prim) (k : dkind) (r : rotation) (f g : R) (a b s x y : diff),
  combination f a g b s ->
  diff_convert p k r a = Some (Val x) -> diff_convert p k r b = Some (Val y) ->
  exists z, diff_convert p k r s = Some (Val z) /\ combination f x g y z.
Proof.
  intros p k r f g a b s x y C A B. apply comb_iff in C.
  assert (G : forall z, dcomb f x g y = Some z -> diff_convert p k r s = Some (Val z) -> exists z, diff_convert p k r s = Some (Val z) /\ combination f x g y z)
    by (intros z E F; exists z; split; [exact F|apply comb_iff; exact E]).
  destruct k, a; try discriminate A; destruct b; try discriminate C; injection C; intros; subst s; clear C; cbn [diff_convert] in A, B, G |- *.
  1-4, 7-10, 12-14: destruct r; try discriminate A; injection A; injection B; intros; subst; eapply G; [reflexivity|]; do 3 f_equal;
       unfold quatdiff_of_local, quatdiff_of_global, matdiff_of_local, matdiff_of_global, local_of_quatdiff, global_of_quatdiff, local_of_matdiff, global_of_matdiff,
        m34_apply, m34_tapply, getLocalQuaternionDiffMatrix, getGlobalQuaternionDiffMatrix, getSkewMatrixFromVector, getVectorFromSkewMatrix, dot4, ModelDiff.qscale, qcomb, mcomb, vcomb;
       apply mvmul_comb || lin.
  - destruct r; try discriminate A. destruct (zyx_local_to_diff e); try discriminate A. injection A; injection B; intros; subst.
    eapply G; [reflexivity|]. cbn. now rewrite mvmul_comb.
  - destruct r; try discriminate A. destruct (xyz_local_to_diff e); try discriminate A. injection A; injection B; intros; subst.
    eapply G; [reflexivity|]. cbn. now rewrite mvmul_comb.
  - destruct (inverseRotate p r w) as [u| |] eqn:E1; try discriminate A. destruct (inverseRotate p r w0) as [v| |] eqn:E2; try discriminate B.
    injection A; injection B; intros; subst. eapply G; [reflexivity|]. now rewrite (inverseRotate_comb p r f w g w0 u v E1 E2).
  - destruct (rotate p r w) as [u| |] eqn:E1; try discriminate A. destruct (rotate p r w0) as [v| |] eqn:E2; try discriminate B.
    injection A; injection B; intros; subst. eapply G; [reflexivity|]. now rewrite (rotate_comb p r f w g w0 u v E1 E2).
Qed.
Lemma C69_superposition_ex : forall p,
  combination 2 (DLocal (mkV3 1 0 0)) 3 (DLocal (mkV3 0 1 0)) (DLocal (mkV3 2 3 0)) /\
  exists x, diff_convert p KDXyz (RotXyz (mkXyz 0 0 0)) (DLocal (mkV3 1 0 0)) = Some (Val x).
Proof.
  intros p. split.
  - split; [reflexivity|split; [reflexivity|]]. intros n u v A B. two_names n i j; try discriminate A; cbn in A, B |- *;
    injection A; injection B; intros; subst; f_equal; ring.
  - cbn [diff_convert]. unfold xyz_local_to_diff. cbn [xroll xpitch xyaw]. rewrite cos_0. destruct (Req_EM_T 1 0); [lra|]. cbn. eexists; reflexivity.
Qed.

(** C69: the sum of two derivatives of one class, and hence the sum of what they
    convert to: adding before or after a conversion is the same. *)
Lemma C69_sum_lemma : forall (a b s d : diff), class_of a = class_of b ->
  (diff_add a b = Some s -> combination 1 a 1 b s) /\ (diff_sub a b = Some d -> combination 1 a (-1) b d) /\
  (forall (p : prim) (k : dkind) (r : rotation) (x y z : diff),
     diff_add a b = Some s -> diff_convert p k r a = Some (Val x) -> diff_convert p k r b = Some (Val y) ->
     diff_convert p k r s = Some (Val z) -> combination 1 x 1 y z).
Proof.
  intros a b s d C.
  assert (P : forall v : V3, vscale 1 v = v) by (clear; lin). assert (N : forall v : V3, vscale (-1) v = vsub vzero v) by (clear; lin).
  assert (Pm : forall v : M33, mscale 1 v = v) by (clear; lin).
  assert (Q : diff_add a b = Some s -> combination 1 a 1 b s).
  { intros H. apply comb_iff. destruct a, b; try discriminate C; try discriminate H; injection H; intros; subst; cbn [dcomb]; do 2 apply f_equal; unfold vcomb, mcomb; rewrite ?P, ?Pm; reflexivity. }
  split; [exact Q|]. split.
  - intros H. apply comb_iff. destruct a, b; try discriminate C; try discriminate H; injection H; intros; subst; cbn [dcomb]; do 2 apply f_equal; unfold vcomb, mcomb; clear; lin.
  - intros p k r x y z H A B D. destruct (C69_superposition_lemma p k r 1 1 a b s x y (Q H) A B) as (z' & E & K).
    assert (z' = z) by congruence. subst. exact K.
Qed.
Lemma C69_sum_ex : diff_add (DXyz (mkV3 1 2 3)) (DXyz (mkV3 4 5 6)) = Some (DXyz (mkV3 (1 + 4) (2 + 5) (3 + 6))).
Proof. reflexivity. Qed.
