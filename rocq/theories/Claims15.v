(** * Claims15: accessors, setters, constructors (C65). *)
From Coq Require Import Reals Lra Psatz Bool List ZArith Lia.
From Verif Require Import Linalg Spec SpecAccess SpecFacts ModelCommon ModelEigen ModelRotation ModelDebug ModelAccess CommonFacts QuatDebugFacts AccessFacts.
Local Open Scope R_scope.
Import ListNotations.

(** C65: after any history of setter calls on an object of any class, every
    accessor returns, for each parameter it is documented to return, the value
    last written to that parameter, or the value it had before when the
    history does not write it. *)
Lemma C65_setters_and_accessors_lemma : forall (c : cls) (m : mem) (hs : list (setter c)) (before : field -> R),
  (forall g : getter c, get g m = map before (names g)) ->
  forall g : getter c,
    get g (set_all hs m) = map (fun f => last_write (flat_map assigns hs) f (before f)) (names g).
Proof.
  intros c m hs before H g. rewrite get_addr. apply map_ext_in. intros f I.
  apply names_fields in I. rewrite set_all_addr by exact I. f_equal. exact (before_addr c m before H f I).
Qed.
Lemma C65_setters_and_accessors_ex :
  get Zyx_vector (set_all [Zyx_setYaw 1; Zyx_setX 3; Zyx_setPitch 2; Zyx_setZ 4] (build Zyx_default (fun _ => 7))) = [4; 2; 3] /\
  (forall (c : cls) (m : mem), exists before, forall g : getter c, get g m = map before (names g)).
Proof.
  split; [reflexivity|]. intros c m. exists (fun f => m (addr c f)). intros g. apply get_addr.
Qed.

(** C65: whatever was in the memory, a new object's accessors return the
    parameters the constructor was given (default constructors: identity, zero
    for Quaternion); the value [d] of parameters not given never shows. *)
Lemma C65_constructors_lemma : forall (c : cls) (k : ctor c) (junk : mem) (d : field -> R) (g : getter c),
  get g (build k junk) = map (fun f => last_write (given k) f (d f)) (names g).
Proof.
  intros c k junk d g. rewrite get_addr. apply map_ext_in. intros f I.
  apply names_fields in I. apply build_addr. exact I.
Qed.
Lemma C65_constructors_ex : forall junk,
  get Mat_matrix (build (Mat_ctor9 1 2 3 4 5 6 7 8 9) junk) = [1; 2; 3; 4; 5; 6; 7; 8; 9] /\
  get RotQuat_imaginary (build (RotQuat_ctor_vec 1 2 3 4) junk) = [2; 3; 4].
Proof. intros; split; reflexivity. Qed.

(** C65: the rotation an object stands for after any history of setter calls
    is the one denoted by its named parameters. *)
Lemma C65_rotation_lemma : forall (c : cls) (m : mem) (hs : list (setter c)) (before : field -> R),
  (forall g : getter c, get g m = map before (names g)) ->
  meaning (object c (set_all hs m)) = denotes c (fun f => last_write (flat_map assigns hs) f (before f)).
Proof.
  intros c m hs before H. rewrite object_denotes. apply denotes_ext. intros f I.
  rewrite set_all_addr by exact I. f_equal. exact (before_addr c m before H f I).
Qed.
Lemma C65_rotation_ex : forall m,
  meaning (object CXyz (set_all [Xyz_setYaw 3; Xyz_setPitch 2; Xyz_setRoll 1] m)) =
  mmul (Rot_x 1) (mmul (Rot_y 2) (Rot_z 3)).
Proof. intros; reflexivity. Qed.

(** C65: rebuilding an object from what its accessors return, by any of the
    constructors, gives the same object. *)
Lemma C65_rebuild_lemma : forall (m junk : mem) (a b c d : R),
  (get RotQuat_vector m = [a; b; c; d] ->
     object CRotQuat (build (RotQuat_ctor_vec a b c d) junk) = object CRotQuat m /\
     object CRotQuat (build (RotQuat_ctor4 a b c d) junk) = object CRotQuat m) /\
  (get RotQuat_real m = [a] -> get RotQuat_imaginary m = [b; c; d] ->
     object CRotQuat (build (RotQuat_ctor_parts a (mkV3 b c d)) junk) = object CRotQuat m /\
     object CRotQuat (set (RotQuat_setParts a (mkV3 b c d)) junk) = object CRotQuat m) /\
  (get AA_vector m = [a; b; c; d] ->
     object CAngleAxis (build (AA_ctor_vec a b c d) junk) = object CAngleAxis m /\
     object CAngleAxis (set (AA_setVector a b c d) junk) = object CAngleAxis m) /\
  (get AA_angle m = [a] -> get AA_axis m = [b; c; d] ->
     object CAngleAxis (build (AA_ctor_parts a (mkV3 b c d)) junk) = object CAngleAxis m) /\
  (get RV_vector m = [a; b; c] ->
     object CRotVec (build (RV_ctor_vec (mkV3 a b c)) junk) = object CRotVec m /\
     object CRotVec (set (RV_setVector (mkV3 a b c)) junk) = object CRotVec m) /\
  (get Zyx_vector m = [a; b; c] -> object CZyx (build (Zyx_ctor_vec (mkV3 a b c)) junk) = object CZyx m) /\
  (get Zyx_yaw m = [a] -> get Zyx_pitch m = [b] -> get Zyx_roll m = [c] ->
     object CZyx (build (Zyx_ctor3 a b c) junk) = object CZyx m) /\
  (get Xyz_vector m = [a; b; c] -> object CXyz (build (Xyz_ctor_vec (mkV3 a b c)) junk) = object CXyz m) /\
  (get Xyz_roll m = [a] -> get Xyz_pitch m = [b] -> get Xyz_yaw m = [c] ->
     object CXyz (build (Xyz_ctor3 a b c) junk) = object CXyz m) /\
  (forall e f g h i, get Mat_matrix m = [a; b; c; d; e; f; g; h; i] ->
     object CRotMat (build (Mat_ctor9 a b c d e f g h i) junk) = object CRotMat m /\
     object CRotMat (set (Mat_setMatrix (mkM33 a b c d e f g h i)) junk) = object CRotMat m).
Proof.
  intros m junk a b c d. cbn.
  repeat split; intros;
   repeat match goal with H : cons _ _ = cons _ _ |- _ => injection H; clear H; intros end; subst; reflexivity.
Qed.
Lemma C65_rebuild_ex : forall junk, exists m,
  get AA_vector m = [2; 0; 1; 0] /\ object CAngleAxis (build (AA_ctor_vec 2 0 1 0) junk) = RotAA (mkAA 2 (mkV3 0 1 0)).
Proof. intros junk. exists (build (AA_ctor_vec 2 0 1 0) junk). split; reflexivity. Qed.

Lemma after_near a t : 0 <= a -> 0 <= t ->
  (after (assert_scalar_near a 1 t (Val tt)) = true <-> ~ Rabs (a - 1) <= t / 10 ^ 2 * Rmax a 1).
Proof.
  intros Ha Ht. destruct (assert_near_iff a t tt Ha Ht) as [A B].
  destruct (assert_scalar_near a 1 t (Val tt)) as [u| |] eqn:E; cbn.
  - split; [discriminate|]. destruct u. intros K. exfalso. apply K, A. reflexivity.
  - unfold assert_scalar_near in E. destruct (compareRelative a 1 t); discriminate.
  - split; [intros _|reflexivity]. apply B; reflexivity.
Qed.
Lemma vnorm_ux : vnorm (mkV3 1 0 0) = 1.
Proof. unfold vnorm, vnorm2, vdot; cbn. replace (1 * 1 + 0 * 0 + 0 * 0) with 1 by ring. apply sqrt_1. Qed.
(** C65: in a debug build a setter throws exactly when its argument is
    rejected - setValues, setParts, setMatrix, setAngle and the component
    references never throw - and whether it throws or not the parameters have
    been written. *)
Lemma C65_debug_setters_lemma : forall (c : cls) (s : setter c) (m : mem),
  fst (dbg_set s m) = set s m /\ (snd (dbg_set s m) = true <-> rejected s).
Proof.
  intros c s m.
  assert (P1 : 0 <= / 10 ^ 4) by lra. assert (P2 : 0 <= / 10 ^ 2) by lra.
  assert (Q1 : / 10 ^ 4 / 10 ^ 2 = / 10 ^ 6) by lra. assert (Q2 : / 10 ^ 2 / 10 ^ 2 = / 10 ^ 4) by lra.
  split; [destruct s; reflexivity|].
  destruct s; try (cbn; split; [discriminate|tauto]).
  - (* Unit_paren *) destruct q as [w x y z].
    change (after (dbg_quat_ctor (mkQ w x y z)) = true <-> rejected (Unit_paren (mkQ w x y z))).
    cbn [rejected]. rewrite <- Q2.
    pose proof (after_near (qnorm (mkQ w x y z)) (/ 10 ^ 2) (qnorm_nonneg _) P2) as A.
    rewrite <- A. unfold dbg_quat_ctor, assert_scalar_near.
    destruct (compareRelative _ _ _); reflexivity.
  - destruct q as [w x y z].
    change (after (dbg_quat_assign (mkQ w x y z)) = true <-> rejected (RotQuat_paren (mkQ w x y z))).
    cbn [rejected]. rewrite <- Q1.
    pose proof (after_near (qnorm (mkQ w x y z)) (/ 10 ^ 4) (qnorm_nonneg _) P1) as A.
    rewrite <- A. unfold dbg_quat_assign, assert_scalar_near.
    destruct (compareRelative _ _ _); reflexivity.
  - destruct v as [x y z]. cbn [rejected]. rewrite <- Q1.
    exact (after_near (vnorm (mkV3 x y z)) (/ 10 ^ 4) (sqrt_pos _) P1).
  - cbn [rejected]. rewrite <- Q1. exact (after_near (vnorm (mkV3 a b c)) (/ 10 ^ 4) (sqrt_pos _) P1).
  - cbn [rejected]. rewrite <- Q1. exact (after_near (vnorm (mkV3 a b c)) (/ 10 ^ 4) (sqrt_pos _) P1).
  - cbn [rejected].
    pose proof (after_near (vnorm (mkV3 1 0 0)) (/ 10 ^ 4) (sqrt_pos _) P1) as A.
    change (after (assert_scalar_near (vnorm (mkV3 1 0 0)) 1 (/ 10 ^ 4) (Val tt)) = true <-> False).
    rewrite A, vnorm_ux. split; [|tauto]. intros K; apply K.
    replace (1 - 1) with 0 by ring. rewrite Rabs_R0, Rmax_left by lra. lra.
Qed.
Lemma C65_debug_setters_ex : forall m,
  snd (dbg_set (AA_setAxis (mkV3 2 0 0)) m) = true /\
  snd (dbg_set (AA_setAxis (mkV3 1 0 0)) m) = false.
Proof.
  intros m. destruct (C65_debug_setters_lemma CAngleAxis (AA_setAxis (mkV3 2 0 0)) m) as [_ A].
  destruct (C65_debug_setters_lemma CAngleAxis (AA_setAxis (mkV3 1 0 0)) m) as [_ B]. cbn [rejected] in A, B.
  split.
  - apply A. replace (vnorm (mkV3 2 0 0)) with 2.
    + rewrite Rabs_right, Rmax_left by lra. lra.
    + unfold vnorm, vnorm2, vdot; cbn. replace (2 * 2 + 0 * 0 + 0 * 0) with (2 * 2) by ring. rewrite sqrt_square; lra.
  - destruct (snd (dbg_set (AA_setAxis (mkV3 1 0 0)) m)); [|reflexivity].
    exfalso. destruct B as [B _]. apply (B eq_refl). rewrite vnorm_ux.
    replace (1 - 1) with 0 by ring. rewrite Rabs_R0, Rmax_left by lra. lra.
Qed.

Lemma rejected_illegal {c} (s : setter c) m : c <> CUnitQuaternion -> rejected s -> ~ valid (object c (set s m)).
Proof.
  assert (U : forall v : V3, vnorm2 v = 1 -> Rabs (vnorm v - 1) <= / 10 ^ 6 * Rmax (vnorm v) 1).
  { intros v E. unfold vnorm. rewrite E, sqrt_1. replace (1 - 1) with 0 by ring.
    rewrite Rabs_R0, Rmax_left by lra. lra. }
  intros N T V. destruct s; try (exact T); cbn [rejected] in T; cbn in V.
  - apply N; reflexivity.
  - apply T. destruct q as [w x y z]. unfold qnorm. cbn in V. rewrite V, sqrt_1. replace (1 - 1) with 0 by ring.
    rewrite Rabs_R0, Rmax_left by lra. lra.
  - apply T, U. destruct v; exact V.
  - apply T, U. exact V.
  - apply T, U. exact V.
Qed.
(** C65: the guarantee that a failed call leaves the object unchanged does not
    hold: an AngleAxis::setAxis, setVector or RotationQuaternion operator() that
    throws leaves the illegal value in the object. *)
Lemma C65_failed_setter_keeps_value_refuted_lemma :
  ~ (forall (c : cls) (s : setter c) (m : mem), snd (dbg_set s m) = true ->
       object c (fst (dbg_set s m)) = object c m) /\
  (forall (m : mem) (s : setter CAngleAxis), snd (dbg_set s m) = true ->
       ~ valid (object CAngleAxis (fst (dbg_set s m)))) /\
  (forall (m : mem) (s : setter CRotQuat), snd (dbg_set s m) = true ->
       ~ valid (object CRotQuat (fst (dbg_set s m)))).
Proof.
  split; [|split].
  - intros K.
    pose proof (K CAngleAxis (AA_setAxis (mkV3 2 0 0)) (fun _ => 0) (proj1 (C65_debug_setters_ex _))) as E.
    cbn in E. injection E; intros; lra.
  - intros m s T. apply (proj2 (C65_debug_setters_lemma _ s m)) in T.
    rewrite (proj1 (C65_debug_setters_lemma _ s m)). apply rejected_illegal; [intros K; discriminate K|exact T].
  - intros m s T. apply (proj2 (C65_debug_setters_lemma _ s m)) in T.
    rewrite (proj1 (C65_debug_setters_lemma _ s m)). apply rejected_illegal; [intros K; discriminate K|exact T].
Qed.
