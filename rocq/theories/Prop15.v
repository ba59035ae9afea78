(** Generated by tools/genprops.py from Claims15.v: the property theorems only. *)
From Coq Require Import Reals Lra Psatz Bool List ZArith Lia.
From Verif Require Import Linalg Spec SpecAccess SpecFacts ModelCommon ModelEigen ModelRotation ModelDebug ModelAccess CommonFacts QuatDebugFacts AccessFacts.
Local Open Scope R_scope.
Import ListNotations.
From Verif Require Import Claims15.

(** C65: after any history of setter calls on an object of any class, every
    accessor returns, for each parameter it is documented to return, the value
    last written to that parameter, or the value it had before when the
    history does not write it. *)
Theorem C65_setters_and_accessors : forall (c : cls) (m : mem) (hs : list (setter c)) (before : field -> R),
  (forall g : getter c, get g m = map before (names g)) ->
  forall g : getter c,
    get g (set_all hs m) = map (fun f => last_write (flat_map assigns hs) f (before f)) (names g).
Proof. exact C65_setters_and_accessors_lemma. Qed.
Print Assumptions C65_setters_and_accessors.

Example C65_setters_and_accessors_ex :
  get Zyx_vector (set_all [Zyx_setYaw 1; Zyx_setX 3; Zyx_setPitch 2; Zyx_setZ 4] (build Zyx_default (fun _ => 7))) = [4; 2; 3] /\
  (forall (c : cls) (m : mem), exists before, forall g : getter c, get g m = map before (names g)).
Proof. exact Claims15.C65_setters_and_accessors_ex. Qed.

(** C65: whatever was in the memory, a new object's accessors return the
    parameters the constructor was given (default constructors: identity, zero
    for Quaternion); the value [d] of parameters not given never shows. *)
Theorem C65_constructors : forall (c : cls) (k : ctor c) (junk : mem) (d : field -> R) (g : getter c),
  get g (build k junk) = map (fun f => last_write (given k) f (d f)) (names g).
Proof. exact C65_constructors_lemma. Qed.
Print Assumptions C65_constructors.

Example C65_constructors_ex : forall junk,
  get Mat_matrix (build (Mat_ctor9 1 2 3 4 5 6 7 8 9) junk) = [1; 2; 3; 4; 5; 6; 7; 8; 9] /\
  get RotQuat_imaginary (build (RotQuat_ctor_vec 1 2 3 4) junk) = [2; 3; 4].
Proof. exact Claims15.C65_constructors_ex. Qed.

(** C65: the rotation an object stands for after any history of setter calls
    is the one denoted by its named parameters. *)
Theorem C65_rotation : forall (c : cls) (m : mem) (hs : list (setter c)) (before : field -> R),
  (forall g : getter c, get g m = map before (names g)) ->
  meaning (object c (set_all hs m)) = denotes c (fun f => last_write (flat_map assigns hs) f (before f)).
Proof. exact C65_rotation_lemma. Qed.
Print Assumptions C65_rotation.

Example C65_rotation_ex : forall m,
  meaning (object CXyz (set_all [Xyz_setYaw 3; Xyz_setPitch 2; Xyz_setRoll 1] m)) =
  mmul (Rot_x 1) (mmul (Rot_y 2) (Rot_z 3)).
Proof. exact Claims15.C65_rotation_ex. Qed.

(** C65: rebuilding an object from what its accessors return, by any of the
    constructors, gives the same object. *)
Theorem C65_rebuild : forall (m junk : mem) (a b c d : R),
  (get RotQuat_vector m = [a; b; c; d] ->
     object CRotQuat (build (RotQuat_ctor_vec a b c d) junk) = object CRotQuat m /\
     object CRotQuat (build (RotQuat_ctor4 a b c d) junk) = object CRotQuat m) /\
  (get RotQuat_real m = [a] -> get RotQuat_imaginary m = [b; c; d] ->
     object CRotQuat (build (RotQuat_ctor_parts a (mkV3 b c d)) junk) = object CRotQuat m /\
     object CRotQuat (set (RotQuat_setParts a (mkV3 b c d)) junk) = object CRotQuat m) /\
  (get AA_vector m = [a; b; c; d] ->
     object CAngleAxis (build (AA_ctor_vec a b c d) junk) = object CAngleAxis m /\
     object CAngleAxis (set (AA_setVector a b c d) junk) = object CAngleAxis m) /\
  (get AA_angle m = [a] -> get AA_axis m = [b; c; d] ->
     object CAngleAxis (build (AA_ctor_parts a (mkV3 b c d)) junk) = object CAngleAxis m) /\
  (get RV_vector m = [a; b; c] ->
     object CRotVec (build (RV_ctor_vec (mkV3 a b c)) junk) = object CRotVec m /\
     object CRotVec (set (RV_setVector (mkV3 a b c)) junk) = object CRotVec m) /\
  (get Zyx_vector m = [a; b; c] -> object CZyx (build (Zyx_ctor_vec (mkV3 a b c)) junk) = object CZyx m) /\
  (get Zyx_yaw m = [a] -> get Zyx_pitch m = [b] -> get Zyx_roll m = [c] ->
     object CZyx (build (Zyx_ctor3 a b c) junk) = object CZyx m) /\
  (get Xyz_vector m = [a; b; c] -> object CXyz (build (Xyz_ctor_vec (mkV3 a b c)) junk) = object CXyz m) /\
  (get Xyz_roll m = [a] -> get Xyz_pitch m = [b] -> get Xyz_yaw m = [c] ->
     object CXyz (build (Xyz_ctor3 a b c) junk) = object CXyz m) /\
  (forall e f g h i, get Mat_matrix m = [a; b; c; d; e; f; g; h; i] ->
     object CRotMat (build (Mat_ctor9 a b c d e f g h i) junk) = object CRotMat m /\
     object CRotMat (set (Mat_setMatrix (mkM33 a b c d e f g h i)) junk) = object CRotMat m).
Proof. exact C65_rebuild_lemma. Qed.
Print Assumptions C65_rebuild.

Example C65_rebuild_ex : forall junk, exists m,
  get AA_vector m = [2; 0; 1; 0] /\ object CAngleAxis (build (AA_ctor_vec 2 0 1 0) junk) = RotAA (mkAA 2 (mkV3 0 1 0)).
Proof. exact Claims15.C65_rebuild_ex. Qed.

(** C65: in a debug build a setter throws exactly when its argument is
    rejected - setValues, setParts, setMatrix, setAngle and the component
    references never throw - and whether it throws or not the parameters have
    been written. *)
Theorem C65_debug_setters : forall (c : cls) (s : setter c) (m : mem),
  fst (dbg_set s m) = set s m /\ (snd (dbg_set s m) = true <-> rejected s).
Proof. exact C65_debug_setters_lemma. Qed.
Print Assumptions C65_debug_setters.

Example C65_debug_setters_ex : forall m,
  snd (dbg_set (AA_setAxis (mkV3 2 0 0)) m) = true /\
  snd (dbg_set (AA_setAxis (mkV3 1 0 0)) m) = false.
Proof. exact Claims15.C65_debug_setters_ex. Qed.

(** C65: the guarantee that a failed call leaves the object unchanged does not
    hold: an AngleAxis::setAxis, setVector or RotationQuaternion operator() that
    throws leaves the illegal value in the object. *)
Theorem C65_failed_setter_keeps_value_refuted :
  ~ (forall (c : cls) (s : setter c) (m : mem), snd (dbg_set s m) = true ->
       object c (fst (dbg_set s m)) = object c m) /\
  (forall (m : mem) (s : setter CAngleAxis), snd (dbg_set s m) = true ->
       ~ valid (object CAngleAxis (fst (dbg_set s m)))) /\
  (forall (m : mem) (s : setter CRotQuat), snd (dbg_set s m) = true ->
       ~ valid (object CRotQuat (fst (dbg_set s m)))).
Proof. exact C65_failed_setter_keeps_value_refuted_lemma. Qed.
Print Assumptions C65_failed_setter_keeps_value_refuted.
