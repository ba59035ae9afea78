(** Generated by tools/genprops.py from Claims17.v: the property theorems only. *)
From Coq Require Import Reals Lra Psatz Bool List ZArith Lia.
From Verif Require Import Linalg Spec SpecRates SpecDiff SpecFacts ModelCommon ModelEigen ModelRotation ModelDiff ModelRates SpecDcall RotFacts.
Local Open Scope R_scope.
Import ListNotations.
From Verif Require Import Claims17.

(** C69: an object of any derivative class after any history of calls that
    compiles: it has kept its class, and every rate, under each of its names,
    is what the documented effects of the calls make of its initial value. *)
Theorem C69_history : forall (l : list dcall) (x y : diff), drun x l = Some y ->
  class_of y = class_of x /\
  (forall n v, dread x n = Some v -> dread y n = Some (fold_left (effect (class_of x) n) l v)) /\
  (forall n, (exists v, dread y n = Some v) <-> has_rate (class_of x) n = true) /\
  map (dread y) (vector_order (class_of x)) = map Some (dvector y).
Proof. exact C69_history_lemma. Qed.
Print Assumptions C69_history.

Example C69_history_ex :
  drun (DZyx (mkV3 1 2 3)) [CallPlus (DZyx (mkV3 10 20 30)); CallWrite X 7; CallMinus (DZyx (mkV3 1 1 1))]
    = Some (DZyx (mkV3 (1 + 10 - 1) (2 + 20 - 1) (7 - 1))) /\
  drun (DLocal (mkV3 1 2 3)) [CallPlusAssign (DGlobal (mkV3 1 0 0)); CallTimes 2; CallMinusAssign (DLocal (mkV3 0 1 0))] <> None.
Proof. exact Claims17.C69_history_ex. Qed.

(** C69: every conversion between two classes of derivatives, at a fixed
    rotation, is linear: superposed derivatives convert to superposed
    derivatives (so the angular velocity of a sum is the sum of the angular
    velocities), and the zero derivative converts to the zero derivative. *)
Theorem C69_superposition : forall (p : prim) (k : dkind) (r : rotation) (f g : R) (a b s x y : diff),
  combination f a g b s ->
  diff_convert p k r a = Some (Val x) -> diff_convert p k r b = Some (Val y) ->
  exists z, diff_convert p k r s = Some (Val z) /\ combination f x g y z.
Proof. exact C69_superposition_lemma. Qed.
Print Assumptions C69_superposition.

Example C69_superposition_ex : forall p,
  combination 2 (DLocal (mkV3 1 0 0)) 3 (DLocal (mkV3 0 1 0)) (DLocal (mkV3 2 3 0)) /\
  exists x, diff_convert p KDXyz (RotXyz (mkXyz 0 0 0)) (DLocal (mkV3 1 0 0)) = Some (Val x).
Proof. exact Claims17.C69_superposition_ex. Qed.

(** C69: the sum of two derivatives of one class, and hence the sum of what they
    convert to: adding before or after a conversion is the same. *)
Theorem C69_sum : forall (a b s d : diff), class_of a = class_of b ->
  (diff_add a b = Some s -> combination 1 a 1 b s) /\ (diff_sub a b = Some d -> combination 1 a (-1) b d) /\
  (forall (p : prim) (k : dkind) (r : rotation) (x y z : diff),
     diff_add a b = Some s -> diff_convert p k r a = Some (Val x) -> diff_convert p k r b = Some (Val y) ->
     diff_convert p k r s = Some (Val z) -> combination 1 x 1 y z).
Proof. exact C69_sum_lemma. Qed.
Print Assumptions C69_sum.

Example C69_sum_ex : diff_add (DXyz (mkV3 1 2 3)) (DXyz (mkV3 4 5 6)) = Some (DXyz (mkV3 (1 + 4) (2 + 5) (3 + 6))).
Proof. exact Claims17.C69_sum_ex. Qed.
