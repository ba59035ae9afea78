(** Generated by tools/genprops.py from Claims14.v: the property theorems only. *)
From Coq Require Import Reals Lra Psatz Bool List ZArith Lia.
From Verif Require Import Linalg Spec SpecFacts ModelCommon ModelEigen ModelRotation CommonFacts ConvFacts RVFacts Windows RotFacts UniqueFacts MetricFacts EulerFacts EqFacts SetFacts ModelHistory SpecHistory HistoryFacts ModelDebug ModelDebug2 QuatDebugFacts SpecClose CloseFacts NearUnit EulerNear RoundTrip TotalFacts TotalFacts2 DebugFacts.
Local Open Scope R_scope.
Import ListNotations.
From Verif Require Import Claims14.

(** C64: for all objects, legal or not, and all histories of calls: a debug
    build either throws or gives exactly the value of the release build. *)
Theorem C64_debug_never_differs : forall (p : prim) (l r : rotation) (k : kind) (v : V3) (t : R) (os : list rop),
  let agrees := fun (A : Type) (d x : outcome A) => d = x \/ d = Throws in
  agrees _ (dbg_convert p k l) (convert p k l) /\
  agrees _ (dbg_mult p l r) (mult p l r) /\
  agrees _ (dbg_inverted p l) (inverted l) /\
  agrees _ (dbg_get_unique p l) (Val (get_unique p l)) /\
  agrees _ (dbg_fix l) (fix_rot l) /\
  agrees _ (dbg_rotate p l v) (rotate p l v) /\
  agrees _ (dbg_inverseRotate p l v) (inverseRotate p l v) /\
  agrees _ (dbg_isNear p l r t) (isNear p l r t) /\
  agrees _ (dbg_disparity p l r) (disparity p l r) /\
  agrees _ (dbg_logarithmicMap p l) (logarithmicMap p l) /\
  agrees _ (dbg_boxMinus p l r) (boxMinus p l r) /\
  agrees _ (dbg_boxPlus p l v) (boxPlus p l v) /\
  agrees _ (dbg_interpolate p l r t) (interpolate p l r t) /\
  (forall d, dbg_is_equal p l r = Some d -> exists x, is_equal p l r = Some x /\ agrees _ d x) /\
  agrees _ (dbg_run p l os) (rrun p l os).
Proof. exact C64_debug_never_differs_lemma. Qed.
Print Assumptions C64_debug_never_differs.

Example C64_debug_never_differs_ex : forall p,
  dbg_mult p (RotQuat (mkQ 2 0 0 0)) (RotQuat (mkQ 0 0 3 0)) = Throws /\
  mult p (RotQuat (mkQ 2 0 0 0)) (RotQuat (mkQ 0 0 3 0)) = Val (RotQuat (mkQ 0 0 6 0)).
Proof. exact Claims14.C64_debug_never_differs_ex. Qed.

(** C64: on legal rotations no assertion fires: every operation gives in the
    debug build the result of the release build. *)
Theorem C64_legal_operations : forall (p : prim) (l r : rotation) (k : kind) (v : V3) (t : R), valid l -> valid r ->
  dbg_ctor l = Val l /\
  dbg_convert p k l = convert p k l /\
  dbg_mult p l r = mult p l r /\
  dbg_inverted p l = inverted l /\
  dbg_get_unique p l = Val (get_unique p l) /\
  dbg_fix l = fix_rot l /\
  dbg_rotate p l v = rotate p l v /\
  dbg_inverseRotate p l v = inverseRotate p l v /\
  dbg_isNear p l r t = isNear p l r t /\
  dbg_disparity p l r = disparity p l r /\
  dbg_is_equal p l r = is_equal p l r /\
  dbg_exponentialMap p k v = exponentialMap p k v /\
  dbg_logarithmicMap p l = logarithmicMap p l /\
  dbg_boxMinus p l r = boxMinus p l r /\
  dbg_boxPlus p l v = boxPlus p l v /\
  dbg_interpolate p l r t = interpolate p l r t.
Proof. exact C64_legal_operations_lemma. Qed.
Print Assumptions C64_legal_operations.

Example C64_legal_operations_ex : valid (RotAA (mkAA 7 (mkV3 0 (3/5) (-4/5)))) /\ valid (RotMat (Rot_x 2)) /\ valid (RotVec (mkV3 1 2 3)).
Proof. exact Claims14.C64_legal_operations_ex. Qed.

(** C64: conversions to AngleAxis, and conversions of a quaternion to any
    class, never throw, not even on illegal objects. *)
Theorem C64_unchecked_conversions : forall (p : prim) (k : kind) (r : rotation),
  (k = KAA \/ kind_of r = KQuat \/ kind_of r = KVec \/ kind_of r = KZyx \/ kind_of r = KXyz) ->
  dbg_convert p k r = convert p k r.
Proof. exact C64_unchecked_conversions_lemma. Qed.
Print Assumptions C64_unchecked_conversions.

Example C64_unchecked_conversions_ex : forall p, dbg_convert p KMat (RotQuat (mkQ 2 0 0 0)) = Val (RotMat mid) /\ ~ valid (RotQuat (mkQ 2 0 0 0)).
Proof. exact Claims14.C64_unchecked_conversions_ex. Qed.

(** C64: setFromVectors never trips an assertion (its own "zero length" check
    is active in both builds). [svd_null]: what is assumed of Eigen's SVD. *)
Theorem C64_set_from_vectors : forall (p : prim) (svd : V3 -> V3 -> V3) (k : kind) (a b : V3), svd_null svd ->
  dbg_setFromVectors p svd k a b = setFromVectors p svd k a b.
Proof. exact C64_set_from_vectors_lemma. Qed.
Print Assumptions C64_set_from_vectors.

(** C64: histories. An object built from legal coefficients and mutated by any
    number of calls with legal operands (100000 for a quaternion object) never
    trips an assertion: the debug build returns what the release build
    returns. *)
Theorem C64_legal_history : forall (p : prim) (s : rotation) (os : list rop), valid s -> kind_of s <> KMat ->
  Forall (op_total (kind_of s)) os -> (kind_of s = KQuat -> INR (length os) <= 10 ^ 5) ->
  exists t, dbg_run p s os = Val t /\ rrun p s os = Val t.
Proof. exact C64_legal_history_lemma. Qed.
Print Assumptions C64_legal_history.

Example C64_legal_history_ex : forall p,
  let s := RotQuat (mkQ (3/5) 0 0 (4/5)) in
  let os := [OpMulRight (RotMat (Rot_x 2)); OpMulLeft (RotAA (mkAA 2 (mkV3 0 1 0))); OpInvert; OpSetUnique; OpMulLeft (RotZyx (mkZyx 1 2 3));
             OpAssign (RotVec (mkV3 0 (machine_eps p) 0)); OpFix] in
  valid s /\ kind_of s <> KMat /\ Forall (op_total (kind_of s)) os /\ (kind_of s = KQuat -> INR (length os) <= 10 ^ 5).
Proof. exact Claims14.C64_legal_history_ex. Qed.

(** C64: the same for every class, matrices included, on the histories of C52. *)
Theorem C64_exact_history : forall (p : prim) (os : list rop) (s : rotation),
  valid s -> exact_operand p s -> steps_ok p (kind_of s) (meaning s) os ->
  exists t, dbg_run p s os = Val t /\ rrun p s os = Val t.
Proof. exact C64_exact_history_lemma. Qed.
Print Assumptions C64_exact_history.

Example C64_exact_history_ex : forall p,
  let s := RotMat (Rot_x 2) in
  let os := [OpMulRight (RotQuat (mkQ (3/5) 0 0 (4/5))); OpMulLeft (RotAA (mkAA 2 (mkV3 0 1 0))); OpInvert; OpMulLeft (RotMat (Rot_x 1)); OpSetUnique; OpFix] in
  valid s /\ exact_operand p s /\ steps_ok p (kind_of s) (meaning s) os.
Proof. exact Claims14.C64_exact_history_ex. Qed.

(** C64: what the checks accept is not closed under the operations: the square
    of an accepted quaternion can be rejected. *)
Theorem C64_accepted_not_closed : forall p : prim,
  exists q, dbg_ctor (RotQuat q) = Val (RotQuat q) /\ dbg_mult p (RotQuat q) (RotQuat q) = Throws /\
            exists s, mult p (RotQuat q) (RotQuat q) = Val s.
Proof. exact C64_accepted_not_closed_lemma. Qed.
Print Assumptions C64_accepted_not_closed.

(** C64: and closeness to a rotation is not enough for a matrix object: for
    every [eps] there are a rotation [R] and a matrix [eps]-close to it, accepted by
    the constructor, that makes the debug build throw after finitely many
    products with the identity quaternion (the release build goes on; C58). *)
Theorem C64_matrix_history_throws : forall (p : prim) (eps : R), 0 < eps ->
  exists (R m : M33) (n : nat), SO3 R /\ close eps m R /\ dbg_ctor (RotMat m) = Val (RotMat m) /\
    dbg_run p (RotMat m) (repeat (OpMulRight (RotQuat qid)) n) = Throws /\
    exists t, rrun p (RotMat m) (repeat (OpMulRight (RotQuat qid)) n) = Val t.
Proof. exact C64_matrix_history_throws_lemma. Qed.
Print Assumptions C64_matrix_history_throws.

(** C64: what the assertions do detect.  A quaternion off unit length by more
    than 1e-2 percent makes inversion, every product with an (exactly
    representable) legal rotation, the disparity angle, boxMinus and isNear
    throw; getUnique throws only if it negates.  An axis off unit length by
    more than 1e-4 percent makes AngleAxis inversion, getUnique and == throw;
    fix() repairs it, unless the axis is zero, where it throws. *)
Theorem C64_illegal_detected : forall (p : prim) (q : Quat) (a : AA) (r : rotation) (t : R),
  valid r -> exact_operand p r ->
  (~ Rabs (qnorm q - 1) <= / 10 ^ 4 * Rmax (qnorm q) 1 ->
     dbg_ctor (RotQuat q) = Throws /\
     dbg_inverted p (RotQuat q) = Throws /\
     dbg_mult p (RotQuat q) r = Throws /\
     dbg_mult p r (RotQuat q) = Throws /\
     dbg_disparity p r (RotQuat q) = Throws /\
     dbg_isNear p r (RotQuat q) t = Throws /\
     dbg_boxMinus p r (RotQuat q) = Throws /\
     dbg_boxMinus p (RotQuat q) (RotQuat q) = Throws /\
     dbg_interpolate p (RotQuat q) r t = Throws /\
     (qw q < 0 -> dbg_get_unique p (RotQuat q) = Throws) /\
     (0 < qw q -> dbg_get_unique p (RotQuat q) = Val (RotQuat q))) /\
  (~ Rabs (vnorm (aaxis a) - 1) <= / 10 ^ 6 * Rmax (vnorm (aaxis a)) 1 ->
     dbg_ctor (RotAA a) = Throws /\
     dbg_inverted p (RotAA a) = Throws /\
     dbg_get_unique p (RotAA a) = Throws /\
     dbg_is_equal p (RotAA a) (RotAA a) = Some Throws /\
     dbg_disparity p r (RotAA a) = Throws /\
     dbg_boxMinus p r (RotAA a) = Throws /\
     (aaxis a <> vzero -> exists n, vnorm n = 1 /\ dbg_fix (RotAA a) = Val (RotAA (mkAA (aangle a) n))) /\
     (aaxis a = vzero -> dbg_fix (RotAA a) = Throws)).
Proof. exact C64_illegal_detected_lemma. Qed.
Print Assumptions C64_illegal_detected.

Example C64_illegal_detected_ex :
  ~ Rabs (qnorm (mkQ 2 0 0 0) - 1) <= / 10 ^ 4 * Rmax (qnorm (mkQ 2 0 0 0)) 1 /\
  valid (RotMat mid) /\ (forall p, exact_operand p (RotMat mid)).
Proof. exact Claims14.C64_illegal_detected_ex. Qed.
