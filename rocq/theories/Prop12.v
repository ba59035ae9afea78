(** Generated by tools/genprops.py from Claims12.v: the property theorems only. *)
From Coq Require Import Reals Lra Psatz Bool List ZArith Lia.
From Verif Require Import Linalg Spec SpecFacts ModelCommon ModelEigen ModelRotation CommonFacts ConvFacts RVFacts Windows RotFacts UniqueFacts MetricFacts EulerFacts EqFacts SetFacts ModelHistory SpecHistory HistoryFacts SpecClose CloseFacts NearUnit EulerNear RoundTrip TotalFacts TotalFacts2.
Local Open Scope R_scope.
Import ListNotations.
From Verif Require Import Claims12.

(** C58: quaternion -> matrix -> quaternion round trips. However small the
    deviation [eps] from unit length, some quaternion that deviates at most
    that much, hence is [eps]-close to a rotation [R], is driven by finitely
    many round trips to a rotation at distance more than 0.3 from [R]; and a
    RotationMatrix object that is multiplied [n] times by the identity
    RotationQuaternion ends there as well. *)
Theorem C58_round_trip_unstable : forall (p : prim) (eps : R), 0 < eps ->
  exists (R m mn : M33) (q qn : Quat) (n : nat),
    SO3 R /\ Rabs (qnorm2 q - 1) <= eps /\ to_mat p (RotQuat q) = Val m /\ close eps m R /\
    round_trips p n q = Val qn /\ to_mat p (RotQuat qn) = Val mn /\ ~ close (3/10) mn R /\
    rrun p (RotMat m) (repeat (OpMulRight (RotQuat qid)) n) = Val (RotMat mn).
Proof. exact C58_round_trip_unstable_lemma. Qed.
Print Assumptions C58_round_trip_unstable.

(** C58: what one round trip does, for every quaternion whatsoever: below 120
    degrees the deviation of the squared norm from 1 is multiplied by
    v2/(1-v2) (v2 the squared length of the vector part: more than 1 beyond 90
    degrees, at most 3), from 120 degrees on the quaternion comes back
    unchanged up to its sign; and the rotation moves by at most four times the
    deviation. *)
Theorem C58_round_trip_step : forall (p : prim) (q : Quat),
  let v2 := qx q * qx q + qy q * qy q + qz q * qz q in
  exists q', round_trips p 1 q = Val q' /\
    (v2 < 3/4 -> qnorm2 q' - 1 = (qnorm2 q - 1) * (v2 / (1 - v2))) /\
    (3/4 <= v2 -> q' = q \/ q' = qneg q) /\
    (Rabs (qnorm2 q - 1) <= 1/100 ->
       Rabs (qnorm2 q' - 1) <= 3 * Rabs (qnorm2 q - 1) /\
       exists m m', to_mat p (RotQuat q) = Val m /\ to_mat p (RotQuat q') = Val m' /\
         close (12 * Rabs (qnorm2 q - 1)) m' m).
Proof. exact C58_round_trip_step_lemma. Qed.
Print Assumptions C58_round_trip_step.

(** C58: exactly unit quaternions survive any number of round trips. *)
Theorem C58_round_trip_exact : forall (p : prim) (n : nat) (q : Quat), qnorm2 q = 1 ->
  exists q', round_trips p n q = Val q' /\ qnorm2 q' = 1 /\ (q' = q \/ q' = qneg q).
Proof. exact C58_round_trip_exact_lemma. Qed.
Print Assumptions C58_round_trip_exact.

Example C58_round_trip_exact_ex : qnorm2 (mkQ (3/5) 0 (4/5) 0) = 1.
Proof. exact Claims12.C58_round_trip_exact_ex. Qed.

(** C59: every conversion (hence every constructor, converting assignment,
    exponentialMap and setRandom) of every legal rotation, no matter how small
    its angle: the result is there, has the class asked for and rotates
    every vector as the source does, up to a relative error of 1/1000 of the
    rounding unit (quaternion, matrix, Euler zyx) or twice the truncation
    tolerance (the other classes). *)
Theorem C59_conversion_total : forall (p : prim) (k : kind) (r : rotation), valid r ->
  exists r', convert p k r = Val r' /\ kind_of r' = k /\
    rotates_like p (match k with KQuat | KMat | KZyx => machine_eps p / 1000 | _ => 2 * tolerance p end) r' (meaning r).
Proof. exact C59_conversion_total_lemma. Qed.
Print Assumptions C59_conversion_total.

(** C59, instantiated to the functions that are conversions from a rotation
    vector. *)
Theorem C59_exp_random_total : forall (p : prim) (k : kind) (v : V3),
  exists r, exponentialMap p k v = Val r /\ set_random p k v = Val r /\ kind_of r = k /\
    rotates_like p (match k with KQuat | KMat | KZyx => machine_eps p / 1000 | _ => 2 * tolerance p end) r (vec_rot v).
Proof. exact C59_exp_random_total_lemma. Qed.
Print Assumptions C59_exp_random_total.

Example C59_conversion_total_ex : forall p, let v := mkV3 (tolerance p / 2) 0 0 in
  valid (RotVec v) /\ v <> vzero /\ vnorm v < tolerance p.
Proof. exact Claims12.C59_conversion_total_ex. Qed.

(** C60: rotate and inverseRotate of every legal rotation. *)
Theorem C60_rotate_total : forall (p : prim) (r : rotation) (v : V3), valid r ->
  exists u w x, rotate p r v = Val u /\ inverseRotate p r v = Val w /\ inverseRotate p r u = Val x /\
    vnorm (vsub u (mvmul (meaning r) v)) <= machine_eps p / 24000 * vnorm v /\
    vnorm (vsub w (mvmul (mtrans (meaning r)) v)) <= machine_eps p / 24000 * vnorm v /\
    vnorm (vsub x v) <= machine_eps p / 10000 * vnorm v.
Proof. exact C60_rotate_total_lemma. Qed.
Print Assumptions C60_rotate_total.

(** C61: products of legal rotations of any two classes and boxPlus, for every
    pair of operands. *)
Theorem C61_product_total : forall (p : prim) (l r : rotation), valid l -> valid r ->
  exists s, mult p l r = Val s /\ kind_of s = kind_of l /\
    rotates_like p (match kind_of l with KVec => tolerance p | _ => machine_eps p / 1000 end) s (mmul (meaning l) (meaning r)).
Proof. exact C61_product_total_lemma. Qed.
Print Assumptions C61_product_total.

Theorem C61_boxplus_total : forall (p : prim) (r : rotation) (v : V3), valid r ->
  exists s, boxPlus p r v = Val s /\ kind_of s = kind_of r /\
    rotates_like p (match kind_of r with KQuat | KMat | KZyx => machine_eps p / 500 | _ => 3 * tolerance p end) s (mmul (vec_rot v) (meaning r)).
Proof. exact C61_boxplus_total_lemma. Qed.
Print Assumptions C61_boxplus_total.

Example C61_product_total_ex : forall p, valid (RotMat (Rot_x 2)) /\ valid (RotVec (mkV3 (tolerance p / 3) 0 0)).
Proof. exact Claims12.C61_product_total_ex. Qed.

(** C62: logarithm, box minus and disparity of every pair of legal rotations. *)
Theorem C62_log_boxminus_total : forall (p : prim) (l r : rotation), valid l -> valid r ->
  exists v w, logarithmicMap p l = Val v /\ vnorm v <= PI /\ close (2 * tolerance p) (vec_rot v) (meaning l) /\
    boxMinus p l r = Val w /\ vnorm w <= PI /\ close (2 * tolerance p) (vec_rot w) (mmul (meaning l) (mtrans (meaning r))).
Proof. exact C62_log_boxminus_total_lemma. Qed.
Print Assumptions C62_log_boxminus_total.

(** C62: the disparity angle is the true angle up to the stated error, and
    isNear can only be wrong when the angle is that close to the threshold. *)
Theorem C62_disparity_total : forall (p : prim) (l r : rotation) (tol : R), valid l -> valid r ->
  let err := match kind_of l with KVec => 4 * tolerance p | _ => machine_eps p / 100 end in
  exists d t c, disparity p l r = Val d /\ 0 <= d <= PI /\
    is_rotation_angle (mmul (meaning l) (mtrans (meaning r))) t /\ Rabs (d - t) <= err /\
    isNear p l r tol = Val c /\ (t <= tol - err -> c = true) /\ (tol + err < t -> c = false).
Proof. exact C62_disparity_total_lemma. Qed.
Print Assumptions C62_disparity_total.

(** C62: box plus undoes box minus and interpolation meets its end points, up
    to the truncation tolerance, for every pair of legal rotations. *)
Theorem C62_endpoints_total : forall (p : prim) (a b : rotation) (ratio : R), valid a -> valid b ->
  exists v s t, boxMinus p b a = Val v /\ boxPlus p a v = Val s /\ kind_of s = kind_of a /\ rotates_like p (5 * tolerance p) s (meaning b) /\
    interpolate p a b ratio = Val t /\ kind_of t = kind_of a /\
    (ratio <= 0 -> rotates_like p (5 * tolerance p) t (meaning a)) /\
    (1 <= ratio -> rotates_like p (5 * tolerance p) t (meaning b)) /\
    (0 <= ratio <= 1 -> rotates_like p (5 * tolerance p) t (mmul (vec_rot (vscale ratio v)) (meaning a))).
Proof. exact C62_endpoints_total_lemma. Qed.
Print Assumptions C62_endpoints_total.

(** C63: any history of calls with legal operands (no windows) on an object
    that is not a matrix: no call fails, the class never changes, and after n
    calls the object rotates every vector as the history prescribes, up to
    2(n+1) times the truncation tolerance. Only for quaternion objects is the
    number of calls limited (their norm drifts). *)
Theorem C63_history_total : forall (p : prim) (s : rotation) (os : list rop), valid s -> kind_of s <> KMat ->
  Forall (op_total (kind_of s)) os -> (kind_of s = KQuat -> INR (length os) <= 10 ^ 5) ->
  exists t, rrun p s os = Val t /\ kind_of t = kind_of s /\
    rotates_like p (2 * (INR (length os) + 1) * tolerance p) t (fold_left spec_step os (meaning s)).
Proof. exact C63_history_total_lemma. Qed.
Print Assumptions C63_history_total.

(** C63: for quaternion objects the error per call is 1/5000 of the rounding
    unit as long as left operands are quaternions. *)
Theorem C63_quaternion_history_total : forall (p : prim) (q : Quat) (os : list rop), qnorm2 q = 1 ->
  Forall op_quat os -> INR (length os) <= 10 ^ 5 ->
  exists q', rrun p (RotQuat q) os = Val (RotQuat q') /\
    Rabs (qnorm2 q' - 1) <= machine_eps p * INR (length os) / 10 ^ 5 /\
    rotates_like p ((INR (length os) + 1) * machine_eps p / 5000) (RotQuat q') (fold_left spec_step os (quat_rot q)).
Proof. exact C63_quaternion_history_total_lemma. Qed.
Print Assumptions C63_quaternion_history_total.

Example C63_history_total_ex : forall p,
  let s := RotVec (mkV3 (tolerance p / 3) 0 0) in
  let os := [OpMulRight (RotMat (Rot_x 2)); OpMulLeft (RotMat (Rot_x 1)); OpInvert; OpSetUnique; OpMulLeft (RotZyx (mkZyx 1 2 3));
             OpAssign (RotVec (mkV3 0 (machine_eps p) 0)); OpFix] in
  valid s /\ kind_of s <> KMat /\ Forall (op_total (kind_of s)) os /\ (kind_of s = KQuat -> INR (length os) <= 10 ^ 5) /\
  fold_left spec_step os (meaning s) = vec_rot (mkV3 0 (machine_eps p) 0).
Proof. exact Claims12.C63_history_total_ex. Qed.
