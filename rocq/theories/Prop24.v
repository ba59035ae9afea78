(** Generated by tools/genprops.py from Claims24.v: the property theorems only. *)
From Coq Require Import ZArith Reals Lra Psatz Bool List Lia.
From Flocq Require Import IEEE754.BinarySingleNaN Core.Core.
From Verif Require Import Linalg Spec SpecFacts SpecClose ModelCommon ModelEigen CommonFacts CloseFacts MetricFacts PiBounds
  FloatModel FloatFacts FloatModel2 SpecFloatQ FloatQFacts FloatQProd FloatQHist FloatQRot FloatMHist FloatCast FloatModulo FloatWrap FloatModel3 SpecLibm SpecBuild FloatBuild FloatBuild2 FloatBuild3 FloatBuild4 FloatModel4 SpecExt FloatExt FloatExt2 FloatExt3 FloatExt4 FloatExt5 FloatExt6 FloatModel5 FloatModel6 FloatMat Claims21 FloatModel7 SpecSix FloatSix FloatFix FloatOHist FloatModel8 SpecBox FloatBox Claims16 Claims18 Claims19 Claims22.
Import ListNotations.
Local Open Scope R_scope.
From Verif Require Import Claims24.

(** C76: x.getDisparityAngle(y) for objects of any of the six classes is a number
    between 0 and the float pi; it is the angle between the two rotations up to 8/5
    of the errors of the difference x * y^-1 and of its conversion to AngleAxis, plus
    120 roundings, also where the angle is near 0 or near pi. *)
Theorem C76_disparity : forall (p : prim) (L : libm) (c : choices6) (ev : evaluation) (x y : fobject p) (rx ry : M33) (A B : R),
  libm_ok L -> choices6_ok c -> stands (64/10) A x rx -> stands (64/10) B y ry -> diff_limit p (okind_of x) (okind_of y) (KSrc SAA) A B ->
  let d := fdisparity L c ev x y in
  exists t, is_rotation_angle (mmul rx (mtrans ry)) t /\ is_finite d = true /\ 0 <= B2R d <= B2R (fcvt p fM_PI) /\
    Rabs (B2R d - t) <= 8/5 * diff_conv_error p (okind_of x) (okind_of y) (KSrc SAA) A B + 120 * roundoff p.
Proof. exact C76_disparity_lemma. Qed.
Print Assumptions C76_disparity.

Example C76_disparity_ex : libm_ok exact_libm /\ choices6_ok stdsix /\ stands (64/10) 6 (OQuat q345) (quat_rot (direction (qval q345))) /\ stands (64/10) 61 (OMat m345) (quat_rot (mkQ (3/5) (4/5) 0 0)) /\
  diff_limit F32 KQuat KMat (KSrc SAA) 6 61 /\ diff_limit F32 KMat KQuat (KSrc SAA) 2 6.
Proof. exact Claims24.C76_disparity_ex. Qed.

(** C76: isNear(other, tol) holds if the angle between the rotations is at most tol
    minus that error, and does not hold if it is more than tol plus that error. *)
Theorem C76_is_near : forall (p : prim) (L : libm) (c : choices6) (ev : evaluation) (x y : fobject p) (rx ry : M33) (A B t : R) (tol : fl p),
  libm_ok L -> choices6_ok c -> stands (64/10) A x rx -> stands (64/10) B y ry -> diff_limit p (okind_of x) (okind_of y) (KSrc SAA) A B ->
  is_finite tol = true -> is_rotation_angle (mmul rx (mtrans ry)) t ->
  let err := 8/5 * diff_conv_error p (okind_of x) (okind_of y) (KSrc SAA) A B + 120 * roundoff p in
  (t <= B2R tol - err -> fis_near L c ev x y tol = true) /\ (t > B2R tol + err -> fis_near L c ev x y tol = false).
Proof. exact C76_is_near_lemma. Qed.
Print Assumptions C76_is_near.

Example C76_is_near_ex : is_finite (flit F32 1 100) = true /\ is_rotation_angle (mmul mid (mtrans mid)) 0.
Proof. exact Claims24.C76_is_near_ex. Qed.

(** C76: two RotationQuaternions whose norms are one up to 6 roundings (what fix()
    leaves): getDisparityAngle is off by at most 250 roundings, 1.5e-5 for float. *)
Theorem C76_quaternions : forall (p : prim) (L : libm) (c : choices6) (ev : evaluation) (a b : FQ p),
  libm_ok L -> choices6_ok c -> qfinite a -> qfinite b -> Rabs (qnorm (qval a) - 1) <= 6 * roundoff p -> Rabs (qnorm (qval b) - 1) <= 6 * roundoff p ->
  let d := fdisparity L c ev (OQuat a) (OQuat b) in
  exists t, is_rotation_angle (mmul (quat_rot (direction (qval a))) (mtrans (quat_rot (direction (qval b))))) t /\ is_finite d = true /\ Rabs (B2R d - t) <= 250 * roundoff p.
Proof. exact C76_quaternions_lemma. Qed.
Print Assumptions C76_quaternions.

Example C76_quaternions_ex : qfinite q345 /\ Rabs (qnorm (qval q345) - 1) <= 6 * roundoff F32.
Proof. exact Claims24.C76_quaternions_ex. Qed.

(** C76: getUnique() of an AngleAxis: the angle is between 0 and the float pi, the
    axis is the old one, its negative, or the x axis, and the rotation changes by at
    most 132 roundings. *)
Theorem C76_unique_angle_axis : forall (p : prim) (ev : evaluation) (a : fl p) (n : FV p),
  object_ok (655/100) (SrcAA a n) ->
  let a' := fst (faa_unique ev a n) in let n' := snd (faa_unique ev a n) in
  is_finite a' = true /\ vfinite n' /\ 0 <= B2R a' <= B2R (fcvt p fM_PI) /\ (n' = n \/ n' = fvneg n \/ n' = funit_x p) /\
  close (132 * roundoff p) (turns (SrcAA a' n')) (turns (SrcAA a n)).
Proof. exact C76_unique_angle_axis_lemma. Qed.
Print Assumptions C76_unique_angle_axis.

Example C76_unique_angle_axis_ex : match aa345 with SrcAA a n => object_ok (655/100) (SrcAA a n) | _ => False end.
Proof. exact Claims24.C76_unique_angle_axis_ex. Qed.

(** C76: getUnique() of a RotationVector of length at most 6.55: the length is at
    most pi + 170 roundings, and the rotation changes by at most 600 roundings, plus
    1.01e-5 (float) or 1.01e-12 (double). *)
Theorem C76_unique_vector : forall (p : prim) (ev : evaluation) (b : ext_orders) (v : FV p),
  ext_ok b -> vfinite v -> vnorm (vval v) <= 655/100 ->
  let v' := frv_unique ev b v in
  vfinite v' /\ vnorm (vval v') <= PI + 170 * roundoff p /\ close (unique_error p) (vec_rot (vval v')) (vec_rot (vval v)).
Proof. exact C76_unique_vector_lemma. Qed.
Print Assumptions C76_unique_vector.

Example C76_unique_vector_ex : let v := mkFV (fofZ F32 4) (fofZ F32 3) (fofZ F32 0) in vfinite v /\ vnorm (vval v) = 5.
Proof. exact Claims24.C76_unique_vector_ex. Qed.

(** C76: logarithmicMap() of an object of any of the six classes is a finite vector
    of length at most pi + 170 roundings whose rotation is the one the object stands
    for, up to [log_error]. *)
Theorem C76_log : forall (p : prim) (L : libm) (c : choices6) (ev : evaluation) (x : fobject p) (r : M33) (A : R),
  libm_ok L -> choices6_ok c -> stands (64/10) A x r -> conv_limit p (okind_of x) (KSrc SRv) A ->
  let v := flog L c ev x in
  vfinite v /\ vnorm (vval v) <= PI + 170 * roundoff p /\ close (log_error p (okind_of x) A) (vec_rot (vval v)) r.
Proof. exact C76_log_lemma. Qed.
Print Assumptions C76_log.

Example C76_log_ex : libm_ok exact_libm /\ choices6_ok stdsix /\ stands (64/10) 6 (OQuat q345) (quat_rot (direction (qval q345))) /\ conv_limit F32 KQuat (KSrc SRv) 6.
Proof. exact Claims24.C76_log_ex. Qed.

(** C76: x.boxMinus(y) is the logarithm of rx * ry^-1 in the same sense. *)
Theorem C76_box_minus : forall (p : prim) (L : libm) (c : choices6) (ev : evaluation) (x y : fobject p) (rx ry : M33) (A B : R),
  libm_ok L -> choices6_ok c -> stands (64/10) A x rx -> stands (64/10) B y ry -> diff_limit p (okind_of x) (okind_of y) (KSrc SRv) A B ->
  let v := fbox_minus L c ev x y in
  vfinite v /\ vnorm (vval v) <= PI + 170 * roundoff p /\
  close (diff_error p (okind_of x) (okind_of y) A B + log_error p (okind_of x) (prod_defect (okind_of x) (okind_of y) A B)) (vec_rot (vval v)) (mmul rx (mtrans ry)).
Proof. exact C76_box_minus_lemma. Qed.
Print Assumptions C76_box_minus.

Example C76_box_minus_ex : diff_limit F32 KQuat KQuat (KSrc SRv) 6 6 /\ diff_limit F32 (KSrc SZyx) KMat (KSrc SRv) 0 61 /\ diff_limit F32 KMat KMat (KSrc SRv) 2 2 /\
  stands (64/10) 0 (OMat (cyclic F32)) (mkM33 0 0 1 1 0 0 0 1 0).
Proof. exact Claims24.C76_box_minus_ex. Qed.

(** C76: x.boxPlus(v) has the class of x and stands for exp(v) * rx, up to
    [plus_defect] and [plus_error]; |v| at most 6.4. *)
Theorem C76_box_plus : forall (p : prim) (L : libm) (c : choices6) (x : fobject p) (r : M33) (A : R) (v : FV p),
  libm_ok L -> choices6_ok c -> stands (64/10) A x r -> vfinite v -> vnorm (vval v) <= 64/10 -> plus_limit p (okind_of x) A ->
  let z := fbox_plus L c x v in
  okind_of z = okind_of x /\
  exists r', stands (64/10 + 320 * roundoff p) (plus_defect (okind_of x) A) z r' /\ close (plus_error p (okind_of x) A) r' (mmul (vec_rot (vval v)) r).
Proof. exact C76_box_plus_lemma. Qed.
Print Assumptions C76_box_plus.

Example C76_box_plus_ex : forall p : prim, plus_limit p KQuat 6 /\ plus_limit p KMat 61 /\ plus_limit p (KSrc SAA) 0 /\ plus_limit p (KSrc SRv) 0 /\ plus_limit p (KSrc SZyx) 0 /\ plus_limit p (KSrc SXyz) 0.
Proof. exact Claims24.C76_box_plus_ex. Qed.

(** C76: y.boxPlus(x.boxMinus(y)) stands for the rotation of x. *)
Theorem C76_box_round_trip : forall (p : prim) (L : libm) (c1 c2 : choices6) (ev : evaluation) (x y : fobject p) (rx ry : M33) (A B : R),
  libm_ok L -> choices6_ok c1 -> choices6_ok c2 -> stands (64/10) A x rx -> stands (64/10) B y ry ->
  diff_limit p (okind_of x) (okind_of y) (KSrc SRv) A B -> plus_limit p (okind_of y) B ->
  let z := fbox_plus L c1 y (fbox_minus L c2 ev x y) in
  okind_of z = okind_of y /\
  exists r', stands (64/10 + 320 * roundoff p) (plus_defect (okind_of y) B) z r' /\
    close (plus_error p (okind_of y) B + (diff_error p (okind_of x) (okind_of y) A B + log_error p (okind_of x) (prod_defect (okind_of x) (okind_of y) A B))) r' rx.
Proof. exact C76_box_round_trip_lemma. Qed.
Print Assumptions C76_box_round_trip.

Example C76_box_round_trip_ex : diff_limit F32 KQuat KQuat (KSrc SRv) 6 6 /\ plus_limit F32 KQuat 6 /\ stands (64/10) 6 (OQuat q345) (quat_rot (direction (qval q345))).
Proof. exact Claims24.C76_box_round_trip_ex. Qed.

(** C76: x.interpolate(y, ratio) has the class of x and stands for exp(s v) * rx, where
    s is the ratio clamped to [0,1] and v = y.boxMinus(x); at ratio 1 (or more) this is
    the rotation of y. *)
Theorem C76_interpolate : forall (p : prim) (L : libm) (c : choices6) (ev : evaluation) (x y : fobject p) (rx ry : M33) (A B : R) (ratio : fl F64),
  libm_ok L -> choices6_ok c -> stands (64/10) A x rx -> stands (64/10) B y ry ->
  diff_limit p (okind_of y) (okind_of x) (KSrc SRv) B A -> plus_limit p (okind_of x) A -> is_finite ratio = true ->
  let v := vval (fbox_minus L c ev y x) in let s := Rmax 0 (Rmin 1 (B2R ratio)) in
  let z := finterpolate L c ev x y ratio in
  let verr := diff_error p (okind_of y) (okind_of x) B A + log_error p (okind_of y) (prod_defect (okind_of y) (okind_of x) B A) in
  vnorm v <= PI + 170 * roundoff p /\ close verr (mmul (vec_rot v) rx) ry /\
  okind_of z = okind_of x /\
  exists r', stands (64/10 + 320 * roundoff p) (plus_defect (okind_of x) A) z r' /\ close (plus_error p (okind_of x) A + 25 * roundoff p) r' (mmul (vec_rot (vscale s v)) rx).
Proof. exact C76_interpolate_lemma. Qed.
Print Assumptions C76_interpolate.

Example C76_interpolate_ex : diff_limit F32 KQuat KQuat (KSrc SRv) 6 6 /\ plus_limit F32 KQuat 6 /\ is_finite (flit F64 3 10) = true.
Proof. exact Claims24.C76_interpolate_ex. Qed.
