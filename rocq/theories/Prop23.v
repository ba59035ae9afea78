(** Generated by tools/genprops.py from Claims23.v: the property theorems only. *)
From Coq Require Import ZArith Reals Lra Psatz Bool List Lia.
From Flocq Require Import IEEE754.BinarySingleNaN Core.Core.
From Verif Require Import Linalg Spec SpecFacts SpecClose ModelCommon ModelEigen CommonFacts ModelRotation CloseFacts SpecTrip
  FloatModel FloatFacts FloatModel2 SpecFloatQ FloatQFacts FloatQProd FloatQHist FloatQRot FloatWrap FloatBuild FloatBuild3 FloatExt FloatModel3 FloatModel4 FloatModel6 Claims16 Claims18 Claims19 FloatModel7 Claims22.
Import ListNotations.
Local Open Scope R_scope.
From Verif Require Import Claims23.

(** C75: one round trip through the matrix, in exact arithmetic, for a quaternion
    (w, v) that need not be a unit quaternion, with |v|^2 < 3/4 (rotation angles below
    120 degrees): w v is preserved, and the defect |q|^2 - 1 is multiplied by
    |v|^2/(1 - |v|^2), the squared tangent of half the rotation angle: a defect
    shrinks for angles below 90 degrees, and grows, up to threefold, for angles
    between 90 and 120 degrees. *)
Theorem C75_defect : forall (p : prim) (q : Quat), half_sine2 q < 3/4 ->
  exists q', round_trips p 1 (RotQuat q) = Val (RotQuat q') /\ 0 < qw q' /\
    vscale (qw q') (vec_part q') = vscale (qw q) (vec_part q) /\
    qnorm2 q' - 1 = half_sine2 q / (1 - half_sine2 q) * (qnorm2 q - 1).
Proof. exact C75_defect_lemma. Qed.
Print Assumptions C75_defect.

Example C75_defect_ex : half_sine2 (mkQ (59/100) (4/5) 0 0) < 3/4 /\ half_sine2 (mkQ (59/100) (4/5) 0 0) / (1 - half_sine2 (mkQ (59/100) (4/5) 0 0)) = 16/9 /\ qnorm2 (mkQ (59/100) (4/5) 0 0) - 1 = -119/10000.
Proof. exact Claims23.C75_defect_ex. Qed.

(** C75: a quaternion (w, v) with norm below one, however close to one, and
    |v|^2 between 1/2 and 3/4 (a rotation by an angle between 90 and 120 degrees) does
    not keep its rotation when it is converted to a matrix and back again and again,
    in exact arithmetic: the quaternions converge to a unit quaternion of a rotation
    about the same axis by less than 90 degrees, with the same sine: the supplementary
    angle. *)
Theorem C75_unstable : forall (p : prim) (q : Quat), 0 < qw q -> qnorm2 q < 1 -> 1/2 < half_sine2 q < 3/4 ->
  exists e : Quat, qnorm e = 1 /\ 0 < qw e /\ 1/2 < qw e * qw e /\ vscale (qw e) (vec_part e) = vscale (qw q) (vec_part q) /\
    forall d, 0 < d -> exists N, forall n, (N <= n)%nat -> exists q', round_trips p n (RotQuat q) = Val (RotQuat q') /\ qdist q' e <= d.
Proof. exact C75_unstable_lemma. Qed.
Print Assumptions C75_unstable.

Example C75_unstable_ex : 0 < qw (mkQ (59/100) (4/5) 0 0) /\ qnorm2 (mkQ (59/100) (4/5) 0 0) < 1 /\ 1/2 < half_sine2 (mkQ (59/100) (4/5) 0 0) < 3/4.
Proof. exact Claims23.C75_unstable_ex. Qed.

(** C75: it happens with float and with double: the quaternion of a rotation by 118
    degrees about the x axis, rounded, with norm one up to 4 roundings, stands for a
    rotation by 62 degrees after 60 conversions to RotationMatrix and back, with the
    operations in the order in which Eigen writes them. *)
Theorem C75_float : forall (p : prim) (L : libm) (P : fl F64 -> fl F64 -> fl F64), exists q q' : FQ p,
  qfinite q /\ Rabs (qnorm (qval q) - 1) <= 4 * roundoff p /\
  515/1000 <= qw (qval q) <= 516/1000 /\ 857/1000 <= qx (qval q) <= 858/1000 /\ qy (qval q) = 0 /\ qz (qval q) = 0 /\
  orun L P (OQuat q) (trips 60) = OQuat q' /\
  qfinite q' /\ 857/1000 <= qw (qval q') <= 858/1000 /\ 515/1000 <= qx (qval q') <= 516/1000 /\ qy (qval q') = 0 /\ qz (qval q') = 0.
Proof. exact C75_float_lemma. Qed.
Print Assumptions C75_float.
