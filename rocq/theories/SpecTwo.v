(** Specification of the rotation between two vectors in floating point: what is assumed
    of the singular value decomposition, and the vectors that are considered. *)
From Coq Require Import Reals Bool.
From Flocq Require Import IEEE754.BinarySingleNaN Core.Core.
From Verif Require Import Linalg ModelCommon FloatModel FloatFacts FloatModel2 SpecFloatQ.
Local Open Scope R_scope.

(** the unit vector in the direction of [v] *)
Definition udir (v : V3) : V3 := vscale (/ vnorm v) v.
(** neither very short nor very long: the squared norm neither overflows nor loses digits *)
Definition ordinary (v : V3) : Prop := bpow radix2 (-50) <= vnorm v <= bpow radix2 50.

(** The third column of V of the singular value decomposition of the 2x3 matrix with
    rows [v0], [v1] is, up to [k] units of roundoff, a unit vector orthogonal to both
    rows, whenever these are unit vectors up to 5 units and nearly opposite. *)
Definition svd_accurate (p : prim) (k : R) (svd : FV p -> FV p -> FV p) : Prop :=
  forall v0 v1, vfinite v0 -> vfinite v1 ->
    Rabs (vnorm (vval v0) - 1) <= 5 * fu p -> Rabs (vnorm (vval v1) - 1) <= 5 * fu p -> vnorm (vadd (vval v0) (vval v1)) <= / 50 ->
    vfinite (svd v0 v1) /\ Rabs (vnorm (vval (svd v0 v1)) - 1) <= k * fu p /\
    Rabs (vdot (vval (svd v0 v1)) (vval v0)) <= k * fu p /\ Rabs (vdot (vval (svd v0 v1)) (vval v1)) <= k * fu p.
