(** * FloatModel18: HomogeneousTransformation with a rotation of any of the six classes,
    in floating-point arithmetic. *)
From Coq Require Import ZArith Bool List.
From Flocq Require Import IEEE754.BinarySingleNaN Core.Core.
From Verif Require Import ModelCommon FloatModel FloatModel2 FloatModel3 FloatModel4 FloatModel5 FloatModel6 FloatModel7.

(** The two members position_ and rotation_, HomogeneousTransformation.hpp:40-44 *)
Record opose (p : prim) : Type := mkOPose { op_pos : FV p; op_rot : fobject p }.
Arguments mkOPose {p}. Arguments op_pos {p}. Arguments op_rot {p}.
(** transform, HomogeneousTransformation.hpp:165-167 *)
Definition otransform {p} (L : libm) (c : choices6) (o : orders3) (t : opose p) (x : FV p) : FV p :=
  fvadd (orotate L c o (op_rot t) x) (op_pos t).
(** inverseTransform, HomogeneousTransformation.hpp:168-170, with inverseRotate,
    RotationBase.hpp:326-328 *)
Definition oinverseTransform {p} (L : libm) (c : choices6) (o : orders3) (t : opose p) (x : FV p) : FV p :=
  orotate L c o (oinverted L c (op_rot t)) (fvsub x (op_pos t)).
(** operator*, HomogeneousTransformation.hpp:176-185 *)
Definition opose_mult {p} (L : libm) (c : choices6) (o : orders3) (a b : opose p) : opose p :=
  mkOPose (fvadd (op_pos a) (orotate L c o (op_rot a) (op_pos b))) (oproduct L c (op_rot a) (op_rot b)).
(** setIdentity(), Identity(), HomogeneousTransformation.hpp:119-130 *)
Definition opose_identity {p} (k : okind) : opose p := mkOPose fvzero (oidentity k).
