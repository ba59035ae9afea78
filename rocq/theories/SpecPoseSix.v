(** * SpecPoseSix: poses with a rotation of any class and the rigid motion they stand for. *)
From Coq Require Import Reals ZArith List Bool.
From Flocq Require Import IEEE754.BinarySingleNaN Core.Core.
From Verif Require Import Linalg Spec SpecDiff SpecClose ModelCommon FloatModel FloatModel2 FloatModel3 FloatModel4 FloatModel5 FloatModel6 FloatModel7 FloatModel8 SpecFloatQ SpecSix SpecPoseF FloatModel18 SpecMotion.
Import ListNotations.
Local Open Scope R_scope.

(** The pose stands for the rigid motion [g]: its rotation for that of [g] with a defect
    of [A] roundings, its position is within [E] of that of [g]. *)
Definition pose_stands {p} (T A E : R) (x : opose p) (g : rigid) : Prop :=
  stands T A (op_rot x) (rg_rot g) /\ vfinite (op_pos x) /\ vdist (vval (op_pos x)) (rg_pos g) <= E.
(** error of rotate() and of inverseRotate(), in roundings of the length of the vector *)
Definition rotate_roundings (k : okind) (A : R) : R := conv_defect k KMat A + 6.
Definition inverse_roundings (k : okind) (A : R) : R := rotate_roundings k A + match k with KSrc _ => 4200 | _ => 0 end.

(** ** Dead reckoning *)
(** One step: x = x * HomogeneousTransformation(Position(p_d), Rotation(RotationVector(v))),
    then possibly x.getRotation().fix(): [p_s] holds v, in body coordinates, and the
    duration; [p_d] is the displacement in body coordinates. *)
Record psample (p : prim) := mkPSample { p_s : sample p; p_d : FV p; p_o : orders3 }.
Arguments mkPSample {p}. Arguments p_s {p}. Arguments p_d {p}. Arguments p_o {p}.
Definition reckon1 {p} (L : libm) (P : fl F64 -> fl F64 -> fl F64) (x : opose p) (s : psample p) : opose p :=
  let c := s_c (p_s s) in
  let y := opose_mult L c (p_o s) x (mkOPose (p_d s) (oconvert L c (okind_of (op_rot x)) (OSrc (SrcRv (s_v (p_s s)))))) in
  if s_fix (p_s s) then mkOPose (op_pos y) (ofix P c (op_rot y)) else y.
Definition reckon {p} (L : libm) (P : fl F64 -> fl F64 -> fl F64) (x : opose p) (l : list (psample p)) : opose p := fold_left (reckon1 L P) l x.

(** The displacements describe the path [X] with the velocity [V], no displacement is
    longer than [len], and the path stays within [M] of the origin: duration times
    velocity stays within [d] of the displacement, turned by the orientation of the body
    at the beginning of the step. *)
Fixpoint displaces {p} (d len M : R) (Rt : R -> M33) (X V : R -> V3) (t : R) (l : list (psample p)) : Prop :=
  match l with
  | [] => True
  | s :: l =>
      let h := s_h (p_s s) in
      (vfinite (p_d s) /\ vnorm (vval (p_d s)) <= len /\ orders3_ok 3 3 3 (p_o s) /\ s_body (p_s s) = true /\ vnorm (X (t + h)) <= M) /\
      (forall u, t <= u <= t + h -> Vderiv X u (V u) /\ vdist (vscale h (V u)) (mvmul (Rt t) (vval (p_d s))) <= d) /\
      displaces d len M Rt X V (t + h) l
  end.
