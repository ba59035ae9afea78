(** * SpecMotion: integrating angular velocity samples with boxPlus() and products, and
    what it means that the samples come from a motion. *)
From Coq Require Import Reals ZArith List Bool.
From Flocq Require Import IEEE754.BinarySingleNaN Core.Core.
From Verif Require Import Linalg Spec SpecDiff SpecClose ModelCommon FloatModel FloatModel2 FloatModel3 FloatModel4 FloatModel6 FloatModel7 FloatModel8 SpecFloatQ.
Import ListNotations.
Local Open Scope R_scope.

(** One step of the loop: the increment [s_v] (duration times angular velocity, a float
    vector) is given in body coordinates, x = x * Rotation(RotationVector(v)), or in world
    coordinates, x = x.boxPlus(v); x.fix() may follow. [s_h] is the duration. *)
Record sample (p : prim) := mkSample { s_v : FV p; s_body : bool; s_fix : bool; s_c : choices6; s_h : R }.
Arguments mkSample {p}. Arguments s_v {p}. Arguments s_body {p}. Arguments s_fix {p}. Arguments s_c {p}. Arguments s_h {p}.

(** the calls of the library: boxPlus, RotationImpl.hpp:154-170, operator*,
    RotationBase.hpp:254-257, exponentialMap, RotationImpl.hpp:144-147, fix,
    RotationQuaternion.hpp:614-620 *)
Definition integrate1 {p} (L : libm) (P : fl F64 -> fl F64 -> fl F64) (x : fobject p) (s : sample p) : fobject p :=
  let y := if s_body s then oproduct L (s_c s) x (fexp L (s_c s) (okind_of x) (s_v s)) else fbox_plus L (s_c s) x (s_v s) in
  if s_fix s then ofix P (s_c s) y else y.
Definition integrate {p} (L : libm) (P : fl F64 -> fl F64 -> fl F64) (x : fobject p) (l : list (sample p)) : fobject p := fold_left (integrate1 L P) l x.

(** A body moves with the orientation [Rt] and the angular velocity [om] (in world
    coordinates). The samples [l], starting at time [t], describe the motion up to [d]:
    during each step, its duration times the angular velocity (in body or in world
    coordinates) stays within [d] of the increment. *)
Fixpoint describes {p} (d : R) (Rt : R -> M33) (om : R -> V3) (t : R) (l : list (sample p)) : Prop :=
  match l with
  | [] => True
  | s :: l =>
      (0 <= s_h s /\ vfinite (s_v s) /\ vnorm (vval (s_v s)) <= 64/10 /\ choices6_ok (s_c s)) /\
      (forall u, t <= u <= t + s_h s -> SO3 (Rt u) /\ has_global_velocity Rt u (om u) /\
        vdist (vscale (s_h s) (if s_body s then mvmul (mtrans (Rt u)) (om u) else om u)) (vval (s_v s)) <= d) /\
      describes d Rt om (t + s_h s) l
  end.
Definition duration {p} (l : list (sample p)) : R := fold_right (fun s a => s_h s + a) 0 l.
(** at most [K] steps, of which [k] are over, follow one another without fix() *)
Fixpoint fixed_within {p} (K k : nat) (l : list (sample p)) : Prop :=
  match l with [] => True | s :: l => (k < K)%nat /\ fixed_within K (if s_fix s then 0%nat else S k) l end.
