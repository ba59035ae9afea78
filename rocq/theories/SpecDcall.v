(** * SpecDcall: the documented effect of calls on derivative objects, rate by
    rate, in terms of what the accessors of the operands return. *)
From Coq Require Import Reals List Bool.
From Verif Require Import Linalg Spec SpecRates ModelDiff ModelRates.
Import ListNotations.
Local Open Scope R_scope.

(** What a call does to the rate with name [n] of an object of class [c] that
    had the value [v]. *)
Definition effect (c : dclass) (n : rate) (v : R) (k : dcall) : R :=
  let of d := match dread d n with Some u => u | None => 0 end in
  match k with
  | CallPlus d | CallPlusAssign d => v + of d
  | CallMinus d | CallMinusAssign d => v - of d
  | CallTimes f => f * v
  | CallSetZero => 0
  | CallWrite m u => if rate_eq_dec (parameter c m) (parameter c n) then u else v
  | CallAssign d => of d
  end.
(** [s] is f a + g b, rate by rate. *)
Definition combination (f : R) (a : diff) (g : R) (b s : diff) : Prop :=
  class_of a = class_of b /\ class_of s = class_of a /\
  forall n u v, dread a n = Some u -> dread b n = Some v -> dread s n = Some (f * u + g * v).
