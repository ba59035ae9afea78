(** * SpecHistory: what a sequence of calls on one rotation object must do. *)
From Coq Require Import Reals Lra List.
From Verif Require Import Linalg Spec ModelCommon ModelRotation ModelHistory Windows.
Import ListNotations.
Local Open Scope R_scope.

(** ** Specification of histories: what each call must do to the rotation. *)
Definition spec_step (m : M33) (o : rop) : M33 :=
  match o with
  | OpSetIdentity => mid
  | OpInvert => mtrans m
  | OpMulRight r => mmul m (meaning r)
  | OpMulLeft r => mmul (meaning r) m
  | OpAssign r => meaning r
  | OpSetUnique => m
  | OpFix => m
  end.
(** Side conditions of one call on an object of class [k] denoting [m]:
    operands are legal and outside the truncation windows; a rotation vector
    object (or left operand) must not hit a tiny non-zero rotation; Euler
    setUnique stays out of the gimbal bands (|sin pitch| < cos(1e-3)). *)
Definition operand_ok (p : prim) (r : rotation) : Prop := valid r /\ exact_operand p r.
Definition step_ok (p : prim) (k : kind) (m : M33) (o : rop) : Prop :=
  (k = KVec -> clear_angle p (spec_step m o)) /\
  match o with
  | OpMulRight r => operand_ok p r
  | OpMulLeft r => operand_ok p r /\ (kind_of r = KVec -> clear_angle p (spec_step m o))
  | OpAssign r => operand_ok p r
  | OpSetUnique => (k = KZyx -> Rabs (m20 m) < cos (/ 10 ^ 3)) /\ (k = KXyz -> Rabs (m02 m) < cos (/ 10 ^ 3))
  | _ => True
  end.
Fixpoint steps_ok (p : prim) (k : kind) (m : M33) (os : list rop) : Prop :=
  match os with
  | [] => True
  | o :: os' => step_ok p k m o /\ steps_ok p k (spec_step m o) os'
  end.

