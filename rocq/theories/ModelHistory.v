(** * ModelHistory: a rotation object that is mutated by a sequence of calls.
    One constructor per mutating member function / assignment form. *)
From Coq Require Import Reals Lra List.
From Verif Require Import Linalg Spec ModelCommon ModelEigen ModelRotation.
Import ListNotations.
Local Open Scope R_scope.

Inductive rop : Type :=
| OpSetIdentity            (* r.setIdentity(): e.g. RotationQuaternion.hpp:321-328 *)
| OpInvert                 (* r.invert(): e.g. RotationQuaternion.hpp:297-301 *)
| OpMulRight (o : rotation)(* r = r * o: RotationBase.hpp:254-257 *)
| OpMulLeft (o : rotation) (* r = o * r: the product has the class of o, the assignment converts it *)
| OpAssign (o : rotation)  (* r = o: converting operator=, e.g. RotationQuaternion.hpp:241-244 *)
| OpSetUnique              (* r.setUnique(): RotationBase.hpp and classes *)
| OpFix                    (* r.fix(): RotationBase.hpp:386-388 *).

Definition rstep (p : prim) (s : rotation) (o : rop) : outcome rotation :=
  match o with
  | OpSetIdentity => Val (identity (kind_of s))
  | OpInvert => inverted s
  | OpMulRight r => mult p s r
  | OpMulLeft r => t <- mult p r s ;; convert p (kind_of s) t
  | OpAssign r => convert p (kind_of s) r
  | OpSetUnique => Val (get_unique p s)
  | OpFix => fix_rot s
  end.
Fixpoint rrun (p : prim) (s : rotation) (os : list rop) : outcome rotation :=
  match os with
  | [] => Val s
  | o :: os' => t <- rstep p s o ;; rrun p t os'
  end.
