(** * ModelPhys: physical types and the types of products and quotients
    (phys_quant/PhysicalType.hpp, vectors/VectorBase.hpp:50-64,
    vectors/Vector.hpp:744-810). *)
From Coq Require Import List Bool.
Import ListNotations.

(** enum class PhysicalType, PhysicalType.hpp:39-61 *)
Inductive ptype : Type :=
| Typeless | Time | Mass | Inertia | Power | Energy
| Jerk | Acceleration | Velocity | Position | Force | Momentum
| AngularJerk | AngularAcceleration | AngularVelocity | Angle | Torque | AngularMomentum.
Definition ptype_eq_dec (a b : ptype) : {a = b} + {a <> b}.
Proof. decide equality. Defined.
Definition ptype_eqb (a b : ptype) : bool := if ptype_eq_dec a b then true else false.

(** A use of KINDR_SPECIALIZE_PHYS_QUANT_RETURN_TYPE_ONEWAY(F1,F2,P),
    Vector.hpp:746-758, defines Multiplication<F1,F2> = P and
    Division<P,F2> = F1. *)
Definition oneway : Type := (ptype * ptype * ptype)%type.
(** ..._A(F1,F2,P), Vector.hpp:762-764 *)
Definition spec_A (f1 f2 p : ptype) : list oneway := [(f1, f2, p); (f2, f1, p)].
(** ..._B(F,P), Vector.hpp:768-769 *)
Definition spec_B (f p : ptype) : list oneway := [(f, f, p)].

(** The table, Vector.hpp:772-810 in order *)
Definition table : list oneway :=
  spec_B Typeless Typeless ++
  spec_A Typeless Time Time ++
  spec_A Typeless Jerk Jerk ++
  spec_A Typeless Acceleration Acceleration ++
  spec_A Typeless Velocity Velocity ++
  spec_A Typeless Position Position ++
  spec_A Typeless Force Force ++
  spec_A Typeless Momentum Momentum ++
  spec_A Typeless AngularJerk AngularJerk ++
  spec_A Typeless AngularAcceleration AngularAcceleration ++
  spec_A Typeless AngularVelocity AngularVelocity ++
  spec_A Typeless Angle Angle ++
  spec_A Typeless Torque Torque ++
  spec_A Typeless AngularMomentum AngularMomentum ++
  spec_A Position AngularJerk Jerk ++
  spec_A Position AngularAcceleration Acceleration ++
  spec_A Position AngularVelocity Velocity ++
  spec_A Position Force Torque ++
  spec_A Position Momentum AngularMomentum ++
  spec_A Time Jerk Acceleration ++
  spec_A Time Acceleration Velocity ++
  spec_A Time Velocity Position ++
  spec_A Time Force Momentum ++
  spec_A Time AngularJerk AngularAcceleration ++
  spec_A Time AngularAcceleration AngularVelocity ++
  spec_A Time AngularVelocity Angle ++
  spec_A Time Torque AngularMomentum ++
  spec_A Mass Acceleration Force ++
  spec_A Mass Velocity Momentum ++
  spec_A Inertia AngularAcceleration Torque ++
  spec_A Inertia AngularVelocity AngularMomentum.

(** Template specialisation lookup: the specialisation if there is one, the
    primary template (Typeless, VectorBase.hpp:50-64) otherwise. *)
Definition mult_spec (a b : ptype) : option ptype :=
  match find (fun e => match e with (f1, f2, _) => ptype_eqb f1 a && ptype_eqb f2 b end) table with
  | Some (_, _, p) => Some p | None => None
  end.
Definition div_spec (c b : ptype) : option ptype :=
  match find (fun e => match e with (_, f2, p) => ptype_eqb p c && ptype_eqb f2 b end) table with
  | Some (f1, _, _) => Some f1 | None => None
  end.
(** MultiplicationPhysicalTypeTraits<a,b>::ReturnType: type of a*b, a.cross(b),
    a.elementwiseMultiplication(b) *)
Definition mult_type (a b : ptype) : ptype := match mult_spec a b with Some p => p | None => Typeless end.
(** DivisionPhysicalTypeTraits<c,b>::ReturnType: type of c/b, c.elementwiseDivision(b) *)
Definition div_type (c b : ptype) : ptype := match div_spec c b with Some p => p | None => Typeless end.

(** The type of a nested expression. [typed_expr e = Some t] when every
    operation in [e] is covered by the table. *)
Inductive pexpr : Type := PLeaf (t : ptype) | PMul (a b : pexpr) | PDiv (a b : pexpr).
Fixpoint expr_type (e : pexpr) : ptype :=
  match e with
  | PLeaf t => t
  | PMul a b => mult_type (expr_type a) (expr_type b)
  | PDiv a b => div_type (expr_type a) (expr_type b)
  end.
