(** * SpecPhys: SI dimensions of the physical types (radians are
    dimensionless, as everywhere in SI). *)
From Coq Require Import ZArith List.
From Verif Require Import ModelPhys.
Import ListNotations.
Local Open Scope Z_scope.

(** exponents of kilogram, metre, second *)
Record dim : Type := mkDim { kg : Z; metre : Z; second : Z }.
Definition dadd (a b : dim) : dim := mkDim (kg a + kg b) (metre a + metre b) (second a + second b).
Definition dsub (a b : dim) : dim := mkDim (kg a - kg b) (metre a - metre b) (second a - second b).
Definition si (t : ptype) : dim :=
  match t with
  | Typeless => mkDim 0 0 0
  | Time => mkDim 0 0 1
  | Mass => mkDim 1 0 0
  | Inertia => mkDim 1 2 0
  | Power => mkDim 1 2 (-3)
  | Energy => mkDim 1 2 (-2)
  | Jerk => mkDim 0 1 (-3)
  | Acceleration => mkDim 0 1 (-2)
  | Velocity => mkDim 0 1 (-1)
  | Position => mkDim 0 1 0
  | Force => mkDim 1 1 (-2)
  | Momentum => mkDim 1 1 (-1)
  | AngularJerk => mkDim 0 0 (-3)
  | AngularAcceleration => mkDim 0 0 (-2)
  | AngularVelocity => mkDim 0 0 (-1)
  | Angle => mkDim 0 0 0
  | Torque => mkDim 1 2 (-2)
  | AngularMomentum => mkDim 1 2 (-1)
  end.
Fixpoint expr_dim (e : pexpr) : dim :=
  match e with
  | PLeaf t => si t
  | PMul a b => dadd (expr_dim a) (expr_dim b)
  | PDiv a b => dsub (expr_dim a) (expr_dim b)
  end.
(** Every operation of the expression is one the library has a rule for, i.e.
    it does not fall back to "Typeless because unknown": its result is a
    proper type, or the operands' dimensions really cancel. *)
Fixpoint no_fallback (e : pexpr) : Prop :=
  match e with
  | PLeaf _ => True
  | PMul a b => no_fallback a /\ no_fallback b /\
      (expr_type e = Typeless -> dadd (si (expr_type a)) (si (expr_type b)) = mkDim 0 0 0)
  | PDiv a b => no_fallback a /\ no_fallback b /\
      (expr_type e = Typeless -> dsub (si (expr_type a)) (si (expr_type b)) = mkDim 0 0 0)
  end.

(** The laws of mechanics between these types: integration over time, lever
    arms, Newton's second law; a number times a kinematic or dynamic quantity
    keeps its type. *)
Definition laws : list (ptype * ptype * ptype) :=
  map (fun t => (Typeless, t, t)) [Time; Jerk; Acceleration; Velocity; Position; Force; Momentum;
    AngularJerk; AngularAcceleration; AngularVelocity; Angle; Torque; AngularMomentum] ++
  [ (Time, Jerk, Acceleration); (Time, Acceleration, Velocity); (Time, Velocity, Position);
    (Time, AngularJerk, AngularAcceleration); (Time, AngularAcceleration, AngularVelocity); (Time, AngularVelocity, Angle);
    (Time, Force, Momentum); (Time, Torque, AngularMomentum);
    (Position, AngularJerk, Jerk); (Position, AngularAcceleration, Acceleration); (Position, AngularVelocity, Velocity);
    (Position, Force, Torque); (Position, Momentum, AngularMomentum);
    (Mass, Acceleration, Force); (Mass, Velocity, Momentum);
    (Inertia, AngularAcceleration, Torque); (Inertia, AngularVelocity, AngularMomentum) ].
(** [c] is the product of an [a] and a [b] *)
Definition law (a b c : ptype) : Prop := In (a, b, c) laws \/ In (b, a, c) laws.
