(** Generated by tools/genprops.py from Claims7.v: the property theorems only. *)
From Coq Require Import ZArith List Bool.
From Verif Require Import ModelPhys SpecPhys.
Import ListNotations.
Local Open Scope Z_scope.
From Verif Require Import Claims7.

(** C45: a product or quotient with a proper type has the right SI dimension. *)
Theorem C45_dimensions_sound : forall a b : ptype,
  (mult_type a b <> Typeless -> si (mult_type a b) = dadd (si a) (si b)) /\
  (div_type a b <> Typeless -> si (div_type a b) = dsub (si a) (si b)).
Proof. exact C45_dimensions_sound_lemma. Qed.
Print Assumptions C45_dimensions_sound.

Example C45_dimensions_sound_ex : mult_type Mass Acceleration = Force /\ div_type AngularMomentum Inertia = AngularVelocity /\
  mult_type Position Force = Torque.
Proof. exact Claims7.C45_dimensions_sound_ex. Qed.

(** C45: multiplication of types is commutative (so scalar*vector and
    vector*scalar have one type), and division undoes a typed multiplication;
    typed division undoes it the other way. *)
Theorem C45_group_laws : forall a b c : ptype,
  mult_type a b = mult_type b a /\
  (c <> Typeless -> mult_type a b = c -> div_type c b = a /\ div_type c a = b) /\
  (a <> Typeless -> div_type c b = a -> mult_type a b = c) /\
  (a <> Typeless -> a <> Mass -> a <> Inertia -> a <> Power -> a <> Energy ->
     mult_type a Typeless = a /\ div_type a Typeless = a /\ div_type a a = Typeless).
Proof. exact C45_group_laws_lemma. Qed.
Print Assumptions C45_group_laws.

(** C45: which products and quotients are typed: exactly the laws of mechanics
    listed in SpecPhys, in either order of the factors; the quotients are their
    inverses. *)
Theorem C45_laws : forall a b c : ptype,
  (c <> Typeless -> (mult_type a b = c <-> law a b c)) /\
  (a <> Typeless -> (div_type c b = a <-> law a b c)).
Proof. exact C45_laws_lemma. Qed.
Print Assumptions C45_laws.

Example C45_laws_ex : law Velocity Mass Momentum /\ div_type Momentum Mass = Velocity /\ mult_type Time Torque = AngularMomentum.
Proof. exact Claims7.C45_laws_ex. Qed.

(** C45: the table is a legal set of C++ explicit specialisations: no product
    and no quotient is specialised twice. *)
Theorem C45_no_redefinition :
  NoDup (map (fun e => match e with (f1, f2, _) => (f1, f2) end) table) /\
  NoDup (map (fun e => match e with (_, f2, p) => (p, f2) end) table).
Proof. exact C45_no_redefinition_lemma. Qed.
Print Assumptions C45_no_redefinition.

(** C45: nested products and quotients of any depth: if no operation falls back
    to Typeless, the type of the expression has the dimension of the
    expression. *)
Theorem C45_expressions : forall e : pexpr, no_fallback e -> si (expr_type e) = expr_dim e.
Proof. exact C45_expressions_lemma. Qed.
Print Assumptions C45_expressions.

Example C45_expressions_ex :
  let e := PMul (PMul (PLeaf Mass) (PDiv (PLeaf Velocity) (PLeaf Time))) (PLeaf Position) in
  no_fallback e /\ expr_type e = Torque.
Proof. exact Claims7.C45_expressions_ex. Qed.

(** C45: the table is not complete: kindr forgets the type (Typeless) of
    products that have a type of their own: Force*Velocity is not Power, and a
    Typeless factor turns Mass, Inertia, Power and Energy (and only those) into
    Typeless. *)
Theorem C45_incomplete_refuted :
  (exists a b c, c <> Typeless /\ si c = dadd (si a) (si b) /\ si c <> si Typeless /\ mult_type a b = Typeless) /\
  mult_type Force Velocity = Typeless /\ si Power = dadd (si Force) (si Velocity) /\
  forall t, mult_type Typeless t <> t <-> In t [Mass; Inertia; Power; Energy].
Proof. exact C45_incomplete_refuted_lemma. Qed.
Print Assumptions C45_incomplete_refuted.
