(** * Claims7: physical types (C45). *)
From Coq Require Import ZArith List Bool.
From Verif Require Import ModelPhys SpecPhys.
Import ListNotations.
Local Open Scope Z_scope.

Definition all_ptypes : list ptype :=
  [Typeless; Time; Mass; Inertia; Power; Energy; Jerk; Acceleration; Velocity; Position; Force; Momentum;
   AngularJerk; AngularAcceleration; AngularVelocity; Angle; Torque; AngularMomentum].
Lemma all_ptypes_complete t : In t all_ptypes.
Proof. destruct t; cbn; tauto. Qed.
Definition dim_eqb (a b : dim) : bool := (Z.eqb (kg a) (kg b) && Z.eqb (metre a) (metre b) && Z.eqb (second a) (second b))%bool.
Lemma dim_eqb_true a b : dim_eqb a b = true <-> a = b.
Proof.
  unfold dim_eqb. rewrite !andb_true_iff, !Z.eqb_eq. destruct a, b; cbn. split; [intros [[-> ->] ->]; reflexivity|].
  intros E. injection E. auto.
Qed.
Lemma ptype_eqb_true a b : ptype_eqb a b = true <-> a = b.
Proof. unfold ptype_eqb. destruct (ptype_eq_dec a b); split; auto; discriminate. Qed.
Lemma forall2 (f : ptype -> ptype -> bool) :
  forallb (fun a => forallb (f a) all_ptypes) all_ptypes = true -> forall a b, f a b = true.
Proof.
  intros H a b. rewrite forallb_forall in H. specialize (H a (all_ptypes_complete a)).
  rewrite forallb_forall in H. exact (H b (all_ptypes_complete b)).
Qed.
Lemma mult_sound a b : mult_type a b <> Typeless -> si (mult_type a b) = dadd (si a) (si b).
Proof.
  intros N. pose proof (forall2 (fun a b => ptype_eqb (mult_type a b) Typeless || dim_eqb (si (mult_type a b)) (dadd (si a) (si b)))%bool) as H.
  specialize (H ltac:(vm_compute; reflexivity) a b). cbn beta in H. apply orb_true_iff in H.
  rewrite ptype_eqb_true, dim_eqb_true in H. tauto.
Qed.
Lemma div_sound a b : div_type a b <> Typeless -> si (div_type a b) = dsub (si a) (si b).
Proof.
  intros N. pose proof (forall2 (fun a b => ptype_eqb (div_type a b) Typeless || dim_eqb (si (div_type a b)) (dsub (si a) (si b)))%bool) as H.
  specialize (H ltac:(vm_compute; reflexivity) a b). cbn beta in H. apply orb_true_iff in H.
  rewrite ptype_eqb_true, dim_eqb_true in H. tauto.
Qed.

(** C45: a product or quotient with a proper type has the right SI dimension. *)
Lemma C45_dimensions_sound_lemma : forall a b : ptype,
  (mult_type a b <> Typeless -> si (mult_type a b) = dadd (si a) (si b)) /\
  (div_type a b <> Typeless -> si (div_type a b) = dsub (si a) (si b)).
Proof. intros a b. split; [apply mult_sound|apply div_sound]. Qed.
Lemma C45_dimensions_sound_ex : mult_type Mass Acceleration = Force /\ div_type AngularMomentum Inertia = AngularVelocity /\
  mult_type Position Force = Torque.
Proof. repeat split. Qed.

(** C45: multiplication of types is commutative (so scalar*vector and
    vector*scalar have one type), and division undoes a typed multiplication;
    typed division undoes it the other way. *)
Lemma C45_group_laws_lemma : forall a b c : ptype,
  mult_type a b = mult_type b a /\
  (c <> Typeless -> mult_type a b = c -> div_type c b = a /\ div_type c a = b) /\
  (a <> Typeless -> div_type c b = a -> mult_type a b = c) /\
  (a <> Typeless -> a <> Mass -> a <> Inertia -> a <> Power -> a <> Energy ->
     mult_type a Typeless = a /\ div_type a Typeless = a /\ div_type a a = Typeless).
Proof.
  intros a b c.
  pose proof (forall2 (fun a b => ptype_eqb (mult_type a b) (mult_type b a))) as H1.
  pose proof (forall2 (fun a b => let c := mult_type a b in
     ptype_eqb c Typeless || (ptype_eqb (div_type c b) a && ptype_eqb (div_type c a) b))%bool) as H2.
  pose proof (forall2 (fun c b => let a := div_type c b in ptype_eqb a Typeless || ptype_eqb (mult_type a b) c)%bool) as H3.
  split; [|split; [|split]].
  - apply ptype_eqb_true. apply H1. vm_compute. reflexivity.
  - intros N <-. specialize (H2 ltac:(vm_compute; reflexivity) a b). cbv zeta beta in H2.
    rewrite orb_true_iff, andb_true_iff, !ptype_eqb_true in H2. tauto.
  - intros N <-. specialize (H3 ltac:(vm_compute; reflexivity) c b). cbv zeta beta in H3.
    rewrite orb_true_iff, !ptype_eqb_true in H3. tauto.
  - intros. destruct a; try congruence; repeat split.
Qed.

Definition inb (x : ptype * ptype * ptype) : bool :=
  existsb (fun y => ptype_eqb (fst (fst x)) (fst (fst y)) && ptype_eqb (snd (fst x)) (snd (fst y)) && ptype_eqb (snd x) (snd y))%bool laws.
Lemma inb_true x : inb x = true <-> In x laws.
Proof.
  unfold inb. rewrite existsb_exists. split.
  - intros ([[a b] c] & H & E). destruct x as [[a' b'] c']. rewrite !andb_true_iff, !ptype_eqb_true in E. cbn in E.
    destruct E as [[-> ->] ->]. exact H.
  - intros H. exists x. split; [exact H|]. rewrite !andb_true_iff, !ptype_eqb_true. auto.
Qed.
Lemma forall3 (f : ptype -> ptype -> ptype -> bool) :
  forallb (fun a => forallb (fun b => forallb (f a b) all_ptypes) all_ptypes) all_ptypes = true -> forall a b c, f a b c = true.
Proof.
  intros H a b c. rewrite forallb_forall in H. specialize (H a (all_ptypes_complete a)).
  rewrite forallb_forall in H. specialize (H b (all_ptypes_complete b)).
  rewrite forallb_forall in H. exact (H c (all_ptypes_complete c)).
Qed.
Lemma eqb_iff_iff (x y : bool) P Q : (x = true <-> P) -> (y = true <-> Q) -> Bool.eqb x y = true -> (P <-> Q).
Proof. intros H1 H2 E. apply Bool.eqb_prop in E. subst y. tauto. Qed.

(** C45: which products and quotients are typed: exactly the laws of mechanics
    listed in SpecPhys, in either order of the factors; the quotients are their
    inverses. *)
Lemma C45_laws_lemma : forall a b c : ptype,
  (c <> Typeless -> (mult_type a b = c <-> law a b c)) /\
  (a <> Typeless -> (div_type c b = a <-> law a b c)).
Proof.
  intros a b c.
  pose proof (forall3 (fun a b c => ptype_eqb c Typeless || Bool.eqb (ptype_eqb (mult_type a b) c) (inb (a, b, c) || inb (b, a, c)))%bool) as H1.
  pose proof (forall3 (fun a b c => ptype_eqb a Typeless || Bool.eqb (ptype_eqb (div_type c b) a) (inb (a, b, c) || inb (b, a, c)))%bool) as H2.
  specialize (H1 ltac:(vm_compute; reflexivity) a b c). specialize (H2 ltac:(vm_compute; reflexivity) a b c). cbv beta in H1, H2.
  rewrite orb_true_iff, ptype_eqb_true in H1, H2.
  split; intros N.
  - destruct H1 as [H1|H1]; [tauto|]. eapply eqb_iff_iff; [apply ptype_eqb_true| |exact H1]. rewrite orb_true_iff, !inb_true. reflexivity.
  - destruct H2 as [H2|H2]; [tauto|]. eapply eqb_iff_iff; [apply ptype_eqb_true| |exact H2]. rewrite orb_true_iff, !inb_true. reflexivity.
Qed.
Lemma C45_laws_ex : law Velocity Mass Momentum /\ div_type Momentum Mass = Velocity /\ mult_type Time Torque = AngularMomentum.
Proof. split; [apply C45_laws_lemma; [discriminate|reflexivity]|]. split; reflexivity. Qed.

(** C45: the table is a legal set of C++ explicit specialisations: no product
    and no quotient is specialised twice. *)
Lemma C45_no_redefinition_lemma :
  NoDup (map (fun e => match e with (f1, f2, _) => (f1, f2) end) table) /\
  NoDup (map (fun e => match e with (_, f2, p) => (p, f2) end) table).
Proof.
  assert (D : forall x y : ptype * ptype, {x = y} + {x <> y}) by (intros; decide equality; apply ptype_eq_dec).
  assert (G : forall l : list (ptype * ptype),
    nodup (fun x y : ptype * ptype => match ptype_eq_dec (fst x) (fst y), ptype_eq_dec (snd x) (snd y) with
             | left p, left q => left (match x, y return fst x = fst y -> snd x = snd y -> x = y with
                (a, b), (c, d) => fun p q => match p in _ = z, q in _ = w return (a, b) = (z, w) with eq_refl, eq_refl => eq_refl end end p q)
             | right n, _ => right (fun e => n (f_equal fst e))
             | _, right n => right (fun e => n (f_equal snd e)) end) l = l -> NoDup l).
  { intros l H. rewrite <- H. apply NoDup_nodup. }
  split; apply G; vm_compute; reflexivity.
Qed.

(** C45: nested products and quotients of any depth: if no operation falls back
    to Typeless, the type of the expression has the dimension of the
    expression. *)
Lemma C45_expressions_lemma : forall e : pexpr, no_fallback e -> si (expr_type e) = expr_dim e.
Proof.
  induction e as [t|a IHa b IHb|a IHa b IHb]; cbn [no_fallback expr_dim]; intros H.
  - reflexivity.
  - destruct H as (Ha & Hb & Hf). rewrite <- IHa, <- IHb by assumption. cbn [expr_type] in *.
    destruct (ptype_eq_dec (mult_type (expr_type a) (expr_type b)) Typeless) as [E|N].
    + rewrite E. symmetry. apply Hf, E.
    + apply mult_sound, N.
  - destruct H as (Ha & Hb & Hf). rewrite <- IHa, <- IHb by assumption. cbn [expr_type] in *.
    destruct (ptype_eq_dec (div_type (expr_type a) (expr_type b)) Typeless) as [E|N].
    + rewrite E. symmetry. apply Hf, E.
    + apply div_sound, N.
Qed.
Lemma C45_expressions_ex :
  let e := PMul (PMul (PLeaf Mass) (PDiv (PLeaf Velocity) (PLeaf Time))) (PLeaf Position) in
  no_fallback e /\ expr_type e = Torque.
Proof. cbn. repeat split; discriminate. Qed.

(** C45: the table is not complete: kindr forgets the type (Typeless) of
    products that have a type of their own: Force*Velocity is not Power, and a
    Typeless factor turns Mass, Inertia, Power and Energy (and only those) into
    Typeless. *)
Lemma C45_incomplete_refuted_lemma :
  (exists a b c, c <> Typeless /\ si c = dadd (si a) (si b) /\ si c <> si Typeless /\ mult_type a b = Typeless) /\
  mult_type Force Velocity = Typeless /\ si Power = dadd (si Force) (si Velocity) /\
  forall t, mult_type Typeless t <> t <-> In t [Mass; Inertia; Power; Energy].
Proof.
  split; [|split; [reflexivity|split; [reflexivity|]]].
  - exists Force, Velocity, Power. repeat split; discriminate.
  - intros t. destruct t; cbn; split; intros H; try tauto; try congruence; try discriminate;
      exfalso; intuition discriminate.
Qed.
