(** Generated by tools/genprops.py from Claims11.v: the property theorems only. *)
From Coq Require Import Reals Lra Psatz Bool List ZArith Lia.
From Verif Require Import Linalg Spec SpecFacts ModelCommon ModelEigen ModelRotation CommonFacts ConvFacts RVFacts Windows RotFacts UniqueFacts MetricFacts EulerFacts EqFacts SetFacts ModelHistory SpecHistory HistoryFacts SpecClose CloseFacts NearUnit EulerNear RoundTrip TotalFacts TotalFacts2.
Local Open Scope R_scope.
Import ListNotations.
From Verif Require Import Claims11.

(** C57: what compareRelativePeriodic decides, for every positive period. *)
Theorem C57_compare_periodic : forall (a b P percent : R), 0 < P ->
  exists c, compareRelativePeriodic a b P percent = Val c /\
    (c = true <->
       (exists d, is_circular_distance P a b d /\ d <= percent / 100 * P) \/
       (near_multiple (/ 10 ^ 15) P a /\ near_multiple (/ 10 ^ 15) P b) \/
       (is_multiple P a /\ just_above_multiple (/ 10 ^ 6) P b) \/
       (is_multiple P b /\ just_above_multiple (/ 10 ^ 6) P a)).
Proof. exact C57_compare_periodic_lemma. Qed.
Print Assumptions C57_compare_periodic.

(** C57: the comparison is symmetric, does not see whole periods, and is
    reflexive for a non-negative tolerance. *)
Theorem C57_periodic_symmetry : forall (a b P percent : R), 0 < P ->
  compareRelativePeriodic a b P percent = compareRelativePeriodic b a P percent /\
  (forall k l : Z, compareRelativePeriodic (a + P * IZR k) (b + P * IZR l) P percent = compareRelativePeriodic a b P percent) /\
  (0 <= percent -> compareRelativePeriodic a a P percent = Val true).
Proof. exact C57_periodic_symmetry_lemma. Qed.
Print Assumptions C57_periodic_symmetry.

(** C57 refuted part: it does depend on the sign - reflecting both arguments can
    change the answer (the 1e-6 test only looks above multiples). *)
Theorem C57_periodic_reflection_refuted : exists a b P percent, 0 < P /\ 0 <= percent /\
  compareRelativePeriodic a b P percent = Val true /\ compareRelativePeriodic (- a) (- b) P percent = Val false.
Proof. exact C57_periodic_reflection_refuted_lemma. Qed.
Print Assumptions C57_periodic_reflection_refuted.

Example C57_compare_periodic_ex : compareRelativePeriodic (1/100) (99/100) 1 3 = Val true /\ compareRelativePeriodic (1/4) (3/4) 1 3 = Val false.
Proof. exact Claims11.C57_compare_periodic_ex. Qed.
