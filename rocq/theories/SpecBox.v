(** * SpecBox: error bounds of getDisparityAngle, logarithmicMap, boxMinus, boxPlus
    and interpolate on floating-point objects of the six classes. *)
From Coq Require Import Reals ZArith List.
From Flocq Require Import IEEE754.BinarySingleNaN Core.Core.
From Verif Require Import Linalg Spec SpecClose ModelCommon FloatModel FloatModel2 FloatModel3 FloatModel4 FloatModel7 SpecFloatQ SpecLibm SpecBuild SpecExt SpecSix.
Local Open Scope R_scope.

(** inverted() *)
Definition inv_error (p : prim) (k : okind) : R := match k with KSrc _ => 4200 * roundoff p | _ => 0 end.
(** x * y.inverted() for objects of classes [k], [j] with defects [A], [B] *)
Definition diff_error (p : prim) (k j : okind) (A B : R) : R := prod_error p k j A B + inv_error p j.
(** ... and its conversion to class [t] *)
Definition diff_limit (p : prim) (k j t : okind) (A B : R) : Prop := prod_limit p k j A B /\ conv_limit p k t (prod_defect k j A B).
Definition diff_conv_error (p : prim) (k j t : okind) (A B : R) : R := diff_error p k j A B + conv_error p k t (prod_defect k j A B).
(** getUnique() of a rotation vector: vectors shorter than 1e-5 (float), 1e-12
    (double) become zero *)
Definition unique_error (p : prim) : R := 600 * roundoff p + 101/100 * short_length p.
Definition log_error (p : prim) (k : okind) (A : R) : R := conv_error p k (KSrc SRv) A + unique_error p.
(** exponentialMap(v) * x *)
Definition plus_limit (p : prim) (k : okind) (A : R) : Prop := prod_limit p k k (conv_defect (KSrc SRv) k 0) A.
Definition plus_defect (k : okind) (A : R) : R := prod_defect k k (conv_defect (KSrc SRv) k 0) A.
Definition plus_error (p : prim) (k : okind) (A : R) : R := conv_error p (KSrc SRv) k 0 + prod_error p k k (conv_defect (KSrc SRv) k 0) A.
