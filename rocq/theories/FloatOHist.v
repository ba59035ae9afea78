(** * FloatOHist: histories of calls on objects of the six classes in
    floating-point arithmetic. *)
From Coq Require Import ZArith Reals Lra Psatz Bool List Lia.
From Flocq Require Import IEEE754.BinarySingleNaN Core.Core.
From Verif Require Import Linalg Spec SpecFacts SpecClose ModelCommon ModelEigen CommonFacts ModelRotation ConvFacts RotFacts CloseFacts
  FloatModel FloatFacts FloatModel2 SpecFloatQ FloatQFacts FloatQProd FloatQHist FloatQRot FloatMHist FloatModel3 SpecLibm SpecBuild FloatModel4 SpecExt FloatExt5 FloatExt6 FloatModel5 FloatModel6 FloatMat FloatModel7 SpecSix FloatSix FloatFix.
Import ListNotations.
Local Open Scope R_scope.

(** the object stands for [r], and is a nonzero quaternion if it is a quaternion *)
Definition ready {p} (T A : R) (x : fobject p) (r : M33) : Prop := stands T A x r /\ (okind_of x = KQuat -> A * fu p <= / 40) /\ 0 <= A.
Lemma ready_SO3 p T A (x : fobject p) r : ready T A x r -> SO3 r.
Proof. intros (H & K & _). exact (stands_SO3 _ _ _ _ _ H K). Qed.
Lemma conv_defect_nonneg f t A : 0 <= A -> 0 <= conv_defect f t A.
Proof. intro H. destruct f, t; cbn [conv_defect]; lra. Qed.
Lemma conv_quat_small p f A : 0 <= A -> conv_limit p f KQuat A -> conv_defect f KQuat A * fu p <= / 40.
Proof. intros H. pose proof (fu_pos p). pose proof (fu_24 p). destruct f; cbn [conv_limit conv_defect]; rewrite ?roundoff_fu; lra. Qed.
Lemma oconvert_ready p L c k T A (x : fobject p) r : libm_ok L -> choices6_ok c -> 64/10 <= T <= 655/100 -> ready T A x r -> conv_limit p (okind_of x) k A ->
  okind_of (oconvert L c k x) = k /\
  exists r', ready (T + 160 * fu p) (conv_defect (okind_of x) k A) (oconvert L c k x) r' /\ close (conv_error p (okind_of x) k A) r' r.
Proof.
  intros HL HC TT (H & K & A0) LIM. destruct (oconvert_ok p L c k T A x r HL HC TT H LIM) as (E & r' & X & Y). split; [exact E|]. exists r'. split; [|exact Y].
  split; [exact X|]. split; [|now apply conv_defect_nonneg]. intro Q. rewrite E in Q. subst k. now apply conv_quat_small.
Qed.
Lemma joint_nonneg A B : 0 <= A -> 0 <= B -> 0 <= joint A B.
Proof. intros. unfold joint, Rmin. destruct (Rle_dec A B); lra. Qed.
Lemma qjoint_nonneg A B : 0 <= A -> 0 <= B -> 0 <= qjoint A B.
Proof. intros. unfold qjoint, Rmin. destruct (Rle_dec A B); lra. Qed.
Lemma qjoint_small p A B : A * fu p <= / 100 -> B * fu p <= / 100 -> qjoint A B * fu p <= / 40.
Proof.
  intros HA HB. pose proof (fu_pos p). pose proof (fu_24 p). assert (Rmin A B * fu p <= / 100). { apply Rle_trans with (A * fu p); [apply Rmult_le_compat_r; [lra|apply Rmin_l]|exact HA]. }
  unfold qjoint. lra.
Qed.
Lemma oproduct_ready p L c T A B (l r : fobject p) rl rr : libm_ok L -> choices6_ok c -> 64/10 <= T <= 655/100 -> ready T A l rl -> ready T B r rr ->
  prod_limit p (okind_of l) (okind_of r) A B ->
  okind_of (oproduct L c l r) = okind_of l /\
  exists r', ready (T + 160 * fu p) (prod_defect (okind_of l) (okind_of r) A B) (oproduct L c l r) r' /\ close (prod_error p (okind_of l) (okind_of r) A B) r' (mmul rl rr).
Proof.
  intros HL HC TT Hl Hr LIM. pose proof (ready_SO3 _ _ _ _ _ Hl) as Sl. pose proof (ready_SO3 _ _ _ _ _ Hr) as Sr. destruct Hl as (Hl & _ & A0). destruct Hr as (Hr & _ & B0).
  destruct (oproduct_ok p L c T A B l r rl rr HL HC TT Hl Hr LIM Sl Sr) as (E & r' & X & Y). split; [exact E|]. exists r'. split; [|exact Y]. split; [exact X|]. rewrite E.
  assert (QD : 0 <= qprod_defect (okind_of l) (okind_of r) A B) by (apply qjoint_nonneg; now apply conv_defect_nonneg).
  split.
  - intro Q. rewrite Q in LIM |- *. cbn [prod_limit prod_defect conv_defect] in *. destruct LIM as (_ & _ & _ & LA & LB). rewrite roundoff_fu in LA, LB. now apply qjoint_small.
  - unfold prod_defect. destruct (okind_of l), (okind_of r); try (apply conv_defect_nonneg; exact QD). now apply joint_nonneg.
Qed.
Lemma oinverted_ready p L c T A (x : fobject p) r : libm_ok L -> choices6_ok c -> 64/10 <= T <= 655/100 -> ready T A x r ->
  okind_of (oinverted L c x) = okind_of x /\
  exists r', ready T A (oinverted L c x) r' /\ close (match okind_of x with KSrc _ => 4200 * fu p | _ => 0 end) r' (mtrans r).
Proof.
  intros HL HC TT (H & K & A0). destruct (oinverted_ok p L c T A x r HL HC TT H) as (E & r' & X & Y). split; [exact E|]. exists r'. split; [|exact Y]. split; [exact X|]. rewrite E. split; assumption.
Qed.
Lemma ofix_ready p P c T A (x : fobject p) r : pow_ok P -> choices6_ok c -> ready T A x r -> fix_limit p (okind_of x) A ->
  okind_of (ofix P c x) = okind_of x /\
  exists r', ready T (fix_defect (okind_of x) A) (ofix P c x) r' /\ close (fix_roundings (okind_of x) * fu p) r' r.
Proof.
  intros HP HC (H & K & A0) LIM. pose proof (fu_pos p). pose proof (fu_24 p). destruct (ofix_ok p P c T A x r HP HC H LIM) as (E & r' & X & Y). split; [exact E|]. exists r'. split; [|exact Y]. split; [exact X|]. rewrite E.
  split; [intro Q; rewrite Q; cbn [fix_defect]; lra|]. destruct (okind_of x); cbn [fix_defect]; lra.
Qed.
Lemma ready_T p T T' A (x : fobject p) r : T <= T' -> ready T A x r -> ready T' A x r.
Proof. intros H (X & Y). split; [now apply (stands_T p T T')|exact Y]. Qed.

(** the operand of a call *)
Lemma operand_ready p T B (t : fobject p) e : 64/10 <= T -> 0 <= B -> stands (64/10) B t e -> (okind_of t = KQuat -> B * fu p <= / 40) -> ready T B t e.
Proof. intros HT B0 H K. apply (ready_T p (64/10)); [exact HT|]. repeat split; assumption. Qed.
Lemma limit_small p k B : conv_limit p KQuat k B -> B * fu p <= / 40.
Proof.
  pose proof (fu_pos p). pose proof (fu_24 p). destruct k as [| |k]; cbn [conv_limit]; rewrite ?roundoff_fu; try lra.
  intro H1. assert (B <= 1200) by (destruct k; cbn [extract_limit] in H1; lra). assert (B * fu p <= 1200 * fu p) by (apply Rmult_le_compat_r; lra). lra.
Qed.
Lemma prod_small_r p k A B : prod_limit p k KQuat A B -> B * fu p <= / 40.
Proof. destruct k; cbn [prod_limit]; intros (_ & H & _); exact (limit_small p KQuat B H). Qed.
Lemma prod_small_l p k A B : prod_limit p KQuat k A B -> A * fu p <= / 40.
Proof. cbn [prod_limit]; intros (H & _); exact (limit_small p KQuat A H). Qed.

Lemma ostep_ok p L P T (x : fobject p) r a (c : ocall p) : libm_ok L -> pow_ok P -> 64/10 <= T <= 65/10 -> ocall_ok c ->
  okind_of x = acc_class a -> ready T (acc_defect a) x r -> acc_limit a c ->
  okind_of (ostep L P x (fst (fst c)) (snd (fst c))) = acc_class (acc_step a c) /\
  exists r', ready (T + 320 * fu p) (acc_defect (acc_step a c)) (ostep L P x (fst (fst c)) (snd (fst c))) r' /\
    forall r0, SO3 r0 -> close (acc_error a) r r0 -> close (acc_error (acc_step a c)) r' (oexact_step r0 c).
Proof.
  intros HL HP TT HC EK H LIM. pose proof (fu_pos p) as U. pose proof (fu_24 p) as V. pose proof (ready_SO3 _ _ _ _ _ H) as Sr.
  destruct c as [[o ch] [e B]]. destruct HC as (HC & B0 & HO). destruct a as [k A E]; cbn [acc_class acc_defect acc_error] in *. subst k.
  destruct o as [t|t|t| | | |k]; cbn [ostep acc_step acc_limit oexact_step fst snd acc_class acc_defect acc_error] in *.
  - assert (RT : ready T B t e). { apply operand_ready; [lra|exact B0|exact HO|]. intro Q. rewrite Q in LIM. exact (prod_small_r _ _ _ _ LIM). }
    destruct (oproduct_ready p L ch T A B x t r e HL HC ltac:(lra) H RT LIM) as (X & r' & Y & Z). split; [exact X|]. exists r'. split; [apply (ready_T p (T + 160 * fu p)); [lra|exact Y]|].
    intros r0 S0 C0. eapply close_mono; [|exact (close_trans _ _ _ _ _ Z (close_mul_r _ _ _ _ (ready_SO3 _ _ _ _ _ RT) C0))]. lra.
  - destruct LIM as [LP LC]. assert (RT : ready T B t e). { apply operand_ready; [lra|exact B0|exact HO|]. intro Q. rewrite Q in LP. exact (prod_small_l _ _ _ _ LP). }
    destruct (oproduct_ready p L ch T B A t x e r HL HC ltac:(lra) RT H LP) as (X & r' & Y & Z).
    assert (LC' : conv_limit p (okind_of (oproduct L ch t x)) (okind_of x) (prod_defect (okind_of t) (okind_of x) B A)) by (rewrite X; exact LC).
    destruct (oconvert_ready p L ch (okind_of x) (T + 160 * fu p) _ _ r' HL HC ltac:(lra) Y LC') as (X2 & r2 & Y2 & Z2). rewrite X in Y2, Z2. split; [exact X2|]. exists r2. split; [apply (ready_T p (T + 160 * fu p + 160 * fu p)); [lra|exact Y2]|].
    intros r0 S0 C0. eapply close_mono; [|exact (close_trans _ _ _ _ _ Z2 (close_trans _ _ _ _ _ Z (close_mul_l _ _ _ _ (ready_SO3 _ _ _ _ _ RT) C0)))]. lra.
  - assert (RT : ready T B t e). { apply operand_ready; [lra|exact B0|exact HO|]. intro Q. rewrite Q in LIM. exact (limit_small _ _ _ LIM). }
    destruct (oconvert_ready p L ch (okind_of x) T B t e HL HC ltac:(lra) RT LIM) as (X & r' & Y & Z). split; [exact X|]. exists r'. split; [apply (ready_T p (T + 160 * fu p)); [lra|exact Y]|].
    intros r0 _ _. exact Z.
  - destruct (oinverted_ready p L ch T A x r HL HC ltac:(lra) H) as (X & r' & Y & Z). split; [exact X|]. exists r'. split; [apply (ready_T p T); [lra|exact Y]|].
    intros r0 S0 C0. rewrite roundoff_fu. eapply close_mono; [|exact (close_trans _ _ _ _ _ Z (close_trans_mat _ _ _ C0))]. lra.
  - destruct (oidentity_ok p (T + 320 * fu p) (okind_of x) ltac:(lra)) as (X & Y). split; [exact X|]. exists mid. split; [split; [exact Y|]; split; [|lra]; intros _; lra|]. intros; apply close_refl; lra.
  - destruct (ofix_ready p P ch T A x r HP HC H LIM) as (X & r' & Y & Z). split; [exact X|]. exists r'. split; [apply (ready_T p T); [lra|exact Y]|].
    intros r0 S0 C0. rewrite roundoff_fu. eapply close_mono; [|exact (close_trans _ _ _ _ _ Z C0)]. lra.
  - destruct (oconvert_ready p L ch k T A x r HL HC ltac:(lra) H LIM) as (X & r' & Y & Z). split; [exact X|]. exists r'. split; [apply (ready_T p (T + 160 * fu p)); [lra|exact Y]|].
    intros r0 S0 C0. eapply close_mono; [|exact (close_trans _ _ _ _ _ Z C0)]. lra.
Qed.
Lemma oexact_step_SO3 p T r (c : ocall p) a : 64/10 <= T -> ocall_ok c -> acc_limit a c -> SO3 r -> SO3 (oexact_step r c).
Proof.
  intros HT HC LIM S. destruct c as [[o ch] [e B]]. destruct HC as (HC & B0 & HO).
  destruct o as [t|t|t| | | |k]; cbn [acc_limit oexact_step] in *; try exact S.
  - apply SO3_mmul; [exact S|]. apply (stands_SO3 _ _ _ _ _ HO). intro Q. rewrite Q in LIM. exact (prod_small_r _ _ _ _ LIM).
  - destruct LIM as [LP _]. apply SO3_mmul; [|exact S]. apply (stands_SO3 _ _ _ _ _ HO). intro Q. rewrite Q in LP. exact (prod_small_l _ _ _ _ LP).
  - apply (stands_SO3 _ _ _ _ _ HO). intro Q. rewrite Q in LIM. exact (limit_small _ _ _ LIM).
  - now apply SO3_trans.
  - apply SO3_mid.
Qed.
Lemma orun_ok p L P : libm_ok L -> pow_ok P -> forall (l : list (ocall p)) T (x : fobject p) r r0 a, 64/10 <= T -> T + 320 * INR (length l) * fu p <= 65/10 -> Forall ocall_ok l ->
  okind_of x = acc_class a -> ready T (acc_defect a) x r -> SO3 r0 -> close (acc_error a) r r0 -> acc_ok a l ->
  let y := orun L P x (map fst l) in let b := acc_run a l in
  okind_of y = acc_class b /\ exists r', ready (T + 320 * INR (length l) * fu p) (acc_defect b) y r' /\ SO3 (oexact r0 l) /\ close (acc_error b) r' (oexact r0 l).
Proof.
  intros HL HP. induction l as [|c l IH]; intros T x r r0 a T1 T2 HC EK H S C OK; cbn [map length orun fold_left acc_run oexact acc_ok] in *.
  - cbv zeta. cbn [INR]. split; [exact EK|]. exists r. split; [apply (ready_T p T); [lra|exact H]|]. split; assumption.
  - destruct OK as [LIM OK]. inversion HC as [|c' l' Hc Hl]; subst. rewrite S_INR in T2 |- *. pose proof (fu_pos p) as U. pose proof (pos_INR (length l)) as PI.
    assert (0 <= INR (length l) * fu p) by (apply Rmult_le_pos; lra).
    destruct (ostep_ok p L P T x r a c HL HP ltac:(lra) Hc EK H LIM) as (X & r' & Y & Z).
    pose proof (oexact_step_SO3 p T r0 c a T1 Hc LIM S) as S'.
    specialize (IH (T + 320 * fu p) (ostep L P x (fst (fst c)) (snd (fst c))) r' (oexact_step r0 c) (acc_step a c) ltac:(lra) ltac:(lra) Hl X Y S' (Z r0 S C) OK).
    cbv zeta in IH |- *. destruct IH as (E & r2 & R & S2 & C2). split; [exact E|]. exists r2. split; [apply (ready_T p (T + 320 * fu p + 320 * INR (length l) * fu p)); [lra|exact R]|]. split; assumption.
Qed.
