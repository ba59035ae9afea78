(** Claims about objects of all six rotation classes in floating-point arithmetic:
    conversions, products, inverses, fix(), rotate() and histories (C74). *)
From Coq Require Import ZArith Reals Lra Psatz Bool List Lia Permutation.
From Flocq Require Import IEEE754.BinarySingleNaN Core.Core.
From Verif Require Import Linalg Spec SpecFacts SpecClose ModelCommon ModelEigen CommonFacts ModelRotation ConvFacts RotFacts CloseFacts RVFacts EulerNear PiBounds
  FloatModel FloatFacts FloatModel2 SpecFloatQ FloatQFacts FloatQProd FloatQHist FloatQRot FloatMHist FloatCast FloatWrap FloatModel3 SpecLibm SpecBuild FloatBuild FloatBuild2 FloatBuild3 FloatBuild4 FloatModel4 FloatExt FloatExt2 FloatExt3 FloatExt4 SpecExt Claims16 Claims18 FloatExt5 FloatExt6 Claims19 FloatModel6 FloatMat Claims21 FloatModel7 SpecSix FloatSix FloatFix FloatOHist.
Import ListNotations.
Local Open Scope R_scope.

(** ** Witnesses *)
Definition exact_pow (x y : fl F64) : fl F64 := fround F64 (Rpower (B2R x) (B2R y)).
Lemma exact_pow_ok : pow_ok exact_pow.
Proof.
  intros x y Fx Fy Hx Hy. unfold exact_pow. set (v := Rpower (B2R x) (B2R y)).
  assert (V : 0 < v <= 2).
  { split; [apply exp_pos|]. unfold v, Rpower. assert (L2 : ln 2 = ln 2) by reflexivity.
    assert (LB : Rabs (ln (B2R x)) <= ln 2).
    { apply Rabs_le. split.
      - rewrite <- ln_Rinv by lra. destruct (proj1 Hx) as [H|H]; [left; apply ln_increasing; lra|rewrite <- H; right; f_equal; lra].
      - destruct (proj2 Hx) as [H|H]; [left; apply ln_increasing; lra|rewrite H; lra]. }
    assert (E : B2R y * ln (B2R x) <= ln 2). { eapply Rle_trans; [apply Rle_abs|]. rewrite Rabs_mult. apply Rle_trans with (1 * ln 2); [|lra]. apply Rmult_le_compat; try apply Rabs_pos; assumption. }
    apply Rle_trans with (exp (ln 2)); [|rewrite exp_ln; lra]. destruct E as [E|E]; [left; now apply exp_increasing|rewrite E; lra]. }
  destruct (fround_R F64 v ltac:(rewrite Rabs_pos_eq; lra)) as [F E]. split; [exact F|]. rewrite E, roundoff_fu. pose proof (fu_pos F64) as U. pose proof (eta5_u F64) as T.
  eapply Rle_trans; [apply rnd_err_le|]. rewrite (Rabs_pos_eq v) by lra. assert (fu F64 * v <= fu F64 * 2) by (apply Rmult_le_compat_l; lra). lra.
Qed.
Definition stdsix : choices6 := mkC6 stdchoices std9 leftright3 leftright4 Reciprocal leftright3 (mkOrd3 order2 order2 order2).
Lemma order2_ok : order 2 order2. Proof. apply stdbuild_ok. Qed.
Lemma stdsix_ok : choices6_ok stdsix.
Proof.
  split; [apply stdchoices_ok|]. split; [repeat split; apply Permutation_refl|]. split; [apply Permutation_refl|]. split; [apply leftright4_ok|].
  split; [apply Permutation_refl|]. repeat split; apply order2_ok.
Qed.
(** the quaternion (3/5, 4/5, 0, 0), its matrix, an angle-axis and Euler angles *)
Definition m345 : FM F32 := ftoRot stdrot q345.
Lemma q345_stands : stands (64/10) 6 (OQuat q345) (quat_rot (direction (qval q345))).
Proof.
  destruct q345_close as [E D]. split; [apply q345_val|]. split; [|reflexivity]. pose proof (qdist_norm (qval q345) (mkQ (3/5) (4/5) 0 0)) as N. rewrite E in N. lra.
Qed.
Lemma m345_stands : stands (64/10) 61 (OMat m345) (quat_rot (mkQ (3/5) (4/5) 0 0)).
Proof. destruct m345_close as (A & B & C). repeat split; try apply A; try apply B. exact C. Qed.
Lemma aa345_stands : stands (64/10) 0 (OSrc aa345) (turns aa345).
Proof. split; [apply aa345_object|reflexivity]. Qed.
Lemma cyclic_stands : stands (64/10) 0 (OMat (cyclic F32)) (mkM33 0 0 1 1 0 0 0 1 0).
Proof. destruct (cyclic_val F32) as [F E]. split; [exact F|]. split; [apply cyclic_SO3|]. rewrite E. apply close_refl. lra. Qed.

(** C74: an object of any of the six classes constructed from an object of any of
    the six classes holds finite numbers and stands for the same rotation, up to the
    defect [conv_defect] and the error [conv_error] of the two classes. *)
Lemma C74_convert_lemma : forall (p : prim) (L : libm) (c : choices6) (k : okind) (x : fobject p) (r : M33) (T A : R),
  libm_ok L -> choices6_ok c -> 64/10 <= T <= 655/100 -> stands T A x r -> conv_limit p (okind_of x) k A ->
  let y := oconvert L c k x in
  okind_of y = k /\
  exists r', stands (T + 160 * roundoff p) (conv_defect (okind_of x) k A) y r' /\ close (conv_error p (okind_of x) k A) r' r.
Proof. intros p L c k x r T A. cbv zeta. rewrite (roundoff_fu p). apply oconvert_ok. Qed.
Lemma C74_convert_ex : libm_ok exact_libm /\ choices6_ok stdsix /\
  (stands (64/10) 6 (OQuat q345) (quat_rot (direction (qval q345))) /\ conv_limit F32 KQuat (KSrc SRv) 6) /\
  (stands (64/10) 61 (OMat m345) (quat_rot (mkQ (3/5) (4/5) 0 0)) /\ conv_limit F32 KMat (KSrc SZyx) 61 /\ conv_limit F32 KMat KQuat 61) /\
  (stands (64/10) 0 (OSrc aa345) (turns aa345) /\ conv_limit F32 (KSrc SAA) KMat 0).
Proof.
  split; [apply exact_libm_ok|]. split; [apply stdsix_ok|]. split; [split; [apply q345_stands|cbn [conv_limit extract_limit]; lra]|].
  split; [split; [apply m345_stands|]; cbn [conv_limit extract_limit]; rewrite roundoff_fu, fu_32; split; lra|]. split; [apply aa345_stands|exact I].
Qed.

(** C74: the product of two objects of any of the six classes has the class of the
    left operand, holds finite numbers and stands for the product of the rotations,
    up to [prod_defect] and [prod_error]. *)
Lemma C74_product_lemma : forall (p : prim) (L : libm) (c : choices6) (x y : fobject p) (rx ry : M33) (T A B : R),
  libm_ok L -> choices6_ok c -> 64/10 <= T <= 655/100 -> stands T A x rx -> stands T B y ry -> prod_limit p (okind_of x) (okind_of y) A B ->
  let z := oproduct L c x y in
  okind_of z = okind_of x /\
  exists r', stands (T + 160 * roundoff p) (prod_defect (okind_of x) (okind_of y) A B) z r' /\ close (prod_error p (okind_of x) (okind_of y) A B) r' (mmul rx ry).
Proof.
  intros p L c x y rx ry T A B HL HC HT Hx Hy LIM. cbv zeta. rewrite (roundoff_fu p). apply oproduct_ok; try assumption.
  - apply (stands_SO3 _ _ _ _ _ Hx). intro Q. rewrite Q in LIM. exact (prod_small_l _ _ _ _ LIM).
  - apply (stands_SO3 _ _ _ _ _ Hy). intro Q. rewrite Q in LIM. exact (prod_small_r _ _ _ _ LIM).
Qed.
Lemma C74_product_ex : stands (64/10) 6 (OQuat q345) (quat_rot (direction (qval q345))) /\ stands (64/10) 61 (OMat m345) (quat_rot (mkQ (3/5) (4/5) 0 0)) /\
  prod_limit F32 KQuat KMat 6 61 /\ prod_limit F32 KMat KQuat 61 6 /\ prod_limit F32 (KSrc SZyx) KMat 0 61 /\ prod_limit F32 (KSrc SRv) (KSrc SAA) 0 0.
Proof.
  split; [apply q345_stands|]. split; [apply m345_stands|].
  cbn [prod_limit conv_limit conv_defect extract_limit]. unfold qprod_defect, qjoint; cbn [conv_defect]. rewrite roundoff_fu, fu_32.
  pose proof (Rmin_l 6 (3 * 61 + 14)). pose proof (Rmin_r (3 * 61 + 14) 6). pose proof (Rmin_l (166/5) (3 * 61 + 14)). pose proof (Rmin_l (166/5) (166/5)). repeat split; lra.
Qed.

(** C74: inverted(): exact for quaternions and matrices, up to 4200 roundings for the
    other four classes. *)
Lemma C74_inverted_lemma : forall (p : prim) (L : libm) (c : choices6) (x : fobject p) (r : M33) (T A : R),
  libm_ok L -> choices6_ok c -> 64/10 <= T <= 655/100 -> stands T A x r ->
  let y := oinverted L c x in
  okind_of y = okind_of x /\
  exists r', stands T A y r' /\ close (match okind_of x with KSrc _ => 4200 * roundoff p | _ => 0 end) r' (mtrans r).
Proof. intros p L c x r T A. cbv zeta. rewrite (roundoff_fu p). apply oinverted_ok. Qed.
Lemma C74_inverted_ex : libm_ok exact_libm /\ choices6_ok stdsix /\ stands (64/10) 61 (OMat m345) (quat_rot (mkQ (3/5) (4/5) 0 0)).
Proof. split; [apply exact_libm_ok|]. split; [apply stdsix_ok|apply m345_stands]. Qed.

(** C74: after fix() a quaternion has norm one up to 6 roundings, a matrix
    determinant one up to 32 roundings, an axis length one up to 6 roundings, however
    large the defect was before (up to 1/100 for quaternions, 1/1000 for matrices).
    The rotation changes by at most 13 and 25 roundings for quaternions and
    angle-axes. A matrix that was within A roundings of a rotation R is still within
    2.1 A + 20 roundings of R: fix() restores the determinant, not orthogonality. *)
Lemma C74_fix_lemma : forall (p : prim) (P : fl F64 -> fl F64 -> fl F64) (c : choices6) (x : fobject p) (r : M33) (T A : R),
  pow_ok P -> choices6_ok c -> stands T A x r -> fix_limit p (okind_of x) A ->
  let y := ofix P c x in
  okind_of y = okind_of x /\
  match y with
  | OQuat q => Rabs (qnorm (qval q) - 1) <= 6 * roundoff p
  | OMat m => Rabs (mdet (mval m) - 1) <= 32 * roundoff p
  | OSrc (SrcAA _ n) => Rabs (vnorm (vval n) - 1) <= 6 * roundoff p
  | OSrc _ => y = x
  end /\
  exists r', stands T (fix_defect (okind_of x) A) y r' /\ close (fix_roundings (okind_of x) * roundoff p) r' r.
Proof.
  intros p P c x r T A HP HC H LIM. cbv zeta. destruct (ofix_ok p P c T A x r HP HC H LIM) as (X & r' & Y & Z). split; [exact X|].
  split; [|exists r'; rewrite (roundoff_fu p); split; assumption]. rewrite (roundoff_fu p). pose proof HC as ((HB & (HE & _) & _) & _ & _ & ON & OD & OM).
  destruct x as [q|m|s].
  - cbn [ofix okind_of fix_defect stands] in *. rewrite (roundoff_fu p) in Y. apply Y.
  - cbn [ofix okind_of fix_limit stands] in *. rewrite (roundoff_fu p) in *. destruct H as (F & S & C). apply (fmat_fix_err p P (c6_det c) (c6_minor c) m r _ HP OD OM F S C LIM).
  - destruct s as [a n|v|a b d|a b d]; cbn [ofix]; try reflexivity. destruct H as (O & _). apply (faa_fix_err p _ (c6_div c) a n T HE O).
Qed.
Lemma C74_fix_ex : pow_ok exact_pow /\ choices6_ok stdsix /\
  (stands (64/10) 61 (OMat m345) (quat_rot (mkQ (3/5) (4/5) 0 0)) /\ fix_limit F32 KMat 61) /\
  (stands (64/10) 6 (OQuat q345) (quat_rot (direction (qval q345))) /\ fix_limit F32 KQuat 6).
Proof.
  split; [apply exact_pow_ok|]. split; [apply stdsix_ok|]. cbn [fix_limit]. rewrite roundoff_fu, fu_32. split; (split; [apply m345_stands || apply q345_stands|lra]).
Qed.

(** C74: rotate() of an object of any of the six classes agrees with the rotation
    the object stands for, up to the defect of its matrix plus 6 roundings times the
    length of the vector, and the underflow error. *)
Lemma C74_rotate_lemma : forall (p : prim) (L : libm) (c : choices6) (o : orders3) (x : fobject p) (r : M33) (T A : R) (v : FV p),
  libm_ok L -> choices6_ok c -> orders3_ok 3 3 3 o -> T <= 655/100 -> stands T A x r -> A * roundoff p <= / 100 -> vfinite v -> vnorm (vval v) <= 2 ^ 100 ->
  let w := orotate L c o x v in
  vfinite w /\ vdist (vval w) (mvmul r (vval v)) <= (conv_defect (okind_of x) KMat A + 6) * roundoff p * vnorm (vval v) + underflow p.
Proof.
  intros p L c o x r T A v HL HC O HT H LA Fv Nv. cbv zeta. pose proof (fu_pos p) as U. pose proof (fu_24 p) as V. rewrite roundoff_fu in *.
  assert (LIM : conv_limit p (okind_of x) KMat A) by (destruct x; cbn [okind_of conv_limit]; rewrite ?roundoff_fu; tauto).
  pose proof (omat_ok p L c T A x r HL HC HT H LIM) as (F & S & C). rewrite roundoff_fu in C.
  assert (D : conv_defect (okind_of x) KMat A * fu p <= / 10) by (destruct x; cbn [okind_of conv_defect]; lra).
  unfold orotate. replace ((conv_defect (okind_of x) KMat A + 6) * fu p) with (conv_defect (okind_of x) KMat A * fu p + 6 * fu p) by ring.
  apply fmv_close_err; try assumption. replace (bpow radix2 100) with (2 ^ 100); [exact Nv|]. rewrite <- (IZR_Zpower radix2) by lia. rewrite pow_IZR. reflexivity.
Qed.
Lemma C74_rotate_ex : libm_ok exact_libm /\ choices6_ok stdsix /\ orders3_ok 3 3 3 std3 /\ stands (64/10) 0 (OSrc aa345) (turns aa345) /\ 0 * roundoff F32 <= / 100 /\
  vfinite (funit_y F32) /\ vnorm (vval (funit_y F32)) <= 2 ^ 100.
Proof.
  split; [apply exact_libm_ok|]. split; [apply stdsix_ok|]. split; [apply std3_ok|]. split; [apply aa345_stands|]. split; [lra|]. destruct (fofZ1 F32) as [F1 V1]. split; [repeat split; exact F1|].
  unfold vval, funit_y; cbn [gx gy gz]. rewrite V1. change (B2R (@fzero F32)) with 0. replace (vnorm (mkV3 0 1 0)) with 1; [lra|]. unfold vnorm, vnorm2, vdot; cbn [vx vy vz]. replace (0 * 0 + 1 * 1 + 0 * 0) with 1 by ring. now rewrite sqrt_1.
Qed.

(** C74: any sequence of calls on one object, whose class may change on the way: *,
    assignment, invert(), setIdentity(), fix() and conversions, with operands of all
    six classes. As long as the defects stay below the limits of the calls
    ([acc_ok]), the object holds finite numbers, has the defect of the account and
    stands for the exact product up to the error of the account. *)
Lemma C74_history_lemma : forall (p : prim) (L : libm) (P : fl F64 -> fl F64 -> fl F64) (x : fobject p) (r : M33) (A : R) (l : list (ocall p)),
  libm_ok L -> pow_ok P -> stands (64/10) A x r -> 0 <= A -> A * roundoff p <= / 40 -> Forall ocall_ok l -> INR (length l) * (3200 * roundoff p) <= 1 ->
  acc_ok (mkAcc (okind_of x) A 0) l ->
  let y := orun L P x (map fst l) in let b := acc_run (mkAcc (okind_of x) A 0) l in
  okind_of y = acc_class b /\ exists r', stands (65/10) (acc_defect b) y r' /\ SO3 r' /\ SO3 (oexact r l) /\ close (acc_error b) r' (oexact r l).
Proof.
  intros p L P x r A l HL HP H A0 AU HC LEN OK. cbv zeta. rewrite (roundoff_fu p) in *. assert (RD : ready (64/10) A x r) by (repeat split; [exact H|intros _; exact AU|exact A0]).
  pose proof (ready_SO3 _ _ _ _ _ RD) as S. assert (C0 : close 0 r r) by (apply close_refl; lra).
  destruct (orun_ok p L P HL HP l (64/10) x r r (mkAcc (okind_of x) A 0) ltac:(lra) ltac:(lra) HC eq_refl RD S C0 OK) as (E & r' & R & S2 & C2).
  split; [exact E|]. exists r'. pose proof (ready_SO3 _ _ _ _ _ R) as S'. split; [apply (stands_T p (64/10 + 320 * INR (length l) * fu p)); [lra|apply R]|]. split; [exact S'|]. split; assumption.
Qed.
Definition eul : fobject F32 := OSrc euler123.
Lemma euler123_stands : stands (64/10) 0 eul (turns euler123).
Proof. split; [|reflexivity]. apply C71_product_ex. Qed.
(** matrix * Euler angles; fix; as quaternion; * matrix; inverse; as rotation vector *)
Lemma C74_history_ex :
  let l : list (ocall F32) :=
    [(OMulRight eul, stdsix, (turns euler123, 0)); (OFix, stdsix, (mid, 0)); (OConvert KQuat, stdsix, (mid, 0)); (OMulRight (OMat m345), stdsix, (quat_rot (mkQ (3/5) (4/5) 0 0), 61));
     (OInvert, stdsix, (mid, 0)); (OFix, stdsix, (mid, 0)); (OConvert (KSrc SRv), stdsix, (mid, 0))] in
  Forall ocall_ok l /\ INR (length l) * (3200 * roundoff F32) <= 1 /\ acc_ok (mkAcc KMat 0 0) l /\ acc_class (acc_run (mkAcc KMat 0 0) l) = KSrc SRv /\
  acc_defect (acc_run (mkAcc KMat 0 0) l) = 0.
Proof.
  cbv zeta. split; [|split; [|split; [|split; reflexivity]]].
  - repeat apply Forall_cons; try apply Forall_nil; (split; [apply stdsix_ok|]; split; [lra|]); try exact I; [apply euler123_stands|apply m345_stands].
  - cbn [length]. rewrite roundoff_fu, fu_32. cbn [INR]. lra.
  - cbn [acc_ok acc_limit acc_step acc_class acc_defect okind_of eul euler123 skind_of prod_limit conv_limit conv_defect fix_limit fix_defect prod_defect extract_limit].
    unfold qprod_defect, qjoint; cbn [conv_defect]. rewrite roundoff_fu, fu_32.
    pose proof (Rmin_l (3 * 0 + 14) (166/5)) as M1. set (a := Rmin (3 * 0 + 14) (166/5)) in *.
    set (b := Rmin _ (3 * 61 + 14)). assert (M2 : b <= 3 * 61 + 14) by apply Rmin_r. repeat split; lra.
Qed.

(** ** Objects of the four classes *)
Lemma plain_step p k E (c : ocall p) : 0 <= E -> ocall_ok c -> plain_call k c ->
  acc_limit (mkAcc (KSrc k) 0 E) c /\ acc_class (acc_step (mkAcc (KSrc k) 0 E) c) = KSrc (plain_class k c) /\ acc_defect (acc_step (mkAcc (KSrc k) 0 E) c) = 0 /\
  0 <= acc_error (acc_step (mkAcc (KSrc k) 0 E) c) <= E + (134000 * fu p + 101/100 * short_length p).
Proof.
  intros E0 OK PC. pose proof (fu_pos p) as U. pose proof (fu_24 p) as V. assert (SL : 0 < short_length p) by (destruct p; cbn; lra).
  assert (DR : forall f t, 0 <= conv_drop p f t <= 101/100 * short_length p) by (intros f t; unfold conv_drop; destruct f, t; try lra; destruct drops_short; lra).
  assert (SM : 1200 * fu p <= / 1000) by lra.
  destruct c as [[o ch] [e B]]. cbn [plain_call] in PC. destruct OK as (_ & B0 & _). unfold plain_class; cbn [fst].
  assert (BU : forall t : fobject p, good_operand (okind_of t) B -> match okind_of t with KSrc _ => True | _ => B * fu p <= 33 * fu p end).
  { intros t G. destruct (okind_of t); cbn [good_operand] in G; try exact I; apply Rmult_le_compat_r; lra. }
  assert (M6 : forall t : fobject p, okind_of t = KMat -> good_operand (okind_of t) B -> B * fu p <= 6 * fu p). { intros t K G. rewrite K in G. cbn [good_operand] in G. apply Rmult_le_compat_r; lra. }
  assert (Q1 : forall X, 0 <= Rmin (166/5) X \/ X < 0) by (intro X; unfold Rmin; destruct (Rle_dec (166/5) X); lra).
  destruct o as [t|t|t| | | |j]; cbn [acc_step acc_limit acc_class acc_defect acc_error].
  - specialize (BU t PC). specialize (M6 t).
    assert (D : 0 <= qprod_defect (KSrc k) (okind_of t) 0 B <= 76).
    { unfold qprod_defect, qjoint; cbn [conv_defect]. set (d := conv_defect (okind_of t) KQuat B). assert (Hd : 0 <= d <= 332/10).
      { unfold d. destruct (okind_of t); cbn [conv_defect good_operand] in *; lra. }
      pose proof (Rmin_l (166/5) d). pose proof (Q1 d). lra. }
    set (D' := qprod_defect (KSrc k) (okind_of t) 0 B) in *.
    split; [|split; [reflexivity|split; [reflexivity|]]].
    + cbn [prod_limit]. change (qprod_defect (KSrc k) (okind_of t) 0 B) with D'. cbn [conv_limit conv_defect]. rewrite roundoff_fu. repeat split.
      * destruct (okind_of t); cbn [conv_limit good_operand] in *; rewrite ?roundoff_fu; try exact I; try lra. all: try (specialize (M6 eq_refl PC); lra).
      * destruct k; cbn [extract_limit]; lra.
      * lra.
      * destruct (okind_of t); cbn [conv_defect good_operand] in *; try lra. all: try (specialize (M6 eq_refl PC); lra).
    + cbn [prod_error]. unfold conv_error, qprod_roundings. change (qprod_defect (KSrc k) (okind_of t) 0 B) with D'. cbn [conv_roundings conv_drop]. rewrite roundoff_fu.
      assert (X1 : 0 <= conv_roundings (okind_of t) KQuat B <= 68) by (destruct (okind_of t); cbn [conv_roundings good_operand] in *; lra).
      assert (X2 : 0 <= extract_roundings k D' <= 8988) by (destruct k; cbn [extract_roundings]; lra).
      assert (X3 : 0 <= (68 + conv_roundings (okind_of t) KQuat B + 20 + extract_roundings k D') * fu p <= 134000 * fu p) by (split; [apply Rmult_le_pos; lra|apply Rmult_le_compat_r; lra]).
      lra.
  - destruct PC as [PC NR]. specialize (BU t PC). specialize (M6 t).
    assert (D : 0 <= qprod_defect (okind_of t) (KSrc k) B 0 <= match okind_of t with KMat => 7472/100 | _ => 76 end).
    { unfold qprod_defect, qjoint; cbn [conv_defect]. set (d := conv_defect (okind_of t) KQuat B). assert (Hd : 0 <= d <= match okind_of t with KMat => 32 | _ => 332/10 end).
      { unfold d. destruct (okind_of t); cbn [conv_defect good_operand] in *; lra. }
      rewrite Rmin_comm. pose proof (Rmin_r (166/5) d). pose proof (Q1 d). destruct (okind_of t); lra. }
    set (D' := qprod_defect (okind_of t) (KSrc k) B 0) in *.
    assert (PL : prod_limit p (okind_of t) (KSrc k) B 0).
    { assert (G : conv_limit p (okind_of t) KQuat B /\ conv_limit p (KSrc k) KQuat 0 /\ conv_limit p KQuat (okind_of t) D' /\ conv_defect (okind_of t) KQuat B * roundoff p <= / 100 /\ conv_defect (KSrc k) KQuat 0 * roundoff p <= / 100).
      { rewrite roundoff_fu. assert (DU : D' * fu p <= 76 * fu p) by (apply Rmult_le_compat_r; [lra|destruct (okind_of t); lra]).
        repeat split.
        - destruct (okind_of t); cbn [conv_limit good_operand] in *; rewrite ?roundoff_fu; try exact I; try lra. all: try (specialize (M6 eq_refl PC); lra).
        - destruct (okind_of t) as [| |j]; cbn [conv_limit] in *; rewrite ?roundoff_fu; try lra. destruct j; cbn [extract_limit]; lra.
        - destruct (okind_of t); cbn [conv_defect good_operand] in *; try lra. all: try (specialize (M6 eq_refl PC); lra).
        - cbn [conv_defect]. lra. }
      unfold prod_limit. destruct (okind_of t); exact G. }
    assert (PD : prod_defect (okind_of t) (KSrc k) B 0 = conv_defect KQuat (okind_of t) D') by (unfold prod_defect; destruct (okind_of t); reflexivity).
    assert (PE : prod_error p (okind_of t) (KSrc k) B 0 = qprod_roundings (okind_of t) (KSrc k) B 0 * roundoff p + conv_error p KQuat (okind_of t) D') by (unfold prod_error; destruct (okind_of t); reflexivity).
    rewrite PD, PE. unfold conv_error, qprod_roundings. cbn [conv_roundings]. rewrite roundoff_fu. pose proof (DR KQuat (okind_of t)) as DR1. pose proof (DR (okind_of t) (KSrc k)) as DR2.
    destruct (okind_of t) as [| |j] eqn:KT; cbn [conv_defect conv_limit conv_roundings conv_drop good_operand] in *.
    + split; [split; [exact PL|destruct k; cbn [extract_limit]; lra]|]. split; [reflexivity|]. split; [reflexivity|].
      assert (X2 : 0 <= extract_roundings k D' <= 8988) by (destruct k; cbn [extract_roundings]; lra).
      assert (X3 : 0 <= (0 + 68 + 20 + extract_roundings k D') * fu p <= 134000 * fu p) by (split; [apply Rmult_le_pos; lra|apply Rmult_le_compat_r; lra]). lra.
    + split; [split; [exact PL|destruct k; cbn [extract_limit]; try lra; exfalso; apply NR; split; reflexivity]|]. split; [reflexivity|]. split; [reflexivity|].
      assert (X2 : 0 <= extract_roundings k (3 * (5 * D' + 18) + 14) <= 133700) by (destruct k; cbn [extract_roundings]; lra).
      assert (X3 : 0 <= (61/10 * B + 29 + 68 + 20 + extract_roundings k (3 * (5 * D' + 18) + 14)) * fu p <= 134000 * fu p) by (split; [apply Rmult_le_pos; lra|apply Rmult_le_compat_r; lra]). lra.
    + split; [split; [exact PL|exact I]|]. split; [reflexivity|]. split; [reflexivity|].
      assert (X2 : 0 <= extract_roundings j D' <= 8988) by (destruct j; cbn [extract_roundings]; lra).
      assert (X3 : 0 <= (68 + 68 + 20 + extract_roundings j D' + 4300) * fu p <= 134000 * fu p) by (split; [apply Rmult_le_pos; lra|apply Rmult_le_compat_r; lra]). lra.
  - specialize (BU t PC). unfold conv_error. pose proof (DR (okind_of t) (KSrc k)) as DR2. rewrite roundoff_fu.
    destruct (okind_of t) as [| |j] eqn:KT; cbn [conv_defect conv_limit conv_roundings good_operand] in *; (split; [|split; [reflexivity|split; [reflexivity|]]]).
    + destruct k; cbn [extract_limit]; lra.
    + assert (X2 : 0 <= extract_roundings k B <= 8988) by (destruct k; cbn [extract_roundings]; lra). assert (X3 : 0 <= extract_roundings k B * fu p <= 134000 * fu p) by (split; [apply Rmult_le_pos; lra|apply Rmult_le_compat_r; lra]). lra.
    + destruct k; cbn [extract_limit]; lra.
    + assert (X2 : 0 <= extract_roundings k (3 * B + 14) <= 8988) by (destruct k; cbn [extract_roundings]; lra). assert (X3 : 0 <= extract_roundings k (3 * B + 14) * fu p <= 134000 * fu p) by (split; [apply Rmult_le_pos; lra|apply Rmult_le_compat_r; lra]). lra.
    + exact I.
    + lra.
  - split; [exact I|]. split; [reflexivity|]. split; [reflexivity|]. rewrite roundoff_fu. lra.
  - split; [exact I|]. split; [reflexivity|]. split; [reflexivity|]. lra.
  - split; [exact I|]. split; [reflexivity|]. split; [reflexivity|]. rewrite roundoff_fu. destruct k; cbn [fix_roundings]; lra.
  - destruct j as [| |j]; try contradiction. split; [exact I|]. split; [reflexivity|]. split; [reflexivity|]. unfold conv_error. pose proof (DR (KSrc k) (KSrc j)) as DR2. cbn [conv_roundings]. rewrite roundoff_fu. lra.
Qed.
Lemma plain_run p : forall (l : list (ocall p)) k E, 0 <= E -> Forall ocall_ok l -> plain_calls k l ->
  acc_ok (mkAcc (KSrc k) 0 E) l /\ acc_class (acc_run (mkAcc (KSrc k) 0 E) l) = KSrc (fold_left plain_class l k) /\
  acc_error (acc_run (mkAcc (KSrc k) 0 E) l) <= E + INR (length l) * (134000 * fu p + 101/100 * short_length p).
Proof.
  induction l as [|c l IH]; intros k E E0 OK PC.
  - cbn [acc_ok acc_run fold_left acc_class acc_error length INR]. split; [exact I|]. split; [reflexivity|lra].
  - inversion OK as [|c' l' Hc Hl]; subst. destruct PC as [P1 P2]. destruct (plain_step p k E c E0 Hc P1) as (A1 & A2 & A3 & A4 & A5).
    cbn [acc_ok acc_run fold_left]. destruct (acc_step (mkAcc (KSrc k) 0 E) c) as [k' D' E'] eqn:EQ. cbn [acc_class acc_defect acc_error] in A2, A3, A4, A5. subst k' D'.
    destruct (IH (plain_class k c) E' A4 Hl P2) as (B1 & B2 & B3). split; [split; assumption|]. split; [exact B2|]. cbn [length]. rewrite S_INR. unfold acc_run in B3. lra.
Qed.

(** C74: an angle-axis, rotation vector or Euler angle object after n calls (products,
    assignment, invert(), setIdentity(), fix(), conversions between these four
    classes) with operands of all six classes (quaternions of norm one up to 33
    roundings, matrices within 6 roundings of a rotation matrix; a rotation vector is
    not multiplied by a matrix from the left): the object holds finite numbers and
    stands for the exact product up to n * (134000 roundings + 1.01e-5 (float),
    1.01e-12 (double)). *)
Lemma C74_mixed_history_lemma : forall (p : prim) (L : libm) (P : fl F64 -> fl F64 -> fl F64) (s : fsource p) (l : list (ocall p)),
  libm_ok L -> pow_ok P -> object_ok (64/10) s -> Forall ocall_ok l -> plain_calls (skind_of s) l -> INR (length l) * (3200 * roundoff p) <= 1 ->
  exists s' : fsource p, orun L P (OSrc s) (map fst l) = OSrc s' /\ skind_of s' = fold_left plain_class l (skind_of s) /\ object_ok (65/10) s' /\
    close (INR (length l) * (134000 * roundoff p + 101/100 * short_length p)) (turns s') (oexact (turns s) l).
Proof.
  intros p L P s l HL HP HS HC PC LEN. destruct (plain_run p l (skind_of s) 0 ltac:(lra) HC PC) as (A1 & A2 & A3).
  pose proof (fu_pos p) as U. assert (ST : stands (64/10) 0 (OSrc s) (turns s)) by (split; [exact HS|reflexivity]).
  destruct (C74_history_lemma p L P (OSrc s) (turns s) 0 l HL HP ST ltac:(lra) ltac:(lra) HC LEN A1) as (K & r' & X & S1 & S2 & C).
  cbn [okind_of] in *. rewrite A2 in K. destruct (orun L P (OSrc s) (map fst l)) as [q|m|s'] eqn:EQ; cbn [okind_of] in K; try discriminate K.
  exists s'. split; [reflexivity|]. injection K as K. split; [exact K|]. cbn [stands] in X. destruct X as [X <-]. split; [exact X|]. rewrite (roundoff_fu p). eapply close_mono; [|exact C]. lra.
Qed.
Lemma C74_mixed_history_ex :
  let l : list (ocall F32) :=
    [(OMulRight (OQuat q345), stdsix, (quat_rot (direction (qval q345)), 6)); (OMulLeft (OMat (cyclic F32)), stdsix, (mkM33 0 0 1 1 0 0 0 1 0, 0)); (OConvert (KSrc SRv), stdsix, (mid, 0));
     (OMulLeft (OQuat q345), stdsix, (quat_rot (direction (qval q345)), 6)); (OMulRight (OMat (cyclic F32)), stdsix, (mkM33 0 0 1 1 0 0 0 1 0, 0)); (OFix, stdsix, (mid, 0))] in
  Forall ocall_ok l /\ plain_calls (skind_of euler123) l /\ INR (length l) * (3200 * roundoff F32) <= 1 /\ object_ok (64/10) euler123 /\ fold_left plain_class l (skind_of euler123) = SRv.
Proof.
  cbv zeta. split; [|split; [|split; [|split]]].
  - repeat apply Forall_cons; try apply Forall_nil; (split; [apply stdsix_ok|]; split; [lra|]); try exact I; apply q345_stands || apply cyclic_stands.
  - cbn [plain_calls plain_call okind_of good_operand]. repeat split; try lra; intros [H1 H2]; discriminate.
  - cbn [length]. rewrite roundoff_fu, fu_32. cbn [INR]. lra.
  - apply euler123_stands.
  - reflexivity.
Qed.
