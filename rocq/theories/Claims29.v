(** Claims about the debug-build assertions in floating-point arithmetic (C81). *)
From Coq Require Import ZArith Reals Lra Psatz Bool List Lia Permutation.
From Flocq Require Import IEEE754.BinarySingleNaN Core.Core.
From Verif Require Import Linalg Spec SpecFacts SpecClose ModelCommon ModelEigen CommonFacts CloseFacts RVFacts
  FloatModel FloatFacts FloatModel2 SpecFloatQ FloatQFacts FloatQProd FloatQHist FloatQRot FloatMHist FloatCast FloatWrap FloatModel3 SpecLibm SpecBuild FloatBuild FloatBuild2 FloatBuild3 FloatBuild4 FloatModel4 FloatExt FloatExt2 FloatExt3 FloatExt4 SpecExt Claims16 Claims18 FloatExt5 FloatExt6 Claims19 FloatModel6 FloatMat Claims21 FloatModel7 SpecSix FloatSix FloatFix FloatOHist Claims22 FloatModel11 SpecDebugF FloatDebug FloatDebug2 FloatDebug3.
Import ListNotations.
Local Open Scope R_scope.

(** C81: a build with assertions returns, whenever it does not throw, the same object
    bit for bit as the release build: for every object (also with NaNs), every
    sequence of calls, every compiler and every math library. *)
Lemma C81_same_lemma : forall (p : prim) (L : libm) (P : fl F64 -> fl F64 -> fl F64) (x y : fobject p) (l : list (oop p * choices6)),
  d_run L P x l = Done y -> y = orun L P x l.
Proof.
  intros p L P x y l. apply d_run_done.
Qed.
Lemma C81_same_ex : forall L P, exists y, d_run L P (OQuat q345) [(OMulRight (OQuat q345), stdsix); (OInvert, stdsix); (OFix, stdsix); (OConvert KMat, stdsix); (OMulLeft (OMat m345), stdsix)] = Done y.
Proof.
  intros L P. set (d := d_run L P _ _). assert (H : (match d with Done _ => true | _ => false end) = true) by (vm_compute; reflexivity).
  destruct d as [y|q|n]; [now exists y|discriminate|discriminate].
Qed.

(** C81: the assertion on the axis of an AngleAxis accepts every finite axis whose
    length is one up to 8e-7 and rejects every axis off by 12e-7 or more (up to length
    2^50), in every order of summation. *)
Lemma C81_axis_lemma : forall (p : prim) (t : dtree) (n : FV p), order 3 t -> vfinite n -> bpow radix2 (-50) <= vnorm (vval n) <= bpow radix2 50 ->
  (Rabs (vnorm (vval n) - 1) <= 8 / 10 ^ 7 -> faxis_assert t n = true) /\ (12 / 10 ^ 7 <= Rabs (vnorm (vval n) - 1) -> faxis_assert t n = false).
Proof.
  exact faxis_assert_spec.
Qed.
Definition axis345 : FV F32 := mkFV (flit F32 3 5) (flit F32 4 5) fzero.
Lemma C81_axis_ex : order 3 leftright3 /\ vfinite axis345 /\ faxis_assert leftright3 axis345 = true /\ faxis_assert leftright3 (mkFV (flit F32 600002 1000000) (flit F32 4 5) fzero) = false.
Proof.
  split; [apply Permutation_refl|]. repeat split; vm_compute; reflexivity.
Qed.

(** C81: the assertions of the RotationMatrix constructors accept every finite matrix
    M with M * M^T within 8e-7 of the identity in every coefficient and determinant
    within 5.5e-7 of one; what they accept has M * M^T within 12e-7 of the identity and
    determinant within 15e-7 of one (rows up to length 2^29). *)
Lemma C81_matrix_lemma : forall (p : prim) (o : orders9) (t : dtree) (d : orders3) (m : FM p), orders9_ok o -> order 3 t -> orders3_ok 2 2 2 d -> mfinite m ->
  vnorm (vrow0 (mval m)) <= 2 ^ 29 -> vnorm (vrow1 (mval m)) <= 2 ^ 29 -> vnorm (vrow2 (mval m)) <= 2 ^ 29 ->
  (entries_within (8 / 10 ^ 7) (mmul (mval m) (mtrans (mval m))) mid -> Rabs (mdet (mval m) - 1) <= 55 / 10 ^ 8 -> fmat_assert o t d m = true) /\
  (fmat_assert o t d m = true -> entries_within (12 / 10 ^ 7) (mmul (mval m) (mtrans (mval m))) mid /\ Rabs (mdet (mval m) - 1) <= 15 / 10 ^ 7).
Proof.
  intros p o t d m O T D F N0 N1 N2. apply fmat_assert_spec; try assumption; lra.
Qed.
(** accepted: a cyclic permutation; rejected: the matrix that the library computes for
    a quaternion accepted by its own assertion; accepted despite everything: 2^100
    times the identity, because the overflow ends in a comparison with NaN *)
Definition slightly_long : FQ F32 := let h := flit F32 500002 1000000 in mkFQ h h h h.
Definition diagonal (p : prim) (x : fl p) : FM p := mkFM (mkFV x fzero fzero) (mkFV fzero x fzero) (mkFV fzero fzero x).
Definition minor2 : orders3 := mkOrd3 order2 order2 order2.
Lemma C81_matrix_ex : orders9_ok std9 /\ order 3 leftright3 /\ orders3_ok 2 2 2 minor2 /\ mfinite (cyclic F32) /\ fmat_assert std9 leftright3 minor2 (cyclic F32) = true /\
  fquat_assert leftright4 slightly_long = true /\ fmat_assert std9 leftright3 minor2 (ftoRot stdrot slightly_long) = false /\
  fmat_assert std9 leftright3 minor2 (diagonal F32 (fofZ F32 (2 ^ 100))) = true.
Proof.
  split; [repeat split; apply Permutation_refl|]. split; [apply Permutation_refl|]. split; [repeat split; apply order2_ok|]. repeat split; vm_compute; reflexivity.
Qed.

(** C81: histories of calls on one object whose class may change, with operands of all
    six classes, in a debug build. Under the limits of the release build ([acc_ok]) and
    as long as the account keeps the quaternions within 9.9e-5 of unit length
    ([dbg_limits]) and the axes of AngleAxis operands are legal, the only assertion that
    can throw is the one on the axis of an AngleAxis computed from a quaternion whose
    vector part is shorter than 2^-116 (float) or 2^-1012 (double); otherwise the
    result is the object of the release build. *)
Lemma C81_history_lemma : forall (p : prim) (L : libm) (P : fl F64 -> fl F64 -> fl F64) (x : fobject p) (r : M33) (A : R) (l : list (ocall p)),
  libm_ok L -> pow_ok P -> stands (64/10) A x r -> axis_legal x -> 0 <= A -> A * roundoff p <= / 40 -> Forall ocall_ok l -> Forall operand_legal l -> INR (length l) * (3200 * roundoff p) <= 1 ->
  acc_ok (mkAcc (okind_of x) A 0) l -> dbg_limits (mkAcc (okind_of x) A 0) l ->
  d_run L P x (map fst l) = Done (orun L P x (map fst l)) \/ exists n, d_run L P x (map fst l) = BadAxis n /\ tiny_axis L n.
Proof.
  intros p L P x r A l HL HP H AX A0 AU HC HO LEN OK DOK. rewrite (roundoff_fu p) in *. assert (RD : ready (64/10) A x r) by (repeat split; [exact H|intros _; exact AU|exact A0]).
  assert (AF : axis_fine L x). { destruct x as [q|m|[a n|v|z y x'|x' y z]]; try exact I. left. split; [|exact AX]. destruct H as [[_ [Fn _]] _]. exact Fn. }
  destruct (d_run_fine p L P HL HP l (64/10) x r (mkAcc (okind_of x) A 0) ltac:(lra) ltac:(lra) HC HO eq_refl RD AF OK DOK) as [[E _]|E]; [now left|now right].
Qed.
Lemma C81_history_ex :
  let l : list (ocall F32) :=
    [(OConvert KQuat, stdsix, (mid, 0)); (OMulRight (OMat m345), stdsix, (quat_rot (mkQ (3/5) (4/5) 0 0), 61));
     (OInvert, stdsix, (mid, 0)); (OFix, stdsix, (mid, 0)); (OConvert (KSrc SAA), stdsix, (mid, 0)); (OMulRight eul, stdsix, (turns euler123, 0));
     (OAssign (OSrc aa345), stdsix, (turns aa345, 0)); (OMulLeft (OMat (cyclic F32)), stdsix, (mkM33 0 0 1 1 0 0 0 1 0, 0))] in
  Forall ocall_ok l /\ Forall operand_legal l /\ INR (length l) * (3200 * roundoff F32) <= 1 /\ stands (64/10) 0 (OMat (cyclic F32)) (mkM33 0 0 1 1 0 0 0 1 0) /\ acc_ok (mkAcc KMat 0 0) l /\ dbg_limits (mkAcc KMat 0 0) l.
Proof.
  assert (AX : axis_legal (OSrc aa345)).
  { cbn [axis_legal aa345]. set (n := mkFV (flit F32 3 5) (flit F32 4 5) (@fzero F32)).
    assert (VN : vval n = mkV3 (10066330 / 16777216) (13421773 / 16777216) 0).
    { unfold vval, n; cbn [gx gy gz]. destruct q345_val as [_ E]. pose proof (f_equal Linalg.qw E) as E1. pose proof (f_equal Linalg.qx E) as E2. cbn [qval q345 fw fx fy fz Linalg.qw Linalg.qx] in E1, E2. now rewrite E1, E2. }
    pose proof (vn_nonneg (vval n)) as N0. assert (SQ : vnorm (vval n) * vnorm (vval n) = (10066330 / 16777216) * (10066330 / 16777216) + (13421773 / 16777216) * (13421773 / 16777216)) by (rewrite vnorm_sqr, VN; unfold vnorm2, vdot; cbn [Linalg.vx Linalg.vy Linalg.vz]; ring).
    set (N := vnorm (vval n)) in *. apply Rabs_le. split; apply Rnot_lt_le; intro X.
    - assert (N * N <= (1 - 8 / 10 ^ 7) * (1 - 8 / 10 ^ 7)) by (apply Rmult_le_compat; lra). lra.
    - assert ((1 + 8 / 10 ^ 7) * (1 + 8 / 10 ^ 7) <= N * N) by (apply Rmult_le_compat; lra). lra. }
  cbv zeta. split; [|split; [|split; [|split; [|split]]]].
  - repeat apply Forall_cons; try apply Forall_nil; (split; [apply stdsix_ok|]; split; [lra|]); try exact I; [apply m345_stands|apply euler123_stands|apply aa345_stands|apply cyclic_stands].
  - repeat apply Forall_cons; try apply Forall_nil; unfold operand_legal; cbn [fst]; exact I || exact AX.
  - cbn [length]. rewrite roundoff_fu, fu_32. cbn [INR]. lra.
  - apply cyclic_stands.
  - cbn [acc_ok acc_limit acc_step acc_class acc_defect okind_of eul euler123 aa345 skind_of prod_limit conv_limit conv_defect fix_limit fix_defect prod_defect extract_limit].
    unfold qprod_defect, qjoint; cbn [conv_defect]. rewrite roundoff_fu, fu_32.
    pose proof Rmin_l as ML. repeat match goal with |- context [Rmin ?u ?v] => let m := fresh "m" in pose proof (ML u v); set (m := Rmin u v) in * end. repeat split; lra.
  - cbn [dbg_limits dbg_limit dprod_limit dconv_limit acc_step acc_class acc_defect okind_of eul euler123 aa345 skind_of conv_defect fix_defect prod_defect].
    unfold checked, qprod_defect, qjoint; cbn [conv_defect]. rewrite roundoff_fu, fu_32.
    pose proof Rmin_l as ML. repeat match goal with |- context [Rmin ?u ?v] => let m := fresh "m" in pose proof (ML u v); set (m := Rmin u v) in * end. repeat split; lra.
Qed.

(** C81: one RotationQuaternion with quaternion operands whose norms are one up to [B]
    roundings: with at most [K] products between two calls of fix(), assignments or
    setIdentity(), where [B + K (1.01 B + 9.2)] roundings stay within 9.9e-5, no
    assertion throws, however long the history, for every math library. In float with
    operands as they come from fix() (B = 6): K = 100. *)
Lemma C81_quaternions_lemma : forall (p : prim) (L : libm) (P : fl F64 -> fl F64 -> fl F64) (B : R) (K : nat) (q : FQ p) (r : M33) (l : list (ocall p)),
  6 <= B -> checked p (B + INR K * (101/100 * B + 46/5)) -> stands (64/10) B (OQuat q) r ->
  Forall ocall_ok l -> Forall (quat_call B) l -> ofixed_every K 0 l ->
  d_run L P (OQuat q) (map fst l) = Done (orun L P (OQuat q) (map fst l)).
Proof.
  intros p L P B K q r l HB CK ST HC HQ FE. apply (quat_run_ok p L P B K HB CK l 0%nat q r FE HC HQ). cbn [INR]. rewrite Rmult_0_l, Rplus_0_r. exact ST.
Qed.
Lemma C81_quaternions_ex :
  let l : list (ocall F32) :=
    [(OMulRight (OQuat q345), stdsix, (quat_rot (direction (qval q345)), 6)); (OInvert, stdsix, (mid, 0)); (OMulLeft (OQuat q345), stdsix, (quat_rot (direction (qval q345)), 6)); (OFix, stdsix, (mid, 0));
     (OAssign (OQuat q345), stdsix, (quat_rot (direction (qval q345)), 6))] in
  checked F32 (6 + INR 100 * (101/100 * 6 + 46/5)) /\ stands (64/10) 6 (OQuat q345) (quat_rot (direction (qval q345))) /\ Forall ocall_ok l /\ Forall (quat_call 6) l /\ ofixed_every 100 0 l.
Proof.
  cbv zeta. split; [|split; [apply q345_stands|split; [|split]]].
  - unfold checked. rewrite roundoff_fu, fu_32. replace (INR 100) with 100 by (rewrite INR_IZR_INZ; reflexivity). lra.
  - repeat apply Forall_cons; try apply Forall_nil; (split; [apply stdsix_ok|]; split; [lra|]); try exact I; apply q345_stands.
  - repeat apply Forall_cons; try apply Forall_nil; cbn [quat_call]; exact I || lra.
  - cbn [ofixed_every oproducts fst]. repeat split; lia.
Qed.

(** C81: the accepted quaternions are not closed under products: two factors that the
    assertion accepts, a product on which it throws; and 1000 products of a quaternion
    normalised by fix() with itself throw in float. *)
Definition long_quat : FQ F32 := mkFQ (flit F32 100009 100000) fzero fzero fzero.
Definition drifting : FQ F32 := fnormalize leftright4 Reciprocal (mkFQ (fofZ F32 (-5)) (fofZ F32 3) (fofZ F32 (-4)) (fofZ F32 5)).
Definition is_bad_quat {p A} (d : dres p A) : bool := match d with BadQuat _ => true | _ => false end.
Lemma C81_product_throws_lemma : forall (L : libm) (P : fl F64 -> fl F64 -> fl F64),
  fquat_assert leftright4 long_quat = true /\ is_bad_quat (d_run L P (OQuat long_quat) [(OMulRight (OQuat long_quat), stdsix)]) = true /\
  is_bad_quat (d_run L P (OQuat (mkFQ (fofZ F32 (-5)) (fofZ F32 3) (fofZ F32 (-4)) (fofZ F32 5))) ((OFix, stdsix) :: repeat (OMulRight (OQuat drifting), stdsix) 1000)) = true.
Proof.
  intros L P. split; [vm_compute; reflexivity|]. split; [vm_compute; reflexivity|]. vm_compute; reflexivity.
Qed.
Lemma C81_product_throws_ex : choices6_ok stdsix /\ qfinite long_quat /\ qfinite drifting /\ fquat_assert leftright4 drifting = true.
Proof.
  split; [apply stdsix_ok|]. repeat split; vm_compute; reflexivity.
Qed.

(** C81: the assertion on a computed axis can indeed throw on a legal rotation: for the
    quaternion (1, d, d, 0) with d the smallest positive number of the type, whose norm
    is one, AngleAxis throws with every order of summation and every math library
    within the bounds. *)
Lemma C81_tiny_throws_lemma : forall (p : prim) (L : libm) (P : fl F64 -> fl F64 -> fl F64) (c : choices6) (q : FQ p), libm_ok L -> choices6_ok c ->
  qfinite q -> B2R (fw q) = 1 -> B2R (fx q) = 2 * half_smallest p -> B2R (fy q) = 2 * half_smallest p -> B2R (fz q) = 0 ->
  exists n, d_run L P (OQuat q) [(OConvert (KSrc SAA), c)] = BadAxis n /\ tiny_axis L n.
Proof.
  intros p L P c q HL HC. rewrite half_smallest_eta. intros F EW EX EY EZ. destruct (tiny_throws p L c q HL HC F EW EX EY EZ) as (n & E & T). exists n. split; [|exact T]. cbn [d_run d_step fst snd]. rewrite E. reflexivity.
Qed.
Lemma C81_tiny_throws_ex : libm_ok exact_libm /\ choices6_ok stdsix /\ qfinite (tiny_quat F64) /\ B2R (fw (tiny_quat F64)) = 1 /\ B2R (fx (tiny_quat F64)) = 2 * half_smallest F64 /\ B2R (fy (tiny_quat F64)) = 2 * half_smallest F64 /\ B2R (fz (tiny_quat F64)) = 0 /\ fquat_assert leftright4 (tiny_quat F64) = true.
Proof.
  split; [apply exact_libm_ok|]. split; [apply stdsix_ok|]. rewrite half_smallest_eta. cbn [tiny_quat fw fx fy fz]. destruct (fsmallest_val F64) as [Fs Es]. destruct (fofZ1 F64) as [F1 E1].
  repeat split; assumption || (vm_compute; reflexivity).
Qed.
