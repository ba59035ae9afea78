(** Poses in floating-point arithmetic. *)
From Coq Require Import Reals ZArith Bool List Permutation Lra Lia Psatz.
From Flocq Require Import IEEE754.BinarySingleNaN Core.Core.
From Verif Require Import Linalg Spec SpecFacts SpecClose CloseFacts ModelCommon ModelEigen FloatModel FloatFacts FloatModulo FloatWrap FloatModel2 SpecFloatQ
  FloatQFacts FloatQProd FloatQHist FloatQRot FloatMHist FloatModel5 SpecPoseF FloatPose FloatPose2 Claims16.
Import ListNotations.
Local Open Scope R_scope.

(** the specification composes motions: acting with a product is acting twice,
    and the transposed rotation undoes a motion *)
Lemma rigid_mul_act a b x : rigid_act (rigid_mul a b) x = rigid_act a (rigid_act b x).
Proof. unfold rigid_act, rigid_mul; cbn. lin. Qed.
Lemma rigid_undo g x : SO3 (rg_rot g) -> mvmul (mtrans (rg_rot g)) (vsub (rigid_act g x) (rg_pos g)) = x.
Proof.
  intros H. unfold rigid_act. replace (vsub (vadd (mvmul (rg_rot g) x) (rg_pos g)) (rg_pos g)) with (mvmul (rg_rot g) x) by lin.
  replace (mvmul (mtrans (rg_rot g)) (mvmul (rg_rot g) x)) with (mvmul (mmul (mtrans (rg_rot g)) (rg_rot g)) x) by lin.
  rewrite (SO3_inv_l _ H). lin.
Qed.
Lemma rigid_redo g x : SO3 (rg_rot g) -> rigid_act g (mvmul (mtrans (rg_rot g)) (vsub x (rg_pos g))) = x.
Proof.
  intros H. unfold rigid_act.
  replace (mvmul (rg_rot g) (mvmul (mtrans (rg_rot g)) (vsub x (rg_pos g)))) with (mvmul (mmul (rg_rot g) (mtrans (rg_rot g))) (vsub x (rg_pos g))) by lin.
  rewrite (SO3_inv_r _ H). lin.
Qed.
Lemma pinv_start p A L (T : fpose p (FQ p)) e t : 6 <= A <= 50 -> bpow radix2 (-100) <= L -> fqpose_ok A L T e t -> pinv A L T (mkRigid (quat_rot e) t) 0 0.
Proof.
  intros HA HL (F & E & D & X). rewrite roundoff_fu in D. destruct (consts p A HA) as (_ & K2 & _). split; [|split; [|lia]].
  - exists e. split; [|reflexivity]. apply hinv_assign; try assumption. lra.
  - apply (pos_wider p _ A L HL); try assumption. lra.
Qed.
Lemma pminv_start p A L (T : fpose p (FM p)) e t : 0 <= A <= 1000 -> bpow radix2 (-100) <= L -> fmpose_ok A L T e t -> pminv A L T (mkRigid e t) 0.
Proof.
  intros HA HL (F & E & D & X). rewrite roundoff_fu in D. destruct (mconsts p A HA) as (_ & K2 & _). split.
  - now apply minv_assign.
  - apply (pos_wider p _ A L HL); try assumption. lra.
Qed.

(** C72: any history of products, assignments, setIdentity(), calls on the
    rotation member (fix(), invert(), ...) and assignments of the position member
    of a HomTransformQuat object in floating-point arithmetic, in any order of
    evaluation. Initial value and operands are known up to A roundings, positions
    handed in are no longer than L. After n calls the object is finite; it stands
    for the intended rigid motion: the rotation is off by 2(A+10)(n+1) roundings,
    the position by (4A+53)(n+1)^2 roundings of L, and so are the points it
    transforms and transforms back. *)
Lemma C72_history_lemma : forall (p : prim) (A L : R) (T : fpose p (FQ p)) (e : Quat) (t : V3) (l : list (fpcall p)) (K : nat),
  6 <= A <= 50 -> bpow radix2 (-100) <= L -> fqpose_ok A L T e t -> Forall (fpcall_ok A L) l ->
  pfixed_every K 0 l -> (A + 10) * roundoff p * (INR K + 1) <= / 100 ->
  let n1 := INR (length l) + 1 in
  (4 * A + 53) * roundoff p * n1 <= / 10 -> n1 * L <= bpow radix2 98 ->
  let T' := fprun T (map fst l) in let g := rigid_run (mkRigid (quat_rot e) t) l in
  SO3 (rg_rot g) /\ vnorm (rg_pos g) <= n1 * L /\
  qfinite (frot T') /\ close (2 * (A + 10) * roundoff p * n1) (quat_rot (direction (qval (frot T')))) (rg_rot g) /\
  Rabs (qnorm (qval (frot T')) - 1) <= (A + 10) * roundoff p * (INR (pproducts 0 l) + 1) /\
  vfinite (fpos T') /\ vdist (vval (fpos T')) (rg_pos g) <= (4 * A + 53) * roundoff p * L * (n1 * n1) /\
  forall (o : rotorders) (x : FV p), rotorders_ok o -> vfinite x -> vnorm (vval x) <= bpow radix2 98 ->
    (vfinite (fqtransform o T' x) /\
     vdist (vval (fqtransform o T' x)) (rigid_act g (vval x))
       <= roundoff p * ((26 + 7 * (A + 10) * n1) * vnorm (vval x) + (4 * A + 55) * L * (n1 * n1))) /\
    (vfinite (fqinverseTransform o T' x) /\
     forall y, rigid_act g y = vval x ->
     vdist (vval (fqinverseTransform o T' x)) y
       <= roundoff p * ((26 + 7 * (A + 10) * n1) * vnorm (vval x) + (16 * A + 212) * L * (n1 * n1))).
Proof.
  intros p A L T e t l K HA HL HT HC FX HK n1 HN HB T' g. rewrite roundoff_fu in *. pose proof (fu_pos p) as U.
  pose proof (prun_history p A L HA HL l T _ 0 0 K HC (pinv_start p A L T e t HA HL HT) FX HK HN HB) as P. cbn [Nat.add] in P. fold T' g in P.
  assert (PK : (pproducts 0 l <= K)%nat).
  { clear - FX. revert FX. generalize 0%nat as j. induction l as [|c l IH]; intros j [Q H]; [exact Q|]. apply (IH _ H). }
  assert (HK' : (A + 10) * fu p * (INR (pproducts 0 l) + 1) <= / 100) by (apply le_INR in PK; eapply Rle_trans; [|exact HK]; apply Rmult_le_compat_l; [apply Rmult_le_pos; lra|lra]).
  pose proof P as ((e' & (Fq & E & Tu & Nq) & R1) & (Fp & Np & Dp) & KN).
  assert (SO : SO3 (rg_rot g)) by (rewrite R1; apply quat_rot_SO3; rewrite <- qnorm_sq, E; ring).
  split; [exact SO|]. split; [exact Np|]. split; [exact Fq|]. split.
  { rewrite R1. pose proof (Rle_abs (- (qnorm (qval (frot T')) - 1))) as X. rewrite Rabs_Ropp in X.
    eapply close_mono; [|apply turned_close; [|exact E|exact Tu]; lra]. unfold n1. lra. }
  split; [exact Nq|]. split; [exact Fp|]. split; [exact Dp|].
  intros o x O Fx Hx. destruct (pinv_transform p A L HA HL T' g (length l) (pproducts 0 l) o x P HK' HN HB O Fx Hx) as [X [Y1 Y2]].
  split; [exact X|]. split; [exact Y1|]. intros y Hy. rewrite <- Hy, (rigid_undo g y SO), Hy in Y2. exact Y2.
Qed.
Definition ro_std : rotorders := mkRO stdrot std3.
Lemma ro_std_ok : rotorders_ok ro_std. Proof. split; [apply stdrot_ok|apply std3_ok]. Qed.
Definition v123 (p : prim) : FV p := mkFV (fofZ p 1) (fofZ p 2) (fofZ p 3).
Lemma v123_ok A : 0 <= A -> vclose_ok A 4 (v123 F32) (mkV3 1 2 3).
Proof.
  intro HA. assert (V : vval (v123 F32) = mkV3 1 2 3).
  { unfold vval, v123; cbn [gx gy gz]. f_equal; vm_compute; lra. }
  split; [repeat split|]. split.
  - unfold vnorm, vnorm2, vdot; cbn. rewrite <- (sqrt_square 4) by lra. apply sqrt_le_1; lra.
  - rewrite V. unfold vdist. replace (vsub (mkV3 1 2 3) (mkV3 1 2 3)) with (mkV3 0 0 0) by lin. rewrite vnorm_zero, roundoff_fu. pose proof (fu_pos F32).
    apply Rmult_le_pos; [apply Rmult_le_pos; lra|lra].
Qed.
Definition pose345 : fpose F32 (FQ F32) := mkFPose (v123 F32) q345.
Lemma pose345_ok : fqpose_ok 6 4 pose345 (mkQ (3/5) (4/5) 0 0) (mkV3 1 2 3).
Proof. destruct q345_close as [U D]. destruct q345_val as [F _]. split; [exact F|]. split; [exact U|]. split; [exact D|]. apply v123_ok. lra. Qed.
Lemma C72_history_ex :
  let e := mkQ (3/5) (4/5) 0 0 in let t := mkV3 1 2 3 in
  let l : list (fpcall F32) := [(PMulRight std4 ro_std pose345, (e, t)); (PRotation (FFix leftright4 Quotient), (qid, t)); (PMulLeft std4 ro_std pose345, (e, t));
     (PRotation FInvert, (qid, t)); (PPosition (v123 F32), (qid, t)); (PSetIdentity, (qid, t)); (PAssign pose345, (e, t))] in
  bpow radix2 (-100) <= 4 /\ fqpose_ok 6 4 pose345 e t /\ Forall (fpcall_ok 6 4) l /\ pfixed_every 1 0 l /\ (6 + 10) * roundoff F32 * (INR 1 + 1) <= / 100 /\
  (4 * 6 + 53) * roundoff F32 * (INR (length l) + 1) <= / 10 /\ (INR (length l) + 1) * 4 <= bpow radix2 98.
Proof.
  intros e t l. pose proof pose345_ok as P. split; [change 4 with (bpow radix2 2); apply bpow_le; lia|]. split; [exact P|]. split.
  { assert (OP : orders4_ok std4 /\ rotorders_ok ro_std /\ fqpose_ok 6 4 pose345 e t) by (split; [apply std4_ok|split; [apply ro_std_ok|exact P]]).
    apply Forall_cons; [exact OP|]. apply Forall_cons; [exact leftright4_ok|]. apply Forall_cons; [exact OP|]. apply Forall_cons; [exact I|].
    apply Forall_cons; [apply v123_ok; lra|]. apply Forall_cons; [exact I|]. apply Forall_cons; [exact P|]. apply Forall_nil. }
  split; [cbn; lia|]. rewrite roundoff_fu. pose proof (fu_24 F32). pose proof (fu_pos F32). cbn [l length INR]. split; [lra|]. split; [lra|].
  apply Rle_trans with (bpow radix2 6); [cbn; lra|apply bpow_le; lia].
Qed.

(** C72: the same for a HomTransformMatrix object: (1.01A+12)(n+1) roundings for
    the rotation, (A+12)(n+1)^2 roundings of L for the position. *)
Lemma C72_matrix_history_lemma : forall (p : prim) (A L : R) (T : fpose p (FM p)) (e : M33) (t : V3) (l : list (fpmcall p)),
  0 <= A <= 1000 -> bpow radix2 (-100) <= L -> fmpose_ok A L T e t -> Forall (fpmcall_ok A L) l ->
  let n1 := INR (length l) + 1 in
  (101 / 100 * A + 12) * roundoff p * n1 <= / 100 -> n1 * L <= bpow radix2 98 ->
  let T' := fpmrun T (map fst l) in let g := mrigid_run (mkRigid e t) l in
  SO3 (rg_rot g) /\ vnorm (rg_pos g) <= n1 * L /\
  mfinite (frot T') /\ close ((101 / 100 * A + 12) * roundoff p * n1) (mval (frot T')) (rg_rot g) /\
  vfinite (fpos T') /\ vdist (vval (fpos T')) (rg_pos g) <= (A + 12) * roundoff p * L * (n1 * n1) /\
  forall (o : orders3) (x : FV p), orders3_ok 3 3 3 o -> vfinite x -> vnorm (vval x) <= bpow radix2 98 ->
    (vfinite (fmtransform o T' x) /\
     vdist (vval (fmtransform o T' x)) (rigid_act g (vval x))
       <= roundoff p * ((8 + (101 / 100 * A + 12) * n1) * vnorm (vval x) + (A + 14) * L * (n1 * n1))) /\
    (vfinite (fminverseTransform o T' x) /\
     forall y, rigid_act g y = vval x ->
     vdist (vval (fminverseTransform o T' x)) y
       <= roundoff p * ((8 + (101 / 100 * A + 12) * n1) * vnorm (vval x) + (4 * A + 48) * L * (n1 * n1))).
Proof.
  intros p A L T e t l HA HL HT HC n1 HN HB T' g. rewrite roundoff_fu in *. pose proof (fu_pos p) as U.
  pose proof (pmrun_history p A L HA HL l T _ 0 HC (pminv_start p A L T e t HA HL HT) HN HB) as P. cbn [Nat.add] in P. fold T' g in P.
  pose proof P as ((Fq & SO & C) & (Fp & Np & Dp)).
  split; [exact SO|]. split; [exact Np|]. split; [exact Fq|]. split; [exact C|]. split; [exact Fp|]. split; [exact Dp|].
  intros o x O Fx Hx. destruct (pminv_transform p A L HA HL T' g (length l) o x P HN HB O Fx Hx) as [X [Y1 Y2]].
  split; [exact X|]. split; [exact Y1|]. intros y Hy. rewrite <- Hy, (rigid_undo g y SO), Hy in Y2. exact Y2.
Qed.
Definition quarter (p : prim) : FM p := mkFM (mkFV fzero (fneg (fofZ p 1)) fzero) (mkFV (fofZ p 1) fzero fzero) (mkFV fzero fzero (fofZ p 1)).
Lemma quarter_ok p A : 0 <= A -> mfinite (quarter p) /\ SO3 (mkM33 0 (-1) 0 1 0 0 0 0 1) /\ close (A * roundoff p) (mval (quarter p)) (mkM33 0 (-1) 0 1 0 0 0 0 1).
Proof.
  intro HA. destruct (fofZ1 p) as [F1 V1]. split; [repeat split; cbn; rewrite ?fneg_fin; assumption || reflexivity|]. split; [split; lin|].
  apply close_eq; [|rewrite roundoff_fu; pose proof (fu_pos p); apply Rmult_le_pos; lra]. unfold mval, quarter; cbn [r0 r1 r2 gx gy gz]. rewrite fneg_val, V1. reflexivity.
Qed.
Lemma C72_matrix_history_ex :
  let e := mkM33 0 (-1) 0 1 0 0 0 0 1 in let t := mkV3 1 2 3 in let P := mkFPose (v123 F32) (quarter F32) in
  let l : list (fpmcall F32) := [(PMMulRight std9 std3 P, (e, t)); (PMMulLeft std9 std3 P, (e, t)); (PMRotation MInvert, (e, t)); (PMSetIdentity, (e, t)); (PMPosition (v123 F32), (e, t)); (PMAssign P, (e, t))] in
  fmpose_ok 2 4 P e t /\ Forall (fpmcall_ok 2 4) l /\ (101 / 100 * 2 + 12) * roundoff F32 * (INR (length l) + 1) <= / 100 /\ (INR (length l) + 1) * 4 <= bpow radix2 98.
Proof.
  intros e t P l. destruct (quarter_ok F32 2 ltac:(lra)) as (F & S1 & C).
  assert (PO : fmpose_ok 2 4 P e t) by (split; [exact F|split; [exact S1|split; [exact C|apply v123_ok; lra]]]).
  assert (O9 : orders9_ok std9) by (repeat split; apply Permutation_refl).
  assert (OP : orders9_ok std9 /\ orders3_ok 3 3 3 std3 /\ fmpose_ok 2 4 P e t) by (split; [exact O9|split; [apply std3_ok|exact PO]]).
  split; [exact PO|]. split.
  { apply Forall_cons; [exact OP|]. apply Forall_cons; [exact OP|]. apply Forall_cons; [exact I|]. apply Forall_cons; [exact I|].
    apply Forall_cons; [apply v123_ok; lra|]. apply Forall_cons; [exact PO|]. apply Forall_nil. }
  rewrite roundoff_fu. pose proof (fu_24 F32). pose proof (fu_pos F32). cbn [l length INR]. split; [lra|].
  apply Rle_trans with (bpow radix2 6); [cbn; lra|apply bpow_le; lia].
Qed.

(** C72: inverseTransform undoes transform and the other way round, up to the
    stated number of roundings. *)
Lemma C72_round_trip_lemma : forall (p : prim) (A L : R) (T : fpose p (FQ p)) (e : Quat) (t : V3) (o o' : rotorders) (x : FV p),
  6 <= A <= 50 -> bpow radix2 (-100) <= L <= bpow radix2 96 -> fqpose_ok A L T e t -> rotorders_ok o -> rotorders_ok o' ->
  vfinite x -> vnorm (vval x) <= bpow radix2 96 ->
  (vfinite (fqinverseTransform o T (fqtransform o' T x)) /\
   vdist (vval (fqinverseTransform o T (fqtransform o' T x))) (vval x) <= roundoff p * ((15 * A + 200) * vnorm (vval x) + (28 * A + 370) * L)) /\
  (vfinite (fqtransform o T (fqinverseTransform o' T x)) /\
   vdist (vval (fqtransform o T (fqinverseTransform o' T x))) (vval x) <= roundoff p * ((15 * A + 200) * vnorm (vval x) + (28 * A + 370) * L)).
Proof.
  intros p A L T e t o o' x HA [HL HL'] HT O O' Fx Hx. rewrite roundoff_fu. pose proof (fu_pos p) as U. pose proof (fu_24 p) as V. pose proof (L_pos L HL) as L0.
  pose proof (pinv_start p A L T e t HA HL HT) as P. set (g := mkRigid (quat_rot e) t) in *. pose proof (vn_nonneg (vval x)) as X0.
  assert (SO : SO3 (rg_rot g)) by (destruct HT as (_ & E & _); cbn; apply quat_rot_SO3; rewrite <- qnorm_sq, E; ring).
  assert (Ng : vnorm (rg_pos g) <= L) by (destruct HT as (_ & _ & _ & _ & Q & _); exact Q).
  assert (AU : A * fu p <= 50 * / 16777216) by (apply Rmult_le_compat; lra).
  assert (H1 : (A + 10) * fu p * (INR 0 + 1) <= / 100) by (cbn [INR]; lra). assert (H2 : (4 * A + 53) * fu p * (INR 0 + 1) <= / 10) by (cbn [INR]; lra).
  assert (B : bpow radix2 98 = 4 * bpow radix2 96) by (change 4 with (bpow radix2 2); rewrite <- bpow_plus; reflexivity). pose proof (bpow_gt_0 radix2 96) as B0.
  assert (H3 : (INR 0 + 1) * L <= bpow radix2 98) by (cbn [INR]; lra).
  pose proof (fun o => pinv_transform p A L HA HL T g 0 0 o x P H1 H2 H3) as Q. cbn [INR] in Q.
  replace ((0 + 1) * (0 + 1)) with 1 in Q by ring. replace (0 + 1) with 1 in Q by ring.
  destruct (Q o' O' Fx ltac:(lra)) as [[F1 D1] [F2 D2]]. clear Q.
  set (X := vnorm (vval x)) in *. set (uX := fu p * X). set (uL := fu p * L).
  assert (AUX : A * uX <= 50 * / 16777216 * X) by (unfold uX; rewrite <- Rmult_assoc; apply Rmult_le_compat_r; lra).
  assert (AUL : A * uL <= 50 * / 16777216 * L) by (unfold uL; rewrite <- Rmult_assoc; apply Rmult_le_compat_r; lra).
  assert (uX0 : 0 <= uX <= / 16777216 * X) by (unfold uX; split; [apply Rmult_le_pos; lra|apply Rmult_le_compat_r; lra]).
  assert (uL0 : 0 <= uL <= / 16777216 * L) by (unfold uL; split; [apply Rmult_le_pos; lra|apply Rmult_le_compat_r; lra]).
  assert (Au0 : 0 <= A * uX) by nra. assert (Al0 : 0 <= A * uL) by nra.
  assert (SM : forall c, fu p * ((26 + 7 * (A + 10) * 1) * X + c * L * 1) = 96 * uX + 7 * (A * uX) + c * uL) by (intro; unfold uX, uL; ring).
  rewrite SM in D1, D2.
  assert (TL : forall y, 96 * fu p * y + 7 * (A * fu p) * y = (96 * fu p + 7 * (A * fu p)) * y) by (intro; ring).
  assert (CS : 0 <= 96 * fu p + 7 * (A * fu p) <= / 1000) by (assert (0 <= A * fu p) by (apply Rmult_le_pos; lra); lra).
  split.
  - assert (Ny : vnorm (vval (fqtransform o' T x)) <= X + L + (96 * uX + 7 * (A * uX) + (4 * A + 55) * uL)).
    { apply vnorm_le_add in D1. eapply Rle_trans; [exact D1|]. apply Rplus_le_compat_r. unfold rigid_act. eapply Rle_trans; [apply vnorm_triang|]. rewrite (SO3_vnorm _ _ SO). fold X. lra. }
    assert (Ny2 : X + L + (96 * uX + 7 * (A * uX) + (4 * A + 55) * uL) <= 101 / 100 * (X + L)) by lra.
    pose proof (pinv_transform p A L HA HL T g 0 0 o (fqtransform o' T x) P H1 H2 H3 O F1 ltac:(lra)) as [_ [F3 D3]]. split; [exact F3|].
    cbn [INR] in D3. set (y := fqtransform o' T x) in *.
    assert (D4 : vdist (mvmul (mtrans (rg_rot g)) (vsub (vval y) (rg_pos g))) (vval x) <= 96 * uX + 7 * (A * uX) + (4 * A + 55) * uL).
    { rewrite <- (rigid_undo g (vval x) SO) at 1. unfold vdist in *.
      replace (vsub (mvmul (mtrans (rg_rot g)) (vsub (vval y) (rg_pos g))) (mvmul (mtrans (rg_rot g)) (vsub (rigid_act g (vval x)) (rg_pos g))))
        with (mvmul (mtrans (rg_rot g)) (vsub (vval y) (rigid_act g (vval x)))) by lin. rewrite (SO3_vnorm _ _ (SO3_trans _ SO)). exact D1. }
    unfold vdist in *. eapply Rle_trans; [apply (vnorm_sub_triang _ (mvmul (mtrans (rg_rot g)) (vsub (vval y) (rg_pos g))))|].
    assert (D5 : fu p * ((26 + 7 * (A + 10) * (0 + 1)) * vnorm (vval y) + (16 * A + 212) * L * ((0 + 1) * (0 + 1))) <= fu p * ((96 + 7 * A) * (101 / 100 * (X + L)) + (16 * A + 212) * L)).
    { apply Rmult_le_compat_l; [lra|]. replace (26 + 7 * (A + 10) * (0 + 1)) with (96 + 7 * A) by ring. replace ((0 + 1) * (0 + 1)) with 1 by ring.
      assert ((96 + 7 * A) * vnorm (vval y) <= (96 + 7 * A) * (101 / 100 * (X + L))) by (apply Rmult_le_compat_l; lra). lra. }
    replace (fu p * ((96 + 7 * A) * (101 / 100 * (X + L)) + (16 * A + 212) * L)) with ((96 + 7 * A) * (101 / 100) * (uX + uL) + (16 * A + 212) * uL) in D5 by (unfold uX, uL; ring).
    replace (fu p * ((15 * A + 200) * X + (28 * A + 370) * L)) with ((15 * A + 200) * uX + (28 * A + 370) * uL) by (unfold uX, uL; ring). lra.
  - assert (Ny : vnorm (vval (fqinverseTransform o' T x)) <= X + L + (96 * uX + 7 * (A * uX) + (16 * A + 212) * uL)).
    { apply vnorm_le_add in D2. eapply Rle_trans; [exact D2|]. apply Rplus_le_compat_r. rewrite (SO3_vnorm _ _ (SO3_trans _ SO)).
      replace (vsub (vval x) (rg_pos g)) with (vadd (vval x) (vneg (rg_pos g))) by lin. eapply Rle_trans; [apply vnorm_triang|]. rewrite vnorm_vneg. fold X. lra. }
    assert (Ny2 : X + L + (96 * uX + 7 * (A * uX) + (16 * A + 212) * uL) <= 101 / 100 * (X + L)) by lra.
    pose proof (pinv_transform p A L HA HL T g 0 0 o (fqinverseTransform o' T x) P H1 H2 H3 O F2 ltac:(lra)) as [[F3 D3] _]. split; [exact F3|].
    cbn [INR] in D3. set (y := fqinverseTransform o' T x) in *.
    assert (D4 : vdist (rigid_act g (vval y)) (vval x) <= 96 * uX + 7 * (A * uX) + (16 * A + 212) * uL).
    { assert (W : vval x = rigid_act g (mvmul (mtrans (rg_rot g)) (vsub (vval x) (rg_pos g)))) by (symmetry; apply rigid_redo, SO).
      rewrite W at 1. unfold vdist in *. unfold rigid_act.
      replace (vsub (vadd (mvmul (rg_rot g) (vval y)) (rg_pos g)) (vadd (mvmul (rg_rot g) (mvmul (mtrans (rg_rot g)) (vsub (vval x) (rg_pos g)))) (rg_pos g)))
        with (mvmul (rg_rot g) (vsub (vval y) (mvmul (mtrans (rg_rot g)) (vsub (vval x) (rg_pos g))))) by lin. rewrite (SO3_vnorm _ _ SO). exact D2. }
    unfold vdist in *. eapply Rle_trans; [apply (vnorm_sub_triang _ (rigid_act g (vval y)))|].
    assert (D5 : fu p * ((26 + 7 * (A + 10) * (0 + 1)) * vnorm (vval y) + (4 * A + 55) * L * ((0 + 1) * (0 + 1))) <= fu p * ((96 + 7 * A) * (101 / 100 * (X + L)) + (4 * A + 55) * L)).
    { apply Rmult_le_compat_l; [lra|]. replace (26 + 7 * (A + 10) * (0 + 1)) with (96 + 7 * A) by ring. replace ((0 + 1) * (0 + 1)) with 1 by ring.
      assert ((96 + 7 * A) * vnorm (vval y) <= (96 + 7 * A) * (101 / 100 * (X + L))) by (apply Rmult_le_compat_l; lra). lra. }
    replace (fu p * ((96 + 7 * A) * (101 / 100 * (X + L)) + (4 * A + 55) * L)) with ((96 + 7 * A) * (101 / 100) * (uX + uL) + (4 * A + 55) * uL) in D5 by (unfold uX, uL; ring).
    replace (fu p * ((15 * A + 200) * X + (28 * A + 370) * L)) with ((15 * A + 200) * uX + (28 * A + 370) * uL) by (unfold uX, uL; ring). lra.
Qed.
Lemma C72_round_trip_ex : fqpose_ok 6 4 pose345 (mkQ (3/5) (4/5) 0 0) (mkV3 1 2 3) /\ rotorders_ok ro_std /\ bpow radix2 (-100) <= 4 <= bpow radix2 96 /\
  vfinite (v123 F32) /\ fqinverseTransform ro_std pose345 (fqtransform ro_std pose345 (v123 F32)) <> v123 F32.
Proof.
  split; [apply pose345_ok|]. split; [apply ro_std_ok|]. split; [change 4 with (bpow radix2 2); split; apply bpow_le; lia|]. split; [repeat split|].
  intro H. apply (f_equal (fun v => B2SF (gz v))) in H. vm_compute in H. discriminate.
Qed.

(** C72: getTransformationMatrix() of a quaternion pose acts on homogeneous
    coordinates like the intended motion, up to (7A+19) roundings; its last row is
    exactly 0 0 0 1 and its last column holds the bits of the position. A
    HomTransformMatrix constructed from the pose is an operand of matrix poses with
    the same accuracy, so the theorems for matrix poses apply to it. *)
Lemma C72_matrix_lemma : forall (p : prim) (A L : R) (T : fpose p (FQ p)) (e : Quat) (t : V3) (o : orders9),
  6 <= A <= 50 -> 0 <= L -> fqpose_ok A L T e t -> orders9_rot_ok o ->
  let m := fqpose_matrix o T in let g := mkRigid (quat_rot e) t in
  (forall i j, (i < 4)%nat -> (j < 4)%nat -> is_finite (nth j (nth i m []) fzero) = true) /\
  (forall x, vdist (matrix_act m x) (rigid_act g x) <= roundoff p * ((7 * A + 19) * vnorm x + A * L)) /\
  (forall x, row_act m 3 x = 1) /\
  [nth 3 (nth 0 m []) fzero; nth 3 (nth 1 m []) fzero; nth 3 (nth 2 m []) fzero] = flist (fpos T) /\
  fmpose_ok (7 * A + 19) L (fmpose_of_q o T) (quat_rot e) t /\ fmpose_matrix (fmpose_of_q o T) = m.
Proof.
  intros p A L T e t o HA HL (Fq & E & D & (Fp & Np & Dp)) O m g. rewrite roundoff_fu in *. pose proof (fu_pos p) as U. pose proof (fu_24 p) as V.
  destruct (operand_facts p A (frot T) e ltac:(lra) E D) as [N1 N2].
  assert (AU : A * fu p <= 50 * / 16777216) by (apply Rmult_le_compat; lra).
  destruct (ftoRot_close p o (frot T) O Fq ltac:(lra)) as [Fm C].
  pose proof (Rle_abs (- (qnorm (qval (frot T)) - 1))) as X. rewrite Rabs_Ropp in X.
  assert (Cl : close ((7 * A + 19) * fu p) (mval (ftoRot o (frot T))) (quat_rot e)).
  { eapply close_mono; [|eapply close_trans; [exact C|apply quat_rot_close; [apply direction_norm; lra|exact E]]]. lra. }
  destruct (fofZ1 p) as [F1 V1].
  split; [|split; [|split; [|split; [|split]]]].
  - destruct Fm as ((A0 & A1 & A2) & (B0 & B1 & B2) & (C0 & C1 & C2)). destruct Fp as (P0 & P1 & P2).
    intros i j Hi Hj. destruct i as [|[|[|[|]]]]; [| | | |lia]; (destruct j as [|[|[|[|]]]]; [| | | |lia]); unfold m, fqpose_matrix, flist; cbn [nth app]; assumption || reflexivity.
  - intro x. replace (matrix_act m x) with (vadd (mvmul (mval (ftoRot o (frot T))) x) (vval (fpos T))).
    2: { unfold m, matrix_act, row_act, entry, fqpose_matrix, flist, vadd, mvmul, mval, vval; cbn [nth app vx vy vz m00 m01 m02 m10 m11 m12 m20 m21 m22]. reflexivity. }
    unfold rigid_act, vdist in *; cbn [rg_rot rg_pos g].
    replace (vsub (vadd (mvmul (mval (ftoRot o (frot T))) x) (vval (fpos T))) (vadd (mvmul (quat_rot e) x) t))
      with (vadd (vsub (mvmul (mval (ftoRot o (frot T))) x) (mvmul (quat_rot e) x)) (vsub (vval (fpos T)) t)) by lin.
    eapply Rle_trans; [apply vnorm_triang|]. specialize (Cl x). lra.
  - intro x. unfold m, row_act, entry, fqpose_matrix; cbn [nth]. rewrite V1. change (B2R (@fzero p)) with 0. ring.
  - reflexivity.
  - unfold fmpose_ok, fmpose_of_q; cbn [frot fpos]. rewrite roundoff_fu. split; [exact Fm|]. split; [apply quat_rot_SO3; rewrite <- qnorm_sq, E; ring|]. split; [exact Cl|].
    split; [exact Fp|]. split; [exact Np|]. rewrite roundoff_fu. eapply Rle_trans; [exact Dp|]. apply Rmult_le_compat_r; [exact HL|]. apply Rmult_le_compat_r; lra.
  - reflexivity.
Qed.
Lemma C72_matrix_ex : fqpose_ok 6 4 pose345 (mkQ (3/5) (4/5) 0 0) (mkV3 1 2 3) /\ orders9_rot_ok stdrot /\
  B2SF (nth 1 (nth 1 (fqpose_matrix stdrot pose345) []) fzero) = SpecFloat.S754_finite true 9395244 (-25).
Proof. split; [apply pose345_ok|]. split; [apply stdrot_ok|]. vm_compute. reflexivity. Qed.
