(** Claims about AngleAxis, RotationVector and Euler angle objects in
    floating-point arithmetic (C71). *)
From Coq Require Import ZArith Reals Lra Psatz Bool List Lia Permutation.
From Flocq Require Import IEEE754.BinarySingleNaN Core.Core.
From Verif Require Import Linalg Spec SpecFacts SpecClose ModelCommon ModelEigen CommonFacts ModelRotation ConvFacts RotFacts CloseFacts RVFacts EulerNear PiBounds
  FloatModel FloatFacts FloatModel2 SpecFloatQ FloatQFacts FloatQProd FloatQHist FloatQRot FloatMHist FloatCast FloatWrap FloatModel3 SpecLibm SpecBuild FloatBuild FloatBuild2 FloatBuild3 FloatBuild4 FloatModel4 FloatExt FloatExt2 FloatExt3 FloatExt4 SpecExt Claims16 Claims18 FloatExt5 FloatExt6.
Import ListNotations.
Local Open Scope R_scope.

(** C71: an AngleAxis, RotationVector, EulerAnglesZyx or EulerAnglesXyz object
    constructed from a quaternion that is within A <= 1200 roundings (A <= 76 for
    RotationVector) of a unit quaternion holds finite numbers and stands for that quaternion's rotation up to
    2A + 18, 2A + 52 and 112A + 476 roundings, also at the Euler singularities. *)
Lemma C71_from_quaternion_lemma : forall (p : prim) (L : libm) (b : ext_orders) (k : skind) (q : FQ p) (e : Quat) (A : R),
  libm_ok L -> ext_ok b -> qfinite q -> qnorm e = 1 -> 0 <= A <= extract_limit k -> qdist (qval q) e <= A * roundoff p ->
  let s := fsource_of_quat L b k q in
  skind_of s = k /\ object_ok (64/10) s /\ close (extract_roundings k A * roundoff p) (turns s) (quat_rot e).
Proof. intros p L b k q e A. rewrite roundoff_fu. cbv zeta. apply extract_ok. Qed.
Definition stdext : ext_orders := mkExt leftright3 Reciprocal order2 stdrot order2 order2 order2.
Lemma stdext_ok : ext_ok stdext.
Proof. split; [apply Permutation_refl|]. split; [apply Permutation_refl|]. split; [apply stdrot_ok|]. repeat split; apply Permutation_refl. Qed.
Lemma C71_from_quaternion_ex : libm_ok exact_libm /\ ext_ok stdext /\ qfinite q345 /\ qnorm (mkQ (3/5) (4/5) 0 0) = 1 /\ qdist (qval q345) (mkQ (3/5) (4/5) 0 0) <= 6 * roundoff F32.
Proof. split; [apply exact_libm_ok|]. split; [apply stdext_ok|]. split; [apply q345_val|]. apply q345_close. Qed.

(** C71: constructing an object of one of the four classes from an object of
    another changes the rotation by at most 4300 roundings, plus 1.01e-5 (float),
    1.01e-12 (double) when a rotation vector is converted to angle-axis or to
    xyz-Euler angles. *)
Lemma C71_convert_lemma : forall (p : prim) (L : libm) (c : build_orders) (b : ext_orders) (k : skind) (s : fsource p) (T : R),
  libm_ok L -> build_ok c -> ext_ok b -> 64/10 <= T <= 655/100 -> object_ok T s ->
  let r := fconvert L c b k s in
  skind_of r = k /\ object_ok (T + 160 * roundoff p) r /\
  close (4300 * roundoff p + (if drops_short (skind_of s) k then 101/100 * short_length p else 0)) (turns r) (turns s).
Proof. intros p L c b k s T. rewrite roundoff_fu. cbv zeta. apply convert_ok. Qed.
Lemma fofZ3 : B2R (fofZ F32 3) = 3.
Proof. vm_compute; lra. Qed.
Lemma aa345_object : object_ok (64/10) aa345.
Proof.
  destruct (aa345_ok 10) as (A1 & A2 & A3). split; [exact A1|]. split; [exact A2|]. split.
  - rewrite fofZ3, Rabs_pos_eq; lra.
  - left. rewrite roundoff_fu in *. pose proof (fu_pos F32). lra.
Qed.
Lemma C71_convert_ex : libm_ok exact_libm /\ build_ok stdbuild /\ ext_ok stdext /\ object_ok (64/10) aa345 /\
  fconvert exact_libm stdbuild stdext SRv aa345 = SrcRv (mkFV (fmul (fofZ F32 3) (flit F32 3 5)) (fmul (fofZ F32 3) (flit F32 4 5)) fzero).
Proof.
  split; [apply exact_libm_ok|]. split; [apply stdbuild_ok|]. split; [apply stdext_ok|]. split; [apply aa345_object|]. reflexivity.
Qed.

(** C71: the product of two such objects, of any of the four classes, is an object
    of the class of the left operand and stands for the product of the rotations up
    to 170, 204 and 8988 roundings. *)
Lemma C71_product_lemma : forall (p : prim) (L : libm) (c : build_orders) (b : ext_orders) (o : orders4) (l r : fsource p),
  libm_ok L -> build_ok c -> ext_ok b -> orders4_ok o -> object_ok (655/100) l -> object_ok (655/100) r ->
  let s := fproduct L c b o l r in
  skind_of s = skind_of l /\ object_ok (64/10) s /\
  close (match skind_of l with SAA => 170 | SRv => 204 | SZyx | SXyz => 8988 end * roundoff p) (turns s) (mmul (turns l) (turns r)).
Proof.
  intros p L c b o l r HL HC HE HO Hl Hr. rewrite roundoff_fu. cbv zeta. pose proof (fu_pos p) as U.
  destruct (product_ok p L c b o l r (655/100) HL HC HE HO ltac:(lra) Hl Hr) as (A & B & C). split; [exact A|]. split; [exact B|].
  eapply close_mono; [|exact C]. apply Rmult_le_compat_r; [lra|]. destruct (skind_of l); cbn [extract_roundings]; lra.
Qed.
Definition euler123 : fsource F32 := SrcZyx (fofZ F32 1) (fofZ F32 2) (fofZ F32 3).
Lemma C71_product_ex : object_ok (655/100) aa345 /\ object_ok (655/100) euler123 /\ orders4_ok std4.
Proof. split; [apply (object_wider F32 (64/10)); [lra|apply aa345_object]|]. split; [repeat split|apply std4_ok]. Qed.

(** C71: inverted() *)
Lemma C71_inverted_lemma : forall (p : prim) (L : libm) (c : build_orders) (b : ext_orders) (s : fsource p) (T : R),
  libm_ok L -> build_ok c -> ext_ok b -> 64/10 <= T <= 655/100 -> object_ok T s ->
  let r := finverted L c b s in
  skind_of r = skind_of s /\ object_ok T r /\ close (4200 * roundoff p) (turns r) (mtrans (turns s)).
Proof. intros p L c b s T. rewrite roundoff_fu. cbv zeta. apply inverted_ok. Qed.
Lemma C71_inverted_ex : object_ok (64/10) aa345 /\ finverted exact_libm stdbuild stdext aa345 = SrcAA (fofZ F32 3) (mkFV (fneg (flit F32 3 5)) (fneg (flit F32 4 5)) (fneg fzero)).
Proof. split; [apply aa345_object|reflexivity]. Qed.

Lemma step_ok p L (s : fsource p) (o : sop p * choices) T m d : libm_ok L -> sop_ok o -> 64/10 <= T <= 655/100 -> object_ok T s -> SO3 m -> close d (turns s) m ->
  skind_of (sstep L s o) = skind_step (skind_of s) o /\ object_ok (T + 160 * fu p) (sstep L s o) /\ SO3 (sexact_step m o) /\
  close (d + 13300 * fu p + INR (sdrops_step (skind_of s) o) * (101/100 * short_length p)) (turns (sstep L s o)) (sexact_step m o).
Proof.
  intros HL [(HC & HE & HM) HO] HT H SM CL. pose proof (fu_pos p) as U. pose proof (close_nonneg _ _ _ CL) as D0. pose proof (object_SO3 p T s H) as SS.
  destruct o as [o [c b mo]]; cbn [snd fst ch_build ch_ext ch_mul] in *. unfold sstep, skind_step, sdrops_step, sexact_step; cbn [snd fst ch_build ch_ext ch_mul].
  assert (W : forall t : fsource p, object_ok (64/10) t -> object_ok T t) by (intro t; apply object_wider; lra).
  assert (DR : forall f t, drop_error p f t = INR (if drops_short f t then 1 else 0) * (101/100 * short_length p)) by (intros f t; unfold drop_error; destruct (drops_short f t); cbn [INR]; ring).
  destruct o as [t|t|t| | |k].
  - destruct (product_ok p L c b mo s t T HL HC HE HM ltac:(lra) H (W t HO)) as (A & B & C). split; [exact A|]. split; [apply (object_wider p (64/10)); [lra|exact B]|].
    pose proof (object_SO3 p T t (W t HO)) as ST. split; [now apply SO3_mmul|].
    eapply close_mono; [|exact (close_trans _ _ _ _ _ C (close_mul_r _ _ _ _ ST CL))].
    assert (extract_roundings (skind_of s) 76 * fu p <= 8988 * fu p) by (apply Rmult_le_compat_r; [lra|destruct (skind_of s); cbn [extract_roundings]; lra]). cbn [INR]. lra.
  - destruct (product_ok p L c b mo t s T HL HC HE HM ltac:(lra) (W t HO) H) as (A & B & C).
    destruct (convert_ok p L c b (skind_of s) _ (64/10) HL HC HE ltac:(lra) B) as (X & Y & Z). rewrite A in Z.
    split; [exact X|]. split; [apply (object_wider p (64/10 + 160 * fu p)); [lra|exact Y]|]. pose proof (object_SO3 p T t (W t HO)) as ST. split; [now apply SO3_mmul|].
    eapply close_mono; [|exact (close_trans _ _ _ _ _ (close_trans _ _ _ _ _ Z C) (close_mul_l _ _ _ _ ST CL))]. rewrite DR.
    assert (extract_roundings (skind_of t) 76 * fu p <= 8988 * fu p) by (apply Rmult_le_compat_r; [lra|destruct (skind_of t); cbn [extract_roundings]; lra]). lra.
  - destruct (convert_ok p L c b (skind_of s) t T HL HC HE HT (W t HO)) as (X & Y & Z). split; [exact X|]. split; [exact Y|]. split; [apply (object_SO3 p T t (W t HO))|].
    eapply close_mono; [|exact Z]. rewrite DR. lra.
  - destruct (inverted_ok p L c b s T HL HC HE HT H) as (X & Y & Z). split; [exact X|]. split; [apply (object_wider p T); [lra|exact Y]|]. split; [now apply SO3_trans|].
    eapply close_mono; [|exact (close_trans _ _ _ _ _ Z (close_trans_mat _ _ _ CL))]. cbn [INR]. lra.
  - destruct (object_identity p (T + 160 * fu p) (skind_of s) ltac:(lra)) as (A & B & C). split; [exact C|]. split; [exact A|]. split; [apply SO3_mid|].
    rewrite B. apply close_refl. cbn [INR]. lra.
  - destruct (convert_ok p L c b k s T HL HC HE HT H) as (X & Y & Z). split; [exact X|]. split; [exact Y|]. split; [exact SM|].
    eapply close_mono; [|exact (close_trans _ _ _ _ _ Z CL)]. rewrite DR. lra.
Qed.
Lemma run_ok p L (l : list (sop p * choices)) : libm_ok L -> Forall sop_ok l -> forall (s : fsource p) m d T, 64/10 <= T -> T + INR (length l) * (160 * fu p) <= 655/100 ->
  object_ok T s -> SO3 m -> close d (turns s) m ->
  skind_of (srun L s l) = fold_left skind_step l (skind_of s) /\ object_ok (T + INR (length l) * (160 * fu p)) (srun L s l) /\ SO3 (sexact m l) /\
  close (d + INR (length l) * (13300 * fu p) + INR (sdrops (skind_of s) l) * (101/100 * short_length p)) (turns (srun L s l)) (sexact m l).
Proof.
  intros HL HF. pose proof (fu_pos p) as U. induction HF as [|o l Ho HF IH]; intros s m d T H1 H2 H SM CL.
  - cbn [length INR sdrops]. unfold srun, sexact; cbn [fold_left]. rewrite !Rmult_0_l, !Rplus_0_r. auto.
  - cbn [length] in *. rewrite S_INR in *. pose proof (pos_INR (length l)) as N0. assert (0 <= INR (length l) * (160 * fu p)) by (apply Rmult_le_pos; lra).
    destruct (step_ok p L s o T m d HL Ho ltac:(lra) H SM CL) as (A & B & C & D).
    destruct (IH (sstep L s o) (sexact_step m o) _ (T + 160 * fu p) ltac:(lra) ltac:(lra) B C D) as (X & Y & Z & W).
    unfold srun, sexact in *. cbn [fold_left sdrops]. rewrite A in *. rewrite plus_INR. split; [exact X|]. split; [eapply object_wider; [|exact Y]; lra|]. split; [exact Z|].
    eapply close_mono; [|exact W]. lra.
Qed.

(** C71: any sequence of calls on one object: *, assignment with conversion,
    invert(), setIdentity() and construction of an object of another class, where
    the operands are objects of any of the four classes. The numbers stay finite,
    and after n calls the object stands for the exact product up to n * 13300
    roundings plus 1.01e-5 (float), 1.01e-12 (double) per conversion that drops
    short rotation vectors. *)
Lemma C71_history_lemma : forall (p : prim) (L : libm) (s : fsource p) (l : list (sop p * choices)),
  libm_ok L -> object_ok (64/10) s -> Forall sop_ok l -> INR (length l) * (1100 * roundoff p) <= 1 ->
  let r := srun L s l in
  skind_of r = fold_left skind_step l (skind_of s) /\ object_ok (655/100) r /\
  close (INR (length l) * (13300 * roundoff p) + INR (sdrops (skind_of s) l) * (101/100 * short_length p)) (turns r) (sexact (turns s) l).
Proof.
  intros p L s l HL H HF HN. rewrite roundoff_fu in *. cbv zeta. pose proof (fu_pos p) as U.
  destruct (run_ok p L l HL HF s (turns s) 0 (64/10) ltac:(lra) ltac:(lra) H (object_SO3 _ _ _ H) (close_refl _ _ (Rle_refl 0))) as (X & Y & Z & W).
  split; [exact X|]. split; [eapply object_wider; [|exact Y]; lra|]. eapply close_mono; [|exact W]. lra.
Qed.
Definition stdchoices : choices := mkChoices stdbuild stdext std4.
Lemma stdchoices_ok : choices_ok stdchoices. Proof. split; [apply stdbuild_ok|]. split; [apply stdext_ok|apply std4_ok]. Qed.
Lemma C71_history_ex :
  let l : list (sop F32 * choices) := [(SMulRight euler123, stdchoices); (SConvert SRv, stdchoices); (SMulLeft aa345, stdchoices); (SInvert, stdchoices); (SConvert SXyz, stdchoices); (SAssign aa345, stdchoices)] in
  Forall sop_ok l /\ object_ok (64/10) aa345 /\ INR (length l) * (1100 * roundoff F32) <= 1 /\ sdrops (skind_of aa345) l = 1%nat.
Proof.
  intro l. split; [|split; [apply aa345_object|split; [|reflexivity]]].
  - repeat apply Forall_cons; try apply Forall_nil; (split; [apply stdchoices_ok|]); try exact I; try apply aa345_object.
  - rewrite roundoff_fu, fu_32. unfold l. cbn [length INR]. lra.
Qed.

(** ** Inputs at which the bounds above cannot hold *)
Lemma feval_zeros p t (a b : nat -> fl p) : (forall i, a i = fzero) -> (forall i, b i = fzero) -> feval t a b = fzero.
Proof.
  intros Ha Hb. induction t as [i|l IHl r IHr|i t IH]; cbn [feval]; rewrite ?Ha, ?Hb, ?IHl, ?IHr, ?IH; destruct p; reflexivity.
Qed.
Lemma fvnorm_zeros p t : fvnorm t (mkFV (fzero (p := p)) fzero fzero) = fzero.
Proof.
  unfold fvnorm, fdot. rewrite feval_zeros; [destruct p; reflexivity| |]; intro i; unfold cf; cbn; destruct i as [|[|[|[|i]]]]; reflexivity.
Qed.
Lemma fdiv_zero p (x : fl p) : is_finite x = true -> fmul (fdiv x fzero) fzero = B754_nan.
Proof. destruct x as [s|s| |s m e H]; intro F; try discriminate F; destruct p, s; reflexivity. Qed.
(** 1 - 88 * 2^-24 *)
Definition short_one : fl F32 := flit F32 16777128 16777216.
Lemma short_one_R : is_finite short_one = true /\ B2R short_one = 16777128 / 16777216.
Proof. split; [vm_compute; reflexivity|]. unfold short_one. rewrite (B2R_of_SF F32 _ false 16777128 (-24)) by (vm_compute; reflexivity). unfold F2R; cbn [Fnum Fexp cond_Zopp]. change (bpow radix2 (-24)) with (/ 16777216). lra. Qed.

(** C71: the bound A <= 76 is needed for rotation vectors: the finite
    single-precision quaternion (1 - 88 * 2^-24, 0, 0, 0), 88 roundings off the
    identity, becomes a rotation vector of three NaNs, whatever the math library
    and the order of evaluation: 1 - w*w is not below 1e-5, and the code divides
    by the norm of a zero vector. *)
Lemma C71_short_quaternion_nan_lemma : forall (L : libm) (b : ext_orders), libm_ok L -> ext_ok b ->
  exists q : FQ F32, qfinite q /\ qdist (qval q) qid <= 88 * roundoff F32 /\
    frv_of_quat L b q = SrcRv (mkFV B754_nan B754_nan B754_nan).
Proof.
  intros L b HL (O1 & O2 & _). pose proof (fu_pos F32) as U. exists (mkFQ short_one fzero fzero fzero). destruct short_one_R as [F E].
  split; [repeat split; exact F|]. split.
  { unfold qdist, qnorm. unfold qval; cbn [fw fx fy fz]. rewrite E. change (B2R (@fzero F32)) with 0. unfold qid, qsub, qnorm2; cbn [qw qx qy qz].
    rewrite roundoff_fu, fu_32. rewrite <- (sqrt_square (88 * / 16777216)) by lra. apply sqrt_le_1_alt. lra. }
  unfold frv_of_quat. cbn [fw]. cbv zeta. change (fvec (mkFQ short_one fzero fzero fzero)) with (mkFV (fzero (p := F32)) fzero fzero).
  set (w := short_one) in *. destruct (fofZ1 F32) as [F1 E1]. destruct (fneg_R F32 w) as [En Fn]. rewrite F in Fn.
  destruct (fdot2_err F32 (x_one b) (fofZ F32 1) (fneg w) (fofZ F32 1) w 2 O2 F1 Fn F1 F) as [Fd Ed].
  { rewrite E1, En, E. rewrite !Rabs_pos_eq, (Rabs_left1) by lra. lra. }
  { change 2 with (bpow radix2 1). apply bpow_le; lia. }
  pose proof (eta_u7 F32) as T. rewrite fu_32 in *. rewrite E1, En, E in Ed. apply Rabs_both in Ed.
  rewrite (flt_R F32 _ (fdummy F32) Fd (fdummy_fin F32)), fdummy_32, Rlt_bool_false by lra.
  rewrite fvnorm_zeros.
  assert (FA : is_finite (fmul (fofZ F32 2) (latan2 L F32 fzero w)) = true).
  { destruct (atan2_accurate L HL F32 fzero w eq_refl F) as [Fa Ea]; [right; rewrite E; lra|]. rewrite roundoff_fu, fu_32 in Ea.
    change (B2R (@fzero F32)) with 0 in Ea. pose proof (atan2_range 0 (B2R w)) as AR. pose proof PI_num as HPI. apply Rabs_both in Ea.
    destruct (fofZ2 F32) as [F2 E2]. destruct (fmul_R F32 _ _ F2 Fa) as [_ G]; [|exact G]. rewrite E2.
    eapply Rle_trans; [|apply bpow100_fbig]. apply Rle_trans with (bpow radix2 3); [change (bpow radix2 3) with 8; apply Rabs_le; lra|apply bpow_le; lia]. }
  unfold fvscale; cbn [gx gy gz]. rewrite (fdiv_zero F32 _ FA). reflexivity.
Qed.

(** the smallest positive single-precision number, 2^-149 *)
Definition smallest : fl F32 := fcvt F32 (fdiv (fofZ F64 1) (fofZ F64 (2 ^ 149))).
Lemma smallest_SF : B2SF smallest = SpecFloat.S754_finite false 1 (-149). Proof. vm_compute. reflexivity. Qed.
Lemma smallest_R : is_finite smallest = true /\ B2R smallest = bpow radix2 (-149).
Proof. split; [vm_compute; reflexivity|]. rewrite (B2R_of_SF F32 _ false 1 (-149) smallest_SF). unfold F2R; cbn [Fnum Fexp cond_Zopp]. ring. Qed.
Lemma sqrt2_num : 14/10 <= sqrt 2 <= 3/2.
Proof.
  split; [rewrite <- (sqrt_square (14/10)) by lra|rewrite <- (sqrt_square (3/2)) by lra]; apply sqrt_le_1_alt; lra.
Qed.
Lemma only_smallest (n : fl F32) : is_finite n = true -> 3/4 * bpow radix2 (-149) <= B2R n <= 195/100 * bpow radix2 (-149) -> n = smallest.
Proof.
  intros F H. destruct smallest_R as [Fs Es]. pose proof (bpow_gt_0 radix2 (-149)) as P.
  assert (G : generic_format radix2 (FLT_exp (-149) 24) (B2R n)) by (apply generic_format_B2R).
  assert (E : B2R n = bpow radix2 (-149)).
  { pose proof (@FLT_format_generic radix2 (-149) 24 eq_refl _ G) as [f E1 E2 E3]. clear G. 
    assert (K : B2R n = IZR (Fnum f * 2 ^ (Fexp f + 149)) * bpow radix2 (-149)).
    { rewrite E1. unfold F2R. rewrite mult_IZR. replace (Fexp f) with ((Fexp f + 149) + -149)%Z at 1 by lia. rewrite bpow_plus. change 2%Z with (radix_val radix2). rewrite (IZR_Zpower radix2) by lia. ring. }
    set (k := (Fnum f * 2 ^ (Fexp f + 149))%Z) in *. rewrite K in *. assert (K1 : 3/4 <= IZR k <= 195/100) by (split; apply (Rmult_le_reg_r _ _ _ P); lra).
    assert (k = 1%Z). { destruct K1 as [A B]. assert (0 < k)%Z by (apply lt_IZR; lra). assert (k < 2)%Z by (apply lt_IZR; lra). lia. }
    subst k. rewrite H0. ring. }
  apply B2R_inj; [apply is_finite_strict_B2R; rewrite E; lra|apply is_finite_strict_B2R; rewrite Es; lra|]. rewrite E, Es. reflexivity.
Qed.

(** C71: the axis of an AngleAxis object constructed from a quaternion need not be
    near length one: for the single-precision quaternion (1, h, h, 0), h = 2^-149,
    within one rounding of the identity, the axis is (1, 1, 0), of length sqrt 2,
    whatever the math library and the order of evaluation. *)
Lemma C71_axis_not_unit_lemma : forall (L : libm) (b : ext_orders), libm_ok L -> ext_ok b ->
  exists q : FQ F32, qfinite q /\ qdist (qval q) qid <= roundoff F32 /\ exists a n, faa_of_quat L b q = SrcAA a n /\ vval n = mkV3 1 1 0.
Proof.
  intros L b HL (O1 & _). pose proof (fu_pos F32) as U. destruct smallest_R as [Fs Es]. destruct (fofZ1 F32) as [F1 E1].
  set (q := mkFQ (fofZ F32 1) smallest smallest fzero). exists q. pose proof (bpow_gt_0 radix2 (-149)) as P.
  assert (P2 : bpow radix2 (-149) <= / 2 * fu F32). { apply Rle_trans with (bpow radix2 (-25)); [apply bpow_le; lia|]. rewrite fu_32. cbn; lra. }
  split; [repeat split; assumption|]. assert (V : vval (fvec q) = mkV3 (bpow radix2 (-149)) (bpow radix2 (-149)) 0) by (unfold vval, fvec, q; cbn [fx fy fz gx gy gz]; rewrite Es; reflexivity).
  split.
  { unfold qdist, qnorm. unfold qval, q; cbn [fw fx fy fz]. rewrite E1, Es. change (B2R (@fzero F32)) with 0. unfold qid, qsub, qnorm2; cbn [qw qx qy qz].
    rewrite roundoff_fu. rewrite <- (sqrt_square (fu F32)) by lra. apply sqrt_le_1_alt. set (h := bpow radix2 (-149)) in *.
    assert (h * h <= / 2 * fu F32 * (/ 2 * fu F32)) by (apply Rmult_le_compat; lra). assert (0 <= fu F32 * fu F32) by (apply Rmult_le_pos; lra). lra. }
  assert (VN : vnorm (vval (fvec q)) = sqrt 2 * bpow radix2 (-149)).
  { rewrite V. unfold vnorm, vnorm2, vdot; cbn [vx vy vz]. replace (_ + _ + _) with (2 * (bpow radix2 (-149) * bpow radix2 (-149))) by ring.
    rewrite sqrt_mult by nra. rewrite sqrt_square by lra. reflexivity. }
  pose proof sqrt2_num as S2. assert (VF : vfinite (fvec q)) by (repeat split; assumption).
  assert (NN : faa_norm L b (fvec q) = smallest).
  { unfold faa_norm. cbv zeta. destruct (fvnorm_small2 F32 (x_norm b) (fvec q) O1 VF) as [Fn Bn].
    { rewrite VN. apply Rle_trans with (bpow radix2 1 * bpow radix2 (-149)); [apply Rmult_le_compat_r; [lra|change (bpow radix2 1) with 2; lra]|]. rewrite <- bpow_plus. apply bpow_le; lia. }
    destruct (fepsilon_R F32) as [Fe Ee]. rewrite (flt_R F32 _ (fepsilon F32) Fn Fe), Rlt_bool_true.
    2:{ rewrite Ee. eapply Rle_lt_trans; [apply Bn|]. rewrite fu_32. apply Rle_lt_trans with (bpow radix2 (-24)); [apply bpow_le; lia|cbn; lra]. }
    destruct VF as (G1 & G2 & G3). pose proof (stable_accurate L HL F32 _ _ _ G1 G2 G3) as SA. change (mkV3 (B2R (gx (fvec q))) (B2R (gy (fvec q))) (B2R (gz (fvec q)))) with (vval (fvec q)) in SA.
    rewrite VN in SA. destruct SA as [A1 A2].
    { assert (bpow radix2 (-149) <= 1) by (change 1 with (bpow radix2 0); apply bpow_le; lia). apply Rle_trans with (3/2 * 1); [apply Rmult_le_compat; lra|lra]. }
    cbn [half_smallest] in A2. assert (HS : bpow radix2 (-150) = / 2 * bpow radix2 (-149)) by (change (-150)%Z with (-1 + -149)%Z; rewrite bpow_plus; reflexivity). rewrite HS, roundoff_fu in A2.
    apply only_smallest; [exact A1|]. apply Rabs_both in A2. set (h := bpow radix2 (-149)) in *.
    assert (T1 : 14/10 * h <= sqrt 2 * h <= 142/100 * h). { split; apply Rmult_le_compat_r; try lra. rewrite <- (sqrt_square (142/100)) by lra. apply sqrt_le_1_alt; lra. } 
    assert (T2 : 8 * fu F32 * (sqrt 2 * h) <= / 100 * (2 * h)). { apply Rmult_le_compat; [lra|apply Rmult_le_pos; lra|rewrite fu_32; lra|lra]. } lra. }
  unfold faa_of_quat. cbv zeta. rewrite NN. replace (feq smallest fzero) with false by (vm_compute; reflexivity).
  replace (flt (fw q) fzero) with false by (vm_compute; reflexivity).
  eexists. eexists. split; [reflexivity|]. unfold vval, fvdiv, fvec, q, fscale_down; cbn [gx gy gz fx fy fz].
  f_equal; vm_compute; lra.
Qed.
