(** Claims about setRandom() in floating-point arithmetic (C89). *)
From Coq Require Import ZArith Reals Lra Psatz Bool List Lia.
From Flocq Require Import IEEE754.BinarySingleNaN Core.Core.
From Verif Require Import Linalg Spec SpecFacts SpecClose ModelCommon ModelEigen CommonFacts CloseFacts ModelRotation RandomFacts PiBounds
  FloatModel FloatFacts FloatWrap FloatModel2 SpecFloatQ FloatQFacts FloatQProd FloatQHist FloatQRot FloatMHist FloatCast FloatModel3 SpecLibm SpecBuild FloatBuild FloatBuild4 FloatModel4 FloatExt3 SpecExt FloatModel6 FloatModel7 SpecSix FloatSix FloatFix FloatModel8 SpecBox FloatBox FloatDiff3 Claims16 Claims18 Claims19 Claims22 FloatModel17.
Local Open Scope R_scope.

(** ** One coefficient *)
Lemma lo_val p : is_finite (fcvt p (fneg fM_PI)) = true /\ B2R (fcvt p (fneg fM_PI)) = - piT p.
Proof.
  split; [destruct p; vm_compute; reflexivity|]. rewrite piT_val. destruct p.
  - rewrite (B2R_of_SF F32 (fcvt F32 (fneg fM_PI)) true 13176795 (-22)) by (vm_compute; reflexivity). unfold F2R. cbn. lra.
  - rewrite (B2R_of_SF F64 (fcvt F64 (fneg fM_PI)) true 7074237752028440 (-51)) by (vm_compute; reflexivity). unfold F2R. cbn. lra.
Qed.
Lemma ten_big p x : Rabs x <= 10 -> Rabs x <= fbig p.
Proof. intro H. apply small_big. eapply Rle_trans; [exact H|]. change (bpow radix2 60) with (IZR 1152921504606846976). lra. Qed.
Lemma uniform_ok p (fused : bool) (c : fl p) : is_finite c = true -> 0 <= B2R c <= 1 ->
  let r := funiform fused c (fcvt p (fneg fM_PI)) (fcvt p fM_PI) in
  is_finite r = true /\ - piT p <= B2R r <= piT p /\ Rabs (B2R r - (2 * piT p * B2R c - piT p)) <= 10 * fu p.
Proof.
  intros Fc Hc. cbv zeta. destruct (pi_consts p) as (_ & _ & _ & HP & _). destruct (lo_val p) as [Fl Vl]. pose proof (piT_fin p) as Fh. fold (piT p) in *.
  pose proof (fu_pos p) as U. pose proof (fu_24 p) as U24. pose proof (eta_u7 p) as E7. pose proof (eta_pos p) as E0.
  assert (W : is_finite (fsub (fcvt p fM_PI) (fcvt p (fneg fM_PI))) = true /\ B2R (fsub (fcvt p fM_PI) (fcvt p (fneg fM_PI))) = 2 * piT p).
  { assert (Q : B2R (fcvt p fM_PI) - B2R (fcvt p (fneg fM_PI)) = 2 * piT p) by (rewrite Vl; unfold piT; ring).
    destruct (fsub_R p _ _ Fh Fl) as [V F]; [apply ten_big; rewrite Q; apply Rabs_le; lra|]. split; [exact F|]. rewrite V, Q. apply rnd_id. rewrite <- ftwopi_val. apply fmt_B2R. }
  destruct W as [Fw Vw]. set (w := fsub (fcvt p fM_PI) (fcvt p (fneg fM_PI))) in *. set (lo := fcvt p (fneg fM_PI)) in *.
  assert (FP : ffmt p (piT p)) by apply fmt_B2R. assert (FN : ffmt p (- piT p)) by (apply fmt_opp; exact FP). assert (F2 : ffmt p (2 * piT p)) by (rewrite <- ftwopi_val; apply fmt_B2R).
  set (x := B2R c) in *. assert (X : 0 <= x * (2 * piT p) <= 2 * piT p) by nra.
  unfold funiform. fold w. destruct fused.
  - destruct (ffma_R p c w lo Fc Fw Fl) as [V F]; [apply ten_big; rewrite Vw, Vl; fold x; apply Rabs_le; lra|]. split; [exact F|]. rewrite V, Vw, Vl. fold x. split.
    + split; [apply rnd_ge_fmt; [exact FN|lra]|apply rnd_le_fmt; [exact FP|lra]].
    + pose proof (rnd_err_le p (x * (2 * piT p) + - piT p)) as E. assert (B : Rabs (x * (2 * piT p) + - piT p) <= 315/100) by (apply Rabs_le; lra).
      replace (2 * piT p * x - piT p) with (x * (2 * piT p) + - piT p) by ring. assert (fu p * Rabs (x * (2 * piT p) + - piT p) <= fu p * (315/100)) by (apply Rmult_le_compat_l; lra). lra.
  - destruct (fmul_R p c w Fc Fw) as [V F]; [apply ten_big; rewrite Vw; fold x; apply Rabs_le; lra|]. rewrite Vw in V. fold x in V.
    pose proof (rnd_err_le p (x * (2 * piT p))) as E. rewrite (Rabs_pos_eq (x * (2 * piT p))) in E by lra.
    assert (M : 0 <= rnd p (x * (2 * piT p)) <= 2 * piT p) by (split; [apply rnd_ge_fmt; [apply fmt_0|lra]|apply rnd_le_fmt; [exact F2|lra]]).
    set (y := rnd p (x * (2 * piT p))) in *. assert (fu p * (x * (2 * piT p)) <= fu p * (63/10)) by (apply Rmult_le_compat_l; lra).
    destruct (fadd_R p (fmul c w) lo F Fl) as [V' F']; [apply ten_big; rewrite V, Vl; apply Rabs_le; lra|]. split; [exact F'|]. rewrite V', V, Vl. split.
    + split; [apply rnd_ge_fmt; [exact FN|lra]|apply rnd_le_fmt; [exact FP|lra]].
    + pose proof (rnd_err_le p (y + - piT p)) as E'. assert (B : Rabs (y + - piT p) <= 315/100) by (apply Rabs_le; lra).
      assert (fu p * Rabs (y + - piT p) <= fu p * (315/100)) by (apply Rmult_le_compat_l; lra).
      replace (rnd p (y + - piT p) - (2 * piT p * x - piT p)) with ((rnd p (y + - piT p) - (y + - piT p)) + (y - x * (2 * piT p))) by ring.
      apply Rle_trans with (1 := Rabs_triang _ _). lra.
Qed.
Lemma norm3 v b : 0 <= b -> Rabs (Linalg.vx v) <= b -> Rabs (Linalg.vy v) <= b -> Rabs (Linalg.vz v) <= b -> vnorm v <= 1733/1000 * b.
Proof.
  intros B X Y Z. unfold vnorm. rewrite <- (sqrt_square (1733/1000 * b)) by lra. apply sqrt_le_1_alt. unfold vnorm2, vdot.
  assert (S : forall t, Rabs t <= b -> t * t <= b * b). { intros t T. rewrite <- (Rabs_pos_eq b B) in T. apply Rsqr_le_abs_1 in T. exact T. }
  pose proof (S _ X). pose proof (S _ Y). pose proof (S _ Z). replace (1733 / 1000 * b * (1733 / 1000 * b)) with (3 * (b * b) + 3289/1000000 * (b * b)) by field. assert (0 <= b * b) by (apply Rmult_le_pos; exact B). lra.
Qed.

(** a number of [0, 1] *)
Definition unit_draw {p} (c : fl p) : Prop := is_finite c = true /\ 0 <= B2R c <= 1.
(** ... a multiple of half a machine epsilon; every one of these comes out of the
    generator (std::generate_canonical divides 32 or 64 random bits by 2^32 or 2^64) *)
Definition grid_draw {p} (c : fl p) : Prop := is_finite c = true /\ exists k : Z, (0 <= k < 2 ^ fprec p)%Z /\ B2R c = IZR k * roundoff p.

Lemma random_vector_ok p fused (a b c : fl p) : unit_draw a -> unit_draw b -> unit_draw c ->
  let v := frandom_vector fused a b c in
  vfinite v /\ (Rabs (B2R (gx v)) <= piT p /\ Rabs (B2R (gy v)) <= piT p /\ Rabs (B2R (gz v)) <= piT p) /\ vnorm (vval v) <= 546/100.
Proof.
  intros [Fa Ha] [Fb Hb] [Fc Hc]. cbv zeta. destruct (uniform_ok p fused a Fa Ha) as (A1 & A2 & _). destruct (uniform_ok p fused b Fb Hb) as (B1 & B2 & _). destruct (uniform_ok p fused c Fc Hc) as (C1 & C2 & _).
  destruct (pi_consts p) as (_ & _ & _ & HP & _). unfold frandom_vector. cbn [gx gy gz]. split; [repeat split; assumption|].
  assert (X : forall y, - piT p <= y <= piT p -> Rabs y <= piT p) by (intros y Y; apply Rabs_le; exact Y).
  split; [split; [|split]; apply X; assumption|]. eapply Rle_trans; [apply (norm3 _ (piT p)); [lra| | |]; cbn [vval gx gy gz Linalg.vx Linalg.vy Linalg.vz]; apply X; assumption|]. lra.
Qed.

(** C89: setRandom() in floating-point arithmetic, for every draw of the generator and
    every class: the coefficients of the vector are numbers between -T(M_PI) and T(M_PI),
    its length is at most 5.46, and the object stands for the rotation about the vector
    by its length up to the bound of the conversion. *)
Lemma C89_random_lemma : forall (p : prim) (L : libm) (ch : choices6) (k : okind) (fused : bool) (a b c : fl p),
  libm_ok L -> choices6_ok ch -> unit_draw a -> unit_draw b -> unit_draw c ->
  let v := frandom_vector fused a b c in let y := fset_random L ch k fused a b c in
  (vfinite v /\ (Rabs (B2R (gx v)) <= B2R (fcvt p fM_PI) /\ Rabs (B2R (gy v)) <= B2R (fcvt p fM_PI) /\ Rabs (B2R (gz v)) <= B2R (fcvt p fM_PI)) /\ vnorm (vval v) <= 546/100) /\
  okind_of y = k /\
  exists r, stands (64/10 + 160 * roundoff p) (conv_defect (KSrc SRv) k 0) y r /\ close (conv_error p (KSrc SRv) k 0) r (vec_rot (vval v)).
Proof.
  intros p L ch k fused a b c HL HC Da Db Dc. cbv zeta. pose proof (random_vector_ok p fused a b c Da Db Dc) as V. cbv zeta in V. split; [exact V|]. destruct V as (Fv & _ & Nv).
  unfold fset_random. set (v := frandom_vector fused a b c) in *.
  assert (SV : stands (64/10) 0 (OSrc (SrcRv v)) (turns (SrcRv v))) by (split; [split; [exact Fv|lra]|reflexivity]).
  assert (CV : conv_limit p (KSrc SRv) k 0) by (destruct k; exact I).
  apply (C74_convert_lemma p L ch k (OSrc (SrcRv v)) _ (64/10) 0 HL HC ltac:(lra) SV CV).
Qed.
Lemma C89_random_ex : libm_ok exact_libm /\ choices6_ok stdsix /\ unit_draw (@fzero F32) /\ unit_draw (fhalf F32) /\ unit_draw (fofZ F32 1) /\
  let v := frandom_vector false (fzero : fl F32) (fhalf F32) (fofZ F32 1) in
  B2R (gx v) = - B2R (fcvt F32 fM_PI) /\ B2R (gy v) = 0 /\ B2R (gz v) = B2R (fcvt F32 fM_PI).
Proof.
  split; [apply exact_libm_ok|]. split; [apply stdsix_ok|]. split; [split; [reflexivity|cbn [fzero B2R]; lra]|]. destruct (fhalf_R F32) as [F V]. destruct (fofZ1 F32) as [F1 V1].
  split; [split; [exact F|lra]|]. split; [split; [exact F1|lra]|]. cbv zeta. cbn [frandom_vector gx gy gz]. fold (piT F32). rewrite piT_val.
  rewrite (B2R_of_SF F32 (funiform false fzero (fcvt F32 (fneg fM_PI)) (fcvt F32 fM_PI)) true 13176795 (-22)) by (vm_compute; reflexivity).
  rewrite (B2R_of_SF F32 (funiform false (fofZ F32 1) (fcvt F32 (fneg fM_PI)) (fcvt F32 fM_PI)) false 13176795 (-22)) by (vm_compute; reflexivity).
  split; [unfold F2R; cbn; lra|]. split; [|unfold F2R; cbn; lra].
  assert (Z : B2SF (funiform false (fhalf F32) (fcvt F32 (fneg fM_PI)) (fcvt F32 fM_PI)) = SpecFloat.S754_zero false) by (vm_compute; reflexivity). rewrite <- SF2R_B2SF, Z. reflexivity.
Qed.

(** ** Every rotation can come out *)
Lemma bpow_fu p : bpow radix2 (- fprec p) = fu p.
Proof. destruct p; reflexivity. Qed.
Lemma grid_near p x : Rabs x <= PI -> exists c : fl p, grid_draw c /\ Rabs (2 * piT p * B2R c - piT p - x) <= 8 * fu p.
Proof.
  intro HX. destruct (pi_consts p) as (HC & _ & _ & HP & _). pose proof (fu_pos p) as U. pose proof (fu_24 p) as U24. set (P := piT p) in *. apply Rabs_both in HC. apply Rabs_both in HX.
  set (N := (2 ^ fprec p)%Z). assert (NU : IZR N * fu p = 1) by (unfold N; destruct p; cbn; field).
  assert (N1 : (1 <= N)%Z) by (unfold N; destruct p; cbn; lia).
  assert (K : exists k, (0 <= k < N)%Z /\ Rabs (2 * P * (IZR k * fu p) - P - x) <= 8 * fu p).
  { set (y := (x + P) / (2 * P) * IZR N). assert (N0 : 1 <= IZR N) by (apply IZR_le in N1; exact N1).
    assert (XY : x = 2 * P * (y * fu p) - P) by (unfold y; replace (2 * P * ((x + P) / (2 * P) * IZR N * fu p)) with ((x + P) * (IZR N * fu p)) by (field; lra); rewrite NU; ring).
    destruct (Rlt_dec y 0) as [Y|Y].
    - exists 0%Z. split; [lia|]. apply Rabs_le. assert (y * fu p <= 0) by nra. assert (P * (y * fu p) <= 0) by nra. lra.
    - destruct (Rle_dec (IZR N) y) as [Y'|Y'].
      + exists (N - 1)%Z. split; [lia|]. rewrite minus_IZR. replace (2 * P * ((IZR N - 1) * fu p) - P - x) with (2 * P * (IZR N * fu p) - P - x - 2 * P * fu p) by ring. rewrite NU. apply Rabs_le.
        assert (YU : 1 <= y * fu p) by (rewrite <- NU; apply Rmult_le_compat_r; lra). assert (2 * P <= 2 * P * (y * fu p)) by nra. assert (2 * P * fu p <= 63/10 * fu p) by nra. assert (0 <= 2 * P * fu p) by nra. lra.
      + exists (Zfloor y). pose proof (Zfloor_lb y) as L1. pose proof (Zfloor_ub y) as L2. split.
        * split; [apply Zfloor_lub; lra|]. apply lt_IZR. lra.
        * rewrite XY. replace (2 * P * (IZR (Zfloor y) * fu p) - P - (2 * P * (y * fu p) - P)) with (2 * P * (fu p * (IZR (Zfloor y) - y))) by ring.
          assert (A1 : - fu p <= fu p * (IZR (Zfloor y) - y) <= 0) by nra. apply Rabs_le. nra. }
  destruct K as (k & Hk & E). exists (fround p (IZR k * fu p)).
  assert (FM : ffmt p (IZR k * fu p)).
  { rewrite <- bpow_fu. apply fmt_multiple; [destruct p; unfold femin; cbn; lia|]. replace (- fprec p + fprec p)%Z with 0%Z by lia. change (bpow radix2 0) with 1. rewrite bpow_fu.
    assert (0 <= IZR k) by (apply IZR_le; lia). assert (IZR k < IZR N) by (apply IZR_lt; lia). rewrite Rabs_pos_eq by (apply Rmult_le_pos; lra). rewrite <- NU. apply Rmult_lt_compat_r; lra. }
  assert (K1 : 0 <= IZR k * fu p <= 1). { assert (0 <= IZR k) by (apply IZR_le; lia). assert (IZR k <= IZR N) by (apply IZR_le; lia). split; [apply Rmult_le_pos; lra|]. rewrite <- NU. apply Rmult_le_compat_r; lra. }
  destruct (fround_R p (IZR k * fu p)) as [F V]; [apply Rabs_le; lra|]. rewrite (rnd_id p _ FM) in V. rewrite V. split; [|exact E]. split; [exact F|]. exists k. rewrite roundoff_fu. split; [exact Hk|exact V].
Qed.
Lemma grid_unit p (c : fl p) : grid_draw c -> unit_draw c.
Proof.
  intros [F (k & Hk & E)]. split; [exact F|]. rewrite E, roundoff_fu. pose proof (fu_pos p) as U.
  assert (NU : IZR (2 ^ fprec p) * fu p = 1) by (destruct p; cbn; field). assert (0 <= IZR k) by (apply IZR_le; lia). assert (IZR k <= IZR (2 ^ fprec p)) by (apply IZR_le; lia). split; [apply Rmult_le_pos; lra|]. rewrite <- NU. apply Rmult_le_compat_r; lra.
Qed.
(** C89: every rotation can come out of setRandom(): it is within 32 roundings, plus the
    error of the conversion, of the rotation obtained from some three draws. *)
Lemma C89_coverage_lemma : forall (p : prim) (r : M33), SO3 r ->
  exists a b c : fl p, grid_draw a /\ grid_draw b /\ grid_draw c /\
  forall (L : libm) (ch : choices6) (k : okind) (fused : bool), libm_ok L -> choices6_ok ch ->
  exists r', stands (64/10 + 160 * roundoff p) (conv_defect (KSrc SRv) k 0) (fset_random L ch k fused a b c) r' /\
    close (conv_error p (KSrc SRv) k 0 + 32 * roundoff p) r' r.
Proof.
  intros p r S. destruct (SO3_has_vec r S) as (v & N & E).
  assert (CN : forall x, Rabs x <= vnorm v -> Rabs x <= PI) by (intros; lra).
  destruct (grid_near p (Linalg.vx v)) as (a & Ga & Ea); [apply CN, vcomp_le|]. destruct (grid_near p (Linalg.vy v)) as (b & Gb & Eb); [apply CN, vcomp_le|]. destruct (grid_near p (Linalg.vz v)) as (c & Gc & Ec); [apply CN, vcomp_le|].
  exists a, b, c. repeat (split; [assumption|]). intros L ch k fused HL HC.
  pose proof (grid_unit p a Ga) as Da. pose proof (grid_unit p b Gb) as Db. pose proof (grid_unit p c Gc) as Dc.
  destruct (C89_random_lemma p L ch k fused a b c HL HC Da Db Dc) as (_ & _ & r' & SR & CR). exists r'. split; [exact SR|].
  eapply close_trans; [exact CR|]. rewrite <- E. eapply close_mono; [|apply vec_rot_lipschitz]. rewrite roundoff_fu.
  destruct (uniform_ok p fused a (proj1 Da) (proj2 Da)) as (_ & _ & A3). destruct (uniform_ok p fused b (proj1 Db) (proj2 Db)) as (_ & _ & B3). destruct (uniform_ok p fused c (proj1 Dc) (proj2 Dc)) as (_ & _ & C3).
  pose proof (fu_pos p) as U. eapply Rle_trans; [apply (norm3 _ (18 * fu p)); [lra| | |]|lra]; unfold frandom_vector, vval, vsub; cbn [gx gy gz Linalg.vx Linalg.vy Linalg.vz];
    apply Rabs_both in A3, B3, C3, Ea, Eb, Ec; apply Rabs_le; lra.
Qed.
Lemma C89_coverage_ex : SO3 (vec_rot (mkV3 3 0 0)) /\ grid_draw (fhalf F32).
Proof.
  split; [apply vec_rot_SO3|]. destruct (fhalf_R F32) as [F V]. split; [exact F|]. exists (2 ^ 23)%Z. split; [cbn; lia|]. rewrite V, roundoff_fu, fu_val. zlit. change (2 ^ 23)%Z with 8388608%Z. lra.
Qed.
