(** Claims about the Jacobian of the exponential map in floating-point arithmetic (C85). *)
From Coq Require Import ZArith Reals Lra Psatz Bool List Lia Permutation.
From Flocq Require Import IEEE754.BinarySingleNaN Core.Core.
From Verif Require Import Linalg Spec SpecFacts SpecDiff SpecClose ModelCommon ModelEigen CommonFacts CloseFacts ModelRotation RVFacts MetricFacts DerivFacts DiffFacts DiffFacts2 JacFacts FloatModel FloatFacts FloatModulo FloatWrap FloatModel2 SpecFloatQ FloatQFacts FloatQProd FloatQRot FloatCast FloatModel3 SpecLibm FloatBuild FloatBuild2 FloatBuild3 FloatBuild4 FloatModel4 FloatExt FloatModel12 FloatDiff FloatDiff2 FloatDiff3 FloatModel14 FloatJac FloatJac2 FloatJac3 Claims16 Claims28 Claims31.
Import ListNotations.
Local Open Scope R_scope.

(** C85: for a rotation vector that moves with the rate d, the Jacobian times d is the
    global angular velocity of the rotation: up to n^2/5 plus seven roundings for a
    vector of length n around the threshold 1e-4 or below it, and up to
    7 roundings (of the precision of the cosine and sine) divided by n plus 112
    roundings from there on. *)
Lemma C85_jacobian_lemma : forall (p w : prim) (L : libm) (o : jac_choices) (v : R -> V3) (t : R) (d : V3) (x : FV p),
  libm_ok L -> jac_ok o -> (w = p \/ w = F64) -> Vderiv v t d -> vfinite x -> vval x = v t -> vnorm (v t) <= 2 ^ 30 ->
  let J := fjacobian L w o x in let n := vnorm (v t) in
  mfinite J /\
  exists omega, has_global_velocity (fun s => meaning (RotVec (v s))) t omega /\
    ((n <= 10001 / 10 ^ 8 /\ vdist (mvmul (mval J) d) omega <= (n * n / 5 + 7 * roundoff p) * vnorm d) \/
     (9999 / 10 ^ 8 <= n /\ vdist (mvmul (mval J) d) omega <= (7 * roundoff w / n + 112 * roundoff p) * vnorm d)).
Proof.
  intros p w L o v t d x HL HO HW Hd Fx Vx HB. cbv zeta.
  assert (HB' : vnorm (vval x) <= bpow radix2 30) by (rewrite Vx; change (bpow radix2 30) with 1073741824; lra).
  destruct (fjacobian_ok p w L o x HW HL HO Fx HB') as [F C]. split; [exact F|]. exists (mvmul (true_jac (v t)) d). split; [apply (true_jac_velocity v t d Hd)|].
  rewrite !roundoff_fu, <- Vx. destruct C as [[N C]|[N C]]; [left|right]; (split; [exact N|apply C]).
Qed.
Definition two9 : orders9 := mkOrd9 unfused unfused unfused.
Definition stdjac (into : bool) : jac_choices := mkJC leftright3 into std9 two9 std9.
Lemma stdjac_ok b : jac_ok (stdjac b).
Proof. repeat split; apply Permutation_refl. Qed.
Lemma C85_jacobian_ex : libm_ok exact_libm /\ jac_ok (stdjac true) /\
  let v := fun s => mkV3 1 (2 * s) (s * s + 1) in
  Vderiv v 1 (mkV3 0 2 2) /\ vfinite (fvz 1 2 2) /\ vval (fvz 1 2 2) = v 1 /\ vnorm (v 1) <= 2 ^ 30.
Proof.
  split; [apply exact_libm_ok|]. split; [apply stdjac_ok|]. cbv zeta. split; [unfold Vderiv; cbn; repeat split; dl_solve; ring|].
  destruct (fvz_val 1 2 2 ltac:(vm_compute; discriminate) ltac:(vm_compute; discriminate) ltac:(vm_compute; discriminate)) as [F V]. split; [exact F|]. split; [rewrite V; f_equal; ring|].
  apply Rle_trans with (sqrt (3 * 3)); [apply sqrt_le_1_alt; unfold vnorm2, vdot; cbn; lra|rewrite sqrt_square; lra].
Qed.

(** C85: the worst cases: 3e-9 in double; in float 8e-6 if the cosine and sine are
    evaluated in double, but 5e-3 if they are evaluated in float. *)
Lemma C85_worst_lemma : forall (p w : prim) (L : libm) (o : jac_choices) (v : R -> V3) (t : R) (d : V3) (x : FV p),
  libm_ok L -> jac_ok o -> (w = p \/ w = F64) -> Vderiv v t d -> vfinite x -> vval x = v t -> vnorm (v t) <= 2 ^ 30 ->
  exists omega, has_global_velocity (fun s => meaning (RotVec (v s))) t omega /\
    vdist (mvmul (mval (fjacobian L w o x)) d) omega <= match p, w with F64, _ => 3 / 10 ^ 9 | F32, F64 => 8 / 10 ^ 6 | F32, F32 => 5 / 10 ^ 3 end * vnorm d.
Proof.
  intros p w L o v t d x HL HO HW Hd Fx Vx HB. destruct (C85_jacobian_lemma p w L o v t d x HL HO HW Hd Fx Vx HB) as (_ & om & Hv & C). exists om. split; [exact Hv|].
  assert (D : 0 <= vnorm d) by apply vn_nonneg. set (n := vnorm (v t)) in *. assert (n0 : 0 <= n) by apply vn_nonneg.
  assert (R32 : roundoff F32 = / 16777216) by (cbn [roundoff]; lra). assert (R64 : 0 < roundoff F64 <= / 10 ^ 15) by (cbn [roundoff]; lra).
  assert (W : match p, w with F64, F32 => False | _, _ => True end) by (destruct HW as [-> | ->]; destruct p; exact I).
  destruct C as [[N C]|[N C]]; (eapply Rle_trans; [exact C|]); apply Rmult_le_compat_r; try exact D.
  - assert (NN : n * n <= 10001 / 10 ^ 8 * (10001 / 10 ^ 8)) by (apply Rmult_le_compat; lra). destruct p, w; try contradiction; rewrite ?R32; lra.
  - assert (Q : forall r, 0 <= r -> 7 * r / n <= 7 * r * (10 ^ 8 / 9999)).
    { intros r Hr. apply Rmult_le_compat_l; [lra|]. replace (10 ^ 8 / 9999) with (/ (9999 / 10 ^ 8)) by field. apply Rinv_le; [lra|exact N]. }
    destruct p, w; try contradiction; rewrite ?R32 in *; (eapply Rle_trans; [apply Rplus_le_compat_r; apply Q; lra|]); lra.
Qed.

(** rounding to the nearest near a power of two *)
Lemma near_bpow p e x : ffmt p (bpow radix2 e) -> bpow radix2 e - / 2 * bpow radix2 (ffexp p e) < x <= bpow radix2 e -> rnd p x = bpow radix2 e.
Proof.
  intros F [A B]. apply Rle_antisym.
  - apply rnd_le_fmt; [exact F|lra].
  - apply round_N_ge_midp; [apply fexp_correct; destruct p; reflexivity|exact F|]. rewrite pred_bpow. lra.
Qed.
Definition em13 : fl F32 := binary_normalize (fprec F32) (femax F32) _ _ mode_NE 1 (-13) false.
Lemma em13_val : is_finite em13 = true /\ B2R em13 = bpow radix2 (-13).
Proof. split; [reflexivity|]. vm_compute. lra. Qed.
Definition v13 : FV F32 := mkFV em13 fzero fzero.
Lemma norm13 : is_finite (fvnorm leftright3 v13) = true /\ B2R (fvnorm leftright3 v13) = bpow radix2 (-13).
Proof. split; [vm_compute; reflexivity|]. vm_compute. lra. Qed.
Lemma v13_val : vfinite v13 /\ vval v13 = mkV3 (bpow radix2 (-13)) 0 0 /\ vnorm (vval v13) = bpow radix2 (-13).
Proof.
  destruct em13_val as [F V]. split; [repeat split|]. assert (E : vval v13 = mkV3 (bpow radix2 (-13)) 0 0) by (unfold vval, v13; cbn [gx gy gz]; rewrite V; reflexivity).
  split; [exact E|]. rewrite E. unfold vnorm, vnorm2, vdot. cbn [vx vy vz]. rewrite !Rmult_0_l, !Rplus_0_r. apply sqrt_square. apply bpow_ge_0.
Qed.
Lemma lost_factors : let n := fvnorm leftright3 v13 in
  (is_finite (s1f F32 F32 exact_libm n) = true /\ B2R (s1f F32 F32 exact_libm n) = 0) /\ (is_finite (s2f F32 F32 exact_libm n) = true /\ B2R (s2f F32 F32 exact_libm n) = 0).
Proof.
  cbv zeta. destruct norm13 as [Fn Vn]. set (n := fvnorm leftright3 v13) in *. clearbody n.
  assert (B13 : bpow radix2 (-13) = / 8192) by reflexivity.
  pose proof (Logic.conj (refl_equal true) Vn) as _.
  destruct (fofZ1 F32) as [F1 V1].
  assert (C : is_finite (lcos exact_libm F32 n) = true /\ B2R (lcos exact_libm F32 n) = 1).
  { cbn [lcos exact_libm]. destruct (fround_R F32 (cos (B2R n))) as [Fc Ec]; [pose proof (cos_abs1 (B2R n)); lra|]. split; [exact Fc|]. rewrite Ec, Vn.
    apply (near_bpow F32 0); [apply fmt_bpow; vm_compute; discriminate|]. change (ffexp F32 0) with (-24)%Z. change (bpow radix2 0) with 1. change (bpow radix2 (-24)) with (/ 16777216).
    pose proof (one_minus_cos_bound (bpow radix2 (-13))) as OC. rewrite B13 in *. lra. }
  assert (S : is_finite (lsin exact_libm F32 n) = true /\ B2R (lsin exact_libm F32 n) = bpow radix2 (-13)).
  { cbn [lsin exact_libm]. destruct (fround_R F32 (sin (B2R n))) as [Fc Ec]; [pose proof (sin_abs1 (B2R n)); lra|]. split; [exact Fc|]. rewrite Ec, Vn.
    apply near_bpow; [apply fmt_bpow; vm_compute; discriminate|]. change (ffexp F32 (-13)) with (-37)%Z. change (bpow radix2 (-37)) with (/ 137438953472). rewrite B13.
    pose proof PI2_3_2 as P1. assert (P : 0 <= / 8192 <= PI) by lra. pose proof (sin_lo (/ 8192) P) as LO. pose proof (sin_le_x (/ 8192) ltac:(lra)) as HI. lra. }
  destruct C as [Fc Vc]. destruct S as [Fs Vs]. unfold s1f, s2f. rewrite !fcvt_id.
  assert (N2 : B2R (fmul n n) = bpow radix2 (-26) /\ is_finite (fmul n n) = true).
  { destruct (fmul_R F32 n n Fn Fn) as [R F]; rewrite Vn in *; replace (bpow radix2 (-13) * bpow radix2 (-13)) with (bpow radix2 (-26)) in * by (rewrite <- bpow_plus; reflexivity).
    - rewrite Rabs_pos_eq by apply bpow_ge_0. apply bpow_le. vm_compute. discriminate.
    - split; [|exact F]. rewrite R. apply rnd_id, fmt_bpow. vm_compute. discriminate. }
  destruct N2 as [V2 F2].
  assert (N3 : B2R (fmul (fmul n n) n) = bpow radix2 (-39)).
  { destruct (fmul_R F32 (fmul n n) n F2 Fn) as [R F]; rewrite V2, Vn in *; replace (bpow radix2 (-26) * bpow radix2 (-13)) with (bpow radix2 (-39)) in * by (rewrite <- bpow_plus; reflexivity).
    - rewrite Rabs_pos_eq by apply bpow_ge_0. apply bpow_le. vm_compute. discriminate.
    - rewrite R. apply rnd_id, fmt_bpow. vm_compute. discriminate. }
  assert (Z0 : forall x, Rabs (x - x) <= fbig F32) by (intro x; replace (x - x) with 0 by ring; rewrite Rabs_R0; apply bpow_ge_0).
  assert (Q : forall a b : fl F32, is_finite a = true -> B2R a = 0 -> B2R b <> 0 -> is_finite (fdiv a b) = true /\ B2R (fdiv a b) = 0).
  { intros a b Fa Va Vb. destruct (fdiv_R F32 a b Fa Vb) as [R F]; rewrite Va in *; replace (0 / B2R b) with 0 in * by (unfold Rdiv; ring).
    - rewrite Rabs_R0. apply bpow_ge_0.
    - split; [exact F|]. rewrite R. apply rnd_0. }
  split.
  - destruct (fsub_R F32 (fofZ F32 1) (lcos exact_libm F32 n) F1 Fc) as [R F]; rewrite V1, Vc in *; [apply Z0|]. replace (1 - 1) with 0 in R by ring. rewrite rnd_0 in R.
    apply Q; [exact F|exact R|]. rewrite V2. apply Rgt_not_eq, bpow_gt_0.
  - destruct (fsub_R F32 n (lsin exact_libm F32 n) Fn Fs) as [R F]; rewrite Vn, Vs in *; [apply Z0|]. replace (bpow radix2 (-13) - bpow radix2 (-13)) with 0 in R by ring. rewrite rnd_0 in R.
    apply Q; [exact F|exact R|]. rewrite N3. apply Rgt_not_eq, bpow_gt_0.
Qed.

(** C85: the cancellation is real: with correctly rounded float functions, just above
    the threshold (a rotation vector of length 2^-13, or 1.2e-4) both factors vanish,
    and the result is 5e-5 off; half of the length is the whole second term. Below
    the threshold the error is at most 5e-7. *)
Lemma C85_cancellation_lemma : forall into : bool, exists (v : R -> V3) (t : R) (d : V3) (x : FV F32) (omega : V3),
  libm_ok exact_libm /\ jac_ok (stdjac into) /\ Vderiv v t d /\ vfinite x /\ vval x = v t /\ vnorm (v t) = / 2 ^ 13 /\ vnorm d = 1 /\
  has_global_velocity (fun s => meaning (RotVec (v s))) t omega /\
  vdist (mvmul (mval (fjacobian exact_libm F32 (stdjac into) x)) d) omega >= 5 / 10 ^ 5.
Proof.
  intro into. destruct v13_val as (Fv & Vv & Nv). set (N := bpow radix2 (-13)) in *. assert (EN : N = / 8192) by reflexivity.
  exists (fun s => mkV3 N s 0), 0, (mkV3 0 1 0), v13, (mvmul (true_jac (mkV3 N 0 0)) (mkV3 0 1 0)).
  split; [apply exact_libm_ok|]. split; [apply stdjac_ok|]. assert (DV : Vderiv (fun s => mkV3 N s 0) 0 (mkV3 0 1 0)) by (unfold Vderiv; cbn; repeat split; dl_solve; ring).
  split; [exact DV|]. split; [exact Fv|]. split; [exact Vv|]. split; [rewrite <- Vv, Nv, EN; lra|].
  split; [unfold vnorm, vnorm2, vdot; cbn [vx vy vz]; replace (0 * 0 + 1 * 1 + 0 * 0) with 1 by ring; apply sqrt_1|].
  split; [apply (true_jac_velocity (fun s => mkV3 N s 0) 0 _ DV)|].
  set (o := stdjac into). pose proof (stdjac_ok into) as HO. fold o in HO. destruct HO as (On & Om & O2 & O3).
  destruct (skew_rows F32 v13 Fv) as (Fs & Vs & RS & CS). rewrite Nv in RS, CS.
  assert (T : flt (fcvt F64 (fvnorm (jc_norm o) v13)) (flit F64 1 10000) = false).
  { destruct norm13 as [Fn Vn]. change (jc_norm o) with leftright3. destruct ten_thousandth as [Ft Et]. rewrite flt_R; [|rewrite widen_fin; exact Fn|exact Ft]. rewrite widen_val, Vn. apply Rabs_both in Et.
    apply Rlt_bool_false. fold N. rewrite EN. lra. }
  unfold fjacobian. rewrite T. change (jc_norm o) with leftright3.
  destruct lost_factors as [[F1 V1] [F2 V2]]. set (n := fvnorm leftright3 v13) in *.
  change (fcvt F32 (fdiv (fsub (fofZ F32 1) (lcos exact_libm F32 (fcvt F32 n))) (fcvt F32 (fmul n n)))) with (s1f F32 F32 exact_libm n).
  change (fcvt F32 (fdiv (fsub (fcvt F32 n) (lsin exact_libm F32 (fcvt F32 n))) (fcvt F32 (fmul (fmul n n) n)))) with (s2f F32 F32 exact_libm n).
  set (s1 := s1f F32 F32 exact_libm n) in *. set (s2 := s2f F32 F32 exact_libm n) in *. clearbody s1 s2.
  assert (SE : forall z, every (fun y _ => is_finite y = true /\ Rabs (B2R s1 * B2R y) <= 101/100) (fskew v13) z).
  { intro z. apply (skew_entries F32 v13 Fv (fun x => Rabs (B2R s1 * x) <= 101/100)); [|intros x _]; rewrite V1, Rmult_0_l, Rabs_R0; lra. }
  assert (S2 : Rabs (B2R s2) <= (2 + / 100) * (8192 * 8192)) by (rewrite V2, Rabs_R0; lra).
  assert (N0 : 0 < N <= bpow radix2 30) by (split; [apply bpow_gt_0|apply bpow_le; lia]). assert (K0 : 0 < 8192 <= 10002) by lra. assert (NK : N * 8192 = 1) by (rewrite EN; lra).
  assert (Z : every (approximates (204/10 * fu F32)) (if jc_into o
        then fentries (jc_three o) [fofZ F32 1; s1; fofZ F32 1] [fident F32; fskew v13; fmm (jc_mm o) (fscale_m s2 (fskew v13)) (fskew v13)]
        else fentries (jc_three o) [fofZ F32 1; s1; s2] [fident F32; fskew v13; fmm (jc_mm o) (fskew v13) (fskew v13)])
        (madd (madd mid (mscale (B2R s1) (mval (fskew v13)))) (mscale (B2R s2) (mmul (mval (fskew v13)) (mval (fskew v13)))))).
  { destruct (jc_into o).
    - apply final3; [exact O3|exact F1|apply fofZ1|apply SE|]. apply (inside_all F32 s2 N 8192 F2 NK); assumption.
    - apply final3; [exact O3|exact F1|exact F2|apply SE|]. apply (outside_all F32 s2 N 8192 NK); assumption. }
  destruct (every_close F32 _ _ _ Z) as [_ C]. rewrite V1, V2, Vs in C.
  set (J := if jc_into o then _ else _) in *. clearbody J. specialize (C (mkV3 0 1 0)).
  rewrite jac_apply in C.
  assert (D1 : vnorm (mkV3 0 1 0) = 1) by (unfold vnorm, vnorm2, vdot; cbn [vx vy vz]; replace (0 * 0 + 1 * 1 + 0 * 0) with 1 by ring; apply sqrt_1). rewrite D1, Rmult_1_r in C.
  rewrite <- Vv. unfold true_jac. rewrite Nv. destruct (Req_EM_T N 0) as [E|_]; [rewrite EN in E; lra|].
  unfold exact_jac. cbv zeta. rewrite Nv, jac_apply, Vv. rewrite Vv in C.
  set (u := mvmul (mval J) (mkV3 0 1 0)) in *. clearbody u. destruct (small_coeffs N) as [A _]; [apply N0|rewrite EN; lra|].
  set (f := (1 - cos N) / (N * N)) in *. set (g := (N - sin N) / (N * N * N)) in *. clearbody f g.
  assert (fb : 499/1000 <= f). { apply Rabs_both in A. assert (N * N / 24 <= / 1000) by (rewrite EN; lra). lra. }
  rewrite EN in C |- *. clear - C fb. pose proof (fu_24 F32) as U. destruct u as [a b c].
  unfold vdist. match goal with |- vnorm ?x >= _ => destruct (vcomp_le x) as (_ & _ & X) end. match type of C with vnorm ?x <= _ => destruct (vcomp_le x) as (_ & _ & Y) end.
  apply Rle_ge. eapply Rle_trans; [|exact X]. apply (fun H => Rle_trans _ _ _ H C) in Y. apply Rabs_both in Y. clear X C.
  unfold vsub, vadd, vscale, vcross in *. cbn [vx vy vz] in *. rewrite Rabs_left1; lra.
Qed.
