(** * FloatJac3: getJacobianOfExponentialMap in floating point. *)
From Coq Require Import ZArith Reals Lra Psatz Bool List Lia.
From Flocq Require Import IEEE754.BinarySingleNaN Core.Core.
From Verif Require Import Linalg Spec SpecFacts SpecDiff SpecClose ModelCommon ModelEigen CommonFacts CloseFacts ModelRotation RVFacts ModelDiff JacFacts
  FloatModel FloatFacts FloatWrap FloatModel2 SpecFloatQ FloatQFacts FloatQProd FloatQHist FloatQRot FloatMHist FloatCast FloatModel3 SpecLibm FloatBuild FloatBuild2 FloatBuild3 FloatBuild4 FloatModel4 FloatExt FloatModel12 FloatDiff FloatDiff2 FloatDiff3 FloatModel14 FloatJac FloatJac2.
Import ListNotations.
Local Open Scope R_scope.

Lemma jac_apply v a b d : mvmul (madd (madd mid (mscale a (mcross v))) (mscale b (mmul (mcross v) (mcross v)))) d = vadd (vadd d (vscale a (vcross v d))) (vscale b (vcross v (vcross v d))).
Proof. lin. Qed.
Lemma jac_apply2 v a d : mvmul (madd mid (mscale a (mcross v))) d = vadd d (vscale a (vcross v d)).
Proof. lin. Qed.
Lemma jac_diff d x y a b a' b' : vsub (vadd (vadd d (vscale a x)) (vscale b y)) (vadd (vadd d (vscale a' x)) (vscale b' y)) = vadd (vscale (a - a') x) (vscale (b - b') y).
Proof. lin. Qed.
Lemma jac_diff2 d x y a a' b' : vsub (vadd d (vscale a x)) (vadd (vadd d (vscale a' x)) (vscale b' y)) = vadd (vscale (a - a') x) (vscale (- b') y).
Proof. lin. Qed.
Lemma two_terms v d a b ea eb : Rabs a <= ea -> Rabs b <= eb ->
  vnorm (vadd (vscale a (vcross v d)) (vscale b (vcross v (vcross v d)))) <= (ea * vnorm v + eb * (vnorm v * vnorm v)) * vnorm d.
Proof.
  intros A B. eapply Rle_trans; [apply JacFacts.vnorm_triang|]. rewrite !vnorm_vscale.
  pose proof (JacFacts.vnorm_cross_le v d) as C1. pose proof (JacFacts.vnorm_cross_le v (vcross v d)) as C2. pose proof (vn_nonneg v) as V. pose proof (vn_nonneg d) as D.
  pose proof (Rabs_pos a). pose proof (Rabs_pos b).
  assert (C3 : vnorm (vcross v (vcross v d)) <= vnorm v * (vnorm v * vnorm d)) by (eapply Rle_trans; [exact C2|]; apply Rmult_le_compat_l; assumption).
  assert (Rabs a * vnorm (vcross v d) <= ea * (vnorm v * vnorm d)) by (apply Rmult_le_compat; try assumption; apply vn_nonneg).
  assert (Rabs b * vnorm (vcross v (vcross v d)) <= eb * (vnorm v * (vnorm v * vnorm d))) by (apply Rmult_le_compat; try assumption; apply vn_nonneg).
  lra.
Qed.
Lemma small_jac v : 0 < vnorm v <= / 1000 -> close (vnorm v * vnorm v / 5) (madd mid (mscale (/ 2) (mcross v))) (exact_jac v).
Proof.
  intros [P Q] d. destruct (small_coeffs (vnorm v) P ltac:(lra)) as [A B]. unfold exact_jac. cbv zeta. rewrite jac_apply, jac_apply2, jac_diff2.
  replace (1 / 2) with (/ 2) in A by lra.
  eapply Rle_trans; [apply (two_terms v d _ _ (vnorm v * vnorm v / 24) (1/6)); [exact A|rewrite Rabs_Ropp; exact B]|].
  apply Rmult_le_compat_r; [apply vn_nonneg|]. set (n := vnorm v) in *.
  assert (n * n * n <= n * n * / 1000) by (apply Rmult_le_compat_l; [apply Rmult_le_pos; lra|lra]). assert (0 <= n * n) by (apply Rmult_le_pos; lra). lra.
Qed.
Lemma big_jac v a b ea eb : Rabs (a - (1 - cos (vnorm v)) / (vnorm v * vnorm v)) <= ea -> Rabs (b - (vnorm v - sin (vnorm v)) / (vnorm v * vnorm v * vnorm v)) <= eb ->
  close (ea * vnorm v + eb * (vnorm v * vnorm v)) (madd (madd mid (mscale a (mcross v))) (mscale b (mmul (mcross v) (mcross v)))) (exact_jac v).
Proof.
  intros A B d. unfold exact_jac. cbv zeta. rewrite !jac_apply, jac_diff. apply two_terms; assumption.
Qed.

(** 1.0e-4 *)
Lemma ten_thousandth : is_finite (flit F64 1 10000) = true /\ Rabs (B2R (flit F64 1 10000) - / 10000) <= / 10 ^ 12.
Proof.
  assert (F : is_finite (fofZ F64 10000) = true /\ B2R (fofZ F64 10000) = 10000) by (split; [reflexivity|vm_compute; lra]). destruct F as [F V]. destruct (fofZ1 F64) as [F1 V1].
  unfold flit. rewrite fcvt_id. destruct (fdiv_R F64 (fofZ F64 1) (fofZ F64 10000) F1) as [R F2]; rewrite ?V, ?V1; [lra| |].
  { rewrite Rabs_pos_eq by lra. pose proof (four_fbig F64). lra. }
  split; [exact F2|]. rewrite R, V, V1. replace (1 / 10000) with (/ 10000) by lra. pose proof (rnd_err_le F64 (/ 10000)) as H. rewrite (Rabs_pos_eq (/ 10000)) in H by lra.
  pose proof (fu_24 F64) as U. pose proof (eta5_u F64) as E. assert (U' : fu F64 <= / 10 ^ 15) by (rewrite fu_val; apply Rinv_le; [apply pow_lt; lra|rewrite pow_IZR; apply IZR_le; vm_compute; discriminate]).
  pose proof (fu_pos F64). eapply Rle_trans; [exact H|]. lra.
Qed.

Section Jac.
Variables (p w : prim) (L : libm) (o : jac_choices) (v : FV p).
Hypothesis HW : wide p w.
Hypothesis HL : libm_ok L.
Hypothesis HO : jac_ok o.
Hypothesis Fv : vfinite v.
Hypothesis HB : vnorm (vval v) <= bpow radix2 30.
Let N := vnorm (vval v).
Let n := fvnorm (jc_norm o) v.
Lemma skew_rows : mfinite (fskew v) /\ mval (fskew v) = mcross (vval v) /\
  (vnorm (vrow0 (mval (fskew v))) <= N /\ vnorm (vrow1 (mval (fskew v))) <= N /\ vnorm (vrow2 (mval (fskew v))) <= N) /\
  (vnorm (vrow0 (mtrans (mval (fskew v)))) <= N /\ vnorm (vrow1 (mtrans (mval (fskew v)))) <= N /\ vnorm (vrow2 (mtrans (mval (fskew v)))) <= N).
Proof. destruct (fskew_val p v Fv) as [F V]. rewrite V. split; [exact F|]. split; [reflexivity|]. split; [apply mcross_rows|apply mcross_cols]. Qed.
Lemma skew_entries (Q : R -> Prop) z : Q 0 -> (forall x, Rabs x <= N -> Q x) -> every (fun y _ => is_finite y = true /\ Q (B2R y)) (fskew v) z.
Proof.
  intros Q0 H. destruct Fv as (A & B & C). destruct (vcomp_le (vval v)) as (X & Y & Z). fold N in X, Y, Z. unfold vval in X, Y, Z. cbn [vx vy vz] in X, Y, Z.
  unfold every, fskew. cbn [r0 r1 r2 gx gy gz].
  assert (G : forall x : fl p, is_finite x = true -> Rabs (B2R x) <= N -> is_finite x = true /\ Q (B2R x)) by (intros x Hf Hx; split; [exact Hf|apply H; exact Hx]).
  assert (GN : forall x : fl p, is_finite x = true -> Rabs (B2R x) <= N -> is_finite (fneg x) = true /\ Q (B2R (fneg x))).
  { intros x Hf Hx. split; [rewrite fneg_fin; exact Hf|]. rewrite fneg_val. apply H. rewrite Rabs_Ropp. exact Hx. }
  assert (GZ : is_finite (@fzero p) = true /\ Q (B2R (@fzero p))) by (split; [reflexivity|exact Q0]).
  refine (Logic.conj (Logic.conj _ (Logic.conj _ _)) (Logic.conj (Logic.conj _ (Logic.conj _ _)) (Logic.conj _ (Logic.conj _ _))));
    first [exact GZ|apply G; assumption|apply GN; assumption].
Qed.
Lemma norm_cases : is_finite n = true /\
  ((flt (fcvt F64 n) (flit F64 1 10000) = true /\ N <= 10001 / 10 ^ 8) \/
   (flt (fcvt F64 n) (flit F64 1 10000) = false /\ 9999 / 10 ^ 8 <= N /\ Rabs (B2R n - N) <= (3 + / 20) * fu p * N)).
Proof.
  destruct HO as (On & _). destruct ten_thousandth as [Ft Et]. apply Rabs_both in Et. pose proof (fu_pos p) as U. pose proof (fu_24 p) as V. assert (N0 : 0 <= N) by apply vn_nonneg.
  destruct (Rle_or_lt N (bpow radix2 (-56))) as [S|S].
  - destruct (fvnorm_small2 p (jc_norm o) v On Fv S) as [Fn Hn]. fold n in Fn, Hn. split; [exact Fn|]. left.
    assert (B : bpow radix2 (-54) <= bpow radix2 (-20)) by (apply bpow_le; lia). change (bpow radix2 (-20)) with (/ 1048576) in B.
    assert (B' : bpow radix2 (-56) <= bpow radix2 (-54)) by (apply bpow_le; lia).
    split; [|lra]. rewrite flt_R; [|rewrite widen_fin; exact Fn|exact Ft]. rewrite widen_val. apply Rlt_bool_true. lra.
  - destruct (fvnorm_big2 p (jc_norm o) v On Fv) as [Fn Hn]. { fold N. split; [lra|]. eapply Rle_trans; [exact HB|]. apply bpow_le. lia. }
    fold n N in Fn, Hn. split; [exact Fn|]. rewrite flt_R; [|rewrite widen_fin; exact Fn|exact Ft]. rewrite widen_val. apply Rabs_both in Hn as Hn'.
    assert (UN : fu p * N <= / 16777216 * N) by (apply Rmult_le_compat_r; lra). assert (UN0 : 0 <= fu p * N) by (apply Rmult_le_pos; lra).
    case Rlt_bool_spec; intro C; [left|right]; (split; [reflexivity|]); [lra|split; [lra|exact Hn]].
Qed.

Definition true_jac (x : V3) : M33 := if Req_EM_T (vnorm x) 0 then mid else exact_jac x.
Lemma fjacobian_ok : mfinite (fjacobian L w o v) /\
  ((N <= 10001 / 10 ^ 8 /\ close (N * N / 5 + 7 * fu p) (mval (fjacobian L w o v)) (true_jac (vval v))) \/
   (9999 / 10 ^ 8 <= N /\ close (7 * fu w / N + 112 * fu p) (mval (fjacobian L w o v)) (true_jac (vval v)))).
Proof.
  pose proof HO as (On & Om & O2 & O3). pose proof (fu_pos p) as U. pose proof (fu_24 p) as V. assert (N0 : 0 <= N) by apply vn_nonneg.
  destruct skew_rows as (Fs & Vs & RS & CS). destruct norm_cases as [Fn [[T Hs]|(T & Hb & En)]]; unfold fjacobian; fold n; rewrite T.
  - assert (SE : every (fun y _ => is_finite y = true /\ Rabs (B2R y) <= / 1000) (fskew v) mid).
    { apply (skew_entries (fun x => Rabs x <= / 1000)); [rewrite Rabs_R0; lra|intros x Hx; lra]. }
    destruct (every_close p _ _ _ (final2 p (jc_two o) (fskew v) O2 SE)) as [F C].
    split; [exact F|]. left. split; [exact Hs|]. rewrite Vs in C. unfold true_jac. fold N. destruct (Req_EM_T N 0) as [Z|Z].
    + apply close_mono with (49/16 * ((2 + / 100) * fu p)); [rewrite Z; lra|].
      assert (Zv : vval v = vzero) by (apply vnorm_zero; exact Z). rewrite Zv in C.
      replace (madd mid (mscale (/ 2) (mcross vzero))) with mid in C by (clear; lin). exact C.
    + apply close_mono with (49/16 * ((2 + / 100) * fu p) + N * N / 5); [lra|]. eapply close_trans; [exact C|]. apply small_jac. fold N. lra.
  - assert (N1 : / 10002 <= N) by lra. destruct (NK N N1 HB) as (P & K0 & KN & _). set (K := / N) in *.
    destruct (s1_ok p w L HW HL n N Fn En N1 HB) as [[F1 A1] B1]. destruct (s2_ok p w L HW HL n N Fn En N1 HB) as [[F2 A2] B2]. fold K in A1, B1, A2, B2.
    destruct (vK p w HW N N1 HB) as [VK UK]. fold K in VK, UK.
    change (fcvt p (fdiv (fsub (fofZ w 1) (lcos L w (fcvt w n))) (fcvt w (fmul n n)))) with (s1f p w L n) in *.
    change (fcvt p (fdiv (fsub (fcvt w n) (lsin L w (fcvt w n))) (fcvt w (fmul (fmul n n) n)))) with (s2f p w L n) in *.
    set (s1 := s1f p w L n) in *. set (s2 := s2f p w L n) in *. set (f := (1 - cos N) / (N * N)) in *. set (g := (N - sin N) / (N * N * N)) in *.
    assert (KK : 0 < K * K) by (apply Rmult_lt_0_compat; lra).
    set (e1 := 43/10 * (fu w * K) + 127/10 * fu p) in *. set (e2 := 23/10 * (fu w * K) + 361/10 * fu p) in *.
    assert (e1b : 0 <= e1 <= / 100) by (unfold e1; lra). assert (e2b : 0 <= e2 <= / 100) by (unfold e2; lra).
    assert (S1 : Rabs (B2R s1) <= (101/100) * K).
    { replace (B2R s1) with ((B2R s1 - f) + f) by ring. eapply Rle_trans; [apply Rabs_triang|]. rewrite (Rabs_pos_eq f) by lra. assert (K * e1 <= K * / 100) by (apply Rmult_le_compat_l; lra). lra. }
    assert (S2 : Rabs (B2R s2) <= (2 + / 100) * (K * K)).
    { replace (B2R s2) with ((B2R s2 - g) + g) by ring. eapply Rle_trans; [apply Rabs_triang|]. rewrite (Rabs_pos_eq g) by lra. assert (K * K * e2 <= K * K * / 100) by (apply Rmult_le_compat_l; lra). lra. }
    assert (SE : forall z, every (fun y _ => is_finite y = true /\ Rabs (B2R s1 * B2R y) <= 101/100) (fskew v) z).
    { intro z. apply (skew_entries (fun x => Rabs (B2R s1 * x) <= 101/100)); [rewrite Rmult_0_r, Rabs_R0; lra|]. intros x Hx. rewrite Rabs_mult.
      apply Rle_trans with (101/100 * K * N); [apply Rmult_le_compat; try apply Rabs_pos; assumption|]. replace (101/100 * K * N) with (101/100 * (N * K)) by ring. rewrite KN. lra. }
    assert (Z : every (approximates (204/10 * fu p)) (if jc_into o
        then fentries (jc_three o) [fofZ p 1; s1; fofZ p 1] [fident p; fskew v; fmm (jc_mm o) (fscale_m s2 (fskew v)) (fskew v)]
        else fentries (jc_three o) [fofZ p 1; s1; s2] [fident p; fskew v; fmm (jc_mm o) (fskew v) (fskew v)])
        (madd (madd mid (mscale (B2R s1) (mval (fskew v)))) (mscale (B2R s2) (mmul (mval (fskew v)) (mval (fskew v)))))).
    { destruct (jc_into o).
      - apply final3; [exact O3|exact F1|apply fofZ1|apply SE|]. apply (inside_all p s2 N K F2 KN); try assumption; split; assumption || lra.
      - apply final3; [exact O3|exact F1|exact F2|apply SE|]. apply (outside_all p s2 N K KN); try assumption; split; assumption || lra. }
    destruct (every_close p _ _ _ Z) as [F C]. split; [exact F|]. right. split; [exact Hb|]. unfold true_jac. fold N. destruct (Req_EM_T N 0) as [Y|Y]; [lra|].
    rewrite Vs in C. pose proof (big_jac (vval v) (B2R s1) (B2R s2) (K * e1) (K * K * e2)) as BJ. fold N in BJ. specialize (BJ A1 A2).
    replace (K * e1 * N + K * K * e2 * (N * N)) with ((N * K) * e1 + (N * K) * (N * K) * e2) in BJ by ring. rewrite KN in BJ.
    eapply close_mono; [|eapply close_trans; [exact C|exact BJ]]. unfold e1, e2. replace (7 * fu w / N) with (7 * (fu w * K)) by (unfold K; field; lra). lra.
Qed.
End Jac.
Lemma true_jac_velocity v t d : Vderiv v t d -> has_global_velocity (fun s => vec_rot (v s)) t (mvmul (true_jac (v t)) d).
Proof.
  intro H. unfold true_jac. destruct (Req_EM_T (vnorm (v t)) 0) as [Z|Z]; [|apply vec_rot_deriv; assumption].
  replace (mvmul mid d) with d by (clear; lin). apply vec_rot_deriv_zero; [apply vnorm_zero; exact Z|exact H].
Qed.
