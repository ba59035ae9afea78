(** * FloatDebug: assertions of the debug build in floating-point arithmetic. *)
From Coq Require Import ZArith Reals Lra Psatz Bool List Lia.
From Flocq Require Import IEEE754.BinarySingleNaN Core.Core.
From Verif Require Import Linalg Spec SpecFacts SpecClose ModelCommon ModelEigen CommonFacts CloseFacts
  FloatModel FloatFacts FloatModel2 SpecFloatQ FloatQFacts FloatQProd FloatQHist FloatQRot FloatMHist FloatCast FloatWrap Claims9 FloatModel3 SpecLibm SpecBuild FloatBuild FloatBuild2 FloatBuild3 FloatBuild4 FloatModel4 FloatExt FloatExt2 FloatExt3 FloatExt4 SpecExt Claims18 FloatExt5 FloatExt6 FloatModel5 FloatModel6 FloatMat FloatModel7 SpecSix FloatSix FloatFix FloatOHist FloatModel11 SpecDebugF.
Import ListNotations.
Local Open Scope R_scope.

(** ** A debug build that does not throw computes what the release build computes *)
Lemma dbind_done p A B (x : dres p A) (f : A -> dres p B) b : dbind x f = Done b -> exists a, x = Done a /\ f a = Done b.
Proof. destruct x as [a|q|n]; cbn; intro H; try discriminate. now exists a. Qed.
Lemma dmap_done p A B (f : A -> B) (x : dres p A) b : dmap f x = Done b -> exists a, x = Done a /\ f a = b.
Proof. intro H. apply dbind_done in H as (a & H & K). inversion K. now exists a. Qed.
Lemma dchk_q_done p c (q q' : FQ p) : dchk_q c q = Done q' -> q' = q.
Proof. unfold dchk_q. destruct (fquat_assert _ q); intro H; now inversion H. Qed.
Lemma dchk_a_done p c (s s' : fsource p) : dchk_a c s = Done s' -> s' = s.
Proof. unfold dchk_a. destruct s as [a n|v|z y x|x y z]; try (intro H; now inversion H). destruct (faxis_assert _ n); intro H; now inversion H. Qed.
Lemma d_quat_done p L c (x : fobject p) q : d_quat L c x = Done q -> q = oquat L c x.
Proof. destruct x as [q0|m|s]; cbn [d_quat oquat]; intro H; [now inversion H|now apply dchk_q_done in H|now apply dchk_q_done in H]. Qed.
Lemma d_convert_done p L c k (x y : fobject p) : d_convert L c k x = Done y -> y = oconvert L c k x.
Proof.
  destruct k as [| |[ | | | ]]; cbn [d_convert]; intro H; apply dmap_done in H as (a & H & <-).
  - apply d_quat_done in H. subst a. now destruct x.
  - destruct x as [q|m|[a' n|v|z y' x|x y' z]]; cbn [d_mat] in H; try (inversion H; reflexivity); apply dbind_done in H as (q & _ & H); now inversion H.
  - destruct x as [q|m|[a' n|v|z y' x|x y' z]]; cbn [d_aa] in H.
    + apply dchk_a_done in H. now subst a.
    + apply dchk_a_done in H. now subst a.
    + now inversion H.
    + cbn [oconvert fconvert]. unfold faa_of_rv in *. destruct (flt _ _); [now inversion H|]. apply dchk_a_done in H. now subst a.
    + apply dchk_a_done in H. now subst a.
    + apply dchk_a_done in H. now subst a.
  - destruct x as [q|m|[a' n|v|z y' x|x y' z]]; cbn [d_rv] in H; try (now inversion H).
    + apply dbind_done in H as (q & Q & H). apply d_quat_done in Q. subst q. now inversion H.
    + apply dbind_done in H as (s & Q & H). cbn [d_aa] in Q. apply dchk_a_done in Q. subst s. cbn [oconvert fconvert oquat] in *. destruct (faa_of_quat _ _ _); now inversion H.
    + apply dbind_done in H as (s & Q & H). cbn [d_aa] in Q. apply dchk_a_done in Q. subst s. cbn [oconvert fconvert oquat] in *. destruct (faa_of_quat _ _ _); now inversion H.
  - destruct x as [q|m|[a' n|v|z y' x|x y' z]]; cbn [d_zyx] in H; try (now inversion H); apply dbind_done in H as (q' & Q & H); apply d_quat_done in Q; subst q'; now inversion H.
  - destruct x as [q|m|[a' n|v|z y' x|x y' z]]; cbn [d_xyz] in H; try (now inversion H); try (apply dbind_done in H as (q' & Q & H); apply d_quat_done in Q; subst q'; now inversion H).
    apply dbind_done in H as (s & S & H). apply dbind_done in H as (q' & Q & H). apply d_quat_done in Q. subst q'. inversion H. cbn [oconvert fconvert oquat].
    cbn [d_aa] in S. unfold faa_of_rv in *. destruct (flt _ _); [now inversion S|]. apply dchk_a_done in S. now subst s.
Qed.
Lemma d_product_done p L c (l r y : fobject p) : d_product L c l r = Done y -> y = oproduct L c l r.
Proof.
  assert (G : dbind (d_quat L c l) (fun ql => dbind (d_quat L c r) (fun qr => dbind (dchk_q c (fmult (ch_mul (c6_src c)) ql qr)) (fun q => d_convert L c (okind_of l) (OQuat q)))) = Done y ->
    y = oconvert L c (okind_of l) (OQuat (fmult (ch_mul (c6_src c)) (oquat L c l) (oquat L c r)))).
  { intro H. apply dbind_done in H as (ql & Ql & H). apply dbind_done in H as (qr & Qr & H). apply dbind_done in H as (q & Q & H).
    apply d_quat_done in Ql, Qr. apply dchk_q_done in Q. subst. now apply d_convert_done in H. }
  destruct l as [ql|ml|sl], r as [qr|mr|sr]; cbn [d_product oproduct]; try exact G. intro H. now inversion H.
Qed.
Lemma d_inverted_done p L c (x y : fobject p) : d_inverted L c x = Done y -> y = oinverted L c x.
Proof.
  destruct x as [q|m|[a n|v|z y' x|x y' z]]; cbn [d_inverted oinverted finverted]; intro H; try (now inversion H).
  - apply dmap_done in H as (q' & Q & <-). apply dchk_q_done in Q. now subst q'.
  - apply dmap_done in H as (s & Q & <-). apply dchk_a_done in Q. now subst s.
  - apply dbind_done in H as (q & Q & H). apply dbind_done in H as (q' & Q' & H). apply d_quat_done in Q. apply dchk_q_done in Q'. subst. now inversion H.
  - apply dbind_done in H as (q & Q & H). apply dbind_done in H as (q' & Q' & H). apply d_quat_done in Q. apply dchk_q_done in Q'. subst. now inversion H.
Qed.
Lemma d_step_done p L P (x y : fobject p) o c : d_step L P x o c = Done y -> y = ostep L P x o c.
Proof.
  destruct o as [t|t|t| | | |k]; cbn [d_step ostep]; intro H.
  - now apply d_product_done in H.
  - apply dbind_done in H as (z & Z & H). apply d_product_done in Z. subst z. now apply d_convert_done in H.
  - now apply d_convert_done in H.
  - now apply d_inverted_done in H.
  - destruct (okind_of x) as [| |[ | | | ]]; cbn [d_identity] in H; try (now inversion H). apply dmap_done in H as (s & Q & <-). apply dchk_a_done in Q. now subst s.
  - destruct x as [q|m|[a n|v|z y' x|x y' z]]; cbn [d_fix ofix] in *; try (now inversion H). apply dmap_done in H as (s & Q & <-). apply dchk_a_done in Q. now subst s.
  - now apply d_convert_done in H.
Qed.
Lemma d_run_done p L P l : forall x y : fobject p, d_run L P x l = Done y -> y = orun L P x l.
Proof.
  induction l as [|[o c] l IH]; intros x y H; cbn [d_run] in H; [now inversion H|]. apply dbind_done in H as (z & Z & H). apply d_step_done in Z. cbn [fst snd] in Z. subst z. now apply IH in H.
Qed.

(** ** The thresholds *)
Lemma thr4_val p : is_finite (fmul (flit p 1 10000) (flit p 1 100)) = true /\
  9999 / 10 ^ 10 <= B2R (fmul (flit p 1 10000) (flit p 1 100)) <= 10001 / 10 ^ 10.
Proof.
  destruct p; (split; [vm_compute; reflexivity|]).
  - rewrite (B2R_of_SF F32 (fmul (flit F32 1 10000) (flit F32 1 100)) false 8796093 (-43)) by (vm_compute; reflexivity).
    unfold F2R; cbn [Fnum Fexp SpecFloat.cond_Zopp]. replace (bpow radix2 (-43)) with (/ 8796093022208) by (cbn; f_equal). lra.
  - rewrite (B2R_of_SF F64 (fmul (flit F64 1 10000) (flit F64 1 100)) false 4722366482869646 (-72)) by (vm_compute; reflexivity).
    unfold F2R; cbn [Fnum Fexp SpecFloat.cond_Zopp]. replace (bpow radix2 (-72)) with (/ 4722366482869645213696) by (cbn; f_equal). lra.
Qed.
(** compareRelative(x, 1, 1e-4) *)
Lemma fnear_one p (x : fl p) : is_finite x = true -> Rabs (B2R x) <= bpow radix2 60 ->
  (Rabs (B2R x - 1) <= 998 / 10 ^ 9 -> fcompareRelative x (fofZ p 1) (flit p 1 10000) = true) /\
  (1002 / 10 ^ 9 <= Rabs (B2R x - 1) -> fcompareRelative x (fofZ p 1) (flit p 1 10000) = false).
Proof.
  intros F B. destruct (fofZ1 p) as [F1 V1]. destruct (thr4_val p) as [Ft T]. pose proof (fu_pos p) as U. pose proof (fu_24 p) as V.
  destruct (C49_finite_lemma p x (fofZ p 1) (flit p 1 10000) F F1 Ft (small_le_big p _ B)) as [CA CR].
  { apply small_le_big. rewrite V1, Rabs_R1. change 1 with (bpow radix2 0). apply bpow_le. lia. }
  rewrite V1, Rabs_R1 in CA, CR. fold (fu p) in CA, CR. set (thr := B2R (fmul (flit p 1 10000) (flit p 1 100))) in *. set (n := B2R x) in *.
  rewrite (Rabs_pos_eq thr) in CA by lra. set (cr := fcompareRelative x (fofZ p 1) (flit p 1 10000)) in *.
  assert (U2 : 0 <= fu p * fu p <= fu p * / 16777216) by (split; [apply Rmult_le_pos|apply Rmult_le_compat_l]; lra).
  assert (UT : 0 <= fu p * thr <= / 16777216 * thr) by (split; [apply Rmult_le_pos|apply Rmult_le_compat_r]; lra).
  assert (U3 : 0 <= fu p * (fu p * fu p) <= / 16777216 * (fu p * fu p)) by (split; [apply Rmult_le_pos|apply Rmult_le_compat_r]; lra).
  assert (U4 : fu p * fu p <= / 10 ^ 13) by lra.
  assert (K1 : 9998 / 10 ^ 10 <= (1 - 3 * fu p) * (thr - fu p * fu p)) by lra.
  assert (K2 : (1 + 3 * fu p) * (thr + fu p * fu p) <= 10002 / 10 ^ 10) by lra.
  assert (M1 : 1 <= Rmax (Rabs n) 1) by apply Rmax_r. set (M := Rmax (Rabs n) 1) in *.
  split; intro H.
  - destruct cr eqn:A; [reflexivity|exfalso]. destruct (CR eq_refl) as [_ R].
    assert (9998 / 10 ^ 10 * M <= Rabs (n - 1)) by (eapply Rle_trans; [apply Rmult_le_compat_r; [lra|exact K1]|exact R]). lra.
  - destruct cr eqn:A; [exfalso|reflexivity]. destruct (flit_lt1 p) as [F15 F6].
    destruct (CA eq_refl) as [[_ X]|[[Z X]|[[Z X]|X]]]; [lra|lra|lra|].
    assert (Y : Rabs (n - 1) <= 10002 / 10 ^ 10 * M) by (eapply Rle_trans; [exact X|apply Rmult_le_compat_r; lra]).
    unfold M, Rmax in Y. unfold Rabs in *. destruct (Rcase_abs n); destruct (Rcase_abs (n - 1)); match type of Y with context [Rle_dec ?u ?v] => destruct (Rle_dec u v) end; lra.
Qed.
Lemma faxis_assert_spec p t (n : FV p) : order 3 t -> vfinite n -> bpow radix2 (-50) <= vnorm (vval n) <= bpow radix2 50 ->
  (Rabs (vnorm (vval n) - 1) <= 8 / 10 ^ 7 -> faxis_assert t n = true) /\ (12 / 10 ^ 7 <= Rabs (vnorm (vval n) - 1) -> faxis_assert t n = false).
Proof.
  intros O F H. pose proof (fu_pos p) as U. pose proof (fu_24 p) as V. pose proof (bpow_gt_0 radix2 (-50)) as P0.
  destruct (fvnorm_big2 p t n O F) as [Fn E]. { split; [|apply H]. apply Rle_trans with (bpow radix2 (-50)); [apply bpow_le; lia|apply H]. }
  set (N := vnorm (vval n)) in *. set (x := fvnorm t n) in *. apply Rabs_both in E.
  assert (W : 0 <= fu p * N <= / 16777216 * N) by (split; [apply Rmult_le_pos|apply Rmult_le_compat_r]; lra). pose proof bpow_51 as B51.
  destruct (fnear_one p x Fn) as [A R]. { apply Rabs_le. pose proof (bpow_gt_0 radix2 60). lra. }
  unfold faxis_assert. fold x. split; intro K.
  - apply A. apply Rabs_both in K. apply Rabs_le. lra.
  - apply R. unfold Rabs in *. destruct (Rcase_abs (N - 1)); destruct (Rcase_abs (B2R x - 1)); lra.
Qed.
Lemma axis_range (n : V3) : Rabs (vnorm n - 1) <= 8 / 10 ^ 7 -> bpow radix2 (-50) <= vnorm n <= bpow radix2 50.
Proof.
  intro H. apply Rabs_both in H. split; [apply Rle_trans with (bpow radix2 (-1)); [apply bpow_le; lia|cbn; lra]|apply Rle_trans with (bpow radix2 1); [cbn; lra|apply bpow_le; lia]].
Qed.

(** ** The axis computed from a quaternion *)
Lemma eta_tiny_length p N : tiny_length p <= N -> eta p <= / 1000 * (fu p * N).
Proof.
  unfold tiny_length. rewrite half_smallest_eta, roundoff_fu. pose proof (fu_pos p) as U. pose proof (eta_pos p) as E. intro H.
  assert (fu p * (1024 * eta p / fu p) <= fu p * N) by (apply Rmult_le_compat_l; lra).
  replace (fu p * (1024 * eta p / fu p)) with (1024 * eta p) in * by (field; lra). lra.
Qed.
Lemma unit_x_legal p : vfinite (funit_x p) /\ vnorm (vval (funit_x p)) = 1.
Proof.
  destruct (fofZ1 p) as [F1 V1]. assert (VU : vval (funit_x p) = ex). { unfold vval, funit_x; cbn [gx gy gz]. rewrite V1. reflexivity. }
  split; [repeat split; exact F1|]. rewrite VU. apply vnorm_unit. lin.
Qed.
Lemma faa_axis p L b (q : FQ p) : libm_ok L -> ext_ok b -> qfinite q -> vnorm (vval (fvec q)) <= 3/2 ->
  exists a n, faa_of_quat L b q = SrcAA a n /\ (vfinite n /\ Rabs (vnorm (vval n) - 1) <= 10 * fu p \/ tiny_axis L n).
Proof.
  intros HL HE Fq N2. pose proof (fu_pos p) as U. pose proof (fu_24 p) as V. pose proof (eta_pos p) as P. pose proof (eta_u7 p) as T. pose proof HE as (O & _).
  assert (Fv : vfinite (fvec q)) by (destruct Fq as (? & ? & ? & ?); repeat split; assumption).
  set (N := vnorm (vval (fvec q))) in *. assert (N0 : 0 <= N) by apply vn_nonneg.
  destruct (faa_norm_err p L b (fvec q) HL O Fv ltac:(fold N; lra)) as (Fn & Na & _). cbv zeta in *. fold N in Na.
  destruct (faa_of_quat L b q) as [a n|v|z y x|x y z] eqn:E; try (exfalso; unfold faa_of_quat in E; destruct (feq _ _); discriminate).
  exists a, n. split; [reflexivity|].
  destruct (Rlt_or_le N (tiny_length p)) as [S|S].
  { destruct (Rle_lt_or_eq_dec 0 N N0) as [Np|Nz].
    - right. exists b, q, a, n. fold N. split; [exact HE|]. split; [exact Fq|]. split; [exact E|]. split; [lra|]. now left.
    - left. assert (B2R (faa_norm L b (fvec q)) = 0).
      { rewrite <- Nz, Rmult_0_r, Rplus_0_l, Rminus_0_r in Na. destruct (Req_dec (B2R (faa_norm L b (fvec q))) 0) as [Z|Z]; [exact Z|]. pose proof (finite_nonzero p _ Fn Z). lra. }
      unfold faa_of_quat in E. rewrite (feq_R p _ fzero Fn eq_refl) in E. change (B2R (@fzero p)) with 0 in E. rewrite Req_bool_true in E by assumption. inversion E. subst.
      destruct (unit_x_legal p) as [F1 V1]. split; [exact F1|]. rewrite V1, Rminus_diag_eq, Rabs_R0 by reflexivity. lra. }
  left. pose proof (eta_tiny_length p N S) as T3. assert (Np : 0 < N). { destruct (Rle_lt_or_eq_dec 0 N N0) as [K|K]; [exact K|]. rewrite <- K in T3. lra. }
  assert (SM : 0 <= fu p * N <= / 16777216 * N) by (split; [apply Rmult_le_pos|apply Rmult_le_compat_r]; lra).
  apply Rabs_both in Na as Na'. set (nn := faa_norm L b (fvec q)) in *.
  assert (nl : (1 - / 1000) * N <= B2R nn <= 1001/1000 * N) by lra. assert (np : 0 < B2R nn) by lra.
  unfold faa_of_quat in E. fold nn in E. rewrite (feq_R p nn fzero Fn eq_refl) in E. change (B2R (@fzero p)) with 0 in E. rewrite Req_bool_false in E by lra. inversion E as [[Ea En]]. clear E Ea.
  set (n' := if flt (fw q) fzero then fneg nn else nn) in *.
  assert (SN : Rabs (B2R n') = B2R nn). { unfold n'. destruct (flt (fw q) fzero); [rewrite (proj1 (fneg_R p nn)), Rabs_Ropp|]; apply Rabs_pos_eq; lra. }
  set (K := N / B2R nn). assert (KN : K * B2R nn = N) by (unfold K; field; lra).
  assert (KK : Rabs (K - 1) <= (8 + / 5) * fu p).
  { replace (K - 1) with ((N - B2R nn) * / B2R nn) by (unfold K; field; lra). rewrite Rabs_mult, Rabs_inv, (Rabs_pos_eq (B2R nn)) by lra. rewrite Rabs_minus_sym.
    apply Rmult_le_reg_r with (B2R nn); [exact np|]. rewrite Rmult_assoc, Rinv_l, Rmult_1_r by lra. eapply Rle_trans; [exact Na|].
    assert (fu p * ((1 - / 1000) * N) <= fu p * B2R nn) by (apply Rmult_le_compat_l; lra). lra. }
  apply Rabs_both in KK. assert (SN0 : B2R n' <> 0). { intro Z. rewrite Z, Rabs_R0 in SN. lra. }
  destruct (fvdiv_err p (fvec q) n' K Fv SN0) as [Fx Ex]. { rewrite SN. fold N. unfold K. lra. } { apply Rle_trans with (bpow radix2 2); [change (bpow radix2 2) with 4; lra|apply bpow_le; lia]. }
  split; [exact Fx|]. set (X := vval (fvdiv Quotient (fvec q) n')) in *. set (G := vscale (/ B2R n') (vval (fvec q))) in *.
  assert (GN : vnorm G = K). { unfold G. rewrite vnorm_vscale, Rabs_inv, SN. fold N. unfold K. field. lra. }
  assert (XG : Rabs (vnorm X - vnorm G) <= fu p * K + 7/4 * eta p).
  { eapply Rle_trans; [|exact Ex]. unfold vdist. apply Rabs_le. split.
    - pose proof (vnorm_triang3 X (vsub G X)) as W1. replace (vadd X (vsub G X)) with G in W1 by lin. replace (vnorm (vsub G X)) with (vnorm (vsub X G)) in W1 by (unfold vnorm; f_equal; lin). lra.
    - pose proof (vnorm_triang3 G (vsub X G)) as W1. replace (vadd G (vsub X G)) with X in W1 by lin. lra. }
  rewrite GN in XG. apply Rabs_both in XG. assert (KU : K <= 11/10) by lra. assert (0 <= fu p * K <= fu p * (11/10)) by (split; [apply Rmult_le_pos|apply Rmult_le_compat_l]; lra). apply Rabs_le. lra.
Qed.

(** ** One call *)
Definition axis_fine {p} (L : libm) (x : fobject p) : Prop :=
  match x with OSrc (SrcAA _ n) => vfinite n /\ Rabs (vnorm (vval n) - 1) <= 8 / 10 ^ 7 \/ tiny_axis L n | _ => True end.
Definition fine_res {p} (L : libm) (d : dres p (fobject p)) (y : fobject p) : Prop :=
  (d = Done y /\ axis_fine L y) \/ exists n, d = BadAxis n /\ tiny_axis L n.

Lemma dchk_a_ok p L c a (n : FV p) : choices6_ok c -> (vfinite n /\ Rabs (vnorm (vval n) - 1) <= 8 / 10 ^ 7 \/ tiny_axis L n) ->
  dchk_a c (SrcAA a n) = Done (SrcAA a n) \/ (dchk_a c (SrcAA a n) = BadAxis n /\ tiny_axis L n).
Proof.
  intros ((_ & (O & _) & _) & _) [[F H]|H].
  - left. unfold dchk_a. destruct (faxis_assert_spec p _ n O F (axis_range _ H)) as [A _]. now rewrite (A H).
  - unfold dchk_a. destruct (faxis_assert _ n); [left; reflexivity|right; split; [reflexivity|exact H]].
Qed.
Lemma dchk_q_ok p c T D (q : FQ p) r : choices6_ok c -> stands T D (OQuat q) r -> checked p D -> dchk_q c q = Done q.
Proof.
  intros (_ & _ & _ & O & _) (F & N & _) C. unfold checked in C. unfold dchk_q. pose proof (Rabs_both _ _ N) as B.
  destruct (fquat_assert_spec p _ q O F) as [A _].
  { split; [apply Rle_trans with (bpow radix2 (-1)); [apply bpow_le; lia|cbn; lra]|apply Rle_trans with (bpow radix2 1); [cbn; lra|apply bpow_le; lia]]. }
  rewrite A by lra. reflexivity.
Qed.
Lemma src_checked p k A : checked p (conv_defect (KSrc k) KQuat A).
Proof. unfold checked. cbn [conv_defect]. rewrite roundoff_fu. pose proof (fu_24 p). lra. Qed.
Lemma d_quat_ok p L c T A (x : fobject p) r : libm_ok L -> choices6_ok c -> 64/10 <= T <= 655/100 -> ready T A x r -> conv_limit p (okind_of x) KQuat A -> dconv_limit p (okind_of x) KQuat A ->
  d_quat L c x = Done (oquat L c x).
Proof.
  intros HL HC TT (H & _ & A0) LIM DL. destruct x as [q|m|s]; [reflexivity| |].
  - destruct (oquat_ok p L c T A (OMat m) r HL HC ltac:(lra) H LIM) as (r' & X & _). exact (dchk_q_ok p c T _ _ r' HC X DL).
  - destruct (oquat_ok p L c T A (OSrc s) r HL HC ltac:(lra) H LIM) as (r' & X & _). exact (dchk_q_ok p c T _ _ r' HC X (src_checked p _ _)).
Qed.
Lemma d_quat_src p L c T A (s : fsource p) r : libm_ok L -> choices6_ok c -> 64/10 <= T <= 655/100 -> ready T A (OSrc s) r -> d_quat L c (OSrc s) = Done (oquat L c (OSrc s)).
Proof. intros HL HC TT H. apply (d_quat_ok p L c T A (OSrc s) r HL HC TT H); exact I. Qed.
(** the quaternion that AngleAxis is computed from *)
Lemma quat_vec_small p L c T A (x : fobject p) r : libm_ok L -> choices6_ok c -> 64/10 <= T <= 655/100 -> ready T A x r -> conv_limit p (okind_of x) KQuat A ->
  qfinite (oquat L c x) /\ vnorm (vval (fvec (oquat L c x))) <= 3/2.
Proof.
  intros HL HC TT (H & K & A0) LIM. destruct (oquat_ok p L c T A x r HL HC ltac:(lra) H LIM) as (r' & (F & N & _) & _). split; [exact F|].
  rewrite qvec_fvec. eapply Rle_trans; [apply norm_vec_le|]. apply Rabs_both in N. rewrite roundoff_fu in N. pose proof (conv_quat_small p _ A A0 LIM). lra.
Qed.
Lemma d_aa_quat p L c T A (x : fobject p) r : libm_ok L -> choices6_ok c -> 64/10 <= T <= 655/100 -> ready T A x r -> conv_limit p (okind_of x) KQuat A ->
  exists a n, faa_of_quat L (ch_ext (c6_src c)) (oquat L c x) = SrcAA a n /\ (vfinite n /\ Rabs (vnorm (vval n) - 1) <= 8 / 10 ^ 7 \/ tiny_axis L n).
Proof.
  intros HL HC TT H LIM. destruct (quat_vec_small p L c T A x r HL HC TT H LIM) as [F N]. pose proof HC as ((_ & HE & _) & _). pose proof (fu_24 p) as V.
  destruct (faa_axis p L _ _ HL HE F N) as (a & n & E & [[Fn K]|K]); exists a, n; (split; [exact E|]); [left|right; exact K]. split; [exact Fn|]. lra.
Qed.
Lemma rv_axis p b (v : FV p) : order 3 (x_norm b) -> vfinite v -> vnorm (vval v) <= 7 -> exists a n, faa_of_rv b v = SrcAA a n /\ vfinite n /\ Rabs (vnorm (vval n) - 1) <= 8 / 10 ^ 7.
Proof.
  intros O F H. pose proof (fu_24 p) as V. pose proof (fu_pos p) as U. destruct (faa_of_rv_err p b v O F H) as [[E _]|(a & n & E & Fa & Fn & P & _ & D)].
  - exists fzero, (funit_x p). destruct (unit_x_legal p) as [F1 V1]. split; [exact E|]. split; [exact F1|]. rewrite V1, Rminus_diag_eq, Rabs_R0 by reflexivity. lra.
  - exists a, n. split; [exact E|]. split; [exact Fn|]. destruct (vdirection_dist (vval n) _ (6 * fu p) (vdir_unit _ P) D ltac:(lra)) as (_ & _ & K). lra.
Qed.
Lemma mat_limit_quat p k A : 0 <= A -> conv_limit p KMat (KSrc k) A -> conv_limit p KMat KQuat A /\ checked p (conv_defect KMat KQuat A).
Proof.
  pose proof (fu_pos p) as U. pose proof (fu_24 p) as V. intros A0 H. cbn [conv_limit conv_defect] in *. unfold checked. rewrite !roundoff_fu. assert (3 * A + 14 <= 1200) by (destruct k; cbn [extract_limit] in H; lra).
  assert ((3 * A + 14) * fu p <= 1200 * fu p) by (apply Rmult_le_compat_r; lra). split; lra.
Qed.

Lemma quat_limit_quat p k A : 0 <= A -> conv_limit p KQuat k A -> conv_limit p KQuat KQuat A.
Proof. intros A0 H. pose proof (limit_small p k A H) as K. cbn [conv_limit]. now rewrite roundoff_fu. Qed.

Lemma d_convert_fine p L c k T A (x : fobject p) r : libm_ok L -> choices6_ok c -> 64/10 <= T <= 654/100 -> ready T A x r -> axis_fine L x ->
  conv_limit p (okind_of x) k A -> dconv_limit p (okind_of x) k A -> fine_res L (d_convert L c k x) (oconvert L c k x).
Proof.
  intros HL HC TT0 H AX LIM DL. assert (TT : 64/10 <= T <= 655/100) by lra. pose proof H as (ST & _ & A0).
  assert (AAok : forall o : dres p (fsource p), (exists a n, o = dchk_a c (SrcAA a n) /\ oconvert L c k x = OSrc (SrcAA a n) /\ (vfinite n /\ Rabs (vnorm (vval n) - 1) <= 8 / 10 ^ 7 \/ tiny_axis L n)) -> fine_res L (dmap OSrc o) (oconvert L c k x)).
  { intros o (a & n & -> & E & K). rewrite E. destruct (dchk_a_ok p L c a n HC K) as [D|[D W]]; rewrite D; cbn [dmap dbind]; [left; split; [reflexivity|exact K]|right; exists n; now split]. }
  destruct k as [| |[ | | | ]]; cbn [d_convert].
  - left. rewrite (d_quat_ok p L c T A x r HL HC TT H LIM DL). cbn [dmap dbind]. destruct x; split; reflexivity || exact I.
  - left. destruct x as [q|m|[a n|v|z y x|x y z]]; cbn [d_mat]; try (split; [reflexivity|exact I]).
    + rewrite (d_quat_src p L c T A _ r HL HC TT H). split; [reflexivity|exact I].
    + rewrite (d_quat_src p L c T A _ r HL HC TT H). split; [reflexivity|exact I].
    + rewrite (d_quat_src p L c T A _ r HL HC TT H). split; [reflexivity|exact I].
  - assert (QL : conv_limit p (okind_of x) KQuat A). { destruct x; cbn [okind_of] in *; [exact (quat_limit_quat p _ A A0 LIM)|exact (proj1 (mat_limit_quat p _ A A0 LIM))|exact I]. }
    destruct x as [q|m|[a n|v|z y x|x y z]]; cbn [d_aa].
    + apply AAok. destruct (d_aa_quat p L c T A _ r HL HC TT H QL) as (a & n & E & K). exists a, n. rewrite E. split; [reflexivity|]. split; [cbn [oconvert fsource_of_quat]; now f_equal|exact K].
    + apply AAok. destruct (d_aa_quat p L c T A _ r HL HC TT H QL) as (a & n & E & K). exists a, n. rewrite E. split; [reflexivity|]. split; [cbn [oconvert fsource_of_mat fsource_of_quat]; now f_equal|exact K].
    + left. split; [reflexivity|exact AX].
    + destruct ST as [[Fv Nv] _]. pose proof HC as ((_ & (O & _) & _) & _). destruct (rv_axis p (ch_ext (c6_src c)) v O Fv ltac:(lra)) as (a & n & E & K).
      assert (AAo : oconvert L c (KSrc SAA) (OSrc (SrcRv v)) = OSrc (SrcAA a n)) by (cbn [oconvert fconvert]; now f_equal).
      destruct (flt (fvnorm (x_norm (ch_ext (c6_src c))) v) (fdummy p)) eqn:SH.
      * left. assert (AAs : faa_of_rv (ch_ext (c6_src c)) v = SrcAA fzero (funit_x p)) by (unfold faa_of_rv; now rewrite SH). rewrite AAo. rewrite AAs in E. cbn [dmap dbind]. rewrite E. split; [reflexivity|left; exact K].
      * apply AAok. exists a, n. rewrite E. split; [reflexivity|]. split; [exact AAo|now left].
    + apply AAok. destruct (d_aa_quat p L c T A _ r HL HC TT H QL) as (a' & n & E & K). exists a', n. rewrite E. split; [reflexivity|]. split; [cbn [oconvert fconvert fsource_of_quat]; now f_equal|exact K].
    + apply AAok. destruct (d_aa_quat p L c T A _ r HL HC TT H QL) as (a' & n & E & K). exists a', n. rewrite E. split; [reflexivity|]. split; [cbn [oconvert fconvert fsource_of_quat]; now f_equal|exact K].
  - assert (NA : forall s : fsource p, skind_of s = SRv -> axis_fine L (OSrc s)) by (intros [a n|v|z y x'|x' y z] E; try discriminate; exact I).
    assert (NR : forall b q, skind_of (frv_of_quat (p := p) L b q) = SRv) by (intros b q; unfold frv_of_quat; destruct (flt _ (fdummy p)); [destruct (flt _ _)|]; reflexivity).
    destruct x as [q|m|[a n|v|z y x|x y z]]; cbn [d_rv].
    + left. split; [reflexivity|]. cbn [oconvert fsource_of_quat]. apply NA, NR.
    + destruct (mat_limit_quat p _ A A0 LIM) as [L1 L2]. rewrite (d_quat_ok p L c T A (OMat m) r HL HC TT H L1 L2). left. split; [reflexivity|]. cbn [oconvert]. apply NA. unfold fsource_of_mat; cbn [fsource_of_quat]. apply NR.
    + left. split; [reflexivity|exact I].
    + left. split; [reflexivity|exact I].
    + destruct (d_aa_quat p L c T A _ r HL HC TT H I) as (a' & n & E & K). cbn [d_aa]. cbn [oquat] in *. rewrite E. destruct (dchk_a_ok p L c a' n HC K) as [D|[D W]]; rewrite D; cbn [dmap dbind].
      * left. split; [|cbn [oconvert fconvert]; rewrite E; exact I]. cbn [oconvert fconvert]. now rewrite E.
      * right. exists n. now split.
    + destruct (d_aa_quat p L c T A _ r HL HC TT H I) as (a' & n & E & K). cbn [d_aa]. cbn [oquat] in *. rewrite E. destruct (dchk_a_ok p L c a' n HC K) as [D|[D W]]; rewrite D; cbn [dmap dbind].
      * left. split; [|cbn [oconvert fconvert]; rewrite E; exact I]. cbn [oconvert fconvert]. now rewrite E.
      * right. exists n. now split.
  - assert (NA : forall b q, axis_fine L (OSrc (fzyx_of_quat (p := p) L b q))) by (intros b q; unfold fzyx_of_quat; destruct (feuler_core _ _ _ _ _ _ _ _ _ _ _ _) as [[? ?] ?]; exact I).
    left. assert (Q : d_quat L c x = Done (oquat L c x)).
    { destruct x as [q|m|s]; [reflexivity| |exact (d_quat_src p L c T A s r HL HC TT H)]. destruct (mat_limit_quat p _ A A0 LIM) as [L1 L2]. exact (d_quat_ok p L c T A (OMat m) r HL HC TT H L1 L2). }
    destruct x as [q|m|[a n|v|z y x|x y z]]; cbn [d_zyx]; try (split; [reflexivity|exact I]); rewrite Q; (split; [reflexivity|]); cbn [oconvert fconvert]; unfold fsource_of_mat; cbn [fsource_of_quat]; apply NA.
  - assert (NA : forall b q, axis_fine L (OSrc (fxyz_of_quat (p := p) L b q))) by (intros b q; unfold fxyz_of_quat; destruct (feuler_core _ _ _ _ _ _ _ _ _ _ _ _) as [[? ?] ?]; exact I).
    left. assert (Q : d_quat L c x = Done (oquat L c x)).
    { destruct x as [q|m|s]; [reflexivity| |exact (d_quat_src p L c T A s r HL HC TT H)]. destruct (mat_limit_quat p _ A A0 LIM) as [L1 L2]. exact (d_quat_ok p L c T A (OMat m) r HL HC TT H L1 L2). }
    destruct x as [q|m|[a n|v|z y x|x y z]]; cbn [d_xyz]; try (split; [reflexivity|exact I]); try (rewrite Q; (split; [reflexivity|]); cbn [oconvert fconvert]; unfold fsource_of_mat; cbn [fsource_of_quat]; apply NA).
    destruct ST as [OK <-]. pose proof OK as [Fv Nv]. pose proof HC as ((_ & (O & _) & _) & _). destruct (rv_axis p (ch_ext (c6_src c)) v O Fv ltac:(lra)) as (a & n & E & K).
    assert (DA : d_aa L c (OSrc (SrcRv v)) = Done (SrcAA a n)).
    { cbn [d_aa]. destruct (flt (fvnorm (x_norm (ch_ext (c6_src c))) v) (fdummy p)) eqn:SH.
      - assert (AAs : faa_of_rv (ch_ext (c6_src c)) v = SrcAA fzero (funit_x p)) by (unfold faa_of_rv; now rewrite SH). rewrite AAs in E. now rewrite E.
      - rewrite E. destruct K as [F K]. unfold dchk_a. destruct (faxis_assert_spec p _ n O F (axis_range _ K)) as [Z _]. now rewrite (Z K). }
    rewrite DA. cbn [dbind dmap]. destruct (faa_of_rv_ok p (ch_ext (c6_src c)) v T O TT OK) as (_ & OK2 & _). rewrite E in OK2.
    assert (Q2 : d_quat L c (OSrc (SrcAA a n)) = Done (oquat L c (OSrc (SrcAA a n)))).
    { pose proof (fu_24 p) as V. pose proof (fu_pos p) as U. apply (dchk_q_ok p c (655/100) (166/5) _ (quat_rot (direction (qval (oquat L c (OSrc (SrcAA a n)))))) HC); [|exact (src_checked p SAA 0)].
      assert (OK3 : object_ok (655/100) (SrcAA a n)).
      { cbn [object_ok] in OK2 |- *. destruct OK2 as (Fa & Fn & Ha & Hn). split; [exact Fa|]. split; [exact Fn|]. split; [|exact Hn].
        lra. }
      destruct HC as ((HB & _ & _) & _). destruct (held_quat p L _ (SrcAA a n) (655/100) HL HB ltac:(lra) OK3) as (F & e & E1 & E2 & E3).
      destruct (near_unit p _ e (33 + 2/10) E1 E3 ltac:(lra)) as (N1 & _). split; [exact F|]. split; [rewrite roundoff_fu; cbn [oquat]; lra|reflexivity]. }
    rewrite Q2. cbn [dbind]. split; [cbn [oconvert fconvert]; now rewrite E|cbn [oconvert fconvert]; apply NA].
Qed.
Lemma fine_bind p L (d : dres p (fobject p)) y f z : fine_res L d y -> (axis_fine L y -> fine_res L (f y) z) -> fine_res L (dbind d f) z.
Proof. intros [[-> A]|(n & -> & W)] K; [exact (K A)|right; exists n; now split]. Qed.
Lemma qjoint_ge A B : 0 <= A -> 0 <= B -> A <= qjoint A B /\ B <= qjoint A B.
Proof. intros A0 B0. unfold qjoint. assert (0 <= Rmin A B) by (apply Rmin_glb; assumption). lra. Qed.
Lemma checked_le p A B : A <= B -> checked p B -> checked p A.
Proof. unfold checked. rewrite roundoff_fu. pose proof (fu_pos p) as U. intros H K. assert (A * fu p <= B * fu p) by (apply Rmult_le_compat_r; lra). lra. Qed.
Lemma d_product_fine p L c T A B (l r : fobject p) rl rr : libm_ok L -> choices6_ok c -> 64/10 <= T <= 654/100 -> ready T A l rl -> ready T B r rr ->
  prod_limit p (okind_of l) (okind_of r) A B -> dprod_limit p (okind_of l) (okind_of r) A B -> fine_res L (d_product L c l r) (oproduct L c l r).
Proof.
  intros HL HC TT Hl Hr LIM DL. pose proof Hl as (Sl & _ & A0). pose proof Hr as (Sr & _ & B0). pose proof (fu_pos p) as U.
  assert (G : conv_limit p (okind_of l) KQuat A -> conv_limit p (okind_of r) KQuat B -> conv_limit p KQuat (okind_of l) (qprod_defect (okind_of l) (okind_of r) A B) ->
    conv_defect (okind_of l) KQuat A * fu p <= / 100 -> conv_defect (okind_of r) KQuat B * fu p <= / 100 -> checked p (qprod_defect (okind_of l) (okind_of r) A B) ->
    fine_res L (dbind (d_quat L c l) (fun ql => dbind (d_quat L c r) (fun qr => dbind (dchk_q c (fmult (ch_mul (c6_src c)) ql qr)) (fun q => d_convert L c (okind_of l) (OQuat q)))))
      (oconvert L c (okind_of l) (OQuat (fmult (ch_mul (c6_src c)) (oquat L c l) (oquat L c r))))).
  { intros L1 L2 L3 L4 L5 CK. pose proof (conv_defect_nonneg (okind_of l) KQuat A A0) as P1. pose proof (conv_defect_nonneg (okind_of r) KQuat B B0) as P2.
    destruct (qjoint_ge _ _ P1 P2) as [J1 J2]. change (qjoint (conv_defect (okind_of l) KQuat A) (conv_defect (okind_of r) KQuat B)) with (qprod_defect (okind_of l) (okind_of r) A B) in J1, J2.
    rewrite (d_quat_ok p L c T A l rl HL HC ltac:(lra) Hl L1) by (destruct l; cbn [okind_of dconv_limit]; try exact I; exact (checked_le _ _ _ J1 CK)). cbn [dbind].
    rewrite (d_quat_ok p L c T B r rr HL HC ltac:(lra) Hr L2) by (destruct r; cbn [okind_of dconv_limit]; try exact I; exact (checked_le _ _ _ J2 CK)). cbn [dbind].
    destruct (oquat_ok p L c T A l rl HL HC ltac:(lra) Sl L1) as (r1 & X1 & _). destruct (oquat_ok p L c T B r rr HL HC ltac:(lra) Sr L2) as (r2 & X2 & _).
    pose proof HC as ((_ & _ & HM) & _). destruct (oqmult_ok p (ch_mul (c6_src c)) T _ _ _ _ r1 r2 HM X1 X2 L4 L5) as (r3 & X3 & _).
    change (qjoint (conv_defect (okind_of l) KQuat A) (conv_defect (okind_of r) KQuat B)) with (qprod_defect (okind_of l) (okind_of r) A B) in X3.
    rewrite (dchk_q_ok p c T _ _ r3 HC X3 CK). cbn [dbind].
    apply (d_convert_fine p L c (okind_of l) T (qprod_defect (okind_of l) (okind_of r) A B) _ r3 HL HC TT); [|exact I|exact L3|destruct l; exact I].
    split; [exact X3|]. split; [|lra]. intros _. apply qjoint_small; assumption. }
  destruct l as [ql|ml|sl]; cbn [okind_of] in *; try (destruct LIM as (L1 & L2 & L3 & L4 & L5); rewrite roundoff_fu in L4, L5; exact (G L1 L2 L3 L4 L5 DL)).
  destruct r as [qr|mr|sr]; cbn [okind_of] in *; try (destruct LIM as (L1 & L2 & L3 & L4 & L5); rewrite roundoff_fu in L4, L5; exact (G L1 L2 L3 L4 L5 DL)).
  left. split; [reflexivity|exact I].
Qed.
Lemma fvneg_fvneg p (n : FV p) : fvneg (fvneg n) = n.
Proof. destruct n as [x y z]. unfold fvneg, fneg; cbn [gx gy gz]. now rewrite !Bopp_involutive. Qed.
Lemma tiny_axis_neg p L (n : FV p) : tiny_axis L n -> tiny_axis L (fvneg n).
Proof. intros (b & q & a & n0 & HE & F & E & N & [-> | ->]); exists b, q, a, n0; (do 4 (split; [assumption|])); [right; reflexivity|left; apply fvneg_fvneg]. Qed.
Lemma fvneg_norm p (n : FV p) : vfinite n -> vfinite (fvneg n) /\ vnorm (vval (fvneg n)) = vnorm (vval n).
Proof.
  intros (A & B & C). split; [unfold vfinite, fvneg; cbn [gx gy gz]; now rewrite !fneg_fin|]. unfold vnorm. f_equal. unfold vval, fvneg; cbn [gx gy gz]. rewrite !fneg_val. lin.
Qed.
Lemma d_inverted_fine p L c T A (x : fobject p) r : libm_ok L -> choices6_ok c -> 64/10 <= T <= 654/100 -> ready T A x r -> axis_fine L x -> match okind_of x with KQuat => checked p A | _ => True end ->
  fine_res L (d_inverted L c x) (oinverted L c x).
Proof.
  intros HL HC TT H AX CK. pose proof H as (ST & _ & A0).
  assert (EU : forall s : fsource p, d_quat L c (OSrc s) = Done (oquat L c (OSrc s)) -> stands T A (OSrc s) r -> dchk_q c (fconj (oquat L c (OSrc s))) = Done (fconj (oquat L c (OSrc s)))).
  { intros s Q S. destruct (oquat_ok p L c T A (OSrc s) r HL HC ltac:(lra) S I) as (r' & (F & N & _) & _). apply (dchk_q_ok p c T (166/5) _ (quat_rot (direction (qval (fconj (oquat L c (OSrc s)))))) HC); [|exact (src_checked p SAA 0)].
    split; [now apply fconj_fin|]. rewrite fconj_val, qnorm_conj. split; [exact N|reflexivity]. }
  destruct x as [q|m|[a n|v|z y x|x y z]]; cbn [d_inverted oinverted finverted okind_of] in *.
  - left. split; [|exact I]. destruct ST as (F & N & _). rewrite (dchk_q_ok p c T A (fconj q) (quat_rot (direction (qval (fconj q)))) HC); [reflexivity| |exact CK].
    split; [now apply fconj_fin|]. rewrite fconj_val, qnorm_conj. split; [exact N|reflexivity].
  - left. split; [reflexivity|exact I].
  - assert (K : vfinite (fvneg n) /\ Rabs (vnorm (vval (fvneg n)) - 1) <= 8 / 10 ^ 7 \/ tiny_axis L (fvneg n)).
    { destruct AX as [[F K]|K]; [left|right; now apply tiny_axis_neg]. destruct (fvneg_norm p n F) as [F' E]. rewrite E. now split. }
    destruct (dchk_a_ok p L c (fneg (fneg a)) (fvneg n) HC K) as [D|[D W]]; rewrite D; cbn [dmap dbind]; [left; split; [reflexivity|exact K]|right; eexists; split; [reflexivity|exact W]].
  - left. split; [reflexivity|exact I].
  - left. pose proof (d_quat_src p L c T A _ r HL HC ltac:(lra) H) as Q. rewrite Q. cbn [dbind]. rewrite (EU _ Q ST). cbn [dbind oquat]. split; [reflexivity|]. unfold fzyx_of_quat. destruct (feuler_core _ _ _ _ _ _ _ _ _ _ _ _) as [[? ?] ?]; exact I.
  - left. pose proof (d_quat_src p L c T A _ r HL HC ltac:(lra) H) as Q. rewrite Q. cbn [dbind]. rewrite (EU _ Q ST). cbn [dbind oquat]. split; [reflexivity|]. unfold fxyz_of_quat. destruct (feuler_core _ _ _ _ _ _ _ _ _ _ _ _) as [[? ?] ?]; exact I.
Qed.
Lemma d_fix_fine p L P c T A (x : fobject p) r : choices6_ok c -> ready T A x r -> fine_res L (d_fix c P x) (ofix P c x).
Proof.
  intros HC (ST & _ & _). pose proof (fu_pos p) as U. pose proof (fu_24 p) as V. destruct x as [q|m|[a n|v|z y x|x y z]]; cbn [d_fix]; try (left; split; [reflexivity|exact I]).
  destruct ST as [(Fa & Fn & _ & AO) _]. assert (NB : 1/2 <= vnorm (vval n) <= 5/2). { destruct AO as [K|[_ K]]; [|exact K]. rewrite roundoff_fu in K. apply Rabs_both in K. lra. }
  pose proof HC as ((_ & (O & _) & _) & _). destruct (fvnormalized_err p (x_norm (ch_ext (c6_src c))) (c6_div c) n O Fn NB) as [F D].
  destruct (vdirection_dist _ _ (6 * fu p) (vdir_unit (vval n) ltac:(lra)) D ltac:(lra)) as (_ & _ & K).
  assert (K' : Rabs (vnorm (vval (fvnormalized (x_norm (ch_ext (c6_src c))) (c6_div c) n)) - 1) <= 8 / 10 ^ 7) by lra.
  left. destruct (faxis_assert_spec p (x_norm (ch_ext (c6_src c))) _ O F (axis_range _ K')) as [Z _]. unfold dchk_a. rewrite (Z K'). split; [reflexivity|]. left. now split.
Qed.
Lemma d_identity_fine p L c k : choices6_ok c -> fine_res L (d_identity (p := p) c k) (oidentity k).
Proof.
  intro HC. destruct (unit_x_legal p) as [F1 V1]. assert (K : Rabs (vnorm (vval (funit_x p)) - 1) <= 8 / 10 ^ 7) by (rewrite V1, Rminus_diag_eq, Rabs_R0 by reflexivity; lra).
  destruct k as [| |[ | | | ]]; cbn [d_identity oidentity]; try (left; split; [reflexivity|exact I]).
  left. pose proof HC as ((_ & (O & _) & _) & _). destruct (faxis_assert_spec p (x_norm (ch_ext (c6_src c))) _ O F1 (axis_range _ K)) as [Z _]. unfold dchk_a. rewrite (Z K). split; [reflexivity|]. left. now split.
Qed.
Lemma legal_fine p L T A (x : fobject p) r : stands T A x r -> axis_legal x -> axis_fine L x.
Proof. destruct x as [q|m|[a n|v|z y x|x y z]]; cbn [stands axis_legal axis_fine object_ok]; try (intros; exact I). intros ((_ & F & _) & _) K. left. now split. Qed.

Lemma d_step_fine p L P T (x : fobject p) r a (c : ocall p) : libm_ok L -> pow_ok P -> 64/10 <= T <= 65/10 -> ocall_ok c -> operand_legal c ->
  okind_of x = acc_class a -> ready T (acc_defect a) x r -> axis_fine L x -> acc_limit a c -> dbg_limit a c ->
  fine_res L (d_step L P x (fst (fst c)) (snd (fst c))) (ostep L P x (fst (fst c)) (snd (fst c))).
Proof.
  intros HL HP TT HC OL EK H AX LIM DL. pose proof (fu_pos p) as U. pose proof (fu_24 p) as V.
  destruct c as [[o ch] [e B]]. destruct HC as (HC & B0 & HO). destruct a as [k A E]; cbn [acc_class acc_defect acc_error] in *. subst k. unfold operand_legal in OL. cbn [fst] in OL.
  destruct o as [t|t|t| | | |k]; cbn [ostep d_step acc_limit dbg_limit fst snd acc_class acc_defect acc_error] in *.
  - assert (RT : ready T B t e). { apply operand_ready; [lra|exact B0|exact HO|]. intro Q. rewrite Q in LIM. exact (prod_small_r _ _ _ _ LIM). }
    exact (d_product_fine p L ch T A B x t r e HL HC ltac:(lra) H RT LIM DL).
  - destruct LIM as [LP LC]. destruct DL as [DP DC]. assert (RT : ready T B t e). { apply operand_ready; [lra|exact B0|exact HO|]. intro Q. rewrite Q in LP. exact (prod_small_l _ _ _ _ LP). }
    eapply fine_bind; [exact (d_product_fine p L ch T B A t x e r HL HC ltac:(lra) RT H LP DP)|]. intro AY.
    destruct (oproduct_ready p L ch T B A t x e r HL HC ltac:(lra) RT H LP) as (X & r' & Y & Z).
    apply (d_convert_fine p L ch (okind_of x) (T + 160 * fu p) _ _ r' HL HC ltac:(lra) Y AY); rewrite X; assumption.
  - assert (RT : ready T B t e). { apply operand_ready; [lra|exact B0|exact HO|]. intro Q. rewrite Q in LIM. exact (limit_small _ _ _ LIM). }
    exact (d_convert_fine p L ch (okind_of x) T B t e HL HC ltac:(lra) RT (legal_fine p L _ _ t e HO OL) LIM DL).
  - exact (d_inverted_fine p L ch T A x r HL HC ltac:(lra) H AX DL).
  - apply d_identity_fine, HC.
  - exact (d_fix_fine p L P ch T A x r HC H).
  - exact (d_convert_fine p L ch k T A x r HL HC ltac:(lra) H AX LIM DL).
Qed.
Lemma d_run_fine p L P : libm_ok L -> pow_ok P -> forall (l : list (ocall p)) T (x : fobject p) r a, 64/10 <= T -> T + 320 * INR (length l) * fu p <= 65/10 -> Forall ocall_ok l -> Forall operand_legal l ->
  okind_of x = acc_class a -> ready T (acc_defect a) x r -> axis_fine L x -> acc_ok a l -> dbg_limits a l ->
  fine_res L (d_run L P x (map fst l)) (orun L P x (map fst l)).
Proof.
  intros HL HP. induction l as [|c l IH]; intros T x r a T1 T2 HC OL EK H AX OK DOK; cbn [map length orun fold_left acc_ok dbg_limits d_run] in *.
  - left. now split.
  - destruct OK as [LIM OK]. destruct DOK as [DL DOK]. inversion HC as [|c' l' Hc Hl]; subst. inversion OL as [|c' l' Oc Ol]; subst. rewrite S_INR in T2. pose proof (fu_pos p) as U. pose proof (pos_INR (length l)) as PI.
    assert (0 <= INR (length l) * fu p) by (apply Rmult_le_pos; lra).
    destruct (ostep_ok p L P T x r a c HL HP ltac:(lra) Hc EK H LIM) as (X & r' & Y & _).
    eapply fine_bind; [exact (d_step_fine p L P T x r a c HL HP ltac:(lra) Hc Oc EK H AX LIM DL)|]. intro AY.
    exact (IH (T + 320 * fu p) _ r' (acc_step a c) ltac:(lra) ltac:(lra) Hl Ol X Y AY OK DOK).
Qed.
