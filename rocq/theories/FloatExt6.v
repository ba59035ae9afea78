(** * FloatExt6: conversions between AngleAxis and RotationVector, and the error
    of one call, in floating-point arithmetic. *)
From Coq Require Import ZArith Reals Lra Psatz Bool List Lia.
From Flocq Require Import IEEE754.BinarySingleNaN Core.Core.
From Verif Require Import Linalg Spec SpecFacts SpecClose ModelCommon ModelEigen CommonFacts ModelRotation ConvFacts RotFacts CloseFacts RVFacts EulerNear PiBounds
  FloatModel FloatFacts FloatModel2 SpecFloatQ FloatQFacts FloatQProd FloatQHist FloatQRot FloatMHist FloatCast FloatWrap FloatModel3 SpecLibm SpecBuild FloatBuild FloatBuild2 FloatBuild3 FloatBuild4 FloatModel4 FloatExt FloatExt2 FloatExt3 FloatExt4 SpecExt Claims18 FloatExt5.
Import ListNotations.
Local Open Scope R_scope.

Lemma dummy_short p : 167 * fu p <= B2R (fdummy p) <= / 10000 /\ B2R (fdummy p) <= (1 + / 1000) * short_length p /\ bpow radix2 (-42) <= B2R (fdummy p).
Proof.
  split; [destruct (dummy_facts p) as (c & _ & _ & _ & H); exact H|]. destruct p; unfold short_length; [rewrite fdummy_32|rewrite fdummy_64]; cbn [bpow]; cbn; lra.
Qed.

(** AngleAxis from RotationVector *)
Lemma faa_of_rv_err p b (v : FV p) : order 3 (x_norm b) -> vfinite v -> vnorm (vval v) <= 7 ->
  (faa_of_rv b v = SrcAA fzero (funit_x p) /\ vnorm (vval v) <= (1 + / 200) * short_length p) \/
  (exists a n, faa_of_rv b v = SrcAA a n /\ is_finite a = true /\ vfinite n /\ 0 < vnorm (vval v) /\
     Rabs (B2R a - vnorm (vval v)) <= (3 + / 20) * fu p * vnorm (vval v) /\ vdist (vval n) (vscale (/ vnorm (vval v)) (vval v)) <= 6 * fu p).
Proof.
  intros O Fv HV. pose proof (fu_pos p) as U. pose proof (fu_24 p) as V. destruct (dummy_short p) as (D1 & D2 & D3). pose proof (fdummy_fin p) as Fd.
  set (N := vnorm (vval v)) in *. assert (N0 : 0 <= N) by apply vn_nonneg. pose proof (bpow_gt_0 radix2 (-42)) as P42.
  unfold faa_of_rv. cbv zeta.
  destruct (Rle_or_lt N (bpow radix2 (-56))) as [S|S].
  - destruct (fvnorm_small2 p (x_norm b) v O Fv S) as [Fn Hn].
    assert (B56 : bpow radix2 (-56) <= bpow radix2 (-42)) by (apply bpow_le; lia). assert (B54 : bpow radix2 (-54) < bpow radix2 (-42)) by (apply bpow_lt; lia).
    rewrite (flt_R p _ (fdummy p) Fn Fd), Rlt_bool_true by lra. left. split; [reflexivity|]. lra.
  - destruct (fvnorm_big2 p (x_norm b) v O Fv) as [Fn Hn].
    { fold N. split; [lra|]. apply Rle_trans with (bpow radix2 3); [change (bpow radix2 3) with 8; lra|apply bpow_le; lia]. }
    fold N in Hn. pose proof (Rabs_both _ _ Hn) as Hn'. assert (UN : 0 <= fu p * N <= / 100000 * N). { split; [apply Rmult_le_pos; lra|apply Rmult_le_compat_r; lra]. }
    rewrite (flt_R p _ (fdummy p) Fn Fd). case Rlt_bool_spec; intro C.
    + left. split; [reflexivity|]. lra.
    + right. set (n := fvnorm (x_norm b) v) in *. set (z := fdot (x_norm b) (flist v) (flist v)) in *.
      assert (Fz : is_finite z = true).
      { destruct Fv as (Fx & Fy & Fz). destruct (fdot3_err p (x_norm b) _ _ _ _ _ _ (N * N) O Fx Fy Fz Fx Fy Fz) as [F _]; [apply dotabs3| |exact F].
        apply Rle_trans with (bpow radix2 3 * bpow radix2 3); [change (bpow radix2 3) with 8; apply Rmult_le_compat; lra|]. rewrite <- bpow_plus. apply bpow_le; lia. }
      assert (Nz : 0 <= B2R z) by (apply fdot_squares_nonneg, Fv).
      destruct (fsqrt_R p z Fz Nz) as [_ Rz]. change (fsqrt z) with n in Rz.
      assert (Pz : 0 < B2R z). { destruct Nz as [K|K]; [exact K|]. rewrite <- K, sqrt_0, rnd_0 in Rz. lra. }
      rewrite (flt_R p fzero z eq_refl Fz), Rlt_bool_true by exact Pz. change (fsqrt z) with n.
      assert (PN : 0 < N) by (pose proof (bpow_gt_0 radix2 (-56)); lra).
      assert (LB : bpow radix2 (-50) <= N <= bpow radix2 50).
      { split; [|apply Rle_trans with (bpow radix2 3); [change (bpow radix2 3) with 8; lra|apply bpow_le; lia]].
        replace (-50)%Z with (-8 + -42)%Z by lia. rewrite bpow_plus. apply Rle_trans with (/ 2 * bpow radix2 (-42)); [apply Rmult_le_compat_r; [lra|cbn; lra]|lra]. }
      assert (VC : Rabs (B2R (gx v)) <= N /\ Rabs (B2R (gy v)) <= N /\ Rabs (B2R (gz v)) <= N) by apply (vcomp_le (vval v)).
      destruct VC as (Vx & Vy & Vz). destruct Fv as (Fx & Fy & Fz').
      destruct (fscale_down_err p (x_div b) n (gx v) N Fn Fx LB Hn Vx) as [Gx Ex].
      destruct (fscale_down_err p (x_div b) n (gy v) N Fn Fy LB Hn Vy) as [Gy Ey].
      destruct (fscale_down_err p (x_div b) n (gz v) N Fn Fz' LB Hn Vz) as [Gz Ez].
      exists n, (fvdiv (x_div b) v n). split; [reflexivity|]. split; [exact Fn|]. split; [repeat split; assumption|]. split; [exact PN|]. split; [exact Hn|].
      eapply Rle_trans; [apply (vec_rel_err _ _ ((5 + / 10) * fu p) (/ 100 * fu p))|].
      * lra.
      * lra.
      * cbn [vval fvdiv gx vx vscale]. unfold Rdiv in Ex. rewrite Rabs_mult, (Rabs_pos_eq (/ N)) by (left; apply Rinv_0_lt_compat, PN). rewrite !(Rmult_comm (/ N)). exact Ex.
      * cbn [vval fvdiv gy vy vscale]. unfold Rdiv in Ey. rewrite Rabs_mult, (Rabs_pos_eq (/ N)) by (left; apply Rinv_0_lt_compat, PN). rewrite !(Rmult_comm (/ N)). exact Ey.
      * cbn [vval fvdiv gz vz vscale]. unfold Rdiv in Ez. rewrite Rabs_mult, (Rabs_pos_eq (/ N)) by (left; apply Rinv_0_lt_compat, PN). rewrite !(Rmult_comm (/ N)). exact Ez.
      * rewrite (vnorm_unit (vscale (/ N) (vval v))) by (apply vdir_unit, PN). lra.
Qed.
Lemma qnorm_qid : qnorm qid = 1.
Proof. unfold qnorm. replace (qnorm2 qid) with 1 by lin. apply sqrt_1. Qed.
Lemma object_identity p T k : 0 <= T -> object_ok T (@fidentity p k) /\ turns (@fidentity p k) = mid /\ skind_of (@fidentity p k) = k.
Proof.
  intro HT. pose proof (fu_pos p) as U. destruct (funit_x_R p) as [F E]. assert (EX : vnorm ex = 1) by (apply vnorm_unit; lin).
  destruct k; cbn [fidentity]; (split; [|split; [|reflexivity]]).
  - split; [reflexivity|]. split; [exact F|]. split; [cbn; rewrite Rabs_R0; exact HT|]. left. rewrite E, EX, Rminus_diag_eq, Rabs_R0, roundoff_fu by reflexivity. lra.
  - rewrite turns_aa by (rewrite E, EX; lra). change (B2R (fzero (p := p))) with 0. rewrite qid_half by (apply vdir_unit; rewrite E, EX; lra). apply quat_rot_id.
  - split; [repeat split|]. replace (vval (mkFV fzero fzero fzero)) with vzero by reflexivity. rewrite vnorm_vzero. exact HT.
  - rewrite turns_rv. replace (vval (mkFV fzero fzero fzero)) with vzero by reflexivity. rewrite rv_quat_zero by apply vnorm_vzero. apply quat_rot_id.
  - repeat split.
  - unfold turns; cbn [source_value meaning]. change (B2R (fzero (p := p))) with 0. unfold zyx_rot, Rot_x, Rot_y, Rot_z; cbn [zyaw zpitch zroll]. rewrite cos_0, sin_0. lin.
  - repeat split.
  - unfold turns; cbn [source_value meaning]. change (B2R (fzero (p := p))) with 0. unfold xyz_rot, Rot_x, Rot_y, Rot_z; cbn [xyaw xpitch xroll]. rewrite cos_0, sin_0. lin.
Qed.

Lemma faa_of_rv_ok p b (v : FV p) T : order 3 (x_norm b) -> 64/10 <= T <= 655/100 -> object_ok T (SrcRv v) ->
  skind_of (faa_of_rv b v) = SAA /\ object_ok (T + 160 * fu p) (faa_of_rv b v) /\ 
  close (44 * fu p + 101/100 * short_length p) (turns (faa_of_rv b v)) (turns (SrcRv v)).
Proof.
  intros O HT [Fv HV]. pose proof (fu_pos p) as U. pose proof (fu_24 p) as V4. assert (SL : 0 < short_length p) by (destruct p; cbn; lra).
  destruct (faa_of_rv_err p b v O Fv ltac:(lra)) as [[E H]|(a & n & E & Fa & Fn & P & Ha & Hn)].
  - destruct (object_identity p (T + 160 * fu p) SAA ltac:(lra)) as (A & B & C). cbn [fidentity] in *. rewrite E. split; [exact C|]. split; [exact A|].
    rewrite B, turns_rv. rewrite <- quat_rot_id. apply close_sym. destruct (rv_quat_ok (vval v)) as [Q _].
    eapply close_mono; [|apply from_qdist; [exact Q|apply qnorm_qid|apply rv_quat_small]]. lra.
  - rewrite E. split; [reflexivity|]. set (N := vnorm (vval v)) in *. set (e := vscale (/ N) (vval v)) in *.
    assert (Ee : vnorm2 e = 1) by (apply vdir_unit, P).
    destruct (vdirection_dist (vval n) e (6 * fu p) Ee Hn ltac:(lra)) as (N2 & Dn & Nn).
    assert (HA : (3 + / 20) * fu p * N <= 20 * fu p). { apply Rle_trans with ((3 + / 20) * fu p * (655/100)); [apply Rmult_le_compat_l; lra|lra]. }
    assert (AO : axis_ok a n) by (left; rewrite roundoff_fu; lra).
    split. { cbn [object_ok]. repeat split; try apply Fn; [exact Fa| |exact AO]. apply Rabs_both in Ha. apply Rabs_le. lra. }
    rewrite turns_aa by (apply (axis_pos _ _ _ AO)). rewrite turns_rv.
    eapply close_mono; [|apply (from_qdist _ _ (22 * fu p)); [apply half_quat_qnorm, N2|apply rv_quat_ok|]]; [lra|].
    rewrite (rv_quat_half (vval v) P). fold N. fold e. eapply Rle_trans; [apply (qdist_triang _ (half_quat (B2R a) e))|].
    pose proof (half_quat_axis (B2R a) (vscale (/ vnorm (vval n)) (vval n)) e) as H1. pose proof (half_quat_angle (B2R a) N e Ee) as H2.
    assert (Rabs (sin (B2R a / 2)) <= 1) by (apply Rabs_le, SIN_bound). pose proof (Rabs_pos (sin (B2R a / 2))).
    assert (0 <= vdist (vscale (/ vnorm (vval n)) (vval n)) e) by apply vn_nonneg.
    assert (Rabs (sin (B2R a / 2)) * vdist (vscale (/ vnorm (vval n)) (vval n)) e <= 1 * vdist (vscale (/ vnorm (vval n)) (vval n)) e) by (apply Rmult_le_compat_r; lra). lra.
Qed.

Lemma frv_of_aa_ok p (a : fl p) n T : 0 <= T <= 655/100 -> object_ok T (SrcAA a n) ->
  object_ok (T + 160 * fu p) (frv_of_aa a n) /\ close (420 * fu p) (turns (frv_of_aa a n)) (turns (SrcAA a n)).
Proof.
  intros HT (Fa & Fn & Ha & AO). pose proof (fu_pos p) as U. pose proof (fu_24 p) as V4. pose proof (eta_u7 p) as T7. pose proof (eta_pos p) as P.
  pose proof (axis_pos _ _ _ AO) as PN. set (N := vnorm (vval n)) in *. set (e := vscale (/ N) (vval n)) in *. assert (Ee : vnorm2 e = 1) by (apply vdir_unit, PN).
  pose proof (Rabs_pos (B2R a)) as A0.
  assert (NB : N <= 5/2). { destruct AO as [K|[_ K]]; rewrite ?roundoff_fu in K; fold N in K; [apply Rabs_both in K; lra|lra]. }
  destruct (fscale_err p a n (Rabs (B2R a)) Fa Fn (Rle_refl _)) as [Fv Ev].
  { fold N. apply Rle_trans with (bpow radix2 5); [change (bpow radix2 5) with 32; apply Rle_trans with (7 * (5/2)); [apply Rmult_le_compat; lra|lra]|apply bpow_le; lia]. }
  fold N in Ev. change (mkFV (fmul a (gx n)) (fmul a (gy n)) (fmul a (gz n))) with (fvscale a n) in *. set (v := fvscale a n) in *.
  assert (AE : vscale (B2R a) (vval n) = vscale (B2R a * N) e). { unfold e, vscale; cbn [vx vy vz vval]. f_equal; field; lra. }
  assert (DE : vdist (vscale (B2R a) (vval n)) (vscale (B2R a) e) = Rabs (B2R a) * Rabs (N - 1)).
  { rewrite AE. unfold vdist. replace (vsub (vscale (B2R a * N) e) (vscale (B2R a) e)) with (vscale (B2R a * (N - 1)) e) by lin.
    rewrite vnorm_vscale, (vnorm_unit _ Ee), Rmult_1_r. apply Rabs_mult. }
  assert (D : vdist (vval v) (vscale (B2R a) e) <= 139 * fu p).
  { eapply Rle_trans; [apply (vdist_triang _ (vscale (B2R a) (vval n)))|]. rewrite DE. destruct AO as [K|[K1 K2]].
    - rewrite roundoff_fu in K. fold N in K. assert (Rabs (B2R a) * Rabs (N - 1) <= 655/100 * (20 * fu p)) by (apply Rmult_le_compat; [lra|apply Rabs_pos|lra|lra]).
      assert (N1 : N <= 1 + / 10000) by (apply Rabs_both in K; lra).
      assert (fu p * (Rabs (B2R a) * N) <= fu p * (656/100)). { apply Rmult_le_compat_l; [lra|]. apply Rle_trans with (655/100 * (1 + / 10000)); [apply Rmult_le_compat; lra|lra]. } lra.
    - rewrite roundoff_fu in K1. fold N in K2. assert (Rabs (N - 1) <= 3/2) by (apply Rabs_le; lra).
      assert (Rabs (B2R a) * Rabs (N - 1) <= 10 * fu p * (3/2)) by (apply Rmult_le_compat; [lra|apply Rabs_pos|lra|lra]).
      assert (fu p * (Rabs (B2R a) * N) <= fu p * (25 * fu p)). { apply Rmult_le_compat_l; [lra|]. apply Rle_trans with (10 * fu p * (5/2)); [apply Rmult_le_compat; lra|lra]. }
      assert (fu p * (25 * fu p) <= fu p * 1) by (apply Rmult_le_compat_l; lra). lra. }
  unfold frv_of_aa. fold v. split.
  - cbn [object_ok]. split; [exact Fv|]. pose proof (vnorm_diff (vval v) (vscale (B2R a) e)) as DD. rewrite vnorm_vscale, (vnorm_unit _ Ee) in DD. apply Rabs_both in DD. lra.
  - rewrite turns_rv, turns_aa by exact PN. fold N. fold e. rewrite (half_quat_rv _ _ Ee).
    eapply close_mono; [|apply from_qdist; [apply rv_quat_ok|apply rv_quat_ok|eapply Rle_trans; [apply rv_quat_lipschitz|apply Rmult_le_compat_l; [lra|exact D]]]]. lra.
Qed.

(** ** one call *)
Definition drop_error (p : prim) (from to : skind) : R := if drops_short from to then 101/100 * short_length p else 0.
Lemma drop_error_pos p f t : 0 <= drop_error p f t.
Proof. unfold drop_error. destruct (drops_short f t); [destruct p; cbn; lra|lra]. Qed.
Lemma extract_held p L c b k (s : fsource p) T : libm_ok L -> build_ok c -> ext_ok b -> T <= 655/100 -> object_ok T s ->
  skind_of (fsource_of_quat L b k (fquat_of L c s)) = k /\ object_ok (64/10) (fsource_of_quat L b k (fquat_of L c s)) /\
  close (extract_roundings k (33 + 2/10) * fu p) (turns (fsource_of_quat L b k (fquat_of L c s))) (turns s).
Proof.
  intros HL HC HE HT H. destruct (held_quat p L c s T HL HC HT H) as (F & e & E1 & E2 & E3). rewrite <- E2.
  apply extract_ok; try assumption. destruct k; cbn [extract_limit]; lra.
Qed.
Lemma convert_ok p L c b k (s : fsource p) T : libm_ok L -> build_ok c -> ext_ok b -> 64/10 <= T <= 655/100 -> object_ok T s ->
  skind_of (fconvert L c b k s) = k /\ object_ok (T + 160 * fu p) (fconvert L c b k s) /\
  close (4300 * fu p + drop_error p (skind_of s) k) (turns (fconvert L c b k s)) (turns s).
Proof.
  intros HL HC HE HT H. pose proof (fu_pos p) as U. pose proof (fu_24 p) as V.
  pose proof (drop_error_pos p (skind_of s) k) as DP.
  assert (SAME : skind_of s = k -> fconvert L c b k s = s -> skind_of (fconvert L c b k s) = k /\ object_ok (T + 160 * fu p) (fconvert L c b k s) /\
    close (4300 * fu p + drop_error p (skind_of s) k) (turns (fconvert L c b k s)) (turns s)).
  { intros K E. rewrite E. split; [exact K|]. split; [apply (object_wider p T); [lra|exact H]|]. apply close_refl. lra. }
  assert (THRU : fconvert L c b k s = fsource_of_quat L b k (fquat_of L c s) -> skind_of (fconvert L c b k s) = k /\ object_ok (T + 160 * fu p) (fconvert L c b k s) /\
    close (4300 * fu p + drop_error p (skind_of s) k) (turns (fconvert L c b k s)) (turns s)).
  { intro E. rewrite E. destruct (extract_held p L c b k s T HL HC HE ltac:(lra) H) as (A & B & C). split; [exact A|]. split; [apply (object_wider p (64/10)); [lra|exact B]|].
    eapply close_mono; [|exact C]. apply Rle_trans with (4200 * fu p); [apply Rmult_le_compat_r; [lra|destruct k; cbn [extract_roundings]; lra]|lra]. }
  assert (EUL : k = SRv -> fconvert L c b k s = match faa_of_quat L b (fquat_of L c s) with SrcAA a n => frv_of_aa a n | s' => s' end ->
    skind_of (fconvert L c b k s) = k /\ object_ok (T + 160 * fu p) (fconvert L c b k s) /\
    close (4300 * fu p + drop_error p (skind_of s) k) (turns (fconvert L c b k s)) (turns s)).
  { intros -> E. rewrite E. destruct (extract_held p L c b SAA s T HL HC HE ltac:(lra) H) as (A & B & C). cbn [fsource_of_quat] in A, B, C.
    destruct (faa_of_quat L b (fquat_of L c s)) as [a n|v|z y x|x y z] eqn:Q; try discriminate A.
    destruct (frv_of_aa_ok p a n (64/10) ltac:(lra) B) as [X Y]. split; [reflexivity|]. split; [apply (object_wider p (64/10 + 160 * fu p)); [lra|exact X]|].
    eapply close_mono; [|exact (close_trans _ _ _ _ _ Y C)]. cbn [extract_roundings]. lra. }
  destruct k, s as [a n|v|z y x|x y z]; try (apply SAME; reflexivity); try (apply THRU; reflexivity); try (apply EUL; reflexivity).
  - cbn [fconvert skind_of]. destruct HE as (O & _). destruct (faa_of_rv_ok p b v T O HT H) as (A & B & C). split; [exact A|]. split; [exact B|].
    eapply close_mono; [|exact C]. unfold drop_error; cbn [drops_short]. lra.
  - cbn [fconvert skind_of]. destruct (frv_of_aa_ok p a n T ltac:(lra) H) as [X Y]. split; [reflexivity|]. split; [exact X|]. eapply close_mono; [|exact Y]. cbn [skind_of] in DP. lra.
  - cbn [fconvert skind_of]. destruct (faa_of_rv_ok p b v T ltac:(apply HE) HT H) as (A & B & C).
    destruct (faa_of_rv b v) as [a n|v'|z y x|x y z] eqn:Q; try discriminate A.
    assert (HQ : qfinite (fquat_of L c (SrcAA a n)) /\ exists e, qnorm e = 1 /\ quat_rot e = turns (SrcAA a n) /\ qdist (qval (fquat_of L c (SrcAA a n))) e <= (33 + 2/10) * fu p).
    { cbn [object_ok] in B. destruct B as (Fa & Fn & Ha & [K|[K1 K2]]).
      - destruct (source_quat p L c (SrcAA a n) 20 HL HC ltac:(lra)) as (F & e & E1 & E2 & E3); [cbn; repeat split; try assumption; apply Fn|].
        split; [exact F|]. exists e. split; [exact E1|]. split; [exact E2|]. rewrite roundoff_fu in E3. cbn [quat_roundings] in E3. lra.
      - rewrite roundoff_fu in K1. destruct (fquat_of_aa_tiny p L a n HL Fa Fn K1 K2) as [F D]. split; [exact F|].
        exists (half_quat (B2R a) (vscale (/ vnorm (vval n)) (vval n))). split; [apply half_quat_qnorm, vdir_unit; lra|]. split; [symmetry; apply turns_aa; lra|]. cbn [fquat_of]. lra. }
    destruct HQ as (F & e & E1 & E2 & E3).
    destruct (extract_ok p L b SXyz _ e (33 + 2/10) HL HE F E1 ltac:(cbn [extract_limit]; lra) E3) as (X & Y & Z). cbn [fsource_of_quat extract_roundings] in X, Y, Z.
    split; [exact X|]. split; [apply (object_wider p (64/10)); [lra|exact Y]|]. rewrite E2 in Z. eapply close_mono; [|exact (close_trans _ _ _ _ _ Z C)].
    unfold drop_error; cbn [drops_short]. lra.
Qed.
Lemma product_ok p L c b o (l r : fsource p) T : libm_ok L -> build_ok c -> ext_ok b -> orders4_ok o -> T <= 655/100 -> object_ok T l -> object_ok T r ->
  skind_of (fproduct L c b o l r) = skind_of l /\ object_ok (64/10) (fproduct L c b o l r) /\
  close (extract_roundings (skind_of l) 76 * fu p) (turns (fproduct L c b o l r)) (mmul (turns l) (turns r)).
Proof.
  intros HL HC HE HO HT Hl Hr. pose proof (fu_pos p) as U.
  destruct (held_quat p L c l T HL HC HT Hl) as (F & e & E1 & E2 & E3). destruct (held_quat p L c r T HL HC HT Hr) as (G & g & G1 & G2 & G3).
  destruct (fmult_close p o _ _ e g (33 + 2/10) (33 + 2/10) HO F G E1 G1 ltac:(lra) ltac:(lra) E3 G3) as (P1 & P2 & P3).
  rewrite <- E2, <- G2, <- quat_rot_hamilton. unfold fproduct. apply extract_ok; try assumption; [destruct (skind_of l); cbn [extract_limit]; lra|]. eapply Rle_trans; [exact P3|]. apply Rmult_le_compat_r; lra.
Qed.
Lemma vneg_val p (v : FV p) : vval (fvneg v) = vscale (-1) (vval v) /\ (vfinite (fvneg v) <-> vfinite v) /\ vnorm (vval (fvneg v)) = vnorm (vval v).
Proof.
  destruct (fneg_R p (gx v)) as [X1 X2]. destruct (fneg_R p (gy v)) as [Y1 Y2]. destruct (fneg_R p (gz v)) as [Z1 Z2].
  assert (E : vval (fvneg v) = vscale (-1) (vval v)) by (unfold vval, fvneg, vscale; cbn [gx gy gz vx vy vz]; rewrite X1, Y1, Z1; f_equal; ring).
  split; [exact E|]. split; [unfold vfinite, fvneg; cbn [gx gy gz]; rewrite X2, Y2, Z2; tauto|]. rewrite E, vnorm_vscale, Rabs_m1. ring.
Qed.
Lemma inverted_ok p L c b (s : fsource p) T : libm_ok L -> build_ok c -> ext_ok b -> 64/10 <= T <= 655/100 -> object_ok T s ->
  skind_of (finverted L c b s) = skind_of s /\ object_ok T (finverted L c b s) /\ close (4200 * fu p) (turns (finverted L c b s)) (mtrans (turns s)).
Proof.
  intros HL HC HE HT H. pose proof (fu_pos p) as U.
  assert (EUL : forall k, finverted L c b s = fsource_of_quat L b k (fconj (fquat_of L c s)) -> skind_of s = k ->
    skind_of (finverted L c b s) = skind_of s /\ object_ok T (finverted L c b s) /\ close (4200 * fu p) (turns (finverted L c b s)) (mtrans (turns s))).
  { intros k E K. rewrite E, K. destruct (held_quat p L c s T HL HC ltac:(lra) H) as (F & e & E1 & E2 & E3).
    destruct (extract_ok p L b k (fconj (fquat_of L c s)) (conj e) (33 + 2/10) HL HE) as (A & B & C).
    - now apply fconj_fin.
    - rewrite qnorm_conj. exact E1.
    - destruct k; cbn [extract_limit]; lra.
    - rewrite fconj_val, qdist_conj. exact E3.
    - split; [exact A|]. split; [apply (object_wider p (64/10)); [lra|exact B]|]. rewrite <- E2, <- quat_rot_conj. eapply close_mono; [|exact C].
      apply Rmult_le_compat_r; [lra|]. destruct k; cbn [extract_roundings]; lra. }
  destruct s as [a n|v|z y x|x y z]; [| |apply (EUL SZyx); reflexivity|apply (EUL SXyz); reflexivity]; cbn [finverted skind_of]; (split; [reflexivity|]).
  - destruct H as (Fa & Fn & Ha & AO). pose proof (axis_pos _ _ _ AO) as PN. destruct (vneg_val p n) as (E & Fin & Nn). destruct (fneg_R p a) as [A1 A2]. destruct (fneg_R p (fneg a)) as [A3 A4].
    assert (AA : B2R (fneg (fneg a)) = B2R a) by (rewrite A3, A1; ring).
    split. { cbn [object_ok]. rewrite A4, A2, AA. split; [exact Fa|]. split; [now apply Fin|]. split; [exact Ha|]. unfold axis_ok. rewrite AA, Nn. exact AO. }
    rewrite !turns_aa by (rewrite ?Nn; exact PN). rewrite AA, Nn, E. rewrite <- quat_rot_conj. apply close_eq; [|lra]. f_equal.
    unfold half_quat, conj, vscale; cbn [qw qx qy qz vx vy vz]. f_equal; ring.
  - destruct H as (Fv & Nv). destruct (vneg_val p v) as (E & Fin & Nn).
    split; [split; [now apply Fin|rewrite Nn; exact Nv]|]. rewrite !turns_rv, <- quat_rot_conj. apply close_eq; [|lra]. f_equal.
    assert (S : rv_sinc (vval (fvneg v)) = rv_sinc (vval v)) by (unfold rv_sinc; rewrite Nn; reflexivity).
    unfold rv_quat. rewrite S, Nn, E. unfold conj, vscale; cbn [qw qx qy qz vx vy vz]. f_equal; ring.
Qed.
