(** * FloatXcast2: rotation vectors of one primitive type to quaternions and
    angle-axes of the other. *)
From Coq Require Import ZArith Reals Lra Psatz Bool List Lia.
From Flocq Require Import IEEE754.BinarySingleNaN Core.Core.
From Verif Require Import Linalg Spec SpecFacts SpecClose ModelCommon ModelEigen CommonFacts ModelRotation ConvFacts RotFacts CloseFacts RVFacts EulerNear PiBounds
  FloatModel FloatFacts FloatModel2 SpecFloatQ FloatQFacts FloatQProd FloatQHist FloatQRot FloatMHist FloatCast FloatWrap FloatModel3 SpecLibm SpecBuild FloatBuild FloatBuild2 FloatBuild3 FloatBuild4 FloatModel4 FloatExt FloatExt2 FloatExt3 FloatExt4 SpecExt Claims18 FloatExt5 FloatExt6 FloatModel5 FloatModel6 FloatMat FloatModel7 SpecSix FloatSix FloatUnique RandomFacts FloatModel21 SpecXcast FloatXcast.
Import ListNotations.
Local Open Scope R_scope.

Lemma cvt_nonneg p q (a : fl p) : is_finite a = true -> 0 <= B2R a <= bpow radix2 100 -> 0 <= B2R (fcvt q a).
Proof.
  intros F [A B]. destruct (fcvt_R p q a F) as [E _]; [rewrite Rabs_pos_eq by exact A; pose proof (bpow100_fbig q); lra|]. rewrite E. now apply rnd_nonneg.
Qed.
Lemma vcast_rel p q (v : FV p) : vfinite v -> vnorm (vval v) <= 10 ->
  vfinite (fvcast q v) /\ vdist (vval (fvcast q v)) (vval v) <= narrows p q * fu q * vnorm (vval v) + 7/4 * (narrows p q * eta q).
Proof.
  intros F N. split; [apply (vcast_err p q v F N)|]. destruct F as (Fx & Fy & Fz). destruct (vcomp_le (vval v)) as (Cx & Cy & Cz). cbn [vval Linalg.vx Linalg.vy Linalg.vz] in Cx, Cy, Cz. pose proof small_100 as B.
  destruct (cvt_err p q _ Fx ltac:(lra)) as [Gx Ex]. destruct (cvt_err p q _ Fy ltac:(lra)) as [Gy Ey]. destruct (cvt_err p q _ Fz ltac:(lra)) as [Gz Ez].
  pose proof (narrows_01 p q) as W. pose proof (fu_pos q) as U. pose proof (eta_pos q) as P.
  apply (vec_rel_err _ _ (narrows p q * fu q) (narrows p q * eta q)); try assumption; apply Rmult_le_pos; lra.
Qed.
Lemma eta_41 p : eta p <= fu p * (/ 1000 * bpow radix2 (-41)).
Proof.
  eapply Rle_trans; [apply eta_u|]. pose proof (fu_pos p). apply Rmult_le_compat_l; [lra|]. replace (-126)%Z with (-85 + -41)%Z by lia. rewrite bpow_plus. apply Rmult_le_compat_r; [apply bpow_ge_0|].
  apply Rle_trans with (bpow radix2 (-10)); [apply bpow_le; lia|cbn; lra].
Qed.

Lemma xquat_err p q L t t2 (v : FV p) : libm_ok L -> order 3 t -> order 2 t2 -> vfinite v -> vnorm (vval v) <= 7 ->
  qfinite (xquat_of_rv q L t t2 v) /\
  qdist (qval (xquat_of_rv q L t t2 v)) (rv_quat (vval (fvcast q v))) <= 7 * fu q + 5/4 * (31/10 * fu p + 21/10 * narrows p q * fu q) * vnorm (vval (fvcast q v)).
Proof.
  intros HL O O2 F HV. pose proof (fu_pos p) as Up. pose proof (fu_24 p) as Vp. pose proof (fu_pos q) as U. pose proof (fu_24 q) as V24. pose proof (narrows_01 p q) as NW. pose proof (eta_pos q) as P. pose proof (eta_41 q) as E41.
  destruct (vcast_rel p q v F ltac:(lra)) as [G D]. set (n := narrows p q) in *. set (w := fvcast q v) in *. set (V := vnorm (vval v)) in *. set (W := vnorm (vval w)).
  assert (V0 : 0 <= V) by apply vn_nonneg. assert (W0 : 0 <= W) by apply vn_nonneg. pose proof (vnorm_diff (vval w) (vval v)) as DN. fold V W in DN. apply Rabs_both in DN.
  set (b40 := bpow radix2 (-40)) in *. assert (B41 : bpow radix2 (-41) = / 2 * b40) by (unfold b40; change (-41)%Z with (-1 + -40)%Z; rewrite bpow_plus; reflexivity).
  assert (B38 : bpow radix2 (-38) = 4 * b40) by (unfold b40; change (-38)%Z with (2 + -40)%Z; rewrite bpow_plus; reflexivity).
  assert (B56 : bpow radix2 (-56) <= / 1000 * b40) by (unfold b40; change (-56)%Z with (-16 + -40)%Z; rewrite bpow_plus; apply Rmult_le_compat_r; [apply bpow_ge_0|cbn; lra]).
  assert (B54 : bpow radix2 (-54) <= / 1000 * b40) by (unfold b40; change (-54)%Z with (-14 + -40)%Z; rewrite bpow_plus; apply Rmult_le_compat_r; [apply bpow_ge_0|cbn; lra]).
  assert (b0 : 0 < b40) by apply bpow_gt_0. rewrite B41 in E41.
  assert (NU : 0 <= n * fu q <= fu q). { split; [apply Rmult_le_pos; lra|]. rewrite <- (Rmult_1_l (fu q)) at 2. apply Rmult_le_compat_r; lra. }
  assert (NE : 0 <= n * eta q <= n * fu q * (/ 2000 * b40)). { split; [apply Rmult_le_pos; lra|]. rewrite Rmult_assoc. apply Rmult_le_compat_l; lra. }
  assert (NUV : 0 <= n * fu q * V <= / 10000 * V) by (split; [apply Rmult_le_pos; lra|apply Rmult_le_compat_r; lra]).
  assert (NEb : n * fu q * (/ 2000 * b40) <= / 10000 * (/ 2000 * b40)) by (apply Rmult_le_compat_r; lra).
  assert (HB : bpow radix2 3 <= bpow radix2 50) by (apply bpow_le; lia). change (bpow radix2 3) with 8 in HB.
  set (th0 := fvnorm t v).
  assert (N0 : is_finite th0 = true /\ 0 <= B2R th0 <= (1 + / 1000) * V + / 1000 * b40).
  { destruct (Rle_or_lt V (bpow radix2 (-56))) as [S|S].
    - destruct (fvnorm_small2 p t v O F S) as [X Y]. fold th0 in X, Y. split; [exact X|]. lra.
    - destruct (fvnorm_big2 p t v O F ltac:(fold V; lra)) as [X Y]. fold th0 V in X, Y. apply Rabs_both in Y. assert (0 <= fu p * V <= / 10000 * V) by (split; [apply Rmult_le_pos; lra|apply Rmult_le_compat_r; lra]). split; [exact X|]. lra. }
  destruct N0 as [F0 N0]. pose proof small_100 as B100. assert (b1 : b40 <= 1) by (unfold b40; change 1 with (bpow radix2 0); apply bpow_le; lia).
  destruct (cvt_err p q th0 F0) as [Fth Eth]; [rewrite Rabs_pos_eq; lra|]. fold n in Eth. rewrite (Rabs_pos_eq (B2R th0)) in Eth by lra.
  pose proof (cvt_nonneg p q th0 F0 ltac:(lra)) as Pth.
  assert (NUT : 0 <= n * fu q * B2R th0 <= / 10000 * B2R th0) by (split; [apply Rmult_le_pos; lra|apply Rmult_le_compat_r; lra]).
  unfold xquat_of_rv. fold w th0. set (d := 31/10 * fu p + 21/10 * n * fu q).
  apply (rv_rest_err q L t2 (fcvt q th0) w d HL O2 Fth G).
  - fold W. lra.
  - unfold d. lra.
  - fold W. destruct (Rle_or_lt W b40) as [S|S]; [left|right].
    + split; [exact S|]. split; [exact Pth|]. apply Rabs_both in Eth. fold b40. rewrite B38. lra.
    + split; [left; exact S|]. assert (VL : / 2 * b40 <= V) by lra.
      destruct (fvnorm_big2 p t v O F ltac:(fold V; lra)) as [_ Y]. fold th0 V in Y.
      assert (KV : (1 - / 5000) * V <= W) by (assert (n * fu q * (/ 2000 * b40) <= / 10000 * V) by lra; lra).
      assert (NB : n * fu q * (/ 2000 * b40) <= n * fu q * (/ 1000 * V)) by (apply Rmult_le_compat_l; lra).
      assert (TH : n * fu q * B2R th0 <= n * fu q * ((1 + / 500) * V)). { apply Rmult_le_compat_l; [lra|]. apply Rabs_both in Y. assert (0 <= fu p * V <= / 10000 * V) by (split; [apply Rmult_le_pos; lra|apply Rmult_le_compat_r; lra]). lra. }
      replace (B2R (fcvt q th0) - W) with ((B2R (fcvt q th0) - B2R th0) + (B2R th0 - V) + (V - W)) by ring.
      eapply Rle_trans; [apply Rabs_triang|]. eapply Rle_trans; [apply Rplus_le_compat; [apply Rabs_triang|apply Rle_refl]|].
      assert (Rabs (V - W) <= vdist (vval w) (vval v)) by (apply Rabs_le; lra).
      assert (dV : (305/100 * fu p + 206/100 * n * fu q) * V <= (305/100 * fu p + 206/100 * n * fu q) * (W * (5001/5000 + / 5000))). { apply Rmult_le_compat_l; [lra|]. lra. }
      assert (0 <= fu p * W) by (apply Rmult_le_pos; lra). assert (0 <= n * fu q * W) by (apply Rmult_le_pos; lra).
      unfold d. lra.
Qed.

(** ** AngleAxis from RotationVector *)
Lemma flt_wide p q (a : fl p) (b : fl q) : is_finite a = true -> is_finite b = true -> flt (fcvt F64 a) (fcvt F64 b) = Rlt_bool (B2R a) (B2R b).
Proof. intros A B. rewrite (flt_R F64) by (now rewrite widen_fin). now rewrite !widen_val. Qed.
Lemma xaa_err p q b (v : FV p) : order 3 (x_norm b) -> vfinite v -> vnorm (vval v) <= 7 ->
  let w := fvcast q v in
  (xaa_of_rv q b v = SrcAA fzero (funit_x q) /\ vnorm (vval w) <= (1 + / 200) * short_length p) \/
  (exists a n, xaa_of_rv q b v = SrcAA a n /\ is_finite a = true /\ vfinite n /\ 0 < vnorm (vval w) /\
     Rabs (B2R a - vnorm (vval w)) <= (3 + / 20) * fu q * vnorm (vval w) /\ vdist (vval n) (vscale (/ vnorm (vval w)) (vval w)) <= 6 * fu q).
Proof.
  intros O FS HS w0. subst w0. pose proof (fu_pos q) as U. pose proof (fu_24 q) as V. destruct (dummy_short p) as (D1 & D2 & D3). pose proof (fdummy_fin p) as Fd. destruct (vcast_err p q v FS ltac:(lra)) as [Fw _]. set (w := fvcast q v) in *.
  assert (HV : vnorm (vval w) <= 7 + / 100) by (destruct (cast_rv p q 7 v ltac:(lra) (Logic.conj FS HS)) as [(_ & X) _]; fold w in X; lra). set (N := vnorm (vval w)) in *. assert (N0 : 0 <= N) by apply vn_nonneg. pose proof (bpow_gt_0 radix2 (-42)) as P42.
  unfold xaa_of_rv. cbv zeta. fold w.
  destruct (Rle_or_lt N (bpow radix2 (-56))) as [S|S].
  - destruct (fvnorm_small2 q (x_norm b) w O Fw S) as [Fn Hn].
    assert (B56 : bpow radix2 (-56) <= bpow radix2 (-42)) by (apply bpow_le; lia). assert (B54 : bpow radix2 (-54) < bpow radix2 (-42)) by (apply bpow_lt; lia).
    rewrite (flt_wide q p (fvnorm (x_norm b) w) (fdummy p) Fn Fd), Rlt_bool_true by lra. left. split; [reflexivity|]. lra.
  - destruct (fvnorm_big2 q (x_norm b) w O Fw) as [Fn Hn].
    { fold N. split; [lra|]. apply Rle_trans with (bpow radix2 3); [change (bpow radix2 3) with 8; lra|apply bpow_le; lia]. }
    fold N in Hn. pose proof (Rabs_both _ _ Hn) as Hn'. assert (UN : 0 <= fu q * N <= / 100000 * N). { split; [apply Rmult_le_pos; lra|apply Rmult_le_compat_r; lra]. }
    rewrite (flt_wide q p (fvnorm (x_norm b) w) (fdummy p) Fn Fd). case Rlt_bool_spec; intro C.
    + left. split; [reflexivity|]. lra.
    + right. set (n := fvnorm (x_norm b) w) in *. set (z := fdot (x_norm b) (flist w) (flist w)) in *.
      assert (Fz : is_finite z = true).
      { destruct Fw as (Fx & Fy & Fz). destruct (fdot3_err q (x_norm b) _ _ _ _ _ _ (N * N) O Fx Fy Fz Fx Fy Fz) as [F _]; [apply dotabs3| |exact F].
        apply Rle_trans with (bpow radix2 3 * bpow radix2 3); [change (bpow radix2 3) with 8; apply Rmult_le_compat; lra|]. rewrite <- bpow_plus. apply bpow_le; lia. }
      assert (Nz : 0 <= B2R z) by (apply fdot_squares_nonneg, Fw).
      destruct (fsqrt_R q z Fz Nz) as [_ Rz]. change (fsqrt z) with n in Rz.
      assert (Pz : 0 < B2R z). { destruct Nz as [K|K]; [exact K|]. rewrite <- K, sqrt_0, rnd_0 in Rz. lra. }
      rewrite (flt_R q fzero z eq_refl Fz), Rlt_bool_true by exact Pz. change (fsqrt z) with n.
      assert (PN : 0 < N) by (pose proof (bpow_gt_0 radix2 (-56)); lra).
      assert (LB : bpow radix2 (-50) <= N <= bpow radix2 50).
      { split; [|apply Rle_trans with (bpow radix2 3); [change (bpow radix2 3) with 8; lra|apply bpow_le; lia]].
        replace (-50)%Z with (-8 + -42)%Z by lia. rewrite bpow_plus. apply Rle_trans with (/ 2 * bpow radix2 (-42)); [apply Rmult_le_compat_r; [lra|cbn; lra]|lra]. }
      assert (VC : Rabs (B2R (FloatModel2.gx w)) <= N /\ Rabs (B2R (FloatModel2.gy w)) <= N /\ Rabs (B2R (FloatModel2.gz w)) <= N) by apply (vcomp_le (vval w)).
      destruct VC as (Vx & Vy & Vz). destruct Fw as (Fx & Fy & Fz').
      destruct (fscale_down_err q (x_div b) n (FloatModel2.gx w) N Fn Fx LB Hn Vx) as [Gx Ex].
      destruct (fscale_down_err q (x_div b) n (FloatModel2.gy w) N Fn Fy LB Hn Vy) as [Gy Ey].
      destruct (fscale_down_err q (x_div b) n (FloatModel2.gz w) N Fn Fz' LB Hn Vz) as [Gz Ez].
      exists n, (fvdiv (x_div b) w n). split; [reflexivity|]. split; [exact Fn|]. split; [repeat split; assumption|]. split; [exact PN|]. split; [exact Hn|].
      eapply Rle_trans; [apply (vec_rel_err _ _ ((5 + / 10) * fu q) (/ 100 * fu q))|].
      * lra.
      * lra.
      * cbn [vval fvdiv FloatModel2.gx Linalg.vx vscale]. unfold Rdiv in Ex. rewrite Rabs_mult, (Rabs_pos_eq (/ N)) by (left; apply Rinv_0_lt_compat, PN). rewrite !(Rmult_comm (/ N)). exact Ex.
      * cbn [vval fvdiv FloatModel2.gy Linalg.vy vscale]. unfold Rdiv in Ey. rewrite Rabs_mult, (Rabs_pos_eq (/ N)) by (left; apply Rinv_0_lt_compat, PN). rewrite !(Rmult_comm (/ N)). exact Ey.
      * cbn [vval fvdiv FloatModel2.gz Linalg.vz vscale]. unfold Rdiv in Ez. rewrite Rabs_mult, (Rabs_pos_eq (/ N)) by (left; apply Rinv_0_lt_compat, PN). rewrite !(Rmult_comm (/ N)). exact Ez.
      * rewrite (vnorm_unit (vscale (/ N) (vval w))) by (apply vdir_unit, PN). lra.
Qed.

Lemma xaa_ok p q b (v : FV p) T : order 3 (x_norm b) -> 64/10 <= T <= 655/100 -> object_ok T (SrcRv v) ->
  skind_of (xaa_of_rv q b v) = SAA /\ object_ok (T + 160 * fu q) (xaa_of_rv q b v) /\
  close (46 * fu q + 101/100 * short_length p) (turns (xaa_of_rv q b v)) (turns (SrcRv (fvcast q v))).
Proof.
  intros O HT [FS HS]. pose proof (fu_pos q) as U. pose proof (fu_24 q) as V4. assert (SL : 0 < short_length p) by (destruct p; cbn; lra).
  destruct (cast_rv p q T v ltac:(lra) (Logic.conj FS HS)) as [(Fw & HV) _]. set (w := fvcast q v) in *. pose proof (xaa_err p q b v O FS ltac:(lra)) as XX; cbv zeta in XX; fold w in XX; destruct XX as [[E H]|(a & n & E & Fa & Fn & P & Ha & Hn)].
  - destruct (object_identity q (T + 160 * fu q) SAA ltac:(lra)) as (A & B & C). cbn [fidentity] in *. rewrite E. split; [exact C|]. split; [exact A|].
    rewrite B, turns_rv. rewrite <- quat_rot_id. apply close_sym. destruct (rv_quat_ok (vval w)) as [Q _].
    eapply close_mono; [|apply from_qdist; [exact Q|apply qnorm_qid|apply rv_quat_small]]. lra.
  - rewrite E. split; [reflexivity|]. set (N := vnorm (vval w)) in *. set (e := vscale (/ N) (vval w)) in *.
    assert (Ee : vnorm2 e = 1) by (apply vdir_unit, P).
    destruct (vdirection_dist (vval n) e (6 * fu q) Ee Hn ltac:(lra)) as (N2 & Dn & Nn).
    assert (HA : (3 + / 20) * fu q * N <= 21 * fu q). { apply Rle_trans with ((3 + / 20) * fu q * (656/100)); [apply Rmult_le_compat_l; lra|lra]. }
    assert (AO : axis_ok a n) by (left; rewrite roundoff_fu; lra).
    split. { cbn [object_ok]. repeat split; try apply Fn; [exact Fa| |exact AO]. apply Rabs_both in Ha. apply Rabs_le. lra. }
    rewrite turns_aa by (apply (axis_pos _ _ _ AO)). rewrite turns_rv.
    eapply close_mono; [|apply (from_qdist _ _ (23 * fu q)); [apply half_quat_qnorm, N2|apply rv_quat_ok|]]; [lra|].
    rewrite (rv_quat_half (vval w) P). fold N. fold e. eapply Rle_trans; [apply (qdist_triang _ (half_quat (B2R a) e))|].
    pose proof (half_quat_axis (B2R a) (vscale (/ vnorm (vval n)) (vval n)) e) as H1. pose proof (half_quat_angle (B2R a) N e Ee) as H2.
    assert (Rabs (sin (B2R a / 2)) <= 1) by (apply Rabs_le, SIN_bound). pose proof (Rabs_pos (sin (B2R a / 2))).
    assert (0 <= vdist (vscale (/ vnorm (vval n)) (vval n)) e) by apply vn_nonneg.
    assert (Rabs (sin (B2R a / 2)) * vdist (vscale (/ vnorm (vval n)) (vval n)) e <= 1 * vdist (vscale (/ vnorm (vval n)) (vval n)) e) by (apply Rmult_le_compat_r; lra). lra.
Qed.
