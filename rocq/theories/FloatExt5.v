(** * FloatExt5: conversions, products and inverses of AngleAxis, RotationVector
    and Euler angle objects in floating-point arithmetic. *)
From Coq Require Import ZArith Reals Lra Psatz Bool List Lia.
From Flocq Require Import IEEE754.BinarySingleNaN Core.Core.
From Verif Require Import Linalg Spec SpecFacts SpecClose ModelCommon ModelEigen CommonFacts ModelRotation ConvFacts RotFacts CloseFacts RVFacts EulerNear PiBounds
  FloatModel FloatFacts FloatModel2 SpecFloatQ FloatQFacts FloatQProd FloatQHist FloatQRot FloatMHist FloatCast FloatWrap FloatModel3 SpecLibm SpecBuild FloatBuild FloatBuild2 FloatBuild3 FloatBuild4 FloatModel4 FloatExt FloatExt2 FloatExt3 FloatExt4 SpecExt Claims18.
Import ListNotations.
Local Open Scope R_scope.

(** ** the rotation vector of a half-angle quaternion is Lipschitz *)
Lemma qid_half e : vnorm2 e = 1 -> half_quat 0 e = qid.
Proof. intro E. unfold half_quat, qid. replace (0 / 2) with 0 by field. rewrite cos_0, sin_0. f_equal; ring. Qed.
Lemma half_quat_small a e : vnorm2 e = 1 -> qdist (half_quat a e) qid <= Rabs a / 2.
Proof. intro E. rewrite <- (qid_half e E). eapply Rle_trans; [apply half_quat_angle, E|]. apply Req_le. f_equal. f_equal. ring. Qed.
Lemma rv_quat_small x : qdist (rv_quat x) qid <= vnorm x / 2.
Proof.
  pose proof (vn_nonneg x) as N. destruct (Rle_lt_or_eq_dec 0 _ N) as [P|Z].
  - rewrite (rv_quat_half x P). eapply Rle_trans; [apply half_quat_small, vdir_unit, P|]. rewrite Rabs_pos_eq by exact N. lra.
  - rewrite rv_quat_zero by lra. rewrite qdist_self. lra.
Qed.
Lemma rv_quat_lipschitz x y : qdist (rv_quat x) (rv_quat y) <= 3/2 * vdist x y.
Proof.
  pose proof (vn_nonneg x) as Nx. pose proof (vn_nonneg y) as Ny. pose proof (vnorm_diff x y) as D. assert (D0 : 0 <= vdist x y) by apply vn_nonneg.
  destruct (Rle_lt_or_eq_dec 0 _ Nx) as [Px|Zx].
  2:{ rewrite (rv_quat_zero x) by lra. rewrite qdist_sym. eapply Rle_trans; [apply rv_quat_small|]. rewrite <- Zx in D. rewrite Rabs_minus_sym, Rabs_pos_eq in D by lra. lra. }
  destruct (Rle_lt_or_eq_dec 0 _ Ny) as [Py|Zy].
  2:{ rewrite (rv_quat_zero y) by lra. eapply Rle_trans; [apply rv_quat_small|]. rewrite <- Zy in D. rewrite Rabs_pos_eq in D by lra. lra. }
  rewrite (rv_quat_half x Px), (rv_quat_half y Py). set (ex' := vscale (/ vnorm x) x). set (ey' := vscale (/ vnorm y) y).
  assert (Ey : vnorm2 ey' = 1) by (apply vdir_unit, Py).
  eapply Rle_trans; [apply (qdist_triang _ (half_quat (vnorm x) ey'))|].
  pose proof (half_quat_axis (vnorm x) ex' ey') as H1. pose proof (half_quat_angle (vnorm x) (vnorm y) ey' Ey) as H2.
  assert (S1 : Rabs (sin (vnorm x / 2)) <= vnorm x / 2). { pose proof (sin_abs_le (vnorm x / 2)) as S1. rewrite (Rabs_pos_eq (vnorm x / 2)) in S1 by lra. exact S1. }
  assert (V1 : vnorm x * vdist ex' ey' <= 2 * vdist x y).
  { unfold vdist at 1. rewrite <- (Rabs_pos_eq (vnorm x)) at 1 by lra. rewrite <- vnorm_vscale.
    replace (vscale (vnorm x) (vsub ex' ey')) with (vadd (vsub x y) (vscale (vnorm y - vnorm x) ey')).
    2:{ unfold ex', ey', vscale, vadd, vsub; cbn [vx vy vz]. f_equal; field; lra. }
    eapply Rle_trans; [apply vnorm_triang|]. rewrite vnorm_vscale, (vnorm_unit _ Ey), Rabs_minus_sym. unfold vdist in *. lra. }
  assert (0 <= vdist ex' ey') by apply vn_nonneg.
  assert (Rabs (sin (vnorm x / 2)) * vdist ex' ey' <= vnorm x / 2 * vdist ex' ey') by (apply Rmult_le_compat_r; assumption). lra.
Qed.
(** a e with e of length one, as a rotation vector *)
Lemma half_quat_rv a e : vnorm2 e = 1 -> half_quat a e = rv_quat (vscale a e).
Proof.
  intro E. pose proof (vnorm_unit _ E) as N. destruct (Req_dec a 0) as [->|A].
  - rewrite (qid_half e E), rv_quat_zero; [reflexivity|]. rewrite vnorm_vscale, N, Rabs_R0. ring.
  - assert (NN : vnorm (vscale a e) = Rabs a) by (rewrite vnorm_vscale, N; ring). pose proof (Rabs_pos_lt a A) as P.
    rewrite rv_quat_half by (rewrite NN; exact P). rewrite NN. unfold half_quat, vscale; cbn [vx vy vz]. 
    destruct (Rle_or_lt 0 a) as [H|H].
    + rewrite !(Rabs_pos_eq a H). f_equal; field; exact A.
    + rewrite (Rabs_left a H). replace (- a / 2) with (- (a / 2)) by field. rewrite cos_neg, sin_neg. f_equal; field; exact A.
Qed.

(** ** the quaternion of an object *)
Lemma fquat_of_aa_tiny p L (a : fl p) (n : FV p) : libm_ok L -> is_finite a = true -> vfinite n -> Rabs (B2R a) <= 10 * fu p -> 1/2 <= vnorm (vval n) <= 5/2 ->
  qfinite (fquat_of_aa L a n) /\ qdist (qval (fquat_of_aa L a n)) (half_quat (B2R a) (vscale (/ vnorm (vval n)) (vval n))) <= 28 * fu p.
Proof.
  intros HL Fa Fn Ha Hn. pose proof (fu_pos p) as U. pose proof (fu_24 p) as V. pose proof (eta_u7 p) as T. pose proof (eta_pos p) as P.
  destruct (half_R p a Fa) as [Fh Eh]. set (ha := fmul (fhalf p) a) in *. apply Rabs_both in Ha. apply Rabs_both in Eh.
  destruct (sin_accurate L HL p ha Fh) as [Fs Es]. destruct (cos_accurate L HL p ha Fh) as [Fc Ec]. rewrite roundoff_fu in Es, Ec.
  pose proof (sin_abs_le (B2R ha)) as Sb. assert (Hb : Rabs (B2R ha) <= (5 + / 100) * fu p) by (apply Rabs_le; lra).
  assert (SB : Rabs (B2R (lsin L p ha)) <= (7 + / 50) * fu p).
  { replace (B2R (lsin L p ha)) with ((B2R (lsin L p ha) - sin (B2R ha)) + sin (B2R ha)) by ring. eapply Rle_trans; [apply Rabs_triang|]. lra. }
  assert (SB' : Rabs (B2R (lsin L p ha)) <= / 1000) by lra.
  assert (NV : (7 + / 50) * fu p * vnorm (vval n) <= (17 + 6/10) * fu p).
  { apply Rle_trans with ((7 + / 50) * fu p * (5/2)); [apply Rmult_le_compat_l; lra|lra]. }
  destruct (fscale_err p (lsin L p ha) n ((7 + / 50) * fu p) Fs Fn SB) as [Fv Ev].
  { apply Rle_trans with (bpow radix2 1); [change (bpow radix2 1) with 2; lra|apply bpow_le; lia]. }
  unfold fquat_of_aa. fold ha. set (w := lcos L p ha) in *. set (s := lsin L p ha) in *. set (x := mkFV (fmul s (gx n)) (fmul s (gy n)) (fmul s (gz n))) in *.
  split; [split; [exact Fc|exact Fv]|]. set (e := vscale (/ vnorm (vval n)) (vval n)). assert (E : vnorm2 e = 1) by (apply vdir_unit; lra).
  eapply Rle_trans; [apply (qdist_triang _ qid)|]. rewrite (qdist_sym qid). pose proof (half_quat_small (B2R a) e E) as HS.
  assert (HS' : Rabs (B2R a) <= 10 * fu p) by (apply Rabs_le; lra).
  assert (X : vdist (vval x) vzero <= 18 * fu p).
  { eapply Rle_trans; [apply (vdist_triang _ (vscale (B2R s) (vval n)))|]. replace (vdist (vscale (B2R s) (vval n)) vzero) with (vnorm (vscale (B2R s) (vval n))) by (unfold vdist; f_equal; lin).
    rewrite vnorm_vscale. assert (Rabs (B2R s) * vnorm (vval n) <= (7 + / 50) * fu p * vnorm (vval n)) by (apply Rmult_le_compat_r; lra).
    assert (fu p * ((7 + / 50) * fu p * vnorm (vval n)) <= / 1000 * ((17 + 6/10) * fu p)) by (apply Rmult_le_compat; [lra|apply Rmult_le_pos; lra|lra|lra]). lra. }
  assert (W : Rabs (B2R w - 1) <= (2 + / 100) * fu p + (5 + / 100) * fu p).
  { rewrite <- cos_0. eapply Rabs_tri3; [eapply Rle_trans; [exact Ec|lra]|]. eapply Rle_trans; [apply cos_lipschitz|]. rewrite Rminus_0_r. exact Hb. }
  pose proof (qdist_parts (qval (mkFQ w (gx x) (gy x) (gz x))) qid (B2R w) (vval x) 1 vzero eq_refl eq_refl eq_refl eq_refl _ _ W X) as QP.
  assert (Q : qdist (qval (mkFQ w (gx x) (gy x) (gz x))) qid <= 20 * fu p).
  { unfold qdist. apply sq_le_le; [lra|]. eapply Rle_trans; [exact QP|]. clear - U. nra. }
  unfold x in Q; cbn [gx gy gz] in Q. lra.
Qed.

Lemma from_qdist a b d : qnorm a = 1 -> qnorm b = 1 -> qdist a b <= d -> close (2 * d) (quat_rot a) (quat_rot b).
Proof. intros A B D. eapply close_mono; [|apply quat_rot_close; assumption]. lra. Qed.
Lemma axis_pos p (a : fl p) n : axis_ok a n -> 0 < vnorm (vval n).
Proof. pose proof (fu_pos p) as U. pose proof (fu_24 p) as V. intros [H|[_ H]]; [|lra]. rewrite roundoff_fu in H. apply Rabs_both in H. lra. Qed.
Lemma turns_aa p (a : fl p) n : 0 < vnorm (vval n) -> turns (SrcAA a n) = quat_rot (half_quat (B2R a) (vscale (/ vnorm (vval n)) (vval n))).
Proof. intro H. unfold turns; cbn [source_value meaning]. symmetry. apply half_quat_rot, vdir_unit, H. Qed.
Lemma turns_rv p (v : FV p) : turns (SrcRv v) = quat_rot (rv_quat (vval v)).
Proof. unfold turns; cbn [source_value meaning]. symmetry. apply rv_quat_ok. Qed.
Lemma object_SO3 p T (s : fsource p) : object_ok T s -> SO3 (turns s).
Proof.
  intro H. unfold turns. apply meaning_SO3. destruct s as [a n|v|z y x|x y z]; cbn; try exact I.
  destruct H as (_ & _ & _ & H). apply vdir_unit, (axis_pos _ _ _ H).
Qed.
Lemma object_wider p T T' (s : fsource p) : T <= T' -> object_ok T s -> object_ok T' s.
Proof.
  intros H. destruct s as [a n|v|z y x|x y z]; cbn [object_ok]; try (intro K; exact K).
  - intros (A & B & C & D). repeat split; try assumption; [apply B|apply B|apply B|lra].
  - intros (A & B). split; [exact A|lra].
Qed.

Lemma held_quat p L c (s : fsource p) T : libm_ok L -> build_ok c -> T <= 655/100 -> object_ok T s ->
  qfinite (fquat_of L c s) /\ exists e, qnorm e = 1 /\ quat_rot e = turns s /\ qdist (qval (fquat_of L c s)) e <= (33 + 2/10) * fu p.
Proof.
  intros HL HB HT H. pose proof (fu_pos p) as U. pose proof (fu_24 p) as V.
  assert (G : source_ok 20 (2 ^ 50) s -> quat_roundings 20 s <= 33 + 2/10 ->
    qfinite (fquat_of L c s) /\ exists e, qnorm e = 1 /\ quat_rot e = turns s /\ qdist (qval (fquat_of L c s)) e <= (33 + 2/10) * fu p).
  { intros S Q. destruct (source_quat p L c s 20 HL HB ltac:(lra) S) as (F & e & E1 & E2 & E3). split; [exact F|]. exists e. split; [exact E1|]. split; [exact E2|].
    rewrite roundoff_fu in E3. eapply Rle_trans; [exact E3|]. apply Rmult_le_compat_r; lra. }
  destruct s as [a n|v|z y x|x y z]; cbn [object_ok] in H.
  - destruct H as (Fa & Fn & Ha & [K|[K1 K2]]).
    + apply G; cbn; [repeat split; try assumption; apply Fn|lra].
    + rewrite roundoff_fu in K1. destruct (fquat_of_aa_tiny p L a n HL Fa Fn K1 K2) as [F Q]. split; [exact F|].
      exists (half_quat (B2R a) (vscale (/ vnorm (vval n)) (vval n))). split; [apply half_quat_qnorm, vdir_unit; lra|]. split; [symmetry; apply turns_aa; lra|].
      cbn [fquat_of]. lra.
  - destruct H as (Fv & Nv). apply G; cbn [source_ok quat_roundings]; [split; [exact Fv|lra]|lra].
  - apply G; cbn [source_ok quat_roundings]; [exact H|lra].
  - apply G; cbn [source_ok quat_roundings]; [exact H|lra].
Qed.

Lemma extract_ok p L b k (q : FQ p) e A : libm_ok L -> ext_ok b -> qfinite q -> qnorm e = 1 -> 0 <= A <= extract_limit k -> qdist (qval q) e <= A * fu p ->
  skind_of (fsource_of_quat L b k q) = k /\ object_ok (64/10) (fsource_of_quat L b k q) /\
  close (extract_roundings k A * fu p) (turns (fsource_of_quat L b k q)) (quat_rot e).
Proof.
  intros HL HE Fq E HA D. pose proof (fu_pos p) as U. pose proof (fu_24 p) as V. destruct HE as (O1 & O2 & O3 & O4 & O5 & O6). 
  destruct k; cbn [fsource_of_quat extract_roundings extract_limit] in *.
  - destruct (faa_of_quat_err p L b q e A HL O1 Fq E ltac:(lra) D) as (a & n & Eq & Fa & Fn & Ha & Hn & N1 & e' & E1 & E2 & Q).
    rewrite Eq. split; [reflexivity|].
    assert (AO : axis_ok a n). { unfold axis_ok. rewrite roundoff_fu. destruct Hn as [K|[K1 K2]]; [left; lra|right; lra]. }
    split; [cbn [object_ok]; repeat split; try apply Fn; [exact Fa|lra|exact AO]|].
    rewrite turns_aa by (apply (axis_pos _ _ _ AO)). rewrite <- E2. eapply close_mono; [|apply from_qdist; [apply half_quat_qnorm, N1|exact E1|exact Q]]. lra.
  - destruct (frv_of_quat_err p L b q e A HL O1 O2 Fq E HA D) as (v & Eq & Fv & Nv & e' & E1 & E2 & Q).
    rewrite Eq. split; [reflexivity|]. split; [split; assumption|]. rewrite turns_rv, <- E2. eapply close_mono; [|apply from_qdist; [apply rv_quat_ok|exact E1|exact Q]]. lra.
  - destruct (fzyx_of_quat_err p L b q e A HL (Logic.conj O1 (Logic.conj O2 (Logic.conj O3 (Logic.conj O4 (Logic.conj O5 O6))))) Fq E ltac:(lra) D) as (z & y & x & Eq & F & B & C).
    rewrite Eq. split; [reflexivity|]. split; [exact F|exact C].
  - destruct (fxyz_of_quat_err p L b q e A HL (Logic.conj O1 (Logic.conj O2 (Logic.conj O3 (Logic.conj O4 (Logic.conj O5 O6))))) Fq E ltac:(lra) D) as (z & y & x & Eq & F & B & C).
    rewrite Eq. split; [reflexivity|]. split; [exact F|exact C].
Qed.
