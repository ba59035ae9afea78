(** * FloatBuild4: the matrix of an angle-axis; a math library that meets SpecLibm. *)
From Coq Require Import ZArith Reals Lra Psatz Bool List Lia.
From Flocq Require Import IEEE754.BinarySingleNaN Core.Core.
From Verif Require Import Linalg Spec SpecFacts SpecClose ModelCommon ModelEigen CommonFacts ModelRotation ConvFacts CloseFacts RVFacts
  FloatModel FloatFacts FloatModel2 SpecFloatQ FloatQFacts FloatQProd FloatQHist FloatQRot FloatCast FloatWrap FloatModel3 SpecLibm FloatBuild FloatBuild2 FloatBuild3.
Import ListNotations.
Local Open Scope R_scope.

(** correct rounding of a real *)
Definition fround (p : prim) (x : R) : fl p :=
  binary_normalize (fprec p) (femax p) _ _ mode_NE (ZnearestE (scaled_mantissa radix2 (ffexp p) x)) (cexp radix2 (ffexp p) x) false.
Lemma fround_R p x : Rabs x <= 4 -> is_finite (fround p x) = true /\ B2R (fround p x) = rnd p x.
Proof.
  intro H. pose proof (binary_normalize_correct (fprec p) (femax p) _ _ mode_NE (ZnearestE (scaled_mantissa radix2 (ffexp p) x)) (cexp radix2 (ffexp p) x) false) as K.
  change (F2R (Float radix2 (ZnearestE (scaled_mantissa radix2 (ffexp p) x)) (cexp radix2 (ffexp p) x))) with (rnd p x) in K.
  cbn [round_mode] in K. change (round radix2 (SpecFloat.fexp (fprec p) (femax p)) ZnearestE (rnd p x)) with (rnd p (rnd p x)) in K.
  rewrite (rnd_id p (rnd p x)) in K by apply rnd_fmt.
  rewrite no_overflow in K by (pose proof (four_fbig p); lra).
  destruct K as (A & B & _). split; [exact B|exact A].
Qed.
Definition exact_libm : libm :=
  mkLibm (fun p x => fround p (sin (B2R x))) (fun p x => fround p (cos (B2R x))) (fun p y x => fround p (atan2 (B2R y) (B2R x)))
         (fun p => fround p (sqrt (sqrt (2 * roundoff p))))
         (fun p x y z => fround p (vnorm (mkV3 (B2R x) (B2R y) (B2R z)))).
Lemma half_smallest_eta p : half_smallest p = eta p.
Proof. unfold eta. change (/ 2) with (bpow radix2 (-1)). rewrite <- bpow_plus. destruct p; reflexivity. Qed.
Lemma exact_libm_ok : libm_ok exact_libm.
Proof.
  assert (G : forall p x k, Rabs x <= k -> k <= 4 -> approximates (k * fu p + eta p) (fround p x) x).
  { intros p x k H K. destruct (fround_R p x ltac:(lra)) as [F R]. split; [exact F|]. rewrite R. eapply Rle_trans; [apply rnd_err_le|].
    pose proof (fu_pos p). nra. }
  assert (W : forall p (r : fl p) x d e, d <= e -> approximates d r x -> approximates e r x) by (intros p r x d e H [A B]; split; [exact A|lra]).
  split; intros p.
  - intros x F. eapply W; [|apply (G p _ 1)]; [|apply Rabs_le; pose proof (SIN_bound (B2R x)); lra|lra]. rewrite roundoff_fu. pose proof (eta_u7 p). pose proof (fu_pos p). lra.
  - intros x F. eapply W; [|apply (G p _ 1)]; [|apply Rabs_le; pose proof (COS_bound (B2R x)); lra|lra]. rewrite roundoff_fu. pose proof (eta_u7 p). pose proof (fu_pos p). lra.
  - intros y x F1 F2 N. pose proof (atan2_range (B2R y) (B2R x)) as A. assert (P : PI <= 32 / 10) by (destruct (pi_consts F32) as (_ & _ & X & _ & _ & Y); pose proof (fu_24 F32); lra).
    eapply W; [|apply (G p _ (32 / 10))]; [|apply Rabs_le; lra|lra]. rewrite roundoff_fu. pose proof (eta_u7 p). pose proof (fu_pos p). lra.
  - intros y x F1 F2 Y X. pose proof (atan2_range (B2R y) (B2R x)) as A. assert (P : PI <= 32 / 10) by (destruct (pi_consts F32) as (_ & _ & Z & _ & _ & Z'); pose proof (fu_24 F32); lra).
    destruct (fround_R p (atan2 (B2R y) (B2R x)) ltac:(apply Rabs_le; lra)) as [F R]. split; [exact F|]. cbn [latan2 exact_libm]. rewrite R.
    pose proof (rnd_err_le p (atan2 (B2R y) (B2R x))) as E. assert (K : Rabs (atan2 (B2R y) (B2R x)) <= 32 / 10) by (apply Rabs_le; lra).
    pose proof (fu_24 p). pose proof (fu_pos p). pose proof (eta_u7 p). assert (fu p * Rabs (atan2 (B2R y) (B2R x)) <= fu p * (32 / 10)) by (apply Rmult_le_compat_l; lra).
    apply Rabs_both in E. apply Rabs_le. lra.
  - cbn [leps4 exact_libm]. rewrite roundoff_fu. pose proof (fu_pos p) as U. pose proof (fu_24 p) as V. pose proof (fu_53 p) as V53.
    set (w := sqrt (sqrt (2 * fu p))).
    assert (W4 : w * w * (w * w) = 2 * fu p).
    { unfold w. rewrite sqrt_sqrt by apply sqrt_pos. apply sqrt_sqrt. lra. }
    assert (W0 : 0 < w) by (unfold w; apply sqrt_lt_R0, sqrt_lt_R0; lra).
    assert (W1 : w <= / 10). { destruct (Rle_or_lt w (/ 10)) as [|K]; [assumption|exfalso]. assert (/ 100 < w * w) by nra. assert (/ 10000 < w * w * (w * w)) by nra. lra. }
    assert (WL : bpow radix2 (-14) < w).
    { destruct (Rlt_or_le (bpow radix2 (-14)) w) as [|K]; [assumption|exfalso].
      assert (w * w <= bpow radix2 (-28)) by (change (-28)%Z with (-14 + -14)%Z; rewrite bpow_plus; nra).
      assert (w * w * (w * w) <= bpow radix2 (-56)) by (change (-56)%Z with (-28 + -28)%Z; rewrite bpow_plus; assert (0 < w * w) by nra; nra).
      assert (bpow radix2 (-56) <= bpow radix2 (-53)) by (apply bpow_le; lia). lra. }
    destruct (fround_R p w ltac:(rewrite Rabs_pos_eq; lra)) as [F R]. split; [exact F|]. rewrite R.
    pose proof (rnd_err_le p w) as E. rewrite (Rabs_pos_eq w) in E by lra.
    assert (T : eta p <= / 100 * (fu p * w)).
    { eapply Rle_trans; [apply eta_u|]. replace (/ 100 * (fu p * w)) with (fu p * (/ 100 * w)) by ring. apply Rmult_le_compat_l; [lra|].
      apply Rle_trans with (/ 100 * bpow radix2 (-14)); [|lra]. replace (-126)%Z with (-112 + -14)%Z by lia. rewrite bpow_plus. apply Rmult_le_compat_r; [apply bpow_ge_0|].
      apply Rle_trans with (bpow radix2 (-26)); [apply bpow_le; lia|cbn; lra]. }
    apply Rabs_both in E. set (r := rnd p w) in *. assert (UW : 0 < fu p * w <= / 100000 * w) by nra.
    split; [lra|]. assert (R1 : Rabs (r - w) <= / 5000 / 5000 * w \/ True) by (right; exact I). clear R1.
    assert (D : - (11 / 10 * fu p) * w <= r - w <= 11 / 10 * fu p * w) by lra.
    assert (Rr : r * r - w * w = (r - w) * (r + w)) by ring.
    assert (D2 : Rabs (r * r - w * w) <= 3 * fu p * (w * w)).
    { rewrite Rr, Rabs_mult. rewrite (Rabs_pos_eq (r + w)) by lra. apply Rle_trans with ((11 / 10 * fu p * w) * (21 / 10 * w)); [|assert (0 <= fu p * (w * w)) by (apply Rmult_le_pos; nra); lra].
      apply Rmult_le_compat; [apply Rabs_pos|lra|apply Rabs_le; lra|lra]. }
    apply Rabs_both in D2. assert (WW : 0 < w * w) by nra. assert (UWW : 0 <= fu p * (w * w) <= / 100000 * (w * w)) by nra.
    replace (r ^ 4 - 2 * fu p) with ((r * r - w * w) * (r * r + w * w)) by (rewrite <- W4; ring).
    rewrite Rabs_mult, (Rabs_pos_eq (r * r + w * w)) by nra.
    apply Rle_trans with (3 * fu p * (w * w) * (3 * (w * w))).
    + apply Rmult_le_compat; [apply Rabs_pos|nra|apply Rabs_le; lra|lra].
    + replace (3 * fu p * (w * w) * (3 * (w * w))) with (fu p * (9 * (w * w * (w * w)))) by ring. rewrite W4. unfold Rdiv. apply Rmult_le_compat_l; lra.
  - intros x y z _ _ _ N. set (v := vnorm _) in *. assert (P : 0 <= v) by apply vn_nonneg.
    destruct (fround_R p v ltac:(rewrite Rabs_pos_eq; lra)) as [F R]. split; [exact F|]. cbn [lstable exact_libm]. fold v. rewrite R, roundoff_fu, half_smallest_eta.
    eapply Rle_trans; [apply rnd_err_le|]. rewrite Rabs_pos_eq by lra. pose proof (fu_pos p). nra.
Qed.

(** ** The matrix of an angle-axis *)
Lemma entries_close e a b : Rabs (m00 a - m00 b) <= e -> Rabs (m01 a - m01 b) <= e -> Rabs (m02 a - m02 b) <= e ->
  Rabs (m10 a - m10 b) <= e -> Rabs (m11 a - m11 b) <= e -> Rabs (m12 a - m12 b) <= e ->
  Rabs (m20 a - m20 b) <= e -> Rabs (m21 a - m21 b) <= e -> Rabs (m22 a - m22 b) <= e -> close (49/16 * e) a b.
Proof.
  intros. replace (49/16 * e) with (7/4 * (7/4 * e)) by field. apply close_rows; apply vnorm_le3; assumption.
Qed.
Lemma prod_close a b x y da db A B : Rabs (a - x) <= da -> Rabs (b - y) <= db -> Rabs x <= A -> Rabs b <= B -> Rabs (a * b - x * y) <= da * B + A * db.
Proof.
  intros H1 H2 H3 H4. replace (a * b - x * y) with ((a - x) * b + x * (b - y)) by ring. eapply Rle_trans; [apply Rabs_triang|]. rewrite !Rabs_mult.
  pose proof (Rabs_pos (a - x)). pose proof (Rabs_pos (b - y)). pose proof (Rabs_pos x). pose proof (Rabs_pos b).
  apply Rplus_le_compat; apply Rmult_le_compat; assumption.
Qed.
Lemma vcomp_le v : Rabs (vx v) <= vnorm v /\ Rabs (vy v) <= vnorm v /\ Rabs (vz v) <= vnorm v.
Proof.
  pose proof (vn_nonneg v). pose proof (vnorm_sq v) as S1. unfold vnorm2, vdot in S1.
  repeat split; apply sq_le_le; try lra; rewrite <- Rabs_mult, Rabs_pos_eq by nra; nra.
Qed.
(** an entry off or on the diagonal *)
Lemma aa_entry p t (k c0 a b : fl p) K C x y kx A B dk dc da db : order 2 t ->
  is_finite k = true -> is_finite c0 = true -> is_finite a = true -> is_finite b = true ->
  Rabs (B2R k - kx) <= dk -> Rabs (B2R c0 - C) <= dc -> Rabs (B2R a - x) <= da -> Rabs (B2R b - y) <= db ->
  Rabs kx <= K -> Rabs C <= A -> Rabs (B2R a) <= B -> Rabs (B2R b) <= B -> 0 <= A -> 0 <= B -> 0 <= K -> 0 <= dk -> 0 <= dc ->
  (K + dk + A + dc) * B <= 4 ->
  is_finite (fdot t [k; c0] [a; b]) = true /\
  Rabs (B2R (fdot t [k; c0] [a; b]) - (kx * x + C * y)) <= (2 + / 100) * fu p * ((K + dk + A + dc) * B) + / 1000 * fu p + (dk * B + K * da) + (dc * B + A * db).
Proof.
  intros O Fk Fc Fa Fb Ek Ec Ea Eb HK HC HA HB A0 B0 K0 Dk Dc N4. pose proof (fu_pos p) as U. pose proof (eta5_u p) as T.
  assert (Kk : Rabs (B2R k) <= K + dk) by (replace (B2R k) with ((B2R k - kx) + kx) by ring; eapply Rle_trans; [apply Rabs_triang|]; lra).
  assert (Kc : Rabs (B2R c0) <= A + dc) by (replace (B2R c0) with ((B2R c0 - C) + C) by ring; eapply Rle_trans; [apply Rabs_triang|]; lra).
  destruct (fdot2_err p t k c0 a b ((K + dk + A + dc) * B) O Fk Fc Fa Fb) as [F E].
  - rewrite !Rabs_mult. apply Rle_trans with ((K + dk) * B + (A + dc) * B); [|lra]. apply Rplus_le_compat; apply Rmult_le_compat; try apply Rabs_pos; assumption.
  - eapply Rle_trans; [exact N4|]. change 4 with (bpow radix2 2). apply bpow_le. lia.
  - split; [exact F|]. pose proof (prod_close _ _ _ _ _ _ _ _ Ek Ea HK HA) as P1. pose proof (prod_close _ _ _ _ _ _ _ _ Ec Eb HC HB) as P2.
    assert (Q : Rabs (B2R k * B2R a + B2R c0 * B2R b - (kx * x + C * y)) <= (dk * B + K * da) + (dc * B + A * db)).
    { replace (B2R k * B2R a + B2R c0 * B2R b - (kx * x + C * y)) with ((B2R k * B2R a - kx * x) + (B2R c0 * B2R b - C * y)) by ring.
      eapply Rle_trans; [apply Rabs_triang|]. lra. }
    eapply Rle_trans; [eapply Rabs_tri3; [exact E|exact Q]|].
    assert (0 <= fu p * ((K + dk + A + dc) * B)) by (apply Rmult_le_pos; [lra|apply Rmult_le_pos; lra]). lra.
Qed.
Lemma fmat_of_aa_err p L o (angle : fl p) (axis : FV p) e B : libm_ok L -> orders9_aa_ok o -> is_finite angle = true -> vfinite axis ->
  vnorm e = 1 -> 0 <= B <= 50 -> vdist (vval axis) e <= B * fu p ->
  mfinite (fmat_of_aa L o angle axis) /\ close ((56 + 16 * B) * fu p) (mval (fmat_of_aa L o angle axis)) (aa_rot (mkAA (B2R angle) e)).
Proof.
  intros HL ((O00 & O01 & O02) & (O10 & O11 & O12) & (O20 & O21 & O22)) Fa (Fx & Fy & Fz) Ne HB D.
  pose proof (fu_pos p) as U. pose proof (fu_24 p) as V. pose proof (eta_u7 p) as T. pose proof (eta_pos p) as P.
  destruct (sin_accurate L HL p angle Fa) as [Fs Es]. destruct (cos_accurate L HL p angle Fa) as [Fc Ec]. rewrite roundoff_fu in Es, Ec.
  set (al := B2R angle) in *. set (s := lsin L p angle) in *. set (c := lcos L p angle) in *.
  pose proof (SIN_bound al) as Sb. pose proof (COS_bound al) as Cb. destruct (fofZ1 p) as [F1 V1].
  set (u := fu p) in *.
  assert (BU : 0 <= B * u <= / 100000) by nra.
  destruct (vcomp_le e) as (Ex & Ey & Ez). rewrite Ne in Ex, Ey, Ez.
  destruct (vcomp_le (vsub (vval axis) e)) as (Dx & Dy & Dz). fold (vdist (vval axis) e) in Dx, Dy, Dz. cbn [vsub vval vx vy vz] in Dx, Dy, Dz.
  assert (DX : Rabs (B2R (gx axis) - vx e) <= B * u) by lra. assert (DY : Rabs (B2R (gy axis) - vy e) <= B * u) by lra. assert (DZ : Rabs (B2R (gz axis) - vz e) <= B * u) by lra.
  clear Dx Dy Dz.
  assert (NB : forall a x, Rabs (a - x) <= B * u -> Rabs x <= 1 -> Rabs a <= 1 + / 10000).
  { intros a x H1 H2. replace a with ((a - x) + x) by ring. eapply Rle_trans; [apply Rabs_triang|]. lra. }
  pose proof (NB _ _ DX Ex) as GX. pose proof (NB _ _ DY Ey) as GY. pose proof (NB _ _ DZ Ez) as GZ.
  (* 1 - c *)
  apply Rabs_both in Ec as Ec'.
  destruct (fsub_R p (fofZ p 1) c F1 Fc) as [Rk Fk]. { rewrite V1. pose proof (four_fbig p). apply Rabs_le. lra. }
  rewrite V1 in Rk. set (k := fsub (fofZ p 1) c) in *.
  assert (Ek : Rabs (B2R k - (1 - cos al)) <= (4 + / 100) * u).
  { pose proof (rnd_err_le p (1 - B2R c)) as R. rewrite <- Rk in R. fold u in R.
    assert (Rabs (1 - B2R c) <= 2 + / 1000) by (apply Rabs_le; lra). assert (u * Rabs (1 - B2R c) <= u * (2 + / 1000)) by (apply Rmult_le_compat_l; lra).
    eapply Rle_trans; [eapply Rabs_tri3; [exact R|]|]; [replace (1 - B2R c - (1 - cos al)) with (- (B2R c - cos al)) by ring; rewrite Rabs_Ropp; exact Ec|]. lra. }
  assert (KB : Rabs (1 - cos al) <= 2) by (apply Rabs_le; lra).
  (* k * axis *)
  assert (KM : forall (a : fl p) x, is_finite a = true -> Rabs (B2R a - x) <= B * u -> Rabs x <= 1 -> Rabs (B2R a) <= 1 + / 10000 ->
    is_finite (fmul k a) = true /\ Rabs (B2R (fmul k a) - (1 - cos al) * x) <= (6 + / 20 + 2 * B) * u).
  { intros a x Fa' Da Hx Ha. pose proof (prod_close _ _ _ _ _ _ _ _ Ek Da KB Ha) as P1.
    assert (KK : Rabs (B2R k) <= 2 + / 1000). { apply Rabs_both in Ek. apply Rabs_le. lra. }
    assert (PB : Rabs (B2R k * B2R a) <= 2 + / 500). { rewrite Rabs_mult. pose proof (Rabs_pos (B2R k)). pose proof (Rabs_pos (B2R a)). nra. }
    destruct (fmul_R p k a Fk Fa') as [R Fr]. { pose proof (four_fbig p). lra. }
    split; [exact Fr|]. rewrite R. pose proof (rnd_err_le p (B2R k * B2R a)) as Re. fold u in Re.
    assert (u * Rabs (B2R k * B2R a) <= u * (2 + / 500)) by (apply Rmult_le_compat_l; lra).
    eapply Rle_trans; [eapply Rabs_tri3; [exact Re|exact P1]|]. lra. }
  destruct (KM _ _ Fx DX Ex GX) as [Fkx Ekx]. destruct (KM _ _ Fy DY Ey GY) as [Fky Eky]. destruct (KM _ _ Fz DZ Ez GZ) as [Fkz Ekz]. clear KM.
  assert (K2 : forall x, Rabs x <= 1 -> Rabs ((1 - cos al) * x) <= 2) by (intros x Hx; rewrite Rabs_mult; pose proof (Rabs_pos x); pose proof (Rabs_pos (1 - cos al)); nra).
  pose proof (K2 _ Ex) as KX. pose proof (K2 _ Ey) as KY. pose proof (K2 _ Ez) as KZ. clear K2.
  assert (S1 : Rabs (sin al) <= 1) by (apply Rabs_le; lra). assert (C1 : Rabs (cos al) <= 1) by (apply Rabs_le; lra).
  assert (Es' : Rabs (B2R (fneg s) - - sin al) <= 2 * u). { rewrite fneg_val. replace (- B2R s - - sin al) with (- (B2R s - sin al)) by ring. now rewrite Rabs_Ropp. }
  assert (S1' : Rabs (- sin al) <= 1) by now rewrite Rabs_Ropp.
  assert (Fs' : is_finite (fneg s) = true) by now rewrite fneg_fin.
  assert (D1 : Rabs (B2R (fofZ p 1) - 1) <= B * u) by (rewrite V1, Rminus_diag_eq, Rabs_R0 by reflexivity; lra).
  assert (G1 : Rabs (B2R (fofZ p 1)) <= 1 + / 10000) by (rewrite V1, Rabs_R1; lra).
  assert (EN : forall t (kk c0 a b : fl p) kx C x y, order 2 t ->
    is_finite kk = true -> is_finite c0 = true -> is_finite a = true -> is_finite b = true ->
    Rabs (B2R kk - kx) <= (6 + / 20 + 2 * B) * u -> Rabs (B2R c0 - C) <= 2 * u -> Rabs (B2R a - x) <= B * u -> Rabs (B2R b - y) <= B * u ->
    Rabs kx <= 2 -> Rabs C <= 1 -> Rabs (B2R a) <= 1 + / 10000 -> Rabs (B2R b) <= 1 + / 10000 ->
    is_finite (fdot t [kk; c0] [a; b]) = true /\ Rabs (B2R (fdot t [kk; c0] [a; b]) - (kx * x + C * y)) <= (15 + 5 * B) * u + / 5 * u).
  { intros t kk c0 a b kx C x y O' f1 f2 f3 f4 h1 h2 h3 h4 h5 h6 h7 h8.
    destruct (aa_entry p t kk c0 a b 2 C x y kx 1 (1 + / 10000) _ _ _ _ O' f1 f2 f3 f4 h1 h2 h3 h4 h5 h6 h7 h8) as [F E]; try lra.
    split; [exact F|]. eapply Rle_trans; [exact E|]. fold u.
    assert ((2 + (6 + / 20 + 2 * B) * u + 1 + 2 * u) * (1 + / 10000) <= 3 + / 100) by lra.
    assert (u * ((2 + (6 + / 20 + 2 * B) * u + 1 + 2 * u) * (1 + / 10000)) <= u * (3 + / 100)) by (apply Rmult_le_compat_l; lra). 
    assert (B * u <= 50 * u) by nra. lra. }
  destruct (EN _ _ _ _ _ _ _ _ _ O00 Fkx Fc Fx F1 Ekx Ec DX D1 KX C1 GX G1) as [f00 e00].
  destruct (EN _ _ _ _ _ _ _ _ _ O01 Fkx Fs' Fy Fz Ekx Es' DY DZ KX S1' GY GZ) as [f01 e01].
  destruct (EN _ _ _ _ _ _ _ _ _ O02 Fkx Fs Fz Fy Ekx Es DZ DY KX S1 GZ GY) as [f02 e02].
  destruct (EN _ _ _ _ _ _ _ _ _ O10 Fkx Fs Fy Fz Ekx Es DY DZ KX S1 GY GZ) as [f10 e10].
  destruct (EN _ _ _ _ _ _ _ _ _ O11 Fky Fc Fy F1 Eky Ec DY D1 KY C1 GY G1) as [f11 e11].
  destruct (EN _ _ _ _ _ _ _ _ _ O12 Fky Fs' Fz Fx Eky Es' DZ DX KY S1' GZ GX) as [f12 e12].
  destruct (EN _ _ _ _ _ _ _ _ _ O20 Fkx Fs' Fz Fy Ekx Es' DZ DY KX S1' GZ GY) as [f20 e20].
  destruct (EN _ _ _ _ _ _ _ _ _ O21 Fky Fs Fz Fx Eky Es DZ DX KY S1 GZ GX) as [f21 e21].
  destruct (EN _ _ _ _ _ _ _ _ _ O22 Fkz Fc Fz F1 Ekz Ec DZ D1 KZ C1 GZ G1) as [f22 e22].
  clear EN. split. { unfold fmat_of_aa. repeat split; assumption. }
  rewrite <- e_aa_toRotationMatrix_spec. apply close_mono with (49/16 * ((15 + 5 * B) * u + / 5 * u)); [lra|].
  unfold fmat_of_aa, e_aa_toRotationMatrix. cbn [aangle aaxis].
  apply entries_close; cbn [mval r0 r1 r2 gx gy gz m00 m01 m02 m10 m11 m12 m20 m21 m22 vscale vx vy vz].
  all: fold s c k.
  - replace ((1 - cos al) * vx e * vx e + cos al) with ((1 - cos al) * vx e * vx e + cos al * 1) by ring. exact e00.
  - replace ((1 - cos al) * vx e * vy e - sin al * vz e) with ((1 - cos al) * vx e * vy e + - sin al * vz e) by ring. exact e01.
  - exact e02.
  - exact e10.
  - replace ((1 - cos al) * vy e * vy e + cos al) with ((1 - cos al) * vy e * vy e + cos al * 1) by ring. exact e11.
  - replace ((1 - cos al) * vy e * vz e - sin al * vx e) with ((1 - cos al) * vy e * vz e + - sin al * vx e) by ring. exact e12.
  - replace ((1 - cos al) * vx e * vz e - sin al * vy e) with ((1 - cos al) * vx e * vz e + - sin al * vy e) by ring. exact e20.
  - exact e21.
  - replace ((1 - cos al) * vz e * vz e + cos al) with ((1 - cos al) * vz e * vz e + cos al * 1) by ring. exact e22.
Qed.
