(** Histories of floating-point rotation matrices. *)
From Coq Require Import Reals ZArith Bool List Permutation Lra Lia Psatz.
From Flocq Require Import IEEE754.BinarySingleNaN Core.Core.
From Verif Require Import Linalg Spec SpecFacts ModelCommon ModelEigen SpecClose CloseFacts NearUnit FloatModel FloatFacts FloatModulo FloatWrap FloatModel2 SpecFloatQ FloatQFacts FloatQProd FloatQHist FloatQRot.
Import ListNotations.
Local Open Scope R_scope.

Lemma ftrans_val p (m : FM p) : mval (ftrans m) = mtrans (mval m). Proof. reflexivity. Qed.
Lemma ftrans_fin p (m : FM p) : mfinite m -> mfinite (ftrans m).
Proof. unfold mfinite, vfinite. cbn. tauto. Qed.

Lemma fmm_err p (o : orders9) (a b : FM p) (A B : R) : orders9_ok o -> mfinite a -> mfinite b ->
  vnorm (vrow0 (mval a)) <= A -> vnorm (vrow1 (mval a)) <= A -> vnorm (vrow2 (mval a)) <= A ->
  vnorm (vrow0 (mtrans (mval b))) <= B -> vnorm (vrow1 (mtrans (mval b))) <= B -> vnorm (vrow2 (mtrans (mval b))) <= B ->
  A * B <= bpow radix2 120 ->
  mfinite (fmm o a b) /\ close (49/16 * ((3 + / 1000) * fu p * (A * B) + 5 * eta p)) (mval (fmm o a b)) (mmul (mval a) (mval b)).
Proof.
  intros ((O00 & O01 & O02) & (O10 & O11 & O12) & (O20 & O21 & O22))
    ((F00 & F01 & F02) & (F10 & F11 & F12) & (F20 & F21 & F22)) ((G00 & G01 & G02) & (G10 & G11 & G12) & (G20 & G21 & G22)) A0 A1 A2 B0 B1 B2 HB.
  assert (P : forall (t : dtree) (a0 a1 a2 b0 b1 b2 : fl p), order 3 t -> is_finite a0 = true -> is_finite a1 = true -> is_finite a2 = true ->
    is_finite b0 = true -> is_finite b1 = true -> is_finite b2 = true ->
    vnorm (mkV3 (B2R a0) (B2R a1) (B2R a2)) <= A -> vnorm (mkV3 (B2R b0) (B2R b1) (B2R b2)) <= B ->
    is_finite (fdot t [a0; a1; a2] [b0; b1; b2]) = true /\
    Rabs (B2R (fdot t [a0; a1; a2] [b0; b1; b2]) - (B2R a0 * B2R b0 + B2R a1 * B2R b1 + B2R a2 * B2R b2)) <= (3 + / 1000) * fu p * (A * B) + 5 * eta p).
  { intros. apply fdot3_err; try assumption. eapply Rle_trans; [apply dotabs3|]. apply Rmult_le_compat; try assumption; apply vn_nonneg. }
  assert (D00 := P (o0 (ro0 o)) (gx (r0 a)) (gy (r0 a)) (gz (r0 a)) (gx (r0 b)) (gx (r1 b)) (gx (r2 b)) O00 F00 F01 F02 G00 G10 G20 A0 B0).
  assert (D01 := P (o1 (ro0 o)) (gx (r0 a)) (gy (r0 a)) (gz (r0 a)) (gy (r0 b)) (gy (r1 b)) (gy (r2 b)) O01 F00 F01 F02 G01 G11 G21 A0 B1).
  assert (D02 := P (o2 (ro0 o)) (gx (r0 a)) (gy (r0 a)) (gz (r0 a)) (gz (r0 b)) (gz (r1 b)) (gz (r2 b)) O02 F00 F01 F02 G02 G12 G22 A0 B2).
  assert (D10 := P (o0 (ro1 o)) (gx (r1 a)) (gy (r1 a)) (gz (r1 a)) (gx (r0 b)) (gx (r1 b)) (gx (r2 b)) O10 F10 F11 F12 G00 G10 G20 A1 B0).
  assert (D11 := P (o1 (ro1 o)) (gx (r1 a)) (gy (r1 a)) (gz (r1 a)) (gy (r0 b)) (gy (r1 b)) (gy (r2 b)) O11 F10 F11 F12 G01 G11 G21 A1 B1).
  assert (D12 := P (o2 (ro1 o)) (gx (r1 a)) (gy (r1 a)) (gz (r1 a)) (gz (r0 b)) (gz (r1 b)) (gz (r2 b)) O12 F10 F11 F12 G02 G12 G22 A1 B2).
  assert (D20 := P (o0 (ro2 o)) (gx (r2 a)) (gy (r2 a)) (gz (r2 a)) (gx (r0 b)) (gx (r1 b)) (gx (r2 b)) O20 F20 F21 F22 G00 G10 G20 A2 B0).
  assert (D21 := P (o1 (ro2 o)) (gx (r2 a)) (gy (r2 a)) (gz (r2 a)) (gy (r0 b)) (gy (r1 b)) (gy (r2 b)) O21 F20 F21 F22 G01 G11 G21 A2 B1).
  assert (D22 := P (o2 (ro2 o)) (gx (r2 a)) (gy (r2 a)) (gz (r2 a)) (gz (r0 b)) (gz (r1 b)) (gz (r2 b)) O22 F20 F21 F22 G02 G12 G22 A2 B2).
  clear P. set (e := (3 + / 1000) * fu p * (A * B) + 5 * eta p) in *. clearbody e.
  split. { repeat split; [apply D00|apply D01|apply D02|apply D10|apply D11|apply D12|apply D20|apply D21|apply D22]. }
  replace (49/16 * e) with (7/4 * (7/4 * e)) by field.
  apply close_rows; apply vnorm_le3; [apply D00|apply D01|apply D02|apply D10|apply D11|apply D12|apply D20|apply D21|apply D22].
Qed.

Lemma close_mmul_left d n a b c : 0 <= d -> (forall v, vnorm (mvmul c v) <= n * vnorm v) -> close d a b -> close (d * n) (mmul a c) (mmul b c).
Proof.
  intros D N C v. replace (mvmul (mmul a c) v) with (mvmul a (mvmul c v)) by lin. replace (mvmul (mmul b c) v) with (mvmul b (mvmul c v)) by lin.
  eapply Rle_trans; [apply C|]. rewrite Rmult_assoc. apply Rmult_le_compat_l; [exact D|apply N].
Qed.
Lemma close_mmul_right d n a b c : 0 <= n -> (forall v, vnorm (mvmul c v) <= n * vnorm v) -> close d a b -> close (n * d) (mmul c a) (mmul c b).
Proof.
  intros D N C v. replace (vsub (mvmul (mmul c a) v) (mvmul (mmul c b) v)) with (mvmul c (vsub (mvmul a v) (mvmul b v))) by lin.
  eapply Rle_trans; [apply N|]. rewrite Rmult_assoc. apply Rmult_le_compat_l; [exact D|apply C].
Qed.
Lemma close_opnorm d a r v : SO3 r -> close d a r -> vnorm (mvmul a v) <= (1 + d) * vnorm v.
Proof.
  intros S1 C. specialize (C v). apply vnorm_le_add in C. rewrite (SO3_vnorm r v S1) in C. lra.
Qed.

Definition minv {p} (A : R) (m : FM p) (e : M33) (n : nat) : Prop := mfinite m /\ SO3 e /\ close ((101 / 100 * A + 12) * fu p * (INR n + 1)) (mval m) e.

(** one product of two matrices close to rotations *)
Lemma minv_product p o (a b : FM p) ea eb da db : orders9_ok o -> mfinite a -> mfinite b -> SO3 ea -> SO3 eb ->
  close da (mval a) ea -> close db (mval b) eb -> da <= / 50 -> db <= / 50 ->
  mfinite (fmm o a b) /\ close (da + db + da * db + 10 * fu p) (mval (fmm o a b)) (mmul ea eb).
Proof.
  intros O Fa Fb Sa Sb Ca Cb Da Db. pose proof (close_nonneg _ _ _ Ca) as Pa. pose proof (close_nonneg _ _ _ Cb) as Pb.
  destruct (close_rows_bound _ _ _ Sa Ca) as (A0 & A1 & A2).
  destruct (close_rows_bound _ _ _ (SO3_trans _ Sb) (close_trans_mat _ _ _ Cb)) as (B0 & B1 & B2).
  pose proof (fu_pos p) as U. pose proof (eta5_u p) as E5.
  destruct (fmm_err p o a b (102/100) (102/100) O Fa Fb) as [F C]; try lra.
  { apply Rle_trans with (bpow radix2 1); [cbn; lra|apply bpow_le; lia]. }
  split; [exact F|].
  eapply close_mono; [|eapply close_trans; [exact C|eapply close_trans; [eapply (close_mmul_left da (1 + db) _ ea)|eapply (close_mmul_right db 1 _ eb)]]].
  - lra.
  - exact Pa.
  - intro v. apply (close_opnorm db _ eb v Sb Cb).
  - exact Ca.
  - lra.
  - intro v. rewrite (SO3_vnorm ea v Sa). lra.
  - exact Cb.
Qed.

Lemma minv_step p A (m : FM p) e n (c : fmcall p) : 0 <= A <= 1000 -> fmcall_ok A c -> minv A m e n -> (101 / 100 * A + 12) * fu p * (INR n + 1) <= / 100 ->
  minv A (fmstep m (fst c)) (mintended_step e c) (S n).
Proof.
  pose proof (fu_pos p) as U. pose proof (fu_24 p) as V. pose proof (pos_INR n) as In.
  intros HA C (F & S1 & D) K. assert (AU : A * fu p <= 1000 * fu p) by nra. assert (AU0 : 0 <= A * fu p) by nra. destruct c as [c b]. unfold minv. rewrite S_INR.
  destruct c as [o f|o f|f|]; cbn [fmstep mintended_step fst] in *; cbn [fmcall_ok] in C; rewrite ?roundoff_fu in C.
  - destruct C as (O & Ff & Sb & Cb). destruct (minv_product p o m f e b _ _ O F Ff S1 Sb D Cb) as [F' C']; try lra.
    split; [exact F'|]. split; [now apply SO3_mmul|]. eapply close_mono; [|exact C'].
    assert ((101 / 100 * A + 12) * fu p * (INR n + 1) * (A * fu p) <= / 100 * (A * fu p)) by (apply Rmult_le_compat_r; lra). lra.
  - destruct C as (O & Ff & Sb & Cb). destruct (minv_product p o f m b e _ _ O Ff F Sb S1 Cb D) as [F' C']; try lra.
    split; [exact F'|]. split; [now apply SO3_mmul|]. eapply close_mono; [|exact C'].
    assert ((101 / 100 * A + 12) * fu p * (INR n + 1) * (A * fu p) <= / 100 * (A * fu p)) by (apply Rmult_le_compat_r; lra). lra.
  - destruct C as (Ff & Sb & Cb). split; [exact Ff|]. split; [exact Sb|]. eapply close_mono; [|exact Cb]. nra.
  - split; [now apply ftrans_fin|]. split; [now apply SO3_trans|]. rewrite ftrans_val. eapply close_mono; [|apply close_trans_mat; exact D]. nra.
Qed.

Lemma fmrun_history p A (l : list (fmcall p)) : 0 <= A <= 1000 -> forall (m : FM p) e n, Forall (fmcall_ok A) l -> minv A m e n ->
  (101 / 100 * A + 12) * fu p * (INR (n + length l)) <= / 100 -> minv A (fmrun m (map fst l)) (mintended e l) (n + length l).
Proof.
  intros HA. pose proof (fu_pos p) as U.
  induction l as [|c l IH]; intros m e n C H HK.
  - cbn. rewrite Nat.add_0_r. exact H.
  - inversion C as [|? ? C1 C2]; subst. cbn [length] in *.
    assert (K' : (101 / 100 * A + 12) * fu p * (INR n + 1) <= / 100).
    { eapply Rle_trans; [|exact HK]. apply Rmult_le_compat_l; [nra|]. rewrite <- S_INR. apply le_INR. lia. }
    cbn [map fmrun mintended fold_left length]. replace (n + S (length l))%nat with (S n + length l)%nat in * by lia.
    apply (IH _ _ (S n) C2 (minv_step p A m e n c HA C1 H K') HK).
Qed.

Lemma fmv_close_err p (o : orders3) (m : FM p) (e : M33) (v : FV p) d : orders3_ok 3 3 3 o -> mfinite m -> vfinite v -> SO3 e -> close d (mval m) e -> d <= / 10 ->
  vnorm (vval v) <= bpow radix2 100 ->
  vfinite (fmv o m v) /\ vdist (vval (fmv o m v)) (mvmul e (vval v)) <= (d + 6 * fu p) * vnorm (vval v) + underflow p.
Proof.
  intros O F Fv S1 C Hd Hv. destruct (close_rows_bound _ _ _ S1 C) as (B0 & B1 & B2). pose proof (vn_nonneg (vval v)) as NV. pose proof (fu_pos p) as U.
  destruct (fmv_err p o m v (11/10) O F Fv) as [Fr E]; try lra.
  { apply Rle_trans with (bpow radix2 1 * bpow radix2 100); [change (bpow radix2 1) with 2; apply Rmult_le_compat; lra|]. rewrite <- bpow_plus. apply bpow_le; lia. }
  split; [exact Fr|]. unfold vdist in *. eapply Rle_trans; [apply (vnorm_sub_triang _ (mvmul (mval m) (vval v)))|]. specialize (C (vval v)).
  rewrite underflow_eta. pose proof (eta_pos p). assert (0 <= fu p * vnorm (vval v)) by nra. lra.
Qed.
