(** Conversions between float and double, and the debug assertion on floats. *)
From Coq Require Import Reals ZArith Bool List Permutation Lra Lia Psatz.
From Flocq Require Import IEEE754.BinarySingleNaN Core.Core.
From Verif Require Import Linalg Spec SpecFacts ModelCommon FloatModel FloatFacts FloatModulo FloatWrap Claims9 FloatModel2 SpecFloatQ FloatQFacts FloatQProd FloatQHist.
Import ListNotations.
Local Open Scope R_scope.

Lemma strict_of_nonzero p (a : fl p) : B2R a <> 0 -> is_finite_strict a = true.
Proof. destruct a; cbn; intro H; try reflexivity; exfalso; now apply H. Qed.
Lemma fcvt_back p (a : fl p) : fcvt p (fcvt F64 a) = a.
Proof.
  destruct a as [s|s| |s m e H]; try reflexivity.
  set (a := B754_finite s m e H : fl p). destruct (widen_R p a) as [V F].
  assert (Nz : B2R a <> 0).
  { unfold a. cbn [B2R]. intro Z. apply eq_0_F2R in Z. destruct s; discriminate. }
  assert (Fa : is_finite (fcvt F64 a) = true) by (rewrite F; reflexivity).
  assert (Eq : B2R (fcvt p (fcvt F64 a)) = B2R a).
  { destruct p.
    - assert (Bd : Rabs (B2R (fcvt F64 a)) < bpow radix2 (femax F32)) by (rewrite V; apply abs_B2R_lt_emax).
      assert (X : B2R (fcvt F32 (fcvt F64 a)) = rnd F32 (B2R (fcvt F64 a))).
      { destruct (Rle_or_lt (Rabs (B2R (fcvt F64 a))) (fbig F32)) as [L|L].
        - apply (fcvt_R F64 F32 (fcvt F64 a) Fa L).
        - (* above 2^127 but a float: conversion does not overflow *)
          unfold fcvt at 1. destruct (fcvt F64 a) as [s'|s'| |s' m' e' H'] eqn:E; try discriminate; [cbn [B2R]; symmetry; apply rnd_0|].
          pose proof (binary_normalize_correct (fprec F32) (femax F32) _ _ mode_NE (cond_Zopp s' (Zpos m')) e' s') as C.
          cbv zeta in C. change (F2R (Float radix2 (cond_Zopp s' (Z.pos m')) e')) with (B2R (B754_finite s' m' e' H' : fl F64)) in C.
          rewrite Rlt_bool_true in C; [apply C|].
          change (Rabs (rnd F32 (B2R (B754_finite s' m' e' H' : fl F64))) < bpow radix2 (femax F32)).
          rewrite rnd_id; [exact Bd|]. rewrite V. apply fmt_B2R. }
      rewrite X, V. apply rnd_id, fmt_B2R.
    - rewrite fcvt_id. exact V. }
  apply B2R_inj; [apply strict_of_nonzero; rewrite Eq; exact Nz|reflexivity|exact Eq].
Qed.

Lemma widen_val p (a : fl p) : B2R (fcvt F64 a) = B2R a. Proof. apply widen_R. Qed.
Lemma widen_fin p (a : fl p) : is_finite (fcvt F64 a) = is_finite a. Proof. apply widen_R. Qed.

Lemma fqcast_back p (a : FQ p) : fqcast p (fqcast F64 a) = a.
Proof. destruct a as [w x y z]. unfold fqcast; cbn [fw fx fy fz]. now rewrite !fcvt_back. Qed.
Lemma fqcast_widen p (a : FQ p) : qval (fqcast F64 a) = qval a /\ (qfinite (fqcast F64 a) <-> qfinite a).
Proof. unfold qval, qfinite, fqcast; cbn [fw fx fy fz]. rewrite !widen_val, !widen_fin. tauto. Qed.

Lemma fqcast_err p q (a : FQ p) : qfinite a -> qnorm (qval a) <= bpow radix2 100 ->
  qfinite (fqcast q a) /\ qdist (qval (fqcast q a)) (qval a) <= fu q * qnorm (qval a) + underflow q.
Proof.
  intros (A & B & C & D) N. destruct (comp_le_norm (qval a)) as (Cw & Cx & Cy & Cz). cbn [qval qw qx qy qz] in Cw, Cx, Cy, Cz.
  pose proof (bpow100_fbig q) as BB. pose proof (fu_pos q) as U. pose proof (eta_pos q) as E.
  destruct (fcvt_R p q (fw a) A ltac:(lra)) as [Vw Fw]. destruct (fcvt_R p q (fx a) B ltac:(lra)) as [Vx Fx].
  destruct (fcvt_R p q (fy a) C ltac:(lra)) as [Vy Fy]. destruct (fcvt_R p q (fz a) D ltac:(lra)) as [Vz Fz].
  split; [repeat split; assumption|]. unfold qdist.
  eapply Rle_trans; [apply (qnorm_mixed _ (qval a) (fu q) (eta q)); try lra|rewrite underflow_eta; lra].
  all: unfold qsub, qval, fqcast; cbn [qw qx qy qz fw fx fy fz]; rewrite ?Vw, ?Vx, ?Vy, ?Vz; apply rnd_err_le.
Qed.

(** ** The debug assertion on a quaternion *)
Lemma thr_val p : is_finite (fmul (flit p 1 100) (flit p 1 100)) = true /\
  99999 / 1000000000 <= B2R (fmul (flit p 1 100) (flit p 1 100)) <= 100001 / 1000000000.
Proof.
  destruct p; (split; [vm_compute; reflexivity|]).
  - rewrite (B2R_of_SF F32 (fmul (flit F32 1 100) (flit F32 1 100)) false 13743895 (-37)) by (vm_compute; reflexivity).
    unfold F2R; cbn [Fnum Fexp cond_Zopp]. replace (bpow radix2 (-37)) with (/ 137438953472) by (cbn; f_equal). lra.
  - rewrite (B2R_of_SF F64 (fmul (flit F64 1 100) (flit F64 1 100)) false 7378697629483821 (-66)) by (vm_compute; reflexivity).
    unfold F2R; cbn [Fnum Fexp cond_Zopp]. replace (bpow radix2 (-66)) with (/ 73786976294838206464) by (cbn; f_equal). lra.
Qed.
Lemma small_le_big p x : Rabs x <= bpow radix2 60 -> Rabs x <= bpow radix2 (femax p - 2).
Proof. intro H. eapply Rle_trans; [exact H|]. apply bpow_le. destruct p; vm_compute; discriminate. Qed.
Lemma bpow_51 : 2 * bpow radix2 50 <= bpow radix2 60.
Proof. change 2 with (bpow radix2 1). rewrite <- bpow_plus. apply bpow_le. lia. Qed.
Lemma flit_lt1 p : B2R (flit p 1 (10 ^ 15)) <= 1 /\ B2R (flit p 1 (10 ^ 6)) <= 1.
Proof.
  destruct p.
  - split.
    + rewrite (B2R_of_SF F32 (flit F32 1 (10 ^ 15)) false 9444733 (-73)) by (vm_compute; reflexivity).
      unfold F2R; cbn [Fnum Fexp cond_Zopp]. apply Rle_trans with (9444733 * bpow radix2 (-24)); [apply Rmult_le_compat_l; [lra|apply bpow_le; lia]|cbn; lra].
    + rewrite (B2R_of_SF F32 (flit F32 1 (10 ^ 6)) false 8796093 (-43)) by (vm_compute; reflexivity).
      unfold F2R; cbn [Fnum Fexp cond_Zopp]. apply Rle_trans with (8796093 * bpow radix2 (-24)); [apply Rmult_le_compat_l; [lra|apply bpow_le; lia]|cbn; lra].
  - split.
    + rewrite (B2R_of_SF F64 (flit F64 1 (10 ^ 15)) false 5070602400912918 (-102)) by (vm_compute; reflexivity).
      unfold F2R; cbn [Fnum Fexp cond_Zopp]. apply Rle_trans with (5070602400912918 * bpow radix2 (-53)); [apply Rmult_le_compat_l; [lra|apply bpow_le; lia]|cbn; lra].
    + rewrite (B2R_of_SF F64 (flit F64 1 (10 ^ 6)) false 4722366482869645 (-72)) by (vm_compute; reflexivity).
      unfold F2R; cbn [Fnum Fexp cond_Zopp]. apply Rle_trans with (4722366482869645 * bpow radix2 (-53)); [apply Rmult_le_compat_l; [lra|apply bpow_le; lia]|cbn; lra].
Qed.

Lemma fquat_assert_spec p t (q : FQ p) : order 4 t -> qfinite q -> bpow radix2 (-50) <= qnorm (qval q) <= bpow radix2 50 ->
  (Rabs (qnorm (qval q) - 1) <= 99 / 1000000 -> fquat_assert t q = true) /\
  (101 / 1000000 <= Rabs (qnorm (qval q) - 1) -> fquat_assert t q = false).
Proof.
  intros O F L. destruct (fqnorm_err p t q O F L) as (_ & Fs & E). destruct (fofZ1 p) as [F1 V1]. destruct (thr_val p) as [Ft T].
  pose proof (fu_pos p) as U. pose proof (fu_24 p) as V. set (N := qnorm (qval q)) in *. set (n := B2R (fqnorm t q)) in *.
  pose proof (bpow_gt_0 radix2 (-50)) as P0. assert (N0 : 0 < N) by lra. pose proof bpow_51 as B51.
  assert (E1 : - ((3 + / 20) * fu p * N) <= n - N <= (3 + / 20) * fu p * N).
  { split; [pose proof (Rle_abs (- (n - N))) as X; rewrite Rabs_Ropp in X; lra|pose proof (Rle_abs (n - N)); lra]. }
  assert (W : (3 + / 20) * fu p <= / 5000000) by lra.
  assert (E2 : - (/ 5000000 * N) <= n - N <= / 5000000 * N).
  { assert ((3 + / 20) * fu p * N <= / 5000000 * N) by (apply Rmult_le_compat_r; lra). lra. }
  destruct (C49_finite_lemma p (fqnorm t q) (fofZ p 1) (flit p 1 100) Fs F1 Ft) as [CA CR].
  { apply small_le_big. fold n. rewrite Rabs_pos_eq by lra. lra. }
  { apply small_le_big. rewrite V1, Rabs_R1. change 1 with (bpow radix2 0). apply bpow_le. lia. }
  fold n in CA, CR. rewrite V1, Rabs_R1 in CA, CR. fold (fu p) in CA, CR. set (thr := B2R (fmul (flit p 1 100) (flit p 1 100))) in *.
  rewrite (Rabs_pos_eq n) in CA, CR by lra. rewrite (Rabs_pos_eq thr) in CA by lra.
  assert (U2 : 0 <= fu p * fu p <= fu p * / 16777216) by nra.
  assert (K1 : 99998 / 1000000000 <= (1 - 3 * fu p) * (thr - fu p * fu p)) by nra.
  assert (K2 : (1 + 3 * fu p) * (thr + fu p * fu p) <= 100002 / 1000000000) by nra.
  assert (M1 : 1 <= Rmax n 1) by apply Rmax_r.
  fold (fquat_assert t q) in CA, CR. split; intro H.
  - destruct (fquat_assert t q) eqn:A; [reflexivity|exfalso]. destruct (CR eq_refl) as [_ R].
    assert (99998 / 1000000000 * Rmax n 1 <= Rabs (n - 1)) by (eapply Rle_trans; [apply Rmult_le_compat_r; [lra|exact K1]|exact R]).
    assert (Rabs (n - 1) <= 993 / 10000000).
    { pose proof (Rle_abs (N - 1)) as Y1. pose proof (Rle_abs (- (N - 1))) as Y2. rewrite Rabs_Ropp in Y2. apply Rabs_le. lra. }
    lra.
  - destruct (fquat_assert t q) eqn:A; [exfalso|reflexivity]. destruct (flit_lt1 p) as [F15 F6].
    destruct (CA eq_refl) as [[_ X]|[[Z X]|[[Z X]|X]]]; [lra|lra|lra|].
    assert (Y : Rabs (n - 1) <= 100002 / 1000000000 * Rmax n 1) by (eapply Rle_trans; [exact X|apply Rmult_le_compat_r; lra]).
    unfold Rabs in H, Y. unfold Rmax in Y. destruct (Rcase_abs (N - 1)); destruct (Rcase_abs (n - 1)); destruct (Rle_dec n 1); lra.
Qed.
