(** C49 (NaN in debug comparisons), C50 (wrapping in floating point), C51
    (AngleAxis<float>::getUnique at half turns). *)
From Coq Require Import ZArith Reals Lra Psatz Bool Lia List.
From Flocq Require Import IEEE754.BinarySingleNaN Core.Core.
From Verif Require Import ModelCommon FloatModel FloatFacts FloatModulo FloatWrap.
Import ListNotations.
Local Open Scope R_scope.

(** ** C49 *)
Lemma fadd_nf p (a b : fl p) : is_finite a = false \/ is_finite b = false -> is_finite (fadd a b) = false.
Proof.
  intros [H|H]; destruct a as [s|s| |s m e He]; destruct b as [s'|s'| |s' m' e' He']; cbn in *; try discriminate; try reflexivity;
  destruct (Bool.eqb s s'); reflexivity.
Qed.
Lemma fsub_nf p (a b : fl p) : is_finite a = false \/ is_finite b = false -> is_finite (fsub a b) = false.
Proof.
  intros [H|H]; destruct a as [s|s| |s m e He]; destruct b as [s'|s'| |s' m' e' He']; cbn in *; try discriminate; try reflexivity;
  destruct s, s'; reflexivity.
Qed.
Lemma fmul_nf p (a : fl p) : is_finite a = false -> is_finite (fmul a a) = false.
Proof. destruct a as [s|s| |s m e He]; cbn; congruence. Qed.
Lemma fsqrt_nf p (a : fl p) : is_finite a = false -> is_finite (fsqrt a) = false.
Proof. destruct a as [s|[|]| |s m e He]; cbn; congruence. Qed.
Lemma fabs_nf p (a : fl p) : is_finite (fabs a) = is_finite a.
Proof. apply is_finite_Babs. Qed.

Lemma flt_nan_l p (a b : fl p) : is_nan a = true -> flt a b = false.
Proof. destruct a; try discriminate. destruct b as [s|s| |s m e He]; reflexivity. Qed.
Lemma flt_nan_r p (a b : fl p) : is_nan b = true -> flt a b = false.
Proof. destruct b; try discriminate. destruct a as [s|[|]| |[|] m e He]; reflexivity. Qed.
Lemma flit_finite p : is_finite (flit p 1 (10 ^ 15)) = true /\ is_finite (flit p 1 (10 ^ 6)) = true /\ is_finite (flit p 1 100) = true.
Proof. destruct p; vm_compute; tauto. Qed.

Lemma flit15_pos p : 0 < B2R (flit p 1 (10 ^ 15)).
Proof.
  destruct p.
  - rewrite (B2R_of_SF F32 _ false 9444733 (-73)) by (vm_compute; reflexivity). apply Rmult_lt_0_compat; [cbn; lra|apply bpow_gt_0].
  - rewrite (B2R_of_SF F64 _ false 5070602400912918 (-102)) by (vm_compute; reflexivity). apply Rmult_lt_0_compat; [cbn; lra|apply bpow_gt_0].
Qed.
Definition is_inf {p} (a : fl p) : bool := match a with B754_infinity _ => true | _ => false end.
Lemma nf_cases p (a : fl p) : is_finite a = false -> is_nan a = true \/ is_inf a = true.
Proof. destruct a; cbn; intuition discriminate. Qed.
Lemma fdiv_nan_l p (a b : fl p) : is_nan a = true -> is_nan (fdiv a b) = true.
Proof. destruct a; try discriminate. destruct b as [s|s| |s m e He]; reflexivity. Qed.
Lemma fdiv_inf_inf p (a b : fl p) : is_inf a = true -> is_inf b = true -> is_nan (fdiv a b) = true.
Proof. destruct a, b; cbn; congruence. Qed.
Lemma fabs_nan p (a : fl p) : is_nan (fabs a) = is_nan a.
Proof. destruct a; reflexivity. Qed.
Lemma fabs_inf p (a : fl p) : is_inf (fabs a) = is_inf a.
Proof. destruct a; reflexivity. Qed.

(** a non-finite operand makes the relative difference NaN *)
Lemma diff_nan p (a b : fl p) : is_finite a = false \/ is_finite b = false ->
  is_nan (fdiv (fabs (fsub a b)) (fmax (fabs a) (fabs b))) = true.
Proof.
  intro H.
  destruct (is_nan a || is_nan b)%bool eqn:N.
  - apply fdiv_nan_l. rewrite fabs_nan. destruct a as [s|s| |s m e He]; destruct b as [s'|s'| |s' m' e' He']; cbn in *; try discriminate; reflexivity.
  - apply orb_false_elim in N. destruct N as [Na Nb].
    destruct (nf_cases p (fsub a b) (fsub_nf p a b H)) as [Q|Q].
    + apply fdiv_nan_l. now rewrite fabs_nan.
    + apply fdiv_inf_inf; [now rewrite fabs_inf|].
      unfold fmax. destruct a as [s|s| |s m e He]; destruct b as [s'|s'| |s' m' e' He']; cbn in *; try discriminate; try reflexivity; destruct H; discriminate.
Qed.

(** C49: compareRelative returns true as soon as one compared value is NaN or
    infinite, or the tolerance is NaN. *)
Lemma C49_not_finite_lemma : forall (p : prim) (a b tol : fl p),
  is_finite a = false \/ is_finite b = false \/ is_nan tol = true -> fcompareRelative a b tol = true.
Proof.
  intros p a b tol H. unfold fcompareRelative.
  match goal with |- (if ?c then _ else _) = _ => destruct c; [reflexivity|] end.
  replace (flt (fmul tol (flit p 1 100)) (fdiv (fabs (fsub a b)) (fmax (fabs a) (fabs b)))) with false; [reflexivity|].
  symmetry. destruct H as [H|[H|H]].
  - apply flt_nan_r. apply diff_nan. now left.
  - apply flt_nan_r. apply diff_nan. now right.
  - apply flt_nan_l. destruct tol; try discriminate. destruct (flit p 1 100); reflexivity.
Qed.

(** C49: hence in debug mode the unit-length assertions accept every
    coefficient vector with a NaN or an infinite coefficient, in whatever order
    Eigen adds the squares, and for every tolerance. *)
Lemma C49_unit_assert_lemma : forall (p : prim) (order : sumtree) (c : nat -> fl p) (i : nat) (num den : Z),
  In i (leaves order) -> is_finite (c i) = false -> funit_assert order c num den = true.
Proof.
  intros p t c i num den Hi Hc. unfold funit_assert. apply C49_not_finite_lemma. left.
  unfold fnorm. apply fsqrt_nf.
  assert (G : forall f : nat -> fl p, is_finite (f i) = false -> is_finite (fsum t f) = false).
  { clear Hc c. intros f Hf. induction t as [j|l IHl r IHr]; cbn [fsum leaves] in *.
    - destruct Hi as [->|[]]. exact Hf.
    - apply fadd_nf. apply in_app_or in Hi. destruct Hi as [Hi|Hi]; [left; now apply IHl|right; now apply IHr]. }
  apply (G (fun i => fmul (c i) (c i))). now apply fmul_nf.
Qed.

(** the four coefficients of a quaternion; also a finite quaternion of length
    1e200 passes the assertion (the sum of squares overflows) while (2,0,0,0)
    is rejected *)
Definition quat_order : sumtree := Node (Node (Leaf 0) (Leaf 1)) (Node (Leaf 2) (Leaf 3)).
Lemma C49_unit_assert_ex :
  funit_assert quat_order (fun i => match i with 0%nat => B754_nan | _ => fofZ F64 0 end) 1 100 = true /\
  funit_assert quat_order (fun i => match i with 0%nat => fofZ F64 (10 ^ 200) | _ => fofZ F64 0 end) 1 100 = true /\
  funit_assert quat_order (fun i => match i with 0%nat => fofZ F64 2 | _ => fofZ F64 0 end) 1 100 = false /\
  funit_assert quat_order (fun i => match i with 0%nat => fofZ F32 2 | _ => fofZ F32 0 end) 1 100 = false /\
  funit_assert quat_order (fun i => match i with 0%nat => fofZ F32 1 | _ => fofZ F32 0 end) 1 100 = true.
Proof. vm_compute. tauto. Qed.

(** C49: for finite values far from overflow the comparison means what it says,
    up to rounding (u = 2^-24 or 2^-53): accepted values are both tiny, or agree
    relatively within the threshold; rejected values differ by more. *)
Lemma C49_finite_lemma : forall (p : prim) (a b tol : fl p),
  is_finite a = true -> is_finite b = true ->
  is_finite (fmul tol (flit p 1 100)) = true ->
  Rabs (B2R a) <= bpow radix2 (femax p - 2) -> Rabs (B2R b) <= bpow radix2 (femax p - 2) ->
  let thr := B2R (fmul tol (flit p 1 100)) in
  let M := Rmax (Rabs (B2R a)) (Rabs (B2R b)) in
  let u := bpow radix2 (- fprec p) in
  (fcompareRelative a b tol = true ->
     (Rabs (B2R a) < B2R (flit p 1 (10 ^ 15)) /\ Rabs (B2R b) < B2R (flit p 1 (10 ^ 15))) \/
     (B2R a = 0 /\ Rabs (B2R b) < B2R (flit p 1 (10 ^ 6))) \/
     (B2R b = 0 /\ Rabs (B2R a) < B2R (flit p 1 (10 ^ 6))) \/
     Rabs (B2R a - B2R b) <= (1 + 3 * u) * (Rabs thr + u * u) * M) /\
  (fcompareRelative a b tol = false ->
     0 < M /\ (1 - 3 * u) * (thr - u * u) * M <= Rabs (B2R a - B2R b)).
Proof.
  intros p a b tol Fa Fb Ft Ha Hb thr M u.
  destruct (flit_finite p) as (L1 & L2 & L3).
  destruct (fabs_R p a) as [Ra Fa']. rewrite Fa in Fa'. destruct (fabs_R p b) as [Rb Fb']. rewrite Fb in Fb'.
  assert (Bg : Rabs (B2R a - B2R b) <= fbig p).
  { apply Rle_trans with (Rabs (B2R a) + Rabs (B2R b)).
    - replace (B2R a - B2R b) with (B2R a + - B2R b) by ring. rewrite <- (Rabs_Ropp (B2R b)). apply Rabs_triang.
    - unfold fbig. replace (femax p - 1)%Z with (1 + (femax p - 2))%Z by ring. rewrite bpow_plus. change (bpow radix2 1) with 2. lra. }
  destruct (fsub_R p a b Fa Fb Bg) as [S Fs].
  destruct (fabs_R p (fsub a b)) as [Rs Fs']. rewrite Fs in Fs'.
  assert (RM : B2R (fmax (fabs a) (fabs b)) = M /\ is_finite (fmax (fabs a) (fabs b)) = true).
  { unfold fmax. rewrite (flt_R p) by assumption. rewrite Ra, Rb. unfold M, Rmax.
    destruct (Rlt_bool_spec (Rabs (B2R a)) (Rabs (B2R b))) as [C|C]; destruct (Rle_dec (Rabs (B2R a)) (Rabs (B2R b))) as [C'|C'].
    - split; [exact Rb|exact Fb']. - lra. - split; [rewrite Ra; lra|exact Fa']. - split; [exact Ra|exact Fa']. }
  destruct RM as [RM FM].
  pose proof (Rabs_pos (B2R a)) as Pa. pose proof (Rabs_pos (B2R b)) as Pb.
  assert (MA : Rabs (B2R a) <= M) by apply Rmax_l. assert (MB : Rabs (B2R b) <= M) by apply Rmax_r.
  pose proof (fu_pos p) as U0. pose proof (fu_small p) as U1. change (fu p) with u in U0, U1.
  assert (Fz : is_finite (@fzero p) = true) by reflexivity.
  unfold fcompareRelative.
  rewrite !(flt_R p), !(feq_R p) by assumption. rewrite Ra, Rb. change (B2R fzero) with 0.
  match goal with |- context [if ?c then true else _] => destruct c eqn:C end.
  - split; [intros _|discriminate].
    apply orb_true_iff in C. destruct C as [C|C]; [apply orb_true_iff in C; destruct C as [C|C]|]; apply andb_true_iff in C; destruct C as [C1 C2].
    + left. split; [destruct (Rlt_bool_spec (Rabs (B2R a)) (B2R (flit p 1 (10 ^ 15)))); [assumption|discriminate]|
                    destruct (Rlt_bool_spec (Rabs (B2R b)) (B2R (flit p 1 (10 ^ 15)))); [assumption|discriminate]].
    + right. left. split.
      * destruct (Req_bool_spec (Rabs (B2R a)) 0) as [Z|]; [|discriminate]. destruct (Req_dec (B2R a) 0) as [|N]; [assumption|]. now apply Rabs_no_R0 in N.
      * destruct (Rlt_bool_spec (Rabs (B2R b)) (B2R (flit p 1 (10 ^ 6)))); [assumption|discriminate].
    + right. right. left. split.
      * destruct (Req_bool_spec (Rabs (B2R b)) 0) as [Z|]; [|discriminate]. destruct (Req_dec (B2R b) 0) as [|N]; [assumption|]. now apply Rabs_no_R0 in N.
      * destruct (Rlt_bool_spec (Rabs (B2R a)) (B2R (flit p 1 (10 ^ 6)))); [assumption|discriminate].
  - assert (M0 : 0 < M).
    { destruct (Rle_lt_or_eq_dec 0 M) as [|E]; [lra|assumption|exfalso].
      assert (A0 : Rabs (B2R a) = 0) by lra. assert (B0 : Rabs (B2R b) = 0) by lra.
      rewrite A0, B0 in C. assert (P15 : 0 < B2R (flit p 1 (10 ^ 15))) by apply flit15_pos.
      rewrite (Rlt_bool_true 0 _ P15) in C. discriminate. }
    set (d := Rabs (B2R a - B2R b)) in *. assert (Pd : 0 <= d) by apply Rabs_pos.
    assert (D2 : d <= 2 * M).
    { unfold d. replace (B2R a - B2R b) with (B2R a + - B2R b) by ring. apply Rle_trans with (1 := Rabs_triang _ _). rewrite Rabs_Ropp. lra. }
    set (s := Rabs (rnd p (B2R a - B2R b))) in *.
    assert (Es : B2R (fabs (fsub a b)) = s) by (now rewrite Rs, S).
    assert (Hs : Rabs (s - d) <= u * d).
    { unfold s, d. apply Rle_trans with (2 := rnd_add_err p (B2R a) (- B2R b) (fmt_B2R p a) (fmt_opp _ _ (fmt_B2R p b))).
      apply Rabs_triang_inv2. }
    pose proof (Rle_abs (s - d)) as S1. pose proof (Rle_abs (- (s - d))) as S2. rewrite Rabs_Ropp in S2.
    assert (U2 : u * d <= d / 1000) by nra.
    assert (SM : Rabs (s / M) <= 4).
    { unfold Rdiv. rewrite Rabs_mult, Rabs_inv, (Rabs_pos_eq M), (Rabs_pos_eq s) by (try lra; apply Rabs_pos).
      apply Rmult_le_reg_r with M; [lra|]. rewrite Rmult_assoc, Rinv_l by lra. lra. }
    destruct (fdiv_R p (fabs (fsub a b)) (fmax (fabs a) (fabs b)) Fs') as [Q Fq]; [rewrite RM; lra| |].
    { rewrite Es, RM. apply Rle_trans with (1 := SM). change 4 with (bpow radix2 2). apply bpow_le. destruct p; cbn; lia. }
    rewrite Es, RM in Q.
    rewrite (flt_R p) by assumption. fold thr. rewrite Q.
    destruct (rnd_err p (s / M)) as (eps & eta & E1 & E2 & E3). change (fu p) with u in E1.
    pose proof (h_small p) as Hh. pose proof (fu64_le p) as UL. pose proof (fu_pos F64) as UP. change (fu p) with u in UL.
    assert (E2' : Rabs eta <= u * u) by nra.
    pose proof (Rle_abs eta) as T1. pose proof (Rle_abs (- eta)) as T2. rewrite Rabs_Ropp in T2.
    pose proof (Rle_abs eps) as V1. pose proof (Rle_abs (- eps)) as V2. rewrite Rabs_Ropp in V2.
    assert (ES : s = s / M * M) by (field; lra). set (r := s / M) in *.
    assert (R0 : 0 <= r). { unfold r, Rdiv. apply Rmult_le_pos; [apply Rabs_pos|]. apply Rlt_le, Rinv_0_lt_compat. lra. }
    assert (G1 : (1 - u) * d <= r * M) by lra. assert (G2 : r * M <= (1 + u) * d) by lra.
    assert (K1 : r * (1 - u) <= r * (1 + eps)) by (apply Rmult_le_compat_l; lra).
    assert (K2 : r * (1 + eps) <= r * (1 + u)) by (apply Rmult_le_compat_l; lra).
    clearbody r d s thr u M.
    set (t15 := B2R (flit p 1 (10 ^ 15))) in *. set (t6 := B2R (flit p 1 (10 ^ 6))) in *. clearbody t15 t6.
    destruct (Rlt_bool_spec thr (rnd p r)) as [Ht|Ht]; (split; [intro H0|intro H0]); try (exfalso; congruence); clear H0.
    + split; [exact M0|]. rewrite E3 in Ht.
      assert (J : thr - u * u <= r * (1 + u)) by lra.
      destruct (Rle_or_lt (thr - u * u) 0) as [Z|Z].
      * apply Rle_trans with 0; [|exact Pd]. replace ((1 - 3 * u) * (thr - u * u) * M) with (- ((1 - 3 * u) * (- (thr - u * u)) * M)) by ring.
        assert (0 <= (1 - 3 * u) * (- (thr - u * u)) * M) by (apply Rmult_le_pos; [apply Rmult_le_pos; lra|lra]). lra.
      * apply Rle_trans with ((1 - 3 * u) * (r * (1 + u)) * M).
        -- apply Rmult_le_compat_r; [lra|]. apply Rmult_le_compat_l; lra.
        -- replace ((1 - 3 * u) * (r * (1 + u)) * M) with ((1 - 3 * u) * (1 + u) * (r * M)) by ring.
           apply Rle_trans with ((1 - 3 * u) * (1 + u) * ((1 + u) * d)).
           ++ apply Rmult_le_compat_l; [apply Rmult_le_pos; lra|exact G2].
           ++ replace ((1 - 3 * u) * (1 + u) * ((1 + u) * d)) with (((1 - 3 * u) * (1 + u) * (1 + u)) * d) by ring.
              rewrite <- (Rmult_1_l d) at 2. apply Rmult_le_compat_r; [exact Pd|]. nra.
    + right. right. right. rewrite E3 in Ht.
      assert (J : r * (1 - u) <= Rabs thr + u * u) by (pose proof (Rle_abs thr); lra).
      assert (J2 : (1 - u) * ((1 - u) * d) <= (Rabs thr + u * u) * M).
      { apply Rle_trans with ((1 - u) * (r * M)); [apply Rmult_le_compat_l; lra|].
        replace ((1 - u) * (r * M)) with (r * (1 - u) * M) by ring. apply Rmult_le_compat_r; lra. }
      assert (J3 : 1 <= (1 + 3 * u) * ((1 - u) * (1 - u))) by nra.
      apply Rle_trans with ((1 + 3 * u) * ((1 - u) * (1 - u)) * d).
      * rewrite <- (Rmult_1_l d) at 1. apply Rmult_le_compat_r; lra.
      * replace ((1 + 3 * u) * ((1 - u) * (1 - u)) * d) with ((1 + 3 * u) * ((1 - u) * ((1 - u) * d))) by ring.
        rewrite Rmult_assoc. apply Rmult_le_compat_l; lra.
Qed.

Lemma C49_finite_ex : fcompareRelative (fofZ F64 1000001) (fofZ F64 1000000) (flit F64 1 100) = true /\
  fcompareRelative (fofZ F64 1000) (fofZ F64 1001) (flit F64 1 100) = false.
Proof. vm_compute. tauto. Qed.
