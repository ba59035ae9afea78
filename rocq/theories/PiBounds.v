(** Rational bounds on pi, good enough to compare it with the double M_PI. *)
From Coq Require Import Reals Lra Ratan ZArith QArith Qreals Lia.
Local Open Scope R_scope.

(** partial sums of 2 atan(1/3) + atan(1/7) = pi/4 as rationals *)
Definition qterm (n : nat) : Q :=
  let k := (2 * Z.of_nat n + 1)%Z in
  let a := (2 # Z.to_pos (3 ^ k * k)) in let b := (1 # Z.to_pos (7 ^ k * k)) in
  if Nat.even n then (a + b)%Q else (- (a + b))%Q.
Fixpoint qsum (n : nat) : Q := match n with O => qterm 0 | S k => Qred (qsum k + qterm (S k)) end.

Lemma frac_R (c b : positive) (n : nat) :
  Q2R (Zpos c # Z.to_pos (Zpos b ^ (2 * Z.of_nat n + 1) * (2 * Z.of_nat n + 1))) = IZR (Zpos c) * ((/ IZR (Zpos b)) ^ (2 * n + 1) / INR (2 * n + 1)).
Proof.
  unfold Q2R. cbn [Qnum Qden].
  assert (K : (0 < 2 * Z.of_nat n + 1)%Z) by lia.
  assert (P : (0 < Zpos b ^ (2 * Z.of_nat n + 1))%Z) by (apply Z.pow_pos_nonneg; lia).
  rewrite Z2Pos.id by (apply Z.mul_pos_pos; assumption).
  rewrite mult_IZR.
  replace (IZR (Zpos b ^ (2 * Z.of_nat n + 1))) with (IZR (Zpos b) ^ (2 * n + 1)).
  2:{ rewrite pow_IZR. do 2 f_equal. lia. }
  replace (IZR (2 * Z.of_nat n + 1)) with (INR (2 * n + 1)).
  2:{ rewrite INR_IZR_INZ. f_equal. lia. }
  rewrite pow_inv. unfold Rdiv. rewrite Rinv_mult. ring.
Qed.
Lemma qterm_R n : Q2R (qterm n) = tg_alt PI_2_3_7_tg n.
Proof.
  unfold qterm, tg_alt, PI_2_3_7_tg, Ratan_seq. cbv zeta.
  pose proof (frac_R 2 3 n) as A. pose proof (frac_R 1 7 n) as B.
  destruct (Nat.even n) eqn:E.
  - apply Nat.even_spec in E. destruct E as [k ->].
    rewrite Q2R_plus, A, B. rewrite pow_1_even. ring.
  - assert (O : Nat.odd n = true) by (unfold Nat.odd; now rewrite E). apply Nat.odd_spec in O. destruct O as [k ->].
    rewrite Q2R_opp, Q2R_plus, A, B. replace ((-1) ^ (2 * k + 1)) with (-1) by (replace (2 * k + 1)%nat with (S (2 * k)) by lia; now rewrite pow_1_odd). ring.
Qed.
Lemma qsum_R n : Q2R (qsum n) = sum_f_R0 (tg_alt PI_2_3_7_tg) n.
Proof.
  induction n as [|n IH]; cbn [qsum sum_f_R0]; [apply qterm_R|].
  rewrite (Qeq_eqR _ _ (Qred_correct _)), Q2R_plus, IH, qterm_R. reflexivity.
Qed.
(** M_PI (the double) is below pi by between 1.2e-16 and 1.3e-16 *)
Lemma PI_close : IZR 7074237752028440 * / IZR (2 ^ 51) + 12 / IZR (10 ^ 17) < PI < IZR 7074237752028440 * / IZR (2 ^ 51) + 13 / IZR (10 ^ 17).
Proof.
  destruct (PI_2_3_7_ineq 9) as [A B].
  rewrite <- qsum_R in A, B.
  assert (L : ((7074237752028440 # 2 ^ 51) + (12 # 10 ^ 17) < 4 * qsum (S (2 * 9)))%Q) by (vm_compute; reflexivity).
  assert (U : (4 * qsum (2 * 9) < (7074237752028440 # 2 ^ 51) + (13 # 10 ^ 17))%Q) by (vm_compute; reflexivity).
  apply Qlt_Rlt in L, U. rewrite Q2R_plus, Q2R_mult in L, U.
  replace (Q2R (7074237752028440 # 2 ^ 51)) with (IZR 7074237752028440 * / IZR (2 ^ 51)) in L, U by reflexivity.
  replace (Q2R (12 # 10 ^ 17)) with (12 / IZR (10 ^ 17)) in L by reflexivity.
  replace (Q2R (13 # 10 ^ 17)) with (13 / IZR (10 ^ 17)) in U by reflexivity.
  replace (Q2R 4) with 4 in L, U by (unfold Q2R; cbn; lra).
  set (c := IZR 7074237752028440 * / IZR (2 ^ 51)) in *. set (s1 := Q2R (qsum (S (2 * 9)))) in *. set (s2 := Q2R (qsum (2 * 9))) in *.
  clearbody c s1 s2. lra.
Qed.
