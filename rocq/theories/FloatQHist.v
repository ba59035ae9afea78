(** Histories of floating-point quaternion objects. *)
From Coq Require Import Reals ZArith Bool List Permutation Lra Lia Psatz.
From Flocq Require Import IEEE754.BinarySingleNaN Core.Core.
From Verif Require Import Linalg Spec SpecFacts ModelCommon FloatModel FloatFacts FloatModulo FloatWrap FloatModel2 SpecFloatQ FloatQFacts FloatQProd.
Import ListNotations.
Local Open Scope R_scope.

Lemma underflow_u p : underflow p <= / 1000 * fu p.
Proof.
  rewrite underflow_eta. pose proof (eta_u p) as T. pose proof (fu_pos p) as U.
  assert (X : bpow radix2 (-126) <= / 1048576) by (apply Rle_trans with (bpow radix2 (-20)); [apply bpow_le; lia|cbn; lra]).
  assert (fu p * bpow radix2 (-126) <= fu p * / 1048576) by (apply Rmult_le_compat_l; lra). lra.
Qed.

Lemma Rabs_m1 : Rabs (-1) = 1.
Proof. rewrite Rabs_left; lra. Qed.
Lemma qscale_qscale s t a : qscale s (qscale t a) = qscale (s * t) a.
Proof. destruct a; unfold qscale; cbn; f_equal; ring. Qed.
Lemma qdist_scale s a b : qdist (qscale s a) (qscale s b) = Rabs s * qdist a b.
Proof. unfold qdist. rewrite <- qnorm_scale. f_equal. unfold qsub, qscale; cbn; f_equal; ring. Qed.
Lemma qdist_conj a b : qdist (conj a) (conj b) = qdist a b.
Proof. unfold qdist, qnorm. f_equal. unfold qnorm2, qsub, conj; cbn; ring. Qed.
Lemma qnorm_conj a : qnorm (conj a) = qnorm a.
Proof. unfold qnorm, qnorm2, conj; cbn. f_equal. ring. Qed.
Lemma direction_neg a : direction (qscale (-1) a) = qscale (-1) (direction a).
Proof.
  unfold direction. rewrite qnorm_scale, Rabs_m1, Rmult_1_l. rewrite !qscale_qscale. f_equal. ring.
Qed.
Lemma direction_conj a : direction (conj a) = conj (direction a).
Proof. unfold direction. rewrite qnorm_conj. unfold qscale, conj; cbn. f_equal; ring. Qed.
Lemma direction_direction a : 0 < qnorm a -> direction (direction a) = direction a.
Proof. intro H. apply direction_unit, direction_norm, H. Qed.
Lemma hamilton_scale s t a b : hamilton (qscale s a) (qscale t b) = qscale (s * t) (hamilton a b).
Proof. unfold qscale. slin. Qed.
Lemma direction_hamilton a b : 0 < qnorm a -> 0 < qnorm b -> direction (hamilton a b) = hamilton (direction a) (direction b).
Proof.
  intros A B. unfold direction. rewrite hamilton_scale, hamilton_qnorm. f_equal. field. lra.
Qed.
Lemma turned_mono d d' a e : d <= d' -> turned_like d a e -> turned_like d' a e.
Proof. intros H (s & Hs & D). exists s. split; [exact Hs|lra]. Qed.

(** one product *)
Lemma product_step p (o : orders4) (a b : FQ p) :
  orders4_ok o -> qfinite a -> qfinite b ->
  Rabs (qnorm (qval a) - 1) <= / 50 -> Rabs (qnorm (qval b) - 1) <= / 50 ->
  qfinite (fmult o a b) /\
  Rabs (qnorm (qval (fmult o a b)) - qnorm (qval a) * qnorm (qval b)) <= (9 + 4 / 10) * fu p /\
  qdist (direction (qval (fmult o a b))) (hamilton (direction (qval a)) (direction (qval b))) <= (9 + 9 / 10) * fu p.
Proof.
  intros O Fa Fb Na Nb. pose proof (fu_pos p) as U. pose proof (fu_24 p) as V. pose proof (underflow_u p) as UF.
  set (na := qnorm (qval a)) in *. set (nb := qnorm (qval b)) in *.
  assert (A : 98/100 <= na <= 102/100) by (pose proof (Rle_abs (na - 1)); pose proof (Rle_abs (-(na - 1))) as X; rewrite Rabs_Ropp in X; lra).
  assert (B : 98/100 <= nb <= 102/100) by (pose proof (Rle_abs (nb - 1)); pose proof (Rle_abs (-(nb - 1))) as X; rewrite Rabs_Ropp in X; lra).
  assert (P : 96/100 <= na * nb <= 1041/1000) by nra.
  destruct (fmult_err p o a b O Fa Fb) as [F E].
  { fold na nb. apply Rle_trans with (bpow radix2 1); [cbn; lra|apply bpow_le; lia]. }
  fold na nb in E. split; [exact F|].
  set (r := qval (fmult o a b)) in *. set (h := hamilton (qval a) (qval b)) in *.
  assert (Hn : qnorm h = na * nb) by apply hamilton_qnorm.
  assert (E' : qdist r h <= (9 + 4 / 10) * fu p) by nra.
  pose proof (qdist_norm r h) as D. rewrite Hn in D. split; [lra|].
  rewrite <- direction_hamilton by (fold na nb; lra). fold h.
  pose proof (Rle_abs (- (qnorm r - na * nb))) as X. rewrite Rabs_Ropp in X.
  eapply Rle_trans; [apply (direction_dist r h (959/1000)); lra|].
  unfold Rdiv. apply Rle_trans with ((9 + 4 / 10) * fu p * / (959 * / 1000)); [apply Rmult_le_compat_r; lra|]. lra.
Qed.

Definition hinv {p} (A : R) (q : FQ p) (e : Quat) (n k : nat) : Prop :=
  qfinite q /\ qnorm e = 1 /\ turned_like ((A + 10) * fu p * (INR n + 1)) (qval q) e /\ Rabs (qnorm (qval q) - 1) <= (A + 10) * fu p * (INR k + 1).

Lemma operand_facts p A (b : FQ p) e : 0 <= A <= 50 -> qnorm e = 1 -> qdist (qval b) e <= A * fu p ->
  Rabs (qnorm (qval b) - 1) <= A * fu p /\ qdist (direction (qval b)) e <= (A + / 10) * fu p.
Proof.
  intros HA E D. pose proof (fu_pos p) as U. pose proof (fu_24 p) as V. assert (AU : A * fu p <= 50 * fu p) by nra.
  pose proof (qdist_norm (qval b) e) as N. rewrite E in N. split; [lra|].
  pose proof (Rle_abs (- (qnorm (qval b) - 1))) as X. rewrite Rabs_Ropp in X.
  eapply Rle_trans; [apply direction_close; [exact E|lra|lra]|].
  pose proof (qdist_nonneg (qval b) e) as N0. apply Rmult_le_reg_r with (1 - qdist (qval b) e); [lra|].
  unfold Rdiv. rewrite Rmult_assoc, Rinv_l by lra. nra.
Qed.

Lemma hinv_assign p A (b : FQ p) e n : 0 <= A <= 50 -> qfinite b -> qnorm e = 1 -> qdist (qval b) e <= A * fu p -> hinv A b e n 0.
Proof.
  intros HA F E D. destruct (operand_facts p A b e HA E D) as [N1 N2]. pose proof (fu_pos p) as U. pose proof (pos_INR n) as In.
  split; [exact F|]. split; [exact E|]. split.
  - exists 1. split; [now left|]. replace (qscale 1 e) with e by (destruct e; unfold qscale; cbn; f_equal; ring).
    assert (0 <= A * fu p) by nra. assert (0 <= A * fu p * INR n) by (apply Rmult_le_pos; lra). assert (0 <= fu p * INR n) by (apply Rmult_le_pos; lra). lra.
  - cbn [INR]. lra.
Qed.

Lemma hinv_mult p A o (a b : FQ p) ea eb n k (right : bool) : 0 <= A <= 50 -> orders4_ok o -> hinv A a ea n k -> (A + 10) * fu p * (INR k + 1) <= / 100 ->
  qfinite b -> qnorm eb = 1 -> qdist (qval b) eb <= A * fu p ->
  hinv A (if right then fmult o a b else fmult o b a) (if right then hamilton ea eb else hamilton eb ea) (S n) (S k).
Proof.
  intros HA O (Fa & Ea & Ta & Na) K Fb Eb Db. destruct (operand_facts p A b eb HA Eb Db) as [Nb Tb].
  pose proof (fu_pos p) as U. pose proof (fu_24 p) as V. pose proof (pos_INR n) as In. pose proof (pos_INR k) as Ik.
  assert (AU : A * fu p <= 50 * fu p) by nra.
  assert (Pa : 0 < qnorm (qval a)) by (pose proof (Rle_abs (- (qnorm (qval a) - 1))) as X; rewrite Rabs_Ropp in X; lra).
  assert (Pb : 0 < qnorm (qval b)) by (pose proof (Rle_abs (- (qnorm (qval b) - 1))) as X; rewrite Rabs_Ropp in X; lra).
  assert (Da := direction_norm _ Pa). assert (Dbn := direction_norm _ Pb).
  assert (PR : Rabs (qnorm (qval a) * qnorm (qval b) - 1) <= (A + 10) * fu p * (INR k + 1) + (A + / 2) * fu p).
  { replace (qnorm (qval a) * qnorm (qval b) - 1) with ((qnorm (qval a) - 1) + ((qnorm (qval a) - 1) * (qnorm (qval b) - 1) + (qnorm (qval b) - 1))) by ring.
    eapply Rle_trans; [apply Rabs_triang|]. pose proof (Rabs_triang ((qnorm (qval a) - 1) * (qnorm (qval b) - 1)) (qnorm (qval b) - 1)) as T.
    rewrite Rabs_mult in T. pose proof (Rabs_pos (qnorm (qval a) - 1)). pose proof (Rabs_pos (qnorm (qval b) - 1)).
    assert (Rabs (qnorm (qval a) - 1) * Rabs (qnorm (qval b) - 1) <= / 100 * (A * fu p)) by (apply Rmult_le_compat; lra). lra. }
  destruct Ta as (s & Hs & Ta). unfold hinv. rewrite !S_INR.
  assert (Ns : Rabs s = 1) by (destruct Hs as [-> | ->]; [apply Rabs_R1|apply Rabs_m1]).
  destruct right.
  - destruct (product_step p o a b O Fa Fb ltac:(lra) ltac:(lra)) as (F & N & D).
    split; [exact F|]. split; [rewrite hamilton_qnorm, Ea, Eb; ring|]. split.
    + exists s. split; [exact Hs|]. eapply Rle_trans; [apply (qdist_triang _ (hamilton (direction (qval a)) (direction (qval b))))|].
      pose proof (qdist_triang (hamilton (direction (qval a)) (direction (qval b))) (hamilton (qscale s ea) (direction (qval b))) (qscale s (hamilton ea eb))) as T.
      rewrite hamilton_dist_l, Dbn in T.
      replace (qscale s (hamilton ea eb)) with (hamilton (qscale s ea) eb) in T |- * by (unfold qscale; slin).
      rewrite hamilton_dist_r, qnorm_scale, Ns, Ea in T. lra.
    + replace (qnorm (qval (fmult o a b)) - 1) with ((qnorm (qval (fmult o a b)) - qnorm (qval a) * qnorm (qval b)) + (qnorm (qval a) * qnorm (qval b) - 1)) by ring.
      eapply Rle_trans; [apply Rabs_triang|]. lra.
  - destruct (product_step p o b a O Fb Fa ltac:(lra) ltac:(lra)) as (F & N & D).
    split; [exact F|]. split; [rewrite hamilton_qnorm, Ea, Eb; ring|]. split.
    + exists s. split; [exact Hs|]. eapply Rle_trans; [apply (qdist_triang _ (hamilton (direction (qval b)) (direction (qval a))))|].
      pose proof (qdist_triang (hamilton (direction (qval b)) (direction (qval a))) (hamilton (direction (qval b)) (qscale s ea)) (qscale s (hamilton eb ea))) as T.
      rewrite hamilton_dist_r, Dbn in T.
      replace (qscale s (hamilton eb ea)) with (hamilton eb (qscale s ea)) in T |- * by (unfold qscale; slin).
      rewrite hamilton_dist_l, qnorm_scale, Ns, Ea in T. lra.
    + rewrite (Rmult_comm (qnorm (qval b))) in N.
      replace (qnorm (qval (fmult o b a)) - 1) with ((qnorm (qval (fmult o b a)) - qnorm (qval a) * qnorm (qval b)) + (qnorm (qval a) * qnorm (qval b) - 1)) by ring.
      eapply Rle_trans; [apply Rabs_triang|]. lra.
Qed.

Lemma near1_range x : Rabs (x - 1) <= / 50 -> bpow radix2 (-50) <= x <= bpow radix2 50.
Proof.
  intro H. pose proof (Rle_abs (x - 1)). pose proof (Rle_abs (- (x - 1))) as X. rewrite Rabs_Ropp in X.
  split; [apply Rle_trans with (bpow radix2 (-1)); [apply bpow_le; lia|cbn; lra]|apply Rle_trans with (bpow radix2 1); [cbn; lra|apply bpow_le; lia]].
Qed.

Lemma hinv_step p A (q : FQ p) e n k (c : fcall p) : 6 <= A <= 50 -> fcall_ok A c -> hinv A q e n k -> (A + 10) * fu p * (INR k + 1) <= / 100 ->
  hinv A (fstep q (fst c)) (intended_step e c) (S n) (products_step k c).
Proof.
  pose proof (fu_pos p) as U. pose proof (fu_24 p) as V. pose proof (pos_INR n) as In. pose proof (pos_INR k) as Ik.
  intros HA C H K. assert (HA' : 0 <= A <= 50) by lra. assert (AU : A * fu p <= 50 * fu p) by nra. assert (AU0 : 6 * fu p <= A * fu p) by nra.
  assert (AUn : 0 <= A * fu p * INR n) by (apply Rmult_le_pos; lra). assert (Un : 0 <= fu p * INR n) by (apply Rmult_le_pos; lra).
  destruct c as [c b]. cbn [fst]. destruct c as [o f|o f|f| | |t m]; cbn [fstep intended_step products_step fst] in *;
    cbn [fcall_ok] in C; rewrite ?roundoff_fu in C.
  - destruct C as (O & F & E & D). exact (hinv_mult p A o q f e b n k true HA' O H K F E D).
  - destruct C as (O & F & E & D). exact (hinv_mult p A o q f e b n k false HA' O H K F E D).
  - destruct C as (F & E & D). now apply hinv_assign.
  - destruct H as (F & E & T & N). split; [now apply fconj_fin|]. split; [rewrite qnorm_conj; exact E|]. rewrite fconj_val, qnorm_conj. split; [|exact N].
    destruct T as (s & Hs & T). exists s. split; [exact Hs|]. rewrite direction_conj.
    replace (qscale s (conj e)) with (conj (qscale s e)) by (unfold qscale, conj; cbn; f_equal; ring). rewrite qdist_conj, S_INR. lra.
  - destruct H as (F & E & T & N). destruct (funique_cases p q) as [Q|Q]; unfold products_step; cbn [fst]; rewrite Q.
    + split; [exact F|]. split; [exact E|]. split; [|exact N]. eapply turned_mono; [|exact T]. rewrite S_INR. lra.
    + split; [now apply fqneg_fin|]. split; [exact E|]. rewrite fqneg_val, qnorm_scale, Rabs_m1, Rmult_1_l. split; [|exact N].
      destruct T as (s & Hs & T). exists (- s). split; [destruct Hs as [-> | ->]; [right|left]; ring|]. rewrite direction_neg.
      replace (qscale (- s) e) with (qscale (-1) (qscale s e)) by (rewrite qscale_qscale; f_equal; ring).
      rewrite qdist_scale, Rabs_m1, Rmult_1_l, S_INR. lra.
  - destruct H as (F & E & T & N). destruct (fnormalize_err p t m q C F) as [F' D]; [apply near1_range; lra|].
    assert (P : 0 < qnorm (qval q)) by (pose proof (Rle_abs (- (qnorm (qval q) - 1))) as X; rewrite Rabs_Ropp in X; lra).
    destruct (operand_facts p 6 _ _ ltac:(lra) (direction_norm _ P) D) as [N' T'].
    split; [exact F'|]. split; [exact E|]. split; [|unfold products_step; cbn [fst INR]; lra].
    destruct T as (s & Hs & T). exists s. split; [exact Hs|]. eapply Rle_trans; [apply (qdist_triang _ (direction (qval q)))|]. rewrite S_INR. lra.
Qed.

Lemma frun_history p A (l : list (fcall p)) : 6 <= A <= 50 -> forall (q : FQ p) e n k K, Forall (fcall_ok A) l -> hinv A q e n k -> fixed_every K k l ->
  (A + 10) * fu p * (INR K + 1) <= / 100 -> hinv A (frun q (map fst l)) (intended e l) (n + length l) (products k l).
Proof.
  intros HA. pose proof (fu_pos p) as U.
  induction l as [|c l IH]; intros q e n k K C H FX HK.
  - cbn. rewrite Nat.add_0_r. exact H.
  - inversion C as [|? ? C1 C2]; subst. cbn [fixed_every] in FX. destruct FX as [L FX].
    assert (K' : (A + 10) * fu p * (INR k + 1) <= / 100) by (apply le_INR in L; eapply Rle_trans; [|exact HK]; apply Rmult_le_compat_l; [nra|lra]).
    cbn [map frun intended products fold_left length]. replace (n + S (length l))%nat with (S n + length l)%nat by lia.
    apply (IH _ _ (S n) _ K C2 (hinv_step p A q e n k c HA C1 H K') FX HK).
Qed.
