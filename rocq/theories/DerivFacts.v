(** * DerivFacts: calculus lemmas for the derivative claims. *)
From Coq Require Import Reals Lra Psatz.
From Verif Require Import Linalg Spec SpecFacts SpecDiff.
Local Open Scope R_scope.

Lemma dl_eq f t a b : derivable_pt_lim f t a -> a = b -> derivable_pt_lim f t b.
Proof. intros; subst; assumption. Qed.
Lemma dl_const c t : derivable_pt_lim (fun _ => c) t 0.
Proof. apply (derivable_pt_lim_const c). Qed.
Lemma dl_id t : derivable_pt_lim (fun s => s) t 1.
Proof. apply derivable_pt_lim_id. Qed.
Lemma dl_plus f g t a b : derivable_pt_lim f t a -> derivable_pt_lim g t b ->
  derivable_pt_lim (fun s => f s + g s) t (a + b).
Proof. apply derivable_pt_lim_plus. Qed.
Lemma dl_minus f g t a b : derivable_pt_lim f t a -> derivable_pt_lim g t b ->
  derivable_pt_lim (fun s => f s - g s) t (a - b).
Proof. apply derivable_pt_lim_minus. Qed.
Lemma dl_opp f t a : derivable_pt_lim f t a -> derivable_pt_lim (fun s => - f s) t (- a).
Proof. apply derivable_pt_lim_opp. Qed.
Lemma dl_mult f g t a b : derivable_pt_lim f t a -> derivable_pt_lim g t b ->
  derivable_pt_lim (fun s => f s * g s) t (a * g t + f t * b).
Proof. apply derivable_pt_lim_mult. Qed.
Lemma dl_sin f t a : derivable_pt_lim f t a -> derivable_pt_lim (fun s => sin (f s)) t (cos (f t) * a).
Proof. intros H. apply (derivable_pt_lim_comp f sin t); [exact H|apply derivable_pt_lim_sin]. Qed.
Lemma dl_cos f t a : derivable_pt_lim f t a -> derivable_pt_lim (fun s => cos (f s)) t (- sin (f t) * a).
Proof. intros H. apply (derivable_pt_lim_comp f cos t); [exact H|apply derivable_pt_lim_cos]. Qed.
Lemma dl_div f g t a b : g t <> 0 -> derivable_pt_lim f t a -> derivable_pt_lim g t b ->
  derivable_pt_lim (fun s => f s / g s) t (a / g t - f t * b / (g t * g t)).
Proof.
  intros N H1 H2. pose proof (derivable_pt_lim_div f g t a b H1 H2 N) as D.
  eapply dl_eq; [exact D|]. unfold Rsqr. field. exact N.
Qed.
Lemma dl_sqrt f t a : 0 < f t -> derivable_pt_lim f t a ->
  derivable_pt_lim (fun s => sqrt (f s)) t (a / (2 * sqrt (f t))).
Proof.
  intros N H.
  pose proof (derivable_pt_lim_comp f sqrt t a _ H (derivable_pt_lim_sqrt _ N)) as D.
  eapply dl_eq; [exact D|]. pose proof (sqrt_lt_R0 _ N). field. lra.
Qed.
(** Only the values near the point matter. *)
Lemma dl_local f g t a (d : posreal) : (forall s, Rabs (s - t) < d -> f s = g s) ->
  derivable_pt_lim f t a -> derivable_pt_lim g t a.
Proof.
  intros E H eps He. destruct (H eps He) as [d' Hd'].
  assert (P : 0 < Rmin d d') by (apply Rmin_pos; apply cond_pos).
  exists (mkposreal _ P). intros h h0 hd. simpl in hd.
  rewrite <- (E (t + h)), <- (E t).
  - apply Hd'; [exact h0|]. eapply Rlt_le_trans; [exact hd|apply Rmin_r].
  - replace (t - t) with 0 by ring. rewrite Rabs_R0. apply cond_pos.
  - replace (t + h - t) with h by ring. eapply Rlt_le_trans; [exact hd|apply Rmin_l].
Qed.
Lemma dl_ext f g t a : (forall s, f s = g s) -> derivable_pt_lim f t a -> derivable_pt_lim g t a.
Proof. intros E. apply (dl_local f g t a (mkposreal 1 Rlt_0_1)). intros; apply E. Qed.
Lemma dl_inv f t a : f t <> 0 -> derivable_pt_lim f t a ->
  derivable_pt_lim (fun s => / f s) t (- a / (f t * f t)).
Proof.
  intros N H. pose proof (dl_div (fun _ => 1) f t 0 a N (dl_const 1 t) H) as D.
  eapply dl_eq; [eapply dl_ext; [|exact D]|].
  - intros s. simpl. unfold Rdiv. apply Rmult_1_l.
  - simpl. field. exact N.
Qed.
(** A differentiable function that is non-zero at a point is non-zero near it. *)
Lemma dl_nonzero f t a : derivable_pt_lim f t a -> f t <> 0 ->
  exists d : posreal, forall s, Rabs (s - t) < d -> f s <> 0.
Proof.
  intros H N.
  assert (C : continuity_pt f t) by (apply derivable_continuous_pt; exists a; exact H).
  assert (A : 0 < Rabs (f t)) by (apply Rabs_pos_lt; exact N).
  destruct (C (Rabs (f t)) A) as (d & dp & Hd).
  exists (mkposreal d dp). intros s Hs E.
  destruct (Req_dec s t) as [->|Ne]; [contradiction|].
  assert (Q : Rabs (f s - f t) < Rabs (f t)).
  { apply (Hd s). split; [split; [exact I|congruence]|exact Hs]. }
  rewrite E in Q. replace (0 - f t) with (- f t) in Q by ring. rewrite Rabs_Ropp in Q. lra.
Qed.

(** Structural differentiation: leaves the leaf derivatives to [assumption]. *)
Ltac dl_step :=
  first
  [ eassumption
  | match goal with
    | |- derivable_pt_lim (fun _ => ?c) _ _ => apply (dl_const c)
    | |- derivable_pt_lim (fun s => s) _ _ => apply dl_id
    | |- derivable_pt_lim (fun s => @?f s + @?g s) _ _ => eapply (dl_plus f g)
    | |- derivable_pt_lim (fun s => @?f s - @?g s) _ _ => eapply (dl_minus f g)
    | |- derivable_pt_lim (fun s => - @?f s) _ _ => eapply (dl_opp f)
    | |- derivable_pt_lim (fun s => @?f s * @?g s) _ _ => eapply (dl_mult f g)
    | |- derivable_pt_lim (fun s => sin (@?f s)) _ _ => eapply (dl_sin f)
    | |- derivable_pt_lim (fun s => cos (@?f s)) _ _ => eapply (dl_cos f)
    | |- derivable_pt_lim (fun s => sqrt (@?f s)) _ _ => eapply (dl_sqrt f)
    | |- derivable_pt_lim (fun s => / @?f s) _ _ => eapply (dl_inv f)
    | |- derivable_pt_lim (fun s => @?f s / @?g s) _ _ => eapply (dl_div f g)
    end ].
Ltac dl_solve := eapply dl_eq; [repeat dl_step|].

(** ** Uniqueness and consistency *)
Lemma Mderiv_uniq c t a b : Mderiv c t a -> Mderiv c t b -> a = b.
Proof.
  intros ((A1&A2&A3)&(A4&A5&A6)&(A7&A8&A9)) ((B1&B2&B3)&(B4&B5&B6)&(B7&B8&B9)).
  destruct a as [a0 a1 a2 a3 a4 a5 a6 a7 a8], b as [b0 b1 b2 b3 b4 b5 b6 b7 b8]; simpl in *.
  f_equal; eapply uniqueness_limite; eassumption.
Qed.
Lemma mcross_inj a b : mcross a = mcross b -> a = b.
Proof.
  intros H. pose proof (f_equal m21 H); pose proof (f_equal m02 H); pose proof (f_equal m10 H).
  destruct a as [a0 a1 a2], b as [b0 b1 b2]; simpl in *; f_equal; assumption.
Qed.
Lemma mtrans_mmul_cancel m a b : SO3 m -> mmul m a = mmul m b -> a = b.
Proof.
  intros (H & _) E. assert (L : mmul (mtrans m) m = mid) by (apply mmul_inv_comm; exact H).
  rewrite <- (mmul_id_l a), <- (mmul_id_l b), <- L, <- !mmul_assoc, E. reflexivity.
Qed.
Lemma mmul_cancel_r m a b : SO3 m -> mmul a m = mmul b m -> a = b.
Proof.
  intros (H & _) E. rewrite <- (mmul_id_r a), <- (mmul_id_r b), <- H, !mmul_assoc, E. reflexivity.
Qed.
(** The angular velocity of a rotating frame is unique. *)
Lemma local_velocity_uniq c t w1 w2 : SO3 (c t) ->
  has_local_velocity c t w1 -> has_local_velocity c t w2 -> w1 = w2.
Proof.
  intros S H1 H2. apply mcross_inj. apply (mtrans_mmul_cancel (c t)); [exact S|].
  eapply Mderiv_uniq; eassumption.
Qed.
Lemma global_velocity_uniq c t w1 w2 : SO3 (c t) ->
  has_global_velocity c t w1 -> has_global_velocity c t w2 -> w1 = w2.
Proof.
  intros S H1 H2. apply mcross_inj. apply (mmul_cancel_r (c t)); [exact S|].
  eapply Mderiv_uniq; eassumption.
Qed.
(** R [w]x R^T = [R w]x for a rotation R. *)
Lemma mcross_rotate m w : SO3 m -> mmul (mcross (mvmul m w)) m = mmul m (mcross w).
Proof.
  intros (H & D). apply mvmul_ext. intros v. rewrite !mvmul_mmul, !mcross_spec.
  assert (L : mmul (mtrans m) m = mid) by (apply mmul_inv_comm; exact H).
  (* (M a) x (M b) = cof(M) (a x b), cof(M) = M for SO3 *)
  assert (G : mmul (mtrans m) (mkM33
     (vx (vcross (mvmul m ey) (mvmul m ez))) (vx (vcross (mvmul m ez) (mvmul m ex))) (vx (vcross (mvmul m ex) (mvmul m ey)))
     (vy (vcross (mvmul m ey) (mvmul m ez))) (vy (vcross (mvmul m ez) (mvmul m ex))) (vy (vcross (mvmul m ex) (mvmul m ey)))
     (vz (vcross (mvmul m ey) (mvmul m ez))) (vz (vcross (mvmul m ez) (mvmul m ex))) (vz (vcross (mvmul m ex) (mvmul m ey)))) = mscale (mdet m) mid) by (clear; lin).
  rewrite D in G.
  match type of G with mmul _ ?c = _ => set (cf := c) in * end.
  assert (E : cf = m).
  { rewrite <- (mmul_id_l cf), <- H, <- mmul_assoc, G. clear. lin. }
  transitivity (mvmul cf (vcross w v)); [|rewrite E; reflexivity].
  unfold cf. clear. lin.
Qed.
Lemma local_global_velocity c t w : SO3 (c t) ->
  has_local_velocity c t w <-> has_global_velocity c t (mvmul (c t) w).
Proof. intros S. unfold has_local_velocity, has_global_velocity. rewrite (mcross_rotate _ _ S). tauto. Qed.
