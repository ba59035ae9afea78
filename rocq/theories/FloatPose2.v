(** Histories of floating-point poses. *)
From Coq Require Import Reals ZArith Bool List Permutation Lra Lia Psatz.
From Flocq Require Import IEEE754.BinarySingleNaN Core.Core.
From Verif Require Import Linalg Spec SpecFacts SpecClose CloseFacts ModelCommon ModelEigen FloatModel FloatFacts FloatModulo FloatWrap FloatModel2 SpecFloatQ
  FloatQFacts FloatQProd FloatQHist FloatQRot FloatMHist FloatModel5 SpecPoseF FloatPose.
Import ListNotations.
Local Open Scope R_scope.

Lemma hinv_later p A (q : FQ p) e n k : 0 <= A -> hinv A q e n k -> hinv A q e (S n) k.
Proof.
  intros HA (F & E & T & N). split; [exact F|]. split; [exact E|]. split; [|exact N]. eapply turned_mono; [|exact T].
  rewrite S_INR. apply Rmult_le_compat_l; [pose proof (fu_pos p); apply Rmult_le_pos; lra|lra].
Qed.
Lemma hinv_conj p A (q : FQ p) e n k : hinv A q e n k -> hinv A (fconj q) (conj e) n k.
Proof.
  intros ((F0 & F1 & F2 & F3) & E & (s & Hs & D) & N).
  assert (V : qval (fconj q) = conj (qval q)) by (unfold qval, fconj, conj; cbn; now rewrite !fneg_val).
  split; [|split; [|split]].
  - repeat split; cbn; try assumption; rewrite fneg_fin; assumption.
  - now rewrite qnorm_conj.
  - exists s. split; [exact Hs|]. rewrite V, direction_conj. replace (qscale s (conj e)) with (conj (qscale s e)) by (unfold qscale, conj; cbn; f_equal; ring). now rewrite qdist_conj.
  - now rewrite V, qnorm_conj.
Qed.
Lemma fqid_val p : qfinite (@fqid p) /\ qval (@fqid p) = qid.
Proof. destruct (fofZ1 p) as [F V]. split; [repeat split; assumption|]. unfold qval, fqid, qid; cbn [fw fx fy fz]. rewrite V. reflexivity. Qed.
Lemma fvzero_val p : vfinite (@fvzero p) /\ vval (@fvzero p) = mkV3 0 0 0.
Proof. split; [repeat split|reflexivity]. Qed.
Lemma fmid_val p : mfinite (@fmid p) /\ mval (@fmid p) = mid.
Proof. destruct (fofZ1 p) as [F V]. split; [repeat split; assumption|]. unfold mval, fmid, mid; cbn [r0 r1 r2 gx gy gz]. rewrite V. reflexivity. Qed.
Lemma qid_norm : qnorm qid = 1.
Proof. unfold qnorm, qnorm2, qid; cbn. replace (1 * 1 + 0 * 0 + 0 * 0 + 0 * 0) with 1 by ring. apply sqrt_1. Qed.
Lemma vnorm_zero : vnorm (mkV3 0 0 0) = 0.
Proof. unfold vnorm, vnorm2, vdot; cbn. replace (0 * 0 + 0 * 0 + 0 * 0) with 0 by ring. apply sqrt_0. Qed.
Lemma zero_ok p A L : 0 <= A -> 0 <= L -> vclose_ok A L (@fvzero p) (mkV3 0 0 0).
Proof.
  intros HA HL. destruct (fvzero_val p) as [F V]. split; [exact F|]. rewrite V, vnorm_zero. split; [exact HL|].
  unfold vdist. replace (vsub (mkV3 0 0 0) (mkV3 0 0 0)) with (mkV3 0 0 0) by lin. rewrite vnorm_zero, roundoff_fu.
  pose proof (fu_pos p). apply Rmult_le_pos; [apply Rmult_le_pos; lra|exact HL].
Qed.

Definition pinv {p} (A L : R) (T : fpose p (FQ p)) (g : rigid) (n k : nat) : Prop :=
  (exists e, hinv A (frot T) e n k /\ rg_rot g = quat_rot e) /\ pos_inv (4 * A + 53) L (fpos T) (rg_pos g) n /\ (k <= n)%nat.

Section Q.
Context (p : prim) (A L : R) (HA : 6 <= A <= 50) (HL : bpow radix2 (-100) <= L).
Lemma consts : A * fu p <= / 10000 /\ A + 14 / 10 <= 4 * A + 53 /\ 11 / 10 * (24 + 7 * (A + 10) + 2) <= 2 * (4 * A + 53) /\ 0 <= 7 * (A + 10).
Proof. pose proof (fu_pos p). pose proof (fu_24 p). repeat split; try lra. assert (A * fu p <= 50 * / 16777216) by (apply Rmult_le_compat; lra). lra. Qed.

Lemma pinv_step (T : fpose p (FQ p)) g n k (c : fpcall p) : fpcall_ok A L c -> pinv A L T g n k ->
  (A + 10) * fu p * (INR k + 1) <= / 100 -> (4 * A + 53) * fu p * (INR n + 1) <= / 10 -> (INR n + 2) * L <= bpow radix2 98 ->
  pinv A L (fpstep T (fst c)) (rigid_step g c) (S n) (pproducts_step k c).
Proof.
  intros C ((e & H & R1) & P & KN) HK HN HB. destruct consts as (K1 & K2 & K3 & K4). pose proof (fu_pos p) as U. pose proof (fu_24 p) as V.
  assert (HA0 : 0 <= A <= 50) by lra. assert (A0 : 0 <= A) by lra. assert (L0 : 0 <= L) by (pose proof (L_pos L HL); lra).
  destruct c as [c [eb tb]]. destruct c as [o4 o b|o4 o b|b| |c|x]; cbn [fst fpcall_ok] in C; cbn [fst fpstep rigid_step].
  - destruct C as (O4 & O & (Fb & Eb & Db & Xb)). rewrite roundoff_fu in Db. change (pproducts_step k (PMulRight o4 o b, (eb, tb))) with (S k).
    split; [|split; [|lia]].
    + exists (hamilton e eb). split; [|cbn; now rewrite R1, quat_rot_hamilton]. exact (hinv_mult p A o4 _ _ e eb n k true HA0 O4 H HK Fb Eb Db).
    + cbn [fqpose_mult fpos rigid_mul rg_pos rg_rot]. rewrite R1.
      apply (pos_right p (4 * A + 53) 24 (7 * (A + 10)) A L); try assumption; try lra. apply (hinv_rot p A _ e n k); try assumption; lra.
  - destruct C as (O4 & O & (Fb & Eb & Db & Xb)). rewrite roundoff_fu in Db. change (pproducts_step k (PMulLeft o4 o b, (eb, tb))) with (S k).
    split; [|split; [|lia]].
    + exists (hamilton eb e). split; [|cbn; now rewrite R1, quat_rot_hamilton]. exact (hinv_mult p A o4 _ _ e eb n k false HA0 O4 H HK Fb Eb Db).
    + cbn [fqpose_mult fpos rigid_mul rg_pos rg_rot].
      apply (pos_left p (4 * A + 53) 24 (7 * (A + 10)) A L); try assumption; try lra.
      replace (24 + 7 * (A + 10)) with (24 + 7 * (A + 10) * (INR 0 + 1)) by (cbn [INR]; ring).
      apply (hinv_rot p A _ eb 0 0); try assumption; [now apply hinv_assign|lia|cbn [INR]; lra].
  - destruct C as (Fb & Eb & Db & Xb). rewrite roundoff_fu in Db. change (pproducts_step k (PAssign b, (eb, tb))) with 0%nat. split; [|split; [|lia]].
    + exists eb. split; [now apply hinv_assign|reflexivity].
    + apply (pos_wider p _ A L); try assumption.
  - change (pproducts_step k (PSetIdentity, (eb, tb))) with 0%nat. split; [|split; [|lia]].
    + exists qid. destruct (fqid_val p) as [F0 V0]. split; [apply hinv_assign; [exact HA0|exact F0|apply qid_norm|]|symmetry; apply quat_rot_id].
      cbn [fqpose_identity frot]. rewrite V0, qdist_self. apply Rmult_le_pos; lra.
    + apply (pos_wider p _ A L); try assumption. now apply zero_ok.
  - pose proof (hinv_step p A (frot T) e n k (c, eb) HA C H HK) as H'. cbn [fst] in H'.
    assert (PR : pproducts_step k (PRotation c, (eb, tb)) = products_step k (c, eb)) by (destruct c; reflexivity). rewrite PR.
    split; [|split].
    + exists (intended_step e (c, eb)). split; [exact H'|]. destruct c; cbn [intended_step rg_rot]; rewrite ?quat_rot_hamilton, ?quat_rot_conj, ?R1; reflexivity.
    + replace (rg_pos _) with (rg_pos g) by (destruct c; reflexivity). apply (pos_keep p _ A); assumption.
    + destruct c; cbn; lia.
  - change (pproducts_step k (PPosition x, (eb, tb))) with k. split; [|split; [|lia]].
    + exists e. split; [now apply hinv_later|exact R1].
    + apply (pos_wider p _ A L); assumption.
Qed.
Lemma prun_history (l : list (fpcall p)) : forall (T : fpose p (FQ p)) g n k K, Forall (fpcall_ok A L) l -> pinv A L T g n k -> pfixed_every K k l ->
  (A + 10) * fu p * (INR K + 1) <= / 100 -> (4 * A + 53) * fu p * (INR (n + length l) + 1) <= / 10 -> (INR (n + length l) + 1) * L <= bpow radix2 98 ->
  pinv A L (fprun T (map fst l)) (rigid_run g l) (n + length l) (pproducts k l).
Proof.
  pose proof (fu_pos p) as U. pose proof (L_pos L HL) as L0.
  induction l as [|c l IH]; intros T g n k K C H FX HK HN HB.
  - cbn. rewrite Nat.add_0_r. exact H.
  - inversion C as [|? ? C1 C2]; subst. cbn [pfixed_every] in FX. destruct FX as [Lk FX].
    cbn [length] in *. rewrite <- plus_n_Sm in *. 
    assert (K' : (A + 10) * fu p * (INR k + 1) <= / 100) by (apply le_INR in Lk; eapply Rle_trans; [|exact HK]; apply Rmult_le_compat_l; [apply Rmult_le_pos; lra|lra]).
    assert (NN : INR n + 1 <= INR (S (n + length l))) by (rewrite <- S_INR; apply le_INR; lia).
    apply (IH _ _ (S n) _ K C2); [apply pinv_step; try assumption| | | |]; try assumption.
    + eapply Rle_trans; [|exact HN]. apply Rmult_le_compat_l; [apply Rmult_le_pos; lra|lra].
    + eapply Rle_trans; [|exact HB]. apply Rmult_le_compat_r; lra.
Qed.
Lemma pinv_transform (T : fpose p (FQ p)) g n k (o : rotorders) (x : FV p) : pinv A L T g n k -> (A + 10) * fu p * (INR k + 1) <= / 100 ->
  (4 * A + 53) * fu p * (INR n + 1) <= / 10 -> (INR n + 1) * L <= bpow radix2 98 -> rotorders_ok o -> vfinite x -> vnorm (vval x) <= bpow radix2 98 ->
  (vfinite (fqtransform o T x) /\
   vdist (vval (fqtransform o T x)) (rigid_act g (vval x))
     <= fu p * ((26 + 7 * (A + 10) * (INR n + 1)) * vnorm (vval x) + (4 * A + 55) * L * ((INR n + 1) * (INR n + 1)))) /\
  (vfinite (fqinverseTransform o T x) /\
   vdist (vval (fqinverseTransform o T x)) (mvmul (mtrans (rg_rot g)) (vsub (vval x) (rg_pos g)))
     <= fu p * ((26 + 7 * (A + 10) * (INR n + 1)) * vnorm (vval x) + (16 * A + 212) * L * ((INR n + 1) * (INR n + 1)))).
Proof.
  intros ((e & H & R1) & P & KN) HK HN HB O Fx Hx. destruct consts as (K1 & K2 & K3 & K4). assert (HA0 : 0 <= A <= 50) by lra. assert (A0 : 0 <= A) by lra.
  split.
  - unfold fqtransform, rigid_act. rewrite R1.
    destruct (pos_transform p (4 * A + 53) 24 (7 * (A + 10)) A L HL ltac:(lra) K4 A0 K2 K3 _ (quat_rot e) (fpos T) x (rg_pos g) n
      (hinv_rot p A _ e n k o HA0 H KN ltac:(lra) O) P Fx Hx HN HB) as [F1 D1].
    split; [exact F1|]. eapply Rle_trans; [exact D1|]. apply Req_le. ring.
  - unfold fqinverseTransform. rewrite R1.
    pose proof (hinv_rot p A _ _ n k o HA0 (hinv_conj p A _ _ _ _ H) KN ltac:(lra) O) as RS. rewrite quat_rot_conj in RS.
    destruct (pos_inverse p (4 * A + 53) 24 (7 * (A + 10)) A L HL ltac:(lra) K4 A0 K2 K3 _ (quat_rot e) (fpos T) x (rg_pos g) n RS P Fx Hx HN HB) as [F1 D1].
    split; [exact F1|]. eapply Rle_trans; [exact D1|]. apply Req_le. ring.
Qed.
End Q.

(** ** Matrix poses *)
Definition pminv {p} (A L : R) (T : fpose p (FM p)) (g : rigid) (n : nat) : Prop :=
  minv A (frot T) (rg_rot g) n /\ pos_inv (A + 12) L (fpos T) (rg_pos g) n.
Section M.
Context (p : prim) (A L : R) (HA : 0 <= A <= 1000) (HL : bpow radix2 (-100) <= L).
Lemma mconsts : A * fu p <= / 10000 /\ A + 14 / 10 <= A + 12 /\ 11 / 10 * (6 + (101 / 100 * A + 12) + 2) <= 2 * (A + 12) /\ 0 <= 101 / 100 * A + 12.
Proof. pose proof (fu_pos p). pose proof (fu_24 p). repeat split; try lra. assert (A * fu p <= 1000 * / 16777216) by (apply Rmult_le_compat; lra). lra. Qed.
Lemma minv_assign (b : FM p) e n : mfinite b -> SO3 e -> close (A * fu p) (mval b) e -> minv A b e n.
Proof.
  intros F S1 C. split; [exact F|]. split; [exact S1|]. eapply close_mono; [|exact C]. pose proof (fu_pos p). pose proof (pos_INR n).
  assert (0 <= A * fu p) by (apply Rmult_le_pos; lra). assert (0 <= A * fu p * INR n) by (apply Rmult_le_pos; lra). assert (0 <= fu p * INR n) by (apply Rmult_le_pos; lra). lra.
Qed.
Lemma minv_later (b : FM p) e n : minv A b e n -> minv A b e (S n).
Proof.
  intros (F & S1 & C). split; [exact F|]. split; [exact S1|]. eapply close_mono; [|exact C]. rewrite S_INR. pose proof (fu_pos p).
  apply Rmult_le_compat_l; [apply Rmult_le_pos; lra|lra].
Qed.
Lemma pminv_step (T : fpose p (FM p)) g n (c : fpmcall p) : fpmcall_ok A L c -> pminv A L T g n ->
  (101 / 100 * A + 12) * fu p * (INR n + 1) <= / 100 -> (A + 12) * fu p * (INR n + 1) <= / 10 -> (INR n + 2) * L <= bpow radix2 98 ->
  pminv A L (fpmstep T (fst c)) (mrigid_step g c) (S n).
Proof.
  intros C (H & P) HK HN HB. destruct mconsts as (K1 & K2 & K3 & K4). pose proof (fu_pos p) as U. pose proof (fu_24 p) as V.
  assert (A0 : 0 <= A) by lra. assert (L0 : 0 <= L) by (pose proof (L_pos L HL); lra).
  destruct c as [c [eb tb]]. destruct c as [o9 o b|o9 o b|b| |c|x]; cbn [fst fpmcall_ok] in C; cbn [fst fpmstep mrigid_step].
  - destruct C as (O9 & O & (Fb & Sb & Db & Xb)). split.
    + refine (minv_step p A (frot T) (rg_rot g) n (MMulRight o9 (frot b), eb) HA _ H HK). split; [exact O9|]. split; [exact Fb|]. split; [exact Sb|exact Db].
    + cbn [fmpose_mult fpos rigid_mul rg_pos rg_rot].
      apply (pos_right p (A + 12) 6 (101 / 100 * A + 12) A L); try assumption; try lra. apply (minv_rot p A); try assumption; lra.
  - destruct C as (O9 & O & (Fb & Sb & Db & Xb)). split.
    + refine (minv_step p A (frot T) (rg_rot g) n (MMulLeft o9 (frot b), eb) HA _ H HK). split; [exact O9|]. split; [exact Fb|]. split; [exact Sb|exact Db].
    + cbn [fmpose_mult fpos rigid_mul rg_pos rg_rot]. rewrite roundoff_fu in Db.
      apply (pos_left p (A + 12) 6 (101 / 100 * A + 12) A L); try assumption; try lra.
      replace (6 + (101 / 100 * A + 12)) with (6 + (101 / 100 * A + 12) * (INR 0 + 1)) by (cbn [INR]; ring).
      apply (minv_rot p A); try assumption; [now apply minv_assign|cbn [INR]; lra].
  - destruct C as (Fb & Sb & Db & Xb). rewrite roundoff_fu in Db. split; [now apply minv_assign|]. apply (pos_wider p _ A L); try assumption.
  - destruct (fmid_val p) as [F0 V0]. split.
    + apply minv_assign; [exact F0|apply SO3_mid|]. apply close_eq; [exact V0|]. apply Rmult_le_pos; lra.
    + apply (pos_wider p _ A L); try assumption. now apply zero_ok.
  - pose proof (minv_step p A (frot T) (rg_rot g) n (c, eb) HA C H HK) as H'. cbn [fst] in H'. split.
    + destruct c; exact H'.
    + replace (rg_pos _) with (rg_pos g) by (destruct c; reflexivity). apply (pos_keep p _ A); assumption.
  - split; [now apply minv_later|]. apply (pos_wider p _ A L); assumption.
Qed.
Lemma pmrun_history (l : list (fpmcall p)) : forall (T : fpose p (FM p)) g n, Forall (fpmcall_ok A L) l -> pminv A L T g n ->
  (101 / 100 * A + 12) * fu p * (INR (n + length l) + 1) <= / 100 -> (INR (n + length l) + 1) * L <= bpow radix2 98 ->
  pminv A L (fpmrun T (map fst l)) (mrigid_run g l) (n + length l).
Proof.
  pose proof (fu_pos p) as U. pose proof (L_pos L HL) as L0.
  induction l as [|c l IH]; intros T g n C H HN HB.
  - cbn. rewrite Nat.add_0_r. exact H.
  - inversion C as [|? ? C1 C2]; subst. cbn [length] in *. rewrite <- plus_n_Sm in *. 
    assert (NN : INR n + 1 <= INR (S (n + length l))) by (rewrite <- S_INR; apply le_INR; lia). pose proof (pos_INR n) as In.
    assert (HN' : (101 / 100 * A + 12) * fu p * (INR n + 1) <= / 100).
    { eapply Rle_trans; [|exact HN]. apply Rmult_le_compat_l; [apply Rmult_le_pos; lra|lra]. }
    apply (IH _ _ (S n) C2); [apply pminv_step; try assumption| |]; try assumption.
    + apply Rle_trans with ((101 / 100 * A + 12) * fu p * (INR n + 1)); [|lra]. apply Rmult_le_compat_r; [lra|]. apply Rmult_le_compat_r; lra.
    + eapply Rle_trans; [|exact HB]. apply Rmult_le_compat_r; lra.
Qed.
Lemma pminv_transform (T : fpose p (FM p)) g n (o : orders3) (x : FV p) : pminv A L T g n -> (101 / 100 * A + 12) * fu p * (INR n + 1) <= / 100 ->
  (INR n + 1) * L <= bpow radix2 98 -> orders3_ok 3 3 3 o -> vfinite x -> vnorm (vval x) <= bpow radix2 98 ->
  (vfinite (fmtransform o T x) /\
   vdist (vval (fmtransform o T x)) (rigid_act g (vval x))
     <= fu p * ((8 + (101 / 100 * A + 12) * (INR n + 1)) * vnorm (vval x) + (A + 14) * L * ((INR n + 1) * (INR n + 1)))) /\
  (vfinite (fminverseTransform o T x) /\
   vdist (vval (fminverseTransform o T x)) (mvmul (mtrans (rg_rot g)) (vsub (vval x) (rg_pos g)))
     <= fu p * ((8 + (101 / 100 * A + 12) * (INR n + 1)) * vnorm (vval x) + (4 * A + 48) * L * ((INR n + 1) * (INR n + 1)))).
Proof.
  intros (H & P) HK HB O Fx Hx. destruct mconsts as (K1 & K2 & K3 & K4). assert (A0 : 0 <= A) by lra. pose proof (pos_INR n) as In. pose proof (fu_pos p) as U.
  assert (HN : (A + 12) * fu p * (INR n + 1) <= / 10).
  { apply Rle_trans with ((101 / 100 * A + 12) * fu p * (INR n + 1)); [|lra]. apply Rmult_le_compat_r; [lra|]. apply Rmult_le_compat_r; lra. }
  split.
  - unfold fmtransform, rigid_act.
    destruct (pos_transform p (A + 12) 6 (101 / 100 * A + 12) A L HL ltac:(lra) K4 A0 K2 K3 _ (rg_rot g) (fpos T) x (rg_pos g) n
      (minv_rot p A _ _ n o A0 H ltac:(lra) O) P Fx Hx HN HB) as [F1 D1].
    split; [exact F1|]. eapply Rle_trans; [exact D1|]. apply Req_le. ring.
  - unfold fminverseTransform. destruct H as (F & S1 & C).
    assert (H' : minv A (ftrans (frot T)) (mtrans (rg_rot g)) n) by (split; [now apply ftrans_fin|split; [now apply SO3_trans|rewrite ftrans_val; apply close_trans_mat; exact C]]).
    destruct (pos_inverse p (A + 12) 6 (101 / 100 * A + 12) A L HL ltac:(lra) K4 A0 K2 K3 _ (rg_rot g) (fpos T) x (rg_pos g) n
      (minv_rot p A _ _ n o A0 H' ltac:(lra) O) P Fx Hx HN HB) as [F1 D1].
    split; [exact F1|]. eapply Rle_trans; [exact D1|]. apply Req_le. ring.
Qed.
End M.
