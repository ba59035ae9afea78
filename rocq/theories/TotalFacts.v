(** * TotalFacts: accuracy of every operation on every legal input, truncation
    windows included. *)
From Coq Require Import Reals Lra Psatz Bool List.
From Verif Require Import Linalg Spec SpecFacts ModelCommon ModelEigen ModelRotation CommonFacts ConvFacts RVFacts Windows RotFacts UniqueFacts MetricFacts EulerFacts EqFacts SetFacts ModelHistory SpecHistory HistoryFacts SpecClose CloseFacts NearUnit EulerNear RoundTrip.
Local Open Scope R_scope.

Lemma eps_dummy p : 50 * epsilon p <= dummy_precision p.
Proof.
  destruct p; cbn [epsilon dummy_precision].
  - apply Rmult_le_reg_r with (2 ^ 23 * 10 ^ 5); [lra|].
    replace (50 * / 2 ^ 23 * (2 ^ 23 * 10 ^ 5)) with (50 * 10 ^ 5) by (field; lra).
    replace (/ 10 ^ 5 * (2 ^ 23 * 10 ^ 5)) with (2 ^ 23) by (field; lra). lra.
  - apply Rmult_le_reg_r with (2 ^ 52 * 10 ^ 12); [lra|].
    replace (50 * / 2 ^ 52 * (2 ^ 52 * 10 ^ 12)) with (50 * 10 ^ 12) by (field; lra).
    replace (/ 10 ^ 12 * (2 ^ 52 * 10 ^ 12)) with (2 ^ 52) by (field; lra). lra.
Qed.

(** An object that denotes (nearly) the rotation [m]: quaternions may be
    slightly off unit norm, matrices slightly off orthogonality. *)
Definition near (nu d : R) (r : rotation) (m : M33) : Prop :=
  match r with
  | RotQuat q => Rabs (qnorm2 q - 1) <= nu /\ close d (rot_of q) m
  | RotMat a => close d a m
  | _ => valid r /\ close d (meaning r) m
  end.
Lemma near_pos_norm q nu : nu <= 1/2 -> Rabs (qnorm2 q - 1) <= nu -> 0 < qnorm2 q.
Proof. unfold Rabs; destruct (Rcase_abs _); lra. Qed.
Lemma near_mono nu nu' d d' r m : nu <= nu' -> d <= d' -> near nu d r m -> near nu' d' r m.
Proof.
  intros A B. destruct r; cbn [near]; intros H; try (destruct H as [H1 H2]; split; [auto; lra|]);
    eapply close_mono; eauto.
Qed.
Lemma valid_near r m d nu : 0 <= nu -> valid r -> close d (meaning r) m -> near nu d r m.
Proof.
  intros N V C. destruct r; cbn [near valid meaning] in *; try (split; assumption); try assumption.
  rewrite V. replace (1 - 1) with 0 by ring. rewrite Rabs_R0. split; [exact N|]. rewrite rot_of_unit by exact V. exact C.
Qed.
Lemma near_target nu d e r m m' : near nu d r m -> close e m m' -> near nu (d + e) r m'.
Proof.
  destruct r; cbn [near]; intros H C; try (destruct H as [H1 H2]; split; [exact H1|]; eapply close_trans; eassumption).
  eapply close_trans; eassumption.
Qed.

Lemma near_rotates p nu d r m : 0 <= nu <= 1/2 -> near nu d r m -> rotates_like p (d + 2 * nu + epsilon p / 24000) r m.
Proof.
  intros HN H. pose proof (epsilon_pos p) as EP.
  assert (X : forall r, valid r -> exact_operand p r -> close d (meaning r) m ->
              rotates_like p (d + 2 * nu + epsilon p / 24000) r m).
  { intros r' V X C. eapply rotates_like_close; [apply to_mat_exact; assumption|].
    eapply close_mono; [|exact C]. lra. }
  destruct r as [q|a|v|a|e|e]; cbn [near] in H.
  - destruct H as [U C]. eapply rotates_like_close; [reflexivity|].
    pose proof (e_toRot_close q (near_pos_norm q nu (proj2 HN) U)) as T. pose proof (close_trans _ _ _ _ _ T C) as Q.
    eapply close_mono; [|exact Q]. rewrite Rabs_minus_sym. lra.
  - destruct H; apply X; auto; exact I.
  - destruct H as [_ C]. cbn [meaning] in C. eapply rotates_like_close; [reflexivity|].
    destruct (rv_to_quat_near p v) as (_ & _ & _ & T & _). pose proof (close_trans _ _ _ _ _ T C) as Q.
    eapply close_mono; [|exact Q]. lra.
  - eapply rotates_like_close; [reflexivity|]. eapply close_mono; [|exact H]. lra.
  - destruct H; apply X; auto; exact I.
  - destruct H; apply X; auto; exact I.
Qed.

(** quaternion to every class *)
Definition dconv (p : prim) (k : kind) (nu : R) : R :=
  match k with KQuat | KAA => 0 | KVec => dummy_precision p / 20 | KMat => 2 * nu | KZyx | KXyz => 24 * nu end.
Lemma convert_near p k q nu : Rabs (qnorm2 q - 1) <= nu -> nu <= 1/10 -> (k = KVec -> nu <= dummy_precision p / 2) ->
  exists r, convert p k (RotQuat q) = Val r /\ kind_of r = k /\ near nu (dconv p k nu) r (rot_of q).
Proof.
  intros U HN HK. assert (0 <= nu) by (pose proof (Rabs_pos (qnorm2 q - 1)); lra).
  assert (N0 : 0 < qnorm2 q) by (apply (near_pos_norm q nu); lra).
  assert (U' : Rabs (1 - qnorm2 q) <= nu) by (rewrite Rabs_minus_sym; exact U).
  destruct k; cbn [convert to_quat to_aa to_rv to_mat to_zyx to_xyz omap obind dconv].
  - eexists; split; [reflexivity|]. split; [reflexivity|]. split; [exact U|apply close_refl; lra].
  - eexists; split; [reflexivity|]. split; [reflexivity|]. destruct (e_aa_of_quat_near q N0) as [V M].
    split; [exact V|cbn [meaning]; rewrite M; apply close_refl; lra].
  - destruct (quat_to_rv_near p q) as (v & E & C); [specialize (HK eq_refl); lra|]. rewrite E.
    eexists; split; [reflexivity|]. split; [reflexivity|]. split; [exact I|exact C].
  - eexists; split; [reflexivity|]. split; [reflexivity|]. cbn [near].
    eapply close_mono; [|apply (e_toRot_close q N0)]. lra.
  - eexists; split; [reflexivity|]. split; [reflexivity|]. split; [exact I|]. cbn [meaning].
    eapply close_mono; [|apply quat_to_zyx_near; lra]. lra.
  - eexists; split; [reflexivity|]. split; [reflexivity|]. split; [exact I|]. cbn [meaning].
    eapply close_mono; [|apply quat_to_xyz_near; lra]. lra.
Qed.

(** every class to a quaternion *)
Definition eta (p : prim) : R := epsilon p / 10 ^ 6.
Lemma eta_pos p : 0 < eta p.
Proof. unfold eta. pose proof (epsilon_pos p). lra. Qed.
Lemma eta_small p : eta p <= 1 / 10 ^ 12.
Proof. unfold eta. pose proof (epsilon_small p). lra. Qed.
Lemma to_quat_near p nu d s m : 0 <= nu -> kind_of s <> KMat -> near nu d s m ->
  exists q, to_quat p s = Val q /\ Rabs (qnorm2 q - 1) <= (match s with RotQuat _ => nu | _ => eta p end) /\
    close (d + match s with RotVec _ => epsilon p / 20000 | _ => 0 end) (rot_of q) m.
Proof.
  intros HN K H. pose proof (eta_pos p). pose proof (epsilon_pos p).
  assert (X : forall r, valid r -> exact_operand p r -> close d (meaning r) m ->
     exists q, to_quat p r = Val q /\ Rabs (qnorm2 q - 1) <= eta p /\ close (d + 0) (rot_of q) m).
  { intros r V X C. destruct (to_quat_exact p r V X) as (q & E & U & M). exists q. split; [exact E|]. rewrite U.
    replace (1 - 1) with 0 by ring. rewrite Rabs_R0. split; [lra|]. rewrite rot_of_unit, M, Rplus_0_r by exact U. exact C. }
  destruct s as [q|a|v|a|e|e]; cbn [near kind_of] in *.
  - exists q. split; [reflexivity|]. rewrite Rplus_0_r. exact H.
  - destruct H; apply X; auto; exact I.
  - destruct H as [_ C]. eexists; split; [reflexivity|]. destruct (rv_to_quat_near p v) as (U & _ & _ & _ & T).
    split; [exact U|]. rewrite Rplus_comm. eapply close_trans; eassumption.
  - congruence.
  - destruct H; apply X; auto; exact I.
  - destruct H; apply X; auto; exact I.
Qed.
Lemma to_quat_total p r : valid r ->
  exists q, to_quat p r = Val q /\ Rabs (qnorm2 q - 1) <= eta p /\ close (epsilon p / 20000) (rot_of q) (meaning r).
Proof.
  intros V. pose proof (epsilon_pos p). pose proof (eta_pos p).
  destruct r as [q|a|v|a|e|e].
  3: { eexists; split; [reflexivity|]. destruct (rv_to_quat_near p v) as (U & _ & _ & _ & T). split; assumption. }
  all: match goal with |- context [to_quat ?pp ?r] => destruct (to_quat_exact pp r V I) as (q' & E & U & M) end;
    exists q'; (split; [exact E|]); rewrite U; replace (1 - 1) with 0 by ring; rewrite Rabs_R0;
    (split; [lra|]); rewrite rot_of_unit, M by exact U; apply close_refl; lra.
Qed.

Lemma norm_mul a b na nb : 0 <= nb <= 1 -> Rabs (qnorm2 a - 1) <= na -> Rabs (qnorm2 b - 1) <= nb ->
  Rabs (qnorm2 (e_mul a b) - 1) <= na * (1 + nb) + nb.
Proof.
  intros NB A B. rewrite e_mul_hamilton, hamilton_norm.
  replace (qnorm2 a * qnorm2 b - 1) with ((qnorm2 a - 1) * qnorm2 b + (qnorm2 b - 1)) by ring.
  eapply Rle_trans; [apply Rabs_triang|]. rewrite Rabs_mult.
  assert (Rabs (qnorm2 b) <= 1 + nb) by (revert B; unfold Rabs; repeat destruct (Rcase_abs _); lra).
  assert (Rabs (qnorm2 a - 1) * Rabs (qnorm2 b) <= na * (1 + nb)); [|lra].
  apply Rmult_le_compat; try apply Rabs_pos; assumption.
Qed.

(** ** conversions *)
Definition dtot (p : prim) (k : kind) : R :=
  match k with
  | KQuat | KMat | KZyx => epsilon p / 10000
  | KAA | KXyz => dummy_precision p
  | KVec => dummy_precision p / 20
  end.
Lemma dtot_nonneg p k : 0 <= dtot p k.
Proof. pose proof (epsilon_pos p). pose proof (dummy_pos p). destruct k; cbn [dtot]; lra. Qed.
Lemma dtot_dummy p k : dtot p k <= dummy_precision p.
Proof. pose proof (epsilon_pos p). pose proof (dummy_pos p). pose proof (eps_dummy p). destruct k; cbn [dtot]; lra. Qed.
Lemma rv_to_aa_near p v : vnorm2 (aaxis (rv_to_aa p v)) = 1 /\ close (dummy_precision p) (aa_rot (rv_to_aa p v)) (vec_rot v).
Proof.
  pose proof (dummy_pos p) as P. destruct (Rlt_dec (vnorm v) (dummy_precision p)) as [L|L].
  - unfold rv_to_aa. destruct (Rlt_dec (vnorm v) (dummy_precision p)); [|lra]. cbn [aaxis]. split; [lin_unfold; ring|].
    rewrite aa_rot_0_id. eapply close_mono; [|apply close_sym, vec_close_id]. lra.
  - destruct (rv_to_aa_exact p v) as [U R]; [right; lra|]. split; [exact U|]. rewrite R. apply close_refl; lra.
Qed.
Lemma convert_total_near p k r : valid r ->
  exists r', convert p k r = Val r' /\ kind_of r' = k /\ near (eta p) (dtot p k) r' (meaning r).
Proof.
  intros V. pose proof (eta_pos p) as EP. pose proof (epsilon_pos p) as EPS. pose proof (eta_small p) as ES. pose proof (dummy_pos p) as P.
  assert (X : exact_conversion p k r -> exists r', convert p k r = Val r' /\ kind_of r' = k /\ near (eta p) (dtot p k) r' (meaning r)).
  { intros X. destruct (convert_exact p k r V X) as (r' & E & K & V' & M). exists r'. split; [exact E|]. split; [exact K|].
    apply valid_near; [lra|exact V'|]. rewrite M. apply close_refl, dtot_nonneg. }
  assert (Q : forall q, qnorm2 q = 1 -> k = KVec ->
     exists v, quat_to_rv p q = Val v /\ near (eta p) (dtot p k) (RotVec v) (quat_rot q)).
  { intros q U ->. destruct (quat_to_rv_near p q) as (v & E & C).
    - rewrite U. replace (1 - 1) with 0 by ring. rewrite Rabs_R0. lra.
    - exists v. split; [exact E|]. split; [exact I|]. rewrite rot_of_unit in C by exact U. exact C. }
  destruct r as [q|a|v|a|e|e]; try (apply X; destruct k; exact I).
  - destruct k; try (apply X; exact I). destruct (Q q V eq_refl) as (v & E & N). exists (RotVec v).
    cbn [convert to_rv omap obind]. rewrite E. auto.
  - destruct (rv_to_quat_near p v) as (U & N0 & _ & C2 & C3). fold (eta p) in U.
    assert (U' : Rabs (1 - qnorm2 (rv_to_quat p v)) <= eta p) by (rewrite Rabs_minus_sym; exact U).
    destruct (rv_to_aa_near p v) as [A1 A2].
    destruct k; cbn [convert to_quat to_aa to_rv to_mat to_zyx to_xyz omap obind dtot];
      (eexists; split; [reflexivity|]; split; [reflexivity|]); cbn [near valid meaning].
    + split; [exact U|]. eapply close_mono; [|exact C3]. lra.
    + split; assumption.
    + split; [exact I|]. apply close_refl; lra.
    + eapply close_mono; [|exact C2]. lra.
    + split; [exact I|]. eapply close_mono; [|eapply close_trans; [apply quat_to_zyx_near; lra|exact C3]].
      unfold eta in *. lra.
    + split; [exact I|]. destruct (to_quat_exact p (RotAA (rv_to_aa p v)) A1 I) as (q & E & Uq & M).
      cbn [to_quat meaning] in E, M. injection E as <-. rewrite quat_to_xyz_ok, M by exact Uq. exact A2.
  - destruct k; try (apply X; exact I). cbn [meaning valid] in *.
    destruct (e_quat_of_matrix_ok a V) as (q & E & U & M). destruct (Q q U eq_refl) as (v & E' & N). exists (RotVec v).
    cbn [convert to_rv omap obind]. rewrite E. cbn [obind]. rewrite E'. rewrite <- M. auto.
Qed.

(** ** products *)
(** [l] an object near [ml] that is not a matrix, [r] any legal operand *)
Lemma mult_near p nu d l ml r : 0 <= nu <= epsilon p -> kind_of l <> KMat -> SO3 ml -> near nu d l ml -> valid r ->
  exists s, mult p l r = Val s /\ kind_of s = kind_of l /\
    near (nu + 2 * eta p) (d + match l with RotQuat _ => epsilon p / 20000 | RotVec _ => dummy_precision p / 10 | _ => epsilon p / 2000 end) s (mmul ml (meaning r)).
Proof.
  intros HN K S H V. pose proof (eta_pos p) as EP. pose proof (epsilon_pos p) as EPS. pose proof (epsilon_small p) as ESM.
  pose proof (eta_small p) as ES. pose proof (dummy_pos p) as P. pose proof (eps_dummy p) as ED.
  destruct (to_quat_near p nu d l ml (proj1 HN) K H) as (ql & El & Ul & Cl).
  destruct (to_quat_total p r V) as (qr & Er & Ur & Cr).
  assert (NL : 0 < qnorm2 ql).
  { eapply near_pos_norm; [|exact Ul]. destruct l; lra. }
  assert (NR : 0 < qnorm2 qr) by (eapply near_pos_norm; [|exact Ur]; lra).
  assert (M : mult p l r = convert p (kind_of l) (RotQuat (e_mul ql qr))).
  { destruct l; try (cbn [mult]; rewrite El, Er; reflexivity). cbn in K; congruence. }
  assert (U : Rabs (qnorm2 (e_mul ql qr) - 1) <= (match l with RotQuat _ => nu | _ => eta p end) * (1 + eta p) + eta p)
    by (apply norm_mul; [lra|exact Ul|exact Ur]).
  assert (C : close (d + match l with RotVec _ => epsilon p / 20000 | _ => 0 end + epsilon p / 20000) (rot_of (e_mul ql qr)) (mmul ml (meaning r))).
  { rewrite rot_of_mul by assumption. eapply close_mono; [|apply close_mul; [exact S|apply rot_of_SO3, NR|exact Cl|exact Cr]]. lra. }
  assert (G1 : nu * eta p <= eta p / 2) by nra. assert (G2 : eta p * eta p <= eta p / 2) by nra.
  rewrite M. clear M.
  set (nn := (match l with RotQuat _ => nu | _ => eta p end) * (1 + eta p) + eta p) in *.
  assert (NN : nn <= 3 * eta p \/ kind_of l = KQuat) by (destruct l; cbn [kind_of]; auto; left; unfold nn; lra).
  assert (NN2 : nn <= nu + 3 * eta p) by (unfold nn; destruct l; lra).
  assert (NN3 : nn <= nu + 2 * eta p \/ kind_of l <> KQuat) by (unfold nn; destruct l; cbn [kind_of]; [left; lra| | | | |]; right; discriminate).
  destruct (convert_near p (kind_of l) (e_mul ql qr) nn U) as (s & E & Ks & N).
  { lra. }
  { intros Kv. destruct NN as [NN|NN]; [|congruence]. unfold eta in *. lra. }
  exists s. split; [exact E|]. split; [exact Ks|].
  pose proof (near_target _ _ _ _ _ _ N C) as T. clear N.
  destruct l as [q|a|v|a|e|e]; cbn [kind_of dconv] in *; try congruence;
    destruct s as [q'|a'|v'|a'|e'|e']; cbn [kind_of] in Ks; try discriminate Ks; cbn [near] in *;
    (split; [try exact (proj1 T)|eapply close_mono; [|exact (proj2 T)]; try (destruct NN as [NN|NN]; [|congruence]); unfold eta in *; try lra]).
  destruct NN3 as [NN3|NN3]; [|congruence]. destruct T. lra.
Qed.
Definition dmul (p : prim) (k : kind) : R := match k with KVec => dummy_precision p / 10 | _ => epsilon p / 2000 end.
Lemma dmul_nonneg p k : 0 <= dmul p k.
Proof. pose proof (epsilon_pos p). pose proof (dummy_pos p). destruct k; cbn [dmul]; lra. Qed.
Lemma mult_total_near p l r : valid l -> valid r ->
  exists s, mult p l r = Val s /\ kind_of s = kind_of l /\ near (2 * eta p) (dmul p (kind_of l)) s (mmul (meaning l) (meaning r)).
Proof.
  intros Vl Vr. pose proof (eta_pos p) as EP. pose proof (epsilon_pos p) as EPS. pose proof (epsilon_small p) as ESM. pose proof (dummy_pos p).
  destruct (kind_of l) eqn:K.
  4: { destruct l as [q|a|v|m|e|e]; try discriminate K.
       destruct (to_quat_exact p (RotMat m) Vl I) as (ql & El & Ul & Ml).
       destruct (to_quat_total p r Vr) as (qr & Er & Ur & Cr).
       assert (NR : 0 < qnorm2 qr) by (eapply near_pos_norm; [|exact Ur]; pose proof (eta_small p); lra).
       destruct (kind_of r) eqn:Kr.
       4: { destruct r as [q|a|v|m'|e|e]; try discriminate Kr. eexists; split; [reflexivity|]. split; [reflexivity|].
            cbn [near meaning]. apply close_refl. apply dmul_nonneg. }
       all: assert (M : mult p (RotMat m) r = Val (RotMat (e_toRotationMatrix (e_mul ql qr)))) by
          (destruct r; try discriminate Kr; cbn [mult]; rewrite El, Er; reflexivity);
         rewrite M; eexists; (split; [reflexivity|]); (split; [reflexivity|]); cbn [near dmul];
         assert (C : close (epsilon p / 20000) (rot_of (e_mul ql qr)) (mmul (meaning (RotMat m)) (meaning r))) by
          (rewrite rot_of_mul, (rot_of_unit ql), Ml by (try assumption; lra); apply close_mul_l; [exact Vl|exact Cr]);
         assert (N : qnorm2 (e_mul ql qr) = qnorm2 qr) by (rewrite e_mul_hamilton, hamilton_norm, Ul; ring);
         (eapply close_mono; [|eapply close_trans; [apply e_toRot_close; rewrite N; exact NR|exact C]]);
         rewrite N, Rabs_minus_sym; unfold eta in *; lra. }
  all: assert (SO3 (meaning l)) as S by (apply meaning_SO3, Vl);
    (destruct (mult_near p 0 0 l (meaning l) r) as (s & E & Ks & N);
      [lra|congruence|exact S|apply valid_near; [lra|exact Vl|apply close_refl; lra]|exact Vr|]);
    exists s; (split; [exact E|]); (split; [congruence|]); eapply near_mono; [| |exact N]; [lra|];
    rewrite Rplus_0_l; destruct l; try discriminate K; cbn [dmul]; lra.
Qed.

Lemma convert_mat_quat p k m q : k <> KMat -> e_quat_of_matrix m = Val q -> convert p k (RotMat m) = convert p k (RotQuat q).
Proof.
  intros K E. destruct k; try congruence; cbn [convert to_quat to_aa to_rv to_zyx to_xyz]; unfold e_aa_of_matrix; rewrite E; reflexivity.
Qed.
(** [o] any legal left operand, [s] an object near [ms]; a matrix times a
    quaternion object is excluded (see C58) *)
Lemma mult_left_near p nu d s ms o : 0 <= nu <= epsilon p -> kind_of s <> KMat -> (kind_of o = KMat -> kind_of s <> KQuat) -> SO3 ms ->
  near nu d s ms -> valid o ->
  exists t u, mult p o s = Val t /\ convert p (kind_of s) t = Val u /\ kind_of u = kind_of s /\
    near (nu + 3 * eta p) (d + 2 * dummy_precision p) u (mmul (meaning o) ms).
Proof.
  intros HN K KO S H V. pose proof (eta_pos p) as EP. pose proof (epsilon_pos p) as EPS. pose proof (epsilon_small p) as ESM.
  pose proof (eta_small p) as ES. pose proof (dummy_pos p) as P. pose proof (eps_dummy p) as ED. pose proof (dummy_small p) as DS.
  destruct (to_quat_near p nu d s ms (proj1 HN) K H) as (qs & Es & Us & Cs).
  destruct (to_quat_total p o V) as (qo & Eo & Uo & Co).
  assert (NSn : Rabs (qnorm2 qs - 1) <= nu + eta p) by (destruct s; lra).
  assert (Cs' : close (d + epsilon p / 20000) (rot_of qs) ms) by (eapply close_mono; [|exact Cs]; destruct s; lra).
  assert (NL : 0 < qnorm2 qs) by (eapply near_pos_norm; [|exact NSn]; lra).
  assert (NR : 0 < qnorm2 qo) by (eapply near_pos_norm; [|exact Uo]; lra).
  set (q := e_mul qo qs).
  assert (M : mult p o s = convert p (kind_of o) (RotQuat q)).
  { destruct o; try (cbn [mult]; rewrite Es, Eo; reflexivity). cbn [mult to_quat] in *. destruct s; try (rewrite Es, Eo; reflexivity). cbn in K; congruence. }
  assert (G1 : nu * eta p <= eta p / 4) by nra. assert (G2 : eta p * eta p <= eta p / 4) by nra.
  assert (U : Rabs (qnorm2 q - 1) <= nu + 3 * eta p).
  { eapply Rle_trans; [apply (norm_mul qo qs (eta p) (nu + eta p)); [lra|exact Uo|exact NSn]|]. lra. }
  assert (C : close (d + epsilon p / 10000) (rot_of q) (mmul (meaning o) ms)).
  { unfold q. rewrite rot_of_mul by assumption.
    eapply close_mono; [|apply close_mul; [apply meaning_SO3, V|apply rot_of_SO3, NL|exact Co|exact Cs']]. lra. }
  assert (KV : nu + 3 * eta p <= dummy_precision p / 2) by (unfold eta; lra).
  assert (N10 : nu + 3 * eta p <= 1 / 10) by (unfold eta; lra).
  assert (DB : forall k, dconv p k (nu + 3 * eta p) <= dummy_precision p - epsilon p).
  { intros k; destruct k; cbn [dconv]; unfold eta; lra. }
  destruct (convert_near p (kind_of o) q (nu + 3 * eta p) U N10 (fun _ => KV)) as (t & Et & Kt & Nt).
  destruct (kind_of t) eqn:Kt'.
  { destruct t as [q'| | | | |]; try discriminate Kt'.
    rewrite <- Kt in Et. cbn in Et. injection Et as <-.
    destruct (convert_near p (kind_of s) q (nu + 3 * eta p) U N10 (fun _ => KV)) as (u & Eu & Ku & Nu).
    exists (RotQuat q), u. split; [rewrite M, <- Kt; reflexivity|]. split; [exact Eu|]. split; [exact Ku|].
    eapply near_mono; [| |exact (near_target _ _ _ _ _ _ Nu C)]; [lra|]. specialize (DB (kind_of s)). lra. }
  3: { assert (KO' : kind_of o = KMat) by congruence. specialize (KO KO').
       assert (U3 : Rabs (qnorm2 q - 1) <= 3 * eta p).
       { assert (Us' : Rabs (qnorm2 qs - 1) <= eta p) by (destruct s; try exact Us; cbn in KO; congruence).
         eapply Rle_trans; [apply (norm_mul qo qs (eta p) (eta p)); [lra|exact Uo|exact Us']|]. lra. }
       destruct (rt_near q (3 * eta p) U3) as (q' & E' & N' & C'); [lra|].
       destruct (convert_near p (kind_of s) q' (3 * (3 * eta p)) N') as (u & Eu & Ku & Nu); [lra|intros _; unfold eta; lra|].
       exists (RotMat (e_toRotationMatrix q)), u. split; [rewrite M, KO'; reflexivity|].
       split; [rewrite (convert_mat_quat p _ _ q' K E'); exact Eu|]. split; [exact Ku|].
       assert (D9 : dconv p (kind_of s) (3 * (3 * eta p)) + 4 * (3 * eta p) <= dummy_precision p) by (destruct (kind_of s); cbn [dconv]; unfold eta; lra).
       pose proof (near_target _ _ _ _ _ _ (near_target _ _ _ _ _ _ Nu C') C) as T.
       destruct u; cbn [near kind_of] in *; try congruence; (split; [apply T|eapply close_mono; [|apply (proj2 T)]]); lra. }
  all: assert (Vt : valid t /\ close (dconv p (kind_of o) (nu + 3 * eta p)) (meaning t) (rot_of q)) by
      (destruct t; try discriminate Kt'; exact Nt);
    destruct Vt as [Vt Ct];
    destruct (convert_total_near p (kind_of s) t Vt) as (u & Eu & Ku & Nu);
    exists t, u; (split; [rewrite M; exact Et|]); (split; [exact Eu|]); (split; [exact Ku|]);
    (eapply near_mono; [| |exact (near_target _ _ _ _ _ _ (near_target _ _ _ _ _ _ Nu Ct) C)]); [lra|];
    specialize (DB (kind_of o)); pose proof (dtot_dummy p (kind_of s)); lra.
Qed.

(** ** histories *)
Definition nstep (p : prim) (k : kind) (nu : R) : R := match k with KQuat => nu + 3 * eta p | _ => 0 end.
Lemma near_nonquat nu nu' d r m : kind_of r <> KQuat -> near nu d r m -> near nu' d r m.
Proof. destruct r; cbn; auto; congruence. Qed.
Lemma spec_step_SO3 m o k : SO3 m -> op_total k o -> SO3 (spec_step m o).
Proof.
  intros S O. destruct o; cbn [spec_step op_total] in *; auto using SO3_mid, SO3_trans, meaning_SO3, SO3_mmul.
  apply SO3_mmul; [apply meaning_SO3, O|exact S].
Qed.
Lemma rstep_near p nu d s m o : 0 <= nu <= epsilon p -> kind_of s <> KMat -> SO3 m -> near nu d s m -> op_total (kind_of s) o ->
  exists t, rstep p s o = Val t /\ kind_of t = kind_of s /\
    near (nstep p (kind_of s) nu) (d + 2 * dummy_precision p) t (spec_step m o).
Proof.
  intros HN K S H O. pose proof (eta_pos p) as EP. pose proof (epsilon_pos p) as EPS. pose proof (dummy_pos p) as P. pose proof (eps_dummy p) as ED.
  assert (D0 : 0 <= d) by (destruct s; cbn [near] in H; try destruct H as [_ H]; eapply close_nonneg; eassumption).
  assert (W : forall t n e, kind_of t = kind_of s -> n <= nu + 3 * eta p -> e <= d + 2 * dummy_precision p ->
     near n e t (spec_step m o) -> near (nstep p (kind_of s) nu) (d + 2 * dummy_precision p) t (spec_step m o)).
  { intros t n e Kt Hn He N. unfold nstep. destruct (kind_of s) eqn:Ks; try (apply (near_nonquat n); [congruence|]);
      (eapply near_mono; [| |exact N]; lra). }
  destruct o as [| |r|r|r| |]; cbn [rstep spec_step op_total] in *.
  - destruct (identity_ok p (kind_of s)) as (A & B & C & _). exists (identity (kind_of s)).
    split; [reflexivity|]. split; [exact A|]. apply (W _ 0 0); [exact A|lra|lra|].
    apply valid_near; [lra|exact B|]. rewrite C. apply close_refl; lra.
  - destruct (kind_of s) eqn:Ks; [|destruct s; try discriminate Ks; try (destruct H as [V C])..].
    { destruct s as [q| | | | |]; try discriminate Ks. destruct H as [U C]. eexists; split; [reflexivity|]. split; [reflexivity|].
      apply (W _ nu d); [reflexivity|lra|lra|]. cbn [near].
      rewrite e_conjugate_conj, qnorm2_conj. split; [exact U|]. rewrite <- e_conjugate_conj, rot_of_conj. apply close_trans_mat, C. }
    all: try (exfalso; apply K; reflexivity).
    all: match goal with |- context [inverted ?x] => destruct (inverted_exact x V) as (t & E & Kt & Vt & Mt) end;
      exists t; (split; [exact E|]); (split; [exact Kt|]); (apply (W _ 0 d); [exact Kt|lra|lra|]);
      (apply valid_near; [lra|exact Vt|rewrite Mt; apply close_trans_mat, C]).
  - destruct (mult_near p nu d s m r HN K S H O) as (t & E & Kt & N). exists t. split; [exact E|]. split; [exact Kt|].
    eapply W; [exact Kt| | |exact N]; [lra|]. destruct s; lra.
  - destruct O as [V KO]. destruct (mult_left_near p nu d s m r HN K KO S H V) as (t & u & Et & Eu & Ku & N).
    exists u. rewrite Et. cbn [obind]. split; [exact Eu|]. split; [exact Ku|]. eapply W; [exact Ku| | |exact N]; lra.
  - destruct (convert_total_near p (kind_of s) r O) as (t & E & Kt & N). exists t. split; [exact E|]. split; [exact Kt|].
    eapply W; [exact Kt| | |exact N]; [lra|]. pose proof (dtot_dummy p (kind_of s)). lra.
  - eexists; split; [reflexivity|]. destruct s as [q|a|v|a|e|e]; cbn [get_unique kind_of] in *; try (exfalso; tauto); (split; [reflexivity|]).
    + apply (W _ nu d); [reflexivity|lra|lra|]. cbn [near]. rewrite (proj1 (quat_unique_ok q)). split; [apply H|].
      destruct (quat_unique_pm q) as [-> | ->]; [|rewrite rot_of_neg]; apply H.
    + destruct H as [V C]. cbn [valid meaning] in *. destruct (aa_unique_ok a V) as (U & M & _).
      apply (W _ 0 d); [reflexivity|lra|lra|]. split; [exact U|]. cbn [meaning]. rewrite M. exact C.
    + destruct H as [_ C]. cbn [meaning] in C. apply (W _ 0 (dummy_precision p + d)); [reflexivity|lra|lra|]. split; [exact I|]. cbn [meaning].
      eapply close_trans; [|exact C]. destruct (Rlt_dec (vnorm v) (dummy_precision p)) as [L|L].
      * rewrite rv_unique_small, vec_rot_zero by exact L. eapply close_mono; [|apply close_sym, vec_close_id]. lra.
      * rewrite (proj1 (rv_unique_ok p v (or_intror (Rnot_lt_le _ _ L)))). apply close_refl; lra.
  - destruct (kind_of s) eqn:Ks; [|destruct s; try discriminate Ks; try (destruct H as [V C])..].
    { destruct s as [q| | | | |]; try discriminate Ks. destruct H as [U C]. cbn [fix_rot]. eexists; split; [reflexivity|]. split; [reflexivity|].
      assert (N0 : 0 < qnorm2 q) by (eapply near_pos_norm; [|exact U]; pose proof (epsilon_small p); lra).
      destruct (e_qnormalize_ok q N0) as [U1 (k & k0 & Ek)]. apply (W _ 0 d); [reflexivity|lra|lra|]. cbn [near]. rewrite U1.
      replace (1 - 1) with 0 by ring. rewrite Rabs_R0. split; [lra|]. rewrite Ek, rot_of_scale by lra. exact C. }
    all: try (exfalso; apply K; reflexivity).
    all: match goal with |- context [fix_rot ?x] => rewrite (fix_valid x V); exists x end;
      (split; [reflexivity|]); (split; [reflexivity|]); (apply (W _ 0 d); [reflexivity|lra|lra|]);
      (split; [exact V|exact C]).
Qed.
Lemma rrun_near p os : forall nu d s m, 0 <= nu -> nu + 3 * eta p * INR (length os) <= epsilon p -> kind_of s <> KMat -> SO3 m ->
  near nu d s m -> Forall (op_total (kind_of s)) os ->
  exists t, rrun p s os = Val t /\ kind_of t = kind_of s /\
    near (nu + 3 * eta p * INR (length os)) (d + 2 * dummy_precision p * INR (length os)) t (fold_left spec_step os m).
Proof.
  pose proof (eta_pos p) as EP. pose proof (dummy_pos p) as P. pose proof (epsilon_pos p) as EPS.
  induction os as [|o os IH]; intros nu d s m HN HL K S H F.
  - exists s. cbn. rewrite !Rmult_0_r, !Rplus_0_r. auto.
  - cbn [length] in *. rewrite S_INR in *. apply Forall_cons_iff in F. destruct F as [F1 F2].
    assert (L0 : 0 <= INR (length os)) by apply pos_INR.
    assert (X1 : 0 <= 3 * eta p * INR (length os)) by (apply Rmult_le_pos; lra).
    destruct (rstep_near p nu d s m o) as (t & E & Kt & N); [lra|assumption..|].
    destruct (IH (nu + 3 * eta p) (d + 2 * dummy_precision p) t (spec_step m o)) as (u & Eu & Ku & Nu);
      [lra|lra|congruence|eapply spec_step_SO3; eassumption| |rewrite Kt; exact F2|].
    { unfold nstep in N. destruct (kind_of s) eqn:Ks; try exact N; apply (near_nonquat 0); congruence. }
    exists u. cbn [rrun]. rewrite E. cbn [obind]. split; [exact Eu|]. split; [congruence|].
    eapply near_mono; [| |exact Nu]; lra.
Qed.
(** objects that are not quaternions need no bound on the number of calls *)
Lemma rrun_near_nonquat p os : forall d s m, kind_of s <> KMat -> kind_of s <> KQuat -> SO3 m ->
  near 0 d s m -> Forall (op_total (kind_of s)) os ->
  exists t, rrun p s os = Val t /\ kind_of t = kind_of s /\
    near 0 (d + 2 * dummy_precision p * INR (length os)) t (fold_left spec_step os m).
Proof.
  pose proof (eta_pos p) as EP. pose proof (dummy_pos p) as P. pose proof (epsilon_pos p) as EPS.
  induction os as [|o os IH]; intros d s m K KQ S H F.
  - exists s. cbn. rewrite !Rmult_0_r, !Rplus_0_r. auto.
  - cbn [length] in *. rewrite S_INR in *. apply Forall_cons_iff in F. destruct F as [F1 F2].
    destruct (rstep_near p 0 d s m o) as (t & E & Kt & N); [lra|assumption..|].
    destruct (IH (d + 2 * dummy_precision p) t (spec_step m o)) as (u & Eu & Ku & Nu);
      [congruence|congruence|eapply spec_step_SO3; eassumption| |rewrite Kt; exact F2|].
    { apply (near_nonquat (nstep p (kind_of s) 0)); [congruence|exact N]. }
    exists u. cbn [rrun]. rewrite E. cbn [obind]. split; [exact Eu|]. split; [congruence|].
    eapply near_mono; [| |exact Nu]; lra.
Qed.
(** quaternion objects, operands only on the right: error of the order of the
    machine epsilon *)
Lemma rstep_near_quat p nu d q m o : 0 <= nu <= epsilon p -> SO3 m -> near nu d (RotQuat q) m -> op_quat o ->
  exists q', rstep p (RotQuat q) o = Val (RotQuat q') /\
    near (nu + 2 * eta p) (d + epsilon p / 10000) (RotQuat q') (spec_step m o).
Proof.
  intros HN S H O. pose proof (eta_pos p) as EP. pose proof (epsilon_pos p) as EPS. pose proof (epsilon_small p) as ESM.
  pose proof (eta_small p) as ES.
  assert (D0 : 0 <= d) by (destruct H as [_ H]; eapply close_nonneg; eassumption).
  assert (HN0 : 0 < qnorm2 q) by (destruct H as [U _]; eapply near_pos_norm; [|exact U]; lra).
  destruct o as [| |r|r|r| |]; cbn [rstep spec_step op_quat] in *.
  - eexists; split; [reflexivity|]. apply valid_near; [lra|cbn; lin_unfold; ring|]. cbn [meaning]. 
    replace (mkQ 1 0 0 0) with qid by lin. rewrite quat_rot_id. apply close_refl; lra.
  - eexists; split; [reflexivity|]. eapply (near_mono nu _ d); [lra|lra|]. destruct H as [U C]. cbn [near].
    rewrite e_conjugate_conj, qnorm2_conj. split; [exact U|]. rewrite <- e_conjugate_conj, rot_of_conj. apply close_trans_mat, C.
  - destruct (mult_near p nu d (RotQuat q) m r HN) as (t & E & Kt & N); [discriminate|exact S|exact H|exact O|].
    destruct t as [q'| | | | |]; try discriminate Kt. exists q'. split; [exact E|]. eapply near_mono; [| |exact N]; lra.
  - destruct O as [V K]. destruct r as [r| | | | |]; try discriminate K. eexists; split; [reflexivity|]. cbn [valid meaning] in *.
    destruct H as [U C]. split.
    + rewrite e_mul_hamilton, hamilton_norm, V, Rmult_1_l. lra.
    + rewrite rot_of_mul, (rot_of_unit r) by (try exact V; lra). eapply (close_mono d); [lra|]. apply close_mul_l; [apply (meaning_SO3 (RotQuat r) V)|exact C].
  - destruct (to_quat_total p r O) as (q' & E & U & C). exists q'. cbn [kind_of convert]. rewrite E. split; [reflexivity|].
    split; [lra|]. eapply close_mono; [|exact C]. lra.
  - eexists; split; [reflexivity|]. cbn [near]. rewrite (proj1 (quat_unique_ok q)). destruct H as [U C]. split; [lra|].
    eapply (close_mono d); [lra|]. destruct (quat_unique_pm q) as [-> | ->]; [|rewrite rot_of_neg]; exact C.
  - eexists; split; [reflexivity|]. destruct (e_qnormalize_ok q HN0) as [U1 (k & k0 & Ek)]. cbn [near]. rewrite U1.
    replace (1 - 1) with 0 by ring. rewrite Rabs_R0. split; [lra|]. rewrite Ek, rot_of_scale by lra.
    eapply (close_mono d); [lra|]. apply H.
Qed.
Lemma rrun_near_quat p os : forall nu d q m, 0 <= nu -> nu + 2 * eta p * INR (length os) <= epsilon p -> SO3 m ->
  near nu d (RotQuat q) m -> Forall op_quat os ->
  exists q', rrun p (RotQuat q) os = Val (RotQuat q') /\
    near (nu + 2 * eta p * INR (length os)) (d + epsilon p / 10000 * INR (length os)) (RotQuat q') (fold_left spec_step os m).
Proof.
  pose proof (eta_pos p) as EP. pose proof (epsilon_pos p) as EPS.
  induction os as [|o os IH]; intros nu d q m HN HL S H F.
  - exists q. cbn [length rrun fold_left INR]. rewrite !Rmult_0_r, !Rplus_0_r. auto.
  - cbn [length] in *. rewrite S_INR in *. apply Forall_cons_iff in F. destruct F as [F1 F2].
    assert (L0 : 0 <= INR (length os)) by apply pos_INR.
    assert (X1 : 0 <= 2 * eta p * INR (length os)) by (apply Rmult_le_pos; lra).
    destruct (rstep_near_quat p nu d q m o) as (t & E & N); [lra|assumption..|].
    destruct (IH (nu + 2 * eta p) (d + epsilon p / 10000) t (spec_step m o)) as (u & Eu & Nu);
      [lra|lra| |exact N|exact F2|].
    { destruct o; cbn [spec_step op_quat] in *; auto using SO3_mid, SO3_trans, meaning_SO3, SO3_mmul.
      apply SO3_mmul; [apply meaning_SO3, F1|exact S]. }
    exists u. cbn [rrun]. rewrite E. cbn [obind]. split; [exact Eu|].
    eapply near_mono; [| |exact Nu]; lra.
Qed.
