(** * TotalFacts2: log, exp, box operators and angles on every legal input. *)
From Coq Require Import Reals Lra Psatz Bool List.
From Verif Require Import Linalg Spec SpecFacts ModelCommon ModelEigen ModelRotation CommonFacts ConvFacts RVFacts Windows RotFacts UniqueFacts MetricFacts EulerFacts EqFacts SetFacts ModelHistory SpecHistory HistoryFacts SpecClose CloseFacts NearUnit EulerNear RoundTrip TotalFacts PiBounds.
Local Open Scope R_scope.

Lemma sin_cubic x : 0 <= x <= 8/5 -> x * (1 - x * x / 6) <= sin x.
Proof.
  intros H. pose proof PI2_1. pose proof PI2_3_2.
  assert (SS : sin_lb x <= sin x) by (apply SIN; lra).
  eapply Rle_trans; [|exact SS]. unfold sin_lb, sin_approx, sin_term. cbn [sum_f_R0 pow fact Nat.mul Nat.add].
  match goal with |- _ <= ?r => replace r with (x - x ^ 3 / 6 + x ^ 5 / 120 - x ^ 7 / 5040) end.
  2: { cbn -[INR]. rewrite !INR_IZR_INZ. cbn [Z.of_nat Pos.of_succ_nat Pos.succ]. field. }
  assert (0 <= x ^ 5) by (apply pow_le; lra). replace (x ^ 7) with (x ^ 5 * (x * x)) by ring.
  assert (x * x <= 42) by nra. nra.
Qed.
Lemma angle_of_close m d a : SO3 m -> close d m mid -> is_rotation_angle m a -> a <= 3 * d.
Proof.
  intros S C [R T]. pose proof (close_nonneg _ _ _ C) as D0.
  assert (E : 4 * (1 - cos a) <= 3 * (d * d)).
  { assert (X : forall e, vnorm2 e = 1 -> vnorm2 (vsub (mvmul m e) e) <= d * d).
    { intros e U. specialize (C e). rewrite (proj2 (vnorm_unit e) U), mvmul_id in C. rewrite <- vnorm_sqr.
      pose proof (vnorm_nonneg (vsub (mvmul m e) e)). nra. }
    pose proof (X ex ltac:(lin)) as X1. pose proof (X ey ltac:(lin)) as X2. pose proof (X ez ltac:(lin)) as X3.
    assert (F : vnorm2 (vsub (mvmul m ex) ex) + vnorm2 (vsub (mvmul m ey) ey) + vnorm2 (vsub (mvmul m ez) ez) = 2 * (3 - mtrace m)).
    { assert (O : mmul (mtrans m) m = mid) by (apply SO3_inv_l, S). clear - O. destruct m. injection O. intros. lin_unfold. lra. }
    lra. }
  assert (H : cos a = 1 - 2 * (sin (a/2) * sin (a/2))).
  { replace a with (2 * (a/2)) at 1 by field. rewrite cos_2a_sin. ring. }
  assert (PI < 16/5).
  { destruct PI_close as [_ B]. eapply Rlt_le_trans; [exact B|]. apply Rmult_le_reg_r with (IZR (2 ^ 51) * IZR (10 ^ 17)); [lra|].
    rewrite Rmult_plus_distr_r. 
    replace (7074237752028440 * / IZR (2 ^ 51) * (IZR (2 ^ 51) * IZR (10 ^ 17))) with (7074237752028440 * IZR (10 ^ 17)) by (field; lra).
    replace (13 / IZR (10 ^ 17) * (IZR (2 ^ 51) * IZR (10 ^ 17))) with (13 * IZR (2 ^ 51)) by (field; lra). cbv. lra. }
  assert (L : a / 2 * (1 - a / 2 * (a / 2) / 6) <= sin (a / 2)) by (apply sin_cubic; lra).
  assert (L2 : a / 2 * (57/100) <= sin (a/2)).
  { eapply Rle_trans; [|exact L]. apply Rmult_le_compat_l; [lra|]. nra. }
  assert (L3 : sin (a/2) * sin (a/2) <= 3/8 * (d * d)) by lra.
  destruct (Rle_or_lt a (3 * d)) as [G|G]; [exact G|exfalso].
  assert (3 * d / 2 * (57/100) < sin (a/2)) by lra. nra.
Qed.
(** angles of nearby rotations are nearby *)
Lemma angle_close a b d ta tb : SO3 a -> SO3 b -> close d a b -> is_rotation_angle a ta -> is_rotation_angle b tb -> Rabs (ta - tb) <= 3 * d.
Proof.
  intros Sa Sb C A B.
  assert (G : forall a b ta tb, SO3 a -> SO3 b -> close d a b -> is_rotation_angle a ta -> is_rotation_angle b tb -> ta <= tb + 3 * d).
  { clear. intros a b ta tb Sa Sb C A B.
    assert (S : SO3 (mmul a (mtrans b))) by (apply SO3_mmul; [exact Sa|apply SO3_trans, Sb]).
    destruct (angle_exists _ S) as (t & T).
    assert (t <= 3 * d).
    { apply (angle_of_close _ d t S); [|exact T]. rewrite <- (SO3_inv_r b Sb). apply close_mul_r; [apply SO3_trans, Sb|exact C]. }
    assert (ta <= t + tb).
    { apply (angle_subadd (mmul a (mtrans b)) b); try assumption. rewrite <- mmul_assoc, (SO3_inv_l b Sb), mmul_id_r. exact A. }
    lra. }
  pose proof (G a b ta tb Sa Sb C A B). pose proof (G b a tb ta Sb Sa (close_sym _ _ _ C) B A). apply Rabs_le. lra.
Qed.

(** ** what a product looks like *)
Inductive mild (nu d : R) (m : M33) : rotation -> Prop :=
| mild_valid r : valid r -> close d (meaning r) m -> mild nu d m r
| mild_quat q : Rabs (qnorm2 q - 1) <= nu -> close d (rot_of q) m -> mild nu d m (RotQuat q)
| mild_mat q : Rabs (qnorm2 q - 1) <= nu -> close d (rot_of q) m -> mild nu d m (RotMat (e_toRotationMatrix q)).
Lemma mult_mild p l r : valid l -> valid r ->
  exists s, mult p l r = Val s /\ kind_of s = kind_of l /\ mild (2 * eta p) (dmul p (kind_of l)) (mmul (meaning l) (meaning r)) s.
Proof.
  intros Vl Vr. pose proof (eta_pos p) as EP. pose proof (epsilon_pos p) as EPS. pose proof (epsilon_small p) as ESM.
  destruct (kind_of l) eqn:K.
  4: { destruct l as [q|a|v|m|e|e]; try discriminate K.
       destruct (to_quat_exact p (RotMat m) Vl I) as (ql & El & Ul & Ml).
       destruct (to_quat_total p r Vr) as (qr & Er & Ur & Cr).
       assert (NR : 0 < qnorm2 qr) by (eapply near_pos_norm; [|exact Ur]; pose proof (eta_small p); lra).
       destruct (kind_of r) eqn:Kr.
       4: { destruct r as [q|a|v|m'|e|e]; try discriminate Kr. eexists; split; [reflexivity|]. split; [reflexivity|].
            apply mild_valid; [apply SO3_mmul; assumption|apply close_refl, dmul_nonneg]. }
       all: assert (M : mult p (RotMat m) r = Val (RotMat (e_toRotationMatrix (e_mul ql qr)))) by
          (destruct r; try discriminate Kr; cbn [mult]; rewrite El, Er; reflexivity);
         rewrite M; eexists; (split; [reflexivity|]); (split; [reflexivity|]); cbn [dmul];
         assert (C : close (epsilon p / 20000) (rot_of (e_mul ql qr)) (mmul (meaning (RotMat m)) (meaning r))) by
          (rewrite rot_of_mul, (rot_of_unit ql), Ml by (try assumption; lra); apply close_mul_l; [exact Vl|exact Cr]);
         assert (N : qnorm2 (e_mul ql qr) = qnorm2 qr) by (rewrite e_mul_hamilton, hamilton_norm, Ul; ring);
         apply mild_mat; [rewrite N; lra|eapply close_mono; [|exact C]; lra]. }
  all: destruct (mult_total_near p l r Vl Vr) as (s & E & Ks & N); exists s; (split; [exact E|]); (split; [congruence|]);
    rewrite <- K; destruct s; cbn [near kind_of] in *; try congruence; try (apply mild_valid; apply N); apply mild_quat; apply N.
Qed.
Definition daa (p : prim) (k : kind) : R := match k with KVec => dummy_precision p | _ => epsilon p / 2000 end.
Lemma mild_to_aa p d m s : 0 <= d -> SO3 m -> mild (2 * eta p) d m s ->
  exists a, to_aa p s = Val a /\ vnorm2 (aaxis a) = 1 /\ close (d + daa p (kind_of s)) (aa_rot a) m.
Proof.
  intros D0 S M. pose proof (eta_pos p) as EP. pose proof (epsilon_pos p) as EPS. pose proof (eta_small p) as ES. pose proof (dummy_pos p) as P.
  inversion M as [r V C E|q U C E|q U C E]; subst s.
  - assert (HV : kind_of r <> KVec -> exists a, to_aa p r = Val a /\ vnorm2 (aaxis a) = 1 /\ close (d + epsilon p / 2000) (aa_rot a) m).
    { intros K. destruct (to_aa_exact p r V) as (a & Ea & Ua & Ma); [destruct r; cbn; try exact I; cbn in K; congruence|].
      exists a. split; [exact Ea|]. split; [exact Ua|]. rewrite Ma. eapply close_mono; [|exact C]. lra. }
    destruct r as [q|a|v|a|e|e]; try (apply HV; discriminate).
    cbn [meaning kind_of daa] in *. destruct (rv_to_aa_near p v) as [A1 A2]. eexists; split; [reflexivity|].
    split; [exact A1|]. eapply close_mono; [|eapply close_trans; [exact A2|exact C]]. lra.
  - eexists; split; [reflexivity|]. destruct (e_aa_of_quat_near q) as [A B]; [eapply near_pos_norm; [|exact U]; lra|].
    split; [exact A|]. rewrite B. cbn [kind_of daa]. eapply close_mono; [|exact C]. lra.
  - destruct (rt_near q (2 * eta p) U) as (q' & E' & N' & C'); [lra|]. cbn [to_aa]. unfold e_aa_of_matrix. rewrite E'. cbn [omap].
    eexists; split; [reflexivity|]. destruct (e_aa_of_quat_near q') as [A B]; [eapply near_pos_norm; [|exact N']; lra|].
    split; [exact A|]. rewrite B. cbn [kind_of daa]. eapply close_mono; [|eapply close_trans; [exact C'|exact C]]. unfold eta. lra.
Qed.
Lemma mild_to_rv p d m s : 0 <= d -> SO3 m -> mild (2 * eta p) d m s ->
  exists v, to_rv p s = Val v /\ close (d + dummy_precision p / 10) (vec_rot v) m.
Proof.
  intros D0 S M. pose proof (eta_pos p) as EP. pose proof (epsilon_pos p) as EPS. pose proof (eta_small p) as ES. pose proof (dummy_pos p) as P.
  pose proof (eps_dummy p) as ED.
  inversion M as [r V C E|q U C E|q U C E]; subst s.
  - destruct (convert_total_near p KVec r V) as (r' & Er & Kr & N). destruct r' as [| |v| | |]; try discriminate Kr.
    cbn [convert] in Er. destruct (to_rv p r) as [v'| |]; try discriminate. cbn [omap] in Er. injection Er as ->.
    exists v. split; [reflexivity|]. destruct N as [_ N]. cbn [meaning dtot] in N. eapply close_mono; [|eapply close_trans; [exact N|exact C]]. lra.
  - destruct (quat_to_rv_near p q) as (v & E & C'). { eapply Rle_trans; [exact U|]. unfold eta. lra. }
    exists v. split; [exact E|]. eapply close_mono; [|eapply close_trans; [exact C'|exact C]]. lra.
  - destruct (rt_near q (2 * eta p) U) as (q' & E' & N' & C'); [lra|].
    destruct (quat_to_rv_near p q') as (v & E & C''). { eapply Rle_trans; [exact N'|]. unfold eta. lra. }
    exists v. cbn [to_rv]. rewrite E'. split; [exact E|].
    eapply close_mono; [|eapply close_trans; [exact C''|eapply close_trans; [exact C'|exact C]]]. unfold eta. lra.
Qed.

Lemma disparity_total p l r : valid l -> valid r ->
  exists d t, disparity p l r = Val d /\ 0 <= d <= PI /\ is_rotation_angle (mmul (meaning l) (mtrans (meaning r))) t /\
    Rabs (d - t) <= match kind_of l with KVec => 4 * dummy_precision p | _ => epsilon p / 100 end.
Proof.
  intros Vl Vr. pose proof (meaning_SO3 l Vl) as Sl. pose proof (meaning_SO3 r Vr) as Sr.
  pose proof (eta_pos p) as EP. pose proof (epsilon_pos p) as EPS. pose proof (dummy_pos p) as P.
  assert (S : SO3 (mmul (meaning l) (mtrans (meaning r)))) by (apply SO3_mmul; [exact Sl|apply SO3_trans, Sr]).
  destruct (inverted_exact r Vr) as (ri & Ei & Ki & Vi & Mi).
  destruct (mult_mild p l ri Vl Vi) as (s & Es & Ks & Ms). rewrite Mi in Ms.
  destruct (mild_to_aa p _ _ s (dmul_nonneg p _) S Ms) as (a & Ea & Ua & Ca).
  unfold disparity. rewrite Ei. cbn [obind]. rewrite Es. cbn [obind]. rewrite Ea. cbn [obind].
  destruct (angle_exists _ S) as (t & T).
  assert (A : is_rotation_angle (aa_rot a) (Rabs (floatingPointModulo (aangle a + PI) (2 * PI) - PI))).
  { apply wrap_abs_angle. rewrite aa_rot_trace by exact Ua. ring. }
  eexists; exists t. split; [reflexivity|]. split; [apply A|]. split; [exact T|].
  eapply Rle_trans; [apply (angle_close (aa_rot a) (mmul (meaning l) (mtrans (meaning r))) _ _ _ (meaning_SO3 (RotAA a) Ua) S Ca A T)|].
  rewrite Ks. destruct (kind_of l); cbn [dmul daa]; lra.
Qed.
Lemma log_of_rv p v : vnorm (rv_unique p v) <= PI /\ close (dummy_precision p) (vec_rot (rv_unique p v)) (vec_rot v).
Proof.
  pose proof (dummy_pos p) as P. destruct (Rlt_dec (vnorm v) (dummy_precision p)) as [L|L].
  - rewrite rv_unique_small by exact L. rewrite vnorm_vzero, vec_rot_zero. split; [pose proof PI_RGT_0; lra|].
    eapply close_mono; [|apply close_sym, vec_close_id]. lra.
  - destruct (rv_unique_ok p v (or_intror (Rnot_lt_le _ _ L))) as [M C]. rewrite M. split; [|apply close_refl; lra].
    destruct C as [C|[C _]]; lra.
Qed.
Lemma log_total p r : valid r ->
  exists v, logarithmicMap p r = Val v /\ vnorm v <= PI /\ close (2 * dummy_precision p) (vec_rot v) (meaning r).
Proof.
  intros V. pose proof (dummy_pos p) as P.
  destruct (mild_to_rv p 0 (meaning r) r) as (v & E & C); [lra|apply meaning_SO3, V|apply mild_valid; [exact V|apply close_refl; lra]|].
  unfold logarithmicMap. rewrite E. cbn [obind]. eexists; split; [reflexivity|]. destruct (log_of_rv p v) as [A B]. split; [exact A|].
  eapply close_mono; [|eapply close_trans; [exact B|exact C]]. lra.
Qed.
Lemma boxMinus_total p l r : valid l -> valid r ->
  exists v, boxMinus p l r = Val v /\ vnorm v <= PI /\ close (2 * dummy_precision p) (vec_rot v) (mmul (meaning l) (mtrans (meaning r))).
Proof.
  intros Vl Vr. pose proof (dummy_pos p) as P. pose proof (eps_dummy p) as ED. pose proof (epsilon_pos p) as EPS.
  pose proof (meaning_SO3 l Vl) as Sl. pose proof (meaning_SO3 r Vr) as Sr.
  assert (S : SO3 (mmul (meaning l) (mtrans (meaning r)))) by (apply SO3_mmul; [exact Sl|apply SO3_trans, Sr]).
  destruct (inverted_exact r Vr) as (ri & Ei & Ki & Vi & Mi).
  destruct (mult_mild p l ri Vl Vi) as (s & Es & Ks & Ms). rewrite Mi in Ms.
  destruct (mild_to_rv p _ _ s (dmul_nonneg p _) S Ms) as (v & E & C).
  unfold boxMinus. rewrite Ei. cbn [obind]. rewrite Es. cbn [obind]. unfold logarithmicMap. rewrite E. cbn [obind].
  eexists; split; [reflexivity|]. destruct (log_of_rv p v) as [A B]. split; [exact A|].
  eapply close_mono; [|eapply close_trans; [exact B|exact C]]. destruct (kind_of l); cbn [dmul]; lra.
Qed.
Lemma convert_self p k s : kind_of s = k -> convert p k s = Val s.
Proof. intros <-. destruct s; reflexivity. Qed.
Definition dplus (p : prim) (k : kind) : R := match k with KQuat | KMat | KZyx => epsilon p / 1000 | _ => 2 * dummy_precision p end.
Lemma boxPlus_total p r v : valid r ->
  exists s, boxPlus p r v = Val s /\ kind_of s = kind_of r /\ near (3 * eta p) (dplus p (kind_of r)) s (mmul (vec_rot v) (meaning r)).
Proof.
  intros V. pose proof (dummy_pos p) as P. pose proof (eps_dummy p) as ED. pose proof (epsilon_pos p) as EPS. pose proof (eta_pos p) as EP.
  pose proof (meaning_SO3 r V) as S. pose proof (meaning_SO3 (RotVec v) I) as Sv. cbn [meaning] in Sv.
  destruct (convert_total_near p (kind_of r) (RotVec v) I) as (e & Ee & Ke & Ne). cbn [meaning] in Ne.
  unfold boxPlus, exponentialMap. rewrite Ee. cbn [obind].
  destruct (kind_of r) eqn:K.
  4: { destruct r as [| | |m| |]; try discriminate K. destruct e as [| | |a| |]; try discriminate Ke. cbn [mult obind].
       rewrite convert_self by reflexivity. eexists; split; [reflexivity|]. split; [reflexivity|]. cbn [near dtot dplus meaning] in *.
       eapply close_mono; [|apply close_mul_r; [exact S|exact Ne]]. lra. }
  all: assert (E1 : 0 <= eta p <= epsilon p) by (unfold eta; lra); assert (E2 : kind_of e <> KMat) by congruence;
    destruct (mult_near p (eta p) _ e (vec_rot v) r E1 E2 Sv Ne V) as (s & Es & Ks & Ns);
    rewrite Es; cbn [obind]; rewrite convert_self by congruence; exists s; (split; [reflexivity|]); (split; [congruence|]);
    (eapply near_mono; [| |exact Ns]); [lra|]; destruct e; try discriminate Ke; cbn [dtot dplus]; lra.
Qed.
