(** Lemmas about setFromTwoVectors in floating point: the common part of the branches
    and the regular branch. *)
From Coq Require Import ZArith Reals Lra Psatz Bool List Lia Permutation.
From Flocq Require Import IEEE754.BinarySingleNaN Core.Core.
From Verif Require Import Linalg Spec SpecFacts SpecClose ModelCommon ModelEigen CommonFacts CloseFacts SetFacts FloatModel FloatFacts FloatWrap FloatModel2 SpecFloatQ FloatQFacts FloatQProd FloatQRot FloatModel3 SpecLibm FloatBuild FloatModel4 FloatModel5 FloatExt FloatExt2 FloatExt3 FloatModel6 FloatModel7 FloatModel10 SpecVecF FloatVec FloatVec2 FloatVec3 FloatVec4 FloatModel11 FloatModel13 SpecTwo.
Import ListNotations.
Local Open Scope R_scope.

Lemma dot_comm x y : vdot x y = vdot y x. Proof. lin. Qed.

Lemma nrm_list p t m (v : FV p) : flist (fvnormalized t m v) = fv_normalized t m (flist v).
Proof. unfold fvnormalized, fv_normalized, fv_squaredNorm, fv_dot, flist. cbv zeta. destruct (flt _ _); reflexivity. Qed.
Lemma list_fin p (v : FV p) : vfinite v <-> all_finite (flist v).
Proof.
  unfold all_finite, flist. split.
  - intros (A & B & C). repeat constructor; assumption.
  - rewrite Forall_forall. intro H. repeat split; apply H; cbn; auto.
Qed.
Lemma list_len p (v : FV p) : len (values (flist v)) = vnorm (vval v).
Proof. unfold values, flist. cbn [map]. apply len3. Qed.
Lemma list_far p (v : FV p) s : far (values (flist v)) (times s (values (flist v))) = vdist (vval v) (vscale s (vval v)).
Proof. unfold far, values, flist, times, minus, vdist. cbn [map]. rewrite len3. reflexivity. Qed.
Lemma far_dist p (v w : FV p) s : far (values (flist w)) (times s (values (flist v))) = vdist (vval w) (vscale s (vval v)).
Proof. unfold far, values, flist, times, minus, vdist. cbn [map]. rewrite len3. reflexivity. Qed.

Lemma ordinary_pos v : ordinary v -> 0 < vnorm v.
Proof. intros [H _]. pose proof (bpow_gt_0 radix2 (-50)). lra. Qed.
Lemma udir_unit v : ordinary v -> vnorm2 (udir v) = 1 /\ vnorm (udir v) = 1.
Proof. intro H. apply ordinary_pos in H. unfold udir. assert (A : vnorm2 (vscale (/ vnorm v) v) = 1) by (apply vnorm2_unitize; lra). split; [exact A|]. now apply vnorm_unit. Qed.

Lemma nrm_err p t m (v : FV p) : order 3 t -> vfinite v -> ordinary (vval v) ->
  vfinite (fvnormalized t m v) /\ vdist (vval (fvnormalized t m v)) (udir (vval v)) <= 4821/1000 * fu p /\ Rabs (vnorm (vval (fvnormalized t m v)) - 1) <= 4821/1000 * fu p.
Proof.
  intros O F H. pose proof (fu_pos p) as U. pose proof (fu_24 p) as V. pose proof (proj2 (udir_unit _ H)) as N.
  destruct (fv_normalized_err p t m (flist v) O (proj1 (list_fin p v) F)) as [G E].
  - unfold dimension. cbn [flist length]. cbn. lra.
  - rewrite list_len. exact H.
  - rewrite <- nrm_list in G, E. rewrite list_len, far_dist in E. unfold dimension in E. cbn [flist length] in E. replace (INR 3) with 3 in E by (cbn; ring).
    fold (udir (vval v)) in E. assert (D : vdist (vval (fvnormalized t m v)) (udir (vval v)) <= 4821/1000 * fu p) by lra. split; [now apply list_fin|]. split; [exact D|].
    apply Rabs_le. unfold vdist in D. pose proof (vnorm_le_add _ _ _ D) as X. rewrite vnorm_sub_sym in D. pose proof (vnorm_le_add _ _ _ D) as Y. lra.
Qed.

(** perturbation of dot and cross products of unit vectors *)
Lemma dot_pert a b x y e : vnorm a = 1 -> vnorm b = 1 -> 0 <= e -> vdist x a <= e -> vdist y b <= e -> Rabs (vdot x y - vdot a b) <= 2 * e + e * e.
Proof.
  intros A B E X Y. replace (vdot x y - vdot a b) with (vdot (vsub x a) b + vdot a (vsub y b) + vdot (vsub x a) (vsub y b)) by (clear; lin).
  unfold vdist in *. eapply Rle_trans; [apply Rabs_triang|]. pose proof (Rabs_triang (vdot (vsub x a) b) (vdot a (vsub y b))) as T.
  pose proof (vcs_abs (vsub x a) b) as C1. pose proof (vcs_abs a (vsub y b)) as C2. pose proof (vcs_abs (vsub x a) (vsub y b)) as C3. rewrite B in C1. rewrite A in C2.
  pose proof (vn_nonneg (vsub x a)). pose proof (vn_nonneg (vsub y b)).
  assert (vnorm (vsub x a) * vnorm (vsub y b) <= e * e) by (apply Rmult_le_compat; lra). lra.
Qed.
Lemma cross_pert a b x y e : vnorm a = 1 -> vnorm b = 1 -> 0 <= e -> vdist x a <= e -> vdist y b <= e -> vdist (vcross x y) (vcross a b) <= 2 * e + e * e.
Proof.
  intros A B E X Y. unfold vdist in *. replace (vsub (vcross x y) (vcross a b)) with (vadd (vadd (vcross (vsub x a) b) (vcross a (vsub y b))) (vcross (vsub x a) (vsub y b))) by (clear; lin).
  eapply Rle_trans; [apply vnorm_triang|]. pose proof (vnorm_triang (vcross (vsub x a) b) (vcross a (vsub y b))) as T.
  pose proof (vnorm_cross_le (vsub x a) b) as C1. pose proof (vnorm_cross_le a (vsub y b)) as C2. pose proof (vnorm_cross_le (vsub x a) (vsub y b)) as C3. rewrite B in C1. rewrite A in C2.
  pose proof (vn_nonneg (vsub x a)). pose proof (vn_nonneg (vsub y b)).
  assert (vnorm (vsub x a) * vnorm (vsub y b) <= e * e) by (apply Rmult_le_compat; lra). lra.
Qed.
Lemma fofZm1 p : is_finite (fofZ p (-1)) = true /\ B2R (fofZ p (-1)) = -1.
Proof. apply fofZ_small. cbn; lia. Qed.

Section Common.
Variables (p : prim) (o : tv_choices) (a b : FV p).
Hypotheses (O : tv_ok o) (Fa : vfinite a) (Fb : vfinite b) (Na : ordinary (vval a)) (Nb : ordinary (vval b)).
Let ua := udir (vval a).
Let ub := udir (vval b).
Let v0 := fvnormalized (tv_norm1 o) (tv_div o) a.
Let v1 := fvnormalized (tv_norm2 o) (tv_div o) b.
Let c := fdot (tv_dot o) (flist v1) (flist v0).

Lemma e_small : let e := 4821/1000 * fu p in 2 * e + e * e <= 965/100 * fu p /\ 0 <= e <= / 1000000.
Proof. pose proof (fu_pos p) as U. pose proof (fu_24 p) as V. cbv zeta. split; [|lra]. assert (fu p * fu p <= / 16777216 * fu p) by (apply Rmult_le_compat_r; lra). lra. Qed.
Lemma prod_norms : vnorm (vval v1) * vnorm (vval v0) <= 1 + / 100000.
Proof.
  destruct O as (_ & _ & O1 & O2 & _). destruct (nrm_err p _ (tv_div o) a O1 Fa Na) as (_ & _ & A). destruct (nrm_err p _ (tv_div o) b O2 Fb Nb) as (_ & _ & B). fold v0 in A. fold v1 in B.
  pose proof e_small as [_ E]. cbv zeta in E. apply Rabs_both in A. apply Rabs_both in B. apply Rle_trans with ((1 + / 1000000) * (1 + / 1000000)); [apply Rmult_le_compat; try apply vn_nonneg; lra|lra].
Qed.
Lemma common_dot : is_finite c = true /\ Rabs (B2R c - vdot ua ub) <= 13 * fu p.
Proof.
  destruct O as (_ & _ & O1 & O2 & OD & _). destruct (nrm_err p _ (tv_div o) a O1 Fa Na) as (F0 & D0 & N0). destruct (nrm_err p _ (tv_div o) b O2 Fb Nb) as (F1 & D1 & N1). fold v0 in F0, D0, N0. fold v1 in F1, D1, N1.
  pose proof prod_norms as P. destruct F0 as (A0 & A1 & A2). destruct F1 as (B0 & B1 & B2).
  destruct (fdot3_err p (tv_dot o) _ _ _ _ _ _ (vnorm (vval v1) * vnorm (vval v0)) OD B0 B1 B2 A0 A1 A2) as [F E]; [apply dotabs3| |].
  { apply Rle_trans with 2; [lra|]. change 2 with (bpow radix2 1). apply bpow_le. lia. }
  split; [exact F|]. pose proof (fu_pos p) as U. pose proof (eta5_u p) as E5. pose proof e_small as [ES ES2]. cbv zeta in ES, ES2.
  pose proof (dot_pert ub ua (vval v1) (vval v0) _ (proj2 (udir_unit _ Nb)) (proj2 (udir_unit _ Na)) (proj1 ES2) D1 D0) as DP.
  rewrite (dot_comm ua ub).
  replace (B2R c - vdot ub ua) with ((B2R c - vdot (vval v1) (vval v0)) + (vdot (vval v1) (vval v0) - vdot ub ua)) by ring.
  eapply Rle_trans; [apply Rabs_triang|]. fold (flist v1) (flist v0) in E. fold c in E.
  match type of E with Rabs (B2R c - ?d) <= _ => replace d with (vdot (vval v1) (vval v0)) in E by (unfold dot, vdot, vval; cbn; ring) end.
  assert (fu p * (vnorm (vval v1) * vnorm (vval v0)) <= fu p * (1 + / 100000)) by (apply Rmult_le_compat_l; lra). lra.
Qed.
Lemma common_cross : let x := fv_cross (tv_cross o) v0 v1 in vfinite x /\ vdist (vval x) (vcross ua ub) <= 13 * fu p.
Proof.
  destruct O as (_ & _ & O1 & O2 & _ & OC). destruct (nrm_err p _ (tv_div o) a O1 Fa Na) as (F0 & D0 & N0). destruct (nrm_err p _ (tv_div o) b O2 Fb Nb) as (F1 & D1 & N1). fold v0 in F0, D0, N0. fold v1 in F1, D1, N1.
  pose proof prod_norms as P. cbv zeta. destruct (fv_cross_err p (tv_cross o) v0 v1 OC F0 F1) as [F E].
  { rewrite Rmult_comm. apply Rle_trans with 2; [lra|]. change 2 with (bpow radix2 1). apply bpow_le. lia. }
  split; [exact F|]. pose proof (fu_pos p) as U. pose proof (eta5_u p) as E5. pose proof e_small as [ES ES2]. cbv zeta in ES, ES2.
  pose proof (cross_pert ua ub (vval v0) (vval v1) _ (proj2 (udir_unit _ Na)) (proj2 (udir_unit _ Nb)) (proj1 ES2) D0 D1) as DP.
  unfold vdist in *. eapply Rle_trans; [apply (vnorm_sub_triang _ (vcross (vval v0) (vval v1)))|].
  assert (fu p * (vnorm (vval v0) * vnorm (vval v1)) <= fu p * (1 + / 100000)) by (rewrite (Rmult_comm (vnorm _)); apply Rmult_le_compat_l; lra). lra.
Qed.
Lemma threshold : is_finite (fadd (fofZ p (-1)) (fdummy p)) = true /\ Rabs (B2R (fadd (fofZ p (-1)) (fdummy p)) - (-1 + B2R (fdummy p))) <= fu p.
Proof.
  destruct (dummy_facts p) as (_ & _ & _ & _ & C3). destruct (fofZm1 p) as [F1 V1]. pose proof (fu_pos p) as U. pose proof (fu_24 p) as V.
  destruct (fadd_R p (fofZ p (-1)) (fdummy p) F1 (fdummy_fin p)) as [R F].
  { rewrite V1. pose proof (four_fbig p). rewrite Rabs_left by lra. lra. }
  split; [exact F|]. rewrite R, V1. eapply Rle_trans; [apply rnd_add_err; [rewrite <- V1; apply fmt_B2R|apply fmt_B2R]|]. rewrite <- (Rmult_1_r (fu p)) at 2. apply Rmult_le_compat_l; [lra|].
  rewrite Rabs_left by lra. lra.
Qed.
(** which branch is taken *)
Lemma branch_regular : flt c (fadd (fofZ p (-1)) (fdummy p)) = false -> 166 * fu p <= 1 + B2R c <= 2 + / 1000 /\ 153 * fu p <= 1 + vdot ua ub <= 2 /\ B2R (fdummy p) - 14 * fu p <= 1 + vdot ua ub.
Proof.
  destruct common_dot as [F E]. destruct threshold as [Ft Et]. rewrite (flt_R p _ _ F Ft). intro H. destruct (Rlt_bool_spec (B2R c) (B2R (fadd (fofZ p (-1)) (fdummy p)))) as [|L]; [discriminate|].
  destruct (dummy_facts p) as (_ & _ & _ & _ & C3). apply Rabs_both in E. apply Rabs_both in Et. pose proof (fu_24 p) as V.
  pose proof (vcs_abs ua ub) as CS. pose proof (proj2 (udir_unit _ Na)) as NA. pose proof (proj2 (udir_unit _ Nb)) as NB. fold ua in NA. fold ub in NB. rewrite NA, NB in CS. apply Rabs_both in CS. lra.
Qed.
Lemma branch_opposite : flt c (fadd (fofZ p (-1)) (fdummy p)) = true -> 1 + B2R c <= B2R (fdummy p) + fu p /\ 0 <= 1 + vdot ua ub <= B2R (fdummy p) + 14 * fu p /\ - 13 * fu p <= 1 + B2R c.
Proof.
  destruct common_dot as [F E]. destruct threshold as [Ft Et]. rewrite (flt_R p _ _ F Ft). intro H. destruct (Rlt_bool_spec (B2R c) (B2R (fadd (fofZ p (-1)) (fdummy p)))) as [L|]; [|discriminate].
  destruct (dummy_facts p) as (_ & _ & _ & _ & C3). apply Rabs_both in E. apply Rabs_both in Et. pose proof (fu_24 p) as V.
  pose proof (vcs_abs ua ub) as CS. pose proof (proj2 (udir_unit _ Na)) as NA. pose proof (proj2 (udir_unit _ Nb)) as NB. fold ua in NA. fold ub in NB. rewrite NA, NB in CS. apply Rabs_both in CS. lra.
Qed.
End Common.
