(** C46 skew matrices, C47 pseudoinverse. *)
From Coq Require Import Reals Lra Psatz Arith Lia Bool.
From Verif Require Import Linalg ModelCommon ModelDiff SpecMat ModelLinalg CommonFacts MatFacts.
Local Open Scope R_scope.

(** C46: the skew matrix of a multiplies a vector like the cross product with a,
    is antisymmetric, and determines a; every antisymmetric matrix is the skew
    matrix of exactly one vector, which getVectorFromSkewMatrix returns. *)
Lemma C46_skew_lemma : forall a b : V3,
  mvmul (getSkewMatrixFromVector a) b = vcross a b /\
  mtrans (getSkewMatrixFromVector a) = mscale (-1) (getSkewMatrixFromVector a) /\
  getVectorFromSkewMatrix (getSkewMatrixFromVector a) = a /\
  (forall M : M33, mtrans M = mscale (-1) M ->
     getSkewMatrixFromVector (getVectorFromSkewMatrix M) = M /\
     forall c, getSkewMatrixFromVector c = M -> c = getVectorFromSkewMatrix M).
Proof.
  intros a b. repeat split.
  - destruct a as [a0 a1 a2], b as [b0 b1 b2]. unfold getSkewMatrixFromVector. lin.
  - destruct a as [a0 a1 a2]. unfold getSkewMatrixFromVector. lin.
  - destruct a as [a0 a1 a2]. reflexivity.
  - destruct M as [a00 a01 a02 a10 a11 a12 a20 a21 a22].
    unfold mtrans, mscale, getSkewMatrixFromVector, getVectorFromSkewMatrix in *. cbn in *.
    injection H as H0 H1 H2 H3 H4 H5 H6 H7 H8. f_equal; lra.
  - intros c <-. destruct c. reflexivity.
Qed.

Lemma C46_skew_ex : mtrans (mkM33 0 (-3) 2 3 0 (-1) (-2) 1 0) = mscale (-1) (mkM33 0 (-3) 2 3 0 (-1) (-2) 1 0).
Proof. lin. Qed.

(** the singular values the code inverts, as a list of coefficients *)
Definition inv_thr (m n : nat) (s : nat -> R) eps := fun i => if Rltb (pinv_tolerance m n s eps) (Rabs (s i)) then / s i else 0.
Definition keep_thr (m n : nat) (s : nat -> R) eps := fun i => if Rltb (pinv_tolerance m n s eps) (Rabs (s i)) then s i else 0.

Lemma tol_nonneg m n s eps : 0 <= eps -> 0 <= pinv_tolerance m n s eps.
Proof.
  intro H. unfold pinv_tolerance. apply Rmult_le_pos; [apply Rmult_le_pos; [exact H|apply pos_INR]|apply absMaxCoeff_nonneg].
Qed.

Lemma pinv_penrose_keep m n U s V eps :
  let k := Nat.min m n in
  mat_eq k k (mmulm m (tr U) U) idm -> mat_eq k k (mmulm n (tr V) V) idm -> 0 <= eps ->
  penrose m n (odo k U (keep_thr m n s eps) V) (snd (pseudoInverse m n U s V eps)).
Proof.
  intros k HU HV He.
  apply (penrose_odo m n k _ _ U (keep_thr m n s eps) (inv_thr m n s eps) V); try assumption.
  - intros i j Hi Hj. reflexivity.
  - intros i j Hi Hj. cbn [pseudoInverse snd]. unfold sigmaThin. apply three_odo.
  - intros l Hl. unfold keep_thr, inv_thr. destruct (Rltb_spec (pinv_tolerance m n s eps) (Rabs (s l))) as [H|H]; [|ring].
    assert (s l <> 0). { intro E. rewrite E, Rabs_R0 in H. pose proof (tol_nonneg m n s eps He). lra. }
    field. assumption.
  - intros l Hl. unfold keep_thr, inv_thr. destruct (Rltb_spec (pinv_tolerance m n s eps) (Rabs (s l))) as [H|H]; [|ring].
    assert (s l <> 0). { intro E. rewrite E, Rabs_R0 in H. pose proof (tol_nonneg m n s eps He). lra. }
    field. assumption.
Qed.

Lemma penrose_ext m n A B X : mat_eq m n A B -> penrose m n A X -> penrose m n B X.
Proof.
  intros HAB (P1 & P2 & P3 & P4).
  assert (AX : forall i j, (i < m)%nat -> mmulm n B X i j = mmulm n A X i j).
  { intros i j Hi. apply mmulm_ext; [|reflexivity]. intros l Hl. symmetry. now apply HAB. }
  assert (XA : forall i j, (j < n)%nat -> mmulm m X B i j = mmulm m X A i j).
  { intros i j Hi. apply mmulm_ext; [reflexivity|]. intros l Hl. symmetry. now apply HAB. }
  repeat split; intros i j Hi Hj.
  - rewrite <- HAB by assumption. rewrite <- P1 by assumption. apply mmulm_ext; intros l Hl; [now apply AX|symmetry; now apply HAB].
  - transitivity (mmulm n (mmulm m X A) X i j); [|now apply P2]. apply mmulm_ext; intros l Hl; [now apply XA|reflexivity].
  - unfold tr. rewrite !AX by assumption. now apply P3.
  - unfold tr. rewrite !XA by assumption. now apply P4.
Qed.

(** C47: pseudoInverse reports success and returns the Moore-Penrose inverse:
    the four Penrose conditions hold, and no other matrix satisfies them. *)
Lemma C47_penrose_lemma : forall (m n : nat) (A U : mat) (s : nat -> R) (V : mat) (epsilon : R),
  thin_svd m n A U s V -> 0 <= epsilon ->
  (forall i, (i < Nat.min m n)%nat -> s i <> 0 -> pinv_tolerance m n s epsilon < s i) ->
  let (ok, X) := pseudoInverse m n U s V epsilon in
  ok = true /\ penrose m n A X /\ forall Y, penrose m n A Y -> mat_eq n m Y X.
Proof.
  intros m n A U s V eps (HU & HV & HA & Hs) He Hgap.
  assert (P : penrose m n A (snd (pseudoInverse m n U s V eps))).
  { apply (penrose_ext m n (odo (Nat.min m n) U (keep_thr m n s eps) V)); [|now apply pinv_penrose_keep].
    intros i j Hi Hj. rewrite <- HA by assumption. rewrite three_odo. apply odo_ext. intros l Hl.
    unfold keep_thr. destruct (Rltb_spec (pinv_tolerance m n s eps) (Rabs (s l))) as [H|H]; [reflexivity|].
    destruct (Req_dec (s l) 0) as [E|E]; [now symmetry|]. exfalso. apply H.
    rewrite Rabs_right by (apply Rle_ge; now apply Hs). now apply Hgap. }
  unfold pseudoInverse in *. cbn [snd] in P. split; [reflexivity|]. split; [exact P|].
  intros Y PY. exact (penrose_unique m n A Y _ PY P).
Qed.

(** C47: hence the result applied to b is the least-squares solution of A y = b
    of least length, and the only one. *)
Lemma C47_least_squares_lemma : forall (m n : nat) (A U : mat) (s : nat -> R) (V : mat) (epsilon : R),
  thin_svd m n A U s V -> 0 <= epsilon ->
  (forall i, (i < Nat.min m n)%nat -> s i <> 0 -> pinv_tolerance m n s epsilon < s i) ->
  let X := snd (pseudoInverse m n U s V epsilon) in
  forall b y : nat -> R,
  let err z := nrm2 m (fun i => mvm n A z i - b i) in
  let x := mvm m X b in
  err x <= err y /\
  (err y = err x -> nrm2 n x <= nrm2 n y /\ (nrm2 n y = nrm2 n x -> forall j, (j < n)%nat -> y j = x j)).
Proof.
  intros m n A U s V eps HS He Hgap X b y err x.
  pose proof (C47_penrose_lemma m n A U s V eps HS He Hgap) as P.
  unfold pseudoInverse in P. destruct P as [_ [P _]].
  exact (penrose_min m n A X b y P).
Qed.

(** C47: for a matrix with a left inverse (full column rank), the result is a
    left inverse; with a right inverse, a right inverse; so the inverse of every
    invertible matrix. *)
Lemma C47_one_sided_lemma : forall (m n : nat) (A U : mat) (s : nat -> R) (V : mat) (epsilon : R),
  thin_svd m n A U s V -> 0 <= epsilon ->
  (forall i, (i < Nat.min m n)%nat -> s i <> 0 -> pinv_tolerance m n s epsilon < s i) ->
  let X := snd (pseudoInverse m n U s V epsilon) in
  (forall L, mat_eq n n (mmulm m L A) idm -> mat_eq n n (mmulm m X A) idm) /\
  (forall R, mat_eq m m (mmulm n A R) idm -> mat_eq m m (mmulm n A X) idm) /\
  (forall B, mat_eq n n (mmulm m B A) idm -> mat_eq m m (mmulm n A B) idm -> mat_eq n m X B).
Proof.
  intros m n A U s V eps HS He Hgap X.
  pose proof (C47_penrose_lemma m n A U s V eps HS He Hgap) as P.
  unfold pseudoInverse in P. destruct P as [_ [P Pu]]. change (penrose m n A X) in P.
  assert (assoc : forall a b (P Q R : mat) i j, mmulm a (mmulm b P Q) R i j = mmulm b P (mmulm a Q R) i j).
  { intros a b P0 Q R i j. unfold mmulm.
    transitivity (sumn a (fun l => sumn b (fun l' => P0 i l' * (Q l' l * R l j)))).
    - apply sumn_ext. intros l Hl. rewrite <- sumn_scal_r. apply sumn_ext. intros; ring.
    - rewrite sumn_swap. apply sumn_ext. intros l Hl. now rewrite sumn_scal. }
  assert (idl : forall a (Q : mat) i j, (i < a)%nat -> mmulm a idm Q i j = Q i j).
  { intros a Q i j Hi. unfold mmulm, idm. now apply (sumn_delta a i (fun l => Q l j)). }
  assert (idr : forall a (Q : mat) i j, (j < a)%nat -> mmulm a Q idm i j = Q i j).
  { intros a Q i j Hj. unfold mmulm, idm.
    rewrite (sumn_ext a _ (fun l => (if Nat.eqb j l then 1 else 0) * Q i l)).
    - now apply (sumn_delta a j (fun l => Q i l)).
    - intros l Hl. rewrite Nat.eqb_sym. ring. }
  assert (HL : forall L, mat_eq n n (mmulm m L A) idm -> mat_eq n n (mmulm m X A) idm).
  { intros L HL i j Hi Hj. destruct P as (P1 & _).
    rewrite <- (HL i j Hi Hj).
    transitivity (mmulm m L (mmulm m (mmulm n A X) A) i j).
    - rewrite <- (assoc m m L (mmulm n A X) A).
      transitivity (mmulm n (mmulm m L A) (mmulm m X A) i j).
      + rewrite (mmulm_ext n _ idm _ (mmulm m X A)); [now rewrite idl| |reflexivity]. intros l Hl. now apply HL.
      + rewrite !assoc. apply mmulm_ext; [reflexivity|]. intros l Hl. now rewrite assoc.
    - apply mmulm_ext; [reflexivity|]. intros l Hl. now apply P1. }
  assert (HR : forall R, mat_eq m m (mmulm n A R) idm -> mat_eq m m (mmulm n A X) idm).
  { intros R HR i j Hi Hj. destruct P as (P1 & _).
    rewrite <- (HR i j Hi Hj).
    transitivity (mmulm n (mmulm m (mmulm n A X) A) R i j).
    - rewrite assoc. rewrite (mmulm_ext m _ (mmulm n A X) _ idm); [now rewrite idr|reflexivity|]. intros l Hl. now apply HR.
    - apply mmulm_ext; [|reflexivity]. intros l Hl. now apply P1. }
  split; [exact HL|]. split; [exact HR|].
  intros B HB1 HB2 i j Hi Hj. symmetry. apply Pu; try assumption.
  repeat split; intros a b Ha Hb.
  - rewrite (mmulm_ext m _ idm _ A); [now rewrite idl| |reflexivity]. intros l Hl. now apply HB2.
  - rewrite (mmulm_ext n _ idm _ B); [now rewrite idl| |reflexivity]. intros l Hl. now apply HB1.
  - unfold tr. rewrite !HB2 by assumption. unfold idm. now rewrite Nat.eqb_sym.
  - unfold tr. rewrite !HB1 by assumption. unfold idm. now rewrite Nat.eqb_sym.
Qed.

Lemma odo_mvm k n U d V x i : mvm n (odo k U d V) x i = sumn k (fun l => U i l * (d l * mvm n (tr V) x l)).
Proof.
  unfold mvm, odo, tr.
  transitivity (sumn n (fun j => sumn k (fun l => U i l * d l * (V j l * x j)))).
  - apply sumn_ext. intros j Hj. rewrite <- sumn_scal_r. apply sumn_ext. intros; ring.
  - rewrite sumn_swap. apply sumn_ext. intros l Hl. rewrite sumn_scal. ring.
Qed.
(** length of a combination of orthonormal columns *)
Lemma parseval k m U c : mat_eq k k (mmulm m (tr U) U) idm ->
  nrm2 m (fun i => sumn k (fun l => U i l * c l)) = nrm2 k c.
Proof.
  intro HU. unfold nrm2.
  change (fun i => sumn k (fun l => U i l * c l) * sumn k (fun l => U i l * c l)) with (fun i => sumn k (fun l => U i l * c l) * mvm k U c i).
  rewrite adjoint. apply sumn_ext. intros l Hl. f_equal.
  transitivity (mvm m (tr U) (mvm k U c) l); [reflexivity|]. rewrite <- mvm_mul.
  rewrite (mvm_ext k _ idm c c); [|intros j Hj; now apply HU|reflexivity].
  unfold mvm, idm. now apply sumn_delta.
Qed.
Lemma bessel k n V x : mat_eq k k (mmulm n (tr V) V) idm -> nrm2 k (mvm n (tr V) x) <= nrm2 n x.
Proof.
  intro HV. set (c := mvm n (tr V) x).
  assert (E : nrm2 n x = nrm2 n (fun i => mvm k V c i) + nrm2 n (fun i => x i - mvm k V c i)).
  { rewrite <- pythagoras; [apply nrm2_ext; intros; ring|].
    transitivity (sumn n (fun i => x i * mvm k V c i) - sumn n (fun i => mvm k V c i * mvm k V c i)).
    - rewrite <- sumn_minus. apply sumn_ext. intros; ring.
    - rewrite adjoint. change (mvm n (tr V) x) with c.
      pose proof (parseval k n V c HV) as Q. unfold nrm2 in Q.
      change (sumn n (fun i => mvm k V c i * mvm k V c i) = sumn k (fun i => c i * c i)) in Q. rewrite Q. ring. }
  pose proof (nrm2_nonneg n (fun i => x i - mvm k V c i)).
  pose proof (parseval k n V c HV) as Q. change (nrm2 n (mvm k V c) = nrm2 k c) in Q.
  change (nrm2 n (fun i => mvm k V c i)) with (nrm2 n (mvm k V c)) in E. lra.
Qed.
Lemma sumn_le n f g : (forall i, (i < n)%nat -> f i <= g i) -> sumn n f <= sumn n g.
Proof.
  intro H. assert (0 <= sumn n (fun i => g i - f i)) by (apply sumn_nonneg; intros i Hi; specialize (H i Hi); lra).
  rewrite sumn_minus in H0. lra.
Qed.

(** C47 without the gap condition: for every matrix and every threshold the
    result is the exact pseudoinverse of a matrix A' that differs from A by at
    most tolerance = epsilon * max(rows, cols) * largest singular value in
    operator norm; singular values above the tolerance are not touched. *)
Lemma C47_truncated_lemma : forall (m n : nat) (A U : mat) (s : nat -> R) (V : mat) (epsilon : R),
  thin_svd m n A U s V -> 0 <= epsilon ->
  exists A' : mat,
    penrose m n A' (snd (pseudoInverse m n U s V epsilon)) /\
    forall (x : nat -> R) (smax : R), (forall i, (i < Nat.min m n)%nat -> s i <= smax) -> 0 <= smax ->
      nrm2 m (fun i => mvm n A x i - mvm n A' x i) <= (epsilon * INR (Nat.max m n) * smax)² * nrm2 n x.
Proof.
  intros m n A U s V eps (HU & HV & HA & Hs) He.
  exists (odo (Nat.min m n) U (keep_thr m n s eps) V). split; [now apply pinv_penrose_keep|].
  intros x smax Hmax H0.
  set (k := Nat.min m n) in *.
  assert (T : pinv_tolerance m n s eps <= eps * INR (Nat.max m n) * smax).
  { unfold pinv_tolerance. rewrite (Nat.max_comm n m). apply Rmult_le_compat_l; [apply Rmult_le_pos; [exact He|apply pos_INR]|].
    fold k. destruct k as [|k'] eqn:Ek; [exact H0|].
    destruct (absMaxCoeff_attained (S k') s ltac:(lia)) as [i [Hi ->]].
    rewrite Rabs_right by (apply Rle_ge; now apply Hs). now apply Hmax. }
  pose proof (tol_nonneg m n s eps He) as T0.
  set (c := fun l => (s l - keep_thr m n s eps l) * mvm n (tr V) x l).
  assert (E : nrm2 m (fun i => mvm n A x i - mvm n (odo k U (keep_thr m n s eps) V) x i) = nrm2 k c).
  { rewrite <- (parseval k m U c HU). apply nrm2_ext. intros i Hi.
    rewrite (mvm_ext n A (odo k U s V) x x i); [|intros j Hj; rewrite <- HA by assumption; apply three_odo|reflexivity].
    rewrite !odo_mvm, <- sumn_minus. apply sumn_ext. intros l Hl. unfold c. ring. }
  rewrite E. apply Rle_trans with ((eps * INR (Nat.max m n) * smax)² * nrm2 k (mvm n (tr V) x)).
  - unfold nrm2. rewrite <- sumn_scal. apply sumn_le. intros l Hl. unfold c.
    set (v := mvm n (tr V) x l). assert (Hv : 0 <= v * v) by nra.
    replace ((s l - keep_thr m n s eps l) * v * ((s l - keep_thr m n s eps l) * v)) with ((s l - keep_thr m n s eps l)² * (v * v)) by (unfold Rsqr; ring).
    apply Rmult_le_compat_r; [exact Hv|].
    unfold keep_thr. destruct (Rltb_spec (pinv_tolerance m n s eps) (Rabs (s l))) as [H|H].
    + rewrite Rminus_diag_eq by reflexivity. rewrite Rsqr_0. apply Rle_0_sqr.
    + pose proof (Hs l Hl). rewrite Rabs_right in H by lra. rewrite Rminus_0_r. apply Rsqr_incr_1; lra.
  - apply Rmult_le_compat_l; [apply Rle_0_sqr|]. now apply bessel.
Qed.

(** a rank-one 2 x 2 matrix with its decomposition: the gap condition holds for
    the default threshold, and the result is (3/25 4/25; 0 0) *)
Definition exA : mat := fun i j => match i, j with 0%nat, 0%nat => 3 | 1%nat, 0%nat => 4 | _, _ => 0 end.
Definition exU : mat := fun i j => match i, j with 0%nat, 0%nat => 3/5 | 1%nat, 0%nat => 4/5 | 0%nat, 1%nat => -4/5 | 1%nat, 1%nat => 3/5 | _, _ => 0 end.
Definition exs : nat -> R := fun i => match i with 0%nat => 5 | _ => 0 end.
Lemma C47_penrose_ex : thin_svd 2 2 exA exU exs idm /\
  (forall i, (i < Nat.min 2 2)%nat -> exs i <> 0 -> pinv_tolerance 2 2 exs (1 / 4503599627370496) < exs i) /\
  exs 1%nat = 0 /\
  snd (pseudoInverse 2 2 exU exs idm (1 / 4503599627370496)) 0%nat 1%nat = 4/25.
Proof.
  assert (M : absMaxCoeff 2 exs = 5).
  { cbn. rewrite Rabs_R0, (Rabs_right 5) by lra. rewrite (Rmax_right 0 5) by lra. apply Rmax_left. lra. }
  split; [|split; [|split]].
  - repeat split.
    + intros i j Hi Hj. cbn in Hi, Hj. destruct i as [|[|i]]; destruct j as [|[|j]]; try lia; unfold mmulm, tr, idm; cbn; lra.
    + intros i j Hi Hj. cbn in Hi, Hj. destruct i as [|[|i]]; destruct j as [|[|j]]; try lia; unfold mmulm, tr, idm; cbn; lra.
    + intros i j Hi Hj. cbn in Hi, Hj. destruct i as [|[|i]]; destruct j as [|[|j]]; try lia; unfold mmulm, tr, idm, diag; cbn; lra.
    + intros i Hi. destruct i as [|i]; cbn; lra.
  - intros i Hi Hn. destruct i as [|i]; [|now contradict Hn]. unfold pinv_tolerance. cbn [Nat.min Nat.max]. rewrite M. cbn. lra.
  - reflexivity.
  - cbn [pseudoInverse snd Nat.min]. unfold sigmaThin. rewrite three_odo. unfold odo. cbn [sumn].
    unfold pinv_tolerance. cbn [Nat.min Nat.max]. rewrite M. cbn [exs exU idm Nat.eqb].
    rewrite Rabs_R0, (Rabs_right 5) by lra.
    destruct (Rltb_spec (1 / 4503599627370496 * INR 2 * 5) 5) as [H|H]; [|exfalso; apply H; cbn; lra].
    destruct (Rltb_spec (1 / 4503599627370496 * INR 2 * 5) 0) as [H'|H']; [exfalso; cbn in H'; lra|]. lra.
Qed.
