(** Lemmas about matrices of any size and the Moore-Penrose pseudoinverse. *)
From Coq Require Import Reals Lra Psatz Arith Lia Bool.
From Verif Require Import Linalg ModelCommon CommonFacts SpecMat ModelLinalg.
Local Open Scope R_scope.

Lemma sumn_ext n f g : (forall i, (i < n)%nat -> f i = g i) -> sumn n f = sumn n g.
Proof.
  induction n as [|n IH]; intro H; cbn [sumn]; [reflexivity|].
  rewrite IH, (H n); [reflexivity|lia|]. intros i Hi. apply H. lia.
Qed.
Lemma sumn_plus n f g : sumn n (fun i => f i + g i) = sumn n f + sumn n g.
Proof. induction n as [|n IH]; cbn [sumn]; [ring|]. rewrite IH. ring. Qed.
Lemma sumn_minus n f g : sumn n (fun i => f i - g i) = sumn n f - sumn n g.
Proof. induction n as [|n IH]; cbn [sumn]; [ring|]. rewrite IH. ring. Qed.
Lemma sumn_scal n c f : sumn n (fun i => c * f i) = c * sumn n f.
Proof. induction n as [|n IH]; cbn [sumn]; [ring|]. rewrite IH. ring. Qed.
Lemma sumn_scal_r n c f : sumn n (fun i => f i * c) = sumn n f * c.
Proof. induction n as [|n IH]; cbn [sumn]; [ring|]. rewrite IH. ring. Qed.
Lemma sumn_0 n f : (forall i, (i < n)%nat -> f i = 0) -> sumn n f = 0.
Proof.
  intro H. rewrite (sumn_ext n f (fun _ => 0 * 0)); [|intros i Hi; rewrite H by exact Hi; ring].
  rewrite sumn_scal. ring.
Qed.
Lemma sumn_swap n m (f : nat -> nat -> R) :
  sumn n (fun i => sumn m (fun j => f i j)) = sumn m (fun j => sumn n (fun i => f i j)).
Proof.
  induction n as [|n IH]; cbn [sumn].
  - symmetry. apply sumn_0. reflexivity.
  - rewrite IH, <- sumn_plus. reflexivity.
Qed.
Lemma sumn_delta n l f : (l < n)%nat -> sumn n (fun i => (if Nat.eqb l i then 1 else 0) * f i) = f l.
Proof.
  induction n as [|n IH]; intro H; [lia|]. cbn [sumn].
  destruct (Nat.eq_dec l n) as [->|Hn].
  - rewrite Nat.eqb_refl, sumn_0; [ring|]. intros i Hi.
    destruct (Nat.eqb_spec n i); [lia|ring].
  - rewrite IH by lia. destruct (Nat.eqb_spec l n); [lia|ring].
Qed.
Lemma sumn_nonneg n f : (forall i, (i < n)%nat -> 0 <= f i) -> 0 <= sumn n f.
Proof.
  induction n as [|n IH]; intro H; cbn [sumn]; [lra|].
  pose proof (H n ltac:(lia)). pose proof (IH ltac:(intros i Hi; apply H; lia)). lra.
Qed.
Lemma nrm2_nonneg n x : 0 <= nrm2 n x.
Proof. apply sumn_nonneg. intros i _. nra. Qed.
Lemma nrm2_zero n x : nrm2 n x = 0 -> forall i, (i < n)%nat -> x i = 0.
Proof.
  unfold nrm2. induction n as [|n IH]; intros H i Hi; [lia|]. cbn [sumn] in H.
  assert (0 <= sumn n (fun i => x i * x i)) by (apply sumn_nonneg; intros; nra).
  assert (x n = 0) by nra.
  destruct (Nat.eq_dec i n) as [->|Hn]; [assumption|]. apply IH; [nra|lia].
Qed.

(** ** products in outer-product form *)
Definition odo (k : nat) (U : mat) (d : nat -> R) (V : mat) : mat :=
  fun i j => sumn k (fun l => U i l * d l * V j l).

Lemma mul_diag k U d i l : (l < k)%nat -> mmulm k U (diag d) i l = U i l * d l.
Proof.
  intro H. unfold mmulm, diag.
  rewrite (sumn_ext k _ (fun a => (if Nat.eqb l a then 1 else 0) * (U i a * d a))).
  - now apply sumn_delta.
  - intros a Ha. rewrite Nat.eqb_sym. destruct (Nat.eqb l a); ring.
Qed.
Lemma three_odo k U d V i j : mmulm k (mmulm k U (diag d)) (tr V) i j = odo k U d V i j.
Proof.
  unfold mmulm at 1, odo, tr. apply sumn_ext. intros l Hl. now rewrite mul_diag.
Qed.
Lemma odo_mul k n U d V e W i j :
  mat_eq k k (mmulm n (tr V) V) idm ->
  mmulm n (odo k U d V) (odo k V e W) i j = odo k U (fun l => d l * e l) W i j.
Proof.
  intro HV. unfold mmulm, odo.
  transitivity (sumn k (fun l => sumn k (fun l' => U i l * d l * e l' * W j l' * mmulm n (tr V) V l l'))).
  - transitivity (sumn n (fun a => sumn k (fun l => sumn k (fun l' => U i l * d l * e l' * W j l' * (V a l * V a l'))))).
    + apply sumn_ext. intros a Ha. rewrite <- sumn_scal_r. apply sumn_ext. intros l Hl.
      rewrite <- sumn_scal. apply sumn_ext. intros l' Hl'. ring.
    + rewrite sumn_swap. apply sumn_ext. intros l Hl. rewrite sumn_swap. apply sumn_ext. intros l' Hl'.
      rewrite sumn_scal. reflexivity.
  - apply sumn_ext. intros l Hl.
    rewrite (sumn_ext k _ (fun l' => (if Nat.eqb l l' then 1 else 0) * (U i l * d l * e l' * W j l'))).
    + rewrite sumn_delta by exact Hl. ring.
    + intros l' Hl'. rewrite (HV l l' Hl Hl'). unfold idm. ring.
Qed.
Lemma odo_ext k U d e V i j : (forall l, (l < k)%nat -> d l = e l) -> odo k U d V i j = odo k U e V i j.
Proof. intro H. apply sumn_ext. intros l Hl. now rewrite H. Qed.
Lemma odo_sym k U d i j : odo k U d U i j = odo k U d U j i.
Proof. apply sumn_ext. intros l Hl. ring. Qed.
Lemma mmulm_ext k A A' B B' i j : (forall l, (l < k)%nat -> A i l = A' i l) -> (forall l, (l < k)%nat -> B l j = B' l j) ->
  mmulm k A B i j = mmulm k A' B' i j.
Proof. intros H H'. apply sumn_ext. intros l Hl. now rewrite H, H'. Qed.

(** ** maximum *)
Lemma absMaxCoeff_ge k s i : (i < k)%nat -> Rabs (s i) <= absMaxCoeff k s.
Proof.
  induction k as [|k IH]; intro H; [lia|]. cbn [absMaxCoeff].
  destruct (Nat.eq_dec i k) as [->|Hn]; [apply Rmax_r|].
  apply Rle_trans with (2 := Rmax_l _ _). apply IH. lia.
Qed.
Lemma absMaxCoeff_attained k s : (0 < k)%nat -> exists i, (i < k)%nat /\ absMaxCoeff k s = Rabs (s i).
Proof.
  induction k as [|k IH]; intro H; [lia|]. cbn [absMaxCoeff].
  destruct k as [|k].
  - exists 0%nat. split; [lia|]. cbn. apply Rmax_right. apply Rabs_pos.
  - destruct (IH ltac:(lia)) as [i [Hi Hm]].
    destruct (Rle_dec (absMaxCoeff (S k) s) (Rabs (s (S k)))) as [Hle|Hle].
    + exists (S k). split; [lia|]. now apply Rmax_right.
    + exists i. split; [lia|]. rewrite <- Hm. apply Rmax_left. lra.
Qed.
Lemma absMaxCoeff_nonneg k s : 0 <= absMaxCoeff k s.
Proof. destruct k; cbn [absMaxCoeff]; [lra|]. apply Rle_trans with (2 := Rmax_r _ _). apply Rabs_pos. Qed.

(** ** the Penrose conditions for a pair of outer products *)
Lemma penrose_odo m n k A X U s t V :
  mat_eq k k (mmulm m (tr U) U) idm -> mat_eq k k (mmulm n (tr V) V) idm ->
  mat_eq m n A (odo k U s V) -> mat_eq n m X (odo k V t U) ->
  (forall l, (l < k)%nat -> s l * t l * s l = s l) ->
  (forall l, (l < k)%nat -> t l * s l * t l = t l) ->
  penrose m n A X.
Proof.
  intros HU HV HA HX H1 H2.
  assert (AX : mat_eq m m (mmulm n A X) (odo k U (fun l => s l * t l) U)).
  { intros i j Hi Hj. rewrite <- (odo_mul k n U s V t U i j HV). apply mmulm_ext; intros l Hl; [now apply HA|now apply HX]. }
  assert (XA : mat_eq n n (mmulm m X A) (odo k V (fun l => t l * s l) V)).
  { intros i j Hi Hj. rewrite <- (odo_mul k m V t U s V i j HU). apply mmulm_ext; intros l Hl; [now apply HX|now apply HA]. }
  repeat split.
  - intros i j Hi Hj.
    rewrite (mmulm_ext m _ (odo k U (fun l => s l * t l) U) A (odo k U s V)); [|intros l Hl; now apply AX|intros l Hl; now apply HA].
    rewrite odo_mul by exact HU. rewrite HA by assumption. apply odo_ext. exact H1.
  - intros i j Hi Hj.
    rewrite (mmulm_ext n _ (odo k V (fun l => t l * s l) V) X (odo k V t U)); [|intros l Hl; now apply XA|intros l Hl; now apply HX].
    rewrite odo_mul by exact HV. rewrite HX by assumption. apply odo_ext. exact H2.
  - intros i j Hi Hj. unfold tr. rewrite !AX by assumption. apply odo_sym.
  - intros i j Hi Hj. unfold tr. rewrite !XA by assumption. apply odo_sym.
Qed.

(** ** matrix times vector *)
Lemma mvm_ext n A B x y i : (forall j, (j < n)%nat -> A i j = B i j) -> (forall j, (j < n)%nat -> x j = y j) -> mvm n A x i = mvm n B y i.
Proof. intros H H'. apply sumn_ext. intros j Hj. now rewrite H, H'. Qed.
Lemma mvm_minus n A x y i : mvm n A (fun j => x j - y j) i = mvm n A x i - mvm n A y i.
Proof. unfold mvm. rewrite <- sumn_minus. apply sumn_ext. intros j Hj. ring. Qed.
Lemma mvm_mul k n A B x i : mvm n (mmulm k A B) x i = mvm k A (mvm n B x) i.
Proof.
  unfold mvm, mmulm.
  transitivity (sumn n (fun j => sumn k (fun l => A i l * (B l j * x j)))).
  - apply sumn_ext. intros j Hj. rewrite <- sumn_scal_r. apply sumn_ext. intros l Hl. ring.
  - rewrite sumn_swap. apply sumn_ext. intros l Hl. now rewrite sumn_scal.
Qed.
(** adjoint: <x, A y> = <A^T x, y> *)
Lemma adjoint m n A x y : sumn m (fun i => x i * mvm n A y i) = sumn n (fun j => mvm m (tr A) x j * y j).
Proof.
  unfold mvm, tr.
  transitivity (sumn m (fun i => sumn n (fun j => x i * (A i j * y j)))).
  - apply sumn_ext. intros i Hi. now rewrite sumn_scal.
  - rewrite sumn_swap. apply sumn_ext. intros j Hj. rewrite <- sumn_scal_r. apply sumn_ext. intros i Hi. ring.
Qed.

(** the residual A X b - b is orthogonal to the range of A *)
Lemma residual_orth m n A X b y : penrose m n A X ->
  sumn m (fun i => (mvm n A (mvm m X b) i - b i) * mvm n A y i) = 0.
Proof.
  intros [P1 [P2 [P3 P4]]].
  transitivity (sumn m (fun i => mvm m (mmulm n A X) b i * mvm n A y i) - sumn m (fun i => b i * mvm n A y i)).
  { rewrite <- sumn_minus. apply sumn_ext. intros i Hi. rewrite mvm_mul. ring. }
  assert (E : sumn m (fun i => mvm m (mmulm n A X) b i * mvm n A y i) = sumn m (fun i => b i * mvm n A y i)).
  { transitivity (sumn m (fun i => mvm m (tr (mmulm n A X)) b i * mvm n A y i)).
    - apply sumn_ext. intros i Hi. f_equal. apply mvm_ext; [|reflexivity]. intros j Hj. symmetry. now apply P3.
    - rewrite <- adjoint. apply sumn_ext. intros i Hi. f_equal.
      rewrite <- mvm_mul. apply mvm_ext; [|reflexivity]. intros j Hj. now apply P1. }
  rewrite E. ring.
Qed.

Lemma pythagoras n u v : sumn n (fun i => u i * v i) = 0 ->
  nrm2 n (fun i => u i + v i) = nrm2 n u + nrm2 n v.
Proof.
  intro H. unfold nrm2. rewrite <- sumn_plus.
  transitivity (sumn n (fun i => (u i * u i + v i * v i) + 2 * (u i * v i))).
  - apply sumn_ext. intros i Hi. ring.
  - rewrite sumn_plus, sumn_scal, H. ring.
Qed.
Lemma nrm2_ext n u v : (forall i, (i < n)%nat -> u i = v i) -> nrm2 n u = nrm2 n v.
Proof. intro H. apply sumn_ext. intros i Hi. now rewrite H. Qed.

Lemma least_squares_split m n A X b y : penrose m n A X ->
  nrm2 m (fun i => mvm n A y i - b i) =
  nrm2 m (fun i => mvm n A (mvm m X b) i - b i) + nrm2 m (mvm n A (fun j => y j - mvm m X b j)).
Proof.
  intro P. rewrite <- pythagoras.
  - apply nrm2_ext. intros i Hi. rewrite mvm_minus. ring.
  - exact (residual_orth m n A X b (fun j => y j - mvm m X b j) P).
Qed.
Lemma min_norm_split m n A X b y : penrose m n A X ->
  (forall i, (i < m)%nat -> mvm n A (fun j => y j - mvm m X b j) i = 0) ->
  nrm2 n y = nrm2 n (mvm m X b) + nrm2 n (fun j => y j - mvm m X b j).
Proof.
  intros [P1 [P2 [P3 P4]]] HA.
  rewrite <- pythagoras; [apply nrm2_ext; intros i Hi; ring|].
  change (sumn n (fun i => mvm m X b i * (fun j => y j - mvm m X b j) i) = 0).
  revert HA. generalize (fun j => y j - mvm m X b j). intros d HA.
  transitivity (sumn n (fun i => mvm n (tr (mmulm m X A)) (mvm m X b) i * d i)).
  - apply sumn_ext. intros i Hi. apply (f_equal (fun z => z * d i)).
    transitivity (mvm m (mmulm n (mmulm m X A) X) b i).
    + apply mvm_ext; [|reflexivity]. intros j Hj. symmetry. now apply P2.
    + rewrite (mvm_mul n m (mmulm m X A) X). apply mvm_ext; [|reflexivity]. intros j Hj. symmetry. now apply P4.
  - rewrite <- adjoint. apply sumn_0. intros i Hi. rewrite mvm_mul.
    replace (mvm m X (mvm n A d) i) with 0; [ring|].
    symmetry. apply sumn_0. intros j Hj. rewrite HA by exact Hj. ring.
Qed.

Lemma penrose_min m n A X b y : penrose m n A X ->
  nrm2 m (fun i => mvm n A (mvm m X b) i - b i) <= nrm2 m (fun i => mvm n A y i - b i) /\
  (nrm2 m (fun i => mvm n A y i - b i) = nrm2 m (fun i => mvm n A (mvm m X b) i - b i) ->
     nrm2 n (mvm m X b) <= nrm2 n y /\
     (nrm2 n y = nrm2 n (mvm m X b) -> forall j, (j < n)%nat -> y j = mvm m X b j)).
Proof.
  intro P. pose proof (least_squares_split m n A X b y P) as E.
  pose proof (nrm2_nonneg m (mvm n A (fun j => y j - mvm m X b j))) as Hp.
  split; [lra|]. intro Heq.
  assert (Z : nrm2 m (mvm n A (fun j => y j - mvm m X b j)) = 0) by lra.
  pose proof (min_norm_split m n A X b y P (nrm2_zero _ _ Z)) as E'.
  pose proof (nrm2_nonneg n (fun j => y j - mvm m X b j)) as Hp'.
  split; [lra|]. intros Hn j Hj.
  assert (Z' : nrm2 n (fun j => y j - mvm m X b j) = 0) by lra.
  pose proof (nrm2_zero _ _ Z' j Hj) as Hz. cbn beta in Hz. lra.
Qed.

Lemma penrose_unique m n A X Y : penrose m n A X -> penrose m n A Y -> mat_eq n m X Y.
Proof.
  intros PX PY i j Hi Hj.
  set (b := fun l => if Nat.eqb j l then 1 else 0).
  assert (Q : forall Z i, mvm m Z b i = Z i j).
  { intros Z a. unfold mvm, b. rewrite (sumn_ext m _ (fun l => (if Nat.eqb j l then 1 else 0) * Z a l)) by (intros; ring).
    now apply sumn_delta. }
  destruct (penrose_min m n A X b (mvm m Y b) PX) as [L1 M1].
  destruct (penrose_min m n A Y b (mvm m X b) PY) as [L2 M2].
  destruct M1 as [N1 U1]; [lra|]. destruct M2 as [N2 U2]; [lra|].
  pose proof (U1 ltac:(lra) i Hi) as E. rewrite !Q in E. now symmetry.
Qed.
