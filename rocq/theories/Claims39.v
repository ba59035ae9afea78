(** Claims about the pseudoinverse in floating point (C92). *)
From Coq Require Import ZArith Reals Lra Psatz Bool List Lia Permutation.
From Flocq Require Import IEEE754.BinarySingleNaN Core.Core.
From Verif Require Import Linalg Spec SpecFacts ModelCommon FloatModel FloatFacts FloatWrap FloatModel2 SpecFloatQ FloatQFacts FloatQProd FloatModel10 SpecVecF FloatVec FloatVec2 FloatVec4 FloatModel19 SpecPinv PinvFacts SpecMat MatFacts Claims27 Claims28.
Import ListNotations.
Local Open Scope R_scope.

(** rows of the length k of finite numbers of magnitude at most 2 (an orthonormal matrix
    has coefficients of magnitude at most 1, up to rounding) *)
Definition rows_of {p} (k : nat) (A : list (fvec p)) : Prop :=
  Forall (fun r => length r = k /\ all_finite r /\ forall x, In x (values r) -> Rabs x <= 2) A.

(** C92: pseudoInverse always returns true. Singular values above a threshold are
    inverted, all others count as zero; the threshold is epsilon times the larger
    dimension times the largest singular value, up to four roundings, and lies below the
    largest one. Every coefficient of the result is finite and is the one of
    V diag(1/s) U^T over the inverted singular values up to 2.07 k + 1 roundings of the
    sum of the magnitudes of its k terms. *)
Lemma C92_coefficients_lemma : forall (p : prim) (t t' : nat -> nat -> dtree) (epsilon : fl F64) (rows cols : Z) (U : list (fvec p)) (s : fvec p) (V : list (fvec p)) (M : R),
  (forall i j, order (length s) (t i j) /\ order (length s) (t' i j)) ->
  s <> [] -> all_finite s -> rows_of (length s) U -> rows_of (length s) V -> dimension s * roundoff p <= / 100 ->
  is_finite epsilon = true -> bpow radix2 (-900) <= B2R epsilon -> (1 <= Z.max cols rows <= 2 ^ 24)%Z -> B2R epsilon * IZR (Z.max cols rows) <= / 8 ->
  largest (values s) M -> let cut := B2R epsilon * IZR (Z.max cols rows) * M in bpow radix2 (-89) <= cut ->
  fst (fpseudoInverse t t' epsilon rows cols U s V) = true /\
  exists tol, Rabs (tol - cut) <= 4 * roundoff p * cut + underflow p /\ tol < M /\
  forall i j v u, nth_error V i = Some v -> nth_error U j = Some u ->
    let c := snd (fpseudoInverse t t' epsilon rows cols U s V) i j in
    is_finite c = true /\
    Rabs (B2R c - pinv_coefficient tol (values v) (values s) (values u)) <=
      (207/100 * dimension s + 1) * roundoff p * pinv_size tol (values v) (values s) (values u) + dimension s * dimension s * underflow p.
Proof.
  intros p t t' eps rows cols U s V M O Ns Fs HU HV Hn Fe He HN Hp HM cut HC. split; [reflexivity|].
  destruct (tol_ok p eps (Z.max cols rows) s Ns Fs Fe He HN Hp) as (Ft & T0 & TE & TM & _). destruct (fmaxabs_spec p s Ns Fs) as [FM LM].
  assert (EM : B2R (fmaxabs s) = M). { destruct LM as [(x & X1 & X2) X3]. destruct HM as [(y & Y1 & Y2) Y3]. specialize (X3 y Y1). specialize (Y3 x X1). lra. }
  rewrite EM in TE, TM. fold cut in TE. exists (B2R (fpinv_tolerance eps rows cols s)). fold (fpinv_tolerance eps rows cols s) in *. set (tol := fpinv_tolerance eps rows cols s) in *.
  pose proof (eta_pos p) as E0. pose proof (fu_24 p) as U4. pose proof (bpow_gt_0 radix2 (-89)) as P8. rewrite roundoff_fu, underflow_eta in *.
  split; [lra|]. split.
  { apply TM. destruct (Rle_lt_dec M 0) as [Q|Q]; [|exact Q]. assert (cut <= 0); [|lra]. unfold cut. rewrite <- (Rmult_0_r (B2R eps * IZR (Z.max cols rows))). apply Rmult_le_compat_l; [|exact Q].
    pose proof (bpow_gt_0 radix2 (-900)). apply Rmult_le_pos; [lra|]. apply (IZR_le 0). lia. }
  intros i j v u Hi Hj. assert (Nv : nth i V [] = v) by (now apply nth_error_nth). assert (Nu : nth j U [] = u) by (now apply nth_error_nth).
  unfold rows_of in *. rewrite Forall_forall in HU, HV. apply nth_error_In in Hi. apply nth_error_In in Hj. destruct (HV v Hi) as (Lv & Fv & Bv). destruct (HU u Hj) as (Lu & Fu & Bu).
  unfold fpseudoInverse. cbn [snd]. fold tol. rewrite Nv, Nu.
  destruct (pinv_entry p (t i) (t' i j) tol v s u Ns Lv Lu) as [F E]; try assumption; [intro l; apply (O i l)|apply (O i j)| |].
  - intros x _ K. apply Rabs_in in TE. assert (fu p * cut <= / 16777216 * cut) by (apply Rmult_le_compat_r; lra).
    assert (D : bpow radix2 (-89) = 2 * bpow radix2 (-90)) by (change (-89)%Z with (1 + -90)%Z; rewrite bpow_plus; reflexivity).
    assert (eta p <= / 1024 * bpow radix2 (-90)).
    { eapply Rle_trans; [apply eta_tiny|]. change (/ 1024) with (bpow radix2 (-10)). rewrite <- bpow_plus. apply bpow_le. lia. } lra.
  - split; [exact F|]. eapply Rle_trans; [exact E|]. assert (0 <= dimension s * dimension s * eta p); [|lra].
    unfold dimension. pose proof (pos_INR (length s)). apply Rmult_le_pos; [apply Rmult_le_pos|]; lra.
Qed.

(** C92: the pseudoinverse of the zero matrix is zero, exactly *)
Lemma C92_zero_lemma : forall (p : prim) (t t' : nat -> nat -> dtree) (epsilon : fl F64) (rows cols : Z) (U : list (fvec p)) (s : fvec p) (V : list (fvec p)),
  s <> [] -> all_finite s -> Forall all_finite U -> Forall all_finite V -> (forall x, In x (values s) -> x = 0) ->
  is_finite epsilon = true -> bpow radix2 (-900) <= B2R epsilon -> (1 <= Z.max cols rows <= 2 ^ 24)%Z -> B2R epsilon * IZR (Z.max cols rows) <= / 8 ->
  forall i j, is_finite (snd (fpseudoInverse t t' epsilon rows cols U s V) i j) = true /\ B2R (snd (fpseudoInverse t t' epsilon rows cols U s V) i j) = 0.
Proof.
  intros p t t' eps rows cols U s V Ns Fs HU HV Z Fe He HN Hp i j.
  destruct (tol_ok p eps (Z.max cols rows) s Ns Fs Fe He HN Hp) as (Ft & T0 & _ & _ & TZ). destruct (fmaxabs_spec p s Ns Fs) as [FM [(x & X1 & X2) _]].
  rewrite (Z x X1), Rabs_R0 in X2. specialize (TZ (eq_sym X2)). fold (fpinv_tolerance eps rows cols s) in *. unfold fpseudoInverse. cbn [snd]. set (tol := fpinv_tolerance eps rows cols s) in *.
  assert (D : forall l, nth l (fsigmaThin tol s) fzero = fzero).
  { intro l. destruct (Nat.lt_ge_cases l (length s)) as [K|K]; [|apply nth_overflow; now rewrite sigma_length]. rewrite sigma_nth by exact K. unfold fr.
    destruct (fabs_R p (nth l s fzero)) as [A B]. rewrite (nth_finite p s l Fs) in B. rewrite (flt_R p tol _ Ft B), A, TZ, <- nth_values, (Z (nth l (values s) 0)), Rabs_R0; [now rewrite Rlt_bool_false by lra|]. apply nth_In. now rewrite values_length. }
  assert (G : forall (A : list (fvec p)) k, Forall all_finite A -> all_finite (nth k A [])).
  { intros A k H. destruct (nth_in_or_default k A []) as [I|E]; [rewrite Forall_forall in H; now apply H|rewrite E; constructor]. }
  assert (DZ : forall tr (a b : fvec p), all_finite a -> all_finite b -> (forall k, B2R (nth k a fzero) * B2R (nth k b fzero) = 0) -> is_finite (fv_dot tr a b) = true /\ B2R (fv_dot tr a b) = 0).
  { intros tr a b Fa Fb H. unfold fv_dot. destruct a as [|a0 a]; [split; reflexivity|]. unfold fdot, cf. apply feval_zero. intros k _. split; [now apply nth_finite|]. split; [now apply nth_finite|apply H]. }
  assert (CZ : forall l k, nth k (fdiag_column (fsigmaThin tol s) l) fzero = fzero).
  { intros l k. unfold fdiag_column. rewrite D. destruct (nth_in_or_default k (map (fun i : nat => if Nat.eqb i l then fzero else (@fzero p)) (seq 0 (length (fsigmaThin tol s)))) fzero) as [I|E]; [|exact E].
    apply in_map_iff in I. destruct I as (q & <- & _). now destruct (Nat.eqb q l). }
  assert (W : forall x, In x (frow_diag (t i) (nth i V []) (fsigmaThin tol s)) -> is_finite x = true /\ B2R x = 0).
  { intros y I. unfold frow_diag in I. apply in_map_iff in I. destruct I as (l & <- & _). apply DZ; [now apply G| |intro k; rewrite CZ; change (B2R (@fzero p)) with 0; ring].
    apply Forall_forall. intros y I. destruct (In_nth _ y fzero I) as (k & _ & <-). now rewrite CZ. }
  apply DZ; [apply Forall_forall; intros y I; now apply W|now apply G|].
  intro k. destruct (nth_in_or_default k (frow_diag (t i) (nth i V []) (fsigmaThin tol s)) fzero) as [I|E]; [rewrite (proj2 (W _ I)); ring|rewrite E; change (B2R (@fzero p)) with 0; ring].
Qed.

(** C92: the largest singular value is the only protection against overflow. The float
    matrix 2^-149 I has the decomposition U = V = I, s = (2^-149, 2^-149): pseudoInverse
    returns true and a matrix of NaN and infinite coefficients. *)
Definition tiny32 : fl F32 := binary_normalize (fprec F32) (femax F32) _ _ mode_NE 1 (-149) false.
Definition one32 : fl F32 := fofZ F32 1.
Definition eye32 : list (fvec F32) := [[one32; fzero]; [fzero; one32]].
Definition two : nat -> nat -> dtree := fun _ _ => DAdd (DProd 0) (DProd 1).
Lemma C92_overflow_lemma :
  B2R tiny32 = bpow radix2 (-149) /\
  fst (fpseudoInverse two two (fpinv_epsilon F32) 2 2 eye32 [tiny32; tiny32] eye32) = true /\
  is_nan (snd (fpseudoInverse two two (fpinv_epsilon F32) 2 2 eye32 [tiny32; tiny32] eye32) 0%nat 0%nat) = true.
Proof.
  split; [|split]; [|reflexivity|vm_compute; reflexivity]. unfold tiny32. vm_compute. lra.
Qed.

(** the real matrix stored in a list of rows *)
Definition stored {p} (A : list (fvec p)) : mat := fun i l => B2R (nth l (nth i A []) fzero).
Lemma list_sum tol : forall (v s u : list R), length v = length s -> length u = length s ->
  pinv_coefficient tol v s u = sumn (length s) (fun l => nth l v 0 * rr tol (nth l s 0) * nth l u 0).
Proof.
  assert (SH : forall k f, sumn (S k) f = f 0%nat + sumn k (fun l => f (S l))).
  { induction k as [|k IH]; intro f; [cbn; ring|]. cbn [sumn] in *. rewrite IH. ring. }
  induction v as [|x v IH]; intros [|y s] [|z u] L1 L2; try discriminate; [reflexivity|]. cbn [length]. rewrite SH. cbn [nth]. injection L1 as L1. injection L2 as L2. rewrite <- (IH s u L1 L2).
  cbn [pinv_coefficient]. f_equal. unfold rr. destruct (Rlt_dec tol (Rabs y)); unfold Rdiv; ring.
Qed.
(** C92: if U, s, V are a singular value decomposition of A and every nonzero singular
    value is above the threshold, the result is the Moore-Penrose inverse of A up to the
    same bound *)
Lemma C92_penrose_lemma : forall (p : prim) (t t' : nat -> nat -> dtree) (epsilon : fl F64) (A X : mat) (U : list (fvec p)) (s : fvec p) (V : list (fvec p)) (M : R),
  let m := length U in let n := length V in let N := Z.max (Z.of_nat n) (Z.of_nat m) in
  length s = Nat.min m n -> thin_svd m n A (stored U) (fun l => B2R (nth l s fzero)) (stored V) -> penrose m n A X ->
  (forall i j, order (length s) (t i j) /\ order (length s) (t' i j)) ->
  s <> [] -> all_finite s -> rows_of (length s) U -> rows_of (length s) V -> dimension s * roundoff p <= / 100 ->
  is_finite epsilon = true -> bpow radix2 (-900) <= B2R epsilon -> (1 <= N <= 2 ^ 24)%Z -> B2R epsilon * IZR N <= / 8 ->
  largest (values s) M -> let cut := B2R epsilon * IZR N * M in bpow radix2 (-89) <= cut ->
  (forall x, In x (values s) -> x <> 0 -> cut + 4 * roundoff p * cut + underflow p < x) ->
  forall i j v u, nth_error V i = Some v -> nth_error U j = Some u ->
    let c := snd (fpseudoInverse t t' epsilon (Z.of_nat m) (Z.of_nat n) U s V) i j in
    is_finite c = true /\
    Rabs (B2R c - X i j) <= (207/100 * dimension s + 1) * roundoff p * pinv_size 0 (values v) (values s) (values u) + dimension s * dimension s * underflow p.
Proof.
  intros p t t' eps A X U s V M m n N Ls SVD PX O Ns Fs HU HV Hn Fe He HN Hp HM cut HC Gap i j v u Hi Hj.
  destruct (C92_coefficients_lemma p t t' eps (Z.of_nat m) (Z.of_nat n) U s V M O Ns Fs HU HV Hn Fe He HN Hp HM HC) as (_ & tol & TE0 & TM & C).
  assert (TE : Rabs (tol - cut) <= 4 * roundoff p * cut + underflow p) by exact TE0. clear TE0.
  destruct (C i j v u Hi Hj) as [F E]. split; [exact F|].
  pose proof (bpow_gt_0 radix2 (-89)) as P8. pose proof (eta_pos p) as E0. pose proof (fu_24 p) as U4. rewrite roundoff_fu, underflow_eta in *.
  destruct SVD as (SU & SV & SA & S0).
  assert (T0 : 0 <= tol).
  { apply Rabs_in in TE. assert (fu p * cut <= / 16777216 * cut) by (apply Rmult_le_compat_r; lra).
    assert (eta p <= / 1024 * bpow radix2 (-89)).
    { eapply Rle_trans; [apply eta_tiny|]. change (/ 1024) with (bpow radix2 (-10)). rewrite <- bpow_plus. apply bpow_le. lia. } lra. }
  assert (KT : forall x, In x (values s) -> x <> 0 -> tol < Rabs x).
  { intros x I NZ. specialize (Gap x I NZ). apply Rabs_in in TE. pose proof (Rle_abs x). lra. }
  assert (SZ : forall (v u : list R) (l : list R), (forall x, In x l -> x <> 0 -> tol < Rabs x) -> pinv_size tol v l u = pinv_size 0 v l u).
  { induction v0 as [|x v0 IH]; intros u0 l K; [reflexivity|]. destruct l as [|y l]; [reflexivity|]. destruct u0 as [|z u0]; [reflexivity|]. cbn [pinv_size].
    rewrite (IH u0 l) by (intros q Q; apply K; now right). f_equal. destruct (Rlt_dec tol (Rabs y)) as [a|a]; destruct (Rlt_dec 0 (Rabs y)) as [b|b]; try reflexivity; [exfalso; lra|].
    exfalso. apply a, K; [now left|]. intros ->. rewrite Rabs_R0 in b. lra. }
  rewrite (SZ _ _ _ KT) in E. replace (X i j) with (pinv_coefficient tol (values v) (values s) (values u)); [exact E|].
  assert (Nv : nth i V [] = v) by (now apply nth_error_nth). assert (Nu : nth j U [] = u) by (now apply nth_error_nth).
  assert (Bi : (i < n)%nat) by (apply nth_error_Some; congruence). assert (Bj : (j < m)%nat) by (apply nth_error_Some; congruence).
  unfold rows_of in *. rewrite Forall_forall in HU, HV. destruct (HV v (nth_error_In _ _ Hi)) as (Lv & _). destruct (HU u (nth_error_In _ _ Hj)) as (Lu & _).
  rewrite list_sum by (now rewrite !values_length). rewrite values_length.
  assert (PO : penrose m n A (odo (Nat.min m n) (stored V) (fun l => rr tol (B2R (nth l s fzero))) (stored U))).
  { apply (penrose_odo m n (Nat.min m n) A _ (stored U) (fun l => B2R (nth l s fzero)) (fun l => rr tol (B2R (nth l s fzero))) (stored V) SU SV).
    - intros a b Ha Hb. rewrite <- SA by assumption. apply three_odo.
    - intros a b Ha Hb. reflexivity.
    - intros l Hl. rewrite <- nth_values. unfold rr. destruct (Rlt_dec tol (Rabs (nth l (values s) 0))) as [a|a].
      + field. intro Z. rewrite Z, Rabs_R0 in a. lra.
      + assert (Z : nth l (values s) 0 = 0); [|rewrite Z; ring]. destruct (Req_dec (nth l (values s) 0) 0) as [Z|Z]; [exact Z|]. exfalso. apply a, KT; [apply nth_In; rewrite values_length; lia|exact Z].
    - intros l Hl. unfold rr. destruct (Rlt_dec tol (Rabs (B2R (nth l s fzero)))) as [a|a]; [|ring]. field. intro Z. rewrite Z, Rabs_R0 in a. lra. }
  rewrite (penrose_unique m n A X _ PX PO i j Bi Bj). unfold odo. rewrite Ls. apply sumn_ext. intros l Hl. unfold stored. rewrite Nv, Nu, !nth_values. reflexivity.
Qed.

(** the hypotheses are met by the 2 x 2 float matrix diag(4, 0) with U = V = I *)
Definition four32 : fl F32 := fofZ F32 4.
Lemma C92_coefficients_ex : (forall i j, order 2 (two i j)) /\ all_finite [four32; fzero] /\ rows_of 2 eye32 /\ dimension [four32; fzero] * roundoff F32 <= / 100 /\
  is_finite (fpinv_epsilon F32) = true /\ B2R (fpinv_epsilon F32) = bpow radix2 (-23) /\ bpow radix2 (-900) <= B2R (fpinv_epsilon F32) /\ B2R (fpinv_epsilon F32) * IZR (Z.max 2 2) <= / 8 /\
  largest (values [four32; fzero]) 4 /\ bpow radix2 (-89) <= B2R (fpinv_epsilon F32) * IZR (Z.max 2 2) * 4 /\
  B2SF (snd (fpseudoInverse two two (fpinv_epsilon F32) 2 2 eye32 [four32; fzero] eye32) 0%nat 0%nat) = B2SF (flit F32 1 4).
Proof.
  assert (E : B2R (fpinv_epsilon F32) = bpow radix2 (-23)) by (vm_compute; lra).
  assert (Q : B2R four32 = 4) by (vm_compute; lra). assert (Q1 : B2R one32 = 1) by (vm_compute; lra). assert (Q0 : B2R (@fzero F32) = 0) by reflexivity.
  split; [intros; apply Permutation_refl|]. split; [repeat apply Forall_cons; try reflexivity; constructor|].
  split; [repeat apply Forall_cons; [| |constructor]; (split; [reflexivity|]; split; [repeat apply Forall_cons; try reflexivity; constructor|]; unfold values; cbn [map]; rewrite Q1, Q0; intros x [<-|[<-|[]]]; rewrite Rabs_pos_eq; lra)|].
  split; [unfold dimension, roundoff; cbn; lra|]. split; [reflexivity|]. split; [exact E|]. rewrite E.
  split; [apply bpow_le; lia|]. split; [change (bpow radix2 (-23)) with (/ 8388608); cbn; lra|].
  split; [split; [exists 4; split; [left; exact Q|apply Rabs_pos_eq; lra]|unfold values; cbn [map]; rewrite Q, Q0; intros x [<-|[<-|[]]]; rewrite Rabs_pos_eq; lra]|].
  split; [|vm_compute; reflexivity]. replace (bpow radix2 (-23) * IZR (Z.max 2 2) * 4) with (8 * bpow radix2 (-23)) by (cbn; ring). change 8 with (bpow radix2 3). rewrite <- bpow_plus. apply bpow_le. lia.
Qed.
Lemma C92_penrose_ex : let s := fun l => B2R (nth l [four32; fzero] fzero) in
  thin_svd 2 2 (diag s) (stored eye32) s (stored eye32) /\ penrose 2 2 (diag s) (diag (fun l => if Nat.eqb l 0 then / 4 else 0)) /\
  (let cut := B2R (fpinv_epsilon F32) * IZR (Z.max 2 2) * 4 in forall x, In x (values [four32; fzero]) -> x <> 0 -> cut + 4 * roundoff F32 * cut + underflow F32 < x).
Proof.
  assert (E : B2R (fpinv_epsilon F32) = bpow radix2 (-23)) by (vm_compute; lra).
  assert (Q : B2R four32 = 4) by (vm_compute; lra). assert (Q1 : B2R one32 = 1) by (vm_compute; lra). assert (Q0 : B2R (@fzero F32) = 0) by reflexivity.
  cbv zeta. split; [|split].
  - unfold thin_svd, mat_eq, mmulm, tr, stored, diag, idm, eye32. repeat split.
    + intros i j Hi Hj. cbn in Hi, Hj. destruct i as [|[|i]]; destruct j as [|[|j]]; try lia; cbn [length Nat.min sumn nth Nat.eqb]; rewrite ?Q1, ?Q0; ring.
    + intros i j Hi Hj. cbn in Hi, Hj. destruct i as [|[|i]]; destruct j as [|[|j]]; try lia; cbn [length Nat.min sumn nth Nat.eqb]; rewrite ?Q1, ?Q0; ring.
    + intros i j Hi Hj. cbn in Hi, Hj. destruct i as [|[|i]]; destruct j as [|[|j]]; try lia; cbn [length Nat.min sumn nth Nat.eqb]; rewrite ?Q, ?Q1, ?Q0; ring.
    + intros i Hi. cbn in Hi. destruct i as [|[|i]]; try lia; cbn [nth]; rewrite ?Q, ?Q0; lra.
  - unfold penrose, mat_eq, mmulm, tr, diag. repeat split; intros i j Hi Hj; destruct i as [|[|i]]; destruct j as [|[|j]]; try lia; cbn [sumn nth Nat.eqb]; rewrite ?Q, ?Q0; field.
  - rewrite E. intros x I NZ. unfold values in I. cbn [map] in I. rewrite Q, Q0 in I. destruct I as [<-|[<-|[]]]; [|congruence].
    assert (U : underflow F32 <= 1) by (change 1 with (bpow radix2 0); unfold underflow; apply bpow_le; lia). change (bpow radix2 (-23)) with (/ 8388608). unfold roundoff. cbn [Z.max Z.compare Pos.compare Pos.compare_cont]. lra.
Qed.
Lemma C92_zero_ex : all_finite [@fzero F32; fzero] /\ Forall all_finite eye32 /\ (forall x, In x (values [@fzero F32; fzero]) -> x = 0) /\
  B2SF (snd (fpseudoInverse two two (fpinv_epsilon F32) 2 2 eye32 [fzero; fzero] eye32) 1%nat 1%nat) = B2SF (@fzero F32).
Proof.
  split; [repeat apply Forall_cons; try reflexivity; constructor|]. split; [repeat apply Forall_cons; try reflexivity; constructor|].
  split; [unfold values; cbn [map]; intros x [<-|[<-|[]]]; reflexivity|vm_compute; reflexivity].
Qed.
