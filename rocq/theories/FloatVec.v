(** Lemmas about floating-point vectors: commutativity bit by bit, comparisons with
    infinities, maxima, isSimilarTo. *)
From Coq Require Import ZArith Reals Lra Psatz Bool List Lia Permutation.
From Flocq Require Import IEEE754.BinarySingleNaN Core.Core Calc.Operations.
From Verif Require Import ModelCommon FloatModel FloatFacts FloatModel2 FloatModel10 SpecVecF.
Import ListNotations.
Local Open Scope R_scope.

(** ** Commutativity *)
Lemma fadd_comm p (a b : fl p) : fadd a b = fadd b a.
Proof.
  unfold fadd. destruct a as [sa|sa| |sa ma ea Ha], b as [sb|sb| |sb mb eb Hb]; try reflexivity.
  - destruct sa, sb; reflexivity.
  - destruct sa, sb; reflexivity.
  - cbn [Bplus]. rewrite (Z.min_comm ea eb). f_equal. unfold Fplus_naive. apply Z.add_comm.
Qed.
Lemma fmul_comm p (a b : fl p) : fmul a b = fmul b a.
Proof.
  unfold fmul. destruct a as [sa|sa| |sa ma ea Ha], b as [sb|sb| |sb mb eb Hb]; try reflexivity;
    try (cbn [Bmult]; rewrite xorb_comm; reflexivity).
  cbn [Bmult]. apply B2SF_inj. rewrite !B2SF_SF2B. cbn zeta. now rewrite (xorb_comm sa sb), (Pos.mul_comm ma mb), (Z.add_comm ea eb).
Qed.
Lemma ffma_comm p (a b c : fl p) : ffma a b c = ffma b a c.
Proof.
  unfold ffma. destruct a as [sa|sa| |sa ma ea Ha], b as [sb|sb| |sb mb eb Hb]; try reflexivity;
    try (cbn [Bfma]; unfold Bfma_szero; cbn [Bsign]; rewrite ?(xorb_comm sa sb); destruct c; reflexivity).
  cbn [Bfma]. unfold Bfma_szero. cbn [Bsign]. rewrite (xorb_comm sa sb). destruct c as [sc|sc| |sc mc ec Hc]; try reflexivity.
  - cbn [Fmult]. rewrite (Z.mul_comm (cond_Zopp sa _)), (Z.add_comm ea eb). reflexivity.
  - assert (E : Fmult (Float radix2 (cond_Zopp sa (Z.pos ma)) ea) (Float radix2 (cond_Zopp sb (Z.pos mb)) eb) =
                Fmult (Float radix2 (cond_Zopp sb (Z.pos mb)) eb) (Float radix2 (cond_Zopp sa (Z.pos ma)) ea)).
    { cbn [Fmult]. f_equal; ring. }
    rewrite E. reflexivity.
Qed.
Lemma fzip_comm p (f : fl p -> fl p -> fl p) (a b : fvec p) : (forall x y, f x y = f y x) -> fzip f a b = fzip f b a.
Proof. intro H. revert b. induction a as [|x a IH]; intros [|y b]; cbn; try reflexivity. rewrite H. f_equal. apply IH. Qed.
Lemma feval_comm p (t : dtree) (a b : nat -> fl p) : feval t a b = feval t b a.
Proof. induction t as [i|l IHl r IHr|i t IH]; cbn [feval]; [apply fmul_comm|now rewrite IHl, IHr|rewrite IH; apply ffma_comm]. Qed.
Lemma fdot_comm p (t : dtree) (a b : fvec p) : fdot t a b = fdot t b a.
Proof. apply feval_comm. Qed.

(** ** Coefficients *)
Lemma fzip_length p f (a b : fvec p) : length a = length b -> length (fzip f a b) = length a.
Proof. revert b. induction a as [|x a IH]; intros [|y b] L; cbn in *; try lia. rewrite IH; lia. Qed.
Lemma fzip_nth p f (a b : fvec p) i x y : nth_error a i = Some x -> nth_error b i = Some y -> nth_error (fzip f a b) i = Some (f x y).
Proof. revert b i. induction a as [|x' a IH]; intros [|y' b] [|i]; cbn; try discriminate; intros; [congruence|]. now apply IH. Qed.
Lemma all_nth p (a : fvec p) i x : all_finite a -> nth_error a i = Some x -> is_finite x = true.
Proof. intros F E. eapply Forall_forall in F; [exact F|]. eapply nth_error_In; exact E. Qed.
Lemma values_nth p (a : fvec p) i x : nth_error a i = Some x -> nth_error (values a) i = Some (B2R x).
Proof. intro E. unfold values. now apply map_nth_error. Qed.

(** ** The value of a float that is not NaN, the infinities beyond every number *)
Definition ext {p} (x : fl p) : R :=
  match x with B754_infinity s => if s then - bpow radix2 (femax p) else bpow radix2 (femax p) | _ => B2R x end.
Lemma ext_fin p (x : fl p) : is_finite x = true -> ext x = B2R x.
Proof. destruct x; cbn; congruence. Qed.
Lemma fin_bound p (x : fl p) : is_finite x = true -> Rabs (B2R x) < bpow radix2 (femax p).
Proof. intros _. apply abs_B2R_lt_emax. Qed.
Lemma flt_ext p (x y : fl p) : is_nan x = false -> is_nan y = false -> flt x y = Rlt_bool (ext x) (ext y).
Proof.
  intros Nx Ny. pose proof (bpow_gt_0 radix2 (femax p)) as P.
  destruct (is_finite x) eqn:Fx; destruct (is_finite y) eqn:Fy.
  - rewrite !ext_fin by assumption. now apply flt_R.
  - pose proof (fin_bound p x Fx) as B. apply Rabs_lt_inv in B. rewrite (ext_fin p x Fx). destruct y as [s|[|]| |s m e H]; cbn [is_finite is_nan] in *; try discriminate; cbn [ext];
      [rewrite Rlt_bool_false by lra|rewrite Rlt_bool_true by lra]; destruct x as [sx|[|]| |[|] mx ex Hx]; try discriminate; reflexivity.
  - pose proof (fin_bound p y Fy) as B. apply Rabs_lt_inv in B. rewrite (ext_fin p y Fy). destruct x as [s|[|]| |s m e H]; cbn [is_finite is_nan] in *; try discriminate; cbn [ext];
      [rewrite Rlt_bool_true by lra|rewrite Rlt_bool_false by lra]; destruct y as [sx|[|]| |[|] mx ex Hx]; try discriminate; reflexivity.
  - destruct x as [s|[|]| |s m e H]; try discriminate; destruct y as [s'|[|]| |s' m' e' H']; try discriminate; cbn [ext];
      first [rewrite Rlt_bool_false by lra; reflexivity|rewrite Rlt_bool_true by lra; reflexivity].
Qed.

(** ** Maxima and minima of coefficients that are not NaN *)
Lemma fmax_ext p (x y : fl p) : is_nan x = false -> is_nan y = false -> is_nan (fmax x y) = false /\ ext (fmax x y) = Rmax (ext x) (ext y) /\ (fmax x y = x \/ fmax x y = y).
Proof.
  intros Nx Ny. unfold fmax. rewrite (flt_ext p x y Nx Ny). destruct (Rlt_bool_spec (ext x) (ext y)); repeat split; auto; [rewrite Rmax_right by lra|rewrite Rmax_left by lra]; reflexivity.
Qed.
Lemma fmin_ext p (x y : fl p) : is_nan x = false -> is_nan y = false -> is_nan (fmin x y) = false /\ ext (fmin x y) = Rmin (ext x) (ext y) /\ (fmin x y = x \/ fmin x y = y).
Proof.
  intros Nx Ny. unfold fmin. rewrite (flt_ext p y x Ny Nx). destruct (Rlt_bool_spec (ext y) (ext x)); repeat split; auto; [rewrite Rmin_right by lra|rewrite Rmin_left by lra]; reflexivity.
Qed.
Lemma freduce_max p (t : sumtree) (c : nat -> fl p) : (forall i, In i (leaves t) -> is_nan (c i) = false) ->
  is_nan (freduce fmax t c) = false /\ (exists i, In i (leaves t) /\ freduce fmax t c = c i) /\ (forall i, In i (leaves t) -> ext (c i) <= ext (freduce fmax t c)).
Proof.
  induction t as [i|l IHl r IHr]; intro H; cbn [leaves freduce] in *.
  - repeat split; [apply H; now left|exists i; split; [now left|reflexivity]|]. intros j [<-|[]]. apply Rle_refl.
  - destruct IHl as (Nl & (i & Hi & Ei) & Ml); [intros; apply H, in_or_app; auto|]. destruct IHr as (Nr & (j & Hj & Ej) & Mr); [intros; apply H, in_or_app; auto|].
    destruct (fmax_ext p _ _ Nl Nr) as (N & E & D). split; [exact N|]. split.
    + destruct D as [-> | ->]; [exists i|exists j]; split; try assumption; apply in_or_app; auto.
    + intros k Hk. rewrite E. apply in_app_or in Hk. destruct Hk as [Hk|Hk]; [eapply Rle_trans; [apply Ml; exact Hk|apply Rmax_l]|eapply Rle_trans; [apply Mr; exact Hk|apply Rmax_r]].
Qed.
Lemma freduce_min p (t : sumtree) (c : nat -> fl p) : (forall i, In i (leaves t) -> is_nan (c i) = false) ->
  is_nan (freduce fmin t c) = false /\ (exists i, In i (leaves t) /\ freduce fmin t c = c i) /\ (forall i, In i (leaves t) -> ext (freduce fmin t c) <= ext (c i)).
Proof.
  induction t as [i|l IHl r IHr]; intro H; cbn [leaves freduce] in *.
  - repeat split; [apply H; now left|exists i; split; [now left|reflexivity]|]. intros j [<-|[]]. apply Rle_refl.
  - destruct IHl as (Nl & (i & Hi & Ei) & Ml); [intros; apply H, in_or_app; auto|]. destruct IHr as (Nr & (j & Hj & Ej) & Mr); [intros; apply H, in_or_app; auto|].
    destruct (fmin_ext p _ _ Nl Nr) as (N & E & D). split; [exact N|]. split.
    + destruct D as [-> | ->]; [exists i|exists j]; split; try assumption; apply in_or_app; auto.
    + intros k Hk. rewrite E. apply in_app_or in Hk. destruct Hk as [Hk|Hk]; [eapply Rle_trans; [apply Rmin_l|apply Ml; exact Hk]|eapply Rle_trans; [apply Rmin_r|apply Mr; exact Hk]].
Qed.
Lemma sum_order_in n t i : sum_order n t -> (In i (leaves t) <-> (i < n)%nat).
Proof.
  intro O. split; intro H.
  - apply (Permutation_in i O) in H. apply in_seq in H. lia.
  - apply (Permutation_in i (Permutation_sym O)). apply in_seq. lia.
Qed.
Lemma fv_max_spec p (t : sumtree) (a : fvec p) : sum_order (length a) t -> Forall (fun x => is_nan x = false) a ->
  In (fv_max t a) a /\ (forall x, In x a -> ext x <= ext (fv_max t a)).
Proof.
  intros O F. rewrite Forall_forall in F. destruct (freduce_max p t (cf fzero a)) as (N & (i & Hi & E) & M).
  { intros i Hi. apply F. unfold cf. apply nth_In. now apply (sum_order_in _ t). }
  split.
  - unfold fv_max. rewrite E. unfold cf. apply nth_In. now apply (sum_order_in _ t).
  - intros x Hx. apply In_nth with (d := fzero) in Hx. destruct Hx as (j & Hj & <-). unfold fv_max. apply (M j). now apply (sum_order_in (length a) t).
Qed.
Lemma fv_min_spec p (t : sumtree) (a : fvec p) : sum_order (length a) t -> Forall (fun x => is_nan x = false) a ->
  In (fv_min t a) a /\ (forall x, In x a -> ext (fv_min t a) <= ext x).
Proof.
  intros O F. rewrite Forall_forall in F. destruct (freduce_min p t (cf fzero a)) as (N & (i & Hi & E) & M).
  { intros i Hi. apply F. unfold cf. apply nth_In. now apply (sum_order_in _ t). }
  split.
  - unfold fv_min. rewrite E. unfold cf. apply nth_In. now apply (sum_order_in _ t).
  - intros x Hx. apply In_nth with (d := fzero) in Hx. destruct Hx as (j & Hj & <-). unfold fv_min. apply (M j). now apply (sum_order_in (length a) t).
Qed.

(** ** Differences, overflow included *)
Lemma fsub_abs_ext p (x y : fl p) : is_finite x = true -> is_finite y = true ->
  is_nan (fabs (fsub x y)) = false /\
  (ext (fabs (fsub x y)) = Rabs (rnd p (B2R x - B2R y)) \/
   (ext (fabs (fsub x y)) = bpow radix2 (femax p) /\ bpow radix2 (femax p) <= Rabs (rnd p (B2R x - B2R y)))).
Proof.
  intros Fx Fy. pose proof (Bminus_correct (fprec p) (femax p) _ _ mode_NE x y Fx Fy) as H.
  change (round radix2 (SpecFloat.fexp (fprec p) (femax p)) (round_mode mode_NE) (B2R x - B2R y)) with (rnd p (B2R x - B2R y)) in H.
  fold (fsub x y) in H. destruct (Rlt_bool_spec (Rabs (rnd p (B2R x - B2R y))) (bpow radix2 (femax p))) as [L|L].
  - destruct H as (R & F & _). assert (Fa : is_finite (fabs (fsub x y)) = true) by (rewrite (proj2 (fabs_R p _)); exact F).
    split; [destruct (fabs (fsub x y)); cbn in *; congruence|]. left. rewrite ext_fin by exact Fa. rewrite (proj1 (fabs_R p _)), R. reflexivity.
  - destruct H as (H & _). assert (E : exists s, fsub x y = B754_infinity s).
    { destruct (fsub x y) as [s|s| |s m e B]; cbn in H; try discriminate H. exists s. reflexivity. }
    destruct E as [s ->]. split; [reflexivity|]. right. split; [reflexivity|exact L].
Qed.
Lemma fmt_abs p x : ffmt p x -> ffmt p (Rabs x).
Proof. intro F. unfold Rabs. destruct (Rcase_abs x); [now apply fmt_opp|exact F]. Qed.
Lemma rnd_Rabs p x : rnd p (Rabs x) = Rabs (rnd p x).
Proof.
  unfold Rabs at 1. destruct (Rcase_abs x) as [H|H].
  - rewrite rnd_opp. rewrite Rabs_left1; [reflexivity|]. rewrite <- (rnd_0 p). apply rnd_le. lra.
  - rewrite Rabs_pos_eq; [reflexivity|]. rewrite <- (rnd_0 p). apply rnd_le. lra.
Qed.
