(** * CommonFacts: proofs about ModelCommon (wrapping, compareRelative) and atan2. *)
From Coq Require Import Reals Lra Psatz Lia Bool.
From Verif Require Import Linalg Spec SpecFacts ModelCommon ModelEigen.
Local Open Scope R_scope.

(** ** Reflection of the boolean comparisons *)
Lemma Rltb_spec a b : reflect (a < b) (Rltb a b).
Proof. unfold Rltb; destruct (Rlt_dec a b); constructor; assumption. Qed.
Lemma Rleb_spec a b : reflect (a <= b) (Rleb a b).
Proof. unfold Rleb; destruct (Rle_dec a b); constructor; assumption. Qed.
Lemma Reqb_spec a b : reflect (a = b) (Reqb a b).
Proof. unfold Reqb; destruct (Req_EM_T a b); constructor; assumption. Qed.

(** ** floatingPointModulo *)
Lemma rfloor_spec x : rfloor x <= x < rfloor x + 1.
Proof. unfold rfloor. destruct (base_Int_part x) as [A B]. lra. Qed.

Lemma mod_spec x y : y <> 0 ->
  exists k : Z, floatingPointModulo x y = x - y * IZR k /\
    ((0 < y /\ 0 <= floatingPointModulo x y < y) \/
     (y < 0 /\ y < floatingPointModulo x y <= 0)).
Proof.
  intros Hy. exists (Int_part (x / y)).
  pose proof (rfloor_spec (x / y)) as F.
  assert (E : x = y * (x / y)) by (field; exact Hy).
  unfold floatingPointModulo, rfloor in *.
  set (n := IZR (Int_part (x / y))) in *. set (t := x / y) in *.
  destruct (Req_EM_T y 0) as [?|_]; [contradiction|].
  cbv zeta.
  destruct (Rlt_dec 0 y) as [Hp|Hp].
  - assert (M : 0 <= x - y * n < y) by (rewrite E; nra).
    destruct (Rle_dec y (x - y * n)); [lra|].
    destruct (Rlt_dec (x - y * n) 0); [lra|].
    split; [reflexivity|]. left; split; [exact Hp|exact M].
  - assert (M : y < x - y * n <= 0) by (rewrite E; nra).
    destruct (Rle_dec (x - y * n) y); [lra|].
    destruct (Rlt_dec 0 (x - y * n)); [lra|].
    split; [reflexivity|]. right; split; [lra|exact M].
Qed.

Lemma mod_zero x : floatingPointModulo x 0 = x.
Proof. unfold floatingPointModulo. destruct (Req_EM_T 0 0); [reflexivity|lra]. Qed.

(** Uniqueness: a value in the half-open period congruent to x is the result. *)
Lemma mod_unique x y r (k : Z) : r = x - y * IZR k ->
  (0 < y /\ 0 <= r < y) \/ (y < 0 /\ y < r <= 0) -> floatingPointModulo x y = r.
Proof.
  intros Er H. assert (Hy : y <> 0) by lra.
  destruct (mod_spec x y Hy) as [j [Ej Hj]].
  set (m := floatingPointModulo x y) in *.
  assert (D : m - r = y * IZR (k - j)) by (rewrite minus_IZR; lra).
  assert (Z0 : (-1 < k - j < 1)%Z).
  { split; apply lt_IZR; destruct H as [[A B]|[A B]]; destruct Hj as [[A' B']|[A' B']]; nra. }
  replace (k - j)%Z with 0%Z in D by lia. simpl in D. lra.
Qed.

(** Specification of wrapping into [lo, lo + period) *)
Lemma wrapAngle_spec a x1 x2 : x1 < x2 ->
  x1 <= wrapAngle a x1 x2 < x2 /\ exists k : Z, wrapAngle a x1 x2 = a - (x2 - x1) * IZR k.
Proof.
  intros H. unfold wrapAngle.
  destruct (mod_spec (a - x1) (x2 - x1)) as [k [E B]]; [lra|].
  split; [lra|]. exists k. rewrite E. ring.
Qed.
Lemma wrapAngle_unique a x1 x2 r (k : Z) : x1 <= r < x2 -> r = a - (x2 - x1) * IZR k ->
  wrapAngle a x1 x2 = r.
Proof.
  intros H E. unfold wrapAngle.
  rewrite (mod_unique _ _ (r - x1) k); [ring| rewrite E; ring | left; lra].
Qed.
Lemma wrapPosNegPI_as a : wrapPosNegPI a = wrapAngle a (- PI) PI.
Proof.
  unfold wrapPosNegPI, wrapAngle.
  replace (a - - PI) with (a + PI) by ring. replace (PI - - PI) with (2 * PI) by ring. ring.
Qed.
Lemma wrapTwoPI_as a : wrapTwoPI a = wrapAngle a 0 (2 * PI).
Proof.
  unfold wrapTwoPI, wrapAngle. rewrite !Rminus_0_r. ring.
Qed.
Lemma wrapPosNegPI_range a : - PI <= wrapPosNegPI a < PI.
Proof. rewrite wrapPosNegPI_as. pose proof PI_RGT_0. apply wrapAngle_spec. lra. Qed.
Lemma wrapPosNegPI_same a : same_angle (wrapPosNegPI a) a.
Proof.
  rewrite wrapPosNegPI_as. pose proof PI_RGT_0.
  destruct (wrapAngle_spec a (-PI) PI) as [_ [k E]]; [lra|].
  exists (-k)%Z. rewrite E, opp_IZR. ring.
Qed.
Lemma wrapPosNegPI_id a : - PI <= a < PI -> wrapPosNegPI a = a.
Proof.
  intros H. rewrite wrapPosNegPI_as. apply (wrapAngle_unique _ _ _ _ 0); [exact H|]. simpl; ring.
Qed.
Lemma wrapTwoPI_range a : 0 <= wrapTwoPI a < 2 * PI.
Proof. rewrite wrapTwoPI_as. pose proof PI_RGT_0. apply wrapAngle_spec. lra. Qed.
Lemma wrapTwoPI_same a : same_angle (wrapTwoPI a) a.
Proof.
  rewrite wrapTwoPI_as. pose proof PI_RGT_0.
  destruct (wrapAngle_spec a 0 (2*PI)) as [_ [k E]]; [lra|].
  exists (-k)%Z. rewrite E, opp_IZR. ring.
Qed.
(** Equal wrapped values iff same angle *)
Lemma wrapPosNegPI_eq a b : wrapPosNegPI a = wrapPosNegPI b <-> same_angle a b.
Proof.
  split; intros H.
  - eapply same_angle_trans; [apply same_angle_sym, wrapPosNegPI_same|]. rewrite H. apply wrapPosNegPI_same.
  - apply (same_angle_range (- PI)).
    + eapply same_angle_trans; [apply wrapPosNegPI_same|].
      eapply same_angle_trans; [exact H|]. apply same_angle_sym, wrapPosNegPI_same.
    + pose proof (wrapPosNegPI_range a); lra.
    + pose proof (wrapPosNegPI_range b); lra.
Qed.

(** ** atan2 *)
Lemma atan_cs t : cos (atan t) > 0 /\ sin (atan t) = t * cos (atan t).
Proof.
  pose proof (atan_bound t) as [A B].
  assert (C : 0 < cos (atan t)) by (apply cos_gt_0; lra).
  split; [lra|].
  pose proof (tan_atan t) as T. unfold tan in T.
  apply (Rmult_eq_compat_r (cos (atan t))) in T.
  unfold Rdiv in T. rewrite Rmult_assoc, Rinv_l, Rmult_1_r in T by lra. exact T.
Qed.
Lemma cos_atan_pos t : cos (atan t) * cos (atan t) * (1 + t * t) = 1.
Proof.
  destruct (atan_cs t) as [A B]. pose proof (sin2_cos2' (atan t)). rewrite B in H. nra.
Qed.

(** [atan2 y x] is the polar angle of the point (x,y). *)
Lemma atan2_polar y x :
  let r := sqrt (x * x + y * y) in
  (x <> 0 \/ y <> 0) ->
  0 < r /\ r * cos (atan2 y x) = x /\ r * sin (atan2 y x) = y.
Proof.
  intros r Hxy.
  assert (Hs : 0 < x * x + y * y) by nra.
  assert (Hr : 0 < r) by (apply sqrt_lt_R0; exact Hs).
  assert (Hrr : r * r = x * x + y * y) by (apply sqrt_sqrt; lra).
  split; [exact Hr|].
  assert (main : x <> 0 -> let t := y / x in
     Rabs x = r * cos (atan t)).
  { intros Hx t. destruct (atan_cs t) as [A B]. pose proof (cos_atan_pos t) as C.
    assert (D : (r * cos (atan t)) * (r * cos (atan t)) = x * x).
    { replace ((r * cos (atan t)) * (r * cos (atan t))) with (r * r * (cos (atan t) * cos (atan t))) by ring.
      rewrite Hrr. replace (x*x+y*y) with (x * x * (1 + t * t)) by (unfold t; field; exact Hx).
      nra. }
    apply Rsqr_inj; [apply Rabs_pos| nra |].
    rewrite <- Rsqr_abs. unfold Rsqr. lra. }
  unfold atan2.
  destruct (Rlt_dec 0 x) as [Hx|Hx].
  - specialize (main ltac:(lra)). cbv zeta in main. rewrite Rabs_right in main by lra.
    destruct (atan_cs (y / x)) as [A B].
    split; [lra|]. rewrite B.
    replace (r * (y / x * cos (atan (y / x)))) with (y / x * (r * cos (atan (y/x)))) by ring.
    rewrite <- main. field. lra.
  - destruct (Rlt_dec x 0) as [Hx'|Hx'].
    + specialize (main ltac:(lra)). cbv zeta in main. rewrite Rabs_left in main by lra.
      destruct (atan_cs (y / x)) as [A B].
      assert (S : r * sin (atan (y/x)) = - y).
      { rewrite B. replace (r * (y / x * cos (atan (y / x)))) with (y / x * (r * cos (atan (y/x)))) by ring.
        rewrite <- main. field. lra. }
      destruct (Rle_dec 0 y).
      * rewrite neg_cos, neg_sin. split; lra.
      * replace (atan (y / x) - PI) with (- (PI - atan (y/x))) by ring.
        rewrite cos_neg, sin_neg, Rtrigo_facts.cos_pi_minus, Rtrigo_facts.sin_pi_minus. split; lra.
    + assert (x = 0) by lra. subst x.
      assert (Ey : r = Rabs y).
      { unfold r. replace (0*0+y*y) with (Rsqr y) by (unfold Rsqr; ring). apply sqrt_Rsqr_abs. }
      destruct (Rlt_dec 0 y).
      * rewrite cos_PI2, sin_PI2, Ey, Rabs_right by lra. split; lra.
      * destruct (Rlt_dec y 0); [|lra].
        rewrite cos_neg, sin_neg, cos_PI2, sin_PI2, Ey, Rabs_left by lra. split; lra.
Qed.

Lemma atan_nonneg t : 0 <= t -> 0 <= atan t.
Proof.
  intros [H| <-]; [|rewrite atan_0; lra]. rewrite <- atan_0. left. apply atan_increasing, H.
Qed.
Lemma atan_nonpos t : t <= 0 -> atan t <= 0.
Proof.
  intros [H| ->]; [|rewrite atan_0; lra]. rewrite <- atan_0. left. apply atan_increasing, H.
Qed.

Lemma div_neg_nonneg a b : 0 <= a -> b < 0 -> a / b <= 0.
Proof. intros. unfold Rdiv. assert (/ b < 0) by (apply Rinv_lt_0_compat; lra). nra. Qed.
Lemma div_neg_neg a b : a < 0 -> b < 0 -> 0 < a / b.
Proof. intros. unfold Rdiv. assert (/ b < 0) by (apply Rinv_lt_0_compat; lra). nra. Qed.
Lemma div_pos_nonneg a b : 0 <= a -> 0 < b -> 0 <= a / b.
Proof. intros. unfold Rdiv. assert (0 < / b) by (apply Rinv_0_lt_compat; lra). nra. Qed.

Lemma atan2_range y x : - PI < atan2 y x <= PI.
Proof.
  unfold atan2. pose proof PI_RGT_0 as P. pose proof (atan_bound (y / x)) as [A B].
  destruct (Rlt_dec 0 x); [lra|].
  destruct (Rlt_dec x 0) as [Hx|Hx].
  - destruct (Rle_dec 0 y) as [Hy|Hy].
    + assert (atan (y/x) <= 0) by (apply atan_nonpos, div_neg_nonneg; lra). lra.
    + assert (0 < atan (y/x)).
      { rewrite <- atan_0. apply atan_increasing, div_neg_neg; lra. }
      lra.
  - destruct (Rlt_dec 0 y); [lra|]. destruct (Rlt_dec y 0); lra.
Qed.
Lemma atan2_nonneg y x : 0 <= y -> 0 <= atan2 y x.
Proof.
  intros Hy. unfold atan2. pose proof PI_RGT_0 as P. pose proof (atan_bound (y / x)) as [A B].
  destruct (Rlt_dec 0 x); [apply atan_nonneg, div_pos_nonneg; lra|].
  destruct (Rlt_dec x 0) as [Hx|Hx].
  - destruct (Rle_dec 0 y); lra.
  - destruct (Rlt_dec 0 y); [lra|]. destruct (Rlt_dec y 0); lra.
Qed.
(** atan2 with a non-negative abscissa: right half plane *)
Lemma atan2_right y x : 0 <= x -> - (PI/2) <= atan2 y x <= PI/2.
Proof.
  intros Hx. unfold atan2. pose proof PI_RGT_0 as P. pose proof (atan_bound (y / x)) as [A B].
  destruct (Rlt_dec 0 x); [lra|].
  destruct (Rlt_dec x 0); [lra|].
  destruct (Rlt_dec 0 y); [lra|]. destruct (Rlt_dec y 0); lra.
Qed.
Lemma atan2_pos y x : 0 < y -> 0 < atan2 y x < PI.
Proof.
  intros Hy.
  destruct (atan2_polar y x) as [R [_ S]]; [right; lra|].
  pose proof (atan2_nonneg y x ltac:(lra)). pose proof (atan2_range y x).
  pose proof (sin_PI) as SP. pose proof sin_0 as S0.
  split.
  - destruct (Req_dec (atan2 y x) 0) as [E|E]; [|lra]. rewrite E, S0 in S. lra.
  - destruct (Req_dec (atan2 y x) PI) as [E|E]; [|lra]. rewrite E, SP in S. lra.
Qed.
(** uniqueness of the polar angle *)
Lemma atan2_unique y x r a : 0 < r -> x = r * cos a -> y = r * sin a -> - PI < a <= PI ->
  atan2 y x = a.
Proof.
  intros Hr Ex Ey Ha.
  assert (N : x <> 0 \/ y <> 0).
  { destruct (Req_dec x 0) as [X|X]; [|left; exact X]. right. intro Y.
    pose proof (sin2_cos2' a). assert (cos a = 0) by nra. assert (sin a = 0) by nra. nra. }
  destruct (atan2_polar y x N) as [R [C S]].
  set (s := sqrt (x*x+y*y)) in *.
  assert (Es : s = r).
  { unfold s. rewrite Ex, Ey.
    replace (r * cos a * (r * cos a) + r * sin a * (r * sin a)) with (Rsqr r).
    - apply sqrt_Rsqr; lra.
    - unfold Rsqr. pose proof (sin2_cos2' a). nra. }
  rewrite Es in C, S. rewrite Ex in C at 2. rewrite Ey in S at 2.
  assert (HC : cos (atan2 y x) = cos a) by nra.
  assert (HS : sin (atan2 y x) = sin a) by nra.
  pose proof (trig_same_angle _ _ HS HC) as T.
  pose proof (atan2_range y x) as Rg. pose proof PI_RGT_0.
  destruct T as [k Hk].
  assert (Hk0 : (-1 < k < 1)%Z) by (split; apply lt_IZR; nra).
  replace k with 0%Z in Hk by lia. simpl in Hk. lra.
Qed.
