(** Rounding errors of floating-point poses. *)
From Coq Require Import Reals ZArith Bool List Permutation Lra Lia Psatz.
From Flocq Require Import IEEE754.BinarySingleNaN Core.Core.
From Verif Require Import Linalg Spec SpecFacts SpecClose CloseFacts ModelCommon ModelEigen FloatModel FloatFacts FloatModulo FloatWrap FloatModel2 SpecFloatQ
  FloatQFacts FloatQProd FloatQHist FloatQRot FloatMHist FloatModel5 SpecPoseF.
Import ListNotations.
Local Open Scope R_scope.

Lemma comp_vnorm v : Rabs (vx v) <= vnorm v /\ Rabs (vy v) <= vnorm v /\ Rabs (vz v) <= vnorm v.
Proof.
  pose proof (vn_nonneg v) as N. pose proof (vnorm_sq v) as S1. unfold vnorm2, vdot in S1.
  repeat split; apply sq_le_le; try exact N; rewrite <- Rabs_mult, Rabs_pos_eq by apply Rle_0_sqr; nra.
Qed.
Lemma vnorm_comp_scale u a b : 0 <= u -> Rabs (vx a) <= u * Rabs (vx b) -> Rabs (vy a) <= u * Rabs (vy b) -> Rabs (vz a) <= u * Rabs (vz b) ->
  vnorm a <= u * vnorm b.
Proof.
  intros U A B C. apply vnorm_le_sq; [apply Rmult_le_pos; [exact U|apply vn_nonneg]|].
  replace (u * vnorm b * (u * vnorm b)) with (u * u * (vnorm b * vnorm b)) by ring. rewrite vnorm_sq.
  apply abs_sq in A. apply abs_sq in B. apply abs_sq in C.
  assert (X : forall x, u * Rabs x * (u * Rabs x) = u * u * (x * x)).
  { intro x. replace (u * Rabs x * (u * Rabs x)) with (u * u * (Rabs x * Rabs x)) by ring. rewrite <- Rabs_mult, Rabs_pos_eq; [reflexivity|apply Rle_0_sqr]. }
  rewrite X in A, B, C. unfold vnorm2, vdot. lra.
Qed.
Lemma big_comp p v : vnorm v <= bpow radix2 100 -> Rabs (vx v) <= fbig p /\ Rabs (vy v) <= fbig p /\ Rabs (vz v) <= fbig p.
Proof. intro H. destruct (comp_vnorm v) as (A & B & C). pose proof (bpow100_fbig p). lra. Qed.

Lemma fvadd_err p (a b : FV p) : vfinite a -> vfinite b -> vnorm (vadd (vval a) (vval b)) <= bpow radix2 100 ->
  vfinite (fvadd a b) /\ vdist (vval (fvadd a b)) (vadd (vval a) (vval b)) <= fu p * vnorm (vadd (vval a) (vval b)).
Proof.
  intros (A0 & A1 & A2) (B0 & B1 & B2) H. destruct (big_comp p _ H) as (X & Y & Z). cbn in X, Y, Z.
  destruct (fadd_R p _ _ A0 B0 X) as [V0 F0]. destruct (fadd_R p _ _ A1 B1 Y) as [V1 F1]. destruct (fadd_R p _ _ A2 B2 Z) as [V2 F2].
  split; [repeat split; assumption|]. apply vnorm_comp_scale; [pose proof (fu_pos p); lra| | |]; cbn; rewrite ?V0, ?V1, ?V2; apply rnd_add_err; apply fmt_B2R.
Qed.
Lemma fvsub_err p (a b : FV p) : vfinite a -> vfinite b -> vnorm (vsub (vval a) (vval b)) <= bpow radix2 100 ->
  vfinite (fvsub a b) /\ vdist (vval (fvsub a b)) (vsub (vval a) (vval b)) <= fu p * vnorm (vsub (vval a) (vval b)).
Proof.
  intros (A0 & A1 & A2) (B0 & B1 & B2) H. destruct (big_comp p _ H) as (X & Y & Z). cbn in X, Y, Z.
  destruct (fsub_R p _ _ A0 B0 X) as [V0 F0]. destruct (fsub_R p _ _ A1 B1 Y) as [V1 F1]. destruct (fsub_R p _ _ A2 B2 Z) as [V2 F2].
  split; [repeat split; assumption|].
  assert (Q : forall x y : fl p, Rabs (rnd p (B2R x - B2R y) - (B2R x - B2R y)) <= fu p * Rabs (B2R x - B2R y)).
  { intros x y. pose proof (rnd_add_err p (B2R x) (- B2R y) (fmt_B2R p _)) as T. unfold Rminus at 2 3 4. apply T. rewrite <- fneg_val. apply fmt_B2R. }
  apply vnorm_comp_scale; [pose proof (fu_pos p); lra| | |]; cbn; rewrite ?V0, ?V1, ?V2; apply Q.
Qed.

(** [f] rotates vectors like [R], up to [r] roundings *)
Definition rot_spec (p : prim) (f : FV p -> FV p) (R1 : M33) (r : R) : Prop :=
  SO3 R1 /\ forall v, vfinite v -> vnorm (vval v) <= bpow radix2 100 ->
    vfinite (f v) /\ vdist (vval (f v)) (mvmul R1 (vval v)) <= fu p * r * vnorm (vval v) + underflow p.
Lemma rot_spec_mono p f R1 r r' : r <= r' -> rot_spec p f R1 r -> rot_spec p f R1 r'.
Proof.
  intros H [S1 P]. split; [exact S1|]. intros v F N. destruct (P v F N) as [A B]. split; [exact A|].
  eapply Rle_trans; [exact B|]. apply Rplus_le_compat_r, Rmult_le_compat_r; [apply vn_nonneg|]. apply Rmult_le_compat_l; [pose proof (fu_pos p); lra|exact H].
Qed.

Lemma hinv_rot p A (q : FQ p) e n k o : 0 <= A <= 50 -> hinv A q e n k -> (k <= n)%nat -> (A + 10) * fu p * (INR k + 1) <= / 50 -> rotorders_ok o ->
  rot_spec p (fquat_rotate (ro_m o) (ro_v o) q) (quat_rot e) (24 + 7 * (A + 10) * (INR n + 1)).
Proof.
  intros HA (F & E & T & N) KN HK [O O']. pose proof (fu_pos p) as U. apply le_INR in KN.
  split; [apply quat_rot_SO3; rewrite <- qnorm_sq, E; ring|]. intros v Fv Hv.
  destruct (fquat_rotate_err p (ro_m o) (ro_v o) q v O O' F Fv ltac:(lra) Hv) as [Fw Ew]. split; [exact Fw|].
  pose proof (Rle_abs (- (qnorm (qval q) - 1))) as X. rewrite Rabs_Ropp in X. assert (P : 0 < qnorm (qval q)) by lra.
  pose proof (turned_close _ _ _ P E T (vval v)) as T'. unfold vdist in *.
  eapply Rle_trans; [apply (vnorm_sub_triang _ (mvmul (quat_rot (direction (qval q))) (vval v)))|].
  pose proof (vn_nonneg (vval v)) as NV.
  assert (NB : Rabs (qnorm (qval q) - 1) <= (A + 10) * fu p * (INR n + 1)).
  { eapply Rle_trans; [exact N|]. apply Rmult_le_compat_l; [apply Rmult_le_pos; lra|lra]. }
  assert (5 * Rabs (qnorm (qval q) - 1) * vnorm (vval v) <= 5 * ((A + 10) * fu p * (INR n + 1)) * vnorm (vval v)) by (apply Rmult_le_compat_r; lra). lra.
Qed.
Lemma minv_rot p A (m : FM p) e n o : 0 <= A -> minv A m e n -> (101 / 100 * A + 12) * fu p * (INR n + 1) <= / 10 -> orders3_ok 3 3 3 o ->
  rot_spec p (fmv o m) e (6 + (101 / 100 * A + 12) * (INR n + 1)).
Proof.
  intros HA (F & S1 & C) HK O. split; [exact S1|]. intros v Fv Hv.
  destruct (fmv_close_err p o m e v _ O F Fv S1 C HK Hv) as [Fr Er]. split; [exact Fr|]. eapply Rle_trans; [exact Er|]. apply Req_le. ring.
Qed.

Lemma underflow_L p L : bpow radix2 (-100) <= L -> 0 <= underflow p <= / 1000 * (fu p * L).
Proof.
  intro H. rewrite underflow_eta. pose proof (eta_u p) as T. pose proof (eta_pos p) as E. pose proof (fu_pos p) as U. split; [lra|].
  assert (X : 32 * bpow radix2 (-126) <= / 1000 * bpow radix2 (-100)).
  { replace (bpow radix2 (-126)) with (bpow radix2 (-100) * bpow radix2 (-26)) by (rewrite <- bpow_plus; reflexivity).
    change (bpow radix2 (-26)) with (/ 67108864). pose proof (bpow_gt_0 radix2 (-100)). lra. }
  assert (Y : fu p * (32 * bpow radix2 (-126)) <= fu p * (/ 1000 * L)) by (apply Rmult_le_compat_l; lra). lra.
Qed.

(** position of a product *)
Lemma pos_product p f R1 r (a b : FV p) ta tb ea eb Na Nb h :
  rot_spec p f R1 r -> 0 <= r -> 0 <= eb -> vfinite a -> vfinite b -> vnorm ta <= Na -> vnorm tb <= Nb -> vdist (vval a) ta <= ea -> vdist (vval b) tb <= eb ->
  underflow p <= h -> Nb + eb <= bpow radix2 100 ->
  let E := ea + eb + fu p * r * (Nb + eb) + h in
  Na + Nb + E <= bpow radix2 100 ->
  vfinite (fvadd a (f b)) /\ vfinite (fvadd (f b) a) /\ vnorm (vadd ta (mvmul R1 tb)) <= Na + Nb /\
  vdist (vval (fvadd a (f b))) (vadd ta (mvmul R1 tb)) <= E + fu p * (Na + Nb + E) /\
  vdist (vval (fvadd (f b) a)) (vadd (mvmul R1 tb) ta) <= E + fu p * (Na + Nb + E).
Proof.
  intros [S1 P] Hr He Fa Fb HNa HNb Da Db Hh HB E HE. pose proof (fu_pos p) as U.
  pose proof (vnorm_le_add _ _ _ Db) as Nb'. assert (B1 : vnorm (vval b) <= Nb + eb) by lra.
  destruct (P b Fb ltac:(lra)) as [Fy Dy].
  assert (Dy' : vdist (vval (f b)) (mvmul R1 (vval b)) <= fu p * r * (Nb + eb) + h).
  { eapply Rle_trans; [exact Dy|]. apply Rplus_le_compat; [|exact Hh]. apply Rmult_le_compat_l; [apply Rmult_le_pos; lra|exact B1]. }
  assert (Dr : vdist (mvmul R1 (vval b)) (mvmul R1 tb) <= eb).
  { unfold vdist in *. replace (vsub (mvmul R1 (vval b)) (mvmul R1 tb)) with (mvmul R1 (vsub (vval b) tb)) by lin. rewrite SO3_vnorm by exact S1. exact Db. }
  assert (S0 : vdist (vadd (vval a) (vval (f b))) (vadd ta (mvmul R1 tb)) <= E).
  { unfold vdist in *. replace (vsub (vadd (vval a) (vval (f b))) (vadd ta (mvmul R1 tb)))
      with (vadd (vsub (vval a) ta) (vsub (vval (f b)) (mvmul R1 tb))) by lin.
    eapply Rle_trans; [apply vnorm_triang|]. pose proof (vnorm_sub_triang (vval (f b)) (mvmul R1 (vval b)) (mvmul R1 tb)). unfold E. lra. }
  assert (N0 : vnorm (vadd ta (mvmul R1 tb)) <= Na + Nb) by (eapply Rle_trans; [apply vnorm_triang|]; rewrite SO3_vnorm by exact S1; lra).
  assert (N1 : vnorm (vadd (vval a) (vval (f b))) <= Na + Nb + E) by (apply vnorm_le_add in S0; lra).
  assert (CM : forall x y, vadd x y = vadd y x) by (intros; lin).
  destruct (fvadd_err p a (f b) Fa Fy ltac:(lra)) as [G1 D1]. destruct (fvadd_err p (f b) a Fy Fa) as [G2 D2]; [rewrite CM; lra|].
  split; [exact G1|]. split; [exact G2|]. split; [exact N0|]. rewrite (CM (mvmul R1 tb) ta). rewrite (CM (vval (f b))) in D2.
  assert (X : fu p * vnorm (vadd (vval a) (vval (f b))) <= fu p * (Na + Nb + E)) by (apply Rmult_le_compat_l; lra).
  unfold vdist in *. split.
  - eapply Rle_trans; [apply (vnorm_sub_triang _ (vadd (vval a) (vval (f b))))|]. lra.
  - eapply Rle_trans; [apply (vnorm_sub_triang _ (vadd (vval a) (vval (f b))))|]. lra.
Qed.

(** ** Arithmetic of the error bounds: [c] roundings per squared length of the history *)
Section Arith.
Context (u L N c s g A : R).
Context (U : 0 < u) (U1 : u <= / 16777216) (HL : 0 < L) (HN : 1 <= N) (Hs : 0 <= s) (Hg : 0 <= g) (HA : 0 <= A)
  (HAu : A * u <= / 10000) (HAc : A + 14 / 10 <= c) (Hc : 11 / 10 * (s + g + 2) <= 2 * c) (Hcu : c * u * N <= / 10).
Lemma cu_small : c * u <= / 10.
Proof. assert (0 <= c * u) by nra. nra. Qed.
Lemma cuN2 : c * u * (N * N) <= N / 10.
Proof. replace (c * u * (N * N)) with (c * u * N * N) by ring. nra. Qed.
Lemma ur_small : u * (s + g * N) <= 2 / 10 /\ u * (s + g) <= 2 / 10.
Proof.
  assert (X : s + g * N <= 2 * c * N) by nra. assert (Y : s + g <= 2 * c * N) by nra.
  assert (u * (s + g * N) <= u * (2 * c * N)) by (apply Rmult_le_compat_l; lra). assert (u * (s + g) <= u * (2 * c * N)) by (apply Rmult_le_compat_l; lra). lra.
Qed.
Lemma arith_right :
  let E := c * u * L * (N * N) + A * u * L + u * (s + g * N) * (L + A * u * L) + / 1000 * (u * L) in
  N * L + L + E <= 2 * ((N + 1) * L) /\ E + u * (N * L + L + E) <= c * u * L * ((N + 1) * (N + 1)).
Proof.
  intro E. set (W := u * L). assert (HW : 0 < W) by (unfold W; nra). pose proof cuN2 as Q. destruct ur_small as [Q1 _].
  assert (gN : 0 <= g * N) by nra.
  set (X := c * (N * N) + A + (s + g * N) * (10001 / 10000) + / 1000).
  assert (EX : E <= W * X).
  { unfold E, X, W. assert (Y : (s + g * N) * (1 + A * u) <= (s + g * N) * (10001 / 10000)) by (apply Rmult_le_compat_l; lra).
    assert (Z : W * ((s + g * N) * (1 + A * u)) <= W * ((s + g * N) * (10001 / 10000))) by (apply Rmult_le_compat_l; lra). unfold W in Z. lra. }
  assert (uX : u * X <= N / 10 + 3 / 10) by (unfold X; lra).
  assert (EL : E <= L * (N / 10 + 3 / 10)).
  { eapply Rle_trans; [exact EX|]. unfold W. replace (u * L * X) with (L * (u * X)) by ring. apply Rmult_le_compat_l; lra. }
  split; [nra|].
  assert (uE : u * E <= W * (N / 10 + 3 / 10)) by (unfold W; replace (u * L * (N / 10 + 3 / 10)) with (u * (L * (N / 10 + 3 / 10))) by ring; apply Rmult_le_compat_l; lra).
  assert (F : X + N + 1 + (N / 10 + 3 / 10) <= c * ((N + 1) * (N + 1))).
  { unfold X. assert (11 / 10 * (s + g + 2) * N <= 2 * c * N) by (apply Rmult_le_compat_r; lra). assert (s <= s * N) by nra. lra. }
  assert (G : W * (X + N + 1 + (N / 10 + 3 / 10)) <= W * (c * ((N + 1) * (N + 1)))) by (apply Rmult_le_compat_l; lra).
  replace (c * u * L * ((N + 1) * (N + 1))) with (W * (c * ((N + 1) * (N + 1)))) by (unfold W; ring).
  replace (E + u * (N * L + L + E)) with (E + W * N + W + u * E) by (unfold W; ring). lra.
Qed.
Lemma arith_left :
  let E := A * u * L + c * u * L * (N * N) + u * (s + g) * (N * L + c * u * L * (N * N)) + / 1000 * (u * L) in
  L + N * L + E <= 2 * ((N + 1) * L) /\ E + u * (L + N * L + E) <= c * u * L * ((N + 1) * (N + 1)).
Proof.
  intro E. set (W := u * L). assert (HW : 0 < W) by (unfold W; nra). pose proof cuN2 as Q. destruct ur_small as [_ Q1].
  set (X := A + c * (N * N) + (s + g) * (11 / 10 * N) + / 1000).
  assert (EX : E <= W * X).
  { unfold E, X, W. assert (Y : (s + g) * (N + c * u * (N * N)) <= (s + g) * (11 / 10 * N)) by (apply Rmult_le_compat_l; lra).
    assert (Z : W * ((s + g) * (N + c * u * (N * N))) <= W * ((s + g) * (11 / 10 * N))) by (apply Rmult_le_compat_l; lra). unfold W in Z. lra. }
  assert (uX : u * X <= 35 / 100 * N + / 10).
  { unfold X. assert (u * ((s + g) * (11 / 10 * N)) <= 2 / 10 * (11 / 10 * N)) by (rewrite <- Rmult_assoc; apply Rmult_le_compat_r; lra). lra. }
  assert (EL : E <= L * (35 / 100 * N + / 10)).
  { eapply Rle_trans; [exact EX|]. unfold W. replace (u * L * X) with (L * (u * X)) by ring. apply Rmult_le_compat_l; lra. }
  split; [nra|].
  assert (uE : u * E <= W * (35 / 100 * N + / 10)) by (unfold W; replace (u * L * (35 / 100 * N + / 10)) with (u * (L * (35 / 100 * N + / 10))) by ring; apply Rmult_le_compat_l; lra).
  assert (F : X + N + 1 + (35 / 100 * N + / 10) <= c * ((N + 1) * (N + 1))).
  { unfold X. assert (11 / 10 * (s + g + 2) * N <= 2 * c * N) by (apply Rmult_le_compat_r; lra). lra. }
  assert (G : W * (X + N + 1 + (35 / 100 * N + / 10)) <= W * (c * ((N + 1) * (N + 1)))) by (apply Rmult_le_compat_l; lra).
  replace (c * u * L * ((N + 1) * (N + 1))) with (W * (c * ((N + 1) * (N + 1)))) by (unfold W; ring).
  replace (E + u * (L + N * L + E)) with (E + W * N + W + u * E) by (unfold W; ring). lra.
Qed.
(** transforming a point of length [X] *)
Lemma arith_transform X : 0 <= X ->
  let E := c * u * L * (N * N) + 0 + u * (s + g * N) * (X + 0) + / 1000 * (u * L) in
  N * L + X + E <= 2 * (N * L + X) /\
  E + u * (N * L + X + E) <= u * ((s + 2 + g * N) * X + (c + 2) * L * (N * N)).
Proof.
  intros HX E. pose proof cuN2 as Q. destruct ur_small as [Q1 _]. assert (gN : 0 <= g * N) by nra.
  assert (E1 : E <= L * (N / 10 + / 1000) + X * (2 / 10)).
  { unfold E. assert (L * (c * u * (N * N)) <= L * (N / 10)) by (apply Rmult_le_compat_l; lra).
    assert (X * (u * (s + g * N)) <= X * (2 / 10)) by (apply Rmult_le_compat_l; lra). assert (u * L <= 1 * L) by (apply Rmult_le_compat_r; lra). lra. }
  assert (NL : L <= N * L) by nra. split; [lra|].
  assert (uE : u * E <= u * (L * (N / 10 + / 1000) + X * (2 / 10))) by (apply Rmult_le_compat_l; lra).
  assert (uL : 0 <= u * L) by nra. assert (uX : 0 <= u * X) by nra.
  assert (N2 : u * L * N <= u * L * (N * N)) by (apply Rmult_le_compat_l; nra). assert (N1 : u * L * 1 <= u * L * N) by (apply Rmult_le_compat_l; nra).
  unfold E in *. lra.
Qed.
Lemma arith_inverse X : 0 <= X ->
  let ed := c * u * L * (N * N) + u * (X + N * L + c * u * L * (N * N)) in
  ed <= N * L + X /\
  ed + u * (s + g * N) * (X + N * L + ed) + / 1000 * (u * L) <= u * ((s + 2 + g * N) * X + 4 * c * L * (N * N)).
Proof.
  intros HX ed. pose proof cuN2 as Q. destruct ur_small as [Q1 _]. assert (gN : 0 <= g * N) by nra.
  assert (NL : L <= N * L) by nra.
  assert (E0 : L * (c * u * (N * N)) <= L * (N / 10)) by (apply Rmult_le_compat_l; lra).
  assert (uX : 0 <= u * X <= / 16777216 * X) by nra. assert (uL : 0 <= u * L <= / 16777216 * L) by nra. assert (uNL : 0 <= u * (N * L) <= / 16777216 * (N * L)) by nra.
  assert (ed0 : ed <= c * u * L * (N * N) + u * X + 11 / 10 * (u * L) * N).
  { unfold ed. assert (u * (L * (c * u * (N * N))) <= u * (L * (N / 10))) by (apply Rmult_le_compat_l; lra). lra. }
  assert (E1 : ed <= L * (N / 10) + 11/10 * / 16777216 * (N * L) + / 16777216 * X) by lra.
  split; [lra|].
  assert (E2 : ed <= (/ 10 + / 1000) * (N * L) + u * X) by lra.
  assert (Y : u * (s + g * N) * (X + N * L + ed) <= u * (s + g * N) * (X + ((11 / 10 + / 1000) * (N * L) + u * X))) by (apply Rmult_le_compat_l; [nra|lra]).
  assert (Y1 : u * (s + g * N) * (u * X) <= 2 / 10 * (u * X)) by (apply Rmult_le_compat_r; lra).
  assert (Y2 : (s + g * N) * N <= (s + g) * (N * N)) by (assert (s * N <= s * (N * N)) by (apply Rmult_le_compat_l; nra); lra).
  assert (Y3 : u * L * ((s + g * N) * N) <= u * L * ((s + g) * (N * N))) by (apply Rmult_le_compat_l; lra).
  assert (N2 : u * L * N <= u * L * (N * N)) by (apply Rmult_le_compat_l; nra). assert (N1 : u * L * 1 <= u * L * N) by (apply Rmult_le_compat_l; nra).
  assert (Z : u * L * (N * N) * ((s + g) * (11 / 10 + / 1000) + 12 / 10) <= u * L * (N * N) * (3 * c)) by (apply Rmult_le_compat_l; [nra|lra]).
  lra.
Qed.
End Arith.

(** ** Histories *)
Definition pos_inv {p} (c L : R) (x : FV p) (t : V3) (n : nat) : Prop :=
  vfinite x /\ vnorm t <= (INR n + 1) * L /\ vdist (vval x) t <= c * fu p * L * ((INR n + 1) * (INR n + 1)).

Section Hist.
Context (p : prim) (c s g A L : R) (HL : bpow radix2 (-100) <= L) (Hs : 0 <= s) (Hg : 0 <= g) (HA : 0 <= A)
  (HAu : A * fu p <= / 10000) (HAc : A + 14 / 10 <= c) (Hc : 11 / 10 * (s + g + 2) <= 2 * c).
Lemma L_pos : 0 < L. Proof. pose proof (bpow_gt_0 radix2 (-100)). lra. Qed.
Lemma uL_pos : 0 < fu p * L. Proof. pose proof L_pos. pose proof (fu_pos p). nra. Qed.
Lemma N_pos n : 1 <= INR n + 1. Proof. pose proof (pos_INR n). lra. Qed.
Lemma err_pos n : 0 <= c * fu p * L * ((INR n + 1) * (INR n + 1)).
Proof. pose proof uL_pos. pose proof (N_pos n) as N. apply Rmult_le_pos; [replace (c * fu p * L) with (c * (fu p * L)) by ring; apply Rmult_le_pos; lra|apply Rmult_le_pos; lra]. Qed.
Lemma aul_pos : 0 <= A * fu p * L.
Proof. pose proof uL_pos. replace (A * fu p * L) with (A * (fu p * L)) by ring. apply Rmult_le_pos; lra. Qed.
Lemma two98 x : x <= bpow radix2 98 -> 2 * x <= bpow radix2 100.
Proof. replace (bpow radix2 100) with (bpow radix2 98 * 4) by (change 4 with (bpow radix2 2); rewrite <- bpow_plus; reflexivity). pose proof (bpow_gt_0 radix2 98). lra. Qed.

Lemma pos_wider (x : FV p) t n : vclose_ok A L x t -> pos_inv c L x t n.
Proof.
  intros (F & N & D). rewrite roundoff_fu in D. pose proof (N_pos n) as Nn. pose proof L_pos as L0. pose proof uL_pos as UL.
  split; [exact F|]. split; [nra|]. eapply Rle_trans; [exact D|].
  assert (1 <= (INR n + 1) * (INR n + 1)) by nra. assert (fu p * L * A <= fu p * L * (c * ((INR n + 1) * (INR n + 1)))) by (apply Rmult_le_compat_l; nra). lra.
Qed.
Lemma pos_keep (x : FV p) t n : pos_inv c L x t n -> pos_inv c L x t (S n).
Proof.
  intros (F & N & D). pose proof (N_pos n) as Nn. pose proof L_pos as L0. pose proof uL_pos as UL. pose proof (pos_INR n).
  split; [exact F|]. rewrite S_INR. split; [nra|]. eapply Rle_trans; [exact D|].
  apply Rmult_le_compat_l; [|nra]. replace (c * fu p * L) with (c * (fu p * L)) by ring. nra.
Qed.
Lemma pos_right f R1 (a b : FV p) ta tb n : rot_spec p f R1 (s + g * (INR n + 1)) -> pos_inv c L a ta n -> vclose_ok A L b tb ->
  c * fu p * (INR n + 1) <= / 10 -> (INR n + 2) * L <= bpow radix2 98 ->
  pos_inv c L (fvadd a (f b)) (vadd ta (mvmul R1 tb)) (S n).
Proof.
  intros RS (Fa & Na & Da) (Fb & Nb & Db) Hcu HB. rewrite roundoff_fu in Db. pose proof (N_pos n) as Nn. pose proof (fu_pos p) as U. pose proof L_pos as L0. pose proof uL_pos as UL.
  destruct (arith_right (fu p) L (INR n + 1) c s g A U (fu_24 p) L0 Nn Hs Hg HA HAu HAc Hc Hcu) as [X Y].
  destruct (underflow_L p L HL) as [_ UF].
  assert (gN : 0 <= g * (INR n + 1)) by nra.
  assert (B2 : 2 * ((INR n + 1 + 1) * L) <= bpow radix2 100) by (apply two98; lra).
  pose proof aul_pos as P1. pose proof (err_pos n) as P2.
  assert (P3 : 0 <= fu p * (s + g * (INR n + 1)) * (L + A * fu p * L)) by (apply Rmult_le_pos; [apply Rmult_le_pos; lra|lra]).
  destruct (pos_product p f R1 _ a b ta tb _ _ _ _ _ RS ltac:(lra) P1 Fa Fb Na Nb Da Db UF) as (F1 & _ & N1 & D1 & _); [assert (0 <= INR n * L) by (apply Rmult_le_pos; lra); lra|lra|].
  split; [exact F1|]. rewrite S_INR. split; [eapply Rle_trans; [exact N1|]; lra|]. eapply Rle_trans; [exact D1|exact Y].
Qed.
Lemma pos_left f R1 (a b : FV p) ta tb n : rot_spec p f R1 (s + g) -> vclose_ok A L a ta -> pos_inv c L b tb n ->
  c * fu p * (INR n + 1) <= / 10 -> (INR n + 2) * L <= bpow radix2 98 ->
  pos_inv c L (fvadd a (f b)) (vadd ta (mvmul R1 tb)) (S n).
Proof.
  intros RS (Fa & Na & Da) (Fb & Nb & Db) Hcu HB. rewrite roundoff_fu in Da. pose proof (N_pos n) as Nn. pose proof (fu_pos p) as U. pose proof L_pos as L0. pose proof uL_pos as UL.
  destruct (arith_left (fu p) L (INR n + 1) c s g A U (fu_24 p) L0 Nn Hs Hg HA HAu HAc Hc Hcu) as [X Y].
  destruct (underflow_L p L HL) as [_ UF].
  assert (B2 : 2 * ((INR n + 1 + 1) * L) <= bpow radix2 100) by (apply two98; lra).
  pose proof aul_pos as P1. pose proof (err_pos n) as P2.
  assert (P3 : 0 <= fu p * (s + g) * ((INR n + 1) * L + c * fu p * L * ((INR n + 1) * (INR n + 1)))) by (apply Rmult_le_pos; [apply Rmult_le_pos; lra|assert (0 <= (INR n + 1) * L) by (apply Rmult_le_pos; lra); lra]).
  destruct (pos_product p f R1 _ a b ta tb _ _ _ _ _ RS ltac:(lra) P2 Fa Fb Na Nb Da Db UF) as (F1 & _ & N1 & D1 & _); [lra|lra|].
  split; [exact F1|]. rewrite S_INR. split; [eapply Rle_trans; [exact N1|]; lra|]. eapply Rle_trans; [exact D1|exact Y].
Qed.
Lemma pos_transform f R1 (a x : FV p) ta n : rot_spec p f R1 (s + g * (INR n + 1)) -> pos_inv c L a ta n -> vfinite x -> vnorm (vval x) <= bpow radix2 98 ->
  c * fu p * (INR n + 1) <= / 10 -> (INR n + 1) * L <= bpow radix2 98 ->
  vfinite (fvadd (f x) a) /\
  vdist (vval (fvadd (f x) a)) (vadd (mvmul R1 (vval x)) ta)
    <= fu p * ((s + 2 + g * (INR n + 1)) * vnorm (vval x) + (c + 2) * L * ((INR n + 1) * (INR n + 1))).
Proof.
  intros RS (Fa & Na & Da) Fx Hx Hcu HB. pose proof (N_pos n) as Nn. pose proof (fu_pos p) as U. pose proof L_pos as L0. pose proof (vn_nonneg (vval x)) as X0.
  destruct (arith_transform (fu p) L (INR n + 1) c s g A U (fu_24 p) L0 Nn Hs Hg HA HAc Hc Hcu (vnorm (vval x)) X0) as [X Y].
  destruct (underflow_L p L HL) as [_ UF].
  assert (gN : 0 <= g * (INR n + 1)) by nra.
  assert (B : bpow radix2 98 + bpow radix2 98 + (bpow radix2 98 + bpow radix2 98) = bpow radix2 100).
  { replace (bpow radix2 100) with (bpow radix2 98 * 4) by (change 4 with (bpow radix2 2); rewrite <- bpow_plus; reflexivity). ring. }
  pose proof (bpow_gt_0 radix2 98) as B0.
  assert (Z : vdist (vval x) (vval x) <= 0) by (unfold vdist, vnorm, vnorm2, vdot, vsub; cbn; right; rewrite <- sqrt_0; f_equal; ring).
  destruct (pos_product p f R1 _ a x ta (vval x) _ 0 _ _ _ RS ltac:(lra) (Rle_refl 0) Fa Fx Na (Rle_refl _) Da Z UF) as (_ & F1 & _ & _ & D1); [lra|lra|].
  split; [exact F1|]. eapply Rle_trans; [exact D1|exact Y].
Qed.
Lemma pos_inverse f R1 (a x : FV p) ta n : rot_spec p f (mtrans R1) (s + g * (INR n + 1)) -> pos_inv c L a ta n -> vfinite x -> vnorm (vval x) <= bpow radix2 98 ->
  c * fu p * (INR n + 1) <= / 10 -> (INR n + 1) * L <= bpow radix2 98 ->
  vfinite (f (fvsub x a)) /\
  vdist (vval (f (fvsub x a))) (mvmul (mtrans R1) (vsub (vval x) ta))
    <= fu p * ((s + 2 + g * (INR n + 1)) * vnorm (vval x) + 4 * c * L * ((INR n + 1) * (INR n + 1))).
Proof.
  intros [S1 RS] (Fa & Na & Da) Fx Hx Hcu HB. pose proof (N_pos n) as Nn. pose proof (fu_pos p) as U. pose proof L_pos as L0. pose proof (vn_nonneg (vval x)) as X0.
  destruct (arith_inverse (fu p) L (INR n + 1) c s g A U (fu_24 p) L0 Nn Hs Hg HA HAc Hc Hcu (vnorm (vval x)) X0) as [X Y].
  set (ea := c * fu p * L * ((INR n + 1) * (INR n + 1))) in *. set (ed := ea + fu p * (vnorm (vval x) + (INR n + 1) * L + ea)) in *. cbv zeta in X, Y.
  destruct (underflow_L p L HL) as [_ UF].
  assert (gN : 0 <= g * (INR n + 1)) by nra.
  assert (B : bpow radix2 98 + bpow radix2 98 + (bpow radix2 98 + bpow radix2 98) = bpow radix2 100).
  { replace (bpow radix2 100) with (bpow radix2 98 * 4) by (change 4 with (bpow radix2 2); rewrite <- bpow_plus; reflexivity). ring. }
  pose proof (bpow_gt_0 radix2 98) as B0.
  assert (Na' : vnorm (vval a) <= (INR n + 1) * L + ea) by (apply vnorm_le_add in Da; lra).
  assert (SB : forall v w, vnorm (vsub v w) <= vnorm v + vnorm w).
  { intros v w. replace (vsub v w) with (vadd v (vneg w)) by lin. eapply Rle_trans; [apply vnorm_triang|]. rewrite vnorm_vneg. lra. }
  assert (Ned : ea <= ed) by (unfold ed; assert (0 <= fu p * (vnorm (vval x) + (INR n + 1) * L + ea)); [apply Rmult_le_pos; [lra|pose proof (vn_nonneg (vsub (vval a) ta)) as Q; unfold vdist in Da; nra]|lra]).
  assert (Nd : vnorm (vsub (vval x) (vval a)) <= vnorm (vval x) + (INR n + 1) * L + ea) by (eapply Rle_trans; [apply SB|]; lra).
  destruct (fvsub_err p x a Fx Fa ltac:(lra)) as [Fd Dd].
  assert (Dd' : vdist (vval (fvsub x a)) (vsub (vval x) ta) <= ed).
  { unfold vdist in *. eapply Rle_trans; [apply (vnorm_sub_triang _ (vsub (vval x) (vval a)))|].
    replace (vsub (vsub (vval x) (vval a)) (vsub (vval x) ta)) with (vneg (vsub (vval a) ta)) by lin. rewrite vnorm_vneg.
    assert (fu p * vnorm (vsub (vval x) (vval a)) <= fu p * (vnorm (vval x) + (INR n + 1) * L + ea)) by (apply Rmult_le_compat_l; lra). unfold ed. lra. }
  assert (Nt : vnorm (vsub (vval x) ta) <= vnorm (vval x) + (INR n + 1) * L) by (eapply Rle_trans; [apply SB|]; lra).
  assert (Nf : vnorm (vval (fvsub x a)) <= vnorm (vval x) + (INR n + 1) * L + ed) by (apply vnorm_le_add in Dd'; lra).
  destruct (RS (fvsub x a) Fd ltac:(lra)) as [Fr Dr]. split; [exact Fr|].
  unfold vdist in *. eapply Rle_trans; [apply (vnorm_sub_triang _ (mvmul (mtrans R1) (vval (fvsub x a))))|].
  replace (vsub (mvmul (mtrans R1) (vval (fvsub x a))) (mvmul (mtrans R1) (vsub (vval x) ta))) with (mvmul (mtrans R1) (vsub (vval (fvsub x a)) (vsub (vval x) ta))) by lin.
  rewrite (SO3_vnorm (mtrans R1)) by exact S1.
  assert (fu p * (s + g * (INR n + 1)) * vnorm (vval (fvsub x a)) <= fu p * (s + g * (INR n + 1)) * (vnorm (vval x) + (INR n + 1) * L + ed)) by (apply Rmult_le_compat_l; [apply Rmult_le_pos; lra|lra]).
  lra.
Qed.
End Hist.
