(** * FloatSecond2: the entries of the second-order mappings. *)
From Coq Require Import ZArith Reals Lra Psatz Bool List Lia.
From Flocq Require Import IEEE754.BinarySingleNaN Core.Core.
From Verif Require Import Linalg Spec SpecFacts SpecClose ModelCommon ModelEigen CommonFacts CloseFacts ModelDiff
  FloatModel FloatFacts FloatWrap FloatModel2 SpecFloatQ FloatQFacts FloatQProd FloatQHist FloatQRot FloatMHist FloatCast FloatModel3 SpecLibm FloatBuild FloatModel4 FloatBuild4 FloatModel5 FloatPose FloatModel6 FloatMat FloatModel12 FloatDiff2 FloatDiff3 FloatJac FloatJac2 FloatModel15 FloatSecond.
Import ListNotations.
Local Open Scope R_scope.

Section Entries.
Variables (p : prim) (L : libm) (HL : libm_ok L) (o : second_choices) (O : second_ok o).
Variables (x y z : fl p) (d : FV p).
Hypothesis Fx : is_finite x = true.
Hypothesis Fy : is_finite y = true.
Hypothesis Fz : is_finite z = true.
Hypothesis Fd : vfinite d.
Hypothesis HD : vnorm (vval d) <= 1000.
Let D := vnorm (vval d) + bpow radix2 (-100).
Let e := mkXyz (B2R x) (B2R y) (B2R z).
Lemma D_facts : bpow radix2 (-100) <= D <= bpow radix2 10.
Proof. unfold D. pose proof (vn_nonneg (vval d)). split; [lra|]. change (bpow radix2 10) with 1024. assert (bpow radix2 (-100) <= bpow radix2 0) by (apply bpow_le; lia). change (bpow radix2 0) with 1 in H0. lra. Qed.

Section WithK.
Variable K : R.
Hypothesis K1 : 1 <= K.
Hypothesis KU : K * fu p <= / 1000.
Lemma rates_ap : ap p K 0 D (gx d) (vx (vval d)) /\ ap p K 0 D (gy d) (vy (vval d)) /\ ap p K 0 D (gz d) (vz (vval d)).
Proof.
  destruct Fd as (A & B & C). destruct (vcomp_le (vval d)) as (X & Y & Z). pose proof (bpow_gt_0 radix2 (-100)). unfold D.
  split; [|split]; apply ap_exact; try assumption; unfold vval in *; cbn [vx vy vz] in *; lra.
Qed.
Lemma trig_ap : (ap p K 2 1 (lsin L p x) (sin (B2R x)) /\ ap p K 2 1 (lcos L p x) (cos (B2R x))) /\ (ap p K 2 1 (lsin L p y) (sin (B2R y)) /\ ap p K 2 1 (lcos L p y) (cos (B2R y))) /\
  (ap p K 2 1 (lsin L p z) (sin (B2R z)) /\ ap p K 2 1 (lcos L p z) (cos (B2R z))).
Proof.
  split; [split|split; split]; apply ap_trig; try assumption; try (apply lsin_ok; assumption); try (apply lcos_ok; assumption); try apply sin_abs1; apply cos_abs1.
Qed.
Lemma apm c1 c2 c B1 B2 B a b u v : ap p K c1 B1 a u -> ap p K c2 B2 b v -> 0 <= c1 <= 50 -> 0 <= c2 <= 50 -> 0 <= B1 -> 0 <= B2 -> B1 * B2 = B -> bpow radix2 (-100) <= B <= bpow radix2 99 ->
  c1 + c2 + c1 * c2 / 1000 + (1 + c1 / 1000) * (1 + c2 / 1000) + / 1000 <= c -> ap p K c B (fmul a b) (u * v).
Proof. intros H1 H2 C1 C2 P1 P2 E PB HC. rewrite <- E in *. apply (ap_mul p K K1 KU c1 c2); assumption. Qed.
Lemma ap_of c B (a : fl p) u : approximates (c * (K * fu p * B)) a u -> Rabs u <= B -> ap p K c B a u.
Proof. intros [F E] H. split; [exact F|]. split; [exact H|]. rewrite <- Rmult_assoc in E. exact E. Qed.
Lemma ap_to c c' B (a : fl p) u : ap p K c B a u -> c <= c' -> 0 <= B -> approximates (c' * (K * fu p * B)) a u.
Proof.
  intros (F & _ & E) H HB. split; [exact F|]. eapply Rle_trans; [exact E|]. rewrite Rmult_assoc. apply Rmult_le_compat_r; [|exact H]. pose proof (fu_pos p). apply Rmult_le_pos; [apply Rmult_le_pos; lra|exact HB].
Qed.
Lemma zero_to c B : 0 <= c -> 0 <= B -> approximates (c * (K * fu p * B)) (@fzero p) 0.
Proof. intros HC HB. apply (approx_mono p 0); [|apply approx_zero]. pose proof (fu_pos p). apply Rmult_le_pos; [exact HC|]. apply Rmult_le_pos; [apply Rmult_le_pos; lra|exact HB]. Qed.
Lemma ap_wider c B B' (a : fl p) u : ap p K c B a u -> 0 <= c -> B <= B' -> ap p K c B' a u.
Proof.
  intros (F & X & E) HC HB. split; [exact F|]. split; [lra|]. eapply Rle_trans; [exact E|]. apply Rmult_le_compat_l; [|exact HB]. pose proof (fu_pos p). apply Rmult_le_pos; [exact HC|apply Rmult_le_pos; lra].
Qed.
End WithK.

(** the forward mappings *)
Lemma one_u : 1 * fu p <= / 1000.
Proof. pose proof (fu_24 p). lra. Qed.
Lemma approx_eq c (a : fl p) u v : u = v -> approximates c a u -> approximates c a v.
Proof. intros ->. exact (fun H => H). Qed.
Ltac sides D0 D1 := try (pose proof D0; pose proof D1; lra).
Lemma second_to_local_ok : every (approximates (141/10 * (1 * fu p * D))) (fxyz_second_to_local L o x y z d) (xyz_second_to_local (vval d) e).
Proof.
  destruct O as (O1 & O2 & _). destruct D_facts as [DL DH]. pose proof (bpow_gt_0 radix2 (-100)) as D0.
  assert (D9 : bpow radix2 10 <= bpow radix2 99) by (apply bpow_le; lia).
  pose proof one_u as KU. pose proof (Rle_refl 1) as K1.
  destruct (rates_ap 1) as (_ & Ry & Rz). destruct (trig_ap 1 K1 KU) as (_ & (Sy & Cy) & (Sz & Cz)).
  set (dy := vy (vval d)) in *. set (dz := vz (vval d)) in *.
  assert (DB : bpow radix2 (-100) <= D <= bpow radix2 99) by lra.
  assert (m : forall (r t : fl p) u v, ap p 1 0 D r u -> ap p 1 2 1 t v -> ap p 1 (301/100) D (fmul r t) (u * v)).
  { intros r t u v A B. apply (apm 1 K1 KU 0 2 _ D 1); try assumption; lra. }
  assert (s : forall (t : dtree) a b f g ua ub uf ug, order 2 t -> ap p 1 (301/100) D a ua -> ap p 1 2 1 b ub -> ap p 1 (301/100) D f uf -> ap p 1 2 1 g ug ->
    approximates (141/10 * (1 * fu p * D)) (fdot t [a; f] [b; g]) (ua * ub + uf * ug)).
  { intros t a b f g ua ub uf ug Ot A B F G. apply (ap_dot2 p 1 K1 KU t (301/100) 2 (301/100) 2 _ D 1 D 1); try assumption; lra. }
  assert (w : forall a u, ap p 1 (301/100) D a u -> approximates (141/10 * (1 * fu p * D)) a u) by (intros a u A; apply (ap_to 1 K1 (301/100)); [exact A|lra|lra]).
  assert (q : approximates (141/10 * (1 * fu p * D)) (@fzero p) 0) by (apply zero_to; lra).
  unfold every, fxyz_second_to_local, xyz_second_to_local, e. cbn [r0 r1 r2 gx gy gz m00 m01 m02 m10 m11 m12 m20 m21 m22 xroll xpitch xyaw]. fold dy dz.
  split; [split; [|split]|split; [split; [|split]|split; [|split]]]; try exact q.
  - eapply approx_eq; [|apply (s _ _ _ _ _ (- dy * cos (B2R z)) (sin (B2R y)) (- (dz * cos (B2R y))) (sin (B2R z))); [exact O1| |exact Sy| |exact Sz]]; [ring|apply m; [apply ap_neg; exact Ry|exact Cz]|apply ap_neg, m; assumption].
  - apply w, m; assumption.
  - eapply approx_eq; [|apply (s _ _ _ _ _ (dy * sin (B2R y)) (sin (B2R z)) (- (dz * cos (B2R z))) (cos (B2R y))); [exact O2| |exact Sz| |exact Cy]]; [ring|apply m; assumption|apply ap_neg, m; assumption].
  - apply w, m; [apply ap_neg; exact Rz|exact Sz].
  - apply w, m; assumption.
Qed.
Lemma second_to_global_ok : every (approximates (141/10 * (1 * fu p * D))) (fxyz_second_to_global L o x y z d) (xyz_second_to_global (vval d) e).
Proof.
  destruct O as (O1 & O2 & _). destruct D_facts as [DL DH]. pose proof (bpow_gt_0 radix2 (-100)) as D0.
  assert (D9 : bpow radix2 10 <= bpow radix2 99) by (apply bpow_le; lia).
  pose proof one_u as KU. pose proof (Rle_refl 1) as K1.
  destruct (rates_ap 1) as (Rx & Ry & _). destruct (trig_ap 1 K1 KU) as ((Sx & Cx) & (Sy & Cy) & _).
  set (dx := vx (vval d)) in *. set (dy := vy (vval d)) in *.
  assert (DB : bpow radix2 (-100) <= D <= bpow radix2 99) by lra.
  assert (m : forall (r t : fl p) u v, ap p 1 0 D r u -> ap p 1 2 1 t v -> ap p 1 (301/100) D (fmul r t) (u * v)).
  { intros r t u v A B. apply (apm 1 K1 KU 0 2 _ D 1); try assumption; lra. }
  assert (s : forall (t : dtree) a b f g ua ub uf ug, order 2 t -> ap p 1 (301/100) D a ua -> ap p 1 2 1 b ub -> ap p 1 (301/100) D f uf -> ap p 1 2 1 g ug ->
    approximates (141/10 * (1 * fu p * D)) (fdot t [a; f] [b; g]) (ua * ub + uf * ug)).
  { intros t a b f g ua ub uf ug Ot A B F G. apply (ap_dot2 p 1 K1 KU t (301/100) 2 (301/100) 2 _ D 1 D 1); try assumption; lra. }
  assert (w : forall a u, ap p 1 (301/100) D a u -> approximates (141/10 * (1 * fu p * D)) a u) by (intros a u A; apply (ap_to 1 K1 (301/100)); [exact A|lra|lra]).
  assert (q : approximates (141/10 * (1 * fu p * D)) (@fzero p) 0) by (apply zero_to; lra).
  unfold every, fxyz_second_to_global, xyz_second_to_global, e. cbn [r0 r1 r2 gx gy gz m00 m01 m02 m10 m11 m12 m20 m21 m22 xroll xpitch xyaw]. fold dx dy.
  split; [split; [|split]|split; [split; [|split]|split; [|split]]]; try exact q.
  - apply w, m; assumption.
  - apply w, m; [apply ap_neg; exact Rx|exact Sx].
  - apply (s _ _ _ _ _ (- dx * cos (B2R y)) (cos (B2R x)) (dy * sin (B2R x)) (sin (B2R y))); [exact O1| |exact Cx| |exact Sy]; apply m; try assumption; apply ap_neg; exact Rx.
  - apply w, m; assumption.
  - eapply approx_eq; [|apply (s _ _ _ _ _ (- dx * cos (B2R y)) (sin (B2R x)) (- (dy * cos (B2R x))) (sin (B2R y))); [exact O2| |exact Sx| |exact Sy]]; [ring|apply m; [apply ap_neg; exact Rx|exact Cy]|apply ap_neg, m; assumption].
Qed.

(** the inverse mappings *)
Section Inverse.
Hypothesis HC : 1000 * fu p <= Rabs (cos (B2R y)).
Let K := / Rabs (cos (B2R y)).
Let DK := D * K.
Let DKK := D * (K * K).
Lemma K_all : 1 <= K /\ K * fu p <= / 1000 /\ cos (B2R y) <> 0 /\ 1 <= K * K /\ (bpow radix2 (-100) <= DK <= bpow radix2 99) /\ (bpow radix2 (-100) <= DKK <= bpow radix2 99) /\ K <= K * K /\ DK <= DKK /\ D <= DK.
Proof.
  pose proof (cos_abs1 (B2R y)) as C1. pose proof (fu_pos p) as U. set (c := Rabs (cos (B2R y))) in *.
  assert (M : c * K = 1) by (unfold K; field; lra).
  assert (K1 : 1 <= K) by (apply Rmult_le_reg_l with c; lra).
  assert (KU : K * fu p <= / 1000). { apply Rmult_le_reg_l with (1000 * c); [lra|]. replace (1000 * c * (K * fu p)) with ((c * K) * (1000 * fu p)) by ring. rewrite M. lra. }
  destruct (K_big p K K1 KU) as [B1 B2]. destruct D_facts as [DL DH]. pose proof (bpow_gt_0 radix2 (-100)) as D0.
  assert (KK : K <= K * K) by (rewrite <- (Rmult_1_r K) at 1; apply Rmult_le_compat_l; lra).
  assert (Q1 : D <= DK) by (unfold DK; rewrite <- (Rmult_1_r D) at 1; apply Rmult_le_compat_l; lra).
  assert (Q2 : DK <= DKK) by (unfold DK, DKK; apply Rmult_le_compat_l; lra).
  assert (Q3 : DKK <= bpow radix2 99). { apply Rle_trans with (bpow radix2 10 * bpow radix2 88); [unfold DKK; apply Rmult_le_compat; lra|]. rewrite <- bpow_plus. apply bpow_le. lia. }
  split; [exact K1|]. split; [exact KU|]. split; [intro E; unfold c in *; rewrite E, Rabs_R0 in HC; lra|]. repeat split; lra.
Qed.
(** the sums in parentheses, t + t*s*s/(c*c) = t/(c*c) *)
Lemma inner_bound t : Rabs t <= 1 -> Rabs (1 * t + t * (1 / (cos (B2R y) * cos (B2R y))) * (sin (B2R y) * sin (B2R y))) <= K * K.
Proof.
  intro T. destruct K_all as (K1 & _ & N & K2 & _). pose proof (trig1 (B2R y)) as P. set (c := cos (B2R y)) in *. set (s := sin (B2R y)) in *.
  assert (cc : 0 < c * c) by (apply Rsqr_pos_lt; exact N).
  replace (1 * t + t * (1 / (c * c)) * (s * s)) with (t * / (c * c)).
  - rewrite Rabs_mult, Rabs_inv, Rabs_mult, Rinv_mult. fold K. rewrite <- (Rmult_1_l (K * K)) at 2. apply Rmult_le_compat_r; lra.
  - replace (s * s) with (1 - c * c) by lra. field. exact N.
Qed.
Lemma all_ap : let c := cos (B2R y) in
  feq (lcos L p y) fzero = false /\ ap p K (42/10) K (frecip (lcos L p y)) (1 / c) /\ ap p K (72/10) (K * K) (frecip (fmul (lcos L p y) (lcos L p y))) (1 / (c * c)) /\ ap p K (502/100) 1 (fmul (lsin L p y) (lsin L p y)) (sin (B2R y) * sin (B2R y)).
Proof.
  cbv zeta. destruct K_all as (K1 & KU & N & K2 & _). pose proof (lcos_ok p L HL y Fy) as A. destruct (trig_ap K K1 KU) as (_ & (Sy & _) & _).
  destruct (ap_recip p K K1 KU _ _ A eq_refl) as [Z R]. split; [exact Z|]. split; [exact R|]. split; [exact (ap_recip2 p K K1 KU _ _ A eq_refl)|].
  assert (bpow radix2 (-100) <= bpow radix2 0) by (apply bpow_le; lia). assert (bpow radix2 0 <= bpow radix2 99) by (apply bpow_le; lia). change (bpow radix2 0) with 1 in *.
  apply (apm K K1 KU 2 2 _ 1 1); try assumption; lra.
Qed.
Let P := K * fu p * DKK.
Lemma local_to_second_ok : exists m, fxyz_local_to_second L o x y z d = Some m /\ exists n, xyz_local_to_second (vval d) e = Val n /\ every (approximates (36 * P)) m n.
Proof.
  destruct O as (O1 & O2 & O3 & O4 & O5 & O6). destruct K_all as (K1 & KU & N & KK1 & BK & BKK & KK & Q2 & Q1). destruct all_ap as (Z & T3 & T5 & T8).
  destruct D_facts as [DL DH]. pose proof (bpow_gt_0 radix2 (-100)) as D0. destruct (K_big p K K1 KU) as [_ KB]. assert (B8 : bpow radix2 88 <= bpow radix2 99) by (apply bpow_le; lia).
  assert (B0 : bpow radix2 (-100) <= bpow radix2 0) by (apply bpow_le; lia). change (bpow radix2 0) with 1 in B0.
  unfold fxyz_local_to_second, xyz_local_to_second, e. cbn [xroll xpitch xyaw]. rewrite Z. destruct (Req_EM_T (cos (B2R y)) 0) as [E|_]; [contradiction|].
  eexists. split; [reflexivity|]. eexists. split; [reflexivity|].
  destruct (rates_ap K) as (_ & Ry & Rz). destruct (trig_ap K K1 KU) as (_ & (Sy & Cy) & (Sz & Cz)).
  pose proof (inner_bound (cos (B2R z)) (cos_abs1 (B2R z))) as I1. pose proof (inner_bound (sin (B2R z)) (sin_abs1 (B2R z))) as I2.
  set (dy := vy (vval d)) in *. set (dz := vz (vval d)) in *. set (cy := cos (B2R y)) in *. set (sy := sin (B2R y)) in *. set (cz := cos (B2R z)) in *. set (sz := sin (B2R z)) in *.
  set (t3 := frecip (lcos L p y)) in *. set (t5 := frecip (fmul (lcos L p y) (lcos L p y))) in *. set (t8 := fmul (lsin L p y) (lsin L p y)) in *.
  assert (DB : bpow radix2 (-100) <= D <= bpow radix2 99) by lra.
  assert (KKB : bpow radix2 (-100) <= K * K <= bpow radix2 99) by lra.
  assert (q : approximates (36 * P) (@fzero p) 0) by (apply zero_to; lra).
  assert (w : forall a u, ap p K (301/100) D a u -> approximates (36 * P) a u) by (intros a u A; apply (ap_to K K1 (301/100)); [apply (ap_wider K K1 _ D); [exact A|lra|lra]|lra|lra]).
  assert (m1 : forall (r t : fl p) u v, ap p K 0 D r u -> ap p K 2 1 t v -> ap p K (301/100) D (fmul r t) (u * v)) by (intros r t u v A B; apply (apm K K1 KU 0 2 _ D 1); try assumption; lra).
  assert (m3 : forall (r : fl p) u, ap p K 0 D r u -> ap p K (521/100) DK (fmul r t3) (u * (1 / cy))) by (intros r u A; apply (apm K K1 KU 0 (42/10) _ D K); try assumption; try reflexivity; lra).
  assert (T5' : forall (t : fl p) v, ap p K 2 1 t v -> ap p K (1023/100) (K * K) (fmul t t5) (v * (1 / (cy * cy))) /\ ap p K (1023/100) (K * K) (fmul t5 t) (1 / (cy * cy) * v)).
  { intros t v A. split; [apply (apm K K1 KU 2 (72/10) _ 1 (K * K))|apply (apm K K1 KU (72/10) 2 _ (K * K) 1)]; try assumption; lra. }
  assert (in1 : forall (t : dtree) (f g : fl p) u v, order 2 t -> ap p K 2 1 f u -> ap p K (1023/100) (K * K) g v -> v = u * (1 / (cy * cy)) -> Rabs u <= 1 -> Rabs (1 * u + v * (sy * sy)) <= K * K ->
     ap p K (214/10) (K * K) (fdot t [fofZ p 1; g] [f; t8]) (1 * u + v * (sy * sy))).
  { intros t f g u v Ot A B E U IB. apply ap_of; [|exact IB]. apply (ap_dot2 p K K1 KU t 0 2 (1023/100) (502/100) _ 1 1 (K * K) 1); try assumption; try lra. apply ap_one. }
  pose proof (in1 (sc4 o) _ _ _ _ O4 Cz (proj1 (T5' _ _ Cz)) eq_refl (cos_abs1 _) I1) as IN1.
  pose proof (in1 (sc6 o) _ _ _ _ O6 Sz (proj2 (T5' _ _ Sz)) (Rmult_comm _ _) (sin_abs1 _) ltac:(rewrite (Rmult_comm (1 / (cy * cy))); exact I2)) as IN2. clear in1.
  unfold every. cbn [r0 r1 r2 gx gy gz m00 m01 m02 m10 m11 m12 m20 m21 m22].
  split; [split; [|split]|split; [split; [|split]|split; [|split]]]; try exact q.
  - eapply approx_eq; [|apply (ap_dot2 p K K1 KU (sc1 o) (521/100) 2 (113/10) 2 36 DK 1 DKK 1 DKK _ _ _ _ (- dz * (1 / cy)) sz (dy * cz * (1 / (cy * cy))) sy O1); try lra]; [ring|apply m3, ap_neg, Rz|exact Sz| |exact Sy].
    apply (apm K K1 KU (301/100) (72/10) _ D (K * K)); [apply m1; assumption|exact T5| | | | |reflexivity| |]; lra.
  - eapply approx_eq; [|apply (ap_dot2 p K K1 KU (sc2 o) (521/100) 2 (113/10) 2 36 DK 1 DKK 1 DKK _ _ _ _ (- dz * (1 / cy)) cz (- (dy * (1 / (cy * cy)) * sy)) sz O2); try lra]; [ring|apply m3, ap_neg, Rz|exact Cz| |exact Sz].
    apply ap_neg. apply (apm K K1 KU (821/100) 2 _ DKK 1); [|exact Sy| | | | | | |]; try lra. apply (apm K K1 KU 0 (72/10) _ D (K * K)); try assumption; try reflexivity; lra.
  - apply w, m1; assumption.
  - apply w, m1; [apply ap_neg, Rz|assumption].
  - eapply approx_eq; [|apply (ap_dot2 p K K1 KU (sc3 o) 0 (214/10) (823/100) 2 36 D (K * K) DK 1 DKK _ _ _ _ (- dy) (1 * cz + cz * (1 / (cy * cy)) * (sy * sy)) (dz * (1 / cy) * sy) sz O3); try lra]; [ring|apply ap_neg, Ry|exact IN1| |exact Sz|right; reflexivity].
    apply (apm K K1 KU (521/100) 2 _ DK 1); [apply m3, Rz|exact Sy| | | | | | |]; lra.
  - eapply approx_eq; [|apply (ap_dot2 p K K1 KU (sc5 o) 0 (214/10) (823/100) 2 36 D (K * K) DK 1 DKK _ _ _ _ dy (1 * sz + (1 / (cy * cy)) * sz * (sy * sy)) (dz * (1 / cy) * cz) sy O5); try lra]; [ring|exact Ry|exact IN2| |exact Sy|right; reflexivity].
    apply (apm K K1 KU (521/100) 2 _ DK 1); [apply m3, Rz|exact Cz| | | | | | |]; lra.
Qed.
Lemma global_to_second_ok : exists m, fxyz_global_to_second L o x y z d = Some m /\ exists n, xyz_global_to_second (vval d) e = Val n /\ every (approximates (36 * P)) m n.
Proof.
  destruct O as (O1 & O2 & O3 & O4 & O5 & O6). destruct K_all as (K1 & KU & N & KK1 & BK & BKK & KK & Q2 & Q1). destruct all_ap as (Z & T3 & T5 & T8).
  destruct D_facts as [DL DH]. pose proof (bpow_gt_0 radix2 (-100)) as D0. destruct (K_big p K K1 KU) as [_ KB]. assert (B8 : bpow radix2 88 <= bpow radix2 99) by (apply bpow_le; lia).
  assert (B0 : bpow radix2 (-100) <= bpow radix2 0) by (apply bpow_le; lia). change (bpow radix2 0) with 1 in B0.
  unfold fxyz_global_to_second, xyz_global_to_second, e. cbn [xroll xpitch xyaw]. rewrite Z. destruct (Req_EM_T (cos (B2R y)) 0) as [E|_]; [contradiction|].
  eexists. split; [reflexivity|]. eexists. split; [reflexivity|].
  destruct (rates_ap K) as (Rx & Ry & _). destruct (trig_ap K K1 KU) as ((Sx & Cx) & (Sy & Cy) & _).
  pose proof (inner_bound (cos (B2R x)) (cos_abs1 (B2R x))) as I1. pose proof (inner_bound (sin (B2R x)) (sin_abs1 (B2R x))) as I2.
  set (dy := vy (vval d)) in *. set (dx := vx (vval d)) in *. set (cy := cos (B2R y)) in *. set (sy := sin (B2R y)) in *. set (cx := cos (B2R x)) in *. set (sx := sin (B2R x)) in *.
  set (t3 := frecip (lcos L p y)) in *. set (t5 := frecip (fmul (lcos L p y) (lcos L p y))) in *. set (t8 := fmul (lsin L p y) (lsin L p y)) in *.
  assert (DB : bpow radix2 (-100) <= D <= bpow radix2 99) by lra.
  assert (KKB : bpow radix2 (-100) <= K * K <= bpow radix2 99) by lra.
  assert (q : approximates (36 * P) (@fzero p) 0) by (apply zero_to; lra).
  assert (w : forall a u, ap p K (301/100) D a u -> approximates (36 * P) a u) by (intros a u A; apply (ap_to K K1 (301/100)); [apply (ap_wider K K1 _ D); [exact A|lra|lra]|lra|lra]).
  assert (m1 : forall (r t : fl p) u v, ap p K 0 D r u -> ap p K 2 1 t v -> ap p K (301/100) D (fmul r t) (u * v)) by (intros r t u v A B; apply (apm K K1 KU 0 2 _ D 1); try assumption; lra).
  assert (m2 : forall (r t : fl p) u v, ap p K (301/100) D r u -> ap p K 2 1 t v -> ap p K (604/100) D (fmul r t) (u * v)) by (intros r t u v A B; apply (apm K K1 KU (301/100) 2 _ D 1); try assumption; lra).
  assert (T5' : forall (t : fl p) v, ap p K 2 1 t v -> ap p K (1023/100) (K * K) (fmul t t5) (v * (1 / (cy * cy)))) by (intros t v A; apply (apm K K1 KU 2 (72/10) _ 1 (K * K)); try assumption; lra).
  assert (in1 : forall (t : dtree) (f : fl p) u, order 2 t -> ap p K 2 1 f u -> Rabs (1 * u + u * (1 / (cy * cy)) * (sy * sy)) <= K * K ->
     ap p K (214/10) (K * K) (fdot t [fofZ p 1; fmul f t5] [f; t8]) (1 * u + u * (1 / (cy * cy)) * (sy * sy))).
  { intros t f u Ot A IB. apply ap_of; [|exact IB]. apply (ap_dot2 p K K1 KU t 0 2 (1023/100) (502/100) _ 1 1 (K * K) 1); try assumption; try lra; [apply ap_one|apply T5'; exact A]. }
  pose proof (in1 (sc2 o) _ _ O2 Sx I2) as IN1. pose proof (in1 (sc4 o) _ _ O4 Cx I1) as IN2. clear in1.
  unfold every. cbn [r0 r1 r2 gx gy gz m00 m01 m02 m10 m11 m12 m20 m21 m22].
  split; [split; [|split]|split; [split; [|split]|split; [|split]]]; try exact q.
  - eapply approx_eq; [|apply (ap_dot2 p K K1 KU (sc1 o) 0 (214/10) (604/100) (42/10) 36 D (K * K) D K DKK _ _ _ _ dy (1 * sx + sx * (1 / (cy * cy)) * (sy * sy)) (dx * sy * cx) (1 / cy) O1); try lra]; [ring|exact Ry|exact IN1| |exact T3|right; reflexivity|exact Q2].
    apply m2; [apply m1|]; assumption.
  - eapply approx_eq; [|apply (ap_dot2 p K K1 KU (sc3 o) 0 (214/10) (604/100) (42/10) 36 D (K * K) D K DKK _ _ _ _ (- dy) (1 * cx + cx * (1 / (cy * cy)) * (sy * sy)) (dx * sx * sy) (1 / cy) O3); try lra]; [ring|apply ap_neg, Ry|exact IN2| |exact T3|right; reflexivity|exact Q2].
    apply m2; [apply m1|]; assumption.
  - apply w, m1; [apply ap_neg, Rx|assumption].
  - apply w, m1; assumption.
  - eapply approx_eq; [|apply (ap_dot2 p K K1 KU (sc5 o) (301/100) (42/10) (604/100) (72/10) 36 D K D (K * K) DKK _ _ _ _ (- dx * cx) (1 / cy) (- (dy * sx * sy)) (1 / (cy * cy)) O5); try lra]; [ring|apply m1; [apply ap_neg, Rx|exact Cx]|exact T3| |exact T5|exact Q2|right; reflexivity].
    apply ap_neg, m2; [apply m1|]; assumption.
  - eapply approx_eq; [|apply (ap_dot2 p K K1 KU (sc6 o) (301/100) (42/10) (604/100) (72/10) 36 D K D (K * K) DKK _ _ _ _ (- dx * sx) (1 / cy) (dy * sy * cx) (1 / (cy * cy)) O6); try lra]; [ring|apply m1; [apply ap_neg, Rx|exact Sx]|exact T3| |exact T5|exact Q2|right; reflexivity].
    apply m2; [apply m1|]; assumption.
Qed.
End Inverse.
End Entries.
