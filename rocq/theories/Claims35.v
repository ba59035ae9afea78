(** Claims about integrating angular velocities in floating-point arithmetic (C88). *)
From Coq Require Import ZArith Reals Lra Psatz Bool List Lia Permutation.
From Flocq Require Import IEEE754.BinarySingleNaN Core.Core.
From Verif Require Import Linalg Spec SpecFacts SpecClose SpecDiff ModelCommon ModelEigen CommonFacts CloseFacts ModelRotation RVFacts RotFacts DerivFacts JacFacts MotionFacts
  FloatModel FloatFacts FloatWrap FloatModel2 SpecFloatQ FloatQFacts FloatQProd FloatQHist FloatQRot FloatMHist FloatCast FloatModel3 SpecLibm SpecBuild FloatBuild FloatBuild4 FloatModel4 FloatExt3 SpecExt FloatModel6 FloatModel7 SpecSix FloatSix FloatFix FloatModel8 SpecBox FloatBox Claims16 Claims18 Claims19 Claims22 SpecMotion.
Import ListNotations.
Local Open Scope R_scope.

(** ** One step of a quaternion and of a matrix object *)
Lemma quat_T p T T' A (x : fobject p) r : okind_of x = KQuat \/ okind_of x = KMat -> stands T A x r -> stands T' A x r.
Proof. destruct x as [q|m|s]; cbn [stands okind_of]; try tauto. intros [H|H]; discriminate H. Qed.
Definition gain (k : okind) : R := match k with KMat => 394 | _ => 43 end.
Definition slip (k : okind) : R := match k with KMat => 0 | _ => 88 end.
Lemma float_step p L c (body : bool) (x : fobject p) r A v : libm_ok L -> choices6_ok c -> okind_of x = KQuat \/ okind_of x = KMat ->
  stands (64/10) A x r -> SO3 r -> 0 <= A -> A * fu p <= / 100 -> vfinite v -> vnorm (vval v) <= 64/10 ->
  let y := if body then oproduct L c x (fexp L c (okind_of x) v) else fbox_plus L c x v in
  okind_of y = okind_of x /\ exists r' B, B <= A + gain (okind_of x) /\ stands (64/10) B y r' /\ close (slip (okind_of x) * fu p) r' (advance body (vval v) r).
Proof.
  intros HL HC K H S A0 AU Fv Hv. cbv zeta. pose proof (fu_pos p) as U. pose proof (fu_24 p) as V.
  assert (PL : prod_limit p (okind_of x) (okind_of x) (conv_defect (KSrc SRv) (okind_of x) 0) A /\ prod_limit p (okind_of x) (okind_of x) A (conv_defect (KSrc SRv) (okind_of x) 0)).
  { pose proof (Rmin_r (166/5) A) as M1. pose proof (Rmin_l A (166/5)) as M2. assert (M1' : Rmin (166/5) A * fu p <= A * fu p) by (apply Rmult_le_compat_r; lra). assert (M2' : Rmin A (166/5) * fu p <= A * fu p) by (apply Rmult_le_compat_r; lra).
    destruct K as [-> | ->]; cbn [prod_limit conv_limit conv_defect]; unfold qprod_defect, qjoint; cbn [conv_defect]; rewrite ?roundoff_fu; repeat split; lra. }
  assert (OV : object_ok (64/10) (SrcRv v)) by (split; assumption).
  assert (SV : stands (64/10) 0 (OSrc (SrcRv v)) (turns (SrcRv v))) by (split; [exact OV|reflexivity]).
  assert (S1 : SO3 (turns (SrcRv v))) by apply vec_rot_SO3.
  destruct body.
  - assert (CV : conv_limit p (KSrc SRv) (okind_of x) 0) by (destruct (okind_of x); exact I).
    destruct (oconvert_ok p L c (okind_of x) (64/10) 0 (OSrc (SrcRv v)) _ HL HC ltac:(lra) SV CV) as (K1 & re & He & Ce). fold (fexp L c (okind_of x) v) in K1, He. cbn [okind_of skind_of] in He, Ce.
    destruct PL as [_ LIM]. rewrite <- K1 in LIM at 2.
    assert (Se : SO3 re). { apply (stands_SO3 _ _ _ _ _ He). intros Q. rewrite K1 in Q. rewrite Q. cbn [conv_defect]. lra. }
    assert (Kf : okind_of (fexp L c (okind_of x) v) = KQuat \/ okind_of (fexp L c (okind_of x) v) = KMat) by (rewrite K1; exact K).
    destruct (oproduct_ok p L c (64/10) A _ x (fexp L c (okind_of x) v) r re HL HC ltac:(lra) H (quat_T _ _ (64/10) _ _ _ Kf He) LIM S Se) as (K2 & r' & H' & C').
    split; [exact K2|]. rewrite K1 in *. exists r', (prod_defect (okind_of x) (okind_of x) A (conv_defect (KSrc SRv) (okind_of x) 0)). split; [|split].
    + pose proof (Rmin_r A (166/5)). pose proof (Rmin_r A 380). destruct K as [-> | ->]; cbn [prod_defect conv_defect gain]; unfold qprod_defect, qjoint, joint; cbn [conv_defect]; lra.
    + eapply quat_T; [|exact H']. rewrite K2. exact K.
    + unfold advance. eapply close_mono; [|eapply close_trans; [exact C'|apply close_mul_l; [exact S|exact Ce]]].
      destruct K as [-> | ->]; cbn [prod_error conv_error conv_roundings conv_drop slip]; unfold qprod_roundings, conv_error; cbn [conv_roundings conv_drop]; rewrite ?roundoff_fu; lra.
  - destruct PL as [LIM _]. destruct (fbox_plus_ok p L c A x r v HL HC H S Fv Hv LIM) as (K2 & r' & H' & C'). split; [exact K2|].
    exists r', (plus_defect (okind_of x) A). split; [|split].
    + pose proof (Rmin_l (166/5) A). pose proof (Rmin_l 380 A). unfold plus_defect. destruct K as [-> | ->]; cbn [prod_defect conv_defect gain]; unfold qprod_defect, qjoint, joint; cbn [conv_defect]; lra.
    + eapply quat_T; [|exact H']. rewrite K2. exact K.
    + unfold advance. eapply close_mono; [|exact C']. unfold plus_error. destruct K as [-> | ->]; cbn [prod_error conv_error conv_roundings conv_drop slip]; unfold qprod_roundings, conv_error; cbn [conv_roundings conv_drop]; rewrite ?roundoff_fu; lra.
Qed.
Lemma stands_mono p T A B (x : fobject p) r : okind_of x = KQuat \/ okind_of x = KMat -> A <= B -> stands T A x r -> stands T B x r.
Proof.
  intros K AB. pose proof (fu_pos p) as U. assert (M : A * roundoff p <= B * roundoff p) by (rewrite roundoff_fu; apply Rmult_le_compat_r; lra).
  destruct x as [q|m|s]; cbn [stands okind_of] in *; [| |destruct K as [K|K]; discriminate K].
  - intros (F & N & E). split; [exact F|]. split; [lra|exact E].
  - intros (F & N & E). split; [exact F|]. split; [exact N|]. eapply close_mono; [exact M|exact E].
Qed.

(** C88: integrating sampled angular velocities, in body or in world coordinates, with a
    RotationQuaternion object in floating-point arithmetic. If the samples describe the
    motion of a body up to [d], the object starts within [e] of its orientation, and
    fix() is called at least every K steps, then after any number of steps the object
    holds finite numbers, is a unit quaternion up to A + 43 K roundings, and stands for an
    orientation within e + n (101 roundings + d) of that of the body. *)
Lemma C88_quaternion_lemma : forall (p : prim) (L : libm) (P : fl F64 -> fl F64 -> fl F64) (x : fobject p) (r : M33) (A d e : R) (Rt : R -> M33) (om : R -> V3) (t : R) (K : nat) (l : list (sample p)),
  libm_ok L -> pow_ok P -> okind_of x = KQuat -> stands (64/10) A x r -> 6 <= A -> close e r (Rt t) ->
  describes d Rt om t l -> fixed_within K 0 l -> (A + 43 * INR K) * roundoff p <= / 100 ->
  let y := integrate L P x l in
  okind_of y = KQuat /\
  exists r', stands (64/10) (A + 43 * INR K) y r' /\ close (e + INR (length l) * (101 * roundoff p + d)) r' (Rt (t + duration l)).
Proof.
  intros p L P x r A d e Rt om t K l HL HP KX HS A6 HC HD HF HA. cbv zeta. rewrite (roundoff_fu p) in *. pose proof (fu_pos p) as U.
  assert (G : forall l (x : fobject p) r e t k, okind_of x = KQuat -> stands (64/10) (A + 43 * INR k) x r -> (k <= K)%nat -> close e r (Rt t) -> describes d Rt om t l -> fixed_within K k l ->
    okind_of (integrate L P x l) = KQuat /\ exists r', stands (64/10) (A + 43 * INR K) (integrate L P x l) r' /\ close (e + INR (length l) * (101 * fu p + d)) r' (Rt (t + duration l))).
  { clear x r e t l KX HS HC HD HF. induction l as [|s l IH]; intros x r e t k KX HS Hk HC HD HF.
    - cbn [integrate fold_left duration fold_right length INR]. split; [exact KX|]. exists r. split; [apply (stands_mono _ _ (A + 43 * INR k)); [now left| |exact HS]; apply le_INR in Hk; lra|]. rewrite Rplus_0_r, Rmult_0_l, Rplus_0_r. exact HC.
    - destruct HD as ((H0 & Fv & Hv & Hc) & HM & HD). destruct HF as [Hk' HF]. apply le_INR in Hk as Hk2. assert (Hk1 : INR k + 1 <= INR K) by (rewrite <- S_INR; apply le_INR; lia). pose proof (pos_INR k) as k0.
      assert (AK : (A + 43 * INR k) * fu p <= / 100) by (eapply Rle_trans; [|exact HA]; apply Rmult_le_compat_r; lra).
      assert (AK1 : (A + 43 * INR k + 43) * fu p <= / 100) by (eapply Rle_trans; [|exact HA]; apply Rmult_le_compat_r; lra).
      assert (Sr : SO3 r) by (apply (stands_SO3 _ _ _ _ _ HS); intros _; lra).
      destruct (float_step p L (s_c s) (s_body s) x r (A + 43 * INR k) (s_v s) HL Hc (or_introl KX) HS Sr ltac:(lra) AK Fv Hv) as (K1 & r1 & B & HB & S1 & C1). rewrite KX in HB, C1. cbn [gain slip] in HB, C1. rewrite KX in K1 at 2.
      pose proof (motion_step Rt om t (s_h s) (vval (s_v s)) (s_body s) d H0 HM) as MS.
      pose proof (close_advance _ (s_body s) (vval (s_v s)) _ _ HC) as CA. apply close_sym in MS.
      set (y := if s_body s then oproduct L (s_c s) x (fexp L (s_c s) (okind_of x) (s_v s)) else fbox_plus L (s_c s) x (s_v s)) in *.
      assert (C2 : close (88 * fu p + e + d) r1 (Rt (t + s_h s))) by (eapply close_trans; [eapply close_trans; [exact C1|exact CA]|exact MS]).
      cbn [integrate fold_left]. change (fold_left (integrate1 L P) l (integrate1 L P x s)) with (integrate L P (integrate1 L P x s) l).
      replace (t + duration (s :: l)) with (t + s_h s + duration l) by (cbn [duration fold_right]; fold (duration l); ring).
      assert (FIN : forall (z : fobject p) r2 k2 e2, okind_of z = KQuat -> stands (64/10) (A + 43 * INR k2) z r2 -> (k2 <= K)%nat -> close e2 r2 (Rt (t + s_h s)) -> e2 <= e + (101 * fu p + d) -> fixed_within K k2 l ->
        okind_of (integrate L P z l) = KQuat /\ exists r', stands (64/10) (A + 43 * INR K) (integrate L P z l) r' /\ close (e + INR (length (s :: l)) * (101 * fu p + d)) r' (Rt (t + s_h s + duration l))).
      { intros z r2 k2 e2 Z1 Z2 Z3 Z4 Z5 Z6. destruct (IH z r2 e2 (t + s_h s) k2 Z1 Z2 Z3 Z4 HD Z6) as (Q1 & r' & Q2 & Q3). split; [exact Q1|]. exists r'. split; [exact Q2|]. eapply close_mono; [|exact Q3]. cbn [length]. rewrite S_INR. lra. }
      unfold integrate1. fold y. destruct (s_fix s).
      + assert (FL : fix_limit p (okind_of y) B) by (rewrite K1; cbn [fix_limit]; rewrite roundoff_fu; eapply Rle_trans; [|exact AK1]; apply Rmult_le_compat_r; lra).
        destruct (ofix_ok p P (s_c s) (64/10) B y r1 HP Hc S1 FL) as (K2 & r2 & S2 & C3). rewrite K1 in K2, S2, C3. cbn [fix_defect fix_roundings] in S2, C3.
        apply (FIN _ r2 0%nat (13 * fu p + (88 * fu p + e + d))); [exact K2| |lia|eapply close_trans; [exact C3|exact C2]|lra|exact HF].
        apply (stands_mono _ _ 6); [left; exact K2|cbn [INR]; lra|exact S2].
      + apply (FIN _ r1 (S k) (88 * fu p + e + d)); [exact K1| |lia|exact C2|lra|exact HF].
        apply (stands_mono _ _ B); [left; exact K1|rewrite S_INR; lra|exact S1]. }
  apply (G l x r e t 0%nat KX); try assumption; [|lia]. cbn [INR]. replace (A + 43 * 0) with A by ring. exact HS.
Qed.
(** a body turning about the x axis at unit speed, and two samples of half a second *)
Definition xaxis : V3 := mkV3 1 0 0.
Definition spin (s : R) : M33 := vec_rot (vscale (0 - s) (mkV3 (-1) 0 0)).
Definition vstep : FV F32 := mkFV (fhalf F32) fzero fzero.
Definition in_world : sample F32 := mkSample vstep false false stdsix (/ 2).
Definition in_body (fixing : bool) : sample F32 := mkSample vstep true fixing stdsix (/ 2).
Lemma spin_motion u : SO3 (spin u) /\ has_global_velocity spin u xaxis.
Proof. split; [apply vec_rot_SO3|]. pose proof (steady_velocity 0 (mkV3 (-1) 0 0) u) as H. replace (vneg (mkV3 (-1) 0 0)) with xaxis in H; [exact H|]. unfold vneg, xaxis; cbn [Linalg.vx Linalg.vy Linalg.vz]. f_equal; ring. Qed.
Lemma spin_axis u : mvmul (mtrans (spin u)) xaxis = xaxis.
Proof. unfold spin. rewrite <- vec_rot_neg. replace (vneg (vscale (0 - u) (mkV3 (-1) 0 0))) with (vscale (- u) xaxis); [apply vec_rot_along|]. unfold vneg, vscale, xaxis; cbn [Linalg.vx Linalg.vy Linalg.vz]. f_equal; ring. Qed.
Lemma vstep_val : vfinite vstep /\ vval vstep = vscale (/ 2) xaxis.
Proof. destruct (fhalf_R F32) as [F V]. split; [repeat split; try exact F|]. unfold vval, vstep, vscale, xaxis; cbn [gx gy gz Linalg.vx Linalg.vy Linalg.vz]. rewrite V. cbn [fzero B2R]. f_equal; lra. Qed.
Lemma vstep_norm : vnorm (vval vstep) = / 2.
Proof. rewrite (proj2 vstep_val), vnorm_vscale, Rabs_pos_eq by lra. replace (vnorm xaxis) with 1; [lra|]. unfold vnorm, vnorm2, vdot, xaxis; cbn [Linalg.vx Linalg.vy Linalg.vz]. replace (1 * 1 + 0 * 0 + 0 * 0) with 1 by ring. now rewrite sqrt_1. Qed.
Lemma spin_described t l : List.Forall (fun s => s = in_world \/ exists b, s = in_body b) l -> describes 0 spin (fun _ => xaxis) t l.
Proof.
  revert t. induction l as [|s l IH]; intros t H; [exact I|]. inversion H; subst. cbn [describes]. destruct vstep_val as [F V].
  assert (Z : vdist (vscale (/ 2) xaxis) (vval vstep) <= 0). { rewrite V. unfold vdist. replace (vsub (vscale (/ 2) xaxis) (vscale (/ 2) xaxis)) with vzero by (unfold vsub, vzero; f_equal; ring). unfold vnorm, vnorm2, vdot, vzero; cbn [Linalg.vx Linalg.vy Linalg.vz]. replace (0 * 0 + 0 * 0 + 0 * 0) with 0 by ring. rewrite sqrt_0. lra. }
  split; [|split; [|now apply IH]].
  - destruct H2 as [-> | [b ->]]; cbn [s_h s_v s_c in_world in_body]; rewrite vstep_norm; (split; [lra|split; [exact F|split; [lra|apply stdsix_ok]]]).
  - intros u _. destruct (spin_motion u) as [A B]. split; [exact A|]. split; [exact B|]. destruct H2 as [-> | [b ->]]; cbn [s_h s_v s_body in_world in_body]; rewrite ?spin_axis; exact Z.
Qed.
Lemma spin_start : spin 0 = mid.
Proof. unfold spin. replace (vscale (0 - 0) (mkV3 (-1) 0 0)) with vzero by (unfold vscale, vzero; f_equal; ring). apply vec_rot_zero. Qed.
Lemma C88_quaternion_ex : let l := [in_world; in_body true; in_body false] in
  libm_ok exact_libm /\ pow_ok exact_pow /\ stands (64/10) 6 (@oidentity F32 KQuat) mid /\ close 0 mid (spin 0) /\
  describes 0 spin (fun _ => xaxis) 0 l /\ fixed_within 2 0 l /\ (6 + 43 * INR 2) * roundoff F32 <= / 100 /\ duration l = 3 / 2.
Proof.
  cbv zeta. split; [apply exact_libm_ok|]. split; [apply exact_pow_ok|]. split; [|split; [|split; [|split; [|split]]]].
  - apply (stands_mono _ _ 0); [now left|lra|apply oidentity_ok; lra].
  - rewrite spin_start. apply close_refl. lra.
  - apply spin_described. repeat apply Forall_cons; eauto.
  - cbn [fixed_within s_fix in_world in_body]. lia.
  - rewrite roundoff_fu, fu_32. cbn [INR]. lra.
  - cbn [duration fold_right s_h in_world in_body]. lra.
Qed.

(** C88: the same with a RotationMatrix object, without fix(): the matrix moves away from
    the rotation matrices by at most 394 roundings per step; the rotation it stands for
    follows the motion. *)
Lemma C88_matrix_lemma : forall (p : prim) (L : libm) (P : fl F64 -> fl F64 -> fl F64) (x : fobject p) (r : M33) (A d e : R) (Rt : R -> M33) (om : R -> V3) (t : R) (l : list (sample p)),
  libm_ok L -> okind_of x = KMat -> stands (64/10) A x r -> 0 <= A -> close e r (Rt t) ->
  describes d Rt om t l -> Forall (fun s => s_fix s = false) l -> (A + 394 * INR (length l)) * roundoff p <= / 100 ->
  let y := integrate L P x l in
  okind_of y = KMat /\
  exists r', stands (64/10) (A + 394 * INR (length l)) y r' /\ close (e + INR (length l) * d) r' (Rt (t + duration l)).
Proof.
  intros p L P x r A d e Rt om t l HL KX HS A0 HC HD HF HA. cbv zeta. rewrite (roundoff_fu p) in *. pose proof (fu_pos p) as U.
  revert x r A e t KX HS A0 HC HD HF HA. induction l as [|s l IH]; intros x r A e t KX HS A0 HC HD HF HA.
  - cbn [integrate fold_left duration fold_right length INR]. split; [exact KX|]. exists r. split; [apply (stands_mono _ _ A); [now right|lra|exact HS]|]. rewrite Rplus_0_r, Rmult_0_l, Rplus_0_r. exact HC.
  - destruct HD as ((H0 & Fv & Hv & Hc) & HM & HD). apply Forall_inv in HF as Fx. apply Forall_inv_tail in HF as HF'. cbn [length] in HA. rewrite S_INR in HA. pose proof (pos_INR (length l)) as n0.
    assert (AK : A * fu p <= / 100) by (eapply Rle_trans; [|exact HA]; apply Rmult_le_compat_r; lra).
    assert (Sr : SO3 r) by (apply (stands_SO3 _ _ _ _ _ HS); intros Q; rewrite KX in Q; discriminate Q).
    destruct (float_step p L (s_c s) (s_body s) x r A (s_v s) HL Hc (or_intror KX) HS Sr A0 AK Fv Hv) as (K1 & r1 & B & HB & S1 & C1). rewrite KX in HB, C1. cbn [gain slip] in HB, C1. rewrite KX in K1 at 2.
    pose proof (motion_step Rt om t (s_h s) (vval (s_v s)) (s_body s) d H0 HM) as MS.
    pose proof (close_advance _ (s_body s) (vval (s_v s)) _ _ HC) as CA. apply close_sym in MS.
    set (y := if s_body s then oproduct L (s_c s) x (fexp L (s_c s) (okind_of x) (s_v s)) else fbox_plus L (s_c s) x (s_v s)) in *.
    assert (C2 : close (e + d) r1 (Rt (t + s_h s))) by (eapply close_mono; [|eapply close_trans; [eapply close_trans; [exact C1|exact CA]|exact MS]]; lra).
    cbn [integrate fold_left]. change (fold_left (integrate1 L P) l (integrate1 L P x s)) with (integrate L P (integrate1 L P x s) l).
    replace (t + duration (s :: l)) with (t + s_h s + duration l) by (cbn [duration fold_right]; fold (duration l); ring).
    assert (E1 : integrate1 L P x s = y) by (unfold integrate1; fold y; now rewrite Fx). rewrite E1.
    destruct (IH y r1 (A + 394) (e + d) (t + s_h s) K1 (stands_mono _ _ B _ y r1 (or_intror K1) HB S1) ltac:(lra) C2 HD HF' ltac:(eapply Rle_trans; [|exact HA]; apply Rmult_le_compat_r; lra)) as (Q1 & r' & Q2 & Q3).
    cbn [length]. rewrite S_INR. split; [exact Q1|]. exists r'. split; [apply (stands_mono _ _ (A + 394 + 394 * INR (length l))); [now right|lra|exact Q2]|]. eapply close_mono; [|exact Q3]. lra.
Qed.
Lemma C88_matrix_ex : let l := [in_world; in_body false; in_body false] in
  libm_ok exact_libm /\ stands (64/10) 0 (@oidentity F32 KMat) mid /\ close 0 mid (spin 0) /\
  describes 0 spin (fun _ => xaxis) 0 l /\ Forall (fun s => s_fix s = false) l /\ (0 + 394 * INR (length l)) * roundoff F32 <= / 100 /\ duration l = 3 / 2.
Proof.
  cbv zeta. split; [apply exact_libm_ok|]. split; [apply oidentity_ok; lra|]. split; [rewrite spin_start; apply close_refl; lra|].
  split; [apply spin_described; repeat apply Forall_cons; eauto|]. split; [repeat constructor|]. split; [rewrite roundoff_fu, fu_32; cbn [INR length]; lra|].
  cbn [duration fold_right s_h in_world in_body]. lra.
Qed.
