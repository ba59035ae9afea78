(** Claims about dead reckoning with poses in floating-point arithmetic (C91). *)
From Coq Require Import ZArith Reals Lra Psatz Bool List Lia.
From Flocq Require Import IEEE754.BinarySingleNaN Core.Core.
From Verif Require Import Linalg Spec SpecFacts SpecClose SpecDiff ModelCommon ModelEigen CommonFacts CloseFacts ModelRotation RVFacts RotFacts DerivFacts JacFacts MotionFacts
  FloatModel FloatFacts FloatWrap FloatModel2 SpecFloatQ FloatQFacts FloatQProd FloatQHist FloatQRot FloatMHist FloatCast FloatModel3 SpecLibm SpecBuild FloatBuild FloatBuild4 FloatModel4 FloatExt3 SpecExt FloatModel5 SpecPoseF FloatPose FloatModel6 FloatModel7 SpecSix FloatSix FloatFix FloatModel8 SpecMotion SpecBox FloatBox FloatDiff3 Claims16 Claims18 Claims19 Claims22 Claims30 FloatModel18 SpecPoseSix Claims35 Claims37.
Import ListNotations.
Local Open Scope R_scope.

(** one step of the rotation *)
Lemma turn_step p L P (x : fobject p) r A d e Rt om t K k (s : sample p) : libm_ok L -> pow_ok P -> 6 <= A -> (A + 43 * INR K) * fu p <= / 100 ->
  okind_of x = KQuat -> stands (64/10) (A + 43 * INR k) x r -> close e r (Rt t) -> (k < K)%nat ->
  (0 <= s_h s /\ vfinite (s_v s) /\ vnorm (vval (s_v s)) <= 64/10 /\ choices6_ok (s_c s)) ->
  (forall u, t <= u <= t + s_h s -> SO3 (Rt u) /\ has_global_velocity Rt u (om u) /\
        vdist (vscale (s_h s) (if s_body s then mvmul (mtrans (Rt u)) (om u) else om u)) (vval (s_v s)) <= d) ->
  okind_of (integrate1 L P x s) = KQuat /\
  exists r', stands (64/10) (A + 43 * INR (if s_fix s then 0%nat else S k)) (integrate1 L P x s) r' /\ close (e + (101 * fu p + d)) r' (Rt (t + s_h s)).
Proof.
  intros HL HP A6 HA KX HS HC Hk (H0 & Fv & Hv & Hc) HM. pose proof (fu_pos p) as U. assert (Hk1 : INR k + 1 <= INR K) by (rewrite <- S_INR; apply le_INR; lia). pose proof (pos_INR k) as k0.
  assert (AK : (A + 43 * INR k) * fu p <= / 100) by (eapply Rle_trans; [|exact HA]; apply Rmult_le_compat_r; lra).
  assert (AK1 : (A + 43 * INR k + 43) * fu p <= / 100) by (eapply Rle_trans; [|exact HA]; apply Rmult_le_compat_r; lra).
  assert (Sr : SO3 r) by (apply (stands_SO3 _ _ _ _ _ HS); intros _; lra).
  destruct (float_step p L (s_c s) (s_body s) x r (A + 43 * INR k) (s_v s) HL Hc (or_introl KX) HS Sr ltac:(lra) AK Fv Hv) as (K1 & r1 & B & HB & S1 & C1). rewrite KX in HB, C1. cbn [gain slip] in HB, C1. rewrite KX in K1 at 2.
  pose proof (motion_step Rt om t (s_h s) (vval (s_v s)) (s_body s) d H0 HM) as MS.
  pose proof (close_advance _ (s_body s) (vval (s_v s)) _ _ HC) as CA. apply close_sym in MS.
  set (y := if s_body s then oproduct L (s_c s) x (fexp L (s_c s) (okind_of x) (s_v s)) else fbox_plus L (s_c s) x (s_v s)) in *.
  assert (C2 : close (88 * fu p + e + d) r1 (Rt (t + s_h s))) by (eapply close_trans; [eapply close_trans; [exact C1|exact CA]|exact MS]).
  unfold integrate1. fold y. destruct (s_fix s).
  - assert (FL : fix_limit p (okind_of y) B) by (rewrite K1; cbn [fix_limit]; rewrite roundoff_fu; eapply Rle_trans; [|exact AK1]; apply Rmult_le_compat_r; lra).
    destruct (ofix_ok p P (s_c s) (64/10) B y r1 HP Hc S1 FL) as (K2 & r2 & S2 & C3). rewrite K1 in K2, S2, C3. cbn [fix_defect fix_roundings] in S2, C3. split; [exact K2|]. exists r2. split.
    + apply (stands_mono _ _ 6); [left; exact K2|cbn [INR]; lra|exact S2].
    + eapply close_mono; [|eapply close_trans; [exact C3|exact C2]]. lra.
  - split; [exact K1|]. exists r1. split; [apply (stands_mono _ _ B); [left; exact K1|rewrite S_INR; lra|exact S1]|eapply close_mono; [|exact C2]; lra].
Qed.

(** what may be added to the position error in one step, apart from the error of the
    orientation: roundings of the displacement and of the position, the misfit [dd] of
    the displacement *)
Definition step_drift (p : prim) (A len M dd : R) : R := (5 * A + 24) * roundoff p * len + 2 * roundoff p * M + dd + underflow p.

(** C91: dead reckoning with a HomTransformQuat object in floating-point arithmetic. A
    body turns and moves along a path that stays within M of the origin. Each step
    multiplies the pose by a pose made of a displacement no longer than [len] and of the
    exponential of a rotation vector, both in body coordinates; fix() is called on the
    rotation at least every K steps. If the samples describe the motion up to d (angles)
    and dd (displacements), then after n steps the pose holds finite numbers, its
    orientation is off by at most e + n (101 roundings + d), and its position by at most
    n times (that angle times [len], plus the drift of one step), so at most
    quadratically in n. *)
Lemma C91_dead_reckoning_lemma : forall (p : prim) (L : libm) (P : fl F64 -> fl F64 -> fl F64) (x : opose p) (r : M33) (A d dd e ep len M : R) (Rt : R -> M33) (om X V : R -> V3) (t : R) (K : nat) (l : list (psample p)),
  libm_ok L -> pow_ok P -> okind_of (op_rot x) = KQuat -> 6 <= A -> pose_stands (64/10) A ep x (mkRigid r (X t)) -> close e r (Rt t) ->
  describes d Rt om t (map p_s l) -> fixed_within K 0 (map p_s l) -> (A + 43 * INR K) * roundoff p <= / 100 ->
  displaces dd len M Rt X V t l -> vnorm (X t) <= M -> M <= 2 ^ 90 ->
  let n := INR (length l) in let angle := e + n * (101 * roundoff p + d) in
  let drift := ep + n * (angle * len + step_drift p (A + 43 * INR K) len M dd) in
  drift <= M ->
  let y := reckon L P x l in let t' := t + duration (map p_s l) in
  okind_of (op_rot y) = KQuat /\ exists r', close angle r' (Rt t') /\ pose_stands (64/10) (A + 43 * INR K) drift y (mkRigid r' (X t')).
Proof.
  intros p L P x r A d dd e ep len M Rt om X V t K l HL HP KX A6 HS HC HD HF HA HX NX HM. cbv zeta. unfold step_drift. rewrite (roundoff_fu p) in *. pose proof (fu_pos p) as U. pose proof (fu_24 p) as U24. destruct pow90 as (P1 & P2 & P3). pose proof (uflow_small p) as UF.
  set (AK := A + 43 * INR K) in *. set (g := 101 * fu p + d). set (B := (5 * AK + 24) * fu p * len + 2 * fu p * M + dd + underflow p).
  assert (K0 : 0 <= INR K) by apply pos_INR.
  assert (G : forall l (x : opose p) r e ep t k, okind_of (op_rot x) = KQuat -> pose_stands (64/10) (A + 43 * INR k) ep x (mkRigid r (X t)) -> (k <= K)%nat -> close e r (Rt t) -> describes d Rt om t (map p_s l) -> fixed_within K k (map p_s l) ->
    displaces dd len M Rt X V t l -> vnorm (X t) <= M -> 0 <= e -> ep + INR (length l) * ((e + INR (length l) * g) * len + B) <= M ->
    okind_of (op_rot (reckon L P x l)) = KQuat /\ exists r', close (e + INR (length l) * g) r' (Rt (t + duration (map p_s l))) /\ pose_stands (64/10) AK (ep + INR (length l) * ((e + INR (length l) * g) * len + B)) (reckon L P x l) (mkRigid r' (X (t + duration (map p_s l))))).
  { clear x r e ep t l KX HS HC HD HF HX NX. induction l as [|s l IH]; intros x r e ep t k KX HS Hk HC HD HF HX NX e0 DM.
    - cbn [reckon fold_left duration fold_right length INR map]. split; [exact KX|]. exists r. rewrite Rplus_0_r, !Rmult_0_l, !Rplus_0_r. split; [exact HC|]. destruct HS as (H1 & H2 & H3). split; [|split; assumption].
      apply (stands_mono _ _ (A + 43 * INR k)); [now left| |exact H1]. apply le_INR in Hk. unfold AK. lra.
    - cbn [map describes] in HD. destruct HD as (HS1 & HM1 & HD). cbn [map fixed_within] in HF. destruct HF as [Hk' HF]. cbn [displaces] in HX. destruct HX as ((Fd & Nd & Ho & Hb & NX') & HV & HX).
      destruct HS as (H1 & H2 & H3). cbn [rg_rot rg_pos] in H1, H3. set (h := s_h (p_s s)) in *.
      assert (Hk1 : INR k + 1 <= INR K) by (rewrite <- S_INR; apply le_INR; lia). pose proof (pos_INR k) as k0.
      assert (AU : (A + 43 * INR k) * fu p <= / 100) by (eapply Rle_trans; [|exact HA]; apply Rmult_le_compat_r; unfold AK; lra).
      pose proof (stands_rot _ _ _ _ _ H1 AU) as Sr. destruct HS1 as (h0 & Fv & Hv & Hc).
      destruct (turn_step p L P (op_rot x) r A d e Rt om t K k (p_s s) HL HP A6 HA KX H1 HC Hk' (Logic.conj h0 (Logic.conj Fv (Logic.conj Hv Hc))) HM1) as (K1 & r1 & S1 & C1). fold g h in C1.
      destruct (HM1 t ltac:(lra)) as (SR & _ & D1). assert (d0 : 0 <= d) by (eapply Rle_trans; [apply vn_nonneg|exact D1]).
      destruct (HV t ltac:(lra)) as (_ & DD1). assert (dd0 : 0 <= dd) by (eapply Rle_trans; [apply vn_nonneg|exact DD1]). assert (g0 : 0 <= g) by (unfold g; lra). assert (len0 : 0 <= len) by (eapply Rle_trans; [apply vn_nonneg|exact Nd]). assert (ep0 : 0 <= ep) by (eapply Rle_trans; [apply vn_nonneg|exact H3]). assert (M0 : 0 <= M) by (eapply Rle_trans; [apply vn_nonneg|exact NX]).
      pose proof (path_step X V t h (mvmul (Rt t) (vval (p_d s))) dd h0 HV) as PS. fold (vdist (X (t + h)) (vadd (X t) (mvmul (Rt t) (vval (p_d s))))) in PS.
      set (a := mvmul (Rt t) (vval (p_d s))) in *. assert (Na : vnorm a = vnorm (vval (p_d s))) by apply (SO3_vnorm _ _ SR).
      cbn [length] in DM |- *. rewrite S_INR in DM |- *. set (n := INR (length l)) in *. assert (n0 : 0 <= n) by apply pos_INR.
      assert (AK0 : 0 <= (5 * AK + 24) * fu p * len) by (apply Rmult_le_pos; [apply Rmult_le_pos; unfold AK; lra|exact len0]). assert (uM : 0 <= fu p * M) by (apply Rmult_le_pos; lra). assert (B0 : 0 <= B) by (unfold B; lra).
      assert (el : 0 <= e * len) by (apply Rmult_le_pos; assumption). assert (gl : 0 <= g * len) by (apply Rmult_le_pos; assumption). assert (ngl : 0 <= n * (g * len)) by (apply Rmult_le_pos; assumption). assert (nngl : 0 <= n * (n * (g * len))) by (apply Rmult_le_pos; assumption). assert (nel : 0 <= n * (e * len)) by (apply Rmult_le_pos; assumption). assert (nB : 0 <= n * B) by (apply Rmult_le_pos; assumption).
      assert (EX : ep + (n + 1) * ((e + (n + 1) * g) * len + B) = ep + e * len + B + (n * (e * len) + n * (n * (g * len)) + 2 * (n * (g * len)) + g * len + n * B)) by ring. rewrite EX in DM.
      assert (STEP : ep + e * len + B <= M) by lra.
      assert (Dk : 0 <= rotate_roundings KQuat (A + 43 * INR k) <= 5 * AK + 24) by (unfold rotate_roundings; cbn [conv_defect]; unfold AK; lra).
      assert (NX2 : vnorm (vadd (X t) a) <= M + dd). { assert (Q : vdist (vadd (X t) a) (X (t + h)) <= dd) by (unfold vdist; rewrite vnorm_sub_sym; exact PS). pose proof (vnorm_of_dist _ _ _ Q). lra. }
      assert (ddM : dd <= M) by (unfold B in STEP; lra).
      assert (Na2 : vnorm a <= 4 * 2 ^ 90). { replace a with (vadd (vadd (X t) a) (vneg (X t))) by (unfold vadd, vneg; destruct a as [a1 a2 a3]; cbn [Linalg.vx Linalg.vy Linalg.vz]; f_equal; ring). eapply Rle_trans; [apply vnorm_triang|]. rewrite vnorm_vneg. lra. }
      destruct (C74_rotate_lemma p L (s_c (p_s s)) (p_o s) (op_rot x) r (64/10) (A + 43 * INR k) (p_d s) HL Hc Ho ltac:(lra) H1 ltac:(rewrite roundoff_fu; exact AU) Fd ltac:(lra)) as [F1 E1]. rewrite (roundoff_fu p), KX in E1. fold (rotate_roundings KQuat (A + 43 * INR k)) in E1.
      set (w := orotate L (s_c (p_s s)) (p_o s) (op_rot x) (p_d s)) in *.
      assert (EW : vdist (vval w) a <= (5 * AK + 24) * fu p * len + underflow p + e * len).
      { eapply Rle_trans; [apply (vdist_tri _ (mvmul r (vval (p_d s))))|]. pose proof (HC (vval (p_d s))) as C2. fold a in C2.
        assert (e * vnorm (vval (p_d s)) <= e * len) by (apply Rmult_le_compat_l; assumption).
        assert (rotate_roundings KQuat (A + 43 * INR k) * fu p * vnorm (vval (p_d s)) <= (5 * AK + 24) * fu p * len) by (apply Rmult_le_compat; try lra; [apply Rmult_le_pos; lra|apply vn_nonneg|apply Rmult_le_compat_r; lra]). unfold vdist at 2. lra. }
      destruct (shifted p (op_pos x) w (X t) a _ _ H2 F1 H3 EW) as [F2 E2]; [unfold B in STEP; lra|]. set (q := fvadd (op_pos x) w) in *.
      assert (EQ : vdist (vval q) (X (t + h)) <= ep + e * len + B).
      { eapply Rle_trans; [apply (vdist_tri _ (vadd (X t) a))|]. assert (Q : vdist (vadd (X t) a) (X (t + h)) <= dd) by (unfold vdist; rewrite vnorm_sub_sym; exact PS).
        assert (fu p * (ep + ((5 * AK + 24) * fu p * len + underflow p + e * len) + vnorm (vadd (X t) a)) <= fu p * (2 * M)) by (apply Rmult_le_compat_l; [lra|]; unfold B in STEP; lra). unfold B. lra. }
      cbn [reckon fold_left]. change (fold_left (reckon1 L P) l (reckon1 L P x s)) with (reckon L P (reckon1 L P x s) l).
      assert (R1 : reckon1 L P x s = mkOPose q (integrate1 L P (op_rot x) (p_s s))).
      { unfold reckon1, integrate1. rewrite Hb. cbn [opose_mult op_pos op_rot]. fold w q. unfold fexp. destruct (s_fix (p_s s)); reflexivity. }
      rewrite R1. replace (t + duration (map p_s (s :: l))) with (t + h + duration (map p_s l)) by (cbn [map duration fold_right]; fold (duration (map p_s l)); unfold h; ring).
      destruct (IH (mkOPose q (integrate1 L P (op_rot x) (p_s s))) r1 (e + g) (ep + e * len + B) (t + h) (if s_fix (p_s s) then 0%nat else S k)) as (Q1 & r' & Q2 & Q3); try assumption.
      + split; [exact S1|]. split; [exact F2|exact EQ].
      + destruct (s_fix (p_s s)); lia.
      + lra.
      + fold n. replace (ep + e * len + B + n * ((e + g + n * g) * len + B)) with (ep + e * len + B + (n * (e * len) + n * (g * len) + n * (n * (g * len)) + n * B)) by ring. lra.
      + split; [exact Q1|]. exists r'. fold n in Q2, Q3. split; [eapply close_mono; [|exact Q2]; right; ring|]. destruct Q3 as (T1 & T2 & T3). split; [exact T1|]. split; [exact T2|]. eapply Rle_trans; [exact T3|]. rewrite EX.
        replace (ep + e * len + B + n * ((e + g + n * g) * len + B)) with (ep + e * len + B + (n * (e * len) + n * (g * len) + n * (n * (g * len)) + n * B)) by ring. lra. }
  intro DM. apply (G l x r e ep t 0%nat); try assumption; [|lia|].
  - cbn [INR]. replace (A + 43 * 0) with A by ring. exact HS.
  - specialize (HC (mkV3 1 0 0)). replace (vnorm (mkV3 1 0 0)) with 1 in HC. 2:{ unfold vnorm, vnorm2, vdot; cbn [Linalg.vx Linalg.vy Linalg.vz]. replace (1 * 1 + 0 * 0 + 0 * 0) with 1 by ring. now rewrite sqrt_1. }
    rewrite Rmult_1_r in HC. eapply Rle_trans; [apply sqrt_pos|exact HC].
Qed.
(** a screw motion along and about the x axis *)
Definition screw (s : R) : V3 := vscale s xaxis.
Definition psteps : list (psample F32) := [mkPSample (in_body false) vstep std3; mkPSample (in_body true) vstep std3; mkPSample (in_body false) vstep std3].
Lemma screw_norm s : 0 <= s -> vnorm (screw s) = s.
Proof. intro H. unfold screw. rewrite vnorm_vscale, Rabs_pos_eq by exact H. replace (vnorm xaxis) with 1; [ring|]. unfold vnorm, vnorm2, vdot, xaxis; cbn [Linalg.vx Linalg.vy Linalg.vz]. replace (1 * 1 + 0 * 0 + 0 * 0) with 1 by ring. now rewrite sqrt_1. Qed.
Lemma spin_along u : mvmul (spin u) xaxis = xaxis.
Proof. unfold spin. replace (vscale (0 - u) (mkV3 (-1) 0 0)) with (vscale u xaxis); [apply vec_rot_along|]. unfold vscale, xaxis; cbn [Linalg.vx Linalg.vy Linalg.vz]. f_equal; ring. Qed.
Lemma screw_deriv u : Vderiv screw u xaxis.
Proof. unfold screw, Vderiv, vscale, xaxis; cbn [Linalg.vx Linalg.vy Linalg.vz]. repeat split; dl_solve; ring. Qed.
Lemma screw_step u : vdist (vscale (/ 2) xaxis) (mvmul (spin u) (vval vstep)) <= 0.
Proof.
  rewrite (proj2 vstep_val). replace (mvmul (spin u) (vscale (/ 2) xaxis)) with (vscale (/ 2) (mvmul (spin u) xaxis)) by (generalize (spin u) xaxis; intros m x; unfold mvmul, vscale; cbn [Linalg.vx Linalg.vy Linalg.vz]; f_equal; ring).
  rewrite spin_along. unfold vdist. replace (vsub (vscale (/ 2) xaxis) (vscale (/ 2) xaxis)) with vzero by (unfold vsub, vzero; f_equal; ring). unfold vnorm, vnorm2, vdot, vzero; cbn [Linalg.vx Linalg.vy Linalg.vz]. replace (0 * 0 + 0 * 0 + 0 * 0) with 0 by ring. rewrite sqrt_0. lra.
Qed.
Lemma C91_dead_reckoning_ex : let x := @opose_identity F32 KQuat in
  libm_ok exact_libm /\ pow_ok exact_pow /\ okind_of (op_rot x) = KQuat /\ pose_stands (64/10) 6 0 x (mkRigid mid (screw 0)) /\ close 0 mid (spin 0) /\
  describes 0 spin (fun _ => xaxis) 0 (map p_s psteps) /\ fixed_within 2 0 (map p_s psteps) /\ (6 + 43 * INR 2) * roundoff F32 <= / 100 /\
  displaces 0 (/ 2) 2 spin screw (fun _ => xaxis) 0 psteps /\ vnorm (screw 0) <= 2 /\ 2 <= 2 ^ 90 /\
  0 + INR 3 * ((0 + INR 3 * (101 * roundoff F32 + 0)) * / 2 + step_drift F32 (6 + 43 * INR 2) (/ 2) 2 0) <= 2.
Proof.
  cbv zeta. split; [apply exact_libm_ok|]. split; [apply exact_pow_ok|]. split; [reflexivity|]. split; [|split; [|split; [|split; [|split; [|split; [|split; [|split]]]]]]].
  - split; [apply (stands_mono _ _ 0); [now left|lra|apply oidentity_ok; lra]|]. split; [repeat split|]. cbn [opose_identity op_pos rg_pos]. unfold vdist. replace (vsub (vval fvzero) (screw 0)) with vzero. 2:{ unfold screw, vsub, vval, fvzero, vzero, vscale; cbn [gx gy gz Linalg.vx Linalg.vy Linalg.vz fzero B2R]. f_equal; ring. }
    unfold vnorm, vnorm2, vdot, vzero; cbn [Linalg.vx Linalg.vy Linalg.vz]. replace (0 * 0 + 0 * 0 + 0 * 0) with 0 by ring. rewrite sqrt_0. lra.
  - rewrite spin_start. apply close_refl. lra.
  - apply spin_described. cbn [map psteps p_s]. repeat apply Forall_cons; eauto.
  - cbn [map psteps p_s fixed_within s_fix in_body]. lia.
  - rewrite roundoff_fu, fu_32. cbn [INR]. lra.
  - cbn [psteps displaces p_s p_d p_o in_body s_h s_body]. rewrite !screw_norm by lra. rewrite vstep_norm. destruct vstep_val as [F _].
    repeat match goal with |- _ /\ displaces _ _ _ _ _ _ _ _ => idtac | |- _ /\ _ => split end; try exact F; try lra; try apply std3_ok; try reflexivity; try exact I; intros; try (split; [apply screw_deriv|apply screw_step]).
  - rewrite screw_norm; lra.
  - assert (3 <= 2 ^ 90) by (apply three_le_pow; lia). lra.
  - unfold step_drift. pose proof (uflow_small F32). rewrite roundoff_fu, fu_32. cbn [INR]. lra.
Qed.
