(** Claims about twists and skew matrices in floating point (C93). *)
From Coq Require Import ZArith Reals Lra Psatz Bool List Lia Permutation.
From Flocq Require Import IEEE754.BinarySingleNaN Core.Core.
From Verif Require Import Linalg Spec SpecFacts SpecClose SpecDiff SpecPose ModelDiff DerivFacts DiffFacts DiffFacts2 ModelCommon ModelEigen CommonFacts CloseFacts Claims1 Claims5
  FloatModel FloatFacts FloatWrap FloatModel2 SpecFloatQ FloatQFacts FloatQProd FloatQHist FloatQRot FloatMHist FloatCast FloatModel3 SpecLibm SpecBuild FloatBuild FloatBuild2 FloatBuild3 FloatBuild4 FloatModel4 FloatModel5 FloatExt FloatExt2 FloatExt3 FloatPose FloatModel6 FloatMat FloatModel7 SpecSix FloatSix Claims16 Claims18 Claims19 Claims22 FloatModel10 FloatModel12 FloatDiff FloatDiff2 FloatDiff3 Claims30 Claims37 FloatModel20.
Import ListNotations.
Local Open Scope R_scope.

(** C93: getVector(), setVector() and the constructor from a 6-vector copy the bits of
    every coefficient (NaN and signed zeros included), the linear velocity first, and
    setVector() leaves nothing of the old twist; Zero() is the zero vector *)
Lemma C93_copies_lemma : forall (p : prim) (a b c d e f : fl p) (t : ftwist p),
  let v := [a; b; c; d; e; f] in
  flocal_twist_getVector (flocal_twist_of_vector v) = Some v /\ flocal_twist_getVector (flocal_twist_setVector t v) = Some v /\
  fglobal_twist_getVector (fglobal_twist_of_vector v) = Some v /\ fglobal_twist_getVector (fglobal_twist_setVector t v) = Some v /\
  flocal_twist_of_vector v = mkFT (mkFV a b c) (FLocal (mkFV d e f)) /\ fglobal_twist_of_vector v = mkFT (mkFV a b c) (FGlobal (mkFV d e f)) /\
  flocal_twist_setVector t v = flocal_twist_of_vector v /\ fglobal_twist_setVector t v = fglobal_twist_of_vector v /\
  flocal_twist_getVector (flocal_twist_zero p) = Some (repeat fzero 6) /\ fglobal_twist_getVector (fglobal_twist_zero p) = Some (repeat fzero 6).
Proof. intros. repeat split. Qed.

(** C93: the skew matrix of a vector determines its bits, and the vector of a matrix with
    zero diagonal and opposite off-diagonal coefficients determines the matrix; the
    matrix times another vector is the cross product up to 5.3 roundings of the product
    of the lengths *)
Lemma C93_skew_lemma : forall (p : prim) (o : orders3) (a b : FV p) (m : FM p),
  fvee (fskew a) = a /\
  (gx (r0 m) = fzero /\ gy (r1 m) = fzero /\ gz (r2 m) = fzero /\ gy (r0 m) = fneg (gx (r1 m)) /\ gz (r1 m) = fneg (gy (r2 m)) /\ gx (r2 m) = fneg (gz (r0 m)) ->
   fskew (fvee m) = m) /\
  (orders3_ok 3 3 3 o -> vfinite a -> vfinite b -> vnorm (vval a) * vnorm (vval b) <= bpow radix2 120 ->
   vfinite (fmv o (fskew a) b) /\ vdist (vval (fmv o (fskew a) b)) (vcross (vval a) (vval b)) <= 53/10 * roundoff p * (vnorm (vval a) * vnorm (vval b)) + underflow p).
Proof.
  intros p o a b m. split; [destruct a; reflexivity|]. split.
  - destruct m as [[a00 a01 a02] [a10 a11 a12] [a20 a21 a22]]. unfold fskew, fvee. cbn. intros (-> & -> & -> & -> & -> & ->). reflexivity.
  - intros O Fa Fb B. destruct (fskew_val p a Fa) as [Fs Vs]. destruct (mcross_rows (vval a)) as (C0 & C1 & C2).
    destruct (fmv_err p o (fskew a) b (vnorm (vval a)) O Fs Fb) as [F E]; rewrite ?Vs; try assumption. split; [exact F|].
    rewrite Vs in E. replace (mvmul (mcross (vval a)) (vval b)) with (vcross (vval a) (vval b)) in E by (generalize (vval a) (vval b); intros [a1 a2 a3] [b1 b2 b3]; lin).
    eapply Rle_trans; [exact E|]. rewrite roundoff_fu, underflow_eta. pose proof (eta_pos p) as E0. pose proof (fu_pos p) as U. pose proof (vn_nonneg (vval a)). pose proof (vn_nonneg (vval b)).
    assert (0 <= fu p * (vnorm (vval a) * vnorm (vval b))) by (repeat apply Rmult_le_pos; lra). lra.
Qed.
Lemma C93_skew_ex : orders3_ok 3 3 3 std3 /\ vfinite (funit_x F32) /\ vnorm (vval (funit_x F32)) * vnorm (vval (funit_x F32)) <= bpow radix2 120 /\
  (let m := fskew (funit_x F32) in gx (r0 m) = fzero /\ gy (r1 m) = fzero /\ gz (r2 m) = fzero /\ gz (r1 m) = fneg (gy (r2 m)) /\ feq (gy (r2 m)) fzero = false).
Proof.
  split; [apply std3_ok|]. destruct (funit_x_R F32) as [F V]. split; [exact F|]. split; [|repeat split]. rewrite V. rewrite (vnorm_unit ex) by (unfold vnorm2, vdot, ex; cbn; ring).
  replace (1 * 1) with (bpow radix2 0) by (cbn; ring). apply bpow_le. lia.
Qed.

Lemma Vderiv_one f t a b : Vderiv f t a -> Vderiv f t b -> a = b.
Proof. intros (A0 & A1 & A2) (B0 & B1 & B2). destruct a as [x y z], b as [u v w]; cbn in *. f_equal; eapply uniqueness_limite; eassumption. Qed.
(** velocity of the body point x of a rigid body, from its linear velocity and its angular
    velocity in body coordinates *)
Definition point_velocity (R : M33) (v w x : V3) : V3 := vadd v (mvmul R (vcross w x)).
Lemma point_near R v w x v' w' E D : SO3 R -> vdist v' v <= E -> vdist w' w <= D -> vdist (point_velocity R v' w' x) (point_velocity R v w x) <= E + D * vnorm x.
Proof.
  intros S HE HD. unfold point_velocity. eapply Rle_trans; [apply vdist_add|]. rewrite (mvmul_dist _ _ _ S). apply Rplus_le_compat; [exact HE|].
  unfold vdist in *. replace (vsub (vcross w' x) (vcross w x)) with (vcross (vsub w' w) x) by (destruct w as [w1 w2 w3], w' as [u1 u2 u3], x as [x1 x2 x3]; lin).
  eapply Rle_trans; [apply vnorm_cross_le|]. apply Rmult_le_compat_r; [apply vn_nonneg|exact HD].
Qed.
(** C93: the twist of a moving body gives the velocity of every point of it. The linear
    velocity comes back bit for bit; the angular velocity w' computed by
    getVector(rotation) from a quaternion derivative (off by B) and a rotation quaternion
    (off by A roundings) gives for every body point the derivative of its position, off by
    the error of the linear velocity plus the stated multiple of its distance from the
    origin of the body *)
Lemma C93_quaternion_twist_lemma : forall (p : prim) (L : libm) (ch : choices6) (o o4 : orders3) (o9 : orders9) (q f : FQ p) (v : FV p)
  (pos : R -> V3) (c : R -> Quat) (t : R) (dpos : V3) (d : Quat) (w : V3) (A B E : R),
  orders3_ok 4 4 4 o4 -> qfinite q -> qfinite f -> (forall s, qnorm (c s) = 1) -> Vderiv pos t dpos -> Qderiv c t d ->
  qdist (qval q) (c t) <= A * roundoff p -> A * roundoff p <= / 100 -> qdist (qval f) d <= B -> vdist (vval v) dpos <= E ->
  has_local_velocity (fun s => quat_rot (c s)) t w -> vnorm w + B <= 2 ^ 99 ->
  exists w' : FV p, ftwist_getVector_rot L ch o o4 o9 (mkFT v (FQuatDiff f)) (OQuat q) = Some [gx v; gy v; gz v; gx w'; gy w'; gz w'] /\ vfinite w' /\
  forall (x : V3) (dx : V3), Vderiv (fun s => motion (quat_rot (c s)) (pos s) x) t dx ->
    vdist (point_velocity (quat_rot (c t)) (vval v) (vval w') x) dx <= E + ((8 + A) * roundoff p * vnorm w + 21/10 * B + underflow p) * vnorm x.
Proof.
  intros p L ch o o4 o9 q f v pos c t dpos d w A B E O Fq Ff N DP DQ C AU CB CE HW HB. exists (flocal_of_quatdiff o4 q f).
  destruct (C82_quaternion_velocity_lemma p o4 q f c t d w A B O Fq Ff HB N DQ C AU CB) as [H _]. destruct (H HW) as [F X]. split; [reflexivity|]. split; [exact F|].
  intros x dx D. assert (SR : SO3 (quat_rot (c t))) by (apply quat_rot_SO3, qnorm_unit, N).
  assert (G : has_global_velocity (fun s => quat_rot (c s)) t (mvmul (quat_rot (c t)) w)) by (apply (local_global_velocity (fun s => quat_rot (c s)) t w SR), HW).
  pose proof (Vderiv_motion (fun s => quat_rot (c s)) pos t _ dpos x G DP) as DM. cbv beta in DM. destruct (rigid_SO3 _ SR w x) as (_ & _ & CR). rewrite CR in DM.
  rewrite (Vderiv_one _ _ _ _ D DM). apply point_near; assumption.
Qed.

(** C93: the same for a twist with a global angular velocity and a rotation of any of the
    six classes *)
Lemma C93_global_twist_lemma : forall (p : prim) (L : libm) (ch : choices6) (o o4 : orders3) (o9 : orders9) (r : fobject p) (v g : FV p)
  (pos : R -> V3) (c : R -> M33) (t : R) (dpos w : V3) (T A E : R),
  libm_ok L -> choices6_ok ch -> orders3_ok 3 3 3 o -> 64/10 <= T <= 655/100 -> stands T A r (c t) -> A * roundoff p <= / 100 -> vfinite g -> vnorm (vval g) <= 2 ^ 100 ->
  Vderiv pos t dpos -> has_local_velocity c t w -> has_global_velocity c t (vval g) -> vdist (vval v) dpos <= E ->
  exists w' : FV p, ftwist_getVector_rot L ch o o4 o9 (mkFT v (FGlobal g)) r = Some [gx v; gy v; gz v; gx w'; gy w'; gz w'] /\ vfinite w' /\
  forall (x : V3) (dx : V3), Vderiv (fun s => motion (c s) (pos s) x) t dx ->
    vdist (point_velocity (c t) (vval v) (vval w') x) dx <=
      E + ((conv_defect (okind_of r) KMat A + 6 + match okind_of r with KSrc _ => 4200 | _ => 0 end) * roundoff p * vnorm (vval g) + underflow p) * vnorm x.
Proof.
  intros p L ch o o4 o9 r v g pos c t dpos w T A E HL HC O HT HS AU Fg Ng DP HW HG CE. exists (flocal_of_global L ch o r g).
  destruct (C82_frames_lemma p L ch o r c t T A g w (vval g) HL HC O HT HS AU Fg Ng HW HG) as [_ H]. destruct (H eq_refl) as [F X]. split; [destruct r; reflexivity|]. split; [exact F|].
  intros x dx D. assert (SR : SO3 (c t)) by (apply (stands_SO3 _ _ _ _ _ HS); intros _; rewrite roundoff_fu in AU; lra).
  assert (G : has_global_velocity c t (mvmul (c t) w)) by (apply (local_global_velocity c t w SR), HW).
  pose proof (Vderiv_motion c pos t _ dpos x G DP) as DM. cbv beta in DM. destruct (rigid_SO3 _ SR w x) as (_ & _ & CR). rewrite CR in DM.
  rewrite (Vderiv_one _ _ _ _ D DM). apply point_near; assumption.
Qed.
Lemma C93_quaternion_twist_ex : Vderiv (fun s => mkV3 s 0 0) 0 (mkV3 1 0 0) /\ (forall s, qnorm (spin s) = 1) /\ Qderiv spin 0 (mkQ (-2/5) (3/10) 0 0) /\
  qdist (qval q345) (spin 0) <= 6 * roundoff F32 /\ qdist (qval rate345) (mkQ (-2/5) (3/10) 0 0) <= 6 * roundoff F32 /\ has_local_velocity (fun s => quat_rot (spin s)) 0 ex /\
  vdist (vval (funit_x F32)) (mkV3 1 0 0) <= 0.
Proof.
  destruct C82_quaternion_velocity_ex as (_ & _ & _ & _ & N & D & C & _ & R & H & _). split; [unfold Vderiv; cbn [Linalg.vx Linalg.vy Linalg.vz]; repeat split; [apply derivable_pt_lim_id|apply derivable_pt_lim_const|apply derivable_pt_lim_const]|].
  split; [exact N|]. split; [exact D|]. split; [exact C|]. split; [exact R|]. split; [exact H|]. rewrite (proj2 (funit_x_R F32)). unfold ex, vdist. 
  replace (vsub (mkV3 1 0 0) (mkV3 1 0 0)) with (mkV3 0 0 0) by lin. unfold vnorm, vnorm2, vdot. cbn [Linalg.vx Linalg.vy Linalg.vz]. rewrite !Rmult_0_l, !Rplus_0_l, sqrt_0. lra.
Qed.
Lemma C93_global_twist_ex : libm_ok exact_libm /\ choices6_ok stdsix /\ stands (64/10) 61 (OMat m345) (spinm 0) /\ 61 * roundoff F32 <= / 100 /\
  vval (funit_x F32) = ex /\ has_local_velocity spinm 0 ex /\ has_global_velocity spinm 0 ex /\ Vderiv (fun s => mkV3 s 0 0) 0 (mkV3 1 0 0).
Proof.
  destruct C82_frames_ex as (A & B & _ & C & D & _ & _ & E & F & G). repeat (split; [assumption|]). apply C93_quaternion_twist_ex.
Qed.
