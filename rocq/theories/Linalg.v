(** * Linalg: plain mathematics shared by the specification and by the model.

    Nothing in this file is specific to kindr: 3-vectors, 3x3 matrices and
    4-tuples over the exact reals, with the textbook operations.  Both the
    specification ([Spec.v]) and the model of the code use these names as
    common mathematical vocabulary. *)
From Coq Require Import Reals Lra Psatz.
Local Open Scope R_scope.

Record V3 : Type := mkV3 { vx : R; vy : R; vz : R }.

(** 3x3 matrix, row major; [m01] is row 0, column 1. *)
Record M33 : Type := mkM33
  { m00 : R; m01 : R; m02 : R;
    m10 : R; m11 : R; m12 : R;
    m20 : R; m21 : R; m22 : R }.

(** Quaternion [qw + qx i + qy j + qz k]. *)
Record Quat : Type := mkQ { qw : R; qx : R; qy : R; qz : R }.

Definition vzero : V3 := mkV3 0 0 0.
Definition ex : V3 := mkV3 1 0 0.
Definition ey : V3 := mkV3 0 1 0.
Definition ez : V3 := mkV3 0 0 1.
Definition vadd (a b : V3) : V3 := mkV3 (vx a + vx b) (vy a + vy b) (vz a + vz b).
Definition vsub (a b : V3) : V3 := mkV3 (vx a - vx b) (vy a - vy b) (vz a - vz b).
Definition vneg (a : V3) : V3 := mkV3 (- vx a) (- vy a) (- vz a).
Definition vscale (s : R) (a : V3) : V3 := mkV3 (s * vx a) (s * vy a) (s * vz a).
Definition vdot (a b : V3) : R := vx a * vx b + vy a * vy b + vz a * vz b.
Definition vcross (a b : V3) : V3 :=
  mkV3 (vy a * vz b - vz a * vy b)
       (vz a * vx b - vx a * vz b)
       (vx a * vy b - vy a * vx b).
Definition vnorm2 (a : V3) : R := vdot a a.
Definition vnorm (a : V3) : R := sqrt (vnorm2 a).

Definition mzero : M33 := mkM33 0 0 0 0 0 0 0 0 0.
Definition mid : M33 := mkM33 1 0 0 0 1 0 0 0 1.
Definition madd (a b : M33) : M33 :=
  mkM33 (m00 a + m00 b) (m01 a + m01 b) (m02 a + m02 b)
        (m10 a + m10 b) (m11 a + m11 b) (m12 a + m12 b)
        (m20 a + m20 b) (m21 a + m21 b) (m22 a + m22 b).
Definition msub (a b : M33) : M33 :=
  mkM33 (m00 a - m00 b) (m01 a - m01 b) (m02 a - m02 b)
        (m10 a - m10 b) (m11 a - m11 b) (m12 a - m12 b)
        (m20 a - m20 b) (m21 a - m21 b) (m22 a - m22 b).
Definition mscale (s : R) (a : M33) : M33 :=
  mkM33 (s * m00 a) (s * m01 a) (s * m02 a)
        (s * m10 a) (s * m11 a) (s * m12 a)
        (s * m20 a) (s * m21 a) (s * m22 a).
Definition mtrans (a : M33) : M33 :=
  mkM33 (m00 a) (m10 a) (m20 a)
        (m01 a) (m11 a) (m21 a)
        (m02 a) (m12 a) (m22 a).
Definition mmul (a b : M33) : M33 :=
  mkM33
    (m00 a * m00 b + m01 a * m10 b + m02 a * m20 b)
    (m00 a * m01 b + m01 a * m11 b + m02 a * m21 b)
    (m00 a * m02 b + m01 a * m12 b + m02 a * m22 b)
    (m10 a * m00 b + m11 a * m10 b + m12 a * m20 b)
    (m10 a * m01 b + m11 a * m11 b + m12 a * m21 b)
    (m10 a * m02 b + m11 a * m12 b + m12 a * m22 b)
    (m20 a * m00 b + m21 a * m10 b + m22 a * m20 b)
    (m20 a * m01 b + m21 a * m11 b + m22 a * m21 b)
    (m20 a * m02 b + m21 a * m12 b + m22 a * m22 b).
Definition mvmul (a : M33) (v : V3) : V3 :=
  mkV3 (m00 a * vx v + m01 a * vy v + m02 a * vz v)
       (m10 a * vx v + m11 a * vy v + m12 a * vz v)
       (m20 a * vx v + m21 a * vy v + m22 a * vz v).
Definition mdet (a : M33) : R :=
  m00 a * (m11 a * m22 a - m12 a * m21 a)
  - m01 a * (m10 a * m22 a - m12 a * m20 a)
  + m02 a * (m10 a * m21 a - m11 a * m20 a).
Definition mtrace (a : M33) : R := m00 a + m11 a + m22 a.
(** The matrix of the linear map [v |-> w x v]. *)
Definition mcross (w : V3) : M33 :=
  mkM33 0 (- vz w) (vy w)
        (vz w) 0 (- vx w)
        (- vy w) (vx w) 0.
(** Matrix whose columns are the images of the three unit vectors. *)
Definition mat_of (f : V3 -> V3) : M33 :=
  mkM33 (vx (f ex)) (vx (f ey)) (vx (f ez))
        (vy (f ex)) (vy (f ey)) (vy (f ez))
        (vz (f ex)) (vz (f ey)) (vz (f ez)).

Definition qid : Quat := mkQ 1 0 0 0.
Definition qneg (q : Quat) : Quat := mkQ (- qw q) (- qx q) (- qy q) (- qz q).
Definition qvec (q : Quat) : V3 := mkV3 (qx q) (qy q) (qz q).
Definition qnorm2 (q : Quat) : R :=
  qw q * qw q + qx q * qx q + qy q * qy q + qz q * qz q.
Definition qnorm (q : Quat) : R := sqrt (qnorm2 q).

(** ** Tactics *)
Ltac lin_destruct :=
  repeat match goal with
  | v : V3 |- _ => destruct v
  | m : M33 |- _ => destruct m
  | q : Quat |- _ => destruct q
  end.

Ltac lin_unfold :=
  cbv beta iota zeta delta [vnorm qnorm mat_of mtrace mdet mcross mmul mvmul mtrans mscale
    msub madd mid mzero vnorm2 vdot vcross vscale vneg vsub vadd vzero
    ex ey ez qnorm2 qvec qneg qid
    vx vy vz m00 m01 m02 m10 m11 m12 m20 m21 m22 qw qx qy qz] in *.

Ltac lin_eq :=
  match goal with
  | |- mkV3 _ _ _ = mkV3 _ _ _ => f_equal
  | |- mkM33 _ _ _ _ _ _ _ _ _ = mkM33 _ _ _ _ _ _ _ _ _ => f_equal
  | |- mkQ _ _ _ _ = mkQ _ _ _ _ => f_equal
  | _ => idtac
  end.

Ltac lin := intros; lin_destruct; lin_unfold; lin_eq; try ring.

Lemma V3_ext (a b : V3) : vx a = vx b -> vy a = vy b -> vz a = vz b -> a = b.
Proof. destruct a, b; simpl; intros; subst; reflexivity. Qed.

Lemma Quat_ext (a b : Quat) :
  qw a = qw b -> qx a = qx b -> qy a = qy b -> qz a = qz b -> a = b.
Proof. destruct a, b; simpl; intros; subst; reflexivity. Qed.

Lemma mmul_assoc (a b c : M33) : mmul a (mmul b c) = mmul (mmul a b) c.
Proof. lin. Qed.
Lemma mmul_id_l (a : M33) : mmul mid a = a.
Proof. lin. Qed.
Lemma mmul_id_r (a : M33) : mmul a mid = a.
Proof. lin. Qed.
Lemma mvmul_mmul (a b : M33) (v : V3) : mvmul (mmul a b) v = mvmul a (mvmul b v).
Proof. lin. Qed.
Lemma mvmul_id (v : V3) : mvmul mid v = v.
Proof. lin. Qed.
Lemma mtrans_mmul (a b : M33) : mtrans (mmul a b) = mmul (mtrans b) (mtrans a).
Proof. lin. Qed.
Lemma mtrans_mtrans (a : M33) : mtrans (mtrans a) = a.
Proof. lin. Qed.
Lemma mtrans_mid : mtrans mid = mid.
Proof. lin. Qed.
Lemma mdet_mmul (a b : M33) : mdet (mmul a b) = mdet a * mdet b.
Proof. lin. Qed.
Lemma mdet_mtrans (a : M33) : mdet (mtrans a) = mdet a.
Proof. lin. Qed.
Lemma mcross_spec (w v : V3) : mvmul (mcross w) v = vcross w v.
Proof. lin. Qed.
Lemma vnorm2_nonneg (v : V3) : 0 <= vnorm2 v.
Proof. lin_destruct; lin_unfold; nra. Qed.
Lemma vnorm_nonneg (v : V3) : 0 <= vnorm v.
Proof. apply sqrt_pos. Qed.
Lemma vnorm_sqr (v : V3) : vnorm v * vnorm v = vnorm2 v.
Proof. apply sqrt_sqrt, vnorm2_nonneg. Qed.
Lemma vnorm2_zero (v : V3) : vnorm2 v = 0 -> v = vzero.
Proof. lin_destruct; lin_unfold; intros; f_equal; nra. Qed.
Lemma vnorm_zero (v : V3) : vnorm v = 0 -> v = vzero.
Proof. intros H. apply vnorm2_zero. rewrite <- vnorm_sqr, H; ring. Qed.
Lemma vnorm_vzero : vnorm vzero = 0.
Proof. unfold vnorm. replace (vnorm2 vzero) with 0 by (lin). apply sqrt_0. Qed.
Lemma vnorm2_vscale s v : vnorm2 (vscale s v) = s * s * vnorm2 v.
Proof. lin. Qed.
Lemma vnorm_vscale s v : vnorm (vscale s v) = Rabs s * vnorm v.
Proof.
  unfold vnorm. rewrite vnorm2_vscale, sqrt_mult.
  - f_equal. replace (s * s) with (Rsqr s) by reflexivity. apply sqrt_Rsqr_abs.
  - nra.
  - apply vnorm2_nonneg.
Qed.
Lemma vnorm_unit (v : V3) : vnorm v = 1 <-> vnorm2 v = 1.
Proof.
  split; intros H.
  - rewrite <- vnorm_sqr, H; ring.
  - unfold vnorm; rewrite H; apply sqrt_1.
Qed.
Lemma qnorm2_nonneg (q : Quat) : 0 <= qnorm2 q.
Proof. lin_destruct; lin_unfold; nra. Qed.
Lemma qnorm_sqr (q : Quat) : qnorm q * qnorm q = qnorm2 q.
Proof. apply sqrt_sqrt, qnorm2_nonneg. Qed.
Lemma qnorm_unit (v : Quat) : qnorm v = 1 <-> qnorm2 v = 1.
Proof.
  split; intros H.
  - rewrite <- qnorm_sqr, H; ring.
  - unfold qnorm; rewrite H; apply sqrt_1.
Qed.
Lemma qnorm2_vec (q : Quat) : qnorm2 q = qw q * qw q + vnorm2 (qvec q).
Proof. lin. Qed.

(** Two matrices that act alike are equal. *)
Lemma mvmul_ext (a b : M33) : (forall v, mvmul a v = mvmul b v) -> a = b.
Proof.
  intros H.
  pose proof (H ex) as H1; pose proof (H ey) as H2; pose proof (H ez) as H3.
  lin_destruct; lin_unfold.
  injection H1; injection H2; injection H3; intros. f_equal; lra.
Qed.

(** A left inverse of a 3x3 matrix is a right inverse. *)
Lemma mmul_inv_comm (a b : M33) : mmul a b = mid -> mmul b a = mid.
Proof.
  intros H.
  assert (Hd : mdet a * mdet b = 1).
  { rewrite <- mdet_mmul, H. lin. }
  (* adjugate *)
  set (adj := mkM33
     (m11 a * m22 a - m12 a * m21 a) (m02 a * m21 a - m01 a * m22 a) (m01 a * m12 a - m02 a * m11 a)
     (m12 a * m20 a - m10 a * m22 a) (m00 a * m22 a - m02 a * m20 a) (m02 a * m10 a - m00 a * m12 a)
     (m10 a * m21 a - m11 a * m20 a) (m01 a * m20 a - m00 a * m21 a) (m00 a * m11 a - m01 a * m10 a)).
  assert (Ha : mmul adj a = mscale (mdet a) mid).
  { unfold adj. destruct a; lin_unfold; f_equal; ring. }
  assert (Hda : mdet a <> 0) by (intro E; rewrite E in Hd; lra).
  assert (Hb : b = mscale (/ mdet a) adj).
  { assert (E : mmul (mmul adj a) b = adj).
    { rewrite <- mmul_assoc, H. apply mmul_id_r. }
    rewrite Ha in E. rewrite <- E.
    destruct b; lin_unfold; f_equal; field; exact Hda. }
  rewrite Hb.
  replace (mmul (mscale (/ mdet a) adj) a) with (mscale (/ mdet a) (mmul adj a)) by lin.
  rewrite Ha. lin_unfold; f_equal; field; exact Hda.
Qed.
