(** Generated by tools/genprops.py from Claims20.v: the property theorems only. *)
From Coq Require Import Reals ZArith Bool List Permutation Lra Lia Psatz.
From Flocq Require Import IEEE754.BinarySingleNaN Core.Core.
From Verif Require Import Linalg Spec SpecFacts SpecClose CloseFacts ModelCommon ModelEigen FloatModel FloatFacts FloatModulo FloatWrap FloatModel2 SpecFloatQ
  FloatQFacts FloatQProd FloatQHist FloatQRot FloatMHist FloatModel5 SpecPoseF FloatPose FloatPose2 Claims16.
Import ListNotations.
Local Open Scope R_scope.
From Verif Require Import Claims20.

(** C72: any history of products, assignments, setIdentity(), calls on the
    rotation member (fix(), invert(), ...) and assignments of the position member
    of a HomTransformQuat object in floating-point arithmetic, in any order of
    evaluation. Initial value and operands are known up to A roundings, positions
    handed in are no longer than L. After n calls the object is finite; it stands
    for the intended rigid motion: the rotation is off by 2(A+10)(n+1) roundings,
    the position by (4A+53)(n+1)^2 roundings of L, and so are the points it
    transforms and transforms back. *)
Theorem C72_history : forall (p : prim) (A L : R) (T : fpose p (FQ p)) (e : Quat) (t : V3) (l : list (fpcall p)) (K : nat),
  6 <= A <= 50 -> bpow radix2 (-100) <= L -> fqpose_ok A L T e t -> Forall (fpcall_ok A L) l ->
  pfixed_every K 0 l -> (A + 10) * roundoff p * (INR K + 1) <= / 100 ->
  let n1 := INR (length l) + 1 in
  (4 * A + 53) * roundoff p * n1 <= / 10 -> n1 * L <= bpow radix2 98 ->
  let T' := fprun T (map fst l) in let g := rigid_run (mkRigid (quat_rot e) t) l in
  SO3 (rg_rot g) /\ vnorm (rg_pos g) <= n1 * L /\
  qfinite (frot T') /\ close (2 * (A + 10) * roundoff p * n1) (quat_rot (direction (qval (frot T')))) (rg_rot g) /\
  Rabs (qnorm (qval (frot T')) - 1) <= (A + 10) * roundoff p * (INR (pproducts 0 l) + 1) /\
  vfinite (fpos T') /\ vdist (vval (fpos T')) (rg_pos g) <= (4 * A + 53) * roundoff p * L * (n1 * n1) /\
  forall (o : rotorders) (x : FV p), rotorders_ok o -> vfinite x -> vnorm (vval x) <= bpow radix2 98 ->
    (vfinite (fqtransform o T' x) /\
     vdist (vval (fqtransform o T' x)) (rigid_act g (vval x))
       <= roundoff p * ((26 + 7 * (A + 10) * n1) * vnorm (vval x) + (4 * A + 55) * L * (n1 * n1))) /\
    (vfinite (fqinverseTransform o T' x) /\
     forall y, rigid_act g y = vval x ->
     vdist (vval (fqinverseTransform o T' x)) y
       <= roundoff p * ((26 + 7 * (A + 10) * n1) * vnorm (vval x) + (16 * A + 212) * L * (n1 * n1))).
Proof. exact C72_history_lemma. Qed.
Print Assumptions C72_history.

Example C72_history_ex :
  let e := mkQ (3/5) (4/5) 0 0 in let t := mkV3 1 2 3 in
  let l : list (fpcall F32) := [(PMulRight std4 ro_std pose345, (e, t)); (PRotation (FFix leftright4 Quotient), (qid, t)); (PMulLeft std4 ro_std pose345, (e, t));
     (PRotation FInvert, (qid, t)); (PPosition (v123 F32), (qid, t)); (PSetIdentity, (qid, t)); (PAssign pose345, (e, t))] in
  bpow radix2 (-100) <= 4 /\ fqpose_ok 6 4 pose345 e t /\ Forall (fpcall_ok 6 4) l /\ pfixed_every 1 0 l /\ (6 + 10) * roundoff F32 * (INR 1 + 1) <= / 100 /\
  (4 * 6 + 53) * roundoff F32 * (INR (length l) + 1) <= / 10 /\ (INR (length l) + 1) * 4 <= bpow radix2 98.
Proof. exact Claims20.C72_history_ex. Qed.

(** C72: the same for a HomTransformMatrix object: (1.01A+12)(n+1) roundings for
    the rotation, (A+12)(n+1)^2 roundings of L for the position. *)
Theorem C72_matrix_history : forall (p : prim) (A L : R) (T : fpose p (FM p)) (e : M33) (t : V3) (l : list (fpmcall p)),
  0 <= A <= 1000 -> bpow radix2 (-100) <= L -> fmpose_ok A L T e t -> Forall (fpmcall_ok A L) l ->
  let n1 := INR (length l) + 1 in
  (101 / 100 * A + 12) * roundoff p * n1 <= / 100 -> n1 * L <= bpow radix2 98 ->
  let T' := fpmrun T (map fst l) in let g := mrigid_run (mkRigid e t) l in
  SO3 (rg_rot g) /\ vnorm (rg_pos g) <= n1 * L /\
  mfinite (frot T') /\ close ((101 / 100 * A + 12) * roundoff p * n1) (mval (frot T')) (rg_rot g) /\
  vfinite (fpos T') /\ vdist (vval (fpos T')) (rg_pos g) <= (A + 12) * roundoff p * L * (n1 * n1) /\
  forall (o : orders3) (x : FV p), orders3_ok 3 3 3 o -> vfinite x -> vnorm (vval x) <= bpow radix2 98 ->
    (vfinite (fmtransform o T' x) /\
     vdist (vval (fmtransform o T' x)) (rigid_act g (vval x))
       <= roundoff p * ((8 + (101 / 100 * A + 12) * n1) * vnorm (vval x) + (A + 14) * L * (n1 * n1))) /\
    (vfinite (fminverseTransform o T' x) /\
     forall y, rigid_act g y = vval x ->
     vdist (vval (fminverseTransform o T' x)) y
       <= roundoff p * ((8 + (101 / 100 * A + 12) * n1) * vnorm (vval x) + (4 * A + 48) * L * (n1 * n1))).
Proof. exact C72_matrix_history_lemma. Qed.
Print Assumptions C72_matrix_history.

Example C72_matrix_history_ex :
  let e := mkM33 0 (-1) 0 1 0 0 0 0 1 in let t := mkV3 1 2 3 in let P := mkFPose (v123 F32) (quarter F32) in
  let l : list (fpmcall F32) := [(PMMulRight std9 std3 P, (e, t)); (PMMulLeft std9 std3 P, (e, t)); (PMRotation MInvert, (e, t)); (PMSetIdentity, (e, t)); (PMPosition (v123 F32), (e, t)); (PMAssign P, (e, t))] in
  fmpose_ok 2 4 P e t /\ Forall (fpmcall_ok 2 4) l /\ (101 / 100 * 2 + 12) * roundoff F32 * (INR (length l) + 1) <= / 100 /\ (INR (length l) + 1) * 4 <= bpow radix2 98.
Proof. exact Claims20.C72_matrix_history_ex. Qed.

(** C72: inverseTransform undoes transform and the other way round, up to the
    stated number of roundings. *)
Theorem C72_round_trip : forall (p : prim) (A L : R) (T : fpose p (FQ p)) (e : Quat) (t : V3) (o o' : rotorders) (x : FV p),
  6 <= A <= 50 -> bpow radix2 (-100) <= L <= bpow radix2 96 -> fqpose_ok A L T e t -> rotorders_ok o -> rotorders_ok o' ->
  vfinite x -> vnorm (vval x) <= bpow radix2 96 ->
  (vfinite (fqinverseTransform o T (fqtransform o' T x)) /\
   vdist (vval (fqinverseTransform o T (fqtransform o' T x))) (vval x) <= roundoff p * ((15 * A + 200) * vnorm (vval x) + (28 * A + 370) * L)) /\
  (vfinite (fqtransform o T (fqinverseTransform o' T x)) /\
   vdist (vval (fqtransform o T (fqinverseTransform o' T x))) (vval x) <= roundoff p * ((15 * A + 200) * vnorm (vval x) + (28 * A + 370) * L)).
Proof. exact C72_round_trip_lemma. Qed.
Print Assumptions C72_round_trip.

Example C72_round_trip_ex : fqpose_ok 6 4 pose345 (mkQ (3/5) (4/5) 0 0) (mkV3 1 2 3) /\ rotorders_ok ro_std /\ bpow radix2 (-100) <= 4 <= bpow radix2 96 /\
  vfinite (v123 F32) /\ fqinverseTransform ro_std pose345 (fqtransform ro_std pose345 (v123 F32)) <> v123 F32.
Proof. exact Claims20.C72_round_trip_ex. Qed.

(** C72: getTransformationMatrix() of a quaternion pose acts on homogeneous
    coordinates like the intended motion, up to (7A+19) roundings; its last row is
    exactly 0 0 0 1 and its last column holds the bits of the position. A
    HomTransformMatrix constructed from the pose is an operand of matrix poses with
    the same accuracy, so the theorems for matrix poses apply to it. *)
Theorem C72_matrix : forall (p : prim) (A L : R) (T : fpose p (FQ p)) (e : Quat) (t : V3) (o : orders9),
  6 <= A <= 50 -> 0 <= L -> fqpose_ok A L T e t -> orders9_rot_ok o ->
  let m := fqpose_matrix o T in let g := mkRigid (quat_rot e) t in
  (forall i j, (i < 4)%nat -> (j < 4)%nat -> is_finite (nth j (nth i m []) fzero) = true) /\
  (forall x, vdist (matrix_act m x) (rigid_act g x) <= roundoff p * ((7 * A + 19) * vnorm x + A * L)) /\
  (forall x, row_act m 3 x = 1) /\
  [nth 3 (nth 0 m []) fzero; nth 3 (nth 1 m []) fzero; nth 3 (nth 2 m []) fzero] = flist (fpos T) /\
  fmpose_ok (7 * A + 19) L (fmpose_of_q o T) (quat_rot e) t /\ fmpose_matrix (fmpose_of_q o T) = m.
Proof. exact C72_matrix_lemma. Qed.
Print Assumptions C72_matrix.

Example C72_matrix_ex : fqpose_ok 6 4 pose345 (mkQ (3/5) (4/5) 0 0) (mkV3 1 2 3) /\ orders9_rot_ok stdrot /\
  B2SF (nth 1 (nth 1 (fqpose_matrix stdrot pose345) []) fzero) = SpecFloat.S754_finite true 9395244 (-25).
Proof. exact Claims20.C72_matrix_ex. Qed.
