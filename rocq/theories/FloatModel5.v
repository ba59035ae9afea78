(** Floating-point model of the poses HomTransformQuat and HomTransformMatrix
    (poses/HomogeneousTransformation.hpp, poses/Pose.hpp, poses/PoseBase.hpp). *)
From Coq Require Import ZArith Bool List.
From Flocq Require Import IEEE754.BinarySingleNaN Core.Core.
From Verif Require Import ModelCommon FloatModel FloatModel2.
Import ListNotations.
Local Open Scope Z_scope.

(** Vector::operator+ and operator-, vectors/Vector.hpp:348-358: one rounding per
    coefficient *)
Definition fvadd {p} (a b : FV p) : FV p := mkFV (fadd (gx a) (gx b)) (fadd (gy a) (gy b)) (fadd (gz a) (gz b)).
Definition fvsub {p} (a b : FV p) : FV p := mkFV (fsub (gx a) (gx b)) (fsub (gy a) (gy b)) (fsub (gz a) (gz b)).
(** Position::Zero() *)
Definition fvzero {p} : FV p := mkFV fzero fzero fzero.
(** RotationQuaternion::Identity(), RotationMatrix::Identity() *)
Definition fqid {p} : FQ p := mkFQ (fofZ p 1) fzero fzero fzero.
Definition fmid {p} : FM p :=
  mkFM (mkFV (fofZ p 1) fzero fzero) (mkFV fzero (fofZ p 1) fzero) (mkFV fzero fzero (fofZ p 1)).

(** The two members position_ and rotation_, HomogeneousTransformation.hpp:40-44 *)
Record fpose (p : prim) (Rot : Set) : Set := mkFPose { fpos : FV p; frot : Rot }.
Arguments mkFPose {p Rot}. Arguments fpos {p Rot}. Arguments frot {p Rot}.

(** Orders of evaluation of the two steps of rotate(v) of a quaternion *)
Record rotorders : Set := mkRO { ro_m : orders9; ro_v : orders3 }.
Definition rotorders_ok (o : rotorders) : Prop := orders9_rot_ok (ro_m o) /\ orders3_ok 3 3 3 (ro_v o).

(** *** HomTransformQuat *)
(** transform, HomogeneousTransformation.hpp:165-167 *)
Definition fqtransform {p} (o : rotorders) (t : fpose p (FQ p)) (x : FV p) : FV p :=
  fvadd (fquat_rotate (ro_m o) (ro_v o) (frot t) x) (fpos t).
(** inverseTransform, HomogeneousTransformation.hpp:168-170, RotationBase.hpp:326-328 *)
Definition fqinverseTransform {p} (o : rotorders) (t : fpose p (FQ p)) (x : FV p) : FV p :=
  fquat_rotate (ro_m o) (ro_v o) (fconj (frot t)) (fvsub x (fpos t)).
(** operator*, HomogeneousTransformation.hpp:176-185 *)
Definition fqpose_mult {p} (o4 : orders4) (o : rotorders) (a b : fpose p (FQ p)) : fpose p (FQ p) :=
  mkFPose (fvadd (fpos a) (fquat_rotate (ro_m o) (ro_v o) (frot a) (fpos b))) (fmult o4 (frot a) (frot b)).
(** setIdentity(), Identity(): HomogeneousTransformation.hpp:119-130 *)
Definition fqpose_identity {p} : fpose p (FQ p) := mkFPose fvzero fqid.
(** getTransformationMatrix, HomogeneousTransformation.hpp:100-106: rows *)
Definition fqpose_matrix {p} (o : orders9) (t : fpose p (FQ p)) : list (list (fl p)) :=
  let m := ftoRot o (frot t) in let x := fpos t in
  [ flist (r0 m) ++ [gx x]; flist (r1 m) ++ [gy x]; flist (r2 m) ++ [gz x]; [fzero; fzero; fzero; fofZ p 1] ].

(** *** HomTransformMatrix *)
Definition fmtransform {p} (o : orders3) (t : fpose p (FM p)) (x : FV p) : FV p :=
  fvadd (fmv o (frot t) x) (fpos t).
Definition fminverseTransform {p} (o : orders3) (t : fpose p (FM p)) (x : FV p) : FV p :=
  fmv o (ftrans (frot t)) (fvsub x (fpos t)).
Definition fmpose_mult {p} (o9 : orders9) (o : orders3) (a b : fpose p (FM p)) : fpose p (FM p) :=
  mkFPose (fvadd (fpos a) (fmv o (frot a) (fpos b))) (fmm o9 (frot a) (frot b)).
Definition fmpose_identity {p} : fpose p (FM p) := mkFPose fvzero fmid.
Definition fmpose_matrix {p} (t : fpose p (FM p)) : list (list (fl p)) :=
  let m := frot t in let x := fpos t in
  [ flist (r0 m) ++ [gx x]; flist (r1 m) ++ [gy x]; flist (r2 m) ++ [gz x]; [fzero; fzero; fzero; fofZ p 1] ].
(** HomTransformMatrix constructed from a HomTransformQuat,
    HomogeneousTransformation.hpp:62-67 (the position is copied) *)
Definition fmpose_of_q {p} (o : orders9) (t : fpose p (FQ p)) : fpose p (FM p) := mkFPose (fpos t) (ftoRot o (frot t)).

(** ** Calls on one pose object *)
Inductive fpop (p : prim) : Set :=
  | PMulRight (o4 : orders4) (o : rotorders) (b : fpose p (FQ p))   (* T = T * b *)
  | PMulLeft (o4 : orders4) (o : rotorders) (b : fpose p (FQ p))    (* T = b * T *)
  | PAssign (b : fpose p (FQ p))                                    (* T = b *)
  | PSetIdentity                                                    (* T.setIdentity() *)
  | PRotation (c : fop p)                                           (* a call on T.getRotation(), e.g. fix() *)
  | PPosition (x : FV p).                                           (* T.getPosition() = x *)
Arguments PMulRight {p}. Arguments PMulLeft {p}. Arguments PAssign {p}. Arguments PSetIdentity {p}. Arguments PRotation {p}. Arguments PPosition {p}.
Definition fpstep {p} (t : fpose p (FQ p)) (c : fpop p) : fpose p (FQ p) :=
  match c with
  | PMulRight o4 o b => fqpose_mult o4 o t b
  | PMulLeft o4 o b => fqpose_mult o4 o b t
  | PAssign b => b
  | PSetIdentity => fqpose_identity
  | PRotation c => mkFPose (fpos t) (fstep (frot t) c)
  | PPosition x => mkFPose x (frot t)
  end.
Definition fprun {p} (t : fpose p (FQ p)) (l : list (fpop p)) : fpose p (FQ p) := fold_left fpstep l t.

Inductive fpmop (p : prim) : Set :=
  | PMMulRight (o9 : orders9) (o : orders3) (b : fpose p (FM p))
  | PMMulLeft (o9 : orders9) (o : orders3) (b : fpose p (FM p))
  | PMAssign (b : fpose p (FM p))
  | PMSetIdentity
  | PMRotation (c : fmop p)
  | PMPosition (x : FV p).
Arguments PMMulRight {p}. Arguments PMMulLeft {p}. Arguments PMAssign {p}. Arguments PMSetIdentity {p}. Arguments PMRotation {p}. Arguments PMPosition {p}.
Definition fpmstep {p} (t : fpose p (FM p)) (c : fpmop p) : fpose p (FM p) :=
  match c with
  | PMMulRight o9 o b => fmpose_mult o9 o t b
  | PMMulLeft o9 o b => fmpose_mult o9 o b t
  | PMAssign b => b
  | PMSetIdentity => fmpose_identity
  | PMRotation c => mkFPose (fpos t) (fmstep (frot t) c)
  | PMPosition x => mkFPose x (frot t)
  end.
Definition fpmrun {p} (t : fpose p (FM p)) (l : list (fpmop p)) : fpose p (FM p) := fold_left fpmstep l t.
