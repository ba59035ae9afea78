(** * SpecDebugF: histories of calls in a debug build, floating-point arithmetic. *)
From Coq Require Import Reals ZArith List.
From Flocq Require Import IEEE754.BinarySingleNaN Core.Core.
From Verif Require Import Linalg Spec SpecClose ModelCommon FloatModel FloatModel2 FloatModel3 FloatModel4 FloatModel7 SpecFloatQ SpecLibm SpecBuild SpecExt SpecSix FloatModel11.
Import ListNotations.
Local Open Scope R_scope.

(** The axis of an AngleAxis has length one up to 8e-7 *)
Definition axis_legal {p} (x : fobject p) : Prop := match x with OSrc (SrcAA _ n) => Rabs (vnorm (vval n) - 1) <= 8 / 10 ^ 7 | _ => True end.
(** A defect of [D] roundings is at most 9.9e-5 *)
Definition checked (p : prim) (D : R) : Prop := D * roundoff p <= 99 / 10 ^ 6.
(** What a debug build needs in addition to [conv_limit], [prod_limit] *)
Definition dconv_limit (p : prim) (from to : okind) (A : R) : Prop := match from, to with KMat, KQuat => checked p (conv_defect KMat KQuat A) | _, _ => True end.
Definition dprod_limit (p : prim) (l r : okind) (A B : R) : Prop := match l, r with KMat, KMat => True | _, _ => checked p (qprod_defect l r A B) end.
Definition dbg_limit {p} (a : account) (c : ocall p) : Prop :=
  let '(o, _, (_, B)) := c in let k := acc_class a in let A := acc_defect a in
  match o with
  | OMulRight t => dprod_limit p k (okind_of t) A B
  | OMulLeft t => let j := okind_of t in dprod_limit p j k B A /\ dconv_limit p j k (prod_defect j k B A)
  | OAssign t => dconv_limit p (okind_of t) k B
  | OInvert => match k with KQuat => checked p A | _ => True end
  | OSetIdentity | OFix => True
  | OConvert j => dconv_limit p k j A
  end.
Fixpoint dbg_limits {p} (a : account) (l : list (ocall p)) : Prop :=
  match l with [] => True | c :: l => dbg_limit a c /\ dbg_limits (acc_step a c) l end.
(** the operand of the call *)
Definition operand_legal {p} (c : ocall p) : Prop := match fst (fst c) with OMulRight t | OMulLeft t | OAssign t => axis_legal t | _ => True end.

(** The axis (or its negative) that AngleAxis computes from a quaternion whose vector
    part is not zero but shorter than 2^-116 (float), 2^-1012 (double) *)
Definition tiny_length (p : prim) : R := 1024 * half_smallest p / roundoff p.
Definition tiny_axis {p} (L : libm) (n : FV p) : Prop :=
  exists b q a n0, ext_ok b /\ qfinite q /\ faa_of_quat L b q = SrcAA a n0 /\ 0 < vnorm (vval (fvec q)) < tiny_length p /\ (n = n0 \/ n = fvneg n0).

(** Histories of one RotationQuaternion with quaternion operands whose norms are one up
    to [B] roundings, and at most [K] products between two calls of fix(),
    assignments or setIdentity() *)
Definition quat_call {p} (B : R) (c : ocall p) : Prop :=
  match c with
  | (OMulRight (OQuat _), _, (_, b)) | (OMulLeft (OQuat _), _, (_, b)) | (OAssign (OQuat _), _, (_, b)) => 0 <= b <= B
  | (OInvert, _, _) | (OSetIdentity, _, _) | (OFix, _, _) => True
  | _ => False
  end.
Definition oproducts {p} (k : nat) (c : ocall p) : nat :=
  match fst (fst c) with OMulRight _ | OMulLeft _ => S k | OInvert | OConvert _ => k | _ => 0 end%nat.
Fixpoint ofixed_every {p} (K k : nat) (l : list (ocall p)) : Prop :=
  (k <= K)%nat /\ match l with [] => True | c :: l => ofixed_every K (oproducts k c) l end.

(** Two matrices agree up to [d] in every coefficient *)
Definition mentries (m : M33) : list R := [m00 m; m01 m; m02 m; m10 m; m11 m; m12 m; m20 m; m21 m; m22 m].
Definition entries_within (d : R) (a b : M33) : Prop := Forall2 (fun x y => Rabs (x - y) <= d) (mentries a) (mentries b).
