(** * SpecSix: rotation objects of the six classes holding floating-point numbers,
    the rotation they stand for, and the bookkeeping of rounding errors over a
    history of calls. *)
From Coq Require Import Reals ZArith List.
From Flocq Require Import IEEE754.BinarySingleNaN Core.Core.
From Verif Require Import Linalg Spec SpecClose ModelCommon FloatModel FloatModel2 FloatModel3 FloatModel4 FloatModel7 SpecFloatQ SpecLibm SpecBuild SpecExt.
Import ListNotations.
Local Open Scope R_scope.

(** The object holds finite numbers and stands for the rotation [r] with a defect of
    [A] roundings: the norm of a quaternion is off by [A] roundings from one, a
    matrix is off by [A] roundings from the rotation matrix [r]. Objects of the
    other four classes stand for a rotation exactly; angles and lengths are at
    most [T]. *)
Definition stands {p} (T A : R) (x : fobject p) (r : M33) : Prop :=
  match x with
  | OQuat q => qfinite q /\ Rabs (qnorm (qval q) - 1) <= A * roundoff p /\ quat_rot (direction (qval q)) = r
  | OMat m => mfinite m /\ SO3 r /\ close (A * roundoff p) (mval m) r
  | OSrc s => object_ok T s /\ turns s = r
  end.
(** pow of the C math library, for bases between 1/2 and 2 and exponents between -1
    and 1: off by at most four roundings of double *)
Definition pow_ok (P : fl F64 -> fl F64 -> fl F64) : Prop :=
  forall x y : fl F64, is_finite x = true -> is_finite y = true -> 1/2 <= B2R x <= 2 -> Rabs (B2R y) <= 1 ->
  approximates (4 * roundoff F64) (P x y) (Rpower (B2R x) (B2R y)).

(** ** One conversion: the defect of the new object, the change of the rotation in
    roundings, and how large the defect of the old object may be *)
Definition conv_defect (from to : okind) (A : R) : R :=
  match from, to with
  | KQuat, KQuat | KMat, KMat => A
  | KQuat, KMat => 5 * A + 18
  | KMat, KQuat => 3 * A + 14
  | KSrc _, KQuat => 166/5
  | KSrc _, KMat => 380
  | _, KSrc _ => 0
  end.
Definition conv_roundings (from to : okind) (A : R) : R :=
  match from, to with
  | KQuat, KQuat | KMat, KMat | KQuat, KMat | KSrc _, KMat => 0
  | KMat, KQuat => 61/10 * A + 29
  | KSrc _, KQuat => 68
  | KQuat, KSrc k => extract_roundings k A
  | KMat, KSrc k => extract_roundings k (3 * A + 14)
  | KSrc _, KSrc _ => 4300
  end.
(** conversions of a rotation vector that replace short vectors by the identity *)
Definition conv_drop (p : prim) (from to : okind) : R :=
  match from, to with KSrc f, KSrc t => if drops_short f t then 101/100 * short_length p else 0 | _, _ => 0 end.
Definition conv_error (p : prim) (from to : okind) (A : R) : R := conv_roundings from to A * roundoff p + conv_drop p from to.
Definition conv_limit (p : prim) (from to : okind) (A : R) : Prop :=
  match from, to with
  | KQuat, KQuat => A * roundoff p <= / 40
  | KQuat, KMat => A * roundoff p <= / 100
  | KMat, KQuat => A * roundoff p <= / 1000
  | KQuat, KSrc k => A <= extract_limit k
  | KMat, KSrc k => 3 * A + 14 <= extract_limit k
  | _, _ => True
  end.

(** ** One product of objects of classes [l] and [r] with defects [A] and [B] *)
(** one product of two matrices, of two quaternions *)
Definition joint (A B : R) : R := A + B + Rmin A B / 100 + 10.
Definition qjoint (A B : R) : R := A + B + Rmin A B / 100 + 46/5.
(** the product of the quaternions *)
Definition qprod_defect (l r : okind) (A B : R) : R := qjoint (conv_defect l KQuat A) (conv_defect r KQuat B).
Definition qprod_roundings (l r : okind) (A B : R) : R := conv_roundings l KQuat A + conv_roundings r KQuat B + 20.
Definition prod_defect (l r : okind) (A B : R) : R :=
  match l, r with KMat, KMat => joint A B | _, _ => conv_defect KQuat l (qprod_defect l r A B) end.
Definition prod_error (p : prim) (l r : okind) (A B : R) : R :=
  match l, r with KMat, KMat => 0 | _, _ => qprod_roundings l r A B * roundoff p + conv_error p KQuat l (qprod_defect l r A B) end.
Definition prod_limit (p : prim) (l r : okind) (A B : R) : Prop :=
  match l, r with
  | KMat, KMat => A * roundoff p <= / 100 /\ B * roundoff p <= / 100
  | _, _ => conv_limit p l KQuat A /\ conv_limit p r KQuat B /\ conv_limit p KQuat l (qprod_defect l r A B) /\
            conv_defect l KQuat A * roundoff p <= / 100 /\ conv_defect r KQuat B * roundoff p <= / 100
  end.

(** ** One call of fix() *)
Definition fix_defect (k : okind) (A : R) : R := match k with KQuat => 6 | KMat => 21/10 * A + 20 | KSrc _ => 0 end.
Definition fix_roundings (k : okind) : R := match k with KQuat => 13 | KSrc SAA => 25 | _ => 0 end.
Definition fix_limit (p : prim) (k : okind) (A : R) : Prop := match k with KQuat => A * roundoff p <= / 100 | KMat => A * roundoff p <= / 1000 | KSrc _ => True end.

(** ** Histories. A call comes with the rotation and the defect of its operand. *)
Definition ocall (p : prim) : Type := (oop p * choices6 * (M33 * R))%type.
Definition ocall_ok {p} (c : ocall p) : Prop :=
  let '(o, ch, (e, B)) := c in
  choices6_ok ch /\ 0 <= B /\ match o with OMulRight t | OMulLeft t | OAssign t => stands (64/10) B t e | _ => True end.
(** the same calls on rotations, in exact arithmetic *)
Definition oexact_step {p} (r : M33) (c : ocall p) : M33 :=
  let '(o, _, (e, _)) := c in
  match o with
  | OMulRight _ => mmul r e
  | OMulLeft _ => mmul e r
  | OAssign _ => e
  | OInvert => mtrans r
  | OSetIdentity => mid
  | OFix | OConvert _ => r
  end.
Definition oexact {p} (r : M33) (l : list (ocall p)) : M33 := fold_left oexact_step l r.

(** class, defect (in roundings) and error so far *)
Record account : Type := mkAcc { acc_class : okind; acc_defect : R; acc_error : R }.
Definition acc_step {p} (a : account) (c : ocall p) : account :=
  let '(o, _, (_, B)) := c in let k := acc_class a in let A := acc_defect a in let E := acc_error a in
  match o with
  | OMulRight t => mkAcc k (prod_defect k (okind_of t) A B) (E + prod_error p k (okind_of t) A B)
  | OMulLeft t => let j := okind_of t in let D := prod_defect j k B A in mkAcc k (conv_defect j k D) (E + prod_error p j k B A + conv_error p j k D)
  | OAssign t => mkAcc k (conv_defect (okind_of t) k B) (conv_error p (okind_of t) k B)
  | OInvert => mkAcc k A (E + match k with KSrc _ => 4200 * roundoff p | _ => 0 end)
  | OSetIdentity => mkAcc k 0 0
  | OFix => mkAcc k (fix_defect k A) (E + fix_roundings k * roundoff p)
  | OConvert j => mkAcc j (conv_defect k j A) (E + conv_error p k j A)
  end.
Definition acc_limit {p} (a : account) (c : ocall p) : Prop :=
  let '(o, _, (_, B)) := c in let k := acc_class a in let A := acc_defect a in
  match o with
  | OMulRight t => prod_limit p k (okind_of t) A B
  | OMulLeft t => let j := okind_of t in prod_limit p j k B A /\ conv_limit p j k (prod_defect j k B A)
  | OAssign t => conv_limit p (okind_of t) k B
  | OInvert | OSetIdentity => True
  | OFix => fix_limit p k A
  | OConvert j => conv_limit p k j A
  end.
Definition acc_run {p} (a : account) (l : list (ocall p)) : account := fold_left acc_step l a.
(** every call meets its limit *)
Fixpoint acc_ok {p} (a : account) (l : list (ocall p)) : Prop :=
  match l with [] => True | c :: l => acc_limit a c /\ acc_ok (acc_step a c) l end.

(** ** Histories of an object of one of the four classes angle-axis, rotation vector,
    Euler angles, with operands of all six classes *)
(** quaternion operands are within 33 roundings of norm one, matrix operands within 6
    roundings of a rotation matrix *)
Definition good_operand (k : okind) (B : R) : Prop := match k with KQuat => B <= 33 | KMat => B <= 6 | KSrc _ => True end.
(** a RotationVector object is not multiplied by a matrix from the left; objects are
    not replaced by quaternions or matrices *)
Definition plain_call {p} (k : skind) (c : ocall p) : Prop :=
  let '(o, _, (_, B)) := c in
  match o with
  | OMulRight t | OAssign t => good_operand (okind_of t) B
  | OMulLeft t => good_operand (okind_of t) B /\ ~ (k = SRv /\ okind_of t = KMat)
  | OInvert | OSetIdentity | OFix | OConvert (KSrc _) => True
  | OConvert _ => False
  end.
Definition plain_class {p} (k : skind) (c : ocall p) : skind := match fst (fst c) with OConvert (KSrc j) => j | _ => k end.
Fixpoint plain_calls {p} (k : skind) (l : list (ocall p)) : Prop :=
  match l with [] => True | c :: l => plain_call k c /\ plain_calls (plain_class k c) l end.
