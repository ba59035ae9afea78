(** * FloatModel21: construction of a rotation object of one primitive type (float,
    double) from an object of the other primitive type, for the six classes. *)
From Coq Require Import ZArith List.
From Flocq Require Import IEEE754.BinarySingleNaN Core.Core.
From Verif Require Import ModelCommon FloatModel FloatModel2 FloatModel3 FloatModel4 FloatModel5 FloatModel6 FloatModel7.
Import ListNotations.

(** Eigen's cast<DestPrimType_>() of a vector, of a matrix: RotationVector.hpp:309,
    RotationMatrix.hpp:344 *)
Definition fvcast {p} (q : prim) (v : FV p) : FV q := mkFV (fcvt q (gx v)) (fcvt q (gy v)) (fcvt q (gz v)).
Definition fmcast {p} (q : prim) (m : FM p) : FM q := mkFM (fvcast q (r0 m)) (fvcast q (r1 m)) (fvcast q (r2 m)).
(** AngleAxis.hpp:360, RotationVector.hpp:309, EulerAnglesZyx.hpp:580,
    EulerAnglesXyz.hpp:531 *)
Definition fscast {p} (q : prim) (s : fsource p) : fsource q :=
  match s with
  | SrcAA a n => SrcAA (fcvt q a) (fvcast q n)
  | SrcRv v => SrcRv (fvcast q v)
  | SrcZyx z y x => SrcZyx (fcvt q z) (fcvt q y) (fcvt q x)
  | SrcXyz x y z => SrcXyz (fcvt q x) (fcvt q y) (fcvt q z)
  end.
(** Construction of an object of the same class: also RotationQuaternion.hpp:555,
    RotationMatrix.hpp:344 *)
Definition ocast {p} (q : prim) (x : fobject p) : fobject q :=
  match x with OQuat a => OQuat (fqcast q a) | OMat m => OMat (fmcast q m) | OSrc s => OSrc (fscast q s) end.

(** RotationQuaternion from RotationVector, RotationQuaternion.hpp:511-548: the norm
    is computed in the source type (line 530) and then converted; everything else is
    computed in the destination type (theta*0.5: in double) *)
Definition frv_quat_rest {q} (L : libm) (t2 : dtree) (theta : fl q) (v : FV q) : FQ q :=
  let half_d := fmul (fcvt F64 theta) (fhalf F64) in
  let na :=
    if flt theta (leps4 L q)
    then fdot t2 [fofZ q 1; fneg (fmul theta theta)] [fhalf q; flit q 1 48]
    else fcvt q (fdiv (lsin L F64 half_d) (fcvt F64 theta)) in
  mkFQ (fcvt q (lcos L F64 half_d)) (fmul (gx v) na) (fmul (gy v) na) (fmul (gz v) na).
Definition xquat_of_rv {p} (q : prim) (L : libm) (t t2 : dtree) (v : FV p) : FQ q :=
  frv_quat_rest L t2 (fcvt q (fvnorm t v)) (fvcast q v).
(** AngleAxis from RotationVector, AngleAxis.hpp:365-381: the vector is converted
    first; the norm is compared with the dummy_precision of the source type (line
    368; the comparison of a float and a double is one of doubles) *)
Definition xaa_of_rv {p} (q : prim) (b : ext_orders) (v : FV p) : fsource q :=
  let w := fvcast q v in
  let n := fvnorm (x_norm b) w in
  if flt (fcvt F64 n) (fcvt F64 (fdummy p)) then SrcAA fzero (funit_x q)
  else
    let z := fdot (x_norm b) (flist w) (flist w) in
    SrcAA n (if flt fzero z then fvdiv (x_div b) w (fsqrt z) else w).

(** Construction of an object of class [k] and primitive type [q] from [x].
    RotationQuaternion.hpp:495-590, RotationMatrix.hpp:312-368, AngleAxis.hpp:355-423,
    RotationVector.hpp:304-363, EulerAnglesZyx.hpp:535-582, EulerAnglesXyz.hpp:492-540.
    Most constructors convert the numbers first. Euler angles of a quaternion are
    computed in the source type and converted last (EulerAnglesZyx.hpp:563,
    EulerAnglesXyz.hpp:513), also those of a rotation vector for EulerAnglesZyx (line
    555, through RotationQuaternion<Source>); EulerAnglesXyz of a rotation vector goes
    through AngleAxis<Source> (line 505). RotationVector of a RotationQuaternion of
    the other type is not modelled (None): RotationVector.hpp:329-342 mixes numbers
    of both types in Eigen expressions, which Eigen may refuse to compile. *)
Definition xconvert {p} (q : prim) (L : libm) (c : choices6) (k : okind) (x : fobject p) : option (fobject q) :=
  let b := ch_build (c6_src c) in
  match k, x with
  | KQuat, OSrc (SrcRv v) => Some (OQuat (xquat_of_rv q L (b_norm b) (b_taylor b) v))
  | KMat, OSrc (SrcRv v) => Some (OMat (ftoRot (b_rot b) (xquat_of_rv q L (b_norm b) (b_taylor b) v)))
  | KSrc SAA, OSrc (SrcRv v) => Some (OSrc (xaa_of_rv q (ch_ext (c6_src c)) v))
  | KSrc SXyz, OSrc (SrcRv v) => Some (oconvert L c k (ocast q (OSrc (faa_of_rv (ch_ext (c6_src c)) v))))
  | KSrc SZyx, OSrc (SrcRv _) | KSrc SZyx, OQuat _ | KSrc SXyz, OQuat _ => Some (ocast q (oconvert L c k x))
  | KSrc SRv, OQuat _ => None
  | _, _ => Some (oconvert L c k (ocast q x))
  end.
