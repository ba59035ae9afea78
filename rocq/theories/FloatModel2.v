(** Floating-point model of the quaternion and matrix arithmetic that kindr
    delegates to Eigen (IEEE 754 binary32/binary64, round to nearest even,
    Flocq's BinarySingleNaN), under every order of evaluation. *)
From Coq Require Import ZArith Bool List Permutation.
From Flocq Require Import IEEE754.BinarySingleNaN Core.Core.
From Verif Require Import ModelCommon FloatModel.
Import ListNotations.
Local Open Scope Z_scope.

(** ** Sums of products.
    The order in which the compiler and Eigen's vector units add the products of
    one coefficient is not fixed by the source, and -ffp-contract may fuse a
    product into the following addition: any binary tree of additions, with
    fused multiply-adds wherever one operand is a product. A subtraction is the
    addition of a product with one negated factor (same rounding, up to the
    sign of a zero). *)
Inductive dtree := DProd (i : nat) | DAdd (l r : dtree) | DFma (i : nat) (t : dtree).
Fixpoint dleaves (t : dtree) : list nat :=
  match t with DProd i => [i] | DAdd l r => dleaves l ++ dleaves r | DFma i t => i :: dleaves t end.
Fixpoint feval {p} (t : dtree) (a b : nat -> fl p) : fl p :=
  match t with
  | DProd i => fmul (a i) (b i)
  | DAdd l r => fadd (feval l a b) (feval r a b)
  | DFma i t => ffma (a i) (b i) (feval t a b)
  end.
(** the tree adds the products 0 .. n-1, each once *)
Definition order (n : nat) (t : dtree) : Prop := Permutation (dleaves t) (seq 0 n).

(** a vector of coefficients as a function of the index *)
Definition cf {A} (d : A) (l : list A) : nat -> A := fun i => nth i l d.
Definition fdot {p} (t : dtree) (a b : list (fl p)) : fl p := feval t (cf fzero a) (cf fzero b).

(** ** Quaternions *)
Record FQ (p : prim) : Set := mkFQ { fw : fl p; fx : fl p; fy : fl p; fz : fl p }.
Arguments mkFQ {p}. Arguments fw {p}. Arguments fx {p}. Arguments fy {p}. Arguments fz {p}.

(** Orders of evaluation of the four coefficients of a product *)
Record orders4 : Set := mkOrd4 { ow : dtree; ox : dtree; oy : dtree; oz : dtree }.
Definition orders4_ok (o : orders4) : Prop := order 4 (ow o) /\ order 4 (ox o) /\ order 4 (oy o) /\ order 4 (oz o).

(** Eigen::Quaternion operator* (Quaternion.h quat_product, generic and
    vectorised), called at RotationImpl.hpp:79-80, 94-95 and
    QuaternionBase.hpp:49-51, 214-219. *)
Definition fmult {p} (o : orders4) (a b : FQ p) : FQ p :=
  mkFQ (fdot (ow o) [fw a; fneg (fx a); fneg (fy a); fneg (fz a)] [fw b; fx b; fy b; fz b])
       (fdot (ox o) [fw a; fx a; fy a; fneg (fz a)] [fx b; fw b; fz b; fy b])
       (fdot (oy o) [fw a; fy a; fz a; fneg (fx a)] [fy b; fw b; fx b; fz b])
       (fdot (oz o) [fw a; fz a; fx a; fneg (fy a)] [fz b; fw b; fy b; fx b]).
(** conjugate / inverse of a unit quaternion: Quaternion.hpp:116-127, 446-457,
    RotationQuaternion.hpp:288-316 *)
Definition fconj {p} (q : FQ p) : FQ p := mkFQ (fw q) (fneg (fx q)) (fneg (fy q)) (fneg (fz q)).
Definition fqneg {p} (q : FQ p) : FQ p := mkFQ (fneg (fw q)) (fneg (fx q)) (fneg (fy q)) (fneg (fz q)).
(** RotationQuaternion::getUnique, RotationQuaternion.hpp:340-367 *)
Definition fquat_unique {p} (q : FQ p) : FQ p :=
  if flt fzero (fw q) then q else if flt (fw q) fzero then fqneg q
  else if flt fzero (fx q) then q else if flt (fx q) fzero then fqneg q
  else if flt fzero (fy q) then q else if flt (fy q) fzero then fqneg q
  else if flt fzero (fz q) then q else fqneg q.
(** norm(): RotationQuaternion.hpp:431-433, Quaternion.hpp:214-218 *)
Definition fsqnorm {p} (t : dtree) (q : FQ p) : fl p := fdot t [fw q; fx q; fy q; fz q] [fw q; fx q; fy q; fz q].
Definition fqnorm {p} (t : dtree) (q : FQ p) : fl p := fsqrt (fsqnorm t q).
(** Eigen normalize(), called by fix() (RotationQuaternion.hpp:614-620) and
    Quaternion.hpp:220-246: divides by the square root of the squared norm if
    that is positive. Eigen 3.3 divides the coefficients ([Quotient]), Eigen 3.2
    multiplies them with the reciprocal ([Reciprocal]). *)
Inductive divmode := Quotient | Reciprocal.
Definition fscale_down {p} (m : divmode) (s c : fl p) : fl p :=
  match m with Quotient => fdiv c s | Reciprocal => fmul c (fdiv (fofZ p 1) s) end.
Definition fnormalize {p} (t : dtree) (m : divmode) (q : FQ p) : FQ p :=
  let z := fsqnorm t q in
  if flt fzero z then
    let s := fsqrt z in
    mkFQ (fscale_down m s (fw q)) (fscale_down m s (fx q)) (fscale_down m s (fy q)) (fscale_down m s (fz q))
  else q.
(** Does the debug-mode constructor accept the quaternion? Quaternion.hpp:318-355,
    RotationQuaternion.hpp:90-134 (1e-2 percent) *)
Definition fquat_assert {p} (t : dtree) (q : FQ p) : bool :=
  fcompareRelative (fqnorm t q) (fofZ p 1) (flit p 1 100).

(** Conversion between float and double: RotationQuaternion.hpp:553-558
    (Eigen's cast), Quaternion.hpp:141-157, 360-379 *)
Definition fqcast {p} (q : prim) (a : FQ p) : FQ q := mkFQ (fcvt q (fw a)) (fcvt q (fx a)) (fcvt q (fy a)) (fcvt q (fz a)).

(** ** Matrices and vectors *)
Record FV (p : prim) : Set := mkFV { gx : fl p; gy : fl p; gz : fl p }.
Arguments mkFV {p}. Arguments gx {p}. Arguments gy {p}. Arguments gz {p}.
Record FM (p : prim) : Set := mkFM { r0 : FV p; r1 : FV p; r2 : FV p }.
Arguments mkFM {p}. Arguments r0 {p}. Arguments r1 {p}. Arguments r2 {p}.

Record orders3 : Set := mkOrd3 { o0 : dtree; o1 : dtree; o2 : dtree }.
Definition orders3_ok (n0 n1 n2 : nat) (o : orders3) : Prop := order n0 (o0 o) /\ order n1 (o1 o) /\ order n2 (o2 o).
Record orders9 : Set := mkOrd9 { ro0 : orders3; ro1 : orders3; ro2 : orders3 }.
Definition orders9_ok (o : orders9) : Prop := orders3_ok 3 3 3 (ro0 o) /\ orders3_ok 3 3 3 (ro1 o) /\ orders3_ok 3 3 3 (ro2 o).
(** orders for toRotationMatrix: three terms on the diagonal, two elsewhere *)
Definition orders9_rot_ok (o : orders9) : Prop := orders3_ok 3 2 2 (ro0 o) /\ orders3_ok 2 3 2 (ro1 o) /\ orders3_ok 2 2 3 (ro2 o).

(** Eigen::Quaternion::toRotationMatrix, called at RotationMatrix.hpp:332-336.
    tx = 2x, ty = 2y, tz = 2z; the entry 1 - (tyy + tzz) is the sum of the
    products 1*1, -ty*y and -tz*z. *)
Definition ftoRot {p} (o : orders9) (q : FQ p) : FM p :=
  let two := fofZ p 2 in let one := fofZ p 1 in
  let w := fw q in let x := fx q in let y := fy q in let z := fz q in
  let tx := fmul two x in let ty := fmul two y in let tz := fmul two z in
  mkFM
   (mkFV (fdot (o0 (ro0 o)) [one; fneg ty; fneg tz] [one; y; z])
         (fdot (o1 (ro0 o)) [ty; fneg tz] [x; w])
         (fdot (o2 (ro0 o)) [tz; ty] [x; w]))
   (mkFV (fdot (o0 (ro1 o)) [ty; tz] [x; w])
         (fdot (o1 (ro1 o)) [one; fneg tx; fneg tz] [one; x; z])
         (fdot (o2 (ro1 o)) [tz; fneg tx] [y; w]))
   (mkFV (fdot (o0 (ro2 o)) [tz; fneg ty] [x; w])
         (fdot (o1 (ro2 o)) [tz; tx] [y; w])
         (fdot (o2 (ro2 o)) [one; fneg tx; fneg ty] [one; x; y])).
(** matrix times vector, RotationMatrix rotate: RotationImpl.hpp:107-131 *)
Definition flist {p} (v : FV p) : list (fl p) := [gx v; gy v; gz v].
Definition fmv {p} (o : orders3) (m : FM p) (v : FV p) : FV p :=
  mkFV (fdot (o0 o) (flist (r0 m)) (flist v)) (fdot (o1 o) (flist (r1 m)) (flist v)) (fdot (o2 o) (flist (r2 m)) (flist v)).
(** transpose, RotationMatrix.hpp:160-185 (inverted, transposed) *)
Definition ftrans {p} (m : FM p) : FM p :=
  mkFM (mkFV (gx (r0 m)) (gx (r1 m)) (gx (r2 m))) (mkFV (gy (r0 m)) (gy (r1 m)) (gy (r2 m))) (mkFV (gz (r0 m)) (gz (r1 m)) (gz (r2 m))).
(** product of two rotation matrices, RotationMatrix.hpp:374-381 *)
Definition fmm {p} (o : orders9) (a b : FM p) : FM p :=
  let c := ftrans b in
  let row (o : orders3) (r : FV p) :=
    mkFV (fdot (o0 o) (flist r) (flist (r0 c))) (fdot (o1 o) (flist r) (flist (r1 c))) (fdot (o2 o) (flist r) (flist (r2 c))) in
  mkFM (row (ro0 o) (r0 a)) (row (ro1 o) (r1 a)) (row (ro2 o) (r2 a)).
(** RotationQuaternion rotate(v): converts to a matrix, then multiplies,
    RotationImpl.hpp:107-131 *)
Definition fquat_rotate {p} (o : orders9) (o' : orders3) (q : FQ p) (v : FV p) : FV p := fmv o' (ftoRot o q) v.

(** ** Calls on one RotationQuaternion object *)
Inductive fop (p : prim) : Set :=
  | FMulRight (o : orders4) (b : FQ p)   (* q = q * b *)
  | FMulLeft (o : orders4) (b : FQ p)    (* q = b * q *)
  | FAssign (b : FQ p)                   (* q = b *)
  | FInvert                              (* q.invert() *)
  | FSetUnique                           (* q.setUnique() *)
  | FFix (t : dtree) (m : divmode).      (* q.fix() *)
Arguments FMulRight {p}. Arguments FMulLeft {p}. Arguments FAssign {p}. Arguments FInvert {p}. Arguments FSetUnique {p}. Arguments FFix {p}.
Definition fstep {p} (q : FQ p) (c : fop p) : FQ p :=
  match c with
  | FMulRight o b => fmult o q b
  | FMulLeft o b => fmult o b q
  | FAssign b => b
  | FInvert => fconj q
  | FSetUnique => fquat_unique q
  | FFix t m => fnormalize t m q
  end.
Definition frun {p} (q : FQ p) (l : list (fop p)) : FQ p := fold_left fstep l q.

(** ** Calls on one RotationMatrix object *)
Inductive fmop (p : prim) : Set :=
  | MMulRight (o : orders9) (b : FM p)   (* m = m * b, RotationMatrix.hpp:374-381 *)
  | MMulLeft (o : orders9) (b : FM p)    (* m = b * m *)
  | MAssign (b : FM p)                   (* m = b *)
  | MInvert.                             (* m.invert() / m.transpose(), RotationMatrix.hpp:160-185 *)
Arguments MMulRight {p}. Arguments MMulLeft {p}. Arguments MAssign {p}. Arguments MInvert {p}.
Definition fmstep {p} (m : FM p) (c : fmop p) : FM p :=
  match c with
  | MMulRight o b => fmm o m b
  | MMulLeft o b => fmm o b m
  | MAssign b => b
  | MInvert => ftrans m
  end.
Definition fmrun {p} (m : FM p) (l : list (fmop p)) : FM p := fold_left fmstep l m.
