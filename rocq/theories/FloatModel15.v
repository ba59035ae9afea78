(** Floating-point model of the second-order mappings of EulerAnglesXyzDiff
    (EulerAnglesXyzDiff.hpp:239-337) *)
From Coq Require Import ZArith Bool List.
From Flocq Require Import IEEE754.BinarySingleNaN Core.Core.
From Verif Require Import ModelCommon FloatModel FloatModel2 FloatModel3 FloatModel12.
Import ListNotations.
Local Open Scope Z_scope.

(** The compiler's choices: how each sum of two terms is evaluated (which term comes
    first, which product is fused with the addition), for the entries with such a sum
    and for the two sums in parentheses *)
Record second_choices : Set := mkSC { sc1 : dtree; sc2 : dtree; sc3 : dtree; sc4 : dtree; sc5 : dtree; sc6 : dtree }.
Definition second_ok (o : second_choices) : Prop :=
  order 2 (sc1 o) /\ order 2 (sc2 o) /\ order 2 (sc3 o) /\ order 2 (sc4 o) /\ order 2 (sc5 o) /\ order 2 (sc6 o).

Section Second.
Context {p : prim} (L : libm).
(** getMappingFromLocalAngularVelocityToSecondDiff, EulerAnglesXyzDiff.hpp:239-265. The
    rates are those of the object, the angles those of [rotation]; None is the
    exception (KINDR_ASSERT_TRUE, in every build). t3 = 1.0/t2 and t5 = 1.0/(t2*t2) are
    divisions of doubles. A sum a*b+c*d is [fdot t [a; c] [b; d]]. *)
Definition fxyz_local_to_second (o : second_choices) (x y z : fl p) (d : FV p) : option (FM p) :=
  let dy := gy d in let dz := gz d in
  let t2 := lcos L p y in
  if feq t2 fzero then None else
  let t3 := frecip t2 in
  let t4 := lcos L p z in
  let t5 := frecip (fmul t2 t2) in
  let t6 := lsin L p y in
  let t7 := lsin L p z in
  let t8 := fmul t6 t6 in
  Some (mkFM
    (mkFV (fdot (sc1 o) [fmul (fneg dz) t3; fmul (fmul dy t4) t5] [t7; t6])
          (fdot (sc2 o) [fmul (fneg dz) t3; fneg (fmul (fmul dy t5) t6)] [t4; t7]) fzero)
    (mkFV (fmul dz t4) (fmul (fneg dz) t7) fzero)
    (mkFV (fdot (sc3 o) [fneg dy; fmul (fmul dz t3) t6] [fdot (sc4 o) [fofZ p 1; fmul t4 t5] [t4; t8]; t7])
          (fdot (sc5 o) [dy; fmul (fmul dz t3) t4] [fdot (sc6 o) [fofZ p 1; fmul t5 t7] [t7; t8]; t6]) fzero)).
(** getMappingFromSecondDiffToLocalAngularVelocity, EulerAnglesXyzDiff.hpp:267-287 *)
Definition fxyz_second_to_local (o : second_choices) (x y z : fl p) (d : FV p) : FM p :=
  let dy := gy d in let dz := gz d in
  let t2 := lcos L p z in
  let t3 := lcos L p y in
  let t4 := lsin L p y in
  let t5 := lsin L p z in
  mkFM
    (mkFV (fdot (sc1 o) [fmul (fneg dy) t2; fneg (fmul dz t3)] [t4; t5]) (fmul dz t2) fzero)
    (mkFV (fdot (sc2 o) [fmul dy t4; fneg (fmul dz t2)] [t5; t3]) (fmul (fneg dz) t5) fzero)
    (mkFV (fmul dy t3) fzero fzero).
(** getMappingFromGlobalAngularVelocityToSecondDiff, EulerAnglesXyzDiff.hpp:289-316 *)
Definition fxyz_global_to_second (o : second_choices) (x y z : fl p) (d : FV p) : option (FM p) :=
  let dx := gx d in let dy := gy d in
  let t2 := lsin L p x in
  let t3 := lsin L p y in
  let t4 := lcos L p y in
  let t5 := lcos L p x in
  if feq t4 fzero then None else
  let t6 := frecip (fmul t4 t4) in
  let t7 := fmul t3 t3 in
  let t8 := frecip t4 in
  Some (mkFM
    (mkFV fzero (fdot (sc1 o) [dy; fmul (fmul dx t3) t5] [fdot (sc2 o) [fofZ p 1; fmul t2 t6] [t2; t7]; t8])
          (fdot (sc3 o) [fneg dy; fmul (fmul dx t2) t3] [fdot (sc4 o) [fofZ p 1; fmul t5 t6] [t5; t7]; t8]))
    (mkFV fzero (fmul (fneg dx) t2) (fmul dx t5))
    (mkFV fzero (fdot (sc5 o) [fmul (fneg dx) t5; fneg (fmul (fmul dy t2) t3)] [t8; t6])
          (fdot (sc6 o) [fmul (fneg dx) t2; fmul (fmul dy t3) t5] [t8; t6]))).
(** getMappingFromSecondDiffToGlobalAngularVelocity, EulerAnglesXyzDiff.hpp:318-337 *)
Definition fxyz_second_to_global (o : second_choices) (x y z : fl p) (d : FV p) : FM p :=
  let dx := gx d in let dy := gy d in
  let t2 := lcos L p y in
  let t3 := lsin L p x in
  let t4 := lcos L p x in
  let t5 := lsin L p y in
  mkFM
    (mkFV fzero fzero (fmul dy t2))
    (mkFV fzero (fmul (fneg dx) t3) (fdot (sc1 o) [fmul (fneg dx) t2; fmul dy t3] [t4; t5]))
    (mkFV fzero (fmul dx t4) (fdot (sc2 o) [fmul (fneg dx) t2; fneg (fmul dy t4)] [t3; t5])).
End Second.
