(** * FloatModel17: setRandom()/getRandom() on floating-point rotations. *)
From Coq Require Import ZArith List Bool.
From Flocq Require Import IEEE754.BinarySingleNaN Core.Core.
From Verif Require Import ModelCommon FloatModel FloatModel2 FloatModel3 FloatModel4 FloatModel6 FloatModel7 FloatModel8.

(** std::uniform_real_distribution<T>(min, max)(generator), called in
    setUniformRandom, common.hpp:109-117: libstdc++ and libc++ return
    draw * (max - min) + min, where [draw] is a number of [0, 1] obtained from the
    generator. The compiler may fuse the product and the sum. *)
Definition funiform {p} (fused : bool) (draw min max : fl p) : fl p :=
  if fused then ffma draw (fsub max min) min else fadd (fmul draw (fsub max min)) min.
(** the loop over the three coefficients, common.hpp:113-115, called with the bounds
    -M_PI and M_PI converted to the scalar type, RotationImpl.hpp:234 *)
Definition frandom_vector {p} (fused : bool) (a b c : fl p) : FV p :=
  let lo := fcvt p (fneg fM_PI) in let hi := fcvt p fM_PI in
  mkFV (funiform fused a lo hi) (funiform fused b lo hi) (funiform fused c lo hi).
(** RandomTraits::set_random, RotationImpl.hpp:229-238:
    rot = Rotation(RotationVector(vector)) for an object of class [k] *)
Definition fset_random {p} (L : libm) (ch : choices6) (k : okind) (fused : bool) (a b c : fl p) : fobject p :=
  oconvert L ch k (OSrc (SrcRv (frandom_vector fused a b c))).
