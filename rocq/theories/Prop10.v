(** Generated by tools/genprops.py from Claims10.v: the property theorems only. *)
From Coq Require Import ZArith Reals Lra Psatz Bool Lia List.
From Flocq Require Import IEEE754.BinarySingleNaN Core.Core.
From Verif Require Import ModelCommon PiBounds FloatModel FloatFacts FloatModulo FloatWrap.
Import ListNotations.
Local Open Scope R_scope.
From Verif Require Import Claims10.

(** C50: for every pair of finite numbers of type T (float or double) with
    y <> 0 and |x| <= 2^(prec-2) |y| (and both below a quarter of the overflow
    threshold), whichever way the compiler evaluates the expression:
    floatingPointModulo(x,y) is finite, lies in [0,y] resp. [y,0], excludes the
    end y unless T = float and floor is the double one, and differs from
    x - k*y, for some integer k, by at most 4 roundoffs of |x|+|y|. *)
Theorem C50_modulo : forall (p : prim) (ev : evaluation) (x y : fl p),
  is_finite x = true -> is_finite y = true -> B2R y <> 0 ->
  Rabs (B2R x) <= bpow radix2 (fprec p - 2) * Rabs (B2R y) ->
  Rabs (B2R x) <= bpow radix2 (femax p - 3) -> Rabs (B2R y) <= bpow radix2 (femax p - 3) ->
  let r := fmodulo ev x y in
  is_finite r = true /\
  (0 < B2R y -> 0 <= B2R r <= B2R y) /\ (B2R y < 0 -> B2R y <= B2R r <= 0) /\
  (ev <> FloorDouble \/ p = F64 -> B2R r <> B2R y) /\
  exists k : Z, Rabs (B2R r - (B2R x - IZR k * B2R y)) <= 4 * bpow radix2 (- fprec p) * (Rabs (B2R x) + Rabs (B2R y)).
Proof. exact C50_modulo_lemma. Qed.
Print Assumptions C50_modulo.

Example C50_modulo_ex : let x := fofZ F64 17 in let y := fofZ F64 (-5) in
  is_finite x = true /\ is_finite y = true /\ B2R y <> 0 /\ Rabs (B2R x) <= bpow radix2 (fprec F64 - 2) * Rabs (B2R y) /\
  Rabs (B2R x) <= bpow radix2 (femax F64 - 3) /\ Rabs (B2R y) <= bpow radix2 (femax F64 - 3) /\ B2SF (fmodulo InType x y) = B2SF (fofZ F64 (-3)).
Proof. exact Claims10.C50_modulo_ex. Qed.

(** C50: wrapPosNegPI, for every finite angle up to 2^(prec-2) (4.2e6 for
    float, 2.2e15 for double): in [-T(pi), T(pi)] where T(pi) is M_PI converted
    to T; T(pi) itself excluded (same proviso); a multiple of the true 2 pi away
    from the angle, up to 8 roundoffs of |angle|+8. *)
Theorem C50_wrapPosNegPI : forall (p : prim) (ev : evaluation) (a : fl p),
  is_finite a = true -> Rabs (B2R a) <= bpow radix2 (fprec p - 2) ->
  let r := fwrapPosNegPI ev a in
  is_finite r = true /\ - B2R (fcvt p fM_PI) <= B2R r <= B2R (fcvt p fM_PI) /\
  (ev <> FloorDouble \/ p = F64 -> B2R r < B2R (fcvt p fM_PI)) /\
  exists k : Z, Rabs (B2R r - (B2R a - 2 * IZR k * PI)) <= 8 * bpow radix2 (- fprec p) * (Rabs (B2R a) + 8).
Proof. exact C50_wrapPosNegPI_lemma. Qed.
Print Assumptions C50_wrapPosNegPI.

(** T(pi) is the nearest number of the type to pi; for double it is just below
    pi and for float just above. *)
Theorem C50_pi : B2R (fcvt F32 fM_PI) = 13176795 / 2 ^ 22 /\ B2R (fcvt F64 fM_PI) = 7074237752028440 / 2 ^ 51 /\
  PI < B2R (fcvt F32 fM_PI) <= PI + 9 / 10 ^ 8 /\ B2R (fcvt F64 fM_PI) < PI <= B2R (fcvt F64 fM_PI) + 13 / 10 ^ 17.
Proof. exact C50_pi_lemma. Qed.
Print Assumptions C50_pi.

Example C50_wrapPosNegPI_ex : let a := fofZ F64 1000 in is_finite a = true /\ Rabs (B2R a) <= bpow radix2 (fprec F64 - 2) /\
  B2R (fwrapPosNegPI InType a) = 8768834160816032 / 2 ^ 53.
Proof. exact Claims10.C50_wrapPosNegPI_ex. Qed.

(** C50: wrapTwoPI likewise, in [0, 2 T(pi)]. *)
Theorem C50_wrapTwoPI : forall (p : prim) (ev : evaluation) (a : fl p),
  is_finite a = true -> Rabs (B2R a) <= bpow radix2 (fprec p - 2) ->
  let r := fwrapTwoPI ev a in
  is_finite r = true /\ 0 <= B2R r <= 2 * B2R (fcvt p fM_PI) /\
  (ev <> FloorDouble \/ p = F64 -> B2R r < 2 * B2R (fcvt p fM_PI)) /\
  exists k : Z, Rabs (B2R r - (B2R a - 2 * IZR k * PI)) <= 8 * bpow radix2 (- fprec p) * (Rabs (B2R a) + 8).
Proof. exact C50_wrapTwoPI_lemma. Qed.
Print Assumptions C50_wrapTwoPI.

Example C50_wrapTwoPI_ex : let a := fofZ F64 1000 in is_finite a = true /\ Rabs (B2R a) <= bpow radix2 (fprec F64 - 2) /\
  B2R (fwrapTwoPI InType a) = 8768834160816128 / 2 ^ 53.
Proof. exact Claims10.C50_wrapTwoPI_ex. Qed.

(** C50: wrapAngle(a,x1,x2), for x1 < x2 as computed: the result is never below
    x1, and at most x2 when x2-x1 is representable; the end x2 is not always
    excluded (C50_wrapAngle_end_refuted). *)
Theorem C50_wrapAngle : forall (p : prim) (ev : evaluation) (a x1 x2 : fl p),
  is_finite a = true -> is_finite x1 = true -> is_finite x2 = true -> B2R x1 < B2R x2 ->
  Rabs (B2R a) <= bpow radix2 (femax p - 5) -> Rabs (B2R x1) <= bpow radix2 (femax p - 5) -> Rabs (B2R x2) <= bpow radix2 (femax p - 5) ->
  Rabs (B2R a - B2R x1) <= bpow radix2 (fprec p - 4) * (B2R x2 - B2R x1) ->
  let r := fwrapAngle ev a x1 x2 in
  is_finite r = true /\ B2R x1 <= B2R r /\
  (generic_format radix2 (FLT_exp (3 - femax p - fprec p) (fprec p)) (B2R x2 - B2R x1) -> B2R r <= B2R x2) /\
  exists k : Z, Rabs (B2R r - (B2R a - IZR k * (B2R x2 - B2R x1))) <=
    bpow radix2 (- fprec p) * (8 * Rabs (B2R a - B2R x1) + 8 * (B2R x2 - B2R x1) + 2 * Rabs (B2R x1)).
Proof. exact C50_wrapAngle_lemma. Qed.
Print Assumptions C50_wrapAngle.

Example C50_wrapAngle_ex : B2SF (fwrapAngle InType (fofZ F64 17) (fofZ F64 (-3)) (fofZ F64 4)) = B2SF (fofZ F64 3).
Proof. exact Claims10.C50_wrapAngle_ex. Qed.

(** C50: if an argument is NaN or infinite (and the modulus is not zero) the
    result is NaN, never an arbitrary number. *)
Theorem C50_nonfinite : forall (p : prim) (ev : evaluation) (x y : fl p),
  is_finite x = false \/ is_finite y = false -> B2SF y <> SpecFloat.S754_zero false -> B2SF y <> SpecFloat.S754_zero true ->
  fmodulo ev x y = B754_nan.
Proof. exact C50_nonfinite_lemma. Qed.
Print Assumptions C50_nonfinite.

Example C50_nonfinite_ex : fwrapTwoPI InType (B754_infinity false : fl F32) = B754_nan /\ fwrapPosNegPI Fused (B754_nan : fl F64) = B754_nan.
Proof. exact Claims10.C50_nonfinite_ex. Qed.

(** C50 fails for arguments beyond the proved bound: wrapTwoPI of the double
    114787470635671232 (1.1e17) is -9.7..., not in [0, 2 pi); and
    floatingPointModulo(1e300,1e-300) is minus infinity. *)
Theorem C50_huge_refuted : (forall ev, ev <> Fused -> B2R (fwrapTwoPI ev (fofZ F64 114787470635671232)) = - (5470080378726772 / 2 ^ 49)) /\
  B2R (fofZ F64 114787470635671232) = 114787470635671232 /\
  fmodulo InType (fofZ F64 (10 ^ 300)) (fdiv (fofZ F64 1) (fofZ F64 (10 ^ 300))) = B754_infinity true.
Proof. exact C50_huge_refuted_lemma. Qed.
Print Assumptions C50_huge_refuted.

(** C50, end of the range: with the double floor, wrapTwoPI of the float -1e-10
    is 2 T(pi), which is not in [0, 2 pi); with a float floor it is 0. *)
Theorem C50_float_end_refuted : fwrapTwoPI FloorDouble (flit F32 (-1) (10 ^ 10)) = fcvt F32 (fmul (fofZ F64 2) fM_PI) /\
  fwrapTwoPI InType (flit F32 (-1) (10 ^ 10)) = fzero.
Proof. exact C50_float_end_refuted_lemma. Qed.
Print Assumptions C50_float_end_refuted.

(** C50, wrapAngle: the end x2 can be returned: wrapAngle(1-2^-53, 1, 2) = 2. *)
Theorem C50_wrapAngle_end_refuted : forall ev, fwrapAngle ev (fsub (fofZ F64 1) (fdiv (fofZ F64 1) (fofZ F64 (2 ^ 53)))) (fofZ F64 1) (fofZ F64 2) = fofZ F64 2.
Proof. exact C50_wrapAngle_end_refuted_lemma. Qed.
Print Assumptions C50_wrapAngle_end_refuted.

(** C51: no float, promoted to double, equals -M_PI: the half-turn test of
    AngleAxis<float>::getUnique never succeeds. *)
Theorem C51_dead_branch : forall a : fl F32, feq (fcvt F64 a) (fneg fM_PI) = false.
Proof. exact C51_dead_branch_lemma. Qed.
Print Assumptions C51_dead_branch.

(** C51: so at a half turn the float version flips the axis every time, whatever
    the axis: it is not idempotent and (pi,n), (pi,-n) keep two unique forms. *)
Theorem C51_float_half_turn : forall (ev : evaluation) (n : fl F32 * fl F32 * fl F32),
  fgetUnique ev (fcvt F32 fM_PI, n) = (fcvt F32 fM_PI, fneg3 n) /\
  fgetUnique ev (fgetUnique ev (fcvt F32 fM_PI, n)) = (fcvt F32 fM_PI, n).
Proof. exact C51_float_half_turn_lemma. Qed.
Print Assumptions C51_float_half_turn.

(** C51: the double version treats (pi,n) and (pi,-n) alike: equal unique forms
    (as == compares them) for every axis without NaN, and the unique form of
    the half turn is a fixed point. *)
Theorem C51_double_half_turn : forall (ev : evaluation) (n : fl F64 * fl F64 * fl F64),
  (match n with (a, b, c) => is_nan a = false /\ is_nan b = false /\ is_nan c = false end) ->
  let f := fgetUnique ev (fM_PI, n) in let g := fgetUnique ev (fM_PI, fneg3 n) in
  fst f = fM_PI /\ fst g = fM_PI /\ feq3 (snd f) (snd g) = true /\ (snd f = n \/ snd f = fneg3 n) /\ fgetUnique ev f = f.
Proof. exact C51_double_half_turn_lemma. Qed.
Print Assumptions C51_double_half_turn.

Example C51_double_half_turn_ex : fgetUnique InType (fM_PI, (fofZ F64 0, fofZ F64 (-1), fofZ F64 0)) = (fM_PI, (fneg (fofZ F64 0), fofZ F64 1, fneg (fofZ F64 0))).
Proof. exact Claims10.C51_double_half_turn_ex. Qed.

(** C51: for every finite angle up to 2^(prec-2), in float and in double, the
    unique angle is finite and in [0, T(pi)], and the pair is the same rotation
    up to rounding: for a sign s and an integer k the axis is s*axis and the
    angle s*(angle - 2 k pi) within 9 roundoffs of |angle|+8; or the result is
    the identity (0,(1,0,0)) and the angle is that close to a multiple of 2 pi. *)
Theorem C51_unique : forall (p : prim) (ev : evaluation) (a : fl p) (n : fl p * fl p * fl p),
  is_finite a = true -> Rabs (B2R a) <= bpow radix2 (fprec p - 2) ->
  let r := fgetUnique ev (a, n) in
  let bound := 9 * bpow radix2 (- fprec p) * (Rabs (B2R a) + 8) in
  is_finite (fst r) = true /\ 0 <= B2R (fst r) <= B2R (fcvt p fM_PI) /\
  exists k : Z,
    (0 < B2R (fst r) /\ snd r = n /\ Rabs (B2R (fst r) - (B2R a - 2 * IZR k * PI)) <= bound) \/
    (0 < B2R (fst r) /\ snd r = fneg3 n /\ Rabs (B2R (fst r) + (B2R a - 2 * IZR k * PI)) <= bound) \/
    (r = (fzero, (fofZ p 1, fzero, fzero)) /\ Rabs (B2R a - 2 * IZR k * PI) <= bound).
Proof. exact C51_unique_lemma. Qed.
Print Assumptions C51_unique.

Example C51_unique_ex : is_finite (fofZ F32 5) = true /\ Rabs (B2R (fofZ F32 5)) <= bpow radix2 (fprec F32 - 2).
Proof. exact Claims10.C51_unique_ex. Qed.
