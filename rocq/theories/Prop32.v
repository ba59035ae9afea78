(** Generated by tools/genprops.py from Claims32.v: the property theorems only. *)
From Coq Require Import ZArith Reals Lra Psatz Bool List Lia Permutation.
From Flocq Require Import IEEE754.BinarySingleNaN Core.Core.
From Verif Require Import Linalg Spec SpecFacts SpecDiff SpecClose ModelCommon ModelEigen CommonFacts CloseFacts ModelRotation RVFacts MetricFacts DerivFacts DiffFacts DiffFacts2 JacFacts FloatModel FloatFacts FloatModulo FloatWrap FloatModel2 SpecFloatQ FloatQFacts FloatQProd FloatQRot FloatCast FloatModel3 SpecLibm FloatBuild FloatBuild2 FloatBuild3 FloatBuild4 FloatModel4 FloatExt FloatModel12 FloatDiff FloatDiff2 FloatDiff3 FloatModel14 FloatJac FloatJac2 FloatJac3 Claims16 Claims28 Claims31.
Import ListNotations.
Local Open Scope R_scope.
From Verif Require Import Claims32.

(** C85: for a rotation vector that moves with the rate d, the Jacobian times d is the
    global angular velocity of the rotation: up to n^2/5 plus seven roundings for a
    vector of length n around the threshold 1e-4 or below it, and up to
    7 roundings (of the precision of the cosine and sine) divided by n plus 112
    roundings from there on. *)
Theorem C85_jacobian : forall (p w : prim) (L : libm) (o : jac_choices) (v : R -> V3) (t : R) (d : V3) (x : FV p),
  libm_ok L -> jac_ok o -> (w = p \/ w = F64) -> Vderiv v t d -> vfinite x -> vval x = v t -> vnorm (v t) <= 2 ^ 30 ->
  let J := fjacobian L w o x in let n := vnorm (v t) in
  mfinite J /\
  exists omega, has_global_velocity (fun s => meaning (RotVec (v s))) t omega /\
    ((n <= 10001 / 10 ^ 8 /\ vdist (mvmul (mval J) d) omega <= (n * n / 5 + 7 * roundoff p) * vnorm d) \/
     (9999 / 10 ^ 8 <= n /\ vdist (mvmul (mval J) d) omega <= (7 * roundoff w / n + 112 * roundoff p) * vnorm d)).
Proof. exact C85_jacobian_lemma. Qed.
Print Assumptions C85_jacobian.

Example C85_jacobian_ex : libm_ok exact_libm /\ jac_ok (stdjac true) /\
  let v := fun s => mkV3 1 (2 * s) (s * s + 1) in
  Vderiv v 1 (mkV3 0 2 2) /\ vfinite (fvz 1 2 2) /\ vval (fvz 1 2 2) = v 1 /\ vnorm (v 1) <= 2 ^ 30.
Proof. exact Claims32.C85_jacobian_ex. Qed.

(** C85: the worst cases: 3e-9 in double; in float 8e-6 if the cosine and sine are
    evaluated in double, but 5e-3 if they are evaluated in float. *)
Theorem C85_worst : forall (p w : prim) (L : libm) (o : jac_choices) (v : R -> V3) (t : R) (d : V3) (x : FV p),
  libm_ok L -> jac_ok o -> (w = p \/ w = F64) -> Vderiv v t d -> vfinite x -> vval x = v t -> vnorm (v t) <= 2 ^ 30 ->
  exists omega, has_global_velocity (fun s => meaning (RotVec (v s))) t omega /\
    vdist (mvmul (mval (fjacobian L w o x)) d) omega <= match p, w with F64, _ => 3 / 10 ^ 9 | F32, F64 => 8 / 10 ^ 6 | F32, F32 => 5 / 10 ^ 3 end * vnorm d.
Proof. exact C85_worst_lemma. Qed.
Print Assumptions C85_worst.

(** C85: the cancellation is real: with correctly rounded float functions, just above
    the threshold (a rotation vector of length 2^-13, or 1.2e-4) both factors vanish,
    and the result is 5e-5 off; half of the length is the whole second term. Below
    the threshold the error is at most 5e-7. *)
Theorem C85_cancellation : forall into : bool, exists (v : R -> V3) (t : R) (d : V3) (x : FV F32) (omega : V3),
  libm_ok exact_libm /\ jac_ok (stdjac into) /\ Vderiv v t d /\ vfinite x /\ vval x = v t /\ vnorm (v t) = / 2 ^ 13 /\ vnorm d = 1 /\
  has_global_velocity (fun s => meaning (RotVec (v s))) t omega /\
  vdist (mvmul (mval (fjacobian exact_libm F32 (stdjac into) x)) d) omega >= 5 / 10 ^ 5.
Proof. exact C85_cancellation_lemma. Qed.
Print Assumptions C85_cancellation.
