(** * Windows: the parameter windows in which kindr uses truncated series
    instead of the exact formula.  Specification-level vocabulary: the
    thresholds are the ones documented in the code, the predicates say for
    which rotations a conversion is claimed to be exact. *)
From Coq Require Import Reals Lra.
From Verif Require Import Linalg Spec ModelCommon ModelRotation.
Local Open Scope R_scope.

(** A rotation whose angle [t] is zero or satisfies sin^2(t/2) >= tol;
    sin^2(t/2) = (3 - trace)/4. *)
Definition regular_angle (p : prim) (m : M33) : Prop :=
  m = mid \/ dummy_precision p <= (3 - mtrace m) / 4.

(** An operand that is converted to a quaternion without truncation:
    everything but a non-zero rotation vector shorter than eps^(1/4). *)
Definition exact_operand (p : prim) (r : rotation) : Prop :=
  match r with
  | RotVec v => v = vzero \/ eps4throot p <= vnorm v
  | _ => True
  end.

(** The conversion [r -> class k] takes no truncated branch. *)
Definition exact_conversion (p : prim) (k : kind) (r : rotation) : Prop :=
  match r, k with
  | RotVec v, (KQuat | KMat | KZyx) => v = vzero \/ eps4throot p <= vnorm v
  | RotVec v, (KAA | KXyz) => v = vzero \/ dummy_precision p <= vnorm v
  | (RotQuat _ | RotMat _), KVec => regular_angle p (meaning r)
  | _, _ => True
  end.

(** The result class represents the rotation [m] without truncation. *)
Definition exact_result (p : prim) (k : kind) (m : M33) : Prop :=
  k = KVec -> regular_angle p m.

(** ** Canonical representatives ("unique" values, as documented at
    RotationQuaternion.hpp:337-341, AngleAxis.hpp:255-262,
    RotationVector.hpp:240-247). *)
(** first non-zero coefficient positive *)
Definition lexpos (n : V3) : Prop :=
  0 < vx n \/ (vx n = 0 /\ (0 < vy n \/ (vy n = 0 /\ 0 < vz n))).
Definition canonical_quat (q : Quat) : Prop :=
  0 < qw q \/ (qw q = 0 /\ lexpos (qvec q)).
Definition canonical_aa (a : AA) : Prop :=
  (aangle a = 0 /\ aaxis a = mkV3 1 0 0) \/ 0 < aangle a < PI \/
  (aangle a = PI /\ lexpos (aaxis a)).
Definition canonical_vec (v : V3) : Prop :=
  vnorm v < PI \/ (vnorm v = PI /\ lexpos v).

(** A rotation that is the identity or has an angle of at least eps^(1/4)
    (trace = 1 + 2 cos(angle)); implies [regular_angle]. *)
Definition clear_angle (p : prim) (m : M33) : Prop :=
  m = mid \/ mtrace m <= 1 + 2 * cos (eps4throot p).

(** The two rotations can be compared (a * b^-1 formed in the class of a)
    without entering a truncation window. *)
Definition comparable (p : prim) (a b : rotation) : Prop :=
  exact_operand p a /\ exact_operand p b /\
  exact_result p (kind_of a) (mmul (meaning a) (mtrans (meaning b))).

(** Pitch outside the bands of half-width 1e-3 around +-pi/2 (modulo 2 pi). *)
Definition pitch_clear (b : R) : Prop :=
  / 10 ^ 3 < Rabs (Rabs (wrapPosNegPI b) - PI / 2).
(** getUnique keeps the rotation exactly: everything except Euler angles in
    the bands and tiny rotation vectors *)
Definition unique_exact (p : prim) (r : rotation) : Prop :=
  match r with
  | RotVec v => v = vzero \/ dummy_precision p <= vnorm v
  | RotZyx e => pitch_clear (zpitch e)
  | RotXyz e => pitch_clear (xpitch e)
  | _ => True
  end.
