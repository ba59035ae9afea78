(** * Spec: what the rotation types are documented to mean.

    This file does not look at the code's algorithms.  It fixes
    - the data held by each of the six rotation parametrisations,
    - when such a value is a legal rotation ([valid]),
    - which rotation of space it denotes ([meaning], a 3x3 matrix),
    following the textbook/cheat-sheet definitions quoted in
    /repo/doc (doxygen + cheatsheet) and in the class documentation. *)
From Coq Require Import Reals Lra.
From Verif Require Import Linalg.
Local Open Scope R_scope.

(** ** Rotation matrices: SO(3) *)
Definition SO3 (m : M33) : Prop := mmul m (mtrans m) = mid /\ mdet m = 1.

(** ** Quaternions as pairs scalar + vector (Hamilton) *)
Definition hamilton (a b : Quat) : Quat :=
  let va := qvec a in let vb := qvec b in
  let s := qw a * qw b - vdot va vb in
  let v := vadd (vadd (vscale (qw a) vb) (vscale (qw b) va)) (vcross va vb) in
  mkQ s (vx v) (vy v) (vz v).
Definition conj (q : Quat) : Quat := mkQ (qw q) (- qx q) (- qy q) (- qz q).
(** The vector part of [q (0,v) q*]. *)
Definition sandwich (q : Quat) (v : V3) : V3 :=
  qvec (hamilton (hamilton q (mkQ 0 (vx v) (vy v) (vz v))) (conj q)).

(** ** Rotation by [angle] about the unit vector [n] (Rodrigues) *)
Definition rodrigues (angle : R) (n : V3) (v : V3) : V3 :=
  vadd (vadd (vscale (cos angle) v) (vscale (sin angle) (vcross n v)))
       (vscale ((1 - cos angle) * vdot n v) n).

(** ** Elementary rotations *)
Definition Rot_x (a : R) : M33 := mkM33 1 0 0  0 (cos a) (- sin a)  0 (sin a) (cos a).
Definition Rot_y (a : R) : M33 := mkM33 (cos a) 0 (sin a)  0 1 0  (- sin a) 0 (cos a).
Definition Rot_z (a : R) : M33 := mkM33 (cos a) (- sin a) 0  (sin a) (cos a) 0  0 0 1.

(** ** The data of the parametrisations.
    AngleAxis.hpp:58-63, RotationVector.hpp:60-66, RotationMatrix.hpp (Eigen 3x3),
    RotationQuaternion.hpp (unit quaternion w,x,y,z),
    EulerAnglesZyx.hpp (stored as [yaw,pitch,roll]),
    EulerAnglesXyz.hpp (stored as [roll,pitch,yaw]). *)
Record AA : Type := mkAA { aangle : R; aaxis : V3 }.
Record Zyx : Type := mkZyx { zyaw : R; zpitch : R; zroll : R }.
Record Xyz : Type := mkXyz { xroll : R; xpitch : R; xyaw : R }.

Inductive rotation : Type :=
| RotQuat (q : Quat)
| RotAA (a : AA)
| RotVec (v : V3)
| RotMat (m : M33)
| RotZyx (e : Zyx)
| RotXyz (e : Xyz).

(** Legal values: unit quaternion, unit axis, special orthogonal matrix. *)
Definition valid (r : rotation) : Prop :=
  match r with
  | RotQuat q => qnorm2 q = 1
  | RotAA a => vnorm2 (aaxis a) = 1
  | RotVec _ => True
  | RotMat m => SO3 m
  | RotZyx _ => True
  | RotXyz _ => True
  end.

Definition quat_rot (q : Quat) : M33 := mat_of (sandwich q).
Definition aa_rot (a : AA) : M33 := mat_of (rodrigues (aangle a) (aaxis a)).
(** The rotation vector [v] is the rotation by [|v|] about [v/|v|]. *)
Definition vec_rot (v : V3) : M33 :=
  if Req_EM_T (vnorm v) 0 then mid
  else mat_of (rodrigues (vnorm v) (vscale (/ vnorm v) v)).
Definition zyx_rot (e : Zyx) : M33 :=
  mmul (Rot_z (zyaw e)) (mmul (Rot_y (zpitch e)) (Rot_x (zroll e))).
Definition xyz_rot (e : Xyz) : M33 :=
  mmul (Rot_x (xroll e)) (mmul (Rot_y (xpitch e)) (Rot_z (xyaw e))).

Definition meaning (r : rotation) : M33 :=
  match r with
  | RotQuat q => quat_rot q
  | RotAA a => aa_rot a
  | RotVec v => vec_rot v
  | RotMat m => m
  | RotZyx e => zyx_rot e
  | RotXyz e => xyz_rot e
  end.

(** Two angles that differ by whole turns. *)
Definition same_angle (a b : R) : Prop := exists k : Z, a = b + 2 * PI * IZR k.

(** The angle of a rotation matrix: the unique [d] in [0,pi] with
    [2 cos d = trace - 1]. *)
Definition is_rotation_angle (m : M33) (d : R) : Prop :=
  0 <= d <= PI /\ 2 * cos d = mtrace m - 1.

(** ** Outcomes of a C++ computation on scalars.
    [NaN]: some scalar of the result is the result of an undefined real
    operation (0/0, x/0, sqrt of a negative); [Throws]: std::runtime_error. *)
Inductive outcome (A : Type) : Type :=
| Val (a : A)
| NaN
| Throws.
Arguments Val {A} _.
Arguments NaN {A}.
Arguments Throws {A}.
