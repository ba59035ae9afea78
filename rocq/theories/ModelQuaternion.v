(** * ModelQuaternion: include/kindr/quaternions (Quaternion, UnitQuaternion).
    A quaternion object is the 4-tuple [Quat]; setters return the new value. *)
From Coq Require Import Reals Lra Bool.
From Verif Require Import Linalg Spec ModelCommon ModelEigen ModelRotation.
Local Open Scope R_scope.

(** Quaternion() and Zero(), setZero(): Quaternion.hpp:68-70,230-243 *)
Definition quat_zero : Quat := mkQ 0 0 0 0.
(** constructor from real and imaginary part, Quaternion.hpp:86-88 *)
Definition quat_real_imag (re : R) (im : V3) : Quat := mkQ re (vx im) (vy im) (vz im).
(** real(), imaginary(): Quaternion.hpp:203-209 *)
Definition quat_real (q : Quat) : R := qw q.
Definition quat_imaginary (q : Quat) : V3 := mkV3 (qx q) (qy q) (qz q).
(** inverted()/invert(): Quaternion.hpp:105-114 *)
Definition quat_inverted (q : Quat) : Quat := e_inverse q.
(** conjugated()/conjugate(): Quaternion.hpp:118-127, UnitQuaternion 447-456 *)
Definition quat_conjugated (q : Quat) : Quat := e_conjugate q.
(** operator*: QuaternionBase.hpp:46-51,118-121,205-216 *)
Definition quat_mult (a b : Quat) : Quat := e_mul a b.
(** operator==: QuaternionBase.hpp:55-64,132-135 *)
Definition quat_eq (a b : Quat) : bool := qeqb a b.
(** operator!=: QuaternionBase.hpp:142-145 *)
Definition quat_neq (a b : Quat) : bool := negb (quat_eq a b).
(** norm(): Quaternion.hpp:217-219 *)
Definition quat_norm (q : Quat) : R := qnorm q.
(** normalized()/normalize(): Quaternion.hpp:221-228; toUnitQuaternion():
    Quaternion.hpp:245-247 *)
Definition quat_normalized (q : Quat) : Quat := e_qnormalize q.
Definition quat_toUnitQuaternion (q : Quat) : Quat := e_qnormalize q.

(** UnitQuaternion(): Quaternion.hpp:308-310, Identity(): 486-488 *)
Definition unit_identity : Quat := mkQ 1 0 0 0.
(** UnitQuaternion::setIdentity(): Quaternion.hpp:475-481.  The code writes 0
    into all four coefficients; transcribed as it is. *)
Definition unit_setIdentity (q : Quat) : Quat := mkQ 0 0 0 0.
(** UnitQuaternion::inverted()/invert(): QuaternionBase.hpp:183-194 *)
Definition unit_inverted (q : Quat) : Quat := quat_conjugated q.

(** 4x4 matrices by rows, acting on [w;x;y;z] *)
Record M44 : Type := mkM44 { row0 : Quat; row1 : Quat; row2 : Quat; row3 : Quat }.
Definition qdot (a b : Quat) : R := qw a * qw b + qx a * qx b + qy a * qy b + qz a * qz b.
Definition m44_apply (m : M44) (q : Quat) : Quat :=
  mkQ (qdot (row0 m) q) (qdot (row1 m) q) (qdot (row2 m) q) (qdot (row3 m) q).
(** getQuaternionMatrix(): Quaternion.hpp:253-260 and 504-511,
    RotationQuaternion.hpp:373-380 *)
Definition getQuaternionMatrix (q : Quat) : M44 :=
  mkM44 (mkQ (qw q) (- qx q) (- qy q) (- qz q))
        (mkQ (qx q) (qw q) (- qz q) (qy q))
        (mkQ (qy q) (qz q) (qw q) (- qx q))
        (mkQ (qz q) (- qy q) (qx q) (qw q)).
(** getConjugateQuaternionMatrix(): Quaternion.hpp:266-273 and 517-524,
    RotationQuaternion.hpp:386-393 *)
Definition getConjugateQuaternionMatrix (q : Quat) : M44 :=
  mkM44 (mkQ (qw q) (- qx q) (- qy q) (- qz q))
        (mkQ (qx q) (qw q) (qz q) (- qy q))
        (mkQ (qy q) (- qz q) (qw q) (qx q))
        (mkQ (qz q) (qy q) (- qx q) (qw q)).
