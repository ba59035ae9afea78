(** * ModelPose: poses (poses/HomogeneousTransformation.hpp, Pose.hpp,
    PoseBase.hpp), twists (poses/Twist.hpp) and wrenches (phys_quant/Wrench.hpp). *)
From Coq Require Import Reals Lra Bool List.
From Verif Require Import Linalg Spec ModelCommon ModelEigen ModelRotation ModelQuaternion ModelDiff.
Import ListNotations.
Local Open Scope R_scope.

(** HomogeneousTransformation: the two members position_ and rotation_
    (HomogeneousTransformation.hpp:40-44). The class of the pose is the class of
    its rotation. *)
Record pose : Type := mkPose { ppos : V3; prot : rotation }.

Section WithPrim.
Context (p : prim).

(** Identity() (HomogeneousTransformation.hpp:128-130), setIdentity() (119-123)
    and the default constructor (53-55) *)
Definition pose_identity (k : kind) : pose := mkPose (mkV3 0 0 0) (identity k).
(** constructor from another pose, HomogeneousTransformation.hpp:62-67 *)
Definition pose_convert (k : kind) (t : pose) : outcome pose :=
  r <- convert p k (prot t) ;; Val (mkPose (ppos t) r).
(** transform, PoseBase.hpp:123-125 + HomogeneousTransformation.hpp:165-167 *)
Definition transform (t : pose) (x : V3) : outcome V3 :=
  y <- rotate p (prot t) x ;; Val (vadd y (ppos t)).
(** inverseTransform, PoseBase.hpp:130-132 + HomogeneousTransformation.hpp:168-170 *)
Definition inverseTransform (t : pose) (x : V3) : outcome V3 :=
  inverseRotate p (prot t) (vsub x (ppos t)).
(** operator*, PoseBase.hpp:137-140; same class HomogeneousTransformation.hpp:
    176-185, different classes Pose.hpp:43-57 (Left_(HomTrans(...)) copies) *)
Definition pose_mult (a b : pose) : outcome pose :=
  y <- rotate p (prot a) (ppos b) ;;
  let position := vadd (ppos a) y in
  r <- mult p (prot a) (prot b) ;;
  Val (mkPose position r).
(** getTransformationMatrix, HomogeneousTransformation.hpp:100-106; rows of
    four coefficients *)
Definition getTransformationMatrix (t : pose) : outcome M44 :=
  m <- to_mat p (prot t) ;;
  Val (mkM44 (mkQ (m00 m) (m01 m) (m02 m) (vx (ppos t)))
             (mkQ (m10 m) (m11 m) (m12 m) (vy (ppos t)))
             (mkQ (m20 m) (m21 m) (m22 m) (vz (ppos t)))
             (mkQ 0 0 0 1)).
(** operator==, Pose.hpp:89-96: && short-circuits; [None] when the rotation
    comparison is not instantiable *)
Definition pose_is_equal (a b : pose) : option (outcome bool) :=
  match is_equal p (prot a) (prot b) with
  | None => None
  | Some o => Some (if veqb (ppos a) (ppos b) then o else Val false)
  end.
(** operator!=, PoseBase.hpp:150-153 *)
Definition pose_not_equal (a b : pose) : option (outcome bool) :=
  match pose_is_equal a b with
  | None => None
  | Some o => Some (b <- o ;; Val (negb b))
  end.
(** T = T1 * T2 * ... * Tn (left-associated product of a chain of frames) *)
Definition pose_chain (t : pose) (ts : list pose) : outcome pose :=
  fold_left (fun acc u => a <- acc ;; pose_mult a u) ts (Val t).
End WithPrim.

(** ** Six-vectors (Eigen::Matrix<PrimType_,6,1>) *)
Record V6 : Type := mkV6 { c0 : R; c1 : R; c2 : R; c3 : R; c4 : R; c5 : R }.
(** Eigen's head<3>() and tail<3>() of a 6-vector *)
Definition head3 (v : V6) : V3 := mkV3 (c0 v) (c1 v) (c2 v).
Definition tail3 (v : V6) : V3 := mkV3 (c3 v) (c4 v) (c5 v).

(** ** Twists, Twist.hpp:40-45: a translational velocity and a RotationDiff *)
Record twist : Type := mkTwist { tlin : V3; trot : diff }.
(** Vector6::Zero() then block<3,1>(0,0) = a, block<3,1>(3,0) = b *)
Definition blocks6 (a b : V3) : V6 := mkV6 (vx a) (vy a) (vz a) (vx b) (vy b) (vz b).
(** getVector(rotation), Twist.hpp:73-80; [None]: no conversion to
    LocalAngularVelocity for this pair of classes *)
Definition twist_getVector_rot (p : prim) (t : twist) (r : rotation) : option (outcome V6) :=
  match diff_convert p KDLocal r (trot t) with
  | Some o => Some (d <- o ;; match d with DLocal w => Val (blocks6 (tlin t) w) | _ => NaN end)
  | None => None
  end.
(** Zero()/setZero(), Twist.hpp:92-103,127-129,186-188,249-251 *)
Definition twist_zero (k : dkind) : twist := mkTwist (mkV3 0 0 0) (diff_zero k).
(** Local twist: TwistLinearVelocityLocalAngularVelocity, Twist.hpp:137-189 *)
Definition local_twist_of_vector (v : V6) : twist := mkTwist (head3 v) (DLocal (tail3 v)).   (* 162-164 *)
Definition local_twist_getVector (t : twist) : option V6 :=                                  (* 169-174 *)
  match trot t with DLocal w => Some (blocks6 (tlin t) w) | _ => None end.
Definition local_twist_setVector (t : twist) (v : V6) : twist :=                             (* 178-181 *)
  let t1 := mkTwist (head3 v) (trot t) in mkTwist (tlin t1) (DLocal (tail3 v)).
(** Global twist: TwistLinearVelocityGlobalAngularVelocity, Twist.hpp:200-252 *)
Definition global_twist_of_vector (v : V6) : twist := mkTwist (head3 v) (DGlobal (tail3 v)). (* 225-227 *)
Definition global_twist_getVector (t : twist) : option V6 :=                                 (* 232-237 *)
  match trot t with DGlobal w => Some (blocks6 (tlin t) w) | _ => None end.
Definition global_twist_setVector (t : twist) (v : V6) : twist :=                            (* 241-244 *)
  let t1 := mkTwist (head3 v) (trot t) in mkTwist (tlin t1) (DGlobal (tail3 v)).

(** ** Wrenches, Wrench.hpp:44-258 *)
Record wrench : Type := mkWrench { wforce : V3; wtorque : V3 }.
Definition wrench_zero : wrench := mkWrench (mkV3 0 0 0) (mkV3 0 0 0).        (* 52-54, 129-140 *)
Definition wrench_of_vector (v : V6) : wrench := mkWrench (head3 v) (tail3 v). (* 66-69 *)
Definition wrench_setForce (w : wrench) (f : V3) : wrench := mkWrench f (wtorque w).  (* 94-96,104-106 *)
Definition wrench_setTorque (w : wrench) (f : V3) : wrench := mkWrench (wforce w) f.  (* 99-101,109-111 *)
Definition wrench_setVector (w : wrench) (v : V6) : wrench := wrench_of_vector v.     (* 114-116 *)
Definition wrench_getVector (w : wrench) : V6 :=                                      (* 119-124 *)
  mkV6 (vx (wforce w)) (vy (wforce w)) (vz (wforce w))
       (vx (wtorque w)) (vy (wtorque w)) (vz (wtorque w)).
Definition wrench_add (a b : wrench) : wrench :=                                      (* 152-154 *)
  mkWrench (vadd (wforce a) (wforce b)) (vadd (wtorque a) (wtorque b)).
Definition wrench_sub (a b : wrench) : wrench :=                                      (* 160-162 *)
  mkWrench (vsub (wforce a) (wforce b)) (vsub (wtorque a) (wtorque b)).
Definition wrench_mul (a : wrench) (f : R) : wrench :=                                (* 169-171 *)
  mkWrench (vscale f (wforce a)) (vscale f (wtorque a)).
(** coefficients divided by a scalar: undefined for a zero divisor *)
Definition vdiv (v : V3) (d : R) : outcome V3 :=
  if Req_EM_T d 0 then NaN else Val (mkV3 (vx v / d) (vy v / d) (vz v / d)).
Definition wrench_div (a : wrench) (d : R) : outcome wrench :=                        (* 178-180 *)
  f <- vdiv (wforce a) d ;; t <- vdiv (wtorque a) d ;; Val (mkWrench f t).
(** the compound assignments act member by member, Wrench.hpp:186-222 *)
Definition wrench_add_assign (a b : wrench) : wrench :=
  let a1 := wrench_setForce a (vadd (wforce a) (wforce b)) in
  wrench_setTorque a1 (vadd (wtorque a1) (wtorque b)).
Definition wrench_sub_assign (a b : wrench) : wrench :=
  let a1 := wrench_setForce a (vsub (wforce a) (wforce b)) in
  wrench_setTorque a1 (vsub (wtorque a1) (wtorque b)).
Definition wrench_mul_assign (a : wrench) (f : R) : wrench :=
  let a1 := wrench_setForce a (vscale f (wforce a)) in
  wrench_setTorque a1 (vscale f (wtorque a1)).
Definition wrench_div_assign (a : wrench) (d : R) : outcome wrench :=
  f <- vdiv (wforce a) d ;;
  let a1 := wrench_setForce a f in
  t <- vdiv (wtorque a1) d ;; Val (wrench_setTorque a1 t).
Definition wrench_neg (a : wrench) : wrench := mkWrench (vneg (wforce a)) (vneg (wtorque a)). (* 227-229 *)
Definition wrench_eq (a b : wrench) : bool :=                                         (* 235-237 *)
  (veqb (wforce a) (wforce b) && veqb (wtorque a) (wtorque b))%bool.
