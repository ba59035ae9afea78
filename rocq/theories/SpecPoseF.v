(** * SpecPoseF: specification of rigid motions for the statements about
    floating-point poses: what a history of calls is meant to do, in exact
    arithmetic. *)
From Coq Require Import Reals ZArith List.
From Flocq Require Import IEEE754.BinarySingleNaN Core.Core.
From Verif Require Import Linalg Spec SpecClose ModelCommon FloatModel FloatModel2 SpecFloatQ FloatModel5.
Import ListNotations.
Local Open Scope R_scope.

(** The rigid motion x |-> A x + t. *)
Record rigid : Type := mkRigid { rg_rot : M33; rg_pos : V3 }.
Definition rigid_act (g : rigid) (x : V3) : V3 := vadd (mvmul (rg_rot g) x) (rg_pos g).
(** composition: first [b], then [a] *)
Definition rigid_mul (a b : rigid) : rigid := mkRigid (mmul (rg_rot a) (rg_rot b)) (vadd (rg_pos a) (mvmul (rg_rot a) (rg_pos b))).
Definition rigid_id : rigid := mkRigid mid (mkV3 0 0 0).

(** ** Histories of a quaternion pose. Each call comes with the unit quaternion
    and the position its operand is meant to be: the operand is that quaternion up
    to [A] roundings, and that position up to [A] roundings of [L], the bound on
    the lengths of the positions handed in. *)
Definition fpcall (p : prim) : Type := (fpop p * (Quat * V3))%type.
Definition vclose_ok {p} (A L : R) (x : FV p) (t : V3) : Prop :=
  vfinite x /\ vnorm t <= L /\ vdist (vval x) t <= A * roundoff p * L.
Definition fqpose_ok {p} (A L : R) (b : fpose p (FQ p)) (e : Quat) (t : V3) : Prop :=
  qfinite (frot b) /\ qnorm e = 1 /\ qdist (qval (frot b)) e <= A * roundoff p /\ vclose_ok A L (fpos b) t.
Definition fpcall_ok {p} (A L : R) (c : fpcall p) : Prop :=
  match c with
  | (PMulRight o4 o b, (e, t)) | (PMulLeft o4 o b, (e, t)) => orders4_ok o4 /\ rotorders_ok o /\ fqpose_ok A L b e t
  | (PAssign b, (e, t)) => fqpose_ok A L b e t
  | (PSetIdentity, _) => True
  | (PRotation c, (e, _)) => fcall_ok A (c, e)
  | (PPosition x, (_, t)) => vclose_ok A L x t
  end.
(** the same calls on the intended rigid motions; a call on the rotation member
    leaves the position alone *)
Definition rigid_step {p} (g : rigid) (c : fpcall p) : rigid :=
  match c with
  | (PMulRight _ _ _, (e, t)) => rigid_mul g (mkRigid (quat_rot e) t)
  | (PMulLeft _ _ _, (e, t)) => rigid_mul (mkRigid (quat_rot e) t) g
  | (PAssign _, (e, t)) => mkRigid (quat_rot e) t
  | (PSetIdentity, _) => rigid_id
  | (PRotation (FMulRight _ _), (e, _)) => mkRigid (mmul (rg_rot g) (quat_rot e)) (rg_pos g)
  | (PRotation (FMulLeft _ _), (e, _)) => mkRigid (mmul (quat_rot e) (rg_rot g)) (rg_pos g)
  | (PRotation (FAssign _), (e, _)) => mkRigid (quat_rot e) (rg_pos g)
  | (PRotation FInvert, _) => mkRigid (mtrans (rg_rot g)) (rg_pos g)
  | (PRotation FSetUnique, _) | (PRotation (FFix _ _), _) => g
  | (PPosition _, (_, t)) => mkRigid (rg_rot g) t
  end.
Definition rigid_run {p} (g : rigid) (l : list (fpcall p)) : rigid := fold_left rigid_step l g.
(** number of products since the last assignment of the rotation or fix() *)
Definition pproducts_step {p} (k : nat) (c : fpcall p) : nat :=
  match fst c with
  | PMulRight _ _ _ | PMulLeft _ _ _ | PRotation (FMulRight _ _) | PRotation (FMulLeft _ _) => S k
  | PAssign _ | PSetIdentity | PRotation (FAssign _) | PRotation (FFix _ _) => 0%nat
  | _ => k
  end.
Definition pproducts {p} (k : nat) (l : list (fpcall p)) : nat := fold_left pproducts_step l k.
Fixpoint pfixed_every {p} (K k : nat) (l : list (fpcall p)) : Prop :=
  (k <= K)%nat /\ match l with [] => True | c :: l => pfixed_every K (pproducts_step k c) l end.

(** ** Histories of a matrix pose. *)
Definition fpmcall (p : prim) : Type := (fpmop p * (M33 * V3))%type.
Definition fmpose_ok {p} (A L : R) (b : fpose p (FM p)) (e : M33) (t : V3) : Prop :=
  mfinite (frot b) /\ SO3 e /\ close (A * roundoff p) (mval (frot b)) e /\ vclose_ok A L (fpos b) t.
Definition fpmcall_ok {p} (A L : R) (c : fpmcall p) : Prop :=
  match c with
  | (PMMulRight o9 o b, (e, t)) | (PMMulLeft o9 o b, (e, t)) => orders9_ok o9 /\ orders3_ok 3 3 3 o /\ fmpose_ok A L b e t
  | (PMAssign b, (e, t)) => fmpose_ok A L b e t
  | (PMSetIdentity, _) => True
  | (PMRotation c, (e, _)) => fmcall_ok A (c, e)
  | (PMPosition x, (_, t)) => vclose_ok A L x t
  end.
Definition mrigid_step {p} (g : rigid) (c : fpmcall p) : rigid :=
  match c with
  | (PMMulRight _ _ _, (e, t)) => rigid_mul g (mkRigid e t)
  | (PMMulLeft _ _ _, (e, t)) => rigid_mul (mkRigid e t) g
  | (PMAssign _, (e, t)) => mkRigid e t
  | (PMSetIdentity, _) => rigid_id
  | (PMRotation (MMulRight _ _), (e, _)) => mkRigid (mmul (rg_rot g) e) (rg_pos g)
  | (PMRotation (MMulLeft _ _), (e, _)) => mkRigid (mmul e (rg_rot g)) (rg_pos g)
  | (PMRotation (MAssign _), (e, _)) => mkRigid e (rg_pos g)
  | (PMRotation MInvert, _) => mkRigid (mtrans (rg_rot g)) (rg_pos g)
  | (PMPosition _, (_, t)) => mkRigid (rg_rot g) t
  end.
Definition mrigid_run {p} (g : rigid) (l : list (fpmcall p)) : rigid := fold_left mrigid_step l g.

(** ** The 4x4 matrix of a pose, acting on homogeneous coordinates (x, 1) *)
Definition entry {p} (m : list (list (fl p))) (i j : nat) : R := B2R (nth j (nth i m []) fzero).
Definition row_act {p} (m : list (list (fl p))) (i : nat) (x : V3) : R :=
  entry m i 0 * vx x + entry m i 1 * vy x + entry m i 2 * vz x + entry m i 3.
Definition matrix_act {p} (m : list (list (fl p))) (x : V3) : V3 := mkV3 (row_act m 0 x) (row_act m 1 x) (row_act m 2 x).
