(** StateMultibody: include/crocoddyl/multibody/states/multibody.hxx.

    A state is a configuration of the robot and a vector of nv velocities.  The configuration space is
    the Lie group of the Pinocchio model, given by the functions crocoddyl calls (difference, integrate,
    dDifference, dIntegrate, dIntegrateTransport); they act joint by joint, so that the derivative
    routines write the diagonal blocks of the joints and nothing else.  The checks of the sizes of the
    arguments are not modelled: all sizes are right. *)
From Coq Require Import Reals List Arith Bool String.
From Verif Require Import Deriv VecMat XFloat State_Model.
Import ListNotations.
Open Scope list_scope.
Open Scope R_scope.

Record space := Space {
  cfg : Type;
  nvs : list nat;                         (* nv of each joint, in the order of the velocity vector *)
  p_diff : cfg -> cfg -> vec;             (* pinocchio::difference *)
  p_int : cfg -> vec -> cfg;              (* pinocchio::integrate *)
  p_dD0 : cfg -> cfg -> mat; p_dD1 : cfg -> cfg -> mat;   (* dDifference, ARG0 and ARG1 *)
  p_dI0 : cfg -> vec -> mat; p_dI1 : cfg -> vec -> mat }. (* dIntegrate, ARG0 and ARG1 *)

Definition total_nv (l : list nat) : nat := fold_right Nat.add 0%nat l.
(** The joint a velocity coordinate belongs to. *)
Fixpoint joint_of (l : list nat) (i : nat) : nat :=
  match l with [] => 0 | n :: r => if (i <? n)%nat then 0 else S (joint_of r (i - n)) end.
(** idx_vs and nvs of the joints *)
Fixpoint blocks (o : nat) (l : list nat) : list (nat * nat) :=
  match l with [] => [] | n :: r => (o, n) :: blocks (o + n) r end.

Section State.
Variable sp : space.
Definition nv : nat := total_nv (nvs sp).
Definition ndx : nat := (nv + nv)%nat.
Definition mstate : Type := (cfg sp * vec)%type.

(** multibody.hxx:56-78 *)
Definition m_diff (x0 x1 : mstate) : vec :=
  fun i => if (i <? nv)%nat then p_diff sp (fst x0) (fst x1) i else snd x1 (i - nv)%nat - snd x0 (i - nv)%nat.
(** multibody.hxx:80-103 *)
Definition m_int (x : mstate) (dx : vec) : mstate :=
  (p_int sp (fst x) dx, fun i => snd x i + dx (nv + i)%nat).

(** The entries written by the derivative routines: the block of a joint, the diagonal of the
    bottom right corner. *)
Definition in_joint (i j : nat) : bool :=
  (i <? nv)%nat && (j <? nv)%nat && Nat.eqb (joint_of (nvs sp) i) (joint_of (nvs sp) j).
Definition on_diag (i j : nat) : bool := (nv <=? i)%nat && (i <? ndx)%nat && Nat.eqb i j.
Definition write (op : assign_op) (D : mat) (c : R) (J : mat) : mat :=
  fun i j => if in_joint i j then assign op (J i j) (D i j) else if on_diag i j then assign op (J i j) c else J i j.

(** multibody.hxx:105-163; the result is the pair (Jfirst, Jsecond) *)
Definition m_Jdiff (c : jcomp) (x0 x1 : mstate) (J : mat * mat) : mat * mat :=
  (if wants_first c then write setto (p_dD0 sp (fst x0) (fst x1)) (-1) (fst J) else fst J,
   if wants_second c then write setto (p_dD1 sp (fst x0) (fst x1)) 1 (snd J) else snd J).
(** multibody.hxx:165-244 *)
Definition m_Jint (c : jcomp) (op : assign_op) (x : mstate) (dx : vec) (J : mat * mat) : mat * mat :=
  (if wants_first c then write op (p_dI0 sp (fst x) dx) 1 (fst J) else fst J,
   if wants_second c then write op (p_dI1 sp (fst x) dx) 1 (snd J) else snd J).
(** multibody.hxx:246-273: the first nv rows are multiplied from the left; both throws. *)
Definition transport (D J : mat) : mat := fun i j => if (i <? nv)%nat then mulm nv D J i j else J i j.
Definition m_Jtransport (c : jcomp) (x : mstate) (dx : vec) (J : mat) : option mat :=
  match c with
  | first => Some (transport (p_dI0 sp (fst x) dx) J)
  | second => Some (transport (p_dI1 sp (fst x) dx) J)
  | both => None
  end.

(** Calls on a pair of matrices owned by the caller. *)
Inductive jcall :=
  | JDiff (c : jcomp) (x0 x1 : mstate)
  | JInt (c : jcomp) (op : assign_op) (x : mstate) (dx : vec)
  | JTransport (c : jcomp) (x : mstate) (dx : vec).   (* on the first matrix *)
Definition jstep (J : mat * mat) (k : jcall) : mat * mat :=
  match k with
  | JDiff c x0 x1 => m_Jdiff c x0 x1 J
  | JInt c op x dx => m_Jint c op x dx J
  | JTransport c x dx => match m_Jtransport c x dx (fst J) with Some A => (A, snd J) | None => J end
  end.
Definition zeros : mat := fun _ _ => 0.
Definition jrun (l : list jcall) : mat * mat := fold_left jstep l (zeros, zeros).
End State.

(** ** Limits: multibody.hxx:26-39.  A joint has a name and nq; the limits of the Pinocchio model are
    given for each coordinate. *)
Open Scope nat_scope.
Record joint := Joint { j_name : string; j_nq : nat }.
Record limits := Limits { lo_q : nat -> xf; up_q : nat -> xf; v_max : nat -> xf }.
Definition total_nq (l : list joint) : nat := fold_right (fun j n => j_nq j + n) 0 l.
Definition is_root (j : joint) : bool := String.eqb (j_name j) "root_joint"%string.
(** existJointName, getJointId, joints[id].nq() *)
Definition root_nq (l : list joint) : nat := match find is_root l with Some j => j_nq j | None => 0 end.
(** [big] is std::numeric_limits<Scalar>::max() *)
Definition m_limits (big : xf) (js : list joint) (n_v : nat) (L : limits) : slimits :=
  let nq := total_nq js in let nq0 := root_nq js in
  let s := sl_create (nq + n_v) in
  let at_ (root : xf) (q : nat -> xf) (v : nat -> xf) (i : nat) : xf :=
    if i <? nq0 then root else if i <? nq then q i else v (i - nq) in
  sl_update (SLimits (l_n s)
    (map (at_ (xopp big) (lo_q L) (fun i => xopp (v_max L i))) (seq 0 (nq + n_v)))
    (map (at_ big (up_q L) (v_max L)) (seq 0 (nq + n_v))) (l_has s)).
