(** The limits of a state: construction, setters and casts.

    /repo include/crocoddyl/core/state-base.hxx:13-22 (constructor) and 154-178 (setters and
    update_has_limits), core/states/euclidean.hxx:13-15 and 182-186, multibody/states/
    multibody.hxx:13-37 and 288-294, core/numdiff/state.hxx:13-16 and 210-214.

    Simplified: a cast is to the same scalar type, so that numbers are kept (their
    conversion is C129); the value of a rejected setter is dropped and the state
    unchanged, as with the exception of the code.  The functions of the manifold are
    those of State_Model and StateMB_Model. *)
From Coq Require Import QArith List Bool Arith.
From Verif Require Import Common XFloat.
Import ListNotations.
Local Open Scope nat_scope.

(** What multibody.hxx reads of a Pinocchio model: the size of the root joint, the limits
    of the positions and of the velocities, and the largest number of the scalar type. *)
Record limits := Limits { r_nq0 : nat; r_lo : list xf; r_hi : list xf; r_vel : list xf; r_max : Q }.

Definition xneg (a : xf) : xf :=
  match a with NaN => NaN | PInf => NInf | NInf => PInf | Fin q => Fin (- q) end.

(** A state built for [n] numbers, for a robot, or around another state for numerical
    differentiation. *)
Inductive skind := Vector (n : nat) | Robot (r : limits) | Wrapped (k : skind).
Fixpoint k_nx (k : skind) : nat :=
  match k with
  | Vector n => n
  | Robot r => length (r_lo r) + length (r_vel r)
  | Wrapped k => k_nx k
  end.

(** The bounds the constructors set. *)
Definition lb0 (k : skind) : list xf :=
  match k with
  | Robot r => repeat (Fin (- r_max r)) (r_nq0 r) ++ skipn (r_nq0 r) (r_lo r) ++ map xneg (r_vel r)
  | _ => repeat NInf (k_nx k)
  end.
Definition ub0 (k : skind) : list xf :=
  match k with
  | Robot r => repeat (Fin (r_max r)) (r_nq0 r) ++ skipn (r_nq0 r) (r_hi r) ++ r_vel r
  | _ => repeat PInf (k_nx k)
  end.

Record state := State { s_kind : skind; s_lb : list xf; s_ub : list xf; s_has : bool }.

(** state-base.hxx:175-178 *)
Definition update_has_limits (s : state) : state :=
  State (s_kind s) (s_lb s) (s_ub s) (existsb is_fin (s_lb s) || existsb is_fin (s_ub s)).

(** The base constructor sets the flag to false; only the robot's updates it. *)
Definition construct (k : skind) : state :=
  let s := State k (lb0 k) (ub0 k) false in
  match k with Robot _ => update_has_limits s | _ => s end.

(** state-base.hxx:154-173 *)
Definition set_lb (l : list xf) (s : state) : option state :=
  if length l =? k_nx (s_kind s) then Some (update_has_limits (State (s_kind s) l (s_ub s) (s_has s))) else None.
Definition set_ub (l : list xf) (s : state) : option state :=
  if length l =? k_nx (s_kind s) then Some (update_has_limits (State (s_kind s) (s_lb s) l (s_has s))) else None.

(** The casts build a new state from the size, the robot or the wrapped state. *)
Definition cast (s : state) : state := construct (s_kind s).

Inductive lop := SetLb (l : list xf) | SetUb (l : list xf) | Cast.
Definition lstep (s : state) (o : lop) : state :=
  match o with
  | SetLb l => match set_lb l s with Some s' => s' | None => s end
  | SetUb l => match set_ub l s with Some s' => s' | None => s end
  | Cast => cast s
  end.
Definition lruns (s : state) (os : list lop) : state := fold_left lstep os s.
