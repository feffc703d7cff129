(** Specification for C34, C35: interpolation at nodes and Jacobians along curves. *)
From Coquelicot Require Import Coquelicot.
From Coq Require Import Reals List Arith Bool Lia Lra.
From Verif Require Import Deriv VecMat ControlParam_Model.
Import ListNotations.
Open Scope R_scope.

(** Interpolation nodes; the parameters of node [k] are the entries [k*nw .. k*nw+nw-1]. *)
Definition nodes (p : param) : list R :=
  match p with
  | PolyZero => [0]
  | PolyOne => [0; 1 / 2]
  | PolyTwoRK three => [0; 1 / 3; 2 / 3]
  | PolyTwoRK four => [0; 1 / 2; 1]
  | PolyTwoRK two => []
  end.
Definition supported (p : param) : Prop := p <> PolyTwoRK two.
(** Lagrange basis: the polynomial that is 1 at node [k] and 0 at the others. *)
Fixpoint lag (l : list R) (tk t : R) : R :=
  match l with
  | [] => 1
  | n :: l' => (if Req_EM_T n tk then 1 else (t - n) / (tk - n)) * lag l' tk t
  end.
Definition control_of (p : param) (nw : nat) (t : R) (u : vec) (i : nat) : R :=
  rsum (length (nodes p)) (fun k => lag (nodes p) (nth k (nodes p) 0) t * u (k * nw + i)%nat).
(** [J] is the Jacobian of [f] at [u]. *)
Definition jacobian_at (n m : nat) (f : vec -> vec) (u : vec) (J : mat) : Prop :=
  forall (c : R -> vec) (s : R) (v : vec),
    (forall j, (j < n)%nat -> c s j = u j) ->
    (forall j, (j < n)%nat -> is_derive (fun x => c x j) s (v j)) ->
    forall i, (i < m)%nat -> is_derive (fun x => f (c x) i) s (rsum n (fun j => J i j * v j)).

