(** Specification for C12-C19 and C27, independent of the loops. *)
From Coq Require Import QArith List Bool Arith.
From Verif Require Import Common XFloat Params_Model Solver_Model.
Import ListNotations.
Local Open Scope nat_scope.

Section Spec.
Context {X U V : Type}.
Notation node := (node X U V).
Notation tnode := (tnode X V).

(** One node of the problem: next state and cost. *)
Definition node_eval (n : node) (x : X) (u : U) : X * xf :=
  if n_u n then n_calc n x u else n_calc0 n x.

(** The trajectory starts at [x] and follows the dynamics. *)
Fixpoint follows (x : X) (ns : list node) (xs : list X) (us : list U) : Prop :=
  match ns, xs, us with
  | [], [y], [] => y = x
  | n :: ns', y :: xs', u :: us' => y = x /\ follows (fst (node_eval n y u)) ns' xs' us'
  | _, _, _ => False
  end.

(** Total cost of a trajectory, summed along the horizon from [c]. *)
Fixpoint total_cost (tn : tnode) (c : xf) (ns : list node) (xs : list X) (us : list U) : xf :=
  match ns, xs, us with
  | [], y :: _, _ => xadd c (t_cost tn y)
  | n :: ns', y :: xs', u :: us' => total_cost tn (xadd c (snd (node_eval n y u))) ns' xs' us'
  | _, _, _ => NaN
  end.

(** The gaps of a trajectory: initial state, then one per running node. *)
Fixpoint gaps_from (ns : list node) (xs : list X) (us : list U) : list V :=
  match ns, xs, us with
  | n :: ns', y :: ((z :: _) as xs'), u :: us' =>
      n_diff n z (fst (node_eval n y u)) :: gaps_from ns' xs' us'
  | _, _, _ => []
  end.
Definition gaps (x0 : X) (ns : list node) (xs : list X) (us : list U) : list V :=
  match ns, xs with
  | n :: _, y :: _ => n_diff n y x0 :: gaps_from ns xs us
  | _, _ => []
  end.

(** Well-sized trajectory. *)
Definition sized (ns : list node) (xs : list X) (us : list U) : Prop :=
  length xs = S (length ns) /\ length us = length ns.
End Spec.

(** Regularization window. *)
Definition in_window (par : params) (r : xf) : Prop :=
  xle (p_val par RegMin) r = true /\ xle r (p_val par RegMax) = true.

Definition reg_event_ok {X U V} (par : params) (e : event X U V) : Prop :=
  match e with
  | EDir p d _ _ _ _ _ => p = d /\ in_window par p
  | EAccept _ _ _ _ _ => True
  | ECall _ _ _ _ _ _ _ p d => p = d /\ in_window par p
  end.

(** The callback invocations of a log (latest first), as iteration numbers and costs. *)
Definition calls {X U V} (l : list (event X U V)) : list nat :=
  flat_map (fun e => match e with ECall i _ _ _ _ _ _ _ _ => [i] | _ => [] end) l.
Definition call_costs {X U V} (l : list (event X U V)) : list xf :=
  flat_map (fun e => match e with ECall _ _ _ _ _ c _ _ _ => [c] | _ => [] end) l.

(** The new value is not larger (equality covers NaN). *)
Definition no_increase (old new : xf) : Prop := new = old \/ xlt new old = true.

(** Latest first: every cost is at most its predecessor, the first one at most [c0]. *)
Fixpoint descending (c0 : xf) (l : list xf) : Prop :=
  match l with
  | [] => True
  | [c] => no_increase c0 c
  | c :: ((c' :: _) as r) => no_increase c' c /\ descending c0 r
  end.

(** The candidate was produced by a step taken from a feasible-flagged candidate: the
    most recent acceptance. *)
Fixpoint last_accept_feasible {X U V} (l : list (event X U V)) : Prop :=
  match l with
  | [] => False
  | EAccept f _ _ _ _ :: _ => f = true
  | _ :: r => last_accept_feasible r
  end.

(** Step lengths of the accepted trials of a log, latest first. *)
Definition steps {X U V} (l : list (event X U V)) : list xf :=
  flat_map (fun e => match e with EAccept _ a _ _ _ => [a] | _ => [] end) l.
(** A gap after the steps [l] (latest first): scaled by [1 - a] for every one of them. *)
Definition shrink {V} (vscale : V -> xf -> V) (l : list xf) (f : V) : V :=
  fold_right (fun a v => vscale v (xsub (Fin 1) a)) f l.
