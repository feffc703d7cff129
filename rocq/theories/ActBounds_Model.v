(** ActivationBoundsTpl (include/crocoddyl/core/activations/quadratic-barrier.hpp:27-83) over
    scalars with NaN and infinities; [mx] is std::numeric_limits<Scalar>::max(). *)
From Coq Require Import QArith List Bool.
From Verif Require Import XFloat.
Import ListNotations.
Open Scope Q_scope.

Section Bounds.
Variable mx : Q.

(** Lines 42-48: rejected when both are finite and lb - ub > 0. *)
Definition badly (lb ub : xf) : bool := is_fin lb && is_fin ub && xlt (Fin 0) (xsub lb ub).
(** Lines 50-55 *)
Definition cap_lb (lb : xf) : xf := if is_fin lb then lb else Fin (- mx).
Definition cap_ub (ub : xf) : xf := if is_fin ub then ub else Fin mx.
(** Lines 58-71: the shrinking by [beta] around the midpoint. *)
Definition shrink (beta lb ub : xf) : xf * xf :=
  if negb (xeq lb (Fin (- mx))) && negb (xeq ub (Fin mx)) then
    let m := xmul (Fin (1 # 2)) (xadd lb ub) in
    let d := xmul (Fin (1 # 2)) (xsub ub lb) in
    (xsub m (xmul beta d), xadd m (xmul beta d))
  else (lb, ub).
Definition beta_ok (beta : xf) : bool := xle (Fin 0) beta && xle beta (Fin 1).

(** One component; [None] is the exception. *)
Definition bound1 (beta lb ub : xf) : option (xf * xf) :=
  if badly lb ub then None else
  let l := cap_lb lb in let u := cap_ub ub in
  Some (if beta_ok beta then shrink beta l u else (l, u)).

Fixpoint bounds_loop (beta : xf) (lb ub : list xf) : option (list xf * list xf) :=
  match lb, ub with
  | [], [] => Some ([], [])
  | l :: lb', u :: ub' =>
      match bound1 beta l u, bounds_loop beta lb' ub' with
      | Some (l', u'), Some (ls, us) => Some (l' :: ls, u' :: us)
      | _, _ => None
      end
  | _, _ => None     (* different sizes: line 30 *)
  end.

(** The constructor. *)
Definition mk_bounds (lb ub : list xf) (beta : xf) : option (list xf * list xf * xf) :=
  if xlt beta (Fin 0) || xlt (Fin 1) beta then None else
  match bounds_loop beta lb ub with
  | None => None
  | Some (l, u) => Some (l, u, if beta_ok beta then beta else Fin 1)
  end.

(** cast to the same scalar type (77-83) *)
Definition cast_bounds (b : list xf * list xf * xf) : option (list xf * list xf * xf) :=
  let '(l, u, beta) := b in mk_bounds l u beta.
End Bounds.
