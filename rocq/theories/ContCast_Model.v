(** cast of the named containers: the items are added in the order of the map to a new container.
    cost-sum.hxx:266-277, multiple-contacts.hxx:414-429, multiple-impulses.hxx:285-300,
    constraint-manager.hxx:342-355.

    The scalar type is the same on both sides (the items of Containers_Model hold no scalar); the cast of an item
    keeps its dimensions and its status.  [None]: an addition threw. *)
From Coq Require Import ZArith String List Bool.
From Verif Require Import Common SMap Containers_Model.
Import ListNotations.
Local Open Scope Z_scope.

Section Loop.
Context {S A : Type} (add : string -> A -> S -> outcome S unit).
Fixpoint add_all (l : smap A) (s : S) : option S :=
  match l with
  | [] => Some s
  | (n, i) :: r => match add n i s with Ok s' _ => add_all r s' | _ => None end
  end.
End Loop.

Definition cast_costs (s : cont) : option cont := add_all add_named (c_items s) (empty_cont (c_nu s)).
(** The contacts also have compute_all_contacts_, false in a new container (multiple-contacts.hxx:19, 28) *)
Definition cast_contacts (s : cont * bool) : option (cont * bool) :=
  match add_all add_named (c_items (fst s)) (empty_cont (c_nu (fst s))) with Some s' => Some (s', false) | None => None end.
(** The impulses have no control dimension *)
Definition cast_impulses (s : cont) : option cont := add_all add_impulse (c_items s) (empty_cont (c_nu s)).
Definition cast_constraints (s : cman) : option cman := add_all add_constraint (m_items s) (empty_cman (m_nu s)).
