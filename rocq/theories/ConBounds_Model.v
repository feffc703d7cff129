(** * Changing the bounds of a constraint that is in a container

    [update_bounds] and [remove_bounds] of a constraint
    (/repo include/crocoddyl/core/constraint-base.hxx:108-151) change its ng and
    nh; a ConstraintModelManager that holds it (constraint-manager.hxx:39-127,
    as in [Containers_Model]) is not told.

    Simplified: only sizes; a call that throws changes nothing and is left out
    (C102 says when); every constraint is in one container. *)
From Coq Require Import ZArith String List Bool.
From Verif Require Import Common SMap Containers_Model.
Import ListNotations.
Local Open Scope Z_scope.

(** Sizes after the calls, from the sizes [ngi], [nhi] the constraint was created
    with: remove_bounds (constraint-base.hxx:144-151) turns the inequalities into
    equalities, update_bounds (constraint-base.hxx:132-142) turns them back. *)
Definition removed (ngi nhi : Z) (i : citem) : citem :=
  CItem 0 (nhi + ngi) (ci_nu i) (ci_T i) (ci_active i).
Definition updated (ngi nhi : Z) (i : citem) : citem :=
  CItem ngi nhi (ci_nu i) (ci_T i) (ci_active i).

Inductive xop :=
| XOp (o : mop)
| XRemoveBounds (name : string) (ngi nhi : Z)
| XUpdateBounds (name : string) (ngi nhi : Z).

(** The constraint is changed through its own pointer: nothing else of the
    container is. *)
Definition touch (name : string) (g : citem -> citem) (s : cman) : cman :=
  CMan (m_nu s) (m_ng s) (m_nh s) (m_ngT s) (m_nhT s) (m_lbsize s)
       (mupdate name g (m_items s)) (m_act s) (m_inact s).

Definition xstep (s : cman) (o : xop) : cman :=
  match o with
  | XOp o => mstep s o
  | XRemoveBounds n ngi nhi => touch n (removed ngi nhi) s
  | XUpdateBounds n ngi nhi => touch n (updated ngi nhi) s
  end.

Definition xrun (s : cman) (h : list xop) : cman := fold_left xstep h s.
