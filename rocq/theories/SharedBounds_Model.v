(** * Where the solver finds the bounds of the inequality constraints

    The values of the constraints are stored in the data of a node; their bounds
    are stored in the model ([lb_], [ub_] of ConstraintModelManager,
    /repo include/crocoddyl/core/constraints/constraint-manager.hxx:61-62,
    173-174, 220-221, 408-416), rewritten by every calc and handed out by
    get_g_lb/get_g_ub of the action model (free-fwddyn.hxx:297-315,
    integ-action-base.hxx:96-105).  The solver compares the two after a sweep
    over the nodes (src/core/solver-base.cpp:126-175), and a problem may use one
    model at several nodes (core/optctrl/shooting.hxx:141-175: the running nodes in any
    order, then the terminal node).

    Simplified: the sizes of the data are those of the model (C41, C45), the
    equality rows of an item keep the values of the template, and statuses and
    bounds of the items do not change during the sweeps.  [S] is the scalar
    type, without any law. *)
From Coq Require Import List Bool Arith.
From Verif Require Import ContainersEval_Model.
Import ListNotations.

Section SharedBounds.
Context {S : Type}.

(** A problem: the constraints of every model in name order, the model of every
    running node, the model of the terminal node. *)
Record cproblem := CProblem {
  p_cons : nat -> list (seg_item S); p_run : list nat; p_term : nat }.

(** Memory: bounds by model, values (g, h) by running node, and of the terminal
    node. *)
Record cstate := CState {
  st_bnd : nat -> list S * list S;
  st_val : nat -> list S * list S;
  st_tval : list S * list S }.

(** The items after their own calc gave the values [vals]. *)
Definition fill (l : list (seg_item S)) (vals : list (list S)) : list (seg_item S) :=
  map (fun p => SegItem (s_active (fst p)) (s_T (fst p)) (s_ng (fst p)) (s_nh (fst p))
                        (snd p) (s_h (fst p)) (s_lb (fst p)) (s_ub (fst p)))
      (combine l vals).

Definition put {A} (f : nat -> A) (k : nat) (a : A) : nat -> A :=
  fun j => if Nat.eqb j k then a else f j.

(** Evaluations: calc(data, x, u) of a running node, calc(data, x) of the
    terminal node, with the values the items compute. *)
Inductive event := ERun (t : nat) (vals : list (list S)) | ETerm (vals : list (list S)).

(** [None]: a segment out of range. *)
Definition estep (p : cproblem) (st : cstate) (e : event) : option cstate :=
  match e with
  | ERun t vals =>
      match nth_error (p_run p) t with
      | None => None
      | Some m =>
          let '(g, h) := st_val st t in
          let '(lb, ub) := st_bnd st m in
          match manager_calc (fill (p_cons p m) vals) (Bufs g h lb ub) with
          | None => None
          | Some b => Some (CState (put (st_bnd st) m (b_lb b, b_ub b))
                                   (put (st_val st) t (b_g b, b_h b)) (st_tval st))
          end
      end
  | ETerm vals =>
      let '(g, h) := st_tval st in
      let '(lb, ub) := st_bnd st (p_term p) in
      match manager_calcT (fill (p_cons p (p_term p)) vals) (Bufs g h lb ub) with
      | None => None
      | Some b => Some (CState (put (st_bnd st) (p_term p) (b_lb b, b_ub b))
                               (st_val st) (b_g b, b_h b))
      end
  end.

Fixpoint eruns (p : cproblem) (st : cstate) (es : list event) : option cstate :=
  match es with
  | [] => Some st
  | e :: es' => match estep p st e with None => None | Some st' => eruns p st' es' end
  end.

(** What computeInequalityFeasibility reads, row by row (the rows of the value
    decide how many are read). *)
Definition read_run (p : cproblem) (st : cstate) (t : nat) : list (S * (S * S)) :=
  match nth_error (p_run p) t with
  | None => []
  | Some m => combine (fst (st_val st t)) (combine (fst (st_bnd st m)) (snd (st_bnd st m)))
  end.
Definition read_term (p : cproblem) (st : cstate) : list (S * (S * S)) :=
  combine (fst (st_tval st))
          (combine (fst (st_bnd st (p_term p))) (snd (st_bnd st (p_term p)))).
End SharedBounds.
Arguments cproblem : clear implicits.
Arguments cstate : clear implicits.
Arguments event : clear implicits.
