(** * Casting a shooting problem

    Models [ShootingProblemTpl::cast]
    (/repo include/crocoddyl/core/optctrl/shooting.hxx:393-402), the threads of
    the constructor and of [set_nthreads] (shooting.hxx:57-63 and 501-524) and
    [vector_cast] of shared pointers (core/utils/conversions.hpp:49-61).

    Action models live in a heap and the nodes are handles, because the same
    shared pointer may stand at several nodes.  [A] and [B] are the action
    models of the two scalar types and [cast_model] the virtual cast of an
    action model (a parameter; see C127-C129 for what concrete casts keep).
    Simplified: the datas are left out (C01-C06), and the conversion of the
    number of threads to [int] is exact (fewer than 2^31 threads). *)

From Coq Require Import List Arith Bool.
Import ListNotations.

Section ProbCast.
Context {A B X Y : Type}.
Variable cast_model : A -> B.
Variable cast_x0 : X -> Y.

(** A problem: initial state, handles of the running nodes, handle of the
    terminal node, number of threads; and the heap of the models. *)
Record problem (T S : Type) := Problem {
  p_x0 : S;
  p_run : list nat;
  p_term : nat;
  p_threads : nat;
  p_heap : list T
}.
Arguments p_x0 {T S}. Arguments p_run {T S}. Arguments p_term {T S}.
Arguments p_threads {T S}. Arguments p_heap {T S}.
Arguments Problem {T S}.

(** shooting.hxx:57-63 (constructor): [mt] is whether the library was built
    with multithreading, [en] the flag [enableMultithreading()], [dflt] the
    macro [CROCODDYL_WITH_NTHREADS]. *)
Definition threads_init (mt en : bool) (dflt : nat) : nat :=
  if mt && en then dflt else 1.

(** shooting.hxx:501-524.  A request below one is a [0] here. *)
Definition set_nthreads (mt en : bool) (dflt : nat) (n cur : nat) : nat :=
  if mt then
    (if en then (if n <? 1 then dflt else n) else 1)
  else cur.

Fixpoint threads (mt en : bool) (dflt : nat) (ns : list nat) (cur : nat) : nat :=
  match ns with
  | [] => cur
  | n :: ns' => threads mt en dflt ns' (set_nthreads mt en dflt n cur)
  end.

(** conversions.hpp:49-61: the loop of [vector_cast]; every element is cast to
    a new object, appended to the heap of the result. *)
Fixpoint vector_cast (h : list A) (ids : list nat) (out : list B) (acc : list nat)
  : option (list B * list nat) :=
  match ids with
  | [] => Some (out, acc)
  | i :: ids' =>
      match nth_error h i with
      | None => None
      | Some m => vector_cast h ids' (out ++ [cast_model m]) (acc ++ [length out])
      end
  end.

(** shooting.hxx:393-402. *)
Definition prob_cast (mt en : bool) (dflt : nat) (p : problem A X) : option (problem B Y) :=
  match vector_cast (p_heap p) (p_run p) [] [] with
  | None => None
  | Some (out, run) =>
      match nth_error (p_heap p) (p_term p) with
      | None => None
      | Some m =>
          Some (Problem (cast_x0 (p_x0 p)) run (length out)
                  (set_nthreads mt en dflt (p_threads p) (threads_init mt en dflt))
                  (out ++ [cast_model m]))
      end
  end.

End ProbCast.

Arguments p_x0 {T S}. Arguments p_run {T S}. Arguments p_term {T S}.
Arguments p_threads {T S}. Arguments p_heap {T S}.
Arguments Problem {T S}.

(** The handle of node [t]: a running node or the terminal one. *)
Definition handle {T S} (p : problem T S) (t : nat) : option nat :=
  nth_error (p_run p ++ [p_term p]) t.

(** [problem.runningModels[t]] or [problem.terminalModel]. *)
Definition node {T S} (p : problem T S) (t : nat) : option T :=
  match handle p t with
  | Some i => nth_error (p_heap p) i
  | None => None
  end.

Fixpoint upd {T} (l : list T) (i : nat) (g : T -> T) : list T :=
  match l, i with
  | [], _ => []
  | x :: l', 0 => g x :: l'
  | x :: l', S i' => x :: upd l' i' g
  end.

(** A setter called on the model of node [t]. *)
Definition change {T S} (t : nat) (g : T -> T) (p : problem T S) : problem T S :=
  match handle p t with
  | Some i => Problem (p_x0 p) (p_run p) (p_term p) (p_threads p) (upd (p_heap p) i g)
  | None => p
  end.

Fixpoint changes {T S} (cs : list (nat * (T -> T))) (p : problem T S) : problem T S :=
  match cs with
  | [] => p
  | (t, g) :: cs' => changes cs' (change t g p)
  end.
