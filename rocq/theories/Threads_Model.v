(** The number of threads of a shooting problem and the switch that models written in Python turn off:
    include/crocoddyl/core/fwd.hpp:17-20, include/crocoddyl/core/optctrl/shooting.hxx, the createData
    functions of bindings/python/crocoddyl/**/*-base.hpp and of core/codegen/action.hxx.
    The library is compiled with CROCODDYL_WITH_MULTITHREADING.  Size checks and exceptions are left
    out (Shooting_Model.v). *)
From Coq Require Import List Arith Bool.
Import ListNotations.

(** The classes that can be derived in Python *)
Inductive part := PAction | PDiff | PIntegrated | PActuation | PCost | PResidual | PConstraint | PContact
  | PImpulse | PActivation | PControl | PSquashing | PState.
(** What a node is made of, in the order in which the datas are created: parts written in C++, parts
    written in Python, code-generated actions *)
Inductive comp := Cpp | Py (p : part) | Gen.
Definition node := list comp.

(** createData of a part.  Written in Python, it sets enableMultithreading() to false
    (action-base.hpp:99-105 and the others), except for constraints (constraint-base.hpp:120-127),
    squashings (no createData) and states (no data).  codegen/action.hxx:519-526: true. *)
Definition part_data (flag : bool) (c : comp) : bool :=
  match c with
  | Cpp => flag
  | Py PConstraint | Py PSquashing | Py PState => flag
  | Py _ => false
  | Gen => true
  end.
Definition node_data (flag : bool) (n : node) : bool := fold_left part_data n flag.

(** A problem: the running nodes, the terminal one, nthreads_ ([None]: not initialised) *)
Record prob := Prob { p_run : list node; p_term : node; p_threads : option nat }.
Record world := World { w_flag : bool; w_probs : list prob }.
(** fwd.hpp:17-20 *)
Definition start : world := World true [].

Inductive event :=
  | NewState                                     (* a state written in Python is constructed *)
  | NewData (n : node)                           (* createData called by the user *)
  | Build (run : list node) (term : node)        (* the constructor that creates the datas *)
  | BuildWith (run : list node) (term : node)    (* the constructor that is given the datas *)
  | CopyOf (i : nat)                             (* the copy constructor *)
  | SetThreads (i k : nat)                       (* set_nthreads, k = 0 for values below 1 *)
  | SetNode (i j : nat) (n : node)               (* updateModel of a running node *)
  | Append (i : nat) (n : node)                  (* circularAppend with a model *)
  | SetTerm (i : nat) (n : node).                (* set_terminalModel *)

Section N.
Variable N : nat.   (* CROCODDYL_WITH_NTHREADS *)
(** shooting.hxx:57-62 and 119-123 *)
Definition threads (flag : bool) : option nat := Some (if flag then N else 1).
Fixpoint upd {A} (i : nat) (f : A -> A) (l : list A) : list A :=
  match l, i with
  | [], _ => []
  | a :: l, O => f a :: l
  | a :: l, S i => a :: upd i f l
  end.
Definition step (w : world) (e : event) : world :=
  let flag := w_flag w in
  match e with
  | NewState => World false (w_probs w)                                      (* state-base.hpp:39-42 *)
  | NewData n => World (node_data flag n) (w_probs w)
  | Build run term =>                                                        (* shooting.hxx:14-63, 414-423 *)
      let flag := node_data (fold_left node_data run flag) term in
      World flag (w_probs w ++ [Prob run term (threads flag)])
  | BuildWith run term => World flag (w_probs w ++ [Prob run term (threads flag)])   (* 65-124 *)
  | CopyOf i =>                                                              (* 126-138 *)
      match nth_error (w_probs w) i with
      | Some p => World flag (w_probs w ++ [Prob (p_run p) (p_term p) None])
      | None => w
      end
  | SetThreads i k =>                                                        (* 503-524 *)
      World flag (upd i (fun p => Prob (p_run p) (p_term p)
        (let n := if k =? 0 then N else k in Some (if flag then n else 1))) (w_probs w))
  | SetNode i j n =>                                                         (* 365-391 *)
      World (node_data flag n) (upd i (fun p => Prob (upd j (fun _ => n) (p_run p)) (p_term p) (p_threads p)) (w_probs w))
  | Append i n =>                                                            (* 318-332 *)
      World (node_data flag n) (upd i (fun p => Prob (tl (p_run p) ++ [n]) (p_term p) (p_threads p)) (w_probs w))
  | SetTerm i n =>                                                           (* 486-500 *)
      World (node_data flag n) (upd i (fun p => Prob (p_run p) n (p_threads p)) (w_probs w))
  end.
Definition run (w : world) (es : list event) : world := fold_left step es w.
End N.
