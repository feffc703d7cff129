(** Specification for C07. *)
From Coq Require Import List Arith Bool.
From Verif Require Import Common SolverBase_Model.
Import ListNotations.

Section Candidate.
Context {V : Type} (vsize : V -> nat) (vzero : nat -> V).

(** The lists have one entry per node and the zero states the node's dimension. *)
Definition dims_wf (d : dims V) : Prop :=
  length (d_nu d) = length (d_nx d) /\
  Forall2 (fun n v => vsize v = n) (d_nx d) (d_zero d) /\ vsize (d_zeroT d) = d_nxT d /\
  Forall (fun n => n = d_n d) (d_nx d) /\ d_nxT d = d_n d /\
  (forall n, vsize (vzero n) = n).

(** The states (controls) have the dimensions of their nodes. *)
Definition fits_x (d : dims V) (xs : list V) : Prop :=
  Forall2 (fun n v => vsize v = n) (d_nx d ++ [d_nxT d]) xs.
Definition fits_u (d : dims V) (us : list V) : Prop :=
  Forall2 (fun n v => vsize v = n) (d_nu d) us.

(** What a guess stands for: an empty list means zeros. *)
Definition meant_x (d : dims V) (xs : list V) : list V :=
  match xs with [] => d_zero d ++ [d_zeroT d] | _ => xs end.
Definition meant_u (d : dims V) (us : list V) : list V :=
  match us with [] => map vzero (d_nu d) | _ => us end.

Definition valid_guess (d : dims V) (xs us : list V) : Prop :=
  (xs = [] \/ fits_x d xs) /\ (us = [] \/ fits_u d us).

(** Solver states a user can reach. *)
Definition cand_reachable (d : dims V) (c : cand V) : Prop :=
  exists os, cand_run vsize vzero d os (new_cand vzero d) = Some c.
End Candidate.
