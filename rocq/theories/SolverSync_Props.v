(** C75: cost, derivatives and gaps of the DDP family belong to the stored candidate. *)
From Coq Require Import QArith List Bool Arith Lia.
From Verif Require Import Common XFloat XFloatFacts Params_Model Params_Spec Solver_Model
  Solver_Spec Solver_Proofs SolverLoop_Proofs Solver_Props Solver_Scalar SolverSync_Proofs.
Import ListNotations.
Local Open Scope nat_scope.

Section General.
Context {X U V G : Type}.
Variables (vscale : V -> xf -> V) (clamp : U -> U -> U -> U) (xnorm : X -> xf)
          (pol : G -> nat -> xf -> U -> V -> U)
          (bwd : list X -> list U -> list V -> bool -> xf -> option G)
          (eiD : G -> xf * xf) (eiF : G -> list X -> list V -> bool -> list X -> xf * xf)
          (pb : sproblem X U V) (par : params).
Notation st := (st X U V G).
Notation solve := (solve vscale clamp xnorm pol bwd eiD eiF pb par).
Notation cost_of := (total_cost (q_term pb) (Fin 0) (q_run pb)).

(** Whatever was done with the solver before ([s]), every backward pass of the run reads
    derivatives computed at the candidate then stored, and its gaps. *)
Theorem C75_linearisation_partial k fuel maxiter r xs us feas (s : st) b s' :
  good_call pb xs us feas s -> solve k fuel maxiter r xs us feas s = Ret b s' ->
  Forall (fun e => match e with
    | EDir _ _ lx lu fs cx cu => lx = cx /\ lu = cu /\ fs = gaps (q_x0 pb) (q_run pb) cx cu
    | _ => True end) (s_log s').
Proof.
  intros (N & Sz & Lu & Hf) E.
  refine (iterations_sync vscale clamp xnorm pol bwd eiD eiF pb par k fuel maxiter 0 true _ b s' N _ _ _ E).
  - split; [split; [|split]; auto|]. left. auto.
  - discriminate.
  - apply Forall_nil.
Qed.

(** The cost seen by every callback and the cost stored at the end are the total cost of
    the candidate stored at that moment. *)
Theorem C75_cost_partial k fuel maxiter r xs us feas (s : st) b s' :
  good_call pb xs us feas s -> solve k fuel maxiter r xs us feas s = Ret b s' ->
  Forall (fun e => match e with
    | ECall _ cx cu _ _ cost _ _ _ => cost = cost_of cx cu
    | _ => True end) (s_log s') /\
  (maxiter <> 0 -> s_cost s' = cost_of (s_xs s') (s_us s')).
Proof.
  intros Hc E. split.
  - destruct (solve_final vscale clamp xnorm pol bwd eiD eiF pb par _ _ _ _ _ _ _ _ _ _ Hc E) as ((_ & _ & H & _) & _).
    eapply Forall_impl; [|exact H]. intros [?|?|i cx cu f w c v p d]; simpl; auto. intros (_ & H1 & _). exact H1.
  - intro Hm. destruct Hc as (N & Sz & Lu & Hf).
    refine (iterations_cost vscale clamp xnorm pol bwd eiD eiF pb par k fuel maxiter 0 true _ b s' N _ _ E).
    + split; [split; [|split]; auto|]. left. auto.
    + left. lia.
Qed.
End General.

(** [x' = x + u + u²], running cost [u²/2], terminal cost [(x - 1)²/2], from a guess with
    a gap: two iterations with accepted steps; the second direction is computed at the
    candidate the first step produced. *)
Definition bend : snode :=
  SNode (fun x u => x + u + u * u)%Q (fun x u => (1 # 2) * u * u)%Q (fun _ _ => 1%Q) (fun _ u => 1 + 2 * u)%Q
        (fun _ _ => 0%Q) (fun _ u => u) (fun _ _ => 0%Q) (fun _ _ => 0%Q) (fun _ _ => 1%Q)
        (fun x => (1 # 2) * (x - 1) * (x - 1))%Q (fun x => x - 1)%Q (fun _ => 1%Q).
Definition dirs_at (l : list (event Q Q Q)) : list (list Q) :=
  flat_map (fun e => match e with EDir _ _ lx _ _ _ _ => [lx] | _ => [] end) l.
Example C75_run :
  good_call (sprob 0 bend) [0%Q; 2%Q] [0%Q] false sst0 /\
  match ssolve FDDP default_params 0 bend 30 2 (Fin 0) [0%Q; 2%Q] [0%Q] false with
  | Ret _ s' => steps (s_log s') = [Fin 1; Fin 1] /\ dirs_at (s_log s') = [[0; 6 # 8]; [0; 2]]%Q
  | _ => False end.
Proof.
  split; [split; [discriminate|]; split; [split; reflexivity|]; split; [reflexivity|discriminate]|].
  vm_compute. split; reflexivity.
Qed.

Print Assumptions C75_linearisation_partial.
Print Assumptions C75_cost_partial.
