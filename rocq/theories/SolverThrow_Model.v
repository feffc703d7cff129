(** The main loops of SolverDDP, SolverFDDP, SolverBoxDDP and SolverBoxFDDP when the calcDiff of a model
    throws (src/core/solvers/ddp.cpp:63-79, 132-138, 198-210, fddp.cpp:44-59, core/optctrl/shooting.hxx:178-219).
    The rest is Solver_Model.v.

    [dthrow xs us = Some j]: the calcDiff of node [j] ([j] = T is the terminal one) is the first to throw
    at this candidate.  The nodes before it have new derivatives, the others keep theirs; the cost and the
    gaps of the solver are not updated.  One thread: an exception that leaves a parallel region ends the
    program. *)
From Coq Require Import QArith List Bool Arith.
From Verif Require Import Common XFloat Params_Model Solver_Model.
Import ListNotations.
Local Open Scope nat_scope.

Section Throw.
Context {X U V G : Type}.
Variables
  (vscale : V -> xf -> V) (clamp : U -> U -> U -> U) (xnorm : X -> xf) (pol : G -> nat -> xf -> U -> V -> U)
  (bwd : list X -> list U -> list V -> bool -> xf -> option G)
  (eiD : G -> xf * xf) (eiF : G -> list X -> list V -> bool -> list X -> xf * xf)
  (pb : sproblem X U V) (par : params)
  (dthrow : list X -> list U -> option nat).
Notation st := (st X U V G).

(** calcDiff up to the exception: at iteration 0 problem_->calc has run, then the nodes before [j]. *)
Definition calc_diff_until (j i : nat) (s : st) : st :=
  let ds := if Nat.eqb i 0 then eval_run pb (s_xs s) (s_us s) else s_ds s in
  let dT := if Nat.eqb i 0 then
              match nth_error (s_xs s) (length (q_run pb)) with
              | Some x => t_cost (q_term pb) x | None => s_dT s end
            else s_dT s in
  St (s_xs s) (s_us s) (s_feas s) (s_was s) (s_xt0 s) (s_uo s) (s_fs s) ds dT
     (firstn j (s_xs s) ++ skipn j (s_lx s)) (firstn j (s_us s) ++ skipn j (s_lu s))
     (s_g s) (s_cost s) (s_preg s) (s_dreg s) (s_alpha s) (s_d0 s) (s_d1 s) (s_stop s) (s_log s).

(** The [while (true)] around computeDirection: the exception may come from calcDiff or from the
    backward pass. *)
Fixpoint retry_t (fuel : nat) (i : nat) (recalc : bool) (s : st) : res X U V G :=
  match fuel with
  | O => Fuel
  | S fuel' =>
      let failed s1 :=
        let s2 := set_reg (inc_reg par (s_preg s1)) s1 in
        if xeq (s_preg s2) (p_val par RegMax) then Ret false s2 else retry_t fuel' i false s2 in
      match (if recalc then dthrow (s_xs s) (s_us s) else None) with
      | Some j => failed (calc_diff_until j i s)
      | None =>
          let s1 := linearise pb i recalc s in
          match bwd (s_lx s1) (s_lu s1) (s_fs s1) (s_feas s1) (s_preg s1) with
          | Some g => Next (set_g g s1) false
          | None => failed s1
          end
      end
  end.

(** One pass of the main loop, as in Solver_Model.v. *)
Definition iteration_t (k : kind) (fuel i : nat) (recalc : bool) (s : st) : res X U V G :=
  match retry_t fuel i recalc s with
  | Next s1 _ =>
      match s_g s1 with
      | None => Fuel
      | Some g =>
          let s2 := if fddp_loop k then s1 else set_d (eiD g) s1 in
          let '(s3, rc) := line_search vscale clamp xnorm pol eiF pb par k g (p_alphas par) s2 in
          let s4 := if xlt (p_val par ThStepDec) (s_alpha s3)
                    then set_reg (dec_reg par (s_preg s3)) s3 else s3 in
          let inc := xle (s_alpha s4) (p_val par ThStepInc) in
          let s5 := if inc then set_reg (inc_reg par (s_preg s4)) s4 else s4 in
          if inc && xeq (s_preg s5) (p_val par RegMax) then Ret false s5
          else
            let s6 := set_stop (xabs (xadd (s_d0 s5) (xmul (Fin (1 # 2)) (s_d1 s5)))) s5 in
            let s7 := emit (ECall i (s_xs s6) (s_us s6) (s_feas s6) (s_was s6) (s_cost s6)
                                  (s_stop s6) (s_preg s6) (s_dreg s6)) s6 in
            if s_was s7 && xlt (s_stop s7) (p_val par ThStop) then Ret true s7
            else Next s7 rc
      end
  | r => r
  end.

Fixpoint iterations_t (k : kind) (fuel n i : nat) (recalc : bool) (s : st) : res X U V G :=
  match n with
  | O => Ret false s
  | S n' => match iteration_t k fuel i recalc s with
            | Next s' rc => iterations_t k fuel n' (S i) rc s'
            | r => r
            end
  end.

Definition solve_t (k : kind) (fuel maxiter : nat) (init_reg : xf)
    (xs : list X) (us : list U) (feas : bool) (s : st) : res X U V G :=
  iterations_t k fuel maxiter 0 true (start pb par init_reg xs us feas s).
End Throw.
