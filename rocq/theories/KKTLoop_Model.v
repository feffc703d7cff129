(** The main loop of SolverKKT (src/core/solvers/kkt.cpp:36-87, 121-141).

    States [X], tangent vectors [V], controls [U] and the assembled linear system [K] are
    abstract; scalars are [xf].  The running models and the terminal model are those of
    Solver_Model.  Evaluating the problem may throw: [tcalc] for ShootingProblem::calc,
    [tdiff] for ShootingProblem::calcDiff.  The assembled system is a function [sys] of
    the point where calcDiff ran (KKT_Model gives it for real matrices); [dir] is the
    LU solve, which does not throw.  stoppingCriteria reads [Fx] and [Fu] from the datas
    instead of the system; both are written by the same call of calcDiff and taken to be
    the same here, also after an exception. *)
From Coq Require Import QArith List Bool Arith.
From Verif Require Import Common XFloat Params_Model Solver_Model.
Import ListNotations.
Local Open Scope nat_scope.

Section KKTLoop.
Context {X U V K L : Type}.
Variables
  (vscale : V -> xf -> V)                        (* steplength * dx *)
  (ustep : U -> xf -> U -> U)                    (* us[t] + steplength * dus[t] *)
  (tcalc tdiff : list X -> list U -> bool)
  (sys : list X -> list U -> K)
  (dir : K -> list V * list U * L)               (* dxs_, dus_, lambdas_ *)
  (ei : K -> list V * list U * L -> xf * xf)     (* expectedImprovement *)
  (stopc : K -> list V * list U * L -> xf)       (* stoppingCriteria *)
  (pb : sproblem X U V)
  (reg_max th_grad : xf) (alphas : list xf)      (* 1e9, 1e-12, 1, 1/2, ..., 1/2^9: kkt.cpp:17-32 *)
  (th_acceptstep th_stop : xf).                  (* solver-base.hpp *)

(** Events: computeDirection (iteration, point of the system, candidate), an accepted
    trial, the callbacks. *)
Inductive kevent :=
| KDir (i : nat) (lx : list X) (lu : list U) (xs : list X) (us : list U)
| KAccept (from_feas : bool) (a d0 before after : xf)
| KCall (i : nat) (xs : list X) (us : list U) (feas was : bool) (cost stop : xf).

Record kst := KSt {
  k_xs : list X; k_us : list U; k_feas : bool; k_was : bool;
  k_uo : list U;                                 (* us_try_ *)
  k_lx : list X; k_lu : list U; k_sys : K;       (* the system and its point *)
  k_dir : list V * list U * L;
  k_cost : xf; k_preg : xf; k_alpha : xf; k_d0 : xf; k_d1 : xf; k_stop : xf;
  k_log : list kevent }.                         (* latest first *)

Definition k_emit (e : kevent) (s : kst) : kst :=
  KSt (k_xs s) (k_us s) (k_feas s) (k_was s) (k_uo s) (k_lx s) (k_lu s) (k_sys s) (k_dir s)
      (k_cost s) (k_preg s) (k_alpha s) (k_d0 s) (k_d1 s) (k_stop s) (e :: k_log s).

(** ShootingProblem::calc: sum of the running costs and the terminal cost. *)
Definition pcost (xs : list X) (us : list U) : xf :=
  match nth_error xs (length (q_run pb)) with
  | Some x => data_cost (eval_run pb xs us) (t_cost (q_term pb) x)
  | None => NaN
  end.

(** calcDiff, kkt.cpp:182-241, when nothing throws: cost and system. *)
Definition k_assemble (s : kst) : kst :=
  KSt (k_xs s) (k_us s) (k_feas s) (k_was s) (k_uo s) (k_xs s) (k_us s) (sys (k_xs s) (k_us s))
      (k_dir s) (pcost (k_xs s) (k_us s)) (k_preg s) (k_alpha s) (k_d0 s) (k_d1 s) (k_stop s) (k_log s).
(** computePrimalDual and the copies of computeDirection, kkt.cpp:94-118. *)
Definition k_direction (s : kst) : kst :=
  KSt (k_xs s) (k_us s) (k_feas s) (k_was s) (k_uo s) (k_lx s) (k_lu s) (k_sys s) (dir (k_sys s))
      (k_cost s) (k_preg s) (k_alpha s) (k_d0 s) (k_d1 s) (k_stop s) (k_log s).

(** calcDiff is interrupted: problem_->calc has not assigned [cost_] if it throws
    itself; if problem_->calcDiff throws, [cost_] holds the result of calc. *)
Definition k_interrupted (s : kst) : kst :=
  KSt (k_xs s) (k_us s) (k_feas s) (k_was s) (k_uo s) (k_lx s) (k_lu s) (k_sys s) (k_dir s)
      (if tcalc (k_xs s) (k_us s) then k_cost s else pcost (k_xs s) (k_us s))
      (k_preg s) (k_alpha s) (k_d0 s) (k_d1 s) (k_stop s) (k_log s).

Inductive kres := KNext (s : kst) (recalc : bool) | KRet (b : bool) (s : kst) | KFuel.

(** kkt.cpp:43-55 *)
Fixpoint k_retry (fuel i : nat) (recalc : bool) (s : kst) : kres :=
  match fuel with
  | O => KFuel
  | S fuel' =>
      if recalc && (tcalc (k_xs s) (k_us s) || tdiff (k_xs s) (k_us s)) then
        let s1 := k_interrupted s in
        if xeq (k_preg s1) reg_max then KRet false s1 else k_retry fuel' i false s1
      else
        let s1 := k_direction (if recalc then k_assemble s else s) in
        KNext (k_emit (KDir i (k_lx s1) (k_lu s1) (k_xs s1) (k_us s1)) s1) recalc
  end.

(** tryStep, kkt.cpp:121-136: the trial. *)
Fixpoint trial_loop (a : xf) (ns : list (node X U V)) (xs : list X) (us uo : list U)
    (dx : list V) (du : list U) : list X * list U :=
  match ns, xs, us, uo, dx, du with
  | n :: ns', x :: xs', u :: us', u0 :: uo', v :: dx', w :: du' =>
      let '(rx, ru) := trial_loop a ns' xs' us' uo' dx' du' in
      (n_int n x (vscale v a) :: rx, (if n_u n then ustep u a w else u0) :: ru)
  | [], x :: _, _, _, v :: _, _ => ([t_int (q_term pb) x (vscale v a)], [])
  | _, _, _, _, _, _ => ([], [])
  end.
Definition trial (a : xf) (s : kst) : list X * list U :=
  trial_loop a (q_run pb) (k_xs s) (k_us s) (k_uo s) (fst (fst (k_dir s))) (snd (fst (k_dir s))).

(** Effect of tryStep: [us_try_] and [steplength_]. *)
Definition k_try (a : xf) (uo : list U) (s : kst) : kst :=
  KSt (k_xs s) (k_us s) (k_feas s) (k_was s) uo (k_lx s) (k_lu s) (k_sys s) (k_dir s)
      (k_cost s) (k_preg s) a (k_d0 s) (k_d1 s) (k_stop s) (k_log s).
(** kkt.cpp:69-71 *)
Definition k_accept (xs : list X) (us : list U) (c : xf) (s : kst) : kst :=
  KSt xs us true (k_feas s) (k_uo s) (k_lx s) (k_lu s) (k_sys s) (k_dir s)
      c (k_preg s) (k_alpha s) (k_d0 s) (k_d1 s) (k_stop s)
      (KAccept (k_feas s) (k_alpha s) (k_d0 s) (k_cost s) c :: k_log s).

(** kkt.cpp:58-74 *)
Fixpoint k_search (al : list xf) (s : kst) : kst :=
  match al with
  | [] => s
  | a :: r =>
      let t := trial a s in
      let s1 := k_try a (snd t) s in
      if tcalc (fst t) (snd t) then k_search r s1
      else
        let c := pcost (fst t) (snd t) in
        let dV := xsub (k_cost s1) c in
        let dVexp := xadd (xmul a (k_d0 s1)) (xmul (xmul (xmul (Fin (1 # 2)) a) a) (k_d1 s1)) in
        if xlt (k_d0 s1) th_grad || negb (k_feas s1) || xlt (xmul th_acceptstep dVexp) dV
        then k_accept (fst t) (snd t) c s1
        else k_search r s1
  end.

(** One pass of the loop. *)
Definition k_iteration (fuel i : nat) (recalc : bool) (s : kst) : kres :=
  match k_retry fuel i recalc s with
  | KNext s1 rc =>
      let d := ei (k_sys s1) (k_dir s1) in
      let s2 := KSt (k_xs s1) (k_us s1) (k_feas s1) (k_was s1) (k_uo s1) (k_lx s1) (k_lu s1)
                    (k_sys s1) (k_dir s1) (k_cost s1) (k_preg s1) (k_alpha s1) (fst d) (snd d)
                    (k_stop s1) (k_log s1) in
      let s3 := k_search alphas s2 in
      let v := stopc (k_sys s3) (k_dir s3) in
      let s4 := KSt (k_xs s3) (k_us s3) (k_feas s3) (k_was s3) (k_uo s3) (k_lx s3) (k_lu s3)
                    (k_sys s3) (k_dir s3) (k_cost s3) (k_preg s3) (k_alpha s3) (k_d0 s3) (k_d1 s3)
                    v (KCall i (k_xs s3) (k_us s3) (k_feas s3) (k_was s3) (k_cost s3) v :: k_log s3) in
      if k_was s4 && xlt (k_stop s4) th_stop then KRet true s4 else KNext s4 rc
  | r => r
  end.

Fixpoint k_iterations (fuel n i : nat) (recalc : bool) (s : kst) : kres :=
  match n with
  | O => KRet false s
  | S n' => match k_iteration fuel i recalc s with
            | KNext s' rc => k_iterations fuel n' (S i) rc s'
            | r => r
            end
  end.

(** [solve] after [setCandidate] has stored the guess; everything else, including
    [was_feasible_] and the system, is kept from before. *)
Definition k_solve (fuel maxiter : nat) (xs : list X) (us : list U) (feas : bool) (s : kst) : kres :=
  k_iterations fuel maxiter 0 true
    (KSt xs us feas (k_was s) (k_uo s) (k_lx s) (k_lu s) (k_sys s) (k_dir s)
         (k_cost s) (k_preg s) (k_alpha s) (k_d0 s) (k_d1 s) (k_stop s) []).
End KKTLoop.
Arguments kevent : clear implicits.
Arguments kst : clear implicits.
Arguments kres : clear implicits.
