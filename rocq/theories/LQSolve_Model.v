(** SolverDDP::solve and SolverFDDP::solve on linear-quadratic problems: the loops of ddp.cpp:41-130 and
    fddp.cpp:23-121 around the backward and forward passes of Riccati_Model, in exact arithmetic over an
    arbitrary real field.  Callbacks and the measures of feasibility are left out (they are not used by the
    loops); the problem has no constraints; alphas_ is a list as set by set_alphas. *)
From mathcomp Require Import all_ssreflect all_algebra.
From Verif Require Import LinAlg Riccati_Model.
Set Implicit Arguments.
Unset Strict Implicit.
Unset Printing Implicit Defensive.
Import Order.TTheory GRing.Theory Num.Theory.
Local Open Scope ring_scope.

Inductive lkind := LDDP | LFDDP.

Section LQSolve.
Variables (R : realFieldType) (n : nat).
Notation half := (2%:R^-1 : R).

(** Parameters: solver-base.hpp, ddp.hpp, fddp.hpp *)
Record params := Params {
  th_accept : R; th_neg : R; th_grad : R; th_stop : R; th_stepdec : R; th_stepinc : R;
  reg_min : R; reg_max : R; reg_inc : R; reg_dec : R; alphas : seq R }.

(** The solver: candidate with its gaps (xs_, us_, fs_), is_feasible_, was_feasible_, preg_, cost_, d_ *)
Record solver := Solver {
  s_ns : seq (cnode R n); s_xT : 'cV[R]_n; s_fT : 'cV[R]_n;
  s_feas : bool; s_was : bool; s_preg : R; s_cost : R; s_d : R * R }.

(** setCandidate (solver-base.cpp): states and controls of the nodes; the gaps are not touched *)
Fixpoint install (ns : seq (cnode R n)) : seq 'cV[R]_n -> ctrls ns -> seq (cnode R n) :=
  match ns with
  | [::] => fun _ _ => [::]
  | d :: ns' => fun xs us => @CNode R n (cl d) (head 0 xs) us.1 (cf d) :: install (behead xs) us.2
  end.
(** computeDynamicFeasibility (solver-base.cpp:91-108): fs_[0] = x0 - xs_[0], fs_[t+1] = xnext - xs_[t+1].
    The horizon has at least one node (otherwise models[0] is undefined). *)
Fixpoint set_gaps (x0 : 'cV[R]_n) (ns : seq (cnode R n)) (xT : 'cV[R]_n) : seq (cnode R n) * 'cV[R]_n :=
  match ns with
  | [::] => ([::], x0 - xT)
  | d :: ns' =>
      let r := set_gaps (lq_next (cx d) (cu d)) ns' xT in
      (@CNode R n (cl d) (cx d) (cu d) (x0 - cx d) :: r.1, r.2)
  end.
(** problem_->calcDiff returns the total cost (shooting.hxx) *)
Fixpoint total (T : lqterm R n) (ns : seq (cnode R n)) (xT : 'cV[R]_n) (c : R) : R :=
  match ns with
  | [::] => c + lq_tcost T xT
  | d :: ns' => total T ns' xT (c + lq_cost (cx d) (cu d))
  end.

Section Problem.
Variables (k : lkind) (p : params) (T : lqterm R n) (x0 : 'cV[R]_n).

(** calcDiff (ddp.cpp:198-210) *)
Definition calc_diff (s : solver) : solver :=
  let r := set_gaps x0 (s_ns s) (s_xT s) in
  Solver r.1 (s_xT s) r.2 (s_feas s) (s_was s) (s_preg s) (total T (s_ns s) (s_xT s) 0) (s_d s).

(** increaseRegularization, decreaseRegularization (ddp.cpp:398-412) *)
Definition increase (preg : R) : R := let r := preg * reg_inc p in if reg_max p < r then reg_max p else r.
Definition decrease (preg : R) : R := let r := preg / reg_dec p in if r < reg_min p then reg_min p else r.

(** The while (true) loop (ddp.cpp:64-77): the regularization and the stored data of the pass; the first
    [None]: return false, the second: the loop does not end within [fuel] turns. *)
Fixpoint direct (fuel : nat) (feas : bool) (ns : seq (cnode R n)) (xT fT : 'cV[R]_n) (preg : R) :
    option (R * option (bnodes (@cder R n) ns)) :=
  match fuel with
  | 0 => None
  | fuel'.+1 =>
      match bpass (@cder R n) (@cf R n) preg feas (lq_tdiff T xT) fT ns with
      | Some bs => Some (preg, Some bs)
      | None =>
          let r := increase preg in
          if r == reg_max p then Some (r, None) else direct fuel' feas ns xT fT r
      end
  end.

(** diff(xs_try, xs) of the running nodes *)
Definition diffs (ns : seq (cnode R n)) (ys : seq 'cV[R]_n) : seq 'cV[R]_n :=
  [seq q.1 - q.2 | q <- zip (map (@cx R n) ns) ys].

(** The tests after a trial: ddp.cpp:91-102 and fddp.cpp:74-93 *)
Definition accepted (a : R) (feas : bool) (d : R * R) (dV : R) : bool :=
  let dVexp := a * (d.1 + half * a * d.2) in
  match k with
  | LDDP => (0 <= dVexp) && [|| `|d.1| < th_grad p, ~~ feas | th_accept p * dVexp < dV]
  | LFDDP =>
      if 0 <= dVexp then (`|d.1| < th_grad p) || (th_accept p * dVexp < dV)
      else ~~ feas && (th_neg p * dVexp < dV)
  end.

(** The line search: the new solver, the last step length and whether a step was accepted.  A step outside
    [0, 1] makes forwardPass throw. *)
Fixpoint search (s : solver) (bs : bnodes (@cder R n) (s_ns s)) (d : R * R) (a0 : R) (l : seq R) : solver * R * bool :=
  match l with
  | [::] => (Solver (s_ns s) (s_xT s) (s_fT s) (s_feas s) (s_was s) (s_preg s) (s_cost s) d, a0, false)
  | a :: l' =>
      if (1 < a) || (a < 0) then search bs d a l'
      else
        let close := match k with LDDP => true | LFDDP => s_feas s || (a == 1) end in
        let r := lq_forward a close T (s_fT s) x0 0 bs in
        let d' := match k with
                  | LDDP => d
                  | LFDDP => ei_fddp (@cf R n) (s_preg s) (s_feas s) (lq_tdiff T (s_xT s)) (s_fT s) bs
                               (diffs (s_ns s) r.1.1.1) (s_xT s - r.1.1.2)
                  end in
        if accepted a (s_feas s) d' (s_cost s - r.2)
        then (Solver (install r.1.1.1 r.1.2) r.1.1.2 (s_fT s)
                (match k with LDDP => true | LFDDP => s_feas s || (a == 1) end) (s_feas s) (s_preg s) r.2 d', a, true)
        else search bs d' a l'
  end.

Definition set_preg (r : R) (s : solver) : solver :=
  Solver (s_ns s) (s_xT s) (s_fT s) (s_feas s) (s_was s) r (s_cost s) (s_d s).

(** One iteration: [inl] with the result when solve returns, or the solver for the next one, with
    recalcDiff.  [None]: the loop of [direct] does not end. *)
Definition iteration (fuel : nat) (recalc : bool) (a0 : R) (s : solver) : option (solver * option bool * bool * R) :=
  let s := if recalc then calc_diff s else s in
  match direct fuel (s_feas s) (s_ns s) (s_xT s) (s_fT s) (s_preg s) with
  | None => None
  | Some (r, None) => Some (set_preg r s, Some false, false, a0)
  | Some (r, Some bs) =>
      let d := match k with LDDP => ei_ddp (0, 0) bs | LFDDP => s_d s end in
      let '(s1, a, acc) := @search (set_preg r s) bs d a0 (alphas p) in
      let r1 := if th_stepdec p < a then decrease r else r in
      let inc := a <= th_stepinc p in
      let r2 := if inc then increase r1 else r1 in
      let s2 := set_preg r2 s1 in
      if inc && (r2 == reg_max p) then Some (s2, Some false, acc, a)
      else if s_was s2 && (stopping (s_d s2) < th_stop p) then Some (s2, Some true, acc, a)
      else Some (s2, None, acc, a)
  end.

(** The result: the solver, what solve returns, the number of iterations begun *)
Fixpoint solve (fuel maxiter it : nat) (recalc : bool) (a0 : R) (s : solver) : option (solver * bool * nat) :=
  match maxiter with
  | 0 => Some (s, false, it)
  | m.+1 =>
      match iteration fuel recalc a0 s with
      | None => None
      | Some (s', Some b, _, _) => Some (s', b, it.+1)
      | Some (s', None, acc, a) => solve fuel m it.+1 acc a s'
      end
  end.
(** solve(init_xs, init_us, maxiter, is_feasible, init_reg): [ns] and [xT] are the guess; a NaN init_reg
    stands for reg_min. *)
Definition lq_solve (fuel maxiter : nat) (ns : seq (cnode R n)) (xT : 'cV[R]_n) (feas : bool) (init_reg : R)
    (fT : 'cV[R]_n) (c : R) (d : R * R) (a : R) : option (solver * bool * nat) :=
  solve fuel maxiter 0 true a (Solver ns xT fT feas false init_reg c d).
End Problem.
End LQSolve.
