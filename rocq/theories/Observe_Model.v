(** The callbacks of the solvers: what the logger of bindings/python/crocoddyl/__init__.py:946-976 does
    to the solver it observes.  The loops are those of ddp.cpp:41-130, fddp.cpp:23-121,
    intro.cpp:70-185 and kkt.cpp:36-87, with the expected improvement d_ and the stopping criterion
    stop_ explicit and everything else abstract: [G] is what computeDirection and
    updateExpectedImprovement leave (gains, value function, gaps, dg_, dq_, the KKT system), [S] the
    rest (candidate, trial, feasibility, cost, regularization, step length, ...).  dv_, dx_, fTVxx_p_,
    kkt_primal_ and dF are written before they are read by every function, and left out.  Exact
    arithmetic. *)
From Coq Require Import Reals List Bool.
Import ListNotations.
Local Open Scope R_scope.

Inductive kind := DDP | FDDP | Intro | KKT.
Inductive callback := Logger | Verbose.

Section Loop.
Context {G S A : Type}.
Variables
  (direction : G -> S -> G * S * bool)       (* the while (true) loop and updateExpectedImprovement; true: return false *)
  (e0 e1 : G -> R)                           (* DDP, KKT: the sums of expectedImprovement (ddp.cpp:157-170, kkt.cpp:165-173);
                                                FDDP, Intro: dg_ and dq_ *)
  (gaps : G -> S -> R)                       (* fddp.cpp:126-144: dv_ when not feasible *)
  (feas was : S -> bool) (hfeas : S -> R)
  (crit : G -> R)                            (* kkt.cpp:138-163 *)
  (penalty : nat -> S -> R * R -> S)         (* intro.cpp:116-119; the first argument is iter_ *)
  (alphas : list A)
  (try_step : G -> S -> A -> S * bool)       (* false: an exception *)
  (accept : S -> A -> R * R -> option S)     (* the tests after a trial, and setCandidate *)
  (reg : S -> S * bool)                      (* ddp.cpp:105-114, fddp.cpp:96-105; true: return false *)
  (reg_intro : S -> bool -> S * bool)        (* intro.cpp:167-176; the second argument is |d_[1]| <= th_feas_ *)
  (th_feas th_stop : R).

Variable k : kind.
(** expectedImprovement: ddp.cpp:157-170, fddp.cpp:123-148 (Intro inherits it), kkt.cpp:165-173 *)
Definition expected (g : G) (s : S) : R * R :=
  match k with
  | DDP | KKT => (e0 g, e1 g)
  | FDDP | Intro => let dv := if feas s then 0 else gaps g s in (e0 g + dv, e1 g - 2 * dv)
  end.
(** stoppingCriteria: ddp.cpp:148-155 (FDDP inherits it), intro.cpp:193-196, kkt.cpp:138-163 *)
Definition criterion (g : G) (s : S) (d : R * R) : R :=
  match k with
  | DDP | FDDP => Rabs (fst d + / 2 * snd d)
  | Intro => Rmax (hfeas s) (Rabs (fst d + / 2 * snd d))
  | KKT => crit g
  end.
(** The line search: ddp.cpp:82-103, fddp.cpp:64-94, intro.cpp:123-158, kkt.cpp:58-73.  FDDP and Intro
    compute the expected improvement again after each trial.  The last result: some trial did not throw. *)
Fixpoint search (l : list A) (g : G) (s : S) (d : R * R) : S * (R * R) * bool :=
  match l with
  | [] => (s, d, false)
  | a :: l =>
      let '(s, ok) := try_step g s a in
      if ok then
        let d := match k with FDDP | Intro => expected g s | _ => d end in
        match accept s a d with
        | Some s => (s, d, true)
        | None => let '(s, d, _) := search l g s d in (s, d, true)
        end
      else search l g s d
  end.

(** CallbackLogger: iter, stop, grad = - d[1], and the rest of the solver; the state after the call.
    CallbackVerbose only reads (stop and d are printed). *)
Record entry := Entry { l_iter : nat; l_state : S; l_stop : R; l_grad : R }.
Definition call (i : nat) (g : G) (c : callback) (s : S) (d : R * R) (stop : R) : R * R * R * entry :=
  match c with
  | Logger =>
      let stop := criterion g s d in
      let d := expected g s in
      (d, stop, Entry i s stop (- snd d))
  | Verbose => (d, stop, Entry i s stop (Rabs (fst d)))
  end.
(** The callbacks in turn; [logs] are the records they have made so far, one list per callback *)
Fixpoint calls (i : nat) (g : G) (s : S) (cs : list callback) (d : R * R) (stop : R) : R * R * R * list entry :=
  match cs with
  | [] => (d, stop, [])
  | c :: cs =>
      let '(d, stop, e) := call i g c s d stop in
      let '(d, stop, es) := calls i g s cs d stop in
      (d, stop, e :: es)
  end.

(** What happened in an iteration, at the test of convergence *)
Record obs := Obs { o_g : G; o_s : S; o_stop : R; o_eval : bool; o_feas : bool; o_calls : list entry }.
Record result := Result { r_ret : bool; r_g : G; r_s : S; r_trace : list obs }.
Definition cons_obs (o : obs) (r : result) : result := Result (r_ret r) (r_g r) (r_s r) (o :: r_trace r).

(** [n] iterations left, iteration [i] *)
Fixpoint solve (n i : nat) (cs : list callback) (g : G) (s : S) (d : R * R) : result :=
  match n with
  | O => Result false g s []
  | Datatypes.S n =>
      let '(g, s, stuck) := direction g s in
      if stuck then Result false g s []
      else
        let d := match k with FDDP => d | _ => expected g s end in
        let s := match k with Intro => penalty i s d | _ => s end in
        let before := feas s in
        let '(s, d, ev) := search alphas g s d in
        let '(s, stuck) := match k with DDP | FDDP => reg s | _ => (s, false) end in
        if stuck then Result false g s []
        else
          let stop := criterion g s d in
          let '(d, stop, es) := calls i g s cs d stop in
          let '(s', stuck) :=
            match k with
            | Intro => reg_intro s (if Rle_dec (Rabs (snd d)) th_feas then true else false)
            | _ => (s, false)
            end in
          let o := Obs g s' stop ev before es in
          if stuck then cons_obs o (Result false g s' [])
          else if (match k with Intro => feas s' | _ => was s' end) && (if Rlt_dec stop th_stop then true else false)
          then cons_obs o (Result true g s' [])
          else cons_obs o (solve n (Datatypes.S i) cs g s' d)
  end.
End Loop.
