(** SolverIpopt (src/core/solvers/ipopt.cpp, include/crocoddyl/core/solvers/ipopt.hpp) on top of the
    Ipopt interface (Ipopt_Model.v).

    A call of Ipopt is what Ipopt makes of the interface: the evaluations it asks for, whether and
    where it finalises, the status it returns and its statistics (a null pointer when it stops
    before iterating).  Trajectories are functions of the node, as in Ipopt_Model.v; the guess is
    one that setCandidate accepts (C07).  Of Ipopt's options "tol" and "max_iter" are modelled:
    SetNumericValue and SetIntegerValue keep the old value when the new one is out of range
    (tol > 0, max_iter >= 0). *)
From Coq Require Import QArith ZArith Reals List Arith Bool String.
From Verif Require Import XFloat Deriv VecMat Ipopt_Model.
Import ListNotations.
Close Scope Q_scope.
Local Open Scope nat_scope.

Inductive status := SolveSucceeded | SolvedToAcceptableLevel | MaximumIterationsExceeded | OtherStatus (code : Z).
Record options := Options { o_tol : xf; o_max_iter : Z }.
(** Ipopt's OptionsList *)
Definition set_tol (v : xf) (o : options) : options := if xle v (Fin 0) then o else Options v (o_max_iter o).
Definition set_max_iter (v : Z) (o : options) : options := if Z.ltb v 0 then o else Options (o_tol o) v.
(** static_cast<Ipopt::Index>(maxiter): Index is int *)
Definition to_index (n : nat) : Z :=
  let m := Z.modulo (Z.of_nat n) (2 ^ 32) in if Z.ltb m (2 ^ 31) then m else (m - 2 ^ 32)%Z.

Section Solver.
Context {P : Type}.
(** what Ipopt did *)
Record irun_result := Run { r_calls : list (icall); r_end : option (vec * R); r_status : status; r_stats : option nat }.

(** th_stop_, xs_, us_, cost_, iter_, is_feasible_ of SolverAbstract, the interface and the options *)
Record solver := Solver { v_th : xf; v_xs : nat -> vec; v_us : nat -> vec; v_cost : R; v_iter : nat; v_feas : bool;
  v_iface : iface P; v_opts : options }.

(** ipopt.cpp:13-25; [th] is the th_stop_ of SolverAbstract (1e-9), [o] Ipopt's defaults, [zero] the
    states' zero(); the status of Initialize() is only printed *)
Definition new_solver (p : iproblem P) (zero : nat -> vec) (datas : nat -> idata P) (th : xf) (o : options) : option solver :=
  match ipopt_create p zero datas with
  | Some s => Some (Solver th zero (fun _ _ => 0%R) 0%R 0 false s (set_tol th o))
  | None => None
  end.

Definition accepted (s : status) : bool := match s with SolveSucceeded | SolvedToAcceptableLevel => true | _ => false end.

(** ipopt.cpp:27-48.  None: Statistics() is null and is dereferenced. *)
Definition solve (p : iproblem P) (xs us : nat -> vec) (maxiter : nat) (feas : bool) (r : irun_result) (v : solver) : option (bool * solver) :=
  let s0 := Ipopt_Model.set_us us (Ipopt_Model.set_xs xs (v_iface v)) in
  let o := set_max_iter (to_index maxiter) (v_opts v) in
  let s1 := irun p s0 (r_calls r) in
  let s2 := match r_end r with Some (x, obj) => finalize p s1 x obj | None => s1 end in
  match r_stats r with
  | None => None
  | Some n => Some (accepted (r_status r), Solver (v_th v) (s_xs s2) (s_us s2) (s_cost s2) n feas s2 o)
  end.

(** ipopt.cpp:50-53, the part of the interface *)
Definition resize (p : iproblem P) (v : solver) : option solver :=
  match ipopt_resize p (v_iface v) with
  | Some s => Some (Solver (v_th v) (v_xs v) (v_us v) (v_cost v) (v_iter v) (v_feas v) s (v_opts v))
  | None => None
  end.

(** ipopt.cpp:73-79 (None: it throws) and the function of SolverAbstract that it hides,
    solver-base.cpp:458-463, which a call through a SolverAbstract reaches *)
Definition set_th_stop (th : xf) (v : solver) : option solver :=
  if xle th (Fin 0) then None
  else Some (Solver th (v_xs v) (v_us v) (v_cost v) (v_iter v) (v_feas v) (v_iface v) (set_tol th (v_opts v))).
Definition base_set_th_stop (th : xf) (v : solver) : option solver :=
  if xle th (Fin 0) then None
  else Some (Solver th (v_xs v) (v_us v) (v_cost v) (v_iter v) (v_feas v) (v_iface v) (v_opts v)).
(** ipopt.cpp:68-71 *)
Definition set_numeric_option (tag : string) (x : xf) (v : solver) : solver :=
  Solver (v_th v) (v_xs v) (v_us v) (v_cost v) (v_iter v) (v_feas v) (v_iface v)
    (if String.eqb tag "tol" then set_tol x (v_opts v) else v_opts v).
End Solver.
Arguments solver : clear implicits.
