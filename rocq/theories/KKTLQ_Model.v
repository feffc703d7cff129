(** SolverKKT on linear-quadratic problems: the loop of kkt.cpp:36-87 with the system of KKT_Model, in real
    arithmetic.  The models are ActionModelLQR without constraints (actions/lqr.hxx:91-212), evaluated with
    data that hold their derivatives; they do not throw.  [lu] is [kkt_.lu().solve(-kktref_)] (kkt.cpp:249).
    A node without control keeps [us_try_] (kkt.cpp:128), which has no entry then. *)
From Coq Require Import Reals List Bool Arith.
From Verif Require Import Deriv VecMat KKT_Model.
Import ListNotations.
Open Scope R_scope.

Record lqs := Lqs { sA : mat; sB : mat; sf : vec; sQ : mat; sN : mat; sR : mat; sq_ : vec; sr : vec }.
Record lqp := Lqp { p_run : nat -> lqs; p_QT : mat; p_qT : vec; p_x0 : vec }.

Section KKTLQ.
Variables (T nd : nat) (nu : nat -> nat) (p : lqp).

(** lqr.hxx:105-107 *)
Definition lqnext (t : nat) (x u : vec) : vec :=
  fun i => mulv nd (sA (p_run p t)) x i + mulv (nu t) (sB (p_run p t)) u i + sf (p_run p t) i.
(** lqr.hxx:109-119 *)
Definition lqcost (t : nat) (x u : vec) : R :=
  let s := p_run p t in
  / 2 * dot nd x (mulv nd (sQ s) x) + / 2 * dot (nu t) u (mulv (nu t) (sR s) u) + dot nd x (mulv (nu t) (sN s) u)
  + dot nd (sq_ s) x + dot (nu t) (sr s) u.
(** lqr.hxx:143-146 *)
Definition lqcostT (x : vec) : R := / 2 * dot nd x (mulv nd (p_QT p) x) + dot nd (p_qT p) x.
(** ShootingProblem::calc *)
Definition pcost (xs us : nat -> vec) : R := rsum T (fun t => lqcost t (xs t) (us t)) + lqcostT (xs T).
(** ShootingProblem::calcDiff (lqr.hxx:158-212) and the gaps of kkt.cpp:215-236 *)
Definition lqdata (xs us : nat -> vec) : kdata :=
  KData (fun t => let s := p_run p t in
           KStage (fun i => mulv nd (sQ s) (xs t) i + mulv (nu t) (sN s) (us t) i + sq_ s i)
                  (fun j => mulv nd (tr (sN s)) (xs t) j + mulv (nu t) (sR s) (us t) j + sr s j)
                  (sQ s) (sN s) (sR s) (sA s) (sB s) (fun i => xs (S t) i - lqnext t (xs t) (us t) i))
        (fun i => mulv nd (p_QT p) (xs T) i + p_qT p i) (p_QT p) (fun i => xs O i - p_x0 p i).

Variable lu : nat -> mat -> vec -> vec.
Variables (th_grad th_accept th_stop : R) (alphas : list R).

Record kstate := KState { c_xs : nat -> vec; c_us : nat -> vec; c_feas : bool; c_was : bool; c_cost : R; c_sys : mat * vec }.

(** tryStep, kkt.cpp:118-136 *)
Definition stepped (a : R) (v w : nat -> vec) : nat -> vec := fun t i => v t i + a * w t i.
(** The line search, kkt.cpp:59-74 *)
Fixpoint ksearch (z : vec) (s : kstate) (l : list R) : kstate :=
  match l with
  | [] => s
  | a :: l' =>
      let xs := stepped a (c_xs s) (dxs nd z) in
      let us := stepped a (c_us s) (dus T nd nu z) in
      let c := pcost xs us in
      let dV := c_cost s - c in
      let d0 := kd0 T nd nu (c_sys s) z in
      if (if Rlt_dec d0 th_grad then true else false) || negb (c_feas s) ||
         (if Rlt_dec (th_accept * kdVexp T nd nu (c_sys s) z a) dV then true else false)
      then KState xs us true (c_feas s) c (c_sys s)
      else ksearch z s l'
  end.
(** One pass of the loop, kkt.cpp:41-84: the new state and whether the solver returns true.  [None]: no running
    node (see kcalcDiff).  [dF] keeps its old entries; all of them are written. *)
Definition kiteration (dF : vec) (s : kstate) : option (kstate * bool) :=
  let d := lqdata (c_xs s) (c_us s) in
  match kcalcDiff T nd nu d (c_sys s) with
  | None => None
  | Some m =>
      let z := lu (ksize T nd nu) (fst m) (fun i => - snd m i) in
      let s1 := ksearch z (KState (c_xs s) (c_us s) (c_feas s) (c_was s) (pcost (c_xs s) (c_us s)) m) alphas in
      let stop := kstop T nd nu m (kdF T nd nu d (lambdas T nd nu z) dF) in
      Some (s1, c_was s1 && (if Rlt_dec stop th_stop then true else false))
  end.
(** solve, kkt.cpp:36-87, after setCandidate: state, result and number of passes *)
Fixpoint ksolve (dF : vec) (maxiter it : nat) (s : kstate) : option (kstate * bool * nat) :=
  match maxiter with
  | O => Some (s, false, it)
  | S n =>
      match kiteration dF s with
      | None => None
      | Some (s1, true) => Some (s1, true, S it)
      | Some (s1, false) => ksolve dF n (S it) s1
      end
  end.
End KKTLQ.
