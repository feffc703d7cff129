(** BoxQP: minimise 1/2 x'Hx + q'x over lb <= x <= ub (src/core/solvers/box-qp.cpp), and
    the gains of SolverBoxDDP / SolverBoxFDDP (box-ddp.cpp:67-110, box-fddp.cpp:66-100).

    Exact arithmetic over a real field; the dimension checks of solve (70-95) are in the
    types.  Index lists are the sets of indices in increasing order. *)
From mathcomp Require Import all_ssreflect all_algebra.
From Verif Require Import LinAlg.
Set Implicit Arguments.
Unset Strict Implicit.
Unset Printing Implicit Defensive.
Import Order.TTheory GRing.Theory Num.Theory.
Local Open Scope ring_scope.

Section BoxQP.
Variables (R : realFieldType) (n : nat).

(** Parameters of the solver (constructor, 13-61, and setters). *)
Record qp := QP { maxiter : nat; th_acceptstep : R; th_grad : R; reg : R; alphas : seq R }.

(** BoxQPSolution (box-qp.hpp): the clamped indices are the complement of the free ones,
    and the inverse of the free Hessian. *)
Record solution := Solution {
  sx : 'cV[R]_n; sfree : {set 'I_n}; sHinv : 'M[R]_#|sfree| }.

(** Bounds may be infinite: [None] is minus infinity in [lb], plus infinity in [ub]. *)
Definition bounds := 'I_n -> option R.
Definition at_bound (x : R) (b : option R) : bool := if b is Some c then x == c else false.
(** Component-wise std::max(std::min(x, ub), lb): lines 99-101 and 172-175. *)
Definition clip1 (lb ub : option R) (x : R) : R :=
  let y := if ub is Some u then Num.min x u else x in
  if lb is Some l then Num.max y l else y.
Definition clip (lb ub : bounds) (x : 'cV[R]_n) : 'cV[R]_n := \col_i clip1 (lb i) (ub i) (x i 0).

Variables (H : 'M[R]_n) (q : 'cV[R]_n) (lb ub : bounds).

(** fold_ / fnew_ (167, 176) *)
Definition qp_cost (x : 'cV[R]_n) : R := 2%:R^-1 * dot x (H *m x) + dot q x.

(** The free indices (108-119). *)
Definition free_idx (g x : 'cV[R]_n) : {set 'I_n} :=
  [set j | ~~ ((at_bound (x j 0) (lb j) && (0 < g j 0)) || (at_bound (x j 0) (ub j) && (g j 0 < 0)))].

(** Entries of a vector at an index set, and back with zeros elsewhere (130-147, 161). *)
Definition gather (A : {set 'I_n}) (x : 'cV[R]_n) : 'cV[R]_#|A| := \col_i x (enum_val i) 0.
Definition scatter (A : {set 'I_n}) (y : 'cV[R]_#|A|) (other : 'cV[R]_n) : 'cV[R]_n :=
  \col_j if [pick i : 'I_#|A| | enum_val i == j] is Some i then y i 0 else other j 0.
Definition submat (A B : {set 'I_n}) : 'M[R]_(#|A|, #|B|) := \matrix_(i, j) H (enum_val i) (enum_val j).

(** The step of one iteration (105-165): free set, free Hessian, reduced gradient [qf],
    direction [dx] and the vector [g_] used by the line search; [None] is the exception. *)
Record step := Step { p_free : {set 'I_n}; p_Hff : 'M[R]_#|p_free|; p_qf : 'cV[R]_#|p_free|;
                      p_dx : 'cV[R]_n; p_g : 'cV[R]_n }.
Definition qp_step (rg : R) (x : 'cV[R]_n) : option step :=
  let g := q + H *m x in
  let F := free_idx g x in
  let C := ~: F in
  let Hff := if rg != 0 then submat F F + rg%:M else submat F F in
  if llt_ok Hff then
    let qf := gather F q + Hff *m gather F x + submat F C *m gather C x in
    let dxf := llt_solve Hff (- qf) in
    Some (Step Hff qf (scatter dxf 0) (scatter (- qf) g))
  else None.

(** The line search (166-182): the first acceptable trial, else the point is kept. *)
Fixpoint qp_search (th : R) (x dx g : 'cV[R]_n) (al : seq R) : 'cV[R]_n :=
  match al with
  | [::] => x
  | a :: al' =>
      let xnew := clip lb ub (x + a *: dx) in
      if qp_cost x - qp_cost xnew > th * dot g (x - xnew) then xnew
      else qp_search th x dx g al'
  end.

(** lpNorm<Infinity>() <= th *)
Definition small (k : nat) (v : 'cV[R]_k) (th : R) : bool := (0 <= th) && [forall i, `|v i 0| <= th].

(** The iterations (104-188): final solution and whether the convergence test passed.
    [sol] is the solution stored so far ([sx] is overwritten at the end only). *)
Fixpoint qp_loop (p : qp) (k : nat) (x : 'cV[R]_n) (sol : solution) : option (solution * bool) :=
  match k with
  | 0 => Some (@Solution x (sfree sol) (sHinv sol), false)
  | k'.+1 =>
      match qp_step (reg p) x with
      | None => None
      | Some s =>
          let x' := qp_search (th_acceptstep p) x (p_dx s) (p_g s) (alphas p) in
          let sol' := @Solution x' (p_free s) (llt_solve (p_Hff s) 1%:M) in
          if small (p_qf s) (th_grad p) then Some (sol', true) else qp_loop p k' x' sol'
      end
  end.
Definition qp_solve (p : qp) (xinit : 'cV[R]_n) (old : solution) : option (solution * bool) :=
  qp_loop p (maxiter p) (clip lb ub xinit) old.
End BoxQP.

Section BoxGains.
Variables (R : realFieldType) (n m : nat).
(** SolverBoxDDP::computeGains with control limits on a feasible candidate (79-107):
    feedforward, feedback and the projected Qu. *)
Definition box_gains (p : qp R) (old : solution R m) (Quu : 'M[R]_m) (Qu : 'cV[R]_m) (Qxu : 'M[R]_(n, m))
    (u_lb u_ub : bounds R m) (us k : 'cV[R]_m) : option ('cV[R]_m * 'M[R]_(m, n) * 'cV[R]_m) :=
  match qp_solve Quu Qu (fun i => omap (fun b => b - us i 0) (u_lb i)) (fun i => omap (fun b => b - us i 0) (u_ub i)) p k old with
  | None => None
  | Some (sol, _) =>
      let Quu_inv : 'M[R]_m := \matrix_(i, j)
        match [pick a : 'I_#|sfree sol| | enum_val a == i], [pick b : 'I_#|sfree sol| | enum_val b == j] with
        | Some a, Some b => sHinv sol a b
        | _, _ => 0
        end in
      Some (- sx sol, Quu_inv *m Qxu^T, \col_j if j \in sfree sol then Qu j 0 else 0)
  end.
End BoxGains.
