(** One iteration of SolverDDP and SolverBoxDDP from a candidate that follows the dynamics, for any
    action models: backward pass, expected improvement, line search and stopping value.  Exact
    arithmetic; states in an abstract space [X], vectors of reals indexed by naturals. *)
From Coq Require Import Reals List Bool Arith.
From Verif Require Import Deriv VecMat.
Import ListNotations.
Open Scope R_scope.

Section Stop.
Variables (X : Type) (ndx : nat) (sdiff : X -> X -> vec).

(** An action model with what calc and calcDiff publish (action-base.hpp); [lims]: u_lb and u_ub when
    has_control_limits. *)
Record node := Node {
  nu : nat; F : X -> vec -> X; L : X -> vec -> R;
  Fx : X -> vec -> mat; Fu : X -> vec -> mat; Lx : X -> vec -> vec; Lu : X -> vec -> vec;
  Lxx : X -> vec -> mat; Lxu : X -> vec -> mat; Luu : X -> vec -> mat;
  lims : option (vec * vec) }.
Record term := Term { LT : X -> R; LTx : X -> vec; LTxx : X -> mat }.

(** Eigen::LLT::compute and solveInPlace: [llt n A] is the inverse applied by the solver, [None] when the
    factorization fails (info() != Success). *)
Variable llt : nat -> mat -> option mat.
(** BoxQP::solve: the solution, which coordinates are free, and the inverse of the free block in full
    coordinates (box-ddp.cpp:88-95 copies Hff_inv there) *)
Variable boxqp : nat -> mat -> vec -> vec -> vec -> vec * (nat -> bool) * mat.

(** What the backward pass leaves at a node: Qu_, k_, K_, Quu_ *)
Record bnode := BNode { bQu : vec; bk : vec; bK : mat; bQuu : mat }.

(** computeGains, ddp.cpp:384-408; with limits box-ddp.cpp:67-109 (the candidate is feasible): the vector Qu,
    of which the clamped entries are cleared, k and K *)
Definition gains (box : bool) (m : node) (u : vec) (Quu : mat) (Qu : vec) (Qxu : mat) : option bnode :=
  if Nat.eqb (nu m) 0 then Some (BNode Qu (fun _ => 0) (fun _ _ => 0) Quu)
  else
    match (if box then lims m else None) with
    | None =>
        match llt (nu m) Quu with
        | None => None
        | Some B => Some (BNode Qu (mulv (nu m) B Qu) (mulm (nu m) B (tr Qxu)) Quu)
        end
    | Some (lb, ub) =>
        let '(x, fr, Hi) := boxqp (nu m) Quu Qu (fun i => lb i - u i) (fun i => ub i - u i) in
        Some (BNode (fun i => if fr i then Qu i else 0) (fun i => - x i)
                (mulm (nu m) (fun i j => if fr i && fr j then Hi i j else 0) (tr Qxu)) Quu)
    end.

(** Adding preg_ to a diagonal *)
Definition reg (preg : R) (A : mat) : mat := fun i j => A i j + (if Nat.eqb i j then preg else 0).

(** computeActionValueFunction and computeValueFunction, ddp.cpp:302-382, is_feasible_ = true *)
Definition bstep (box : bool) (preg : R) (m : node) (x : X) (u Vx : vec) (Vxx : mat) : option (vec * mat * bnode) :=
  let Qx := fun i => Lx m x u i + mulv ndx (tr (Fx m x u)) Vx i in
  let Qxx := fun i j => Lxx m x u i j + mulm ndx (mulm ndx (tr (Fx m x u)) Vxx) (Fx m x u) i j in
  let Qu := fun i => Lu m x u i + mulv ndx (tr (Fu m x u)) Vx i in
  let Quu := reg preg (fun i j => Luu m x u i j + mulm ndx (mulm ndx (tr (Fu m x u)) Vxx) (Fu m x u) i j) in
  let Qxu := fun i j => Lxu m x u i j + mulm ndx (mulm ndx (tr (Fx m x u)) Vxx) (Fu m x u) i j in
  match gains box m u Quu Qu Qxu with
  | None => None
  | Some b =>
      let V := fun i j => Qxx i j - mulm (nu m) Qxu (bK b) i j in
      Some (fun i => Qx i - mulv (nu m) (tr (bK b)) (bQu b) i,
            reg preg (fun i j => / 2 * (V i j + V j i)), b)
  end.

(** backwardPass, ddp.cpp:212-251.  A candidate is a list of models and controls; the states are those of
    its rollout from [x]. *)
Fixpoint bpass (box : bool) (preg : R) (T : term) (x : X) (l : list (node * vec)) : option (vec * mat * list bnode) :=
  match l with
  | [] => Some (LTx T x, reg preg (LTxx T x), [])
  | (m, u) :: l' =>
      match bpass box preg T (F m x u) l' with
      | None => None
      | Some (Vx, Vxx, bs) =>
          match bstep box preg m x u Vx Vxx with
          | None => None
          | Some (vx, vxx, b) => Some (vx, vxx, b :: bs)
          end
      end
  end.

(** expectedImprovement, ddp.cpp:157-170 (Quuk_ = Quu_ * k_, line 358); SolverFDDP computes the same from a
    feasible candidate (fddp.cpp:123-150, dv_ = 0) *)
Fixpoint improvement (l : list (node * vec)) (bs : list bnode) : R * R :=
  match l, bs with
  | (m, _) :: l', b :: bs' =>
      let r := improvement l' bs' in
      (fst r + dot (nu m) (bQu b) (bk b), snd r - dot (nu m) (bk b) (mulv (nu m) (bQuu b) (bk b)))
  | _, _ => (0, 0)
  end.
(** stoppingCriteria, ddp.cpp:148-155 *)
Definition stop_value (d : R * R) : R := Rabs (fst d + / 2 * snd d).

(** tryStep: forwardPass, ddp.cpp:253-300 and box-ddp.cpp:111-170 (clamping): the trial controls and states
    and the cost *)
Definition clamp (box : bool) (m : node) (u : vec) : vec :=
  match (if box then lims m else None) with
  | None => u
  | Some (lb, ub) => fun i => Rmin (Rmax (u i) (lb i)) (ub i)
  end.
Definition utry (box : bool) (a : R) (m : node) (u : vec) (b : bnode) (dx : vec) : vec :=
  clamp box m (fun i => u i - a * bk b i - mulv ndx (bK b) dx i).
Fixpoint forward (box : bool) (a : R) (T : term) (x y : X) (l : list (node * vec)) (bs : list bnode) :
    list (node * vec) * list X * R :=
  match l, bs with
  | (m, u) :: l', b :: bs' =>
      let v := utry box a m u b (sdiff x y) in
      let '(us, xs, c) := forward box a T (F m x u) (F m y v) l' bs' in
      ((m, v) :: us, y :: xs, L m y v + c)
  | _, _ => ([], [y], LT T y)
  end.

(** The cost of the candidate and the states of its rollout (ShootingProblem::calc, rollout) *)
Fixpoint cost (T : term) (x : X) (l : list (node * vec)) : R :=
  match l with [] => LT T x | (m, u) :: l' => L m x u + cost T (F m x u) l' end.
Fixpoint states (x : X) (l : list (node * vec)) : list X :=
  match l with [] => [x] | (m, u) :: l' => x :: states (F m x u) l' end.

(** The iteration from a feasible candidate: the line search of ddp.cpp:80-104, after which the candidate is
    the accepted trial (or the old one), and the test of line 123 (was_feasible_ holds if a step was
    accepted; [was] is its old value).  Trials are taken not to fail. *)
Definition passes (th_grad th_accept : R) (a : R) (d : R * R) (dV : R) : bool :=
  let dVexp := a * (fst d + / 2 * a * snd d) in
  (if Rle_dec 0 dVexp then true else false) &&
  ((if Rlt_dec (Rabs (fst d)) th_grad then true else false) || (if Rlt_dec (th_accept * dVexp) dV then true else false)).
Fixpoint linesearch (box : bool) (th_grad th_accept : R) (T : term) (x : X) (l : list (node * vec)) (bs : list bnode)
    (d : R * R) (alphas : list R) : option (list (node * vec)) :=
  match alphas with
  | [] => None
  | a :: r =>
      let '(us, xs, c) := forward box a T x x l bs in
      if passes th_grad th_accept a d (cost T x l - c) then Some us
      else linesearch box th_grad th_accept T x l bs d r
  end.
Definition iteration (box was : bool) (preg th_grad th_accept th_stop : R) (alphas : list R) (T : term) (x : X)
    (l : list (node * vec)) : option (list (node * vec) * bool) :=
  match bpass box preg T x l with
  | None => None
  | Some (_, bs) =>
      let d := improvement l bs in
      let '(l', was') := match linesearch box th_grad th_accept T x l bs d alphas with
                         | Some us => (us, true) | None => (l, was) end in
      Some (l', was' && (if Rlt_dec (stop_value d) th_stop then true else false))
  end.
End Stop.
