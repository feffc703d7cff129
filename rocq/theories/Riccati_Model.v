(** The backward pass and the expected improvement of SolverDDP and SolverFDDP.

    Models src/core/solvers/ddp.cpp:149-170, 212-251, 303-396 and
    src/core/solvers/fddp.cpp:123-266, in exact arithmetic over an arbitrary real field.
    The nodes share the state dimension [n] (ndx, as ShootingProblem requires) and each
    has its own control dimension (zero included).  A NaN regularization ("no
    regularization") is [preg = 0].  The raiseIfNaN tests never fire in exact arithmetic
    (magnitudes above 1e30 excluded). *)
From mathcomp Require Import all_ssreflect all_algebra.
From Verif Require Import LinAlg.
Set Implicit Arguments.
Unset Strict Implicit.
Unset Printing Implicit Defensive.
Import GRing.Theory Num.Theory.
Local Open Scope ring_scope.

Section Riccati.
Variable R : realFieldType.

Section Dims.
Variables n : nat.

(** Derivatives stored in the data of a running node, and of the terminal node. *)
Record stage := Stage {
  nu : nat;
  Fx : 'M[R]_n; Fu : 'M[R]_(n, nu);
  Lx : 'cV[R]_n; Lu : 'cV[R]_nu;
  Lxx : 'M[R]_n; Lxu : 'M[R]_(n, nu); Luu : 'M[R]_nu }.
Record terminal := Terminal { TLx : 'cV[R]_n; TLxx : 'M[R]_n }.

(** What the backward pass stores for a node. *)
Record bnode (m : nat) := BNode {
  Qx : 'cV[R]_n; Qu : 'cV[R]_m; Qxx : 'M[R]_n; Qxu : 'M[R]_(n, m); Quu : 'M[R]_m;
  kff : 'cV[R]_m; Kfb : 'M[R]_(m, n); Quuk : 'cV[R]_m;
  Vx : 'cV[R]_n; Vxx : 'M[R]_n }.

(** One step of the backward pass given [v = (Vx_[t+1], Vxx_[t+1])]:
    computeActionValueFunction (ddp.cpp:303-340), computeGains (372-396),
    computeValueFunction (342-370).  With [nu = 0] the control terms are skipped by the
    code and empty here. *)
Definition bstep (preg : R) (feas : bool) (s : stage) (f : 'cV[R]_n)
    (v : 'cV[R]_n * 'M[R]_n) : option (bnode (nu s)) :=
  let qx := Lx s + (Fx s)^T *m v.1 in
  let qxx := Lxx s + (Fx s)^T *m v.2 *m Fx s in
  let qu := Lu s + (Fu s)^T *m v.1 in
  let quu := Luu s + (Fu s)^T *m v.2 *m Fu s + preg%:M in
  let qxu := Lxu s + (Fx s)^T *m v.2 *m Fu s in
  if llt_ok quu then
    let K := llt_solve quu qxu^T in
    let k := llt_solve quu qu in
    let vxx0 := qxx - qxu *m K in
    let vxx := 2%:R^-1 *: (vxx0 + vxx0^T) + preg%:M in
    let vx0 := qx - K^T *m qu in
    let vx := if feas then vx0 else vx0 + vxx *m f in
    Some (BNode qx qu qxx qxu quu k K (quu *m k) vx vxx)
  else None.

(** The terminal values (ddp.cpp:214-224). *)
Definition vterm (preg : R) (feas : bool) (T : terminal) (fT : 'cV[R]_n) : 'cV[R]_n * 'M[R]_n :=
  let vxx := TLxx T + preg%:M in
  (if feas then TLx T else TLx T + vxx *m fT, vxx).

Section Pass.
(** The nodes of the horizon: derivatives and gap ([fs_[t]]) of each. *)
Variables (N : Type) (der : N -> stage) (gap : N -> 'cV[R]_n).

(** The stored data of all nodes, in time order. *)
Fixpoint bnodes (ns : seq N) : Type :=
  match ns with
  | [::] => unit
  | d :: ns' => (bnode (nu (der d)) * bnodes ns')%type
  end.
(** [Vx_[t]], [Vxx_[t]] of the first of the nodes (terminal values when there is none). *)
Definition value (vT : 'cV[R]_n * 'M[R]_n) (ns : seq N) : bnodes ns -> 'cV[R]_n * 'M[R]_n :=
  match ns with
  | [::] => fun _ => vT
  | d :: ns' => fun bs => (Vx bs.1, Vxx bs.1)
  end.

(** The loop of backwardPass (ddp.cpp:229-249), from the last node to the first; [None]
    is the "backward_error" exception.  [fT] is [fs_.back()]. *)
Fixpoint bpass (preg : R) (feas : bool) (T : terminal) (fT : 'cV[R]_n) (ns : seq N) : option (bnodes ns) :=
  match ns with
  | [::] => Some tt
  | d :: ns' =>
      match bpass preg feas T fT ns' with
      | None => None
      | Some bs =>
          match bstep preg feas (der d) (gap d) (value (vterm preg feas T fT) bs) with
          | None => None
          | Some b => Some (b, bs)
          end
      end
  end.

(** SolverDDP::expectedImprovement (ddp.cpp:157-170): [(d_[0], d_[1])], accumulated from
    [d]. *)
Fixpoint ei_ddp (d : R * R) (ns : seq N) : bnodes ns -> R * R :=
  match ns with
  | [::] => fun _ => d
  | _ :: ns' => fun bs =>
      ei_ddp (d.1 + dot (Qu bs.1) (kff bs.1), d.2 - dot (kff bs.1) (Quuk bs.1)) bs.2
  end.

(** SolverFDDP::updateExpectedImprovement (fddp.cpp:150-173): [(dg_, dq_)]. *)
Fixpoint upd_loop (feas : bool) (d : R * R) (ns : seq N) : bnodes ns -> R * R :=
  match ns with
  | [::] => fun _ => d
  | e :: ns' => fun bs =>
      let d1 := (d.1 + dot (Qu bs.1) (kff bs.1), d.2 - dot (kff bs.1) (Quuk bs.1)) in
      let d2 := if feas then d1
                else (d1.1 - dot (Vx bs.1) (gap e), d1.2 + dot (gap e) (Vxx bs.1 *m gap e)) in
      upd_loop feas d2 bs.2
  end.
Definition upd_fddp (preg : R) (feas : bool) (T : terminal) (fT : 'cV[R]_n) (ns : seq N) (bs : bnodes ns) : R * R :=
  let v := vterm preg feas T fT in
  upd_loop feas (if feas then (0, 0) else (- dot v.1 fT, dot fT (v.2 *m fT))) bs.

(** SolverFDDP::expectedImprovement (fddp.cpp:123-148).  [dxs] are the differences
    diff(xs_try, xs) of the running nodes, [dxT] of the terminal one. *)
Fixpoint dv_loop (dv : R) (ns : seq N) : bnodes ns -> seq 'cV[R]_n -> R :=
  match ns with
  | [::] => fun _ _ => dv
  | e :: ns' => fun bs dxs =>
      dv_loop (dv - dot (gap e) (Vxx bs.1 *m head 0 dxs)) bs.2 (behead dxs)
  end.
Definition ei_fddp (preg : R) (feas : bool) (T : terminal) (fT : 'cV[R]_n) (ns : seq N) (bs : bnodes ns)
    (dxs : seq 'cV[R]_n) (dxT : 'cV[R]_n) : R * R :=
  let d := upd_fddp preg feas T fT bs in
  let dv := if feas then 0 else dv_loop (- dot fT ((vterm preg feas T fT).2 *m dxT)) bs dxs in
  (d.1 + dv, d.2 - 2%:R * dv).
End Pass.

(** SolverDDP::stoppingCriteria (ddp.cpp:148-155). *)
Definition stopping (d : R * R) : R := `|d.1 + 2%:R^-1 * d.2|.

(** * Linear-quadratic problems *)
(** Dynamics [A x + B u + c], cost [1/2 x'Q x + x'N u + 1/2 u'R u + q'x + r'u]
    (ActionModelLQR without constraints), over a flat state. *)
Record lq := LQ {
  lnu : nat;
  lA : 'M[R]_n; lB : 'M[R]_(n, lnu); lc : 'cV[R]_n;
  lQ : 'M[R]_n; lN : 'M[R]_(n, lnu); lR : 'M[R]_lnu; lq_ : 'cV[R]_n; lr : 'cV[R]_lnu }.
Record lqterm := LQT { tQ : 'M[R]_n; tq : 'cV[R]_n }.

(** actions/lqr.hxx:91-129 *)
Definition lq_next (s : lq) (x : 'cV[R]_n) (u : 'cV[R]_(lnu s)) : 'cV[R]_n :=
  lA s *m x + lB s *m u + lc s.
Definition lq_cost (s : lq) (x : 'cV[R]_n) (u : 'cV[R]_(lnu s)) : R :=
  2%:R^-1 * dot x (lQ s *m x) + 2%:R^-1 * dot u (lR s *m u) + dot x (lN s *m u)
  + dot (lq_ s) x + dot (lr s) u.
Definition lq_tcost (T : lqterm) (x : 'cV[R]_n) : R :=
  2%:R^-1 * dot x (tQ T *m x) + dot (tq T) x.
(** actions/lqr.hxx:158-212 *)
Definition lq_diff (s : lq) (x : 'cV[R]_n) (u : 'cV[R]_(lnu s)) : stage :=
  @Stage (lnu s) (lA s) (lB s) (lQ s *m x + lN s *m u + lq_ s) ((lN s)^T *m x + lR s *m u + lr s)
         (lQ s) (lN s) (lR s).
Definition lq_tdiff (T : lqterm) (x : 'cV[R]_n) : terminal := Terminal (tQ T *m x + tq T) (tQ T).

(** A node of the candidate: the model, [xs_[t]], [us_[t]] and the gap [fs_[t]]. *)
Record cnode := CNode { cl : lq; cx : 'cV[R]_n; cu : 'cV[R]_(lnu cl); cf : 'cV[R]_n }.
Definition cder (d : cnode) : stage := lq_diff (cx d) (cu d).

(** Controls of a horizon, one per node. *)
Fixpoint ctrls (ns : seq cnode) : Type :=
  match ns with
  | [::] => unit
  | d :: ns' => ('cV[R]_(lnu (cl d)) * ctrls ns')%type
  end.

(** SolverFDDP::forwardPass (fddp.cpp:175-266) with [close = is_feasible || (a == 1)], and
    SolverDDP::forwardPass (ddp.cpp:253-301) with [close = true]: trial states (running,
    then terminal), trial controls and [cost_try_], from [xnext] and [cost]. *)
Fixpoint lq_forward (a : R) (close : bool) (T : lqterm) (fT : 'cV[R]_n) (xnext : 'cV[R]_n) (cost : R)
    (ns : seq cnode) : bnodes cder ns -> seq 'cV[R]_n * 'cV[R]_n * ctrls ns * R :=
  match ns with
  | [::] => fun _ =>
      let xt := if close then xnext else xnext + (a - 1) *: fT in
      ([::], xt, tt, cost + lq_tcost T xt)
  | d :: ns' => fun bs =>
      let xt := if close then xnext else xnext + (a - 1) *: cf d in
      let ut := cu d - a *: kff bs.1 - Kfb bs.1 *m (xt - cx d) in
      let r := lq_forward a close T fT (lq_next xt ut) (cost + lq_cost xt ut) bs.2 in
      (xt :: r.1.1.1, r.1.1.2, (ut, r.1.2), r.2)
  end.
End Dims.
End Riccati.
Arguments stage R n : clear implicits.
Arguments terminal R n : clear implicits.
Arguments bnode R n m : clear implicits.
Arguments lq R n : clear implicits.
Arguments lqterm R n : clear implicits.
Arguments cnode R n : clear implicits.
