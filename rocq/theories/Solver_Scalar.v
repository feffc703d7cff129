(** A scalar instance of the solver model: one running node, one-dimensional state and
    control, rational values.  The backward pass is that of SolverDDP written out for
    this case; BoxDDP and BoxFDDP use the same one for a node without control limits. *)
From Coq Require Import QArith Qabs List Bool Arith.
From Verif Require Import Common XFloat Params_Model Solver_Model.
Import ListNotations.
Local Open Scope Q_scope.

(** Vector operations in dimension one. *)
Definition qscale (v : Q) (c : xf) : Q := match c with Fin c => Qred (v * c) | _ => 0 end.
Definition qclamp (lb ub u : Q) : Q := let m := if Qle_bool lb u then u else lb in if Qle_bool m ub then m else ub.
Definition qnorm (x : Q) : xf := Fin (Qabs x).
Definition qdiff (x y : Q) : Q := Qred (y - x).
Definition qint (x v : Q) : Q := Qred (x + v).

(** The node's functions and derivatives at a point. *)
Record snode := SNode {
  sf : Q -> Q -> Q; sl : Q -> Q -> Q;
  sfx : Q -> Q -> Q; sfu : Q -> Q -> Q;
  slx : Q -> Q -> Q; slu : Q -> Q -> Q; slxx : Q -> Q -> Q; slxu : Q -> Q -> Q; sluu : Q -> Q -> Q;
  stl : Q -> Q; stlx : Q -> Q; stlxx : Q -> Q }.

Definition sprob (x0 : Q) (d : snode) : sproblem Q Q Q :=
  SProblem x0
    [Node true (fun x u => (sf d x u, Fin (sl d x u))) (fun x => (x, Fin (sl d x 0)))
          qdiff qint false 0 0]
    (TNode (fun x => Fin (stl d x)) qdiff qint).

(** Gains and the action-value terms used by expectedImprovement. *)
Record sgain := SGain { gk : Q; gK : Q; gQu : Q; gQuu : Q }.

(** ddp.cpp:212-251 (backwardPass), 303-340 (computeActionValueFunction), 372-396
    (computeGains: the Cholesky factorisation fails unless [Quu > 0]). *)
Definition sbwd (d : snode) (xs us fs : list Q) (feas : bool) (preg : xf) : option sgain :=
  match xs, us, fs, preg with
  | [x; xT], [u], [_; f], Fin p =>
      let Vxx := Qred (stlxx d xT + p) in
      let Vx := if feas then stlx d xT else Qred (stlx d xT + Vxx * f) in
      let Qu := Qred (slu d x u + sfu d x u * Vx) in
      let Quu := Qred (sluu d x u + sfu d x u * Vxx * sfu d x u + p) in
      let Qxu := Qred (slxu d x u + sfx d x u * Vxx * sfu d x u) in
      if Qle_bool Quu 0 then None
      else Some (SGain (Qred (Qu / Quu)) (Qred (Qxu / Quu)) Qu Quu)
  | _, _, _, _ => None
  end.

(** Control of the trial: [us[t] - k * a - K * dx]. *)
Definition spol (g : sgain) (t : nat) (a : xf) (u dx : Q) : Q :=
  match a with Fin a => Qred (u - gk g * a - gK g * dx) | _ => 0 end.

(** ddp.cpp:157-170 *)
Definition sei (g : sgain) : xf * xf :=
  (Fin (Qred (gQu g * gk g)), Fin (Qred (- (gk g * gQuu g * gk g)))).

Definition sst0 : st Q Q Q sgain :=
  St [] [] false false 0 [0] [] [] (Fin 0) [] [] None (Fin 0) (Fin 0) (Fin 0) (Fin 1) (Fin 0) (Fin 0) (Fin 0) [].

(** SolverDDP::solve and SolverBoxDDP::solve on the scalar problem. *)
Definition ssolve (k : kind) (par : params) (x0 : Q) (d : snode) (fuel maxiter : nat) (r : xf)
    (xs us : list Q) (feas : bool) : res Q Q Q sgain :=
  solve qscale qclamp qnorm spol (sbwd d) sei (fun g _ _ _ _ => sei g) (sprob x0 d) par
        k fuel maxiter r xs us feas sst0.
