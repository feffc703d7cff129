(** The forward passes and the main loops of SolverDDP, SolverFDDP, SolverBoxDDP and
    SolverBoxFDDP.

    States [X], tangent vectors [V] and controls [U] are abstract; scalars (costs,
    step lengths, regularization) are [xf], with NaN and infinities.  The models' calc
    functions are deterministic functions of their arguments that overwrite [xnext] and
    [cost] of the data and do not throw.  The backward pass and the expected
    improvement are arbitrary functions ([bwd], [eiD], [eiF]). *)
From Coq Require Import QArith List Bool Arith.
From Verif Require Import Common XFloat Params_Model.
Import ListNotations.
Local Open Scope nat_scope.

Section Solver.
Context {X U V G : Type}.

(** What the solver uses of a running model: [nu != 0], [calc(d, x, u)], [calc(d, x)]
    (both give [xnext] and [cost]), the state's [diff] and [integrate],
    [get_has_control_limits] and the bounds. *)
Record node := Node {
  n_u : bool;
  n_calc : X -> U -> X * xf;
  n_calc0 : X -> X * xf;
  n_diff : X -> X -> V;
  n_int : X -> V -> X;
  n_lim : bool;
  n_lb : U;
  n_ub : U }.

(** Terminal model: cost, diff, integrate. *)
Record tnode := TNode { t_cost : X -> xf; t_diff : X -> X -> V; t_int : X -> V -> X }.

Record sproblem := SProblem { q_x0 : X; q_run : list node; q_term : tnode }.

Variables
  (vscale : V -> xf -> V)                       (* v * c *)
  (clamp : U -> U -> U -> U)                    (* u.cwiseMax(lb).cwiseMin(ub) *)
  (xnorm : X -> xf)                             (* lpNorm<Infinity> *)
  (pol : G -> nat -> xf -> U -> V -> U)         (* us_[t] - k_[t] * a - K_[t] * dx *)
  (bwd : list X -> list U -> list V -> bool -> xf -> option G)
                                                (* backwardPass: derivatives (a function of the
                                                   point of the last calcDiff), fs_, is_feasible_, preg_ *)
  (eiD : G -> xf * xf)                          (* SolverDDP::expectedImprovement *)
  (eiF : G -> list X -> list V -> bool -> list X -> xf * xf)
                                                (* SolverFDDP::expectedImprovement *)
  (pb : sproblem)
  (par : params).

Inductive kind := DDP | FDDP | BoxDDP | BoxFDDP.

(** Loop of DDP ([ddp.cpp:41-130]) or of FDDP ([fddp.cpp:23-121]). *)
Definition fddp_loop (k : kind) : bool := match k with FDDP | BoxFDDP => true | _ => false end.

(** Result of a forward pass: [xs_try_], [us_try_], the datas ([xnext], [cost]) and the
    terminal data's cost, [cost_try_], and whether it returned normally. *)
Record fres := FRes {
  f_xs : list X; f_us : list U; f_ds : list (X * xf); f_dT : xf; f_cost : xf; f_ok : bool }.

(** The loop over the running nodes from node [t] on.
    ddp.cpp:265-289, fddp.cpp:189-213 and 227-250, box-ddp.cpp:126-152,
    box-fddp.cpp:118-146 and 160-186.  [gap]: nodes start at
    [integrate(xnext, fs[t] * (a - 1))]; [box]: controls are clamped.  The arrays of
    the solver are read along with the list of nodes; missing entries cannot happen for
    well-sized arrays and end the loop without success.  [xs] are the states written so
    far by the loop ([xs_try_[t]] for the nodes reached), [ds] the datas. *)
Fixpoint fwd_loop (gap box : bool) (g : G) (a : xf) (t : nat) (xnext : X) (cost : xf)
    (ns : list node) (xs : list X) (us uo : list U) (fs : list V) (ds : list (X * xf))
  : list X * list U * list (X * xf) * X * xf * bool :=
  match ns, xs, us, uo, fs, ds with
  | n :: ns', x :: xs', u :: us', u0 :: uo', f :: fs', d0 :: ds' =>
      let xt := if gap then n_int n xnext (vscale f (xsub a (Fin 1))) else xnext in
      let dx := n_diff n x xt in
      let ut := if n_u n then
                  let v := pol g t a u dx in
                  if box && n_lim n then clamp (n_lb n) (n_ub n) v else v
                else u0 in
      let d := if n_u n then n_calc n xt ut else n_calc0 n xt in
      let cost' := xadd cost (snd d) in
      if bad cost' || bad (xnorm (fst d)) then
        ([xt], ut :: uo', d :: ds', fst d, cost', false)
      else
        let '(rx, ru, rd, xn, c, ok) :=
          fwd_loop gap box g a (S t) (fst d) cost' ns' xs' us' uo' fs' ds' in
        (xt :: rx, ut :: ru, d :: rd, xn, c, ok)
  | [], _, _, _, _, _ => ([], uo, ds, xnext, cost, true)
  | _, _, _, _, _, _ => ([], uo, ds, xnext, cost, false)
  end.

(** forwardPass of the four solvers.  [xt0] is [xs_try_[0]] before the call (only
    SolverDDP starts from it, the others from [x0]). *)
Definition forward (k : kind) (g : G) (a : xf) (feas : bool) (xt0 : X)
    (xs : list X) (us uo : list U) (fs : list V) (ds : list (X * xf)) (dT : xf) : fres :=
  if xlt (Fin 1) a || xlt a (Fin 0) then FRes [] uo ds dT (Fin 0) false
  else
    let full := feas || xeq a (Fin 1) in
    let gap_run := match k with DDP | BoxDDP => false | _ => negb full end in
    let gap_end := match k with DDP => false | _ => negb full end in
    let box := match k with BoxDDP | BoxFDDP => true | _ => false end in
    let start := match k with DDP => xt0 | _ => q_x0 pb end in
    let '(rx, ru, rd, xn, c, ok) :=
      fwd_loop gap_run box g a 0 start (Fin 0) (q_run pb) xs us uo fs ds in
    if ok then
      match nth_error fs (length (q_run pb)) with
      | None => FRes rx ru rd dT c false
      | Some fT =>
          let xT := if gap_end then t_int (q_term pb) xn (vscale fT (xsub a (Fin 1))) else xn in
          let dT' := t_cost (q_term pb) xT in
          let c' := xadd c dT' in
          FRes (rx ++ [xT]) ru rd dT' c' (negb (bad c'))
      end
    else FRes rx ru rd dT c false.

(** Observable events of a run. *)
Inductive event :=
| EDir (preg dreg : xf) (lx : list X) (lu : list U) (fs : list V) (xs : list X) (us : list U)
      (* computeDirection: regularization, point of the derivatives, gaps, candidate *)
| EAccept (from_feas : bool) (a d0 before after : xf)  (* a trial is accepted *)
| ECall (i : nat) (xs : list X) (us : list U) (feas was : bool) (cost stop preg dreg : xf).
                                             (* the callbacks are run, iter_ = i *)

(** Solver state. *)
Record st := St {
  s_xs : list X; s_us : list U; s_feas : bool; s_was : bool;
  s_xt0 : X; s_uo : list U;                  (* xs_try_[0], us_try_ *)
  s_fs : list V; s_ds : list (X * xf); s_dT : xf;
  s_lx : list X; s_lu : list U;              (* where the derivatives were computed *)
  s_g : option G;
  s_cost : xf; s_preg : xf; s_dreg : xf; s_alpha : xf;
  s_d0 : xf; s_d1 : xf; s_stop : xf;
  s_log : list event }.                      (* latest first *)

Definition set_reg (r : xf) (s : st) : st :=
  St (s_xs s) (s_us s) (s_feas s) (s_was s) (s_xt0 s) (s_uo s) (s_fs s) (s_ds s) (s_dT s)
     (s_lx s) (s_lu s) (s_g s) (s_cost s) r r (s_alpha s) (s_d0 s) (s_d1 s) (s_stop s) (s_log s).
Definition set_d (d : xf * xf) (s : st) : st :=
  St (s_xs s) (s_us s) (s_feas s) (s_was s) (s_xt0 s) (s_uo s) (s_fs s) (s_ds s) (s_dT s)
     (s_lx s) (s_lu s) (s_g s) (s_cost s) (s_preg s) (s_dreg s) (s_alpha s) (fst d) (snd d) (s_stop s) (s_log s).
Definition set_g (g : G) (s : st) : st :=
  St (s_xs s) (s_us s) (s_feas s) (s_was s) (s_xt0 s) (s_uo s) (s_fs s) (s_ds s) (s_dT s)
     (s_lx s) (s_lu s) (Some g) (s_cost s) (s_preg s) (s_dreg s) (s_alpha s) (s_d0 s) (s_d1 s) (s_stop s) (s_log s).
Definition set_stop (v : xf) (s : st) : st :=
  St (s_xs s) (s_us s) (s_feas s) (s_was s) (s_xt0 s) (s_uo s) (s_fs s) (s_ds s) (s_dT s)
     (s_lx s) (s_lu s) (s_g s) (s_cost s) (s_preg s) (s_dreg s) (s_alpha s) (s_d0 s) (s_d1 s) v (s_log s).
Definition emit (e : event) (s : st) : st :=
  St (s_xs s) (s_us s) (s_feas s) (s_was s) (s_xt0 s) (s_uo s) (s_fs s) (s_ds s) (s_dT s)
     (s_lx s) (s_lu s) (s_g s) (s_cost s) (s_preg s) (s_dreg s) (s_alpha s) (s_d0 s) (s_d1 s) (s_stop s) (e :: s_log s).
(** Effect of a forward pass on the solver and the datas. *)
Definition set_try (a : xf) (r : fres) (s : st) : st :=
  St (s_xs s) (s_us s) (s_feas s) (s_was s) (s_xt0 s) (f_us r) (s_fs s) (f_ds r) (f_dT r)
     (s_lx s) (s_lu s) (s_g s) (s_cost s) (s_preg s) (s_dreg s) a (s_d0 s) (s_d1 s) (s_stop s) (s_log s).
(** [was_feasible_ = is_feasible_; setCandidate(xs_try_, us_try_, flag); cost_ = cost_try_] *)
Definition set_accept (flag : bool) (r : fres) (s : st) : st :=
  St (f_xs r) (f_us r) flag (s_feas s) (s_xt0 s) (s_uo s) (s_fs s) (s_ds s) (s_dT s)
     (s_lx s) (s_lu s) (s_g s) (f_cost r) (s_preg s) (s_dreg s) (s_alpha s) (s_d0 s) (s_d1 s) (s_stop s)
     (EAccept (s_feas s) (s_alpha s) (s_d0 s) (s_cost s) (f_cost r) :: s_log s).

(** ddp.cpp:398-412 *)
Definition inc_reg (r : xf) : xf :=
  let r' := xmul r (p_val par RegInc) in
  if xlt (p_val par RegMax) r' then p_val par RegMax else r'.
Definition dec_reg (r : xf) : xf :=
  let r' := xdiv r (p_val par RegDec) in
  if xlt r' (p_val par RegMin) then p_val par RegMin else r'.

(** ShootingProblem::calc on the running nodes and the terminal node. *)
Definition eval_node (p : node * (X * U)) : X * xf :=
  let '(n, (x, u)) := p in if n_u n then n_calc n x u else n_calc0 n x.
Definition eval_run (xs : list X) (us : list U) : list (X * xf) :=
  map eval_node (combine (q_run pb) (combine xs us)).
(** Sum of the costs stored in the datas, as in ShootingProblem::calcDiff. *)
Definition data_cost (ds : list (X * xf)) (dT : xf) : xf :=
  xadd (fold_left (fun c d => xadd c (snd d)) ds (Fin 0)) dT.
(** [computeDynamicFeasibility]: the gaps. *)
Definition gap_list (xs : list X) (ds : list (X * xf)) : list V :=
  match xs, q_run pb with
  | x :: xs', n :: _ =>
      n_diff n x (q_x0 pb) ::
      map (fun p : node * (X * (X * xf)) => let '(n, (x, d)) := p in n_diff n x (fst d))
          (combine (q_run pb) (combine xs' ds))
  | _, _ => []
  end.

(** SolverDDP::calcDiff, ddp.cpp:198-210 (the derivatives, read by
    [bwd], are now those at [xs_, us_]). *)
Definition calc_diff (i : nat) (s : st) : st :=
  let ds := if Nat.eqb i 0 then eval_run (s_xs s) (s_us s) else s_ds s in
  let dT := if Nat.eqb i 0 then
              match nth_error (s_xs s) (length (q_run pb)) with
              | Some x => t_cost (q_term pb) x | None => s_dT s end
            else s_dT s in
  St (s_xs s) (s_us s) (s_feas s) (s_was s) (s_xt0 s) (s_uo s) (gap_list (s_xs s) ds) ds dT
     (s_xs s) (s_us s) (s_g s) (data_cost ds dT) (s_preg s) (s_dreg s) (s_alpha s) (s_d0 s) (s_d1 s)
     (s_stop s) (s_log s).

(** Beginning of computeDirection, ddp.cpp:132-138: [if (recalcDiff) calcDiff();], then
    the backward pass starts. *)
Definition linearise (i : nat) (recalc : bool) (s : st) : st :=
  let s0 := if recalc then calc_diff i s else s in
  emit (EDir (s_preg s0) (s_dreg s0) (s_lx s0) (s_lu s0) (s_fs s0) (s_xs s0) (s_us s0)) s0.

(** Outcome of a loop. *)
Inductive res := Next (s : st) (recalc : bool) | Ret (b : bool) (s : st) | Fuel.

(** The [while (true)] around computeDirection, ddp.cpp:66-79, fddp.cpp:46-59. *)
Fixpoint retry (fuel : nat) (i : nat) (recalc : bool) (s : st) : res :=
  match fuel with
  | O => Fuel
  | S fuel' =>
      let s1 := linearise i recalc s in
      match bwd (s_lx s1) (s_lu s1) (s_fs s1) (s_feas s1) (s_preg s1) with
      | Some g => Next (set_g g s1) false
      | None =>
          let s2 := set_reg (inc_reg (s_preg s1)) s1 in
          if xeq (s_preg s2) (p_val par RegMax) then Ret false s2
          else retry fuel' i false s2
      end
  end.

(** Acceptance tests, ddp.cpp:97-108 and fddp.cpp:76-94. *)
Definition accepts (k : kind) (s : st) (dV dVexp : xf) : bool :=
  if xle (Fin 0) dVexp then
    xlt (xabs (s_d0 s)) (p_val par ThGrad)
    || (negb (fddp_loop k) && negb (s_feas s))
    || xlt (xmul (p_val par ThAcceptStep) dVexp) dV
  else fddp_loop k && negb (s_feas s) && xlt (xmul (p_val par ThAcceptNegStep) dVexp) dV.

Definition accept_flag (k : kind) (s : st) : bool :=
  if fddp_loop k then s_feas s || xeq (s_alpha s) (Fin 1) else true.

(** The line search, ddp.cpp:84-110, fddp.cpp:62-95. *)
Fixpoint line_search (k : kind) (g : G) (alphas : list xf) (s : st) : st * bool :=
  match alphas with
  | [] => (s, false)
  | a :: r =>
      let fr := forward k g a (s_feas s) (s_xt0 s) (s_xs s) (s_us s) (s_uo s) (s_fs s)
                        (s_ds s) (s_dT s) in
      let s1 := set_try a fr s in
      if f_ok fr then
        let dV := xsub (s_cost s1) (f_cost fr) in
        let s2 := if fddp_loop k
                  then set_d (eiF g (s_xs s1) (s_fs s1) (s_feas s1) (f_xs fr)) s1 else s1 in
        let dVexp := xmul a (xadd (s_d0 s2) (xmul (xmul (Fin (1 # 2)) a) (s_d1 s2))) in
        if accepts k s2 dV dVexp then (set_accept (accept_flag k s2) fr s2, true)
        else line_search k g r s2
      else line_search k g r s1
  end.

(** One pass of the main loop. *)
Definition iteration (k : kind) (fuel i : nat) (recalc : bool) (s : st) : res :=
  match retry fuel i recalc s with
  | Next s1 _ =>
      match s_g s1 with
      | None => Fuel   (* never: retry stores the gains *)
      | Some g =>
          let s2 := if fddp_loop k then s1 else set_d (eiD g) s1 in
          let '(s3, rc) := line_search k g (p_alphas par) s2 in
          let s4 := if xlt (p_val par ThStepDec) (s_alpha s3)
                    then set_reg (dec_reg (s_preg s3)) s3 else s3 in
          let inc := xle (s_alpha s4) (p_val par ThStepInc) in
          let s5 := if inc then set_reg (inc_reg (s_preg s4)) s4 else s4 in
          if inc && xeq (s_preg s5) (p_val par RegMax) then Ret false s5
          else
            let s6 := set_stop (xabs (xadd (s_d0 s5) (xmul (Fin (1 # 2)) (s_d1 s5)))) s5 in
            let s7 := emit (ECall i (s_xs s6) (s_us s6) (s_feas s6) (s_was s6) (s_cost s6)
                                  (s_stop s6) (s_preg s6) (s_dreg s6)) s6 in
            if s_was s7 && xlt (s_stop s7) (p_val par ThStop) then Ret true s7
            else Next s7 rc
      end
  | r => r
  end.

(** The main loop from [iter_ = i], [n] iterations left. *)
Fixpoint iterations (k : kind) (fuel n i : nat) (recalc : bool) (s : st) : res :=
  match n with
  | O => Ret false s
  | S n' => match iteration k fuel i recalc s with
            | Next s' rc => iterations k fuel n' (S i) rc s'
            | r => r
            end
  end.

(** [solve] after [setCandidate(init_xs, init_us, is_feasible)] has stored [xs], [us] and
    the flag: ddp.cpp:52-62, fddp.cpp:31-43. *)
Definition start (init_reg : xf) (xs : list X) (us : list U) (feas : bool) (s : st) : st :=
  let r := if is_nan init_reg then p_val par RegMin else init_reg in
  St xs us feas false (q_x0 pb) (s_uo s) (s_fs s) (s_ds s) (s_dT s) (s_lx s) (s_lu s) (s_g s) (s_cost s)
     r r (s_alpha s) (s_d0 s) (s_d1 s) (s_stop s) [].

Definition solve (k : kind) (fuel maxiter : nat) (init_reg : xf)
    (xs : list X) (us : list U) (feas : bool) (s : st) : res :=
  iterations k fuel maxiter 0 true (start init_reg xs us feas s).
End Solver.
Arguments node : clear implicits.
Arguments tnode : clear implicits.
Arguments sproblem : clear implicits.
Arguments fres : clear implicits.
Arguments event : clear implicits.
Arguments st : clear implicits.
Arguments res : clear implicits.
