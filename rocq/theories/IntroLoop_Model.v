(** The main loop of SolverIntro (src/core/solvers/intro.cpp:70-196).

    Same setting as Solver_Model, whose forward pass (SolverFDDP::forwardPass, inherited)
    and retry loop are reused.  [hf xs us] is the equality infeasibility
    (computeEqualityFeasibility) of the datas evaluated at [xs, us]; it enters through
    SolverDDP::calcDiff and through tryStep.  [eiP] is the expected improvement computed
    before the line search, where [xs_try_] still holds an earlier trial: an arbitrary
    function of the solver state. *)
From Coq Require Import QArith List Bool Arith.
From Verif Require Import Common XFloat Params_Model Solver_Model.
Import ListNotations.
Local Open Scope nat_scope.

(** std::max(a, b) = (a < b) ? b : a *)
Definition cmax (a b : xf) : xf := if xlt a b then b else a.

(** intro.cpp:449-454 *)
Definition rho_valid (rho : xf) : bool := negb (xle rho (Fin 0) || xlt (Fin 1) rho).

Section Intro.
Context {X U V G : Type}.
Variables
  (vscale : V -> xf -> V) (clamp : U -> U -> U -> U) (xnorm : X -> xf)
  (pol : G -> nat -> xf -> U -> V -> U)
  (bwd : list X -> list U -> list V -> bool -> xf -> option G)
  (eiP : G -> st X U V G -> xf * xf)
  (eiF : G -> list X -> list V -> bool -> list X -> xf * xf)
  (hf : list X -> list U -> xf)
  (pb : sproblem X U V) (par : params)
  (th_feas rho : xf).
Notation st := (st X U V G).

(** What the callbacks see in iteration [c_i]. *)
Record icall := ICall {
  c_i : nat; c_xs : list X; c_us : list U; c_feas : bool;
  c_cost : xf; c_hf : xf; c_ups : xf; c_d : xf * xf; c_stop : xf }.

(** An update of the weight: [iter_], [upsilon_] before and after, [hfeas_], [d_]. *)
Record iup := IUp { u_i : nat; u_old : xf; u_new : xf; u_hf : xf; u_d : xf * xf }.
(** An accepted trial: step length, [d_], [upsilon_], cost and infeasibility before and
    after. *)
Record iacc := IAcc { a_alpha : xf; a_d : xf * xf; a_ups : xf; a_c0 : xf; a_h0 : xf; a_c1 : xf; a_h1 : xf }.

(** Solver state: that of the base class, [hfeas_], [upsilon_], [merit_], [dV_]; the lists
    record the callbacks, the updates of the weight and the accepted trials (latest
    first). *)
Record ist := ISt {
  t_s : st; t_hf : xf; t_ups : xf; t_merit : xf; t_dV : xf;
  t_calls : list icall; t_uplog : list iup; t_acc : list iacc }.

Inductive ires := INext (s : ist) (recalc : bool) | IRet (b : bool) (s : ist) | IFuel.

(** intro.cpp:96-108; calcDiff sets [hfeas_] (solvers/ddp.cpp:205-207). *)
Definition i_retry (fuel i : nat) (recalc : bool) (s : ist) : ires :=
  let h := if recalc then hf (s_xs (t_s s)) (s_us (t_s s)) else t_hf s in
  match retry bwd pb par fuel i recalc (t_s s) with
  | Next s1 rc => INext (ISt s1 h (t_ups s) (t_merit s) (t_dV s) (t_calls s) (t_uplog s) (t_acc s)) rc
  | Ret b s1 => IRet b (ISt s1 h (t_ups s) (t_merit s) (t_dV s) (t_calls s) (t_uplog s) (t_acc s))
  | Fuel => IFuel
  end.

(** intro.cpp:113-119: [d] is the expected improvement. *)
Definition update_upsilon (i : nat) (ups hfeas : xf) (d : xf * xf) : xf :=
  if negb (xeq hfeas (Fin 0)) && negb (Nat.eqb i 0)
  then cmax ups (xdiv (xadd (fst d) (xmul (Fin (1 # 2)) (snd d))) (xmul (xsub (Fin 1) rho) hfeas))
  else ups.

(** intro.cpp:121-159 *)
Fixpoint i_search (g : G) (alphas : list xf) (s : ist) : ist * bool :=
  match alphas with
  | [] => (s, false)
  | a :: r =>
      let b := t_s s in
      let fr := forward vscale clamp xnorm pol pb FDDP g a (s_feas b) (s_xt0 b) (s_xs b) (s_us b)
                        (s_uo b) (s_fs b) (s_ds b) (s_dT b) in
      let b1 := set_try a fr b in
      if f_ok fr then
        let h := hf (f_xs fr) (f_us fr) in
        let dV := xsub (s_cost b1) (f_cost fr) in
        let dfeas := xsub (t_hf s) h in
        let dPhi := xadd dV (xmul (t_ups s) dfeas) in
        let b2 := set_d (eiF g (s_xs b1) (s_fs b1) (s_feas b1) (f_xs fr)) b1 in
        let dVexp := xmul a (xadd (s_d0 b2) (xmul (xmul (Fin (1 # 2)) a) (s_d1 b2))) in
        let dPhiexp := xadd dVexp (xmul (xmul a (t_ups s)) dfeas) in
        let accept :=
          if xle (Fin 0) dPhiexp
          then xlt (xabs (s_d0 b2)) (p_val par ThGrad) || xlt (xmul (p_val par ThAcceptStep) dPhiexp) dPhi
          else xlt (xmul (p_val par ThAcceptNegStep) dVexp) dV in
        if accept then
          (ISt (set_accept (s_feas b2 || xeq a (Fin 1)) fr b2) h (t_ups s)
               (xadd (f_cost fr) (xmul (t_ups s) h)) dV (t_calls s) (t_uplog s)
               (IAcc a (s_d0 b2, s_d1 b2) (t_ups s) (s_cost b) (t_hf s) (f_cost fr) h :: t_acc s), true)
        else i_search g r (ISt b2 (t_hf s) (t_ups s) (t_merit s) dV (t_calls s) (t_uplog s) (t_acc s))
      else i_search g r (ISt b1 (t_hf s) (t_ups s) (t_merit s) (t_dV s) (t_calls s) (t_uplog s) (t_acc s))
  end.

(** One pass of the main loop, intro.cpp:95-182. *)
Definition i_iteration (fuel i : nat) (recalc : bool) (s : ist) : ires :=
  match i_retry fuel i recalc s with
  | INext s1 _ =>
      match s_g (t_s s1) with
      | None => IFuel   (* never: retry stores the gains *)
      | Some g =>
          let d := eiP g (t_s s1) in
          let ups := update_upsilon i (t_ups s1) (t_hf s1) d in
          let s2 := ISt (set_d d (t_s s1)) (t_hf s1) ups (t_merit s1) (t_dV s1) (t_calls s1)
                        (IUp i (t_ups s1) ups (t_hf s1) d :: t_uplog s1) (t_acc s1) in
          let '(s3, rc) := i_search g (p_alphas par) s2 in
          let b3 := t_s s3 in
          let stop := cmax (t_hf s3) (xabs (xadd (s_d0 b3) (xmul (Fin (1 # 2)) (s_d1 b3)))) in
          let c := ICall i (s_xs b3) (s_us b3) (s_feas b3) (s_cost b3) (t_hf s3) (t_ups s3)
                         (s_d0 b3, s_d1 b3) stop in
          let b4 := set_stop stop b3 in
          let mk (b : st) := ISt b (t_hf s3) (t_ups s3) (t_merit s3) (t_dV s3) (c :: t_calls s3)
                             (t_uplog s3) (t_acc s3) in
          let b5 := if xlt (p_val par ThStepDec) (s_alpha b4) && xle (Fin 0) (t_dV s3)
                    then set_reg (dec_reg par (s_preg b4)) b4 else b4 in
          let inc := xle (s_alpha b5) (p_val par ThStepInc) || xle (xabs (s_d1 b5)) th_feas in
          if inc && xeq (s_preg b5) (p_val par RegMax) then IRet false (mk b5)
          else
            let b6 := if inc then set_reg (inc_reg par (s_preg b5)) b5 else b5 in
            if s_feas b6 && xlt (s_stop b6) (p_val par ThStop) then IRet true (mk b6)
            else INext (mk b6) rc
      end
  | r => r
  end.

Fixpoint i_iterations (fuel n i : nat) (recalc : bool) (s : ist) : ires :=
  match n with
  | O => IRet false s
  | S n' => match i_iteration fuel i recalc s with
            | INext s' rc => i_iterations fuel n' (S i) rc s'
            | r => r
            end
  end.

(** intro.cpp:70-93; [zero] is [zero_upsilon_]. *)
Definition i_solve (zero : bool) (fuel maxiter : nat) (init_reg : xf)
    (xs : list X) (us : list U) (feas : bool) (s : ist) : ires :=
  i_iterations fuel maxiter 0 true
    (ISt (start pb par init_reg xs us feas (t_s s)) (t_hf s) (if zero then Fin 0 else t_ups s)
         (t_merit s) (t_dV s) [] [] []).
End Intro.
Arguments icall : clear implicits.
Arguments ist : clear implicits.
Arguments ires : clear implicits.
