(** C92: exceptions of calcDiff and the answers of the DDP family. *)
From Coq Require Import QArith List Bool Arith Lia.
From Verif Require Import Common XFloat XFloatFacts Params_Model Params_Spec Solver_Model
  Solver_Spec Solver_Proofs SolverLoop_Proofs Solver_Props Solver_Scalar SolverSync_Proofs SolverThrow_Model.
Import ListNotations.
Local Open Scope nat_scope.

Section Throw.
Context {X U V G : Type}.
Variables (vscale : V -> xf -> V) (clamp : U -> U -> U -> U) (xnorm : X -> xf)
          (pol : G -> nat -> xf -> U -> V -> U)
          (bwd : list X -> list U -> list V -> bool -> xf -> option G)
          (eiD : G -> xf * xf) (eiF : G -> list X -> list V -> bool -> list X -> xf * xf)
          (pb : sproblem X U V) (par : params)
          (dthrow : list X -> list U -> option nat).
Notation st := (st X U V G).
Notation line_search := (line_search vscale clamp xnorm pol eiF pb par).
Notation retry_t := (retry_t bwd pb par dthrow).
Notation iteration_t := (iteration_t vscale clamp xnorm pol bwd eiD eiF pb par dthrow).
Notation iterations_t := (iterations_t vscale clamp xnorm pol bwd eiD eiF pb par dthrow).
Notation solve_t := (solve_t vscale clamp xnorm pol bwd eiD eiF pb par dthrow).

(** Without exceptions the loop is that of Solver_Model.v, so all its theorems hold. *)
Lemma retry_no_throw fuel : (forall xs us, dthrow xs us = None) -> forall i recalc s, retry_t fuel i recalc s = retry bwd pb par fuel i recalc s.
Proof.
  intro H. induction fuel as [|fuel IH]; intros i recalc s; [reflexivity|]. cbn [SolverThrow_Model.retry_t retry].
  replace (if recalc then dthrow (s_xs s) (s_us s) else None) with (@None nat) by (destruct recalc; [now rewrite H|reflexivity]).
  cbv zeta. destruct (bwd _ _ _ _ _); [reflexivity|]. destruct (xeq _ _); [reflexivity|]. apply IH.
Qed.
Theorem C92_no_exception k fuel maxiter r xs us feas s : (forall xs us, dthrow xs us = None) ->
  solve_t k fuel maxiter r xs us feas s = solve vscale clamp xnorm pol bwd eiD eiF pb par k fuel maxiter r xs us feas s.
Proof.
  intro H. unfold SolverThrow_Model.solve_t, solve.
  enough (Y : forall n i rc s0, iterations_t k fuel n i rc s0 = iterations vscale clamp xnorm pol bwd eiD eiF pb par k fuel n i rc s0) by apply Y.
  induction n as [|n IH]; intros i rc s0; [reflexivity|]. cbn [SolverThrow_Model.iterations_t iterations].
  unfold SolverThrow_Model.iteration_t, iteration. rewrite retry_no_throw by assumption.
  match goal with |- match ?a with _ => _ end = _ => destruct a as [s1 r1| |]; [apply IH|reflexivity|reflexivity] end.
Qed.

(** *** With exceptions *)
Definition quiet (s : st) : Prop := dthrow (s_xs s) (s_us s) = None.
Definition dir_t (e : event X U V) : Prop :=
  match e with
  | EDir _ _ lx lu fs cx cu => dthrow cx cu = None -> lx = cx /\ lu = cu /\ fs = gaps (q_x0 pb) (q_run pb) cx cu
  | ECall _ cx cu feas _ _ _ _ _ => feas = true -> follows (q_x0 pb) (q_run pb) cx cu
  | _ => True
  end.
Definition pre_t (i : nat) (recalc : bool) (s : st) : Prop :=
  good pb s /\ (recalc = true -> i = 0 \/ (cost_ok pb s /\ data_ok pb s)) /\
  (recalc = false -> quiet s -> lin_ok s /\ fs_ok pb s).

Lemma retry_t_spec fuel : forall i recalc s, q_run pb <> [] -> pre_t i recalc s -> Forall dir_t (s_log s) ->
  match retry_t fuel i recalc s with
  | Fuel => True
  | Next s' _ | Ret _ s' => good pb s' /\ s_xs s' = s_xs s /\ s_us s' = s_us s /\ s_feas s' = s_feas s /\ (quiet s' -> lin_ok s' /\ fs_ok pb s') /\ Forall dir_t (s_log s')
  end.
Proof.
  induction fuel as [|fuel IH]; intros i recalc s N P Lg; cbn [SolverThrow_Model.retry_t]; [exact I|]. cbv zeta.
  assert (FAIL : forall s1, good pb s1 -> s_xs s1 = s_xs s -> s_us s1 = s_us s -> s_feas s1 = s_feas s -> (quiet s1 -> lin_ok s1 /\ fs_ok pb s1) -> Forall dir_t (s_log s1) ->
    match (if xeq (s_preg (set_reg (inc_reg par (s_preg s1)) s1)) (p_val par RegMax) then Ret false (set_reg (inc_reg par (s_preg s1)) s1)
           else retry_t fuel i false (set_reg (inc_reg par (s_preg s1)) s1)) with
    | Fuel => True
    | Next s' _ | Ret _ s' => good pb s' /\ s_xs s' = s_xs s /\ s_us s' = s_us s /\ s_feas s' = s_feas s /\ (quiet s' -> lin_ok s' /\ fs_ok pb s') /\ Forall dir_t (s_log s')
    end).
  { intros s1 G1 E1 E2 E3 Q1 L1. destruct (xeq _ _); [repeat (split; [assumption|]); exact L1|].
    assert (P1 : pre_t i false (set_reg (inc_reg par (s_preg s1)) s1)).
    { split; [exact G1|]. split; [discriminate|]. intros _. exact Q1. }
    specialize (IH i false _ N P1 L1). destruct (retry_t fuel i false _); cbn [set_reg s_xs s_us s_feas] in IH; [| |exact I];
      rewrite E1, E2, E3 in IH; exact IH. }
  destruct P as (G0 & PT & PF). destruct recalc.
  - destruct (dthrow (s_xs s) (s_us s)) as [j|] eqn:TH.
    + apply FAIL; try reflexivity; [| |exact Lg].
      * destruct G0 as ((S0 & L1 & X0) & L2 & L3). split; [split; [exact S0|split; [exact L1|exact X0]]|]. split; [exact L2|]. cbn [calc_diff_until s_ds].
        destruct (Nat.eqb i 0); [|exact L3]. unfold eval_run. destruct S0 as [A B]. rewrite map_length, !combine_length, A, B. lia.
      * intro Q. unfold quiet in Q. cbn [calc_diff_until s_xs s_us] in Q. congruence.
    + assert (P : pre pb i true s).
      { split; [exact (proj1 G0)|]. destruct (PT eq_refl) as [->|[C D]]; [left; auto|]. right. split; [exact G0|]. split; [exact C|]. split; [auto|discriminate]. }
      destruct (calc_diff_spec pb i s N P) as (Q1 & Q2 & Qf & Q3 & Q4 & Q5 & Q6 & Q7 & Q8 & Q9 & Q10).
      assert (LL : Forall dir_t (s_log (linearise pb i true s))).
      { unfold linearise. cbn [emit s_log]. apply Forall_cons; [|rewrite Q10; exact Lg]. intros _. split; [reflexivity|]. split; [reflexivity|]. exact Qf. }
      destruct (bwd _ _ _ _ _); [|now apply FAIL].
      split; [exact Q1|]. split; [exact Q4|]. split; [exact Q5|]. split; [exact Q6|]. split; [intros _; split; [split; reflexivity|exact Qf]|exact LL].
  - assert (LL : Forall dir_t (s_log (linearise pb i false s))).
    { unfold linearise. cbn [emit s_log]. apply Forall_cons; [|exact Lg]. intro Q. destruct (PF eq_refl Q) as [[L1 L2] F]. split; [exact L1|]. split; [exact L2|exact F]. }
    destruct (bwd _ _ _ _ _); [|now apply FAIL; auto].
    split; [exact G0|]. do 3 (split; [reflexivity|]). split; [exact (PF eq_refl)|exact LL].
Qed.

Lemma iteration_t_spec k fuel i recalc s f0 : q_run pb <> [] -> pre_t i recalc s -> Forall dir_t (s_log s) ->
  k <> BoxDDP \/ f0 = true -> (f0 = true -> s_feas s = true) -> feas_ok pb s ->
  match iteration_t k fuel i recalc s with
  | Fuel => True
  | Next s' rc => pre_t (S i) rc s' /\ Forall dir_t (s_log s') /\ (f0 = true -> s_feas s' = true) /\ feas_ok pb s'
  | Ret _ s' => Forall dir_t (s_log s') /\ feas_ok pb s'
  end.
Proof.
  intros N P Lg KB F0 FO. unfold SolverThrow_Model.iteration_t.
  pose proof (retry_t_spec fuel i recalc s N P Lg) as H. destruct (retry_t fuel i recalc s) as [s1 b|b s1|]; [| |exact I].
  2: { destruct H as (_ & E1 & E2 & E3 & _ & L). split; [exact L|]. unfold feas_ok. rewrite E1, E2, E3. exact FO. }
  destruct (s_g s1) as [g|]; [|exact I]. destruct H as (G1 & E1 & E2 & E3 & Q1 & L1).
  assert (FO1 : feas_ok pb s1) by (unfold feas_ok; rewrite E1, E2, E3; exact FO). assert (F1 : f0 = true -> s_feas s1 = true) by (rewrite E3; exact F0).
  clear E1 E2 E3 P Lg F0 FO.
  set (s2 := if fddp_loop k then s1 else set_d (eiD g) s1).
  assert (good pb s2 /\ (quiet s2 -> lin_ok s2 /\ fs_ok pb s2) /\ Forall dir_t (s_log s2) /\ feas_ok pb s2 /\ (f0 = true -> s_feas s2 = true)) as (G2 & Q2 & L2 & FO2 & F2) by (unfold s2; destruct (fddp_loop k); auto).
  clearbody s2. destruct (line_search k g (p_alphas par) s2) as [s3 rc] eqn:El.
  pose proof (good_arrays _ _ G2) as Ar.
  assert (pre_t (S i) rc s3 /\ Forall dir_t (s_log s3) /\ (f0 = true -> s_feas s3 = true) /\ feas_ok pb s3) as K.
  { destruct G2 as (((A1 & A2) & A3 & A4) & A5 & A6).
    destruct (line_search_spec vscale clamp xnorm pol eiF pb par k g _ _ _ _ (incl_refl _) Ar El) as [(-> & Sc & Lu & Ld)|(-> & Acc)].
    - pose proof Sc as (S1 & S2 & S3 & S4 & S5 & S6 & S7 & S8 & S9 & S10 & S11).
      destruct (line_search_sync vscale clamp xnorm pol eiF pb par k g _ _ _ _ El) as [LS _]. destruct (LS eq_refl) as (M1 & M2 & _ & _).
      unfold pre_t, good, good0, sized, quiet, lin_ok, fs_ok, feas_ok in *. rewrite S1, S2, S3, S5, S6, Lu, Ld, S11, M1, M2.
      repeat split; auto; try discriminate; try (now apply Q2).
    - destruct Acc as (a & uo & ds & dT & s2' & Lu & Ld & Acc). cbv zeta in Acc.
      set (fr := forward vscale clamp xnorm pol pb k g a (s_feas s2) (s_xt0 s2) (s_xs s2) (s_us s2) uo (s_fs s2) ds dT) in *.
      destruct Acc as (Ok & Sc & Hin & Ea & Eu & Ed & Et & Ha & ->).
      pose proof Sc as (S1 & S2 & S3 & S4 & S5 & S6 & S7 & S8 & S9 & S10 & S11).
      assert (arrays (q_run pb) (s_xs s2) (s_us s2) uo (s_fs s2) ds) as Ar' by (unfold arrays; repeat split; lia).
      destruct (forward_len vscale clamp xnorm pol pb k g a (s_feas s2) (s_xt0 s2) _ _ _ _ _ dT Ar') as (B1 & B2 & B3).
      destruct (forward_cost vscale clamp xnorm pol pb k g a (s_feas s2) (s_xt0 s2) _ _ _ _ _ dT Ar' Ok) as (C1 & C2 & C3 & _).
      pose proof (forward_full vscale clamp xnorm pol pb k g a (s_feas s2) (s_xt0 s2) _ _ _ _ _ dT Ar') as C4.
      cbv zeta in B1, B2, B3, C4. fold fr in B1, B2, B3, C1, C2, C3, C4. specialize (B3 Ok).
      split; [|split; [|split]].
      + split; [|split; [intros _; right; split|discriminate]].
        * unfold good, good0, sized. cbn [set_accept s_xs s_us s_feas s_was s_xt0 s_uo s_fs s_ds]. rewrite B1, B3, Eu, Ed, B1, B2, S5, S6. auto.
        * exact C1.
        * unfold data_ok. cbn [set_accept s_ds s_xs s_us s_cost s_dT]. rewrite Ed, Et. split; [exact C3|exact C2].
      + cbn [set_accept s_log]. apply Forall_cons; [exact I|]. now rewrite S11.
      + intro H. cbn [set_accept s_feas]. unfold accept_flag. rewrite S3, (F2 H). now destruct (fddp_loop k).
      + unfold feas_ok. cbn [set_accept s_feas s_xs s_us]. intro Hf. rewrite A4 in C4.
        assert (Y : k = DDP \/ s_feas s2 = true \/ xeq a (Fin 1) = true).
        { unfold accept_flag in Hf. rewrite S3, Ea in Hf. destruct k; cbn [fddp_loop] in Hf; [now left| | |]; right.
          - now apply orb_true_iff in Hf.
          - left. destruct KB as [KB|KB]; [now elim KB|auto].
          - now apply orb_true_iff in Hf. }
        specialize (C4 Y Ok). destruct k; exact C4. }
  clear El Q2 L2 FO2 F2 Ar G2. cbv zeta.
  set (s4 := if xlt (p_val par ThStepDec) (s_alpha s3) then set_reg (dec_reg par (s_preg s3)) s3 else s3).
  assert (K4 : pre_t (S i) rc s4 /\ Forall dir_t (s_log s4) /\ (f0 = true -> s_feas s4 = true) /\ feas_ok pb s4) by (unfold s4; destruct (xlt _ _); exact K).
  clearbody s4. clear K.
  set (s5 := if xle (s_alpha s4) (p_val par ThStepInc) then set_reg (inc_reg par (s_preg s4)) s4 else s4).
  assert (K5 : pre_t (S i) rc s5 /\ Forall dir_t (s_log s5) /\ (f0 = true -> s_feas s5 = true) /\ feas_ok pb s5) by (unfold s5; destruct (xle _ _); exact K4).
  clearbody s5. clear K4. destruct K5 as (P5 & L5 & F5 & FO5).
  destruct (_ && _); [split; [exact L5|exact FO5]|].
  assert (L7 : forall v, Forall dir_t (ECall i (s_xs s5) (s_us s5) (s_feas s5) (s_was s5) (s_cost s5) v (s_preg s5) (s_dreg s5) :: s_log s5)).
  { intro v. apply Forall_cons; [|exact L5]. exact FO5. }
  destruct (_ && _).
  - split; [exact (L7 _)|exact FO5].
  - split; [exact P5|]. split; [exact (L7 _)|]. split; [exact F5|exact FO5].
Qed.

(** Whatever throws and whenever: every direction of a candidate whose derivatives can be evaluated is
    computed from them and from its gaps, and a candidate marked feasible is a rollout (BoxDDP: from a
    feasible guess). *)
Theorem C92_directions_partial k fuel maxiter r xs us feas (s : st) b s' :
  good_call pb xs us feas s -> length (s_fs s) = S (length (q_run pb)) -> length (s_ds s) = length (q_run pb) ->
  k <> BoxDDP \/ feas = true -> solve_t k fuel maxiter r xs us feas s = Ret b s' ->
  Forall (fun e => match e with
    | EDir _ _ lx lu fs cx cu => dthrow cx cu = None -> lx = cx /\ lu = cu /\ fs = gaps (q_x0 pb) (q_run pb) cx cu
    | ECall _ cx cu f _ _ _ _ _ => f = true -> follows (q_x0 pb) (q_run pb) cx cu
    | _ => True end) (s_log s') /\
  (s_feas s' = true -> follows (q_x0 pb) (q_run pb) (s_xs s') (s_us s')).
Proof.
  intros (N & Sz & Lu & Hf) LF LD KB E. unfold SolverThrow_Model.solve_t in E.
  assert (IT : forall n i rc s0, pre_t i rc s0 -> Forall dir_t (s_log s0) -> (feas = true -> s_feas s0 = true) -> feas_ok pb s0 ->
    iterations_t k fuel n i rc s0 = Ret b s' -> Forall dir_t (s_log s') /\ feas_ok pb s').
  { induction n as [|n IH]; intros i rc s0 P L F FO H; cbn [SolverThrow_Model.iterations_t] in H; [injection H as <- <-; auto|].
    pose proof (iteration_t_spec k fuel i rc s0 feas N P L KB F FO) as Y.
    destruct (iteration_t k fuel i rc s0) as [s1 rc1|b1 s1|]; [|injection H as <- <-; exact Y|discriminate].
    destruct Y as (P1 & L1 & F1 & FO1). exact (IH _ _ _ P1 L1 F1 FO1 H). }
  apply (IT maxiter 0 true (start pb par r xs us feas s)); [| | | |exact E].
  - split; [split; [split; [exact Sz|split; [exact Lu|reflexivity]]|split; [exact LF|exact LD]]|]. split; [auto|discriminate].
  - apply Forall_nil.
  - auto.
  - exact Hf.
Qed.
End Throw.

(** [x' = x + u], running cost [u²/2], terminal cost [(x - 1)²/2]; the optimum is u = 1/2.  A first solve
    finds it.  The next one starts from the rollout of u = 5, where calcDiff throws: it returns true after
    one iteration with this guess, since the direction comes from the derivatives of the optimum. *)
Definition push : snode :=
  SNode (fun x u => Qred (x + u)) (fun x u => Qred ((1 # 2) * u * u))%Q (fun _ _ => 1%Q) (fun _ _ => 1%Q)
        (fun _ _ => 0%Q) (fun _ u => u) (fun _ _ => 0%Q) (fun _ _ => 0%Q) (fun _ _ => 1%Q)
        (fun x => Qred ((1 # 2) * (x - 1) * (x - 1)))%Q (fun x => Qred (x - 1))%Q (fun _ => 1%Q).
Definition at_five (xs us : list Q) : option nat := match us with [u] => if Qeq_bool u 5 then Some 0 else None | _ => None end.
Definition push_solve (maxiter : nat) (r : xf) (xs us : list Q) (s : st Q Q Q sgain) : res Q Q Q sgain :=
  solve_t qscale qclamp qnorm spol (sbwd push) sei (fun g _ _ _ _ => sei g) (sprob 0 push) default_params at_five
    DDP 30 maxiter r xs us true s.
Definition after_first : st Q Q Q sgain := match push_solve 2 (Fin 0) [0%Q; 0%Q] [0%Q] sst0 with Ret _ s => s | _ => sst0 end.
Notation push_cost := (total_cost (q_term (sprob 0 push)) (Fin 0) (q_run (sprob 0 push))).
Theorem C92_success_refuted :
  push_solve 2 (Fin 0) [0%Q; 0%Q] [0%Q] sst0 = Ret true after_first /\
  good_call (sprob 0 push) [0%Q; 5%Q] [5%Q] true after_first /\ at_five [0%Q; 5%Q] [5%Q] = Some 0 /\
  exists s', push_solve 10 NaN [0%Q; 5%Q] [5%Q] after_first = Ret true s' /\
    s_xs s' = [0%Q; 5%Q] /\ s_us s' = [5%Q] /\ s_stop s' = Fin 0 /\
    push_cost [0%Q; 5%Q] [5%Q] = Fin (41 # 2) /\ push_cost [0%Q; 1 # 2] [1 # 2] = Fin (1 # 4) /\
    In (EDir (Fin (1 # 100000000)) (Fin (1 # 100000000)) [0%Q; 1 # 2] [1 # 2] [0%Q; 0%Q] [0%Q; 5%Q] [5%Q]) (s_log s').
Proof.
  split; [vm_compute; reflexivity|]. split.
  { split; [discriminate|]. split; [split; reflexivity|]. split; [vm_compute; reflexivity|]. intros _. vm_compute. repeat split. }
  split; [reflexivity|]. eexists. split; [vm_compute; reflexivity|]. repeat (split; [vm_compute; reflexivity|]). vm_compute. right. right. left. reflexivity.
Qed.
(** A run with an exception that [C92_directions_partial] covers: FDDP from a guess with a gap; after the
    first step the terminal calcDiff throws.  The later directions mix the derivatives of two points and
    use the old gaps; the optimal candidate is kept but not recognised. *)
Definition at_half (xs us : list Q) : option nat := match us with [u] => if Qeq_bool u (1 # 2) then Some 1 else None | _ => None end.
Example C92_run :
  good_call (sprob 0 push) [0%Q; 3%Q] [0%Q] false after_first /\ length (s_fs after_first) = 2 /\ length (s_ds after_first) = 1 /\
  exists s', solve_t qscale qclamp qnorm spol (sbwd push) sei (fun g _ _ _ _ => sei g) (sprob 0 push) default_params at_half
    FDDP 30 3 (Fin 0) [0%Q; 3%Q] [0%Q] false after_first = Ret false s' /\
    s_us s' = [1 # 2] /\ s_feas s' = true /\
    In (EDir (Fin (1 # 100000000)) (Fin (1 # 100000000)) [0%Q; 3%Q] [1 # 2] [0%Q; (-3)%Q] [0%Q; 1 # 2] [1 # 2]) (s_log s').
Proof.
  split; [split; [discriminate|]; split; [split; reflexivity|]; split; [vm_compute; reflexivity|discriminate]|].
  split; [vm_compute; reflexivity|]. split; [vm_compute; reflexivity|].
  eexists. split; [vm_compute; reflexivity|]. repeat (split; [vm_compute; reflexivity|]). vm_compute. do 3 right. left. reflexivity.
Qed.

Print Assumptions C92_no_exception.
Print Assumptions C92_directions_partial.
Print Assumptions C92_success_refuted.
