(** C15, the quantity of the stopping test: it is the one of the last direction. *)
From Coq Require Import QArith Qcanon Qabs List Bool Arith Lia Lqa.
From Verif Require Import Common XFloat XFloatFacts Params_Model Params_Spec
  Solver_Model Solver_Spec Solver_Proofs Solver_Scalar SolverWitness_Props.
Import ListNotations.
Local Open Scope nat_scope.

Section General.
Context {X U V G : Type}.
Variables (vscale : V -> xf -> V) (clamp : U -> U -> U -> U) (xnorm : X -> xf)
          (pol : G -> nat -> xf -> U -> V -> U)
          (bwd : list X -> list U -> list V -> bool -> xf -> option G)
          (eiD : G -> xf * xf) (eiF : G -> list X -> list V -> bool -> list X -> xf * xf)
          (pb : sproblem X U V) (par : params).
Notation st := (st X U V G).
Notation solve := (solve vscale clamp xnorm pol bwd eiD eiF pb par).
Notation iteration := (iteration vscale clamp xnorm pol bwd eiD eiF pb par).
Notation iterations := (iterations vscale clamp xnorm pol bwd eiD eiF pb par).
Notation line_search := (line_search vscale clamp xnorm pol eiF pb par).
Notation retry := (retry bwd pb par).

Lemma line_search_keeps k g : fddp_loop k = false -> forall al (s s' : st) rc,
  line_search k g al s = (s', rc) ->
  s_g s' = s_g s /\ s_d0 s' = s_d0 s /\ s_d1 s' = s_d1 s /\ s_lx s' = s_lx s /\ s_lu s' = s_lu s.
Proof.
  intro Hk. induction al as [|a al IH]; intros s s' rc E; cbn [Solver_Model.line_search] in E.
  - injection E as <- <-. auto.
  - rewrite Hk in E. cbv zeta in E. destruct (f_ok _).
    + destruct (accepts _ _ _ _ _).
      * injection E as <- <-. cbn. auto.
      * destruct (IH _ _ _ E) as (A1 & A2 & A3 & A4 & A5). cbn in *. auto.
    + destruct (IH _ _ _ E) as (A1 & A2 & A3 & A4 & A5). cbn in *. auto.
Qed.

Lemma retry_direction fuel : forall i recalc (s s1 : st) b, retry fuel i recalc s = Next s1 b ->
  exists g fs f p, s_g s1 = Some g /\ bwd (s_lx s1) (s_lu s1) fs f p = Some g.
Proof.
  induction fuel as [|fuel IH]; intros i recalc s s1 b E; cbn [Solver_Model.retry] in E; [discriminate|].
  cbv zeta in E. destruct (bwd _ _ _ _ _) as [g|] eqn:Eb.
  - injection E as <- <-. exists g. eauto.
  - destruct (xeq _ _); [discriminate|]. eauto.
Qed.

Definition direction_stop (s' : st) : Prop :=
  exists g fs f p, bwd (s_lx s') (s_lu s') fs f p = Some g /\ s_g s' = Some g /\
    s_stop s' = xabs (xadd (fst (eiD g)) (xmul (Fin (1 # 2)) (snd (eiD g)))).

Lemma iteration_stop k fuel i recalc (s : st) : fddp_loop k = false ->
  match iteration k fuel i recalc s with
  | Ret true s' => direction_stop s'
  | Next s' _ => direction_stop s'
  | _ => True
  end.
Proof.
  intro Hk. unfold Solver_Model.iteration.
  destruct (retry fuel i recalc s) as [s1 b|b s1|] eqn:Er; auto.
  2: { destruct b; auto. exfalso. revert i recalc s Er. induction fuel as [|fuel IH]; intros i recalc s Er; cbn [Solver_Model.retry] in Er; [discriminate|].
       cbv zeta in Er. destruct (bwd _ _ _ _ _); [discriminate|]. destruct (xeq _ _); [discriminate|]. eauto. }
  destruct (retry_direction _ _ _ _ _ _ Er) as (g & fs & f & p & Hg & Hb). rewrite Hg, Hk.
  destruct (line_search k g (p_alphas par) (set_d (eiD g) s1)) as [s3 rc] eqn:El.
  destruct (line_search_keeps k g Hk _ _ _ _ El) as (A1 & A2 & A3 & A4 & A5). cbn in A1, A2, A3, A4, A5.
  assert (K : forall s6 : st, s_g s6 = s_g s3 -> s_d0 s6 = s_d0 s3 -> s_d1 s6 = s_d1 s3 -> s_lx s6 = s_lx s3 -> s_lu s6 = s_lu s3 ->
            forall v e, v = xabs (xadd (s_d0 s6) (xmul (Fin (1 # 2)) (s_d1 s6))) -> direction_stop (emit e (set_stop v s6))).
  { intros s6 B1 B2 B3 B4 B5 v e ->. exists g, fs, f, p. cbn. rewrite B1, B2, B3, B4, B5, A1, A2, A3, A4, A5. auto. }
  cbv zeta.
  destruct (_ && xeq _ _); [exact I|].
  destruct (_ && xlt _ _); (apply K; [..|reflexivity]);
    destruct (xlt _ _); destruct (xle _ _); reflexivity.
Qed.

(** When one of the two solvers reports success, the quantity it compared with the
    threshold is the expected improvement of the direction computed last, from the
    linearization stored in the solver.  Runs meeting the hypotheses:
    [C15_runs] below. *)
Theorem C15_direction k fuel maxiter r xs us feas (s s' : st) : k = DDP \/ k = BoxDDP ->
  solve k fuel maxiter r xs us feas s = Ret true s' ->
  exists g fs f p, bwd (s_lx s') (s_lu s') fs f p = Some g /\ s_g s' = Some g /\
    s_stop s' = xabs (xadd (fst (eiD g)) (xmul (Fin (1 # 2)) (snd (eiD g)))).
Proof.
  intros Hk. assert (Hf : fddp_loop k = false) by (destruct Hk as [-> | ->]; reflexivity).
  unfold Solver_Model.solve. generalize (start pb par r xs us feas s) as s0. generalize true at 1 as recalc. generalize 0 as i.
  induction maxiter as [|n IH]; intros i recalc s0 E; cbn [Solver_Model.iterations] in E; [discriminate|].
  pose proof (iteration_stop k fuel i recalc s0 Hf) as H.
  destruct (iteration k fuel i recalc s0) as [s1 rc|b s1|]; [eauto| |discriminate].
  injection E as -> ->. exact H.
Qed.

(** ** FDDP: the expected improvement is computed after each trial that did not diverge *)
Lemma line_search_trial k g : fddp_loop k = true -> forall al (s s' : st) rc,
  line_search k g al s = (s', rc) ->
  s_g s' = s_g s /\ s_lx s' = s_lx s /\ s_lu s' = s_lu s /\
  ((exists tr, (s_d0 s', s_d1 s') = eiF g (s_xs s) (s_fs s) (s_feas s) tr) \/
   (s_was s' = s_was s /\ s_d0 s' = s_d0 s /\ s_d1 s' = s_d1 s)).
Proof.
  intro Hk. induction al as [|a al IH]; intros s s' rc E; cbn [Solver_Model.line_search] in E.
  - injection E as <- <-. repeat (split; [reflexivity|]). right. auto.
  - rewrite Hk in E. cbv zeta in E. destruct (f_ok _).
    + destruct (accepts _ _ _ _ _).
      * injection E as <- <-. cbn. repeat (split; [reflexivity|]). left. eexists. symmetry. apply surjective_pairing.
      * destruct (IH _ _ _ E) as (A1 & A2 & A3 & A4). cbn in A1, A2, A3, A4. repeat (split; [assumption|]).
        left. destruct A4 as [A4|(_ & A5 & A6)]; [exact A4|].
        eexists. rewrite A5, A6. symmetry. apply surjective_pairing.
    + destruct (IH _ _ _ E) as (A1 & A2 & A3 & A4). cbn in A1, A2, A3, A4. auto.
Qed.

Lemma retry_trial fuel : forall i recalc (s s1 : st) b, retry fuel i recalc s = Next s1 b ->
  s_was s1 = s_was s /\ s_d0 s1 = s_d0 s /\ s_d1 s1 = s_d1 s /\
  exists g p, s_g s1 = Some g /\ bwd (s_lx s1) (s_lu s1) (s_fs s1) (s_feas s1) p = Some g.
Proof.
  induction fuel as [|fuel IH]; intros i recalc s s1 b E; cbn [Solver_Model.retry] in E; [discriminate|].
  cbv zeta in E.
  assert (L : s_was (linearise pb i recalc s) = s_was s /\ s_d0 (linearise pb i recalc s) = s_d0 s /\
              s_d1 (linearise pb i recalc s) = s_d1 s) by (unfold linearise; destruct recalc; cbn; auto).
  destruct L as (L1 & L2 & L3). destruct (bwd _ _ _ _ _) as [g|] eqn:Eb.
  - injection E as <- <-. cbn. repeat (split; [assumption|]). exists g. eauto.
  - destruct (xeq _ _); [discriminate|]. destruct (IH _ _ _ _ _ E) as (A1 & A2 & A3 & A4).
    cbn in A1, A2, A3. rewrite A1, A2, A3. auto.
Qed.

Definition trial_stop (s' : st) : Prop :=
  exists g fs f p xs tr, bwd (s_lx s') (s_lu s') fs f p = Some g /\ s_g s' = Some g /\
    s_stop s' = xabs (xadd (fst (eiF g xs fs f tr)) (xmul (Fin (1 # 2)) (snd (eiF g xs fs f tr)))).
(** The stopping test fails on what the solver holds. *)
Definition running (s : st) : Prop :=
  s_was s && xlt (xabs (xadd (s_d0 s) (xmul (Fin (1 # 2)) (s_d1 s)))) (p_val par ThStop) = false.

Lemma iteration_trial k fuel i recalc (s : st) : fddp_loop k = true -> running s ->
  match iteration k fuel i recalc s with
  | Ret true s' => trial_stop s'
  | Next s' _ => running s'
  | _ => True
  end.
Proof.
  intros Hk Hr. unfold Solver_Model.iteration.
  destruct (retry fuel i recalc s) as [s1 b|b s1|] eqn:Er; auto.
  2: { destruct b; auto. exfalso. clear Hr. revert i recalc s Er. induction fuel as [|fuel IH]; intros i recalc s Er; cbn [Solver_Model.retry] in Er; [discriminate|].
       cbv zeta in Er. destruct (bwd _ _ _ _ _); [discriminate|]. destruct (xeq _ _); [discriminate|]. eauto. }
  destruct (retry_trial _ _ _ _ _ _ Er) as (R1 & R2 & R3 & g & p & Hg & Hb). rewrite Hg, Hk.
  destruct (line_search k g (p_alphas par) s1) as [s3 rc] eqn:El.
  destruct (line_search_trial k g Hk _ _ _ _ El) as (A1 & A2 & A3 & A4).
  cbv zeta.
  set (s5 := if xle _ _ then _ else _).
  assert (B : s_g s5 = s_g s3 /\ s_lx s5 = s_lx s3 /\ s_lu s5 = s_lu s3 /\ s_was s5 = s_was s3 /\ s_d0 s5 = s_d0 s3 /\ s_d1 s5 = s_d1 s3)
    by (unfold s5; destruct (xlt _ _); destruct (xle _ _); repeat split).
  clearbody s5. destruct B as (B1 & B2 & B3 & B4 & B5 & B6).
  destruct (_ && xeq _ _); [exact I|]. cbn [emit set_stop s_was s_stop].
  destruct (s_was s5 && xlt _ _) eqn:Et; [|exact Et].
  destruct A4 as [[tr A4]|(A5 & A6 & A7)].
  - exists g, (s_fs s1), (s_feas s1), p, (s_xs s1), tr. cbn. rewrite B1, B2, B3, B5, B6, A1, A2, A3, <- A4. auto.
  - exfalso. unfold running in Hr. rewrite B4, B5, B6, A5, A6, A7, R1, R2, R3 in Et. congruence.
Qed.

(** For SolverFDDP and SolverBoxFDDP likewise, with the improvement expected for a trial of
    the last line search. *)
Theorem C15_trial k fuel maxiter r xs us feas (s s' : st) : k = FDDP \/ k = BoxFDDP ->
  solve k fuel maxiter r xs us feas s = Ret true s' ->
  exists g fs f p xs1 tr, bwd (s_lx s') (s_lu s') fs f p = Some g /\ s_g s' = Some g /\
    s_stop s' = xabs (xadd (fst (eiF g xs1 fs f tr)) (xmul (Fin (1 # 2)) (snd (eiF g xs1 fs f tr)))).
Proof.
  intros Hk. assert (Hf : fddp_loop k = true) by (destruct Hk as [-> | ->]; reflexivity).
  unfold Solver_Model.solve. assert (H0 : running (start pb par r xs us feas s)) by reflexivity. revert H0.
  generalize (start pb par r xs us feas s) as s0. generalize true at 1 as recalc. generalize 0 as i.
  induction maxiter as [|n IH]; intros i recalc s0 H0 E; cbn [Solver_Model.iterations] in E; [discriminate|].
  pose proof (iteration_trial k fuel i recalc s0 Hf H0) as H.
  destruct (iteration k fuel i recalc s0) as [s1 rc|b s1|]; [eauto| |discriminate].
  injection E as -> ->. exact H.
Qed.
End General.

(** Runs of the four solvers meeting the hypotheses. *)
Example C15_runs : forall k, exists s', ssolve k par0 0 quad 30 10 NaN [0%Q; 0%Q] [0%Q] true = Ret true s'.
Proof. intros []; vm_compute; eexists; reflexivity. Qed.

Print Assumptions C15_direction.
Print Assumptions C15_trial.
