(** The derivatives and gaps read by the backward pass belong to the candidate. *)
From Coq Require Import QArith List Bool Arith Lia.
From Verif Require Import Common XFloat XFloatFacts Params_Model Params_Spec Solver_Model
  Solver_Spec Solver_Proofs SolverLoop_Proofs.
Import ListNotations.
Local Open Scope nat_scope.

Section Sync.
Context {X U V G : Type}.
Variables (vscale : V -> xf -> V) (clamp : U -> U -> U -> U) (xnorm : X -> xf)
          (pol : G -> nat -> xf -> U -> V -> U)
          (bwd : list X -> list U -> list V -> bool -> xf -> option G)
          (eiD : G -> xf * xf) (eiF : G -> list X -> list V -> bool -> list X -> xf * xf)
          (pb : sproblem X U V) (par : params).
Notation st := (st X U V G).
Notation retry := (retry bwd pb par).
Notation line_search := (line_search vscale clamp xnorm pol eiF pb par).
Notation iteration := (iteration vscale clamp xnorm pol bwd eiD eiF pb par).
Notation iterations := (iterations vscale clamp xnorm pol bwd eiD eiF pb par).

Definition lin_ok (s : st) : Prop := s_lx s = s_xs s /\ s_lu s = s_us s.
(** The direction is computed with the derivatives and gaps of the candidate. *)
Definition dir_ok (e : event X U V) : Prop :=
  match e with
  | EDir _ _ lx lu fs xs us => lx = xs /\ lu = us /\ fs = gaps (q_x0 pb) (q_run pb) xs us
  | _ => True
  end.
Definition log_ok (s : st) : Prop := Forall dir_ok (s_log s).

Lemma linearise_sync i recalc s :
  q_run pb <> [] -> pre pb i recalc s -> (recalc = false -> lin_ok s) -> log_ok s ->
  lin_ok (linearise pb i recalc s) /\ log_ok (linearise pb i recalc s) /\
  pre pb i false (linearise pb i recalc s).
Proof.
  intros N P L Lg. unfold linearise. destruct recalc.
  - destruct (calc_diff_spec pb i s N P) as (Q1 & Q2 & Qf & Q3 & Q4 & Q5 & Q6 & Q7 & Q8 & Q9 & Q10).
    split; [split; reflexivity|]. split.
    + unfold log_ok. cbn [emit s_log]. apply Forall_cons; [|rewrite Q10; exact Lg].
      split; [reflexivity|]. split; [reflexivity|]. exact Qf.
    + split; [exact (proj1 Q1)|]. right. split; [exact Q1|]. split; [exact Q2|].
      split; [discriminate|intros _; exact Qf].
  - destruct (L eq_refl) as [L1 L2]. destruct P as (G0 & [[_ [=]]|(Gd & C & D & Fs)]).
    split; [split; assumption|]. split.
    + unfold log_ok. cbn [emit s_log]. apply Forall_cons; [|exact Lg].
      split; [exact L1|]. split; [exact L2|]. exact (Fs eq_refl).
    + split; [exact G0|]. right. split; [exact Gd|]. split; [exact C|]. split; [discriminate|exact Fs].
Qed.

Lemma retry_sync fuel : forall i recalc s,
  q_run pb <> [] -> pre pb i recalc s -> (recalc = false -> lin_ok s) -> log_ok s ->
  match retry fuel i recalc s with Fuel => True | Next s' _ | Ret _ s' => lin_ok s' /\ log_ok s' end.
Proof.
  induction fuel as [|fuel IH]; intros i recalc s N P L Lg; cbn [Solver_Model.retry]; [exact I|].
  destruct (linearise_sync i recalc s N P L Lg) as (L1 & G1 & P1).
  set (s1 := linearise pb i recalc s) in *. clearbody s1. cbv zeta.
  destruct (bwd _ _ _ _ _); [split; assumption|].
  destruct (xeq _ _); [split; assumption|]. apply IH; auto.
Qed.

Lemma line_search_sync k g : forall al s s' b,
  line_search k g al s = (s', b) ->
  (b = false -> s_lx s' = s_lx s /\ s_lu s' = s_lu s /\ s_xs s' = s_xs s /\ s_us s' = s_us s) /\
  (log_ok s -> log_ok s').
Proof.
  induction al as [|a al IH]; intros s s' b E; cbn [Solver_Model.line_search] in E.
  - injection E as <- <-. auto.
  - cbv zeta in E. destruct (f_ok _).
    + destruct (accepts _ _ _ _ _).
      * injection E as <- <-. split; [discriminate|]. intro H. unfold log_ok.
        cbn [set_accept s_log]. apply Forall_cons; [exact I|]. destruct (fddp_loop k); exact H.
      * destruct (IH _ _ _ E) as [H1 H2]. split; [intro Hb; specialize (H1 Hb)|intro H; apply H2];
          destruct (fddp_loop k); assumption.
    + destruct (IH _ _ _ E) as [H1 H2]. split; [exact H1|exact H2].
Qed.

Lemma iteration_sync k fuel i recalc s :
  q_run pb <> [] -> pre pb i recalc s -> (recalc = false -> lin_ok s) -> log_ok s ->
  match iteration k fuel i recalc s with
  | Fuel => True
  | Next s' rc => (rc = false -> lin_ok s') /\ log_ok s'
  | Ret _ s' => log_ok s'
  end.
Proof.
  intros N P L Lg. unfold Solver_Model.iteration.
  pose proof (retry_sync fuel i recalc s N P L Lg) as H.
  destruct (retry fuel i recalc s) as [s1 b|b s1|]; [|apply H|exact I].
  destruct (s_g s1) as [g|]; [|exact I]. destruct H as [L1 G1].
  set (s2 := if fddp_loop k then s1 else set_d (eiD g) s1).
  assert (lin_ok s2 /\ log_ok s2) as [L2 G2] by (unfold s2; destruct (fddp_loop k); auto).
  clearbody s2. destruct (line_search k g (p_alphas par) s2) as [s3 rc] eqn:El.
  destruct (line_search_sync k g _ _ _ _ El) as [H1 H2]. specialize (H2 G2).
  assert (rc = false -> lin_ok s3) as L3.
  { intro Hr. destruct (H1 Hr) as (E1 & E2 & E3 & E4). destruct L2. split; congruence. }
  clear H1. cbv zeta.
  set (s4 := if xlt (p_val par ThStepDec) (s_alpha s3) then set_reg (dec_reg par (s_preg s3)) s3 else s3).
  assert ((rc = false -> lin_ok s4) /\ log_ok s4) as [L4 G4] by (unfold s4; destruct (xlt _ _); auto).
  clearbody s4.
  set (s5 := if xle (s_alpha s4) (p_val par ThStepInc) then set_reg (inc_reg par (s_preg s4)) s4 else s4).
  assert ((rc = false -> lin_ok s5) /\ log_ok s5) as [L5 G5] by (unfold s5; destruct (xle _ _); auto).
  clearbody s5.
  destruct (_ && _); [exact G5|].
  destruct (_ && _).
  - unfold log_ok. cbn [emit s_log]. apply Forall_cons; [exact I|exact G5].
  - split; [exact L5|]. unfold log_ok. cbn [emit s_log]. apply Forall_cons; [exact I|exact G5].
Qed.

Lemma iterations_sync k fuel : forall n i recalc s b s',
  q_run pb <> [] -> pre pb i recalc s -> (recalc = false -> lin_ok s) -> log_ok s ->
  iterations k fuel n i recalc s = Ret b s' -> log_ok s'.
Proof.
  induction n as [|n IH]; intros i recalc s b s' N P L Lg E; cbn [Solver_Model.iterations] in E.
  - injection E as <- <-. exact Lg.
  - pose proof (iteration_sync k fuel i recalc s N P L Lg) as H.
    pose proof (iteration_spec vscale clamp xnorm pol bwd eiD eiF pb par k fuel i recalc s N P) as Sp.
    destruct (iteration k fuel i recalc s) as [s1 rc|b1 s1|]; [|injection E as <- <-; exact H|discriminate].
    destruct H as [H1 H2].
    destruct Sp as (es & acc & sp & p & d & _ & _ & (F1 & F2 & F3 & F4) & R1 & R2 & _).
    refine (IH (S i) rc s1 b s' N _ H1 H2 E).
    split; [exact (proj1 F1)|]. right. split; [exact F1|]. split; [exact F2|]. split.
    + intro Hr. destruct F4 as [(A & _)|(a & d0 & cb & A & _ & _ & _ & _ & D & _)]; [now destruct (R1 Hr)|exact D].
    + intro Hr. apply F3, R2, Hr.
Qed.

Lemma iterations_cost k fuel : forall n i recalc s b s',
  q_run pb <> [] -> pre pb i recalc s -> 0 < n \/ cost_ok pb s ->
  iterations k fuel n i recalc s = Ret b s' -> cost_ok pb s'.
Proof.
  induction n as [|n IH]; intros i recalc s b s' N P C E; cbn [Solver_Model.iterations] in E.
  - injection E as <- <-. destruct C as [C|C]; [lia|exact C].
  - pose proof (iteration_spec vscale clamp xnorm pol bwd eiD eiF pb par k fuel i recalc s N P) as Sp.
    destruct (iteration k fuel i recalc s) as [s1 rc|b1 s1|]; [|injection E as <- <-|discriminate].
    + destruct Sp as (es & acc & sp & p & d & _ & _ & (F1 & F2 & F3 & F4) & R1 & R2 & _).
      refine (IH (S i) rc s1 b s' N _ (or_intror F2) E).
      split; [exact (proj1 F1)|]. right. split; [exact F1|]. split; [exact F2|]. split.
      * intro Hr. destruct F4 as [(A & _)|(a & d0 & cb & A & _ & _ & _ & _ & D & _)]; [now destruct (R1 Hr)|exact D].
      * intro Hr. apply F3, R2, Hr.
    + destruct b1.
      * destruct Sp as (es & acc & sp & p & d & _ & _ & (F1 & F2 & _) & _). exact F2.
      * destruct Sp as (es & acc & _ & _ & (F1 & F2 & _) & _). exact F2.
Qed.
End Sync.
