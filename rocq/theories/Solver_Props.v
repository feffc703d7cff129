(** C12-C19 and C27: the main loops and forward passes of the DDP family. *)
From Coq Require Import QArith Qcanon Qabs List Bool Arith Lia Lqa.
From Verif Require Import Common XFloat XFloatFacts Params_Model Params_Spec
  Solver_Model Solver_Spec Solver_Proofs SolverLoop_Proofs SolverReg_Proofs.
Import ListNotations.
Local Open Scope nat_scope.

Section General.
Context {X U V G : Type}.
Variables (vscale : V -> xf -> V) (clamp : U -> U -> U -> U) (xnorm : X -> xf)
          (pol : G -> nat -> xf -> U -> V -> U)
          (bwd : list X -> list U -> list V -> bool -> xf -> option G)
          (eiD : G -> xf * xf) (eiF : G -> list X -> list V -> bool -> list X -> xf * xf)
          (pb : sproblem X U V) (par : params).
Notation st := (st X U V G).
Notation solve := (solve vscale clamp xnorm pol bwd eiD eiF pb par).
Notation forward := (forward vscale clamp xnorm pol pb).
Notation cost_of := (total_cost (q_term pb) (Fin 0) (q_run pb)).
Notation rollout := (follows (q_x0 pb) (q_run pb)).

(** A call of solve on a non-empty problem with a well-sized guess and allocated
    work arrays; a guess announced as feasible is one. *)
Definition good_call (xs : list X) (us : list U) (feas : bool) (s : st) : Prop :=
  q_run pb <> [] /\ sized (q_run pb) xs us /\ length (s_uo s) = length (q_run pb) /\
  (feas = true -> rollout xs us).

Lemma solve_final k fuel maxiter r xs us feas s b s' :
  good_call xs us feas s -> solve k fuel maxiter r xs us feas s = Ret b s' ->
  final_ok vscale clamp pb par k (cost_of xs us) feas us (gaps (q_x0 pb) (q_run pb) xs us) maxiter b s'.
Proof.
  intros (N & Sz & Lu & Hf) E.
  change maxiter with (0 + maxiter).
  eapply iterations_spec; [exact N| | | |exact E].
  - split; [split; [|split]; auto|]. left. auto.
  - split; [|split; auto]; [|constructor]. split; [|split; [|split; [|split; [|split]]]].
    + intros _ H. exact (Hf H).
    + intro H. discriminate.
    + constructor.
    + intro H. exact H.
    + intros _ _ _. cbn [start s_xs s_us s_log steps flat_map]. symmetry.
      rewrite <- (map_id (gaps _ _ _ _)) at 2. reflexivity.
    + intros _. left. reflexivity.
  - intros _ H. split; [exact H|]. split; [exact I|]. reflexivity.
Qed.

(** * C12 *)
Theorem C12_window k fuel maxiter r xs us feas s b s' :
  factors_ok par ->
  in_window par (if is_nan r then p_val par RegMin else r) ->
  solve k fuel maxiter r xs us feas s = Ret b s' ->
  s_preg s' = s_dreg s' /\ in_window par (s_preg s') /\
  Forall (reg_event_ok par) (s_log s').
Proof.
  intros F W E.
  pose proof (iterations_reg vscale clamp xnorm pol bwd eiD eiF pb par k fuel F maxiter 0 true
                (start pb par r xs us feas s)) as H.
  unfold Solver_Model.solve in E. rewrite E in H. apply H.
  split; [reflexivity|]. split; [exact W|constructor].
Qed.

Theorem C12_inverse q p : p_val par RegInc = Fin q -> p_val par RegDec = Fin q -> (1 < q)%Q ->
  (xle (p_val par RegMin) (Fin p) = true -> xle (xmul (Fin p) (Fin q)) (p_val par RegMax) = true ->
   xeq (dec_reg par (inc_reg par (Fin p))) (Fin p) = true) /\
  (xle (p_val par RegMin) (xdiv (Fin p) (Fin q)) = true -> xle (Fin p) (p_val par RegMax) = true ->
   xeq (inc_reg par (dec_reg par (Fin p))) (Fin p) = true).
Proof. intros E1 E2 Hq. split; intros; [eapply dec_inc|eapply inc_dec]; eauto. Qed.

(** * C14 *)
(** Every acceptance from a feasible candidate lowers the cost, unless the expected
    improvement is below th_grad; the cost reported at every callback is the total cost
    of the candidate. *)
Theorem C14_accepted_steps_partial k fuel maxiter r xs us feas s b s' :
  good_call xs us feas s -> positive (p_val par ThAcceptStep) ->
  solve k fuel maxiter r xs us feas s = Ret b s' ->
  Forall (fun e => match e with
    | EAccept true _ d0 before after =>
        xlt (xabs d0) (p_val par ThGrad) = true \/ xlt after before = true
    | ECall _ xs us _ _ cost _ _ _ => cost = cost_of xs us
    | _ => True end) (s_log s').
Proof.
  intros Hc Hp E. destruct (solve_final _ _ _ _ _ _ _ _ _ _ Hc E) as ((_ & _ & H & _) & _).
  eapply Forall_impl; [|exact H]. intros [p d|f a d0 b0 a0|i xs' us' f w c v p d]; simpl; auto.
  - intro H1. destruct f; auto. destruct (H1 Hp) as [?|[?|?]]; auto. discriminate.
  - intros (_ & H1 & _). exact H1.
Qed.

(** With th_grad = 0 the cost never increases. *)
Theorem C14_no_increase_partial k fuel maxiter r xs us s b s' :
  good_call xs us true s -> p_val par ThGrad = Fin 0 -> positive (p_val par ThAcceptStep) ->
  solve k fuel maxiter r xs us true s = Ret b s' ->
  descending (cost_of xs us) (call_costs (s_log s')) /\
  no_increase (hd (cost_of xs us) (call_costs (s_log s'))) (cost_of (s_xs s') (s_us s')).
Proof.
  intros Hc Hg Hp E. destruct (solve_final _ _ _ _ _ _ _ _ _ _ Hc E) as (_ & _ & _ & _ & _ & H).
  destruct (H (conj Hg Hp) eq_refl) as (_ & H1 & H2). auto.
Qed.

(** * C15 *)
Theorem C15_success k fuel maxiter r xs us feas s s' :
  good_call xs us feas s -> solve k fuel maxiter r xs us feas s = Ret true s' ->
  s_feas s' = true /\ last_accept_feasible (s_log s') /\
  xlt (s_stop s') (p_val par ThStop) = true /\
  s_stop s' = xabs (xadd (s_d0 s') (xmul (Fin (1 # 2)) (s_d1 s'))) /\
  (k <> BoxDDP \/ feas = true -> rollout (s_xs s') (s_us s')).
Proof.
  intros Hc E. destruct (solve_final _ _ _ _ _ _ _ _ _ _ Hc E) as ((F & W & _) & _ & _ & _ & H & _).
  destruct (H eq_refl) as (i & xs1 & us1 & f1 & w1 & c1 & v1 & p1 & d1 & l & L & Ns & -> & -> & -> & -> & -> & -> & Hw & Hs & He).
  destruct (W Hw) as [W1 W2]. repeat (split; [assumption|]). intro Hk. now apply F.
Qed.

(** false: the test never succeeded, and either maxiter callbacks have run or the
    regularization has reached its maximum. *)
Theorem C15_failure k fuel maxiter r xs us feas s s' :
  good_call xs us feas s -> solve k fuel maxiter r xs us feas s = Ret false s' ->
  Forall (fun e => match e with
    | ECall _ _ _ _ was _ stop _ _ => was = false \/ xlt stop (p_val par ThStop) = false
    | _ => True end) (s_log s') /\
  (length (calls (s_log s')) = maxiter \/
   length (calls (s_log s')) < maxiter /\ xeq (s_preg s') (p_val par RegMax) = true).
Proof.
  intros Hc E. destruct (solve_final _ _ _ _ _ _ _ _ _ _ Hc E) as (_ & _ & (j & Hj & Hm & _ & Hr) & H & _).
  split.
  - eapply Forall_impl; [|exact (H eq_refl)]. intros [| |i xs' us' f w c v p d]; simpl; auto.
    intro B. apply andb_false_iff in B. exact B.
  - rewrite Hj, rev_length, seq_length. exact (Hr eq_refl).
Qed.

(** * C16 *)
Theorem C16_callbacks k fuel maxiter r xs us feas s b s' :
  good_call xs us feas s -> solve k fuel maxiter r xs us feas s = Ret b s' ->
  exists j, rev (calls (s_log s')) = seq 0 j /\ j <= maxiter /\
    (b = true -> 0 < j) /\
    (b = false -> j = maxiter \/ j < maxiter /\ xeq (s_preg s') (p_val par RegMax) = true).
Proof.
  intros Hc E. destruct (solve_final _ _ _ _ _ _ _ _ _ _ Hc E) as (_ & _ & (j & Hj & Hm & Hb & Hr) & _).
  exists j. rewrite Hj, rev_involutive. auto.
Qed.

(** * C17 *)
Theorem C17_flag_sound_partial k fuel maxiter r xs us feas s b s' :
  good_call xs us feas s -> k <> BoxDDP \/ feas = true ->
  solve k fuel maxiter r xs us feas s = Ret b s' ->
  (s_feas s' = true -> rollout (s_xs s') (s_us s')) /\
  Forall (fun e => match e with
    | ECall _ xs us feas was _ _ _ _ =>
        (feas = true -> rollout xs us) /\ (was = true -> feas = true)
    | _ => True end) (s_log s').
Proof.
  intros Hc Hk E. destruct (solve_final _ _ _ _ _ _ _ _ _ _ Hc E) as ((F & W & H & _) & _).
  split; [exact (F Hk)|]. eapply Forall_impl; [|exact H].
  intros [| |i xs' us' f w c v p d]; simpl; auto. intros (H1 & _ & H2 & _). auto.
Qed.

(** * C18 *)
(** The algebra of gaps: moving a state by [v] changes the difference to it by [-v]. *)
Definition state_laws (vopp : V -> V) (a : xf) : Prop :=
  (forall m n x v, In m (q_run pb) -> In n (q_run pb) -> n_diff m (n_int n x v) x = vopp v) /\
  (forall m x v, In m (q_run pb) -> n_diff m (t_int (q_term pb) x v) x = vopp v) /\
  (forall f, vopp (vscale f (xsub a (Fin 1))) = vscale f (xsub (Fin 1) a)).

Lemma laws_gap vopp a : state_laws vopp a -> gap_law vscale (q_run pb) (q_term pb) a.
Proof.
  intros (L1 & L2 & L3) m x f Hm. split.
  - intros n Hn. rewrite L1; auto.
  - rewrite L2; auto.
Qed.

Theorem C18_gaps_contract k g a xt0 xs us uo ds dT vopp :
  k = FDDP \/ k = BoxFDDP ->
  q_run pb <> [] -> sized (q_run pb) xs us -> length uo = length (q_run pb) ->
  length ds = length (q_run pb) -> state_laws vopp a ->
  let fs := gaps (q_x0 pb) (q_run pb) xs us in
  let tr := forward k g a false xt0 xs us uo fs ds dT in
  f_ok tr = true -> xeq a (Fin 1) = false ->
  gaps (q_x0 pb) (q_run pb) (f_xs tr) (f_us tr) = map (fun f => vscale f (xsub (Fin 1) a)) fs.
Proof.
  intros Hk N Sz Lu Ld Law fs tr Ok Ha.
  assert (length fs = S (length (q_run pb))) as Lf.
  { unfold fs. rewrite <- (gap_list_evals pb xs us Sz). apply gap_list_len; auto; [apply Sz|].
    unfold evals. rewrite map_length, !combine_length. destruct Sz as [S1 S2]. lia. }
  eapply forward_gaps; eauto.
  - destruct Sz as [S1 S2]. unfold arrays. rewrite Lf. repeat split; auto; lia.
  - eapply laws_gap; eauto.
Qed.

Theorem C18_full_step_closes_gaps k g a feas xt0 xs us uo fs ds dT :
  k = FDDP \/ k = BoxFDDP ->
  arrays (q_run pb) xs us uo fs ds ->
  feas = true \/ xeq a (Fin 1) = true ->
  let tr := forward k g a feas xt0 xs us uo fs ds dT in
  f_ok tr = true -> rollout (f_xs tr) (f_us tr).
Proof.
  intros Hk Ar Ha tr Ok.
  pose proof (forward_full vscale clamp xnorm pol pb k g a feas xt0 xs us uo fs ds dT Ar (or_intror Ha) Ok) as H.
  destruct Hk as [->| ->]; exact H.
Qed.

(** Over a whole run: as long as the candidate is not flagged feasible, its gaps are the
    initial gaps multiplied by the product of [1 - a] over the accepted steps. *)
Theorem C18_run_gaps k fuel maxiter r xs us s b s' vopp :
  k = FDDP \/ k = BoxFDDP ->
  good_call xs us false s -> (forall a, In a (p_alphas par) -> state_laws vopp a) ->
  solve k fuel maxiter r xs us false s = Ret b s' ->
  s_feas s' = false ->
  gaps (q_x0 pb) (q_run pb) (s_xs s') (s_us s') =
  map (shrink vscale (steps (s_log s'))) (gaps (q_x0 pb) (q_run pb) xs us).
Proof.
  intros Hk Hc Law E Hf. destruct (solve_final _ _ _ _ _ _ _ _ _ _ Hc E) as ((_ & _ & _ & _ & H & _) & _).
  apply H; auto.
  - destruct Hk as [->| ->]; reflexivity.
  - intros a Ha. eapply laws_gap; eauto.
Qed.

(** * C19 *)
Theorem C19_trial_is_rollout g a feas xs us uo fs ds dT :
  arrays (q_run pb) xs us uo fs ds ->
  let tr := forward DDP g a feas (q_x0 pb) xs us uo fs ds dT in
  f_ok tr = true ->
  rollout (f_xs tr) (f_us tr) /\ f_cost tr = cost_of (f_xs tr) (f_us tr) /\ bad (f_cost tr) = false /\
  length (f_xs tr) = S (length (q_run pb)) /\ length (f_us tr) = length (q_run pb).
Proof.
  intros Ar tr Ok.
  destruct (forward_cost vscale clamp xnorm pol pb DDP g a feas (q_x0 pb) xs us uo fs ds dT Ar Ok) as (H1 & _ & _ & H2).
  destruct (forward_len vscale clamp xnorm pol pb DDP g a feas (q_x0 pb) xs us uo fs ds dT Ar) as (H3 & _ & H4).
  split; [exact (forward_full vscale clamp xnorm pol pb DDP g a feas (q_x0 pb) xs us uo fs ds dT Ar (or_introl eq_refl) Ok)|].
  auto.
Qed.

(** The controls of a trial are those of the policy. *)
Theorem C19_trial_controls g a feas xs us uo fs ds dT :
  arrays (q_run pb) xs us uo fs ds ->
  let tr := forward DDP g a feas (q_x0 pb) xs us uo fs ds dT in
  f_ok tr = true ->
  forall t n x u xt ut, nth_error (q_run pb) t = Some n -> n_u n = true ->
    nth_error xs t = Some x -> nth_error us t = Some u ->
    nth_error (f_xs tr) t = Some xt -> nth_error (f_us tr) t = Some ut ->
    ut = pol g t a u (n_diff n x xt).
Proof.
  intros Ar tr. unfold tr, Solver_Model.forward.
  destruct (_ || _); [discriminate|].
  match goal with |- context [fwd_loop ?A ?B ?C ?D ?gap ?box g ?a 0 ?st (Fin 0) ?N xs us uo fs ds] =>
    destruct (fwd_loop A B C D gap box g a 0 st (Fin 0) N xs us uo fs ds) as [[[[[rx ru] rd] xn] c] ok] eqn:E
  end.
  destruct ok; [|discriminate]. destruct (nth_error fs _); [|discriminate]. cbn [f_xs f_us].
  intros _ t n x u xt ut Hn Hu Hx Hus Hxt Hut.
  pose proof (fwd_loop_len vscale clamp xnorm pol false false g a (q_run pb) 0 (q_x0 pb) (Fin 0) xs us uo fs ds Ar) as L. rewrite E in L. destruct L as (_ & _ & L).
  specialize (L eq_refl).
  assert (t < length (q_run pb)) as Lt by (apply nth_error_Some; congruence).
  rewrite nth_error_app1 in Hxt by lia.
  assert (exists u0, nth_error uo t = Some u0) as [u0 H0].
  { destruct (nth_error uo t) eqn:E0; eauto. apply nth_error_None in E0. destruct Ar as (_ & _ & A & _). lia. }
  rewrite (fwd_loop_policy _ _ _ _ _ _ _ _ _ _ _ _ _ _ _ _ _ _ _ _ _ _ Ar E t n x u u0 xt ut); auto.
  unfold ctrl. rewrite Hu. reflexivity.
Qed.

(** Step length zero reproduces the trajectory and its cost. *)
Theorem C19_zero_step g feas xs us uo fs ds dT :
  arrays (q_run pb) xs us uo fs ds ->
  (forall t n x u, nth_error (q_run pb) t = Some n -> n_u n = true ->
     pol g t (Fin 0) u (n_diff n x x) = u) ->
  (forall t n, nth_error (q_run pb) t = Some n -> n_u n = false -> nth_error uo t = nth_error us t) ->
  rollout xs us ->
  let tr := forward DDP g (Fin 0) feas (q_x0 pb) xs us uo fs ds dT in
  f_ok tr = true -> f_xs tr = xs /\ f_us tr = us /\ f_cost tr = cost_of xs us.
Proof.
  intros Ar P Q F tr Ok.
  destruct (forward_cost vscale clamp xnorm pol pb DDP g (Fin 0) feas (q_x0 pb) xs us uo fs ds dT Ar Ok) as (H1 & _).
  fold tr in H1.
  assert (f_xs tr = xs /\ f_us tr = us) as [E1 E2]; [|rewrite H1, E1, E2; auto].
  clear H1. revert Ok. unfold tr, Solver_Model.forward.
  destruct (_ || _); [discriminate|].
  match goal with |- context [fwd_loop ?A ?B ?C ?D ?gap ?box g ?a 0 ?st (Fin 0) ?N xs us uo fs ds] =>
    destruct (fwd_loop A B C D gap box g a 0 st (Fin 0) N xs us uo fs ds) as [[[[[rx ru] rd] xn] c] ok] eqn:E
  end.
  destruct ok; [|discriminate]. destruct (nth_error fs _); [|discriminate]. cbn [f_xs f_us]. intros _.
  eapply fwd_loop_zero; [exact Ar| | |exact F|exact E].
  - intros i n x u. apply P.
  - intros i n u u0 Hn Hu E1 E2. rewrite (Q i n Hn Hu) in E2. congruence.
Qed.

Theorem C19_step_rejected k g a feas xt0 xs us uo fs ds dT :
  xlt (Fin 1) a = true \/ xlt a (Fin 0) = true ->
  f_ok (forward k g a feas xt0 xs us uo fs ds dT) = false.
Proof.
  intro H. unfold Solver_Model.forward.
  assert (xlt (Fin 1) a || xlt a (Fin 0) = true) as -> by (apply orb_true_iff; exact H). reflexivity.
Qed.
End General.

Print Assumptions C12_window.
Print Assumptions C12_inverse.
Print Assumptions C14_accepted_steps_partial.
Print Assumptions C14_no_increase_partial.
Print Assumptions C15_success.
Print Assumptions C15_failure.
Print Assumptions C16_callbacks.
Print Assumptions C17_flag_sound_partial.
Print Assumptions C18_gaps_contract.
Print Assumptions C18_full_step_closes_gaps.
Print Assumptions C18_run_gaps.
Print Assumptions C19_trial_is_rollout.
Print Assumptions C19_trial_controls.
Print Assumptions C19_zero_step.
Print Assumptions C19_step_rejected.
