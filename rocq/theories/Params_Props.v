(** C11: solver parameters stay in their announced ranges. *)
From Coq Require Import QArith List Bool Sorted.
From Verif Require Import Common XFloat Params_Model Params_Spec Params_Proofs.
Import ListNotations.
Local Open Scope Q_scope.

(** The defaults are in range. *)
Theorem C11_defaults : params_ok default_params.
Proof. exact default_ok. Qed.
Print Assumptions C11_defaults.

(** The property as stated ranges over NaN too, and fails there: a NaN regularization
    factor is stored. *)
Theorem C11_nan_refuted :
  exists c p, pstep c default_params = Ok p tt /\ ~ in_range RegInc (p_val p RegInc).
Proof. exists (SetRegInc NaN). eexists. split; [reflexivity|]. cbn. discriminate. Qed.
Print Assumptions C11_nan_refuted.

(** The QP acceptance threshold is never rejected, whatever its value. *)
Theorem C11_qp_threshold_refuted :
  forall v p, pstep (SetQpThAcceptStep v) p = Ok (put QpThAcceptStep v p) tt.
Proof. intros v p. cbn [pstep]. now rewrite never05_false. Qed.
Print Assumptions C11_qp_threshold_refuted.

(** The first step length is not checked, and an empty list is read out of bounds. *)
Theorem C11_alphas_refuted :
  (exists l p, pstep (SetAlphas l) default_params = Ok p tt /\ ~ alphas_ok (p_alphas p)) /\
  pstep (SetAlphas []) default_params = UB.
Proof.
  split; [|reflexivity]. exists [Fin (-(1))]. eexists. split; [reflexivity|].
  intros (_ & F & _). inversion F as [|? ? H _]. discriminate H.
Qed.
Print Assumptions C11_alphas_refuted.

(** A rejected call changes nothing: every call, every argument. *)
Theorem C11_rejected_call_changes_nothing :
  forall c p p', pstep c p = Throw p' -> p' = p.
Proof. exact pstep_throw. Qed.
Print Assumptions C11_rejected_call_changes_nothing.

(** Without NaN (and with a positive first step length, and a QP threshold in range) a
    call is accepted exactly when its arguments are in range; it then writes exactly
    these parameters, and is rejected without effect otherwise. *)
Theorem C11_accept_iff_in_range_partial :
  forall c p, sane c ->
  (args_ok c /\ exists p', pstep c p = Ok p' tt /\
     (forall k v, In (k, v) (writes c) -> p_val p' k = v) /\
     (forall k, (forall v, ~ In (k, v) (writes c)) -> p_val p' k = p_val p k) /\
     p_alphas p' = match writes_alphas c with Some l => l | None => p_alphas p end /\
     p_qp_alphas p' = match writes_qp_alphas c with Some l => l | None => p_qp_alphas p end) \/
  (~ args_ok c /\ pstep c p = Throw p).
Proof.
  intros c p S. destruct (pstep_sane c p S) as [[A E]|[A E]]; [left|right; auto].
  split; auto. exists (after c p). split; auto. split; [|split; [|split; reflexivity]].
  - intros k v Hin. unfold after. destruct c; simpl in Hin;
      repeat (destruct Hin as [Hin|Hin]; [injection Hin as <- <-; reflexivity|]); contradiction.
  - intros k N. unfold after. destruct c; cbn [writes fold_left p_val fst snd put] in *; auto;
      repeat match goal with |- context [key_beq ?a k] => destruct (key_beq a k) eqn:? end; auto;
      match goal with H : key_beq _ k = true |- _ => apply key_beq_eq in H; subst end;
      exfalso; eapply N; simpl; eauto.
Qed.
Print Assumptions C11_accept_iff_in_range_partial.

(** Hence all parameters stay in range along every such history. *)
Theorem C11_histories_in_range_partial :
  forall cs, Forall sane cs -> exists p, prun cs default_params = Some p /\ params_ok p.
Proof. intros cs F. apply prun_sane; auto. apply default_ok. Qed.
Print Assumptions C11_histories_in_range_partial.

(** Any history whatsoever: each scalar parameter but the QP threshold is in range or NaN. *)
Theorem C11_in_range_or_nan :
  forall cs p k, prun cs default_params = Some p -> k <> QpThAcceptStep ->
  is_nan (p_val p k) = true \/ in_range k (p_val p k).
Proof.
  intros cs p k E N. revert k N. apply (prun_nan cs default_params); auto.
  intros k _. right. apply default_ok.
Qed.
Print Assumptions C11_in_range_or_nan.

Example C11_sample :
  sane (SetAlphas [Fin 1; Fin (1 # 3)]) /\ sane (SetRegFactor PInf) /\ sane (SetThStop (Fin 0)) /\
  pstep (SetThStop (Fin 0)) default_params = Throw default_params /\
  option_map p_alphas (prun [SetThStop (Fin 0); SetAlphas [Fin 1; Fin (1 # 3)]; SetAlphas [Fin 1; Fin 1]]
                            default_params) = Some [Fin 1; Fin (1 # 3)].
Proof.
  split; [|split; [|split; [|split; reflexivity]]].
  - split; [intros k v []|]. intros l [H|H]; [injection H as <-|discriminate H].
    exists (Fin 1), [Fin (1 # 3)]. split; [reflexivity|]. split; [reflexivity|]. now constructor.
  - split; [|intros l [H|H]; discriminate H].
    intros k v Hin. simpl in Hin. 
    repeat (destruct Hin as [Hin|Hin];
      [injection Hin as <- <-; split; [reflexivity|discriminate]|]); contradiction.
  - split; [|intros l [H|H]; discriminate H].
    intros k v Hin. simpl in Hin. 
    repeat (destruct Hin as [Hin|Hin];
      [injection Hin as <- <-; split; [reflexivity|discriminate]|]); contradiction.
Qed.
