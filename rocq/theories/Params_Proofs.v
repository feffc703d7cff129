From Coq Require Import QArith List Bool Sorted Lia.
From Verif Require Import Common XFloat Params_Model Params_Spec.
Import ListNotations.
Local Open Scope Q_scope.

Lemma key_beq_eq a b : key_beq a b = true <-> a = b.
Proof. split; [apply internal_key_dec_bl|apply internal_key_dec_lb]. Qed.

Lemma put_val k v p k' : p_val (put k v p) k' = if key_beq k k' then v else p_val p k'.
Proof. reflexivity. Qed.

Lemma negative_spec v : is_nan v = false -> negative v = false <-> nonneg v.
Proof.
  intro N. unfold negative, nonneg. rewrite (xle_not_lt (Fin 0) v) by auto.
  destruct (xlt v (Fin 0)); simpl; split; congruence.
Qed.
Lemma not_above1_spec v : is_nan v = false -> not_above1 v = false <-> above1 v.
Proof.
  intro N. unfold not_above1, above1. rewrite (xlt_not_le (Fin 1) v) by auto.
  destruct (xle v (Fin 1)); simpl; split; congruence.
Qed.
Lemma not_positive_spec v : is_nan v = false -> not_positive v = false <-> positive v.
Proof.
  intro N. unfold not_positive, positive. rewrite (xlt_not_le (Fin 0) v) by auto.
  destruct (xle v (Fin 0)); simpl; split; congruence.
Qed.
Lemma outside01_spec v : is_nan v = false -> outside01 v = false <-> unit_open v.
Proof.
  intro N. unfold outside01, unit_open.
  rewrite (xlt_not_le (Fin 0) v), (xlt_not_le (Fin 1) v) by auto.
  destruct (xle v (Fin 0)), (xle v (Fin 1)); simpl; split; intuition congruence.
Qed.
Lemma never05_false v : never05 v = false.
Proof.
  unfold never05. destruct v as [| | |q]; auto. simpl.
  destruct (Qle_bool q 0) eqn:E1; auto. simpl. apply Qle_bool_iff in E1.
  destruct (Qle_bool (1 # 2) q) eqn:E2; auto. apply Qle_bool_iff in E2.
  exfalso. assert ((1 # 2) <= 0) as H by (eapply Qle_trans; eauto). now apply H.
Qed.

Lemma alphas_loop_spec r : forall a,
  positive a -> Forall (fun v => is_nan v = false) r ->
  alphas_loop a r = true <-> alphas_ok (a :: r).
Proof.
  induction r as [|b r IH]; intros a Ha Hn; simpl.
  - split; auto. intros _. split; [discriminate|]. split; repeat constructor; auto.
  - inversion Hn as [|? ? Nb Nr]; subst.
    assert (is_nan a = false) as Na by (destruct a; auto; discriminate).
    destruct (xle b (Fin 0)) eqn:E1.
    { split; [discriminate|]. intros (_ & F & _). inversion F as [|? ? _ F']; subst.
      inversion F' as [|? ? Pb _]; subst. unfold positive in Pb.
      rewrite (xlt_not_le (Fin 0) b) in Pb by auto. rewrite E1 in Pb. discriminate. }
    destruct (xle a b) eqn:E2.
    { split; [discriminate|]. intros (_ & _ & S). inversion S as [|? ? _ F]; subst.
      inversion F as [|? ? H _]; subst. rewrite (xlt_not_le b a), E2 in H by auto. discriminate. }
    assert (positive b) as Pb.
    { unfold positive. rewrite (xlt_not_le (Fin 0) b) by auto. now rewrite E1. }
    assert (xlt b a = true) as L by (rewrite (xlt_not_le b a), E2 by auto; reflexivity).
    rewrite (IH b Pb Nr). split.
    + intros (_ & F & S). split; [discriminate|]. split; constructor; auto.
      constructor; auto. inversion S as [|? ? _ Fb]; subst.
      eapply Forall_impl; [|exact Fb]. intros c Hc. simpl in Hc. eapply xlt_trans; eauto.
    + intros (_ & F & S). inversion F; inversion S; subst. repeat split; auto. discriminate.
Qed.

Lemma pstep_throw c p p' : pstep c p = Throw p' -> p' = p.
Proof.
  destruct c; simpl; unfold guarded;
    repeat match goal with |- context [match ?l with [] => _ | _ => _ end] => destruct l end;
    try (destruct (_ : bool)); congruence.
Qed.

(** The state after an accepted call. *)
Definition after (c : pcall) (p : params) : params :=
  Params (p_val (fold_left (fun p kv => put (fst kv) (snd kv) p) (writes c) p))
         (match writes_alphas c with Some l => l | None => p_alphas p end)
         (match writes_qp_alphas c with Some l => l | None => p_qp_alphas p end).

Lemma pstep_ok c p p' : pstep c p = Ok p' tt -> p' = after c p.
Proof.
  destruct c; unfold after; simpl; unfold guarded;
    repeat match goal with |- context [match ?l with [] => _ | _ => _ end] => destruct l end;
    try (destruct (_ : bool)); intro H; try discriminate; injection H as <-; reflexivity.
Qed.

Lemma pstep_sane c p :
  sane c ->
  (args_ok c /\ pstep c p = Ok (after c p) tt) \/ (~ args_ok c /\ pstep c p = Throw p).
Proof.
  intros [S1 S2].
  assert (forall k v (bad : bool) new,
     writes c = [(k, v)] \/ writes c = [(k, v); (RegDec, v)] /\ k = RegInc ->
     writes_alphas c = None -> writes_qp_alphas c = None ->
     (is_nan v = false -> (bad = false <-> in_range k v)) -> new = after c p ->
     (args_ok c /\ guarded bad new p = Ok (after c p) tt) \/
     (~ args_ok c /\ guarded bad new p = Throw p)) as K.
  { intros k v bad new W A1 A2 B ->.
    assert (In (k, v) (writes c)) as Hin by (destruct W as [->|[-> _]]; simpl; auto).
    destruct (S1 k v Hin) as [N _]. specialize (B N).
    assert (args_ok c <-> in_range k v) as E.
    { unfold args_ok. rewrite A1, A2. split.
      - intros [H _]. auto.
      - intro H. split; [|intros l [|]; discriminate].
        intros k' v' Hin'. destruct W as [W|[W ->]]; rewrite W in Hin'; simpl in Hin'.
        + destruct Hin' as [Hin'|[]]. now injection Hin' as <- <-.
        + destruct Hin' as [Hin'|[Hin'|[]]]; injection Hin' as <- <-; auto. }
    rewrite E, <- B. unfold guarded. destruct bad; [right|left]; split; congruence. }
  assert (forall l new, (writes_alphas c = Some l \/ writes_qp_alphas c = Some l) -> writes c = [] ->
     (forall l', writes_alphas c = Some l' \/ writes_qp_alphas c = Some l' -> l' = l) ->
     new = after c p ->
     (args_ok c /\ match l with [] => UB | a :: r => guarded (negb (alphas_loop a r)) new p end = Ok (after c p) tt) \/
     (~ args_ok c /\ match l with [] => UB | a :: r => guarded (negb (alphas_loop a r)) new p end = Throw p)) as A.
  { intros l new W Wn U ->. destruct (S2 l W) as (a & r & -> & Pa & Nr).
    pose proof (alphas_loop_spec r a Pa Nr) as E.
    assert (args_ok c <-> alphas_ok (a :: r)) as E'.
    { unfold args_ok. rewrite Wn. split.
      - intros [_ H]. auto.
      - intro H. split; [simpl; tauto|]. intros l' W'. rewrite (U l' W'). auto. }
    rewrite E', <- E. unfold guarded. destruct (alphas_loop a r); [left|right]; split; simpl; congruence. }
  destruct c as [v|v|v|v|v|v|v|v|v|v|v|v|l|v|v|v|v|v|v|v|v|l]; cbn [pstep];
    try (eapply K; [left; reflexivity|reflexivity|reflexivity| |reflexivity]; intro N; cbn [in_range];
         first [apply negative_spec|apply not_above1_spec|apply not_positive_spec|apply outside01_spec]; exact N).
  - eapply K; [right; split; reflexivity|reflexivity|reflexivity| |reflexivity].
    intro N. now apply not_above1_spec.
  - apply A; auto; simpl; auto. intros l' [|]; congruence.
  - rewrite never05_false. simpl. destruct (S1 QpThAcceptStep v) as [_ R]; [now left|].
    left. split; auto. split; [|intros l [|]; discriminate].
    intros k' v' [Hin|[]]. injection Hin as <- <-. now apply R.
  - apply A; auto; simpl; auto. intros l' [|]; congruence.
Qed.

Lemma after_ok c p : args_ok c -> params_ok p -> params_ok (after c p).
Proof.
  intros [H1 H2] (P1 & P2 & P3). split; [|split].
  - cbn [after p_val]. assert (forall l q, (forall k, in_range k (p_val q k)) ->
      (forall k v, In (k, v) l -> in_range k v) ->
      forall k, in_range k (p_val (fold_left (fun p kv => put (fst kv) (snd kv) p) l q) k)) as G.
    { induction l as [|[k v] l IH]; simpl; auto. intros q Hq Hl. apply IH.
      - intro k'. cbn [fst snd p_val put]. destruct (key_beq k k') eqn:E; auto.
        apply key_beq_eq in E. subst. apply Hl. now left.
      - intros k' v' Hin. apply Hl. now right. }
    apply G; auto.
  - cbn [after p_alphas]. destruct (writes_alphas c) eqn:E; auto.
  - cbn [after p_qp_alphas]. destruct (writes_qp_alphas c) eqn:E; auto.
Qed.

Lemma prun_sane cs : forall p,
  params_ok p -> Forall sane cs -> exists p', prun cs p = Some p' /\ params_ok p'.
Proof.
  induction cs as [|c cs IH]; intros p P F; simpl; eauto. inversion F as [|? ? S F']; subst.
  destruct (pstep_sane c p S) as [[A E]|[A E]]; rewrite E; simpl; apply IH; auto.
  now apply after_ok.
Qed.

(** NaN included. *)
Definition in_range_or_nan (p : params) : Prop :=
  forall k, k <> QpThAcceptStep -> is_nan (p_val p k) = true \/ in_range k (p_val p k).

Lemma put_nan k v p :
  in_range_or_nan p -> (k <> QpThAcceptStep -> is_nan v = true \/ in_range k v) ->
  in_range_or_nan (put k v p).
Proof.
  intros P H k' N. rewrite put_val. destruct (key_beq k k') eqn:E; auto.
  apply key_beq_eq in E. subst. auto.
Qed.

Lemma pstep_nan c p p' :
  in_range_or_nan p -> out_state (pstep c p) = Some p' -> in_range_or_nan p'.
Proof.
  intros P E.
  assert (forall k v bad q, (is_nan v = false -> (bad = false <-> in_range k v)) ->
     in_range_or_nan q ->
     forall q', out_state (guarded bad (put k v q) p) = Some q' -> in_range_or_nan q') as K.
  { intros k v bad q B Q q' O. unfold guarded in O. destruct bad; injection O as <-; auto.
    apply put_nan; auto. intros _. destruct (is_nan v); auto. right. apply B; auto. }
  destruct c as [v|v|v|v|v|v|v|v|v|v|v|v|l|v|v|v|v|v|v|v|v|l]; cbn [pstep] in E;
    try (eapply K; [|exact P|exact E]; intro N; cbn [in_range];
         first [apply negative_spec|apply not_above1_spec|apply not_positive_spec|apply outside01_spec]; exact N).
  - unfold guarded in E. destruct (not_above1 v) eqn:B; injection E as <-; auto.
    assert (is_nan v = true \/ above1 v) as H.
    { destruct (is_nan v) eqn:N; auto. right. now apply not_above1_spec. }
    apply put_nan; auto. apply put_nan; auto.
  - destruct l as [|a r]; [discriminate|]. unfold guarded in E.
    destruct (negb _); injection E as <-; auto.
  - unfold guarded in E. destruct (never05 v); injection E as <-; auto.
    apply put_nan; auto.
  - destruct l as [|a r]; [discriminate|]. unfold guarded in E.
    destruct (negb _); injection E as <-; auto.
Qed.

Lemma prun_nan cs : forall p p',
  in_range_or_nan p -> prun cs p = Some p' -> in_range_or_nan p'.
Proof.
  induction cs as [|c cs IH]; simpl; intros p p' P E; [now injection E as <-|].
  destruct (out_state (pstep c p)) eqn:O; [|discriminate].
  eapply IH; [|exact E]. eapply pstep_nan; eauto.
Qed.

Lemma default_ok : params_ok default_params.
Proof.
  split; [|split].
  - intro k; destruct k; cbn; try split; reflexivity.
  - split; [discriminate|]. split; [repeat constructor|repeat constructor].
  - split; [discriminate|]. split; [repeat constructor|repeat constructor].
Qed.
