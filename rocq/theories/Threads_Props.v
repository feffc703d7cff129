(** C118: nodes with parts written in Python are evaluated by one thread (model: Threads_Model.v). *)
From Coq Require Import List Arith Bool Lia.
From Verif Require Import Threads_Model.
Import ListNotations.

Definition has_py (n : node) : Prop := exists p, In (Py p) n.
(** The running nodes are evaluated in parallel; the interpreter allows one thread. *)
Definition safe (p : prob) : Prop := (exists n, In n (p_run p) /\ has_py n) -> p_threads p = Some 1.

(** Events that turn the switch off: a Python state, or data for a Python part that has data of its own. *)
Definition switches (n : node) : Prop := exists p, In (Py p) n /\ p <> PConstraint /\ p <> PSquashing /\ p <> PState.
Definition turns_off (e : event) : Prop :=
  match e with
  | NewState => True
  | NewData n | SetNode _ _ n | Append _ n | SetTerm _ n => switches n
  | Build run term => exists n, In n (run ++ [term]) /\ switches n
  | _ => False
  end.
Definition mentions (e : event) (n : node) : Prop :=
  match e with
  | NewData m | SetNode _ _ m | Append _ m | SetTerm _ m => n = m
  | Build run term | BuildWith run term => In n (run ++ [term])
  | _ => False
  end.
Definition builds (e : event) : nat := match e with Build _ _ | BuildWith _ _ => 1 | _ => 0 end.
Definition built (es : list event) : nat := list_sum (map builds es).
(** The switch was turned off before the i-th problem was there (or while it was built). *)
Definition off_before (es : list event) (i : nat) : Prop :=
  exists l e r, es = l ++ e :: r /\ turns_off e /\ built l <= i.
(** Histories without code-generated actions and copies, in which Python nodes come after the switch
    is off: a problem given its datas after they were created, a node replaced by a Python one only in
    a problem built later than the first Python part. *)
Definition ok (l : list event) (e : event) : Prop :=
  (forall n, mentions e n -> ~ In Gen n) /\
  match e with
  | Build run term => forall n, In n run -> has_py n -> off_before (l ++ [e]) (built l)
  | BuildWith run term => forall n, In n run -> has_py n -> off_before l (built l)
  | SetNode i _ n | Append i n => has_py n -> off_before l i
  | CopyOf _ => False
  | _ => True
  end.
Definition proper (es : list event) : Prop := forall l e r, es = l ++ e :: r -> ok l e.

Lemma upd_nth {A} (f : A -> A) l : forall i k, nth_error (upd i f l) k = if i =? k then option_map f (nth_error l k) else nth_error l k.
Proof.
  induction l as [|a l IH]; intros [|i] [|k]; cbn; try reflexivity.
  - now destruct (i =? k).
  - apply IH.
Qed.
Lemma upd_length {A} (f : A -> A) l : forall i, length (upd i f l) = length l.
Proof. induction l as [|a l IH]; intros [|i]; cbn; auto. Qed.
Lemma upd_In {A} (f : A -> A) l : forall i a, In a (upd i f l) -> In a l \/ exists b, In b l /\ a = f b.
Proof.
  induction l as [|b l IH]; intros [|i] a; cbn; auto.
  - intros [<-|H]; eauto.
  - intros [<-|H]; [auto|]. destruct (IH i a H) as [K|(c & K & E)]; eauto.
Qed.
Lemma part_false c : c <> Gen -> part_data false c = false.
Proof. destruct c as [|p|]; [reflexivity|now destruct p|congruence]. Qed.
Lemma node_false n : ~ In Gen n -> node_data false n = false.
Proof.
  unfold node_data. induction n as [|c n IH]; intro H; [reflexivity|]. cbn [fold_left]. rewrite part_false.
  - apply IH. intro K. apply H. now right.
  - intros ->. apply H. now left.
Qed.
Lemma node_switch n : forall flag, ~ In Gen n -> switches n -> node_data flag n = false.
Proof.
  unfold node_data. induction n as [|c n IH]; intros flag H (p & I & P1 & P2 & P3); [contradiction|]. cbn [fold_left].
  assert (H' : ~ In Gen n) by (intro K; apply H; now right).
  destruct I as [->|I].
  - replace (part_data flag (Py p)) with false by (destruct p; cbn; congruence). now apply node_false.
  - apply IH; [exact H'|]. exists p. auto.
Qed.
Lemma nodes_false l : (forall n, In n l -> ~ In Gen n) -> fold_left node_data l false = false.
Proof.
  induction l as [|n l IH]; intro H; [reflexivity|]. cbn [fold_left]. rewrite node_false by (apply H; now left). apply IH. intros m K. apply H. now right.
Qed.
Lemma nodes_switch l : forall flag, (forall n, In n l -> ~ In Gen n) -> (exists n, In n l /\ switches n) -> fold_left node_data l flag = false.
Proof.
  induction l as [|n l IH]; intros flag H (m & I & K); [contradiction|]. cbn [fold_left].
  assert (H' : forall n, In n l -> ~ In Gen n) by (intros k L; apply H; now right).
  destruct I as [->|I].
  - rewrite node_switch; auto; [|apply H; now left]. now apply nodes_false.
  - apply IH; eauto.
Qed.
Lemma build_flag run term flag : (forall n, In n (run ++ [term]) -> ~ In Gen n) ->
  flag = false \/ (exists n, In n (run ++ [term]) /\ switches n) -> node_data (fold_left node_data run flag) term = false.
Proof.
  intros H K. change (node_data (fold_left node_data run flag) term) with (fold_left node_data [term] (fold_left node_data run flag)).
  rewrite <- fold_left_app. destruct K as [->|K]; [now apply nodes_false|now apply nodes_switch].
Qed.

Lemma built_app a b : built (a ++ b) = built a + built b.
Proof. unfold built. now rewrite map_app, list_sum_app. Qed.
Lemma off_mono es e i : off_before es i -> off_before (es ++ [e]) i.
Proof. intros (l & f & r & -> & T & L). exists l, f, (r ++ [e]). now rewrite <- app_assoc. Qed.
Lemma off_snoc es e i : off_before (es ++ [e]) i -> off_before es i \/ (turns_off e /\ built es <= i).
Proof.
  intros (l & f & r & E & T & L). destruct (exists_last (l := f :: r)) as (r' & g & E'); [discriminate|].
  rewrite E', app_assoc in E. apply app_inj_tail in E. destruct E as [-> ->]. destruct r' as [|h r'].
  - injection E' as -> _. right. split; auto. now rewrite app_nil_r.
  - injection E' as -> _. left. exists l, h, r'. auto.
Qed.

Section N.
Variable N : nat.
Record inv (es : list event) (w : world) : Prop := Inv {
  inv_len : length (w_probs w) = built es;
  inv_off : (exists e, In e es /\ turns_off e) -> w_flag w = false;
  inv_one : forall i p, nth_error (w_probs w) i = Some p -> off_before es i -> p_threads p = Some 1;
  inv_py : forall i p n, nth_error (w_probs w) i = Some p -> In n (p_run p) -> has_py n -> off_before es i }.
Lemma off_In es i : off_before es i -> exists e, In e es /\ turns_off e.
Proof. intros (l & e & r & -> & T & _). exists e. split; [apply in_elt|exact T]. Qed.

Lemma step_flag es w e : inv es w -> ok es e -> (exists f, In f (es ++ [e]) /\ turns_off f) -> w_flag (step N w e) = false.
Proof.
  intros I [G K] (f & Hf & T).
  assert (C : w_flag w = false \/ turns_off e).
  { apply in_app_or in Hf. destruct Hf as [Hf|[->|[]]]; [left; apply (inv_off _ _ I); eauto|now right]. }
  destruct e as [|n|run term|run term|i|i k|i j n|i n|i n]; cbn [step w_flag turns_off mentions] in *.
  - reflexivity.
  - destruct C as [->|C]; [apply node_false; now apply G|apply node_switch; auto].
  - apply build_flag; auto.
  - tauto.
  - contradiction.
  - tauto.
  - destruct C as [->|C]; [apply node_false; now apply G|apply node_switch; auto].
  - destruct C as [->|C]; [apply node_false; now apply G|apply node_switch; auto].
  - destruct C as [->|C]; [apply node_false; now apply G|apply node_switch; auto].
Qed.

(** the problems of the world before and after, when none is added *)
Lemma keep es w e w' : inv es w -> ok es e -> builds e = 0 -> w' = step N w e ->
  length (w_probs w') = length (w_probs w) ->
  (forall i p, nth_error (w_probs w') i = Some p -> exists q, nth_error (w_probs w) i = Some q /\
     (p_threads p = p_threads q \/ (w_flag w = false -> p_threads p = Some 1)) /\
     (forall n, In n (p_run p) -> In n (p_run q) \/ (has_py n -> off_before es i))) ->
  inv (es ++ [e]) w'.
Proof.
  intros I K B -> L H. split.
  - rewrite L, (inv_len _ _ I), built_app. unfold built at 3. cbn. lia.
  - apply (step_flag es w e I K).
  - intros i p E O. destruct (H i p E) as (q & Eq & T & _).
    assert (O' : off_before es i).
    { apply off_snoc in O. destruct O as [O|[_ O]]; [exact O|]. exfalso.
      assert (i < length (w_probs w)) by (apply nth_error_Some; congruence). rewrite (inv_len _ _ I) in H0. lia. }
    destruct T as [->|T]; [exact (inv_one _ _ I i q Eq O')|]. apply T. apply (inv_off _ _ I). exact (off_In _ _ O').
  - intros i p n E M P. destruct (H i p E) as (q & Eq & _ & R). apply off_mono.
    destruct (R n M) as [M'|O]; [exact (inv_py _ _ I i q n Eq M' P)|auto].
Qed.
Lemma same es w e : inv es w -> ok es e -> builds e = 0 -> w_probs (step N w e) = w_probs w -> inv (es ++ [e]) (step N w e).
Proof.
  intros I K B E. apply (keep es w e); auto; rewrite E; auto. intros i p H. exists p. split; [exact H|split; [now left|auto]].
Qed.
Lemma inv_step es w e : inv es w -> ok es e -> inv (es ++ [e]) (step N w e).
Proof.
  intros I K. pose proof K as [G K2]. destruct e as [|n|run term|run term|i|i k|i j n|i n|i n].
  - apply same; auto.
  - apply same; auto.
  - (* Build *)
    pose proof (step_flag es w (Build run term) I K) as F. cbn [step w_flag] in F.
    set (flag' := node_data (fold_left node_data run (w_flag w)) term) in *.
    assert (EW : step N w (Build run term) = World flag' (w_probs w ++ [Prob run term (threads N flag')])) by reflexivity.
    rewrite EW. split; cbn [w_probs w_flag].
    + rewrite app_length, (inv_len _ _ I), built_app. reflexivity.
    + exact F.
    + intros i p E O. assert (C : i < length (w_probs w) \/ i = length (w_probs w)).
      { assert (H : i < length (w_probs w ++ [Prob run term (threads N flag')])) by (apply nth_error_Some; congruence).
        rewrite app_length in H. cbn in H. lia. }
      destruct C as [C| ->].
      * rewrite nth_error_app1 in E by exact C. apply off_snoc in O. destruct O as [O|[_ O]]; [exact (inv_one _ _ I i p E O)|].
        rewrite (inv_len _ _ I) in C. lia.
      * rewrite nth_error_app2, Nat.sub_diag in E by lia. injection E as <-. cbn [p_threads]. unfold threads.
        rewrite F by exact (off_In _ _ O). reflexivity.
    + intros i p n E M P. assert (C : i < length (w_probs w) \/ i = length (w_probs w)).
      { assert (H : i < length (w_probs w ++ [Prob run term (threads N flag')])) by (apply nth_error_Some; congruence).
        rewrite app_length in H. cbn in H. lia. }
      destruct C as [C| ->].
      * rewrite nth_error_app1 in E by exact C. apply off_mono. exact (inv_py _ _ I i p n E M P).
      * rewrite nth_error_app2, Nat.sub_diag in E by lia. injection E as <-. rewrite (inv_len _ _ I). exact (K2 n M P).
  - (* BuildWith *)
    pose proof (step_flag es w (BuildWith run term) I K) as F. cbn [step w_flag] in F.
    assert (EW : step N w (BuildWith run term) = World (w_flag w) (w_probs w ++ [Prob run term (threads N (w_flag w))])) by reflexivity.
    rewrite EW. split; cbn [w_probs w_flag].
    + rewrite app_length, (inv_len _ _ I), built_app. reflexivity.
    + exact F.
    + intros i p E O. assert (C : i < length (w_probs w) \/ i = length (w_probs w)).
      { assert (H : i < length (w_probs w ++ [Prob run term (threads N (w_flag w))])) by (apply nth_error_Some; congruence).
        rewrite app_length in H. cbn in H. lia. }
      destruct C as [C| ->].
      * rewrite nth_error_app1 in E by exact C. apply off_snoc in O. destruct O as [O|[_ O]]; [exact (inv_one _ _ I i p E O)|].
        rewrite (inv_len _ _ I) in C. lia.
      * rewrite nth_error_app2, Nat.sub_diag in E by lia. injection E as <-. cbn [p_threads]. unfold threads.
        rewrite F by exact (off_In _ _ O). reflexivity.
    + intros i p n E M P. assert (C : i < length (w_probs w) \/ i = length (w_probs w)).
      { assert (H : i < length (w_probs w ++ [Prob run term (threads N (w_flag w))])) by (apply nth_error_Some; congruence).
        rewrite app_length in H. cbn in H. lia. }
      destruct C as [C| ->].
      * rewrite nth_error_app1 in E by exact C. apply off_mono. exact (inv_py _ _ I i p n E M P).
      * rewrite nth_error_app2, Nat.sub_diag in E by lia. injection E as <-. rewrite (inv_len _ _ I). apply off_mono. exact (K2 n M P).
  - contradiction.
  - (* SetThreads *)
    apply (keep es w (SetThreads i k)); auto; cbn [step w_probs]; [now rewrite upd_length|].
    intros a p E. rewrite upd_nth in E. destruct (Nat.eqb_spec i a) as [->|n].
    + destruct (nth_error (w_probs w) a) as [q|]; [|discriminate]. injection E as <-. exists q. split; [reflexivity|].
      cbn [p_threads p_run]. split; [right; now intros ->|auto].
    + exists p. auto.
  - (* SetNode *)
    apply (keep es w (SetNode i j n)); auto; cbn [step w_probs]; [now rewrite upd_length|].
    intros a p E. rewrite upd_nth in E. destruct (Nat.eqb_spec i a) as [->|d].
    + destruct (nth_error (w_probs w) a) as [q|]; [|discriminate]. injection E as <-. exists q. split; [reflexivity|].
      cbn [p_threads p_run]. split; [now left|]. intros m M. destruct (upd_In _ _ _ _ M) as [M'|(b & _ & ->)]; auto.
    + exists p. auto.
  - (* Append *)
    apply (keep es w (Append i n)); auto; cbn [step w_probs]; [now rewrite upd_length|].
    intros a p E. rewrite upd_nth in E. destruct (Nat.eqb_spec i a) as [->|d].
    + destruct (nth_error (w_probs w) a) as [q|]; [|discriminate]. injection E as <-. exists q. split; [reflexivity|].
      cbn [p_threads p_run]. split; [now left|]. intros m M. apply in_app_or in M. destruct M as [M|[<-|[]]]; [|auto].
      left. destruct (p_run q); [contradiction|now right].
    + exists p. auto.
  - (* SetTerm *)
    apply (keep es w (SetTerm i n)); auto; cbn [step w_probs]; [now rewrite upd_length|].
    intros a p E. rewrite upd_nth in E. destruct (Nat.eqb_spec i a) as [->|d].
    + destruct (nth_error (w_probs w) a) as [q|]; [|discriminate]. injection E as <-. exists q. split; [reflexivity|].
      cbn [p_threads p_run]. split; [now left|auto].
    + exists p. auto.
Qed.
Lemma run_inv es : proper es -> inv es (run N start es).
Proof.
  induction es as [|e es IH] using rev_ind; intro P.
  - split; cbn; [reflexivity|intros (e & [] & _)| |]; intros [|i] p; discriminate.
  - unfold run. rewrite fold_left_app. cbn [fold_left]. apply inv_step.
    + apply IH. intros l f r ->. apply (P l f (r ++ [e])). now rewrite <- app_assoc.
    + now apply (P es e []).
Qed.
Theorem C118_one_thread_partial es : proper es -> Forall safe (w_probs (run N start es)).
Proof.
  intro P. pose proof (run_inv es P) as I. apply Forall_forall. intros p M. destruct (In_nth_error _ _ M) as (i & E).
  intros (n & Hn & Py). apply (inv_one _ _ I i p E). exact (inv_py _ _ I i p n E Hn Py).
Qed.

(** Without anything written in Python, a problem gets all the threads. *)
Lemma node_true n : ~ has_py n -> node_data true n = true.
Proof.
  unfold node_data. induction n as [|c n IH]; intro H; [reflexivity|]. cbn [fold_left]. destruct c as [|p|]; cbn [part_data].
  - apply IH. intros (p & K). apply H. exists p. now right.
  - exfalso. apply H. exists p. now left.
  - apply IH. intros (p & K). apply H. exists p. now right.
Qed.
Lemma nodes_true l : (forall n, In n l -> ~ has_py n) -> fold_left node_data l true = true.
Proof.
  induction l as [|n l IH]; intro H; [reflexivity|]. cbn [fold_left]. rewrite node_true by (apply H; now left). apply IH. intros m K. apply H. now right.
Qed.
Definition no_python (es : list event) : Prop := forall e, In e es -> e <> NewState /\ forall n, mentions e n -> ~ has_py n.
Lemma flag_true es : no_python es -> w_flag (run N start es) = true.
Proof.
  intro H. induction es as [|e es IH] using rev_ind; [reflexivity|].
  unfold run. rewrite fold_left_app. cbn [fold_left]. fold (run N start es).
  specialize (IH (fun f M => H f (in_or_app _ _ _ (or_introl M)))).
  destruct (H e) as [Q1 Q2]; [apply in_elt|]. clear H.
  destruct e as [|n|r t|r t|i|i k|i j n|i n|i n]; cbn [step w_flag mentions] in *; rewrite ?IH; try reflexivity; try congruence.
  - now apply node_true, Q2.
  - rewrite nodes_true by (intros m M; apply Q2, in_or_app; now left). apply node_true, Q2, in_elt.
  - now destruct (nth_error (w_probs (run N start es)) i).
  - now apply node_true, Q2.
  - now apply node_true, Q2.
  - now apply node_true, Q2.
Qed.
Theorem C118_all_threads es nodes term : no_python (es ++ [Build nodes term]) ->
  exists ps, w_probs (run N start (es ++ [Build nodes term])) = ps ++ [Prob nodes term (Some N)].
Proof.
  intro H. assert (F : w_flag (run N start es) = true).
  { apply flag_true. intros e M. apply H. apply in_or_app. now left. }
  unfold run. rewrite fold_left_app. cbn [fold_left]. fold (run N start es). cbn [step w_probs]. rewrite F.
  destruct (H (Build nodes term)) as [_ Q]; [apply in_elt|]. cbn [mentions] in Q.
  rewrite nodes_true by (intros m M; apply Q, in_or_app; now left). rewrite node_true by apply Q, in_elt. eexists. reflexivity.
Qed.
(** set_nthreads gives the number asked for (all threads for a number below one) when nothing is
    written in Python, and changes nothing else. *)
Theorem C118_set_threads es i k p : no_python es -> nth_error (w_probs (run N start es)) i = Some p ->
  let q := w_probs (run N start (es ++ [SetThreads i k])) in
  nth_error q i = Some (Prob (p_run p) (p_term p) (Some (match k with 0 => N | _ => k end))) /\
  length q = length (w_probs (run N start es)) /\
  forall j, j <> i -> nth_error q j = nth_error (w_probs (run N start es)) j.
Proof.
  intros P E. cbv zeta. unfold run. rewrite fold_left_app. cbn [fold_left]. fold (run N start es). cbn [step w_probs].
  rewrite upd_nth, Nat.eqb_refl, E, flag_true by exact P. split; [|split].
  - cbn [option_map]. now destruct k.
  - apply upd_length.
  - intros j H. rewrite upd_nth. now destruct (Nat.eqb_spec i j); [congruence|].
Qed.
(** Once something written in Python has switched it off, set_nthreads gives one. *)
Theorem C118_set_partial es i k p : proper es -> nth_error (w_probs (run N start es)) i = Some p -> (exists e, In e es /\ turns_off e) ->
  exists q, nth_error (w_probs (run N start (es ++ [SetThreads i k]))) i = Some q /\ p_run q = p_run p /\ p_term q = p_term p /\
    p_threads q = Some 1.
Proof.
  intros P E T. unfold run. rewrite fold_left_app. cbn [fold_left]. fold (run N start es). cbn [step w_probs].
  rewrite upd_nth, Nat.eqb_refl, E. eexists. split; [reflexivity|]. cbn. now rewrite (inv_off _ _ (run_inv es P) T).
Qed.
End N.

(** ** Refuted, with more than one thread *)
(** A Python constraint (or squashing) in nodes otherwise written in C++. *)
Theorem C118_constraint_refuted : forall N, N <> 1 ->
  ~ Forall safe (w_probs (run N start [Build [[Cpp; Py PConstraint]; [Cpp; Py PConstraint]] [Cpp]])) /\
  ~ Forall safe (w_probs (run N start [Build [[Cpp; Py PSquashing]; [Cpp; Py PSquashing]] [Cpp]])).
Proof.
  intros N H. split; intro F; inversion F as [|p l S _]; subst; unfold safe in S; cbn in S.
  - assert (Some N = Some 1); [|congruence]. apply S. exists [Cpp; Py PConstraint]. split; [now left|]. exists PConstraint. right. now left.
  - assert (Some N = Some 1); [|congruence]. apply S. exists [Cpp; Py PSquashing]. split; [now left|]. exists PSquashing. right. now left.
Qed.
(** A code-generated node after Python nodes. *)
Theorem C118_codegen_refuted : forall N, N <> 1 ->
  ~ Forall safe (w_probs (run N start [Build [[Py PAction]; [Py PAction]] [Gen]])).
Proof.
  intros N H F; inversion F as [|p l S _]; subst; unfold safe in S; cbn in S.
  assert (Some N = Some 1); [|congruence]. apply S. exists [Py PAction]. split; [now left|]. exists PAction. now left.
Qed.
(** Python nodes put in a problem built of C++ nodes. *)
Theorem C118_replaced_refuted : forall N, N <> 1 ->
  ~ Forall safe (w_probs (run N start [Build [[Cpp]; [Cpp]] [Cpp]; SetNode 0 0 [Py PAction]; Append 0 [Py PAction]])).
Proof.
  intros N H F; inversion F as [|p l S _]; subst; unfold safe in S; cbn in S.
  assert (Some N = Some 1); [|congruence]. apply S. exists [Py PAction]. split; [right; now left|]. exists PAction. now left.
Qed.
(** A copy of a problem does not have a number of threads at all. *)
Theorem C118_copy_refuted : forall N, exists p q,
  w_probs (run N start [Build [[Py PAction]; [Py PAction]] [Py PAction]; CopyOf 0]) = [p; q] /\ p_threads p = Some 1 /\ p_threads q = None /\ ~ safe q.
Proof.
  intro N. eexists _, _. split; [reflexivity|split; [reflexivity|split; [reflexivity|]]]. intro S. unfold safe in S. cbn in S.
  assert (None = Some 1); [|discriminate]. apply S. exists [Py PAction]. split; [now left|]. exists PAction. now left.
Qed.

(** A history meeting the hypotheses of C118_one_thread_partial, with nodes replaced by Python nodes. *)
Definition ex_history : list event :=
  [Build [[Cpp]; [Cpp]] [Cpp]; Build [[Py PDiff; Py PConstraint; Cpp]; [Cpp]] [Cpp]; SetNode 1 1 [Py PAction]; SetThreads 0 4; SetThreads 1 4].
Example ex_proper : proper ex_history.
Proof.
  intros l e r E. unfold ex_history in E.
  destruct l as [|a l]; cbn in E; injection E as <- E.
  { split; [intros n [<-|[<-|[<-|[]]]] [|[]]; discriminate|]. intros n [<-|[<-|[]]] (p & [|[]]); discriminate. }
  destruct l as [|b l]; cbn in E; injection E as <- E.
  { split.
    - intros n [<-|[<-|[<-|[]]]] K; cbn in K; intuition discriminate.
    - intros n _ _. exists [Build [[Cpp]; [Cpp]] [Cpp]], (Build [[Py PDiff; Py PConstraint; Cpp]; [Cpp]] [Cpp]), [].
      split; [reflexivity|split; [|cbn; lia]]. exists [Py PDiff; Py PConstraint; Cpp]. split; [now left|].
      exists PDiff. split; [now left|]. repeat split; discriminate. }
  destruct l as [|c l]; cbn in E; injection E as <- E.
  { split.
    - intros n -> [|[]]; discriminate.
    - intros _. exists [Build [[Cpp]; [Cpp]] [Cpp]], (Build [[Py PDiff; Py PConstraint; Cpp]; [Cpp]] [Cpp]), [].
      split; [reflexivity|split; [|cbn; lia]]. exists [Py PDiff; Py PConstraint; Cpp]. split; [now left|].
      exists PDiff. split; [now left|]. repeat split; discriminate. }
  destruct l as [|d l]; cbn in E; injection E as <- E.
  { split; [intros n []|exact I]. }
  destruct l as [|f l]; cbn in E; [|destruct l; discriminate]. injection E as <- E.
  split; [intros n []|exact I].
Qed.
Example ex_result : map p_threads (w_probs (run 8 start ex_history)) = [Some 1; Some 1] /\
  map p_threads (w_probs (run 8 start (firstn 3 ex_history))) = [Some 8; Some 1].
Proof. now split. Qed.

Print Assumptions C118_one_thread_partial.
Print Assumptions C118_all_threads.
Print Assumptions C118_set_partial.
Print Assumptions C118_set_threads.
Print Assumptions C118_constraint_refuted.
Print Assumptions C118_codegen_refuted.
Print Assumptions C118_replaced_refuted.
Print Assumptions C118_copy_refuted.
