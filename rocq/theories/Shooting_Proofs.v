(** Proofs about the shooting problem. *)
From Coq Require Import List Arith Bool Lia Permutation.
From Verif Require Import Common Shooting_Model Shooting_Spec.
Import ListNotations.

(** ** Vectors *)
Lemma lset_Some {A} (l : list A) i a :
  i < length l -> lset l i a = Some (firstn i l ++ a :: skipn (S i) l).
Proof.
  revert i. induction l as [|x l IH]; intros [|i] H; simpl in *; try lia; auto.
  rewrite IH by lia. reflexivity.
Qed.

Lemma lset_length {A} (l l' : list A) i a : lset l i a = Some l' -> length l' = length l.
Proof.
  revert i l'. induction l as [|x l IH]; intros [|i] l' H; simpl in *; try discriminate.
  - injection H as <-. reflexivity.
  - destruct (lset l i a) eqn:E; [|discriminate]. injection H as <-. simpl. f_equal. eauto.
Qed.

Lemma lset_In {A} (l l' : list A) i a x : lset l i a = Some l' -> In x l' -> x = a \/ In x l.
Proof.
  revert i l'. induction l as [|y l IH]; intros [|i] l' H Hx; simpl in *; try discriminate.
  - injection H as <-. destruct Hx; auto.
  - destruct (lset l i a) eqn:E; [|discriminate]. injection H as <-.
    destruct Hx as [->|Hx]; auto. destruct (IH _ _ E Hx); auto.
Qed.

Lemma last_cons_default {A} (l : list A) a d d' : last (a :: l) d = last (a :: l) d'.
Proof. revert a. induction l as [|b l IH]; intro a; auto. apply (IH b). Qed.

(** The shift loop moves everything one place to the left; the last cell keeps its
    value. *)
Lemma shift_loop_spec {A} n : forall (pre : list A) (y : A) (l : list A),
  length l = n ->
  shift_loop n (length pre) (pre ++ y :: l) =
  Some (pre ++ l ++ [last l y]).
Proof.
  induction n as [|n IH]; intros pre y l Hl.
  - destruct l; [|discriminate]. reflexivity.
  - destruct l as [|z l]; [discriminate|]. simpl in Hl. injection Hl as Hl.
    cbn [shift_loop]. rewrite nth_error_app2 by lia.
    replace (length pre + 1 - length pre) with 1 by lia. cbn [nth_error].
    rewrite lset_Some by (rewrite app_length; simpl; lia).
    rewrite firstn_app, firstn_all, Nat.sub_diag, firstn_O, app_nil_r.
    replace (S (length pre)) with (length pre + 1) by lia.
    rewrite skipn_app, skipn_all2 by lia. replace (length pre + 1 - length pre) with 1 by lia.
    cbn [skipn app]. replace (length pre + 1) with (length (pre ++ [z])) by (rewrite app_length; reflexivity).
    replace (pre ++ z :: z :: l) with ((pre ++ [z]) ++ z :: l) by now rewrite <- app_assoc.
    rewrite IH by auto.
    assert (last (z :: l) y = last l z) as -> by (destruct l as [|a l]; auto; exact (last_cons_default l a y z)).
    rewrite <- app_assoc. reflexivity.
Qed.

Lemma set_back_spec {A} (l : list A) (y a : A) : set_back (l ++ [y]) a = Some (l ++ [a]).
Proof.
  unfold set_back. destruct (l ++ [y]) eqn:E; [destruct l; discriminate|]. rewrite <- E.
  rewrite app_length. simpl. replace (length l + 1 - 1) with (length l) by lia.
  rewrite lset_Some by (rewrite app_length; simpl; lia).
  rewrite firstn_app, firstn_all, Nat.sub_diag, firstn_O, app_nil_r.
  rewrite skipn_all2 by (rewrite app_length; simpl; lia). reflexivity.
Qed.

Section Shooting.
Context {M D X : Type}.
Context (nx ndx : M -> nat) (check_data : M -> D -> bool) (create_data : M -> D) (xsize : X -> nat).
Notation problem := (problem M D X).
Notation dims_ok := (dims_ok nx ndx).
Notation apply_edit := (apply_edit nx ndx check_data create_data xsize).
Notation run_edits := (run_edits nx ndx check_data create_data xsize).
Notation run_calls := (run_calls nx ndx check_data create_data xsize).
Notation mk_problem := (mk_problem nx ndx create_data xsize).
Notation mk_problem_datas := (mk_problem_datas nx ndx check_data xsize).
Notation shaped := (shaped nx ndx xsize).
Notation accepted := (accepted nx ndx check_data xsize).
Notation modifies := (modifies nx ndx check_data xsize).
Notation answers := (answers nx ndx check_data xsize).
Notation terminal_fits := (terminal_fits nx ndx).

Lemma dims_ok_iff a b m : dims_ok a b m = true <-> nx m = a /\ ndx m = b.
Proof. unfold dims_ok. rewrite andb_true_iff, !Nat.eqb_eq. reflexivity. Qed.

Lemma mk_problem_built x0 run term p :
  mk_problem x0 run term = Built p ->
  shaped p /\ terminal_fits p /\ p_run p = run /\ p_rund p = map create_data run /\
  p_term p = term /\ p_x0 p = x0 /\ p_upd p = Some false.
Proof.
  unfold mk_problem. destruct run as [|m0 rest]; [discriminate|].
  destruct (_ && _) eqn:E; [|discriminate]. intro H. injection H as <-.
  apply andb_prop in E as [E1 E3]. apply andb_prop in E1 as [E1 E2].
  apply Nat.eqb_eq in E1. apply dims_ok_iff in E3. rewrite forallb_forall in E2.
  split; [|split; [exact E3|auto 10]].
  constructor; simpl; auto; try lia; try now rewrite map_length.
  intros m [->|H]; auto. now apply E2, dims_ok_iff in H.
Qed.

Lemma mk_problem_datas_built x0 run term rund termd p :
  mk_problem_datas x0 run term rund termd = Built p ->
  shaped p /\ p_run p = run /\ p_rund p = rund /\
  p_term p = term /\ p_termd p = termd /\ p_x0 p = x0 /\ p_upd p = None.
Proof.
  unfold mk_problem_datas. destruct run as [|m0 rest]; [discriminate|].
  destruct (_ && _) eqn:E; [|discriminate]. intro H. injection H as <-.
  apply andb_prop in E as [E E5]. apply andb_prop in E as [E E4].
  apply andb_prop in E as [E E3]. apply andb_prop in E as [E1 E2].
  apply Nat.eqb_eq in E1. apply Nat.eqb_eq in E2. rewrite forallb_forall in E3.
  split; [|auto 10].
  constructor; simpl; auto; try lia.
  intros m H. now apply E3, dims_ok_iff in H.
Qed.

(** *** circularAppend *)
Lemma circular_body_spec (p : problem) m d :
  shaped p ->
  circular_body p m d = Ok (with_run p (tl (p_run p) ++ [m]) (tl (p_rund p) ++ [d])) tt.
Proof.
  intros [cT cr cd _ _]. unfold circular_body.
  destruct (p_T p) as [|n]; [lia|].
  destruct (p_run p) as [|m0 run]; [discriminate|]. destruct (p_rund p) as [|d0 rund]; [discriminate|].
  simpl in cr, cd. injection cr as cr. injection cd as cd.
  pose proof (shift_loop_spec n [] m0 run cr) as H1. simpl in H1. rewrite H1.
  pose proof (shift_loop_spec n [] d0 rund cd) as H2. simpl in H2. rewrite H2.
  rewrite !set_back_spec. reflexivity.
Qed.

Lemma shaped_with_run (p : problem) run rund :
  shaped p -> length run = p_T p -> length rund = p_T p ->
  (forall m, In m run -> nx m = p_nx p /\ ndx m = p_ndx p) -> shaped (with_run p run rund).
Proof. intros [? ? ? ? ?] H1 H2 H3. constructor; simpl; auto. Qed.

Lemma shaped_with_term (p : problem) m d : shaped p -> shaped (with_term p m d).
Proof. intros [? ? ? ? ?]. constructor; simpl; auto. Qed.

(** The problem after an accepted edit. *)
Definition edited (e : edit M D X) (p : problem) : problem :=
  let '((run, rund), (term, termd), x0) := nodes_after create_data e p in
  Problem (p_T p) x0 term termd run rund (p_nx p) (p_ndx p)
          (if structural e then Some true else p_upd p).

Lemma put_node_spec i m d (p : problem) :
  shaped p -> i <= p_T p ->
  put_node i m d p =
  Ok (if Nat.eqb i (p_T p) then with_term p m d
      else with_run p (replace i m (p_run p)) (replace i d (p_rund p))) tt.
Proof.
  intros [cT cr cd _ _] Hi. unfold put_node. destruct (Nat.eqb_spec i (p_T p)); auto.
  rewrite !lset_Some by lia. reflexivity.
Qed.

Lemma apply_edit_spec e (p : problem) :
  shaped p ->
  apply_edit e p =
  if accepted (p_T p) (p_nx p) (p_ndx p) e then Ok (edited e p) tt else Throw p.
Proof.
  intro C. destruct e as [m d|m|i m d|i m|m|x];
    cbn [Shooting_Model.apply_edit Shooting_Spec.accepted];
    change (fits nx ndx) with dims_ok.
  - unfold circular_append. destruct (check_data m d && _); auto. now apply circular_body_spec.
  - unfold circular_append_model. destruct (dims_ok _ _ m); auto. now apply circular_body_spec.
  - unfold update_node. rewrite <- andb_assoc.
    destruct (Nat.leb_spec (p_T p + 1) i); destruct (Nat.leb_spec i (p_T p)); try lia; auto.
    cbn [andb].
    destruct (check_data m d && _); auto. rewrite put_node_spec by auto.
    unfold edited; simpl. destruct (Nat.eqb i (p_T p)); reflexivity.
  - unfold update_model.
    destruct (Nat.leb_spec (p_T p + 1) i); destruct (Nat.leb_spec i (p_T p)); try lia; auto.
    cbn [andb]. destruct (dims_ok _ _ m); auto. rewrite put_node_spec by auto.
    unfold edited; simpl. destruct (Nat.eqb i (p_T p)); reflexivity.
  - unfold set_terminal.
    destruct (dims_ok _ _ m); auto.
  - unfold set_x0. rewrite (shaped_x0 _ _ _ _ C). destruct (Nat.eqb _ _); auto.
Qed.

Lemma replace_length {A} i (a : A) l : i < length l -> length (replace i a l) = length l.
Proof.
  intro H. unfold replace. rewrite app_length, firstn_length. cbn [length]. rewrite skipn_length. lia.
Qed.

Lemma In_firstn {A} i (l : list A) x : In x (firstn i l) -> In x l.
Proof. intro H. rewrite <- (firstn_skipn i l). apply in_or_app. now left. Qed.
Lemma In_skipn {A} i (l : list A) x : In x (skipn i l) -> In x l.
Proof. intro H. rewrite <- (firstn_skipn i l). apply in_or_app. now right. Qed.

Lemma replace_In {A} i (a : A) l x : In x (replace i a l) -> x = a \/ In x l.
Proof.
  unfold replace. rewrite in_app_iff. cbn [In]. intros [H|[H|H]]; auto.
  - right. now apply In_firstn in H.
  - right. now apply In_skipn in H.
Qed.

Lemma tl_app_In {A} (l : list A) a x : In x (tl l ++ [a]) -> x = a \/ In x l.
Proof. rewrite in_app_iff. destruct l as [|y l]; simpl; intuition. Qed.

Lemma edited_frame e (p : problem) :
  p_T (edited e p) = p_T p /\ p_nx (edited e p) = p_nx p /\ p_ndx (edited e p) = p_ndx p /\
  p_upd (edited e p) = (if structural e then Some true else p_upd p) /\
  nodes (edited e p) = nodes_after create_data e p.
Proof.
  unfold edited. destruct (nodes_after create_data e p) as [[[run rund] [term termd]] x0] eqn:E.
  simpl. auto.
Qed.

Lemma edited_shaped e (p : problem) :
  shaped p -> accepted (p_T p) (p_nx p) (p_ndx p) e = true ->
  shaped (edited e p) /\ (terminal_fits p -> terminal_fits (edited e p)).
Proof.
  intros C H. pose proof C as [cT cr cd cm cx].
  assert (Happ : forall (A : Type) (l : list A) a, length l = p_T p -> length (tl l ++ [a]) = p_T p).
  { intros A [|b l] a E; rewrite app_length; simpl in *; lia. }
  assert (forall i m, i <> p_T p -> i <= p_T p -> nx m = p_nx p /\ ndx m = p_ndx p ->
          forall m', In m' (replace i m (p_run p)) -> nx m' = p_nx p /\ ndx m' = p_ndx p) as Hrep.
  { intros i m _ _ Hm m' Hin. apply replace_In in Hin as [->|Hin]; auto. }
  destruct e as [m d|m|i m d|i m|m|x]; simpl in H.
  - apply andb_prop in H as [_ H]. apply dims_ok_iff in H. split; auto.
    constructor; simpl; auto. intros m' Hin. apply tl_app_In in Hin as [->|Hin]; auto.
  - apply dims_ok_iff in H. split; auto.
    constructor; simpl; auto. intros m' Hin. apply tl_app_In in Hin as [->|Hin]; auto.
  - apply andb_prop in H as [H H2]. apply andb_prop in H as [H _].
    apply dims_ok_iff in H2. apply Nat.leb_le in H.
    unfold edited; simpl. destruct (Nat.eqb_spec i (p_T p)).
    + split; auto. constructor; simpl; auto.
    + split; auto. constructor; simpl; eauto; rewrite replace_length; lia.
  - apply andb_prop in H as [H H2].
    apply dims_ok_iff in H2. apply Nat.leb_le in H.
    unfold edited; simpl. destruct (Nat.eqb_spec i (p_T p)).
    + split; auto. constructor; simpl; auto.
    + split; auto. constructor; simpl; eauto; rewrite replace_length; lia.
  - apply dims_ok_iff in H. split; auto. constructor; simpl; auto.
  - apply Nat.eqb_eq in H. split; auto. constructor; simpl; auto.
Qed.

Lemma apply_edit_shaped e (p : problem) :
  shaped p ->
  exists p', out_state (apply_edit e p) = Some p' /\ shaped p' /\
    (terminal_fits p -> terminal_fits p') /\
    p_T p' = p_T p /\ p_nx p' = p_nx p /\ p_ndx p' = p_ndx p.
Proof.
  intro C. rewrite apply_edit_spec by auto.
  destruct (accepted _ _ _ e) eqn:E; cbn [out_state].
  - destruct (edited_shaped e p C E) as [H1 H2]. destruct (edited_frame e p) as (H3 & H4 & H5 & _).
    eauto 10.
  - eauto 10.
Qed.

Lemma run_edits_shaped es : forall p : problem,
  shaped p ->
  exists p', run_edits es p = Some p' /\ shaped p' /\ (terminal_fits p -> terminal_fits p') /\
    p_T p' = p_T p /\ p_nx p' = p_nx p /\ p_ndx p' = p_ndx p.
Proof.
  induction es as [|e es IH]; intros p C; cbn [Shooting_Model.run_edits]; [eauto 10|].
  destruct (apply_edit_shaped e p C) as (p' & -> & C' & Ht & HT & Hn & Hd).
  destruct (IH p' C') as (p'' & E & C'' & Ht' & HT' & Hn' & Hd').
  exists p''. split; [auto|]. split; [auto|]. split; [auto|]. split; [congruence|]. split; congruence.
Qed.

Lemma reachable_consistent (p : problem) :
  reachable nx ndx check_data create_data xsize p -> shaped p /\ terminal_fits p.
Proof.
  intros (x0 & run & term & es & p0 & H1 & H2).
  destruct (mk_problem_built _ _ _ _ H1) as (S0 & T0 & _).
  destruct (run_edits_shaped es p0 S0) as (p' & E & S' & T' & _).
  rewrite H2 in E. injection E as <-. auto.
Qed.

Lemma reachable_datas_shaped (p : problem) :
  reachable_datas nx ndx check_data create_data xsize p -> shaped p.
Proof.
  intros (x0 & run & term & rund & termd & es & p0 & H1 & H2).
  destruct (mk_problem_datas_built _ _ _ _ _ _ H1) as (S0 & _).
  destruct (run_edits_shaped es p0 S0) as (p' & E & S' & _).
  rewrite H2 in E. injection E as <-. auto.
Qed.

(** *** Receding horizon *)
Lemma tl_skipn {A} k : forall (l : list A), tl (skipn k l) = skipn (k + 1) l.
Proof.
  induction k as [|k IH]; intros [|a l]; auto. simpl skipn at 1. rewrite IH. reflexivity.
Qed.

Lemma tl_skipn_app {A} k (l ms : list A) m :
  length ms = k -> 1 <= length l ->
  tl (skipn k (l ++ ms)) ++ [m] = skipn (k + 1) (l ++ ms ++ [m]).
Proof.
  intros Hk Hl. rewrite app_assoc, tl_skipn. rewrite (skipn_app (k + 1) (l ++ ms) [m]).
  replace (k + 1 - length (l ++ ms)) with 0 by (rewrite app_length; lia). reflexivity.
Qed.

Lemma run_edits_app es1 es2 p :
  run_edits (es1 ++ es2) p =
  match run_edits es1 p with Some p' => run_edits es2 p' | None => None end.
Proof.
  revert p. induction es1 as [|e es1 IH]; intro p; simpl; auto.
  destruct (out_state (apply_edit e p)); auto.
Qed.

Lemma circular_append_horizon (p : problem) l :
  shaped p ->
  (forall md, In md l -> check_data (fst md) (snd md) = true /\
                         nx (fst md) = p_nx p /\ ndx (fst md) = p_ndx p) ->
  exists p', run_edits (appends l) p = Some p' /\
    p_run p' = skipn (length l) (p_run p ++ map fst l) /\
    p_rund p' = skipn (length l) (p_rund p ++ map snd l) /\
    p_T p' = p_T p /\ p_nx p' = p_nx p /\ p_ndx p' = p_ndx p /\
    p_x0 p' = p_x0 p /\ p_term p' = p_term p /\ p_termd p' = p_termd p.
Proof.
  intros C. induction l as [|[m d] l IH] using rev_ind; intro H.
  - exists p. simpl. rewrite !app_nil_r. auto 10.
  - destruct IH as (p1 & E & R & Rd & HT & Hn & Hd & Hx & Ht & Htd).
    { intros md Hin. apply H. apply in_or_app. now left. }
    assert (shaped p1) as C1.
    { destruct (run_edits_shaped (appends l) p C) as (q & Eq & Cq & _). congruence. }
    unfold appends. rewrite map_app, run_edits_app. fold (appends (X := X) l). rewrite E.
    cbn [map Shooting_Model.run_edits].
    rewrite apply_edit_spec by auto.
    destruct (H (m, d)) as (Hc & Hm1 & Hm2); [apply in_or_app; right; now left|]. simpl in Hc, Hm1, Hm2.
    assert (accepted (p_T p1) (p_nx p1) (p_ndx p1) (EAppend m d) = true) as A.
    { simpl. rewrite Hc. simpl. apply dims_ok_iff. now rewrite Hn, Hd. }
    cbn [fst snd]. rewrite A. cbn [out_state]. eexists. split; [reflexivity|].
    destruct C as [cT cr cd _ _].
    rewrite app_length, !map_app. cbn [length map fst snd].
    rewrite <- !tl_skipn_app by (rewrite ?map_length; lia).
    unfold edited; simpl. rewrite R, Rd. auto 10.
Qed.

(** *** set_runningModels never succeeds *)
Lemma copy_loop_fails n : copy_loop create_data (S n) 0 [] [] = None.
Proof. reflexivity. Qed.

Lemma check_loop_true a b n models :
  check_loop nx ndx a b n models = Some true -> n <= length models.
Proof.
  revert models. induction n as [|n IH]; intros [|m r] H; simpl in *; try lia; try discriminate.
  destruct (dims_ok a b m); [|discriminate]. apply IH in H. lia.
Qed.

Lemma set_running_never_ok (p : problem) models :
  1 <= p_T p ->
  set_running nx ndx create_data models p = UB \/
  set_running nx ndx create_data models p = Throw p.
Proof.
  intro H. unfold set_running.
  destruct (check_loop nx ndx (p_nx p) (p_ndx p) (p_T p) models) as [[|]|] eqn:E; auto.
  apply check_loop_true in E. destruct (length models) as [|n]; [lia|].
  rewrite copy_loop_fails. auto.
Qed.

Lemma set_running_throw (p : problem) models :
  set_running nx ndx create_data models p = Throw p <->
  exists i m, i < p_T p /\ nth_error models i = Some m /\ ~ (nx m = p_nx p /\ ndx m = p_ndx p) /\
    (forall j m', j < i -> nth_error models j = Some m' -> nx m' = p_nx p /\ ndx m' = p_ndx p).
Proof.
  unfold set_running.
  enough (forall n models,
    check_loop nx ndx (p_nx p) (p_ndx p) n models = Some false <->
    exists i m, i < n /\ nth_error models i = Some m /\ ~ (nx m = p_nx p /\ ndx m = p_ndx p) /\
      (forall j m', j < i -> nth_error models j = Some m' -> nx m' = p_nx p /\ ndx m' = p_ndx p)) as H.
  { specialize (H (p_T p) models). rewrite <- H.
    destruct (check_loop nx ndx (p_nx p) (p_ndx p) (p_T p) models) as [[|]|]; split; try discriminate; auto.
    destruct (copy_loop _ _ _ _ _) as [[]|]; discriminate. }
  clear. induction n as [|n IH]; intros [|m r]; simpl.
  - split; [discriminate|]. intros (i & m & Hi & _). lia.
  - split; [discriminate|]. intros (i & m' & Hi & _). lia.
  - split; [discriminate|]. intros (i & m & _ & Hi & _). destruct i; discriminate.
  - destruct (dims_ok (p_nx p) (p_ndx p) m) eqn:E.
    + rewrite IH. apply dims_ok_iff in E. split.
      * intros (i & m' & Hi & Hm & Hd & Hj). exists (S i), m'. repeat split; auto; try lia;
          intros; destruct j; simpl in *; try congruence; try (injection H0 as <-; apply E);
          eapply Hj; try eassumption; lia.
      * intros (i & m' & Hi & Hm & Hd & Hj). destruct i as [|i]; simpl in *.
        -- exfalso. injection Hm as <-. auto.
        -- exists i, m'. repeat split; auto; try lia;
             intros; apply (Hj (S j) m'0); simpl; auto; lia.
    + split; auto. intros _. exists 0, m. repeat split; auto; try lia.
      intro H. apply dims_ok_iff in H. congruence.
Qed.

(** *** is_updated *)
Lemma run_calls_spec cs : forall (p : problem) b,
  shaped p -> p_upd p = Some b ->
  run_calls cs p = Some (answers (p_T p) (p_nx p) (p_ndx p) b cs).
Proof.
  induction cs as [|[e|] cs IH]; intros p b C Hb;
    cbn [Shooting_Model.run_calls Shooting_Spec.answers]; auto.
  - rewrite apply_edit_spec by auto. unfold Shooting_Spec.modifies.
    destruct (accepted (p_T p) (p_nx p) (p_ndx p) e) eqn:E; cbn [out_state].
    + destruct (edited_frame e p) as (HT & Hn & Hd & Hu & _).
      rewrite andb_true_r. rewrite <- HT, <- Hn, <- Hd. apply IH.
      * now apply edited_shaped.
      * rewrite Hu. destruct (structural e); rewrite ?orb_true_r, ?orb_false_r; auto.
    + rewrite andb_false_r, orb_false_r. auto.
  - unfold is_updated. rewrite Hb. rewrite (IH _ false).
    + reflexivity.
    + destruct C. constructor; auto.
    + reflexivity.
Qed.
End Shooting.

(** ** Evaluation *)
Section Eval.
Context {M D X U S : Type}.
Context (calc : M -> D -> X -> U -> D) (calcT : M -> D -> X -> D)
        (xnext : D -> X) (cost : D -> S) (zero : S) (add : S -> S -> S).
Notation follows := (follows calc xnext).
Notation evaluated := (evaluated calc).

Lemma rollout_loop_follows ns : forall x us,
  length us = length ns ->
  follows x ns us (fst (rollout_loop calc xnext x ns us)) /\
  length (snd (rollout_loop calc xnext x ns us)) = length ns.
Proof.
  induction ns as [|[m d] ns IH]; intros x [|u us] H; try discriminate; cbn [rollout_loop].
  - split; auto. repeat split; auto. intros t m d u Ht. destruct t; discriminate.
  - injection H as H. specialize (IH (xnext (calc m d x u)) us H).
    destruct (rollout_loop calc xnext (xnext (calc m d x u)) ns us) as [xs ds].
    destruct IH as [(L & H0 & Hs) Ld]. simpl in *. split; [|congruence].
    split; [|split]; auto.
    + simpl. lia.
    + intros [|t] m' d' u' Hm Hu; simpl in *.
      * injection Hm as <- <-. injection Hu as <-. exists x. auto.
      * destruct (Hs t m' d' u' Hm Hu) as (y & Hy & Hy'). exists y. auto.
Qed.

Lemma follows_unique x0 ns us xs1 xs2 :
  length us = length ns ->
  follows x0 ns us xs1 -> follows x0 ns us xs2 -> xs1 = xs2.
Proof.
  intros HL (L1 & A1 & B1) (L2 & A2 & B2).
  assert (forall t, t <= length ns -> nth_error xs1 t = nth_error xs2 t) as H.
  { induction t as [|t IH]; intro Ht; [congruence|].
    assert (t < length ns) as Ht' by lia.
    destruct (nth_error ns t) as [[m d]|] eqn:En; [|apply nth_error_None in En; lia].
    destruct (nth_error us t) as [u|] eqn:Eu; [|apply nth_error_None in Eu; lia].
    destruct (B1 _ _ _ _ En Eu) as (x1 & E1 & F1). destruct (B2 _ _ _ _ En Eu) as (x2 & E2 & F2).
    rewrite IH in E1 by lia. replace (Datatypes.S t) with (t + 1) by lia. congruence. }
  apply nth_error_ext. intro t. destruct (Nat.le_gt_cases t (length ns)); auto.
  transitivity (@None X); [|symmetry]; apply nth_error_None; lia.
Qed.

Lemma rollout_spec (p : problem M D X) us xs_in :
  length (p_run p) = p_T p -> length (p_rund p) = p_T p ->
  length us = p_T p -> length xs_in = p_T p + 1 ->
  exists xs p', rollout calc calcT xnext p us xs_in = Some (xs, p') /\
    follows (p_x0 p) (combine (p_run p) (p_rund p)) us xs /\
    (forall xs', follows (p_x0 p) (combine (p_run p) (p_rund p)) us xs' -> xs' = xs) /\
    p_run p' = p_run p /\ p_term p' = p_term p /\ p_x0 p' = p_x0 p /\ p_T p' = p_T p /\
    length (p_rund p') = p_T p.
Proof.
  intros H1 H2 H3 H4. unfold rollout. rewrite H3, H4, !Nat.eqb_refl. simpl.
  assert (length us = length (combine (p_run p) (p_rund p))) as HL by (rewrite combine_length; lia).
  pose proof (rollout_loop_follows _ (p_x0 p) us HL) as [F L].
  destruct (rollout_loop calc xnext (p_x0 p) (combine (p_run p) (p_rund p)) us) as [xs ds].
  simpl in *. eexists; eexists; split; [reflexivity|]. split; [exact F|]. split.
  - intros xs' F'. exact (follows_unique _ _ _ _ _ HL F' F).
  - simpl. repeat split; auto. rewrite L, combine_length. lia.
Qed.

Lemma rollout_rejects (p : problem M D X) us xs_in :
  length us <> p_T p \/ length xs_in <> p_T p + 1 ->
  rollout calc calcT xnext p us xs_in = None.
Proof.
  intro H. unfold rollout.
  destruct (Nat.eqb_spec (length xs_in) (p_T p + 1)); destruct (Nat.eqb_spec (length us) (p_T p));
    simpl; auto. destruct H; contradiction.
Qed.

(** *** calc *)
Lemma calc_nodes_spec ns : forall xs us,
  length us = length ns -> length xs = length ns + 1 ->
  evaluated ns xs us (calc_nodes calc ns xs us).
Proof.
  induction ns as [|[m d] ns IH]; intros [|x xs] [|u us] H1 H2; try discriminate; simpl in *.
  - split; auto. intros [|t]; discriminate.
  - injection H1 as H1. injection H2 as H2. destruct (IH xs us H1 H2) as [L E]. split; [simpl; congruence|].
    intros [|t] m' d' x' u' Hm Hx Hu; simpl in *; [congruence|eauto].
Qed.

Lemma evaluated_unique ns xs us ds1 ds2 :
  length us = length ns -> length xs = length ns + 1 ->
  evaluated ns xs us ds1 -> evaluated ns xs us ds2 -> ds1 = ds2.
Proof.
  intros H1 H2 [L1 E1] [L2 E2]. apply nth_error_ext. intro t.
  destruct (Nat.lt_ge_cases t (length ns)) as [Ht|Ht].
  - destruct (nth_error ns t) as [[m d]|] eqn:En; [|apply nth_error_None in En; lia].
    destruct (nth_error us t) as [u|] eqn:Eu; [|apply nth_error_None in Eu; lia].
    destruct (nth_error xs t) as [x|] eqn:Ex; [|apply nth_error_None in Ex; lia].
    rewrite (E1 _ _ _ _ _ En Ex Eu). symmetry. eauto.
  - transitivity (@None D); [|symmetry]; apply nth_error_None; lia.
Qed.

(** The outcome of calc *)
Lemma problem_calc_spec (p : problem M D X) xs us xT :
  length (p_run p) = p_T p -> length (p_rund p) = p_T p ->
  length us = p_T p -> length xs = p_T p + 1 -> nth_error xs (p_T p) = Some xT ->
  exists ds p', 
    evaluated (combine (p_run p) (p_rund p)) xs us ds /\
    problem_calc calc calcT cost zero add p xs us =
      Some (add (fold_left add (map cost ds) zero) (cost (calcT (p_term p) (p_termd p) xT)), p') /\
    p_rund p' = ds /\ p_termd p' = calcT (p_term p) (p_termd p) xT /\
    p_run p' = p_run p /\ p_term p' = p_term p /\ p_x0 p' = p_x0 p /\ p_T p' = p_T p.
Proof.
  intros H1 H2 H3 H4 H5. unfold problem_calc. rewrite H3, H4, !Nat.eqb_refl. cbn [andb].
  assert (last xs (p_x0 p) = xT) as ->.
  { generalize (p_x0 p). clear -H4 H5. revert H4 H5. generalize (p_T p). induction xs as [|x xs IH]; intros n H4 H5 d.
    - destruct n; discriminate.
    - simpl in H4. destruct n as [|n].
      + destruct xs; [|simpl in H4; lia]. now injection H5.
      + destruct xs as [|y xs]; [simpl in H4; lia|].
        change (last (x :: y :: xs) d) with (last (y :: xs) d). apply (IH n); auto; simpl in *; lia. }
  eexists; eexists; split; [|split; [reflexivity|]].
  - apply calc_nodes_spec; rewrite combine_length; lia.
  - simpl. auto 10.
Qed.

Lemma problem_calc_rejects (p : problem M D X) xs us :
  length us <> p_T p \/ length xs <> p_T p + 1 ->
  problem_calc calc calcT cost zero add p xs us = None.
Proof.
  intro H. unfold problem_calc.
  destruct (Nat.eqb_spec (length xs) (p_T p + 1)); destruct (Nat.eqb_spec (length us) (p_T p));
    simpl; auto. destruct H; contradiction.
Qed.
End Eval.

Section Sum.
Context {S : Type} (zero : S) (add : S -> S -> S)
  (add_comm : forall a b, add a b = add b a)
  (add_assoc : forall a b c, add a (add b c) = add (add a b) c).
Lemma fold_left_perm l1 l2 : Permutation l1 l2 -> forall a, fold_left add l1 a = fold_left add l2 a.
Proof using add_comm add_assoc.
  induction 1; intro a; simpl; auto.
  - f_equal. rewrite <- !add_assoc. f_equal. apply add_comm.
  - now rewrite IHPermutation1.
Qed.
End Sum.

(** ** Parallel loop *)
Section Parallel.
Context {D : Type}.
Implicit Types tr : list (nat * (D -> D)).

Lemma exec_local tr : forall (h : heap (D := D)) l,
  exec tr h l = fold_left (fun d s => snd s d) (filter (fun s => Nat.eqb (fst s) l) tr) (h l).
Proof.
  induction tr as [|[k f] tr IH]; intros h l; simpl; auto.
  unfold exec in *. simpl. rewrite IH. unfold hput. simpl. rewrite (Nat.eqb_sym l k).
  destruct (Nat.eqb_spec k l); simpl; auto.
Qed.

(** Two schedules with the same per-location step sequences agree. *)
Lemma exec_schedule_independent tr1 tr2 h :
  (forall l, filter (fun s => Nat.eqb (fst s) l) tr1 = filter (fun s => Nat.eqb (fst s) l) tr2) ->
  forall l, exec tr1 h l = exec tr2 h l.
Proof. intros H l. now rewrite !exec_local, H. Qed.

(** Every interleaving gives each location the steps of its node, in order. *)
Lemma runs_filter ps tr :
  runs ps tr -> NoDup (map fst ps) -> forall l,
  filter (fun s => Nat.eqb (fst s) l) tr =
  flat_map (fun p => if Nat.eqb (fst p) l then map (fun f => (fst p, f)) (snd p) else []) ps.
Proof.
  induction 1 as [ps H|a k f fs b tr H IH]; intros N l.
  - symmetry. induction H as [|[k fs] ps E _ IHp]; simpl in *; auto. subst fs. simpl.
    rewrite IHp by now inversion N. now destruct (Nat.eqb k l).
  - assert (map fst (a ++ (k, fs) :: b) = map fst (a ++ (k, f :: fs) :: b)) as Em
      by (now rewrite !map_app).
    rewrite <- Em in N. specialize (IH N l).
    rewrite flat_map_app in *. simpl in *.
    destruct (Nat.eqb_spec k l) as [->|Hne]; auto. rewrite IH.
    assert (flat_map (fun p => if Nat.eqb (fst p) l then map (fun f => (fst p, f)) (snd p) else []) a = [])
      as ->; auto.
    rewrite map_app in N. simpl in N. apply NoDup_remove_2 in N.
    clear -N. induction a as [|[k g] a IHa]; simpl in *; auto.
    destruct (Nat.eqb_spec k l) as [->|]; [exfalso; apply N; now left|]. apply IHa. intuition.
Qed.

Lemma runs_result ps tr (h : heap (D := D)) :
  runs ps tr -> NoDup (map fst ps) ->
  (forall k fs, In (k, fs) ps -> exec tr h k = fold_left (fun d f => f d) fs (h k)) /\
  (forall k, ~ In k (map fst ps) -> exec tr h k = h k).
Proof.
  intros R N. assert (forall k (q : list (nat * list (D -> D))), ~ In k (map fst q) ->
       flat_map (fun p => if Nat.eqb (fst p) k then map (fun f => (fst p, f)) (snd p) else []) q = [])
    as Hnil.
  { intros k. induction q as [|[a b] q IHq]; simpl; auto. intro Hq.
    destruct (Nat.eqb_spec a k); [exfalso; apply Hq; now left|]. apply IHq. intuition. }
  split.
  - intros k fs Hin. rewrite exec_local, (runs_filter _ _ R N k).
    clear R. induction ps as [|[a b] ps IH]; simpl in *; [easy|].
    inversion N as [|? ? Hn Hd]; subst. destruct Hin as [E|Hin].
    + injection E as -> ->. rewrite Nat.eqb_refl, Hnil, app_nil_r by auto.
      generalize (h k). clear. induction fs; intro d; simpl; auto.
    + destruct (Nat.eqb_spec a k) as [->|]; [|now apply IH].
      exfalso. apply Hn. now apply in_map with (f := fst) in Hin.
  - intros k Hk. rewrite exec_local, (runs_filter _ _ R N k), Hnil; auto.
Qed.

(** The sequential loop is one of the interleavings. *)
Definition sequential (ps : list (nat * list (D -> D))) : list (nat * (D -> D)) :=
  flat_map (fun p => map (fun f => (fst p, f)) (snd p)) ps.

Lemma runs_sequential ps : runs ps (sequential ps).
Proof.
  enough (forall b a, Forall (fun p : nat * list (D -> D) => snd p = []) a -> runs (a ++ b) (sequential b)) as H
    by exact (H ps [] (Forall_nil _)).
  clear ps. induction b as [|[k fs] b IH]; intros a Ha; simpl.
  - rewrite app_nil_r. now constructor.
  - induction fs as [|f fs IHf]; simpl.
    + specialize (IH (a ++ [(k, [])])). rewrite <- app_assoc in IH. apply IH.
      apply Forall_app; auto.
    + constructor. exact IHf.
Qed.
End Parallel.
