(** * C130: casting a shooting problem

    Specification: node by node.  [alike] says that two problems have the same
    number of nodes and that every node of the second is the cast of the same
    node of the first. *)

From Coq Require Import List Arith Bool Lia.
From Verif Require Import ProbCast_Model.
Import ListNotations.

Definition horizon {T S} (p : problem T S) : nat := length (p_run p).

(** Every handle points to a model. *)
Definition sound {T S} (p : problem T S) : Prop :=
  forall t, t <= horizon p -> node p t <> None.

Definition alike {A B X Y} (f : A -> B) (p : problem A X) (q : problem B Y) : Prop :=
  horizon q = horizon p /\ forall t, node q t = option_map f (node p t).

(** Two different nodes share their model. *)
Definition sharing {T S} (p : problem T S) : Prop :=
  exists s t i, s <> t /\ handle p s = Some i /\ handle p t = Some i.

(** ** Lemmas *)

Section Facts.
Context {A B X Y : Type}.
Variable f : A -> B.
Variable fx : X -> Y.

Lemma vector_cast_spec h : forall ids out acc res run,
  vector_cast f h ids out acc = Some (res, run) ->
  exists ms, map (nth_error h) ids = map Some ms /\
             res = out ++ map f ms /\
             run = acc ++ seq (length out) (length ids).
Proof.
  induction ids as [|i ids IH]; intros out acc res run e; cbn [vector_cast] in e.
  - injection e as <- <-. exists []. cbn. rewrite !app_nil_r. repeat split.
  - destruct (nth_error h i) as [m|] eqn:em; [|discriminate].
    destruct (IH _ _ _ _ e) as (ms & h1 & h2 & h3).
    exists (m :: ms). cbn [map length seq]. rewrite em, h1, h2, h3.
    rewrite <- !app_assoc, app_length. cbn [app length].
    replace (length out + 1) with (S (length out)) by lia. repeat split.
Qed.

Lemma vector_cast_total h : forall ids out acc,
  Forall (fun i => nth_error h i <> None) ids ->
  vector_cast f h ids out acc <> None.
Proof.
  induction ids as [|i ids IH]; intros out acc hs; cbn [vector_cast]; [discriminate|].
  inversion hs as [|i' ids' h1 h2]; subst.
  destruct (nth_error h i) as [m|]; [|congruence]. apply IH. exact h2.
Qed.

Lemma nth_seq n k : nth_error (seq 0 n) k = if k <? n then Some k else None.
Proof.
  destruct (Nat.ltb_spec k n) as [h|h].
  - rewrite (nth_error_nth' _ 0) by (rewrite seq_length; exact h).
    rewrite seq_nth by exact h. reflexivity.
  - apply nth_error_None. rewrite seq_length. exact h.
Qed.

Lemma cast_shape mt en dflt (p : problem A X) q :
  prob_cast f fx mt en dflt p = Some q ->
  exists ms, map (nth_error (p_heap p)) (p_run p ++ [p_term p]) = map Some ms /\
             p_heap q = map f ms /\
             p_run q ++ [p_term q] = seq 0 (length (p_run p ++ [p_term p])) /\
             length (p_run q) = length (p_run p) /\
             p_x0 q = fx (p_x0 p) /\
             p_threads q = set_nthreads mt en dflt (p_threads p) (threads_init mt en dflt).
Proof.
  unfold prob_cast. intros e.
  destruct (vector_cast f (p_heap p) (p_run p) [] []) as [[out run]|] eqn:ev; [|discriminate].
  destruct (nth_error (p_heap p) (p_term p)) as [m|] eqn:em; [|discriminate].
  injection e as <-. destruct (vector_cast_spec _ _ _ _ _ _ ev) as (ms & h1 & h2 & h3).
  cbn [app length] in h2, h3. subst out run.
  assert (hl : length ms = length (p_run p)).
  { pose proof (f_equal (@length _) h1) as h. rewrite !map_length in h. congruence. }
  exists (ms ++ [m]). cbn [p_heap p_run p_term p_x0 p_threads].
  rewrite !map_app, h1, app_length. cbn [map length]. rewrite em.
  split; [reflexivity|]. split; [reflexivity|].
  split; [|split; [apply seq_length|split; reflexivity]].
  rewrite map_length, hl, seq_app. cbn [seq]. reflexivity.
Qed.

Lemma nth_map_some {T} (l : list nat) (h : list T) ms t :
  map (nth_error h) l = map Some ms ->
  match nth_error l t with Some i => nth_error h i | None => None end = nth_error ms t.
Proof.
  intros e. pose proof (f_equal (fun l => nth_error l t) e) as h1. cbn beta in h1.
  rewrite !nth_error_map in h1.
  destruct (nth_error l t), (nth_error ms t); cbn in *; congruence.
Qed.

Lemma cast_alike mt en dflt (p : problem A X) q :
  prob_cast f fx mt en dflt p = Some q -> alike f p q.
Proof.
  intros e. destruct (cast_shape _ _ _ _ _ e) as (ms & h1 & h2 & h3 & h4 & _).
  split; [exact h4|]. intros t. unfold node at 2, handle.
  rewrite (nth_map_some _ _ _ t h1).
  unfold node, handle. rewrite h3, nth_seq, h2.
  pose proof (f_equal (@length _) h1) as hl. rewrite !map_length in hl.
  destruct (Nat.ltb_spec t (length (p_run p ++ [p_term p]))) as [ht|ht].
  - rewrite nth_error_map. reflexivity.
  - rewrite (proj2 (nth_error_None ms t)) by lia. reflexivity.
Qed.

Lemma upd_same {T} (l : list T) i g :
  nth_error (upd l i g) i = option_map g (nth_error l i).
Proof.
  revert i. induction l as [|x l IH]; intros [|i]; cbn [upd nth_error option_map]; auto.
Qed.

Lemma upd_other {T} (l : list T) i j g :
  i <> j -> nth_error (upd l i g) j = nth_error l j.
Proof.
  revert i j. induction l as [|x l IH]; intros [|i] [|j] h; cbn [upd nth_error]; auto; lia.
Qed.

Lemma change_handle {T S} t g (p : problem T S) s : handle (change t g p) s = handle p s.
Proof. unfold change, handle. destruct (nth_error _ t); reflexivity. Qed.

Lemma change_horizon {T S} t g (p : problem T S) : horizon (change t g p) = horizon p.
Proof. unfold change, horizon. destruct (handle p t); reflexivity. Qed.

Lemma change_node {T S} t g (p : problem T S) s i j :
  handle p t = Some i -> handle p s = Some j ->
  node (change t g p) s = if j =? i then option_map g (node p s) else node p s.
Proof.
  intros hi hj. unfold node at 1. rewrite change_handle, hj.
  unfold node. rewrite hj. unfold change. rewrite hi. cbn [p_heap].
  destruct (Nat.eqb_spec j i) as [->|n]; [apply upd_same|apply upd_other; lia].
Qed.

Lemma not_sharing {T S} (p : problem T S) s t i :
  ~ sharing p -> handle p s = Some i -> handle p t = Some i -> s = t.
Proof.
  intros h h1 h2. destruct (Nat.eq_dec s t) as [e|n]; [exact e|].
  destruct h. exists s, t, i. auto.
Qed.

(** Without sharing, a change touches its node only. *)
Lemma change_private {T S} t g (p : problem T S) s :
  ~ sharing p ->
  node (change t g p) s = if s =? t then option_map g (node p s) else node p s.
Proof.
  intros h. destruct (handle p t) as [i|] eqn:ht.
  - destruct (handle p s) as [j|] eqn:hs.
    + rewrite (change_node t g p s i j ht hs).
      destruct (Nat.eqb_spec j i) as [->|n], (Nat.eqb_spec s t) as [->|n']; try reflexivity.
      * destruct n'. exact (not_sharing p s t i h hs ht).
      * congruence.
    + unfold node. rewrite change_handle, hs. destruct (s =? t); reflexivity.
  - unfold change. rewrite ht.
    destruct (Nat.eqb_spec s t) as [->|n]; [|reflexivity].
    unfold node. rewrite ht. reflexivity.
Qed.

Lemma change_sharing {T S} t g (p : problem T S) : sharing (change t g p) <-> sharing p.
Proof.
  split; intros (s & u & i & h1 & h2 & h3); exists s, u, i;
    rewrite ?change_handle in *; auto.
Qed.

Lemma cast_private mt en dflt (p : problem A X) q :
  prob_cast f fx mt en dflt p = Some q -> ~ sharing q.
Proof.
  intros e (s & t & i & n & h1 & h2).
  destruct (cast_shape _ _ _ _ _ e) as (ms & _ & _ & h3 & _).
  unfold handle in h1, h2. rewrite h3, nth_seq in h1. rewrite h3, nth_seq in h2.
  destruct (s <? _), (t <? _); congruence.
Qed.
End Facts.

(** ** The problem *)

(** A problem whose nodes all hold a model can be cast: the result has the
    cast initial state, as many nodes, and at every node the cast of the model
    there. *)
Theorem C130_nodes : forall (A B X Y : Type) (f : A -> B) (fx : X -> Y) mt en dflt
    (p : problem A X),
  sound p ->
  exists q, prob_cast f fx mt en dflt p = Some q /\
            p_x0 q = fx (p_x0 p) /\ horizon q = horizon p /\
            (forall t, node q t = option_map f (node p t)) /\ sound q.
Proof.
  intros A B X Y f fx mt en dflt p hs.
  assert (hn : Forall (fun i => nth_error (p_heap p) i <> None) (p_run p ++ [p_term p])).
  { apply Forall_forall. intros i hi. apply In_nth_error in hi. destruct hi as [t ht].
    assert (hl : t < length (p_run p ++ [p_term p])) by (apply nth_error_Some; congruence).
    rewrite app_length in hl. cbn [length] in hl.
    specialize (hs t ltac:(unfold horizon; lia)). unfold node, handle in hs.
    rewrite ht in hs. exact hs. }
  apply Forall_app in hn. destruct hn as [h1 h2].
  destruct (prob_cast f fx mt en dflt p) as [q|] eqn:e.
  - exists q. split; [reflexivity|].
    destruct (cast_alike f fx _ _ _ _ _ e) as [a1 a2].
    destruct (cast_shape f fx _ _ _ _ _ e) as (ms & _ & _ & _ & _ & hx & _).
    split; [exact hx|]. split; [exact a1|]. split; [exact a2|].
    intros t ht. rewrite a2. rewrite a1 in ht. specialize (hs t ht).
    destruct (node p t); [discriminate|congruence].
  - exfalso. unfold prob_cast in e.
    destruct (vector_cast f (p_heap p) (p_run p) [] []) as [[out run]|] eqn:ev.
    + inversion h2 as [|i l h3 _]; subst.
      destruct (nth_error (p_heap p) (p_term p)); congruence.
    + exact (vector_cast_total f _ _ [] [] h1 ev).
Qed.

(** The copy uses as many threads as the original, whatever numbers were
    requested, if the default is at least one and the global flag did not
    change. *)
Theorem C130_threads : forall (A B X Y : Type) (f : A -> B) (fx : X -> Y) mt en dflt
    (p : problem A X) q ns,
  1 <= dflt ->
  p_threads p = threads mt en dflt ns (threads_init mt en dflt) ->
  prob_cast f fx mt en dflt p = Some q ->
  p_threads q = p_threads p.
Proof.
  intros A B X Y f fx mt en dflt p q ns hd ht e.
  destruct (cast_shape f fx _ _ _ _ _ e) as (ms & _ & _ & _ & _ & _ & ->).
  assert (h : forall ns c, (mt && en = true -> 1 <= c) -> (mt && en = false -> c = 1) ->
     let r := threads mt en dflt ns c in
     (mt && en = true -> 1 <= r) /\ (mt && en = false -> r = 1)).
  { induction ns0 as [|n ns0 IH]; intros c h1 h2; cbn [threads]; [split; assumption|].
    apply IH; unfold set_nthreads; destruct mt, en; cbn [andb] in *; intros;
      try discriminate; try reflexivity; auto.
    destruct (Nat.ltb_spec n 1); [exact hd|assumption]. }
  specialize (h ns (threads_init mt en dflt)).
  rewrite <- ht in h. unfold threads_init in *. unfold set_nthreads.
  destruct mt, en; cbn [andb] in *.
  - destruct h as [h _]; [intros; lia|intros; discriminate|]. specialize (h eq_refl).
    destruct (Nat.ltb_spec (p_threads p) 1); lia.
  - destruct h as [_ h]; [intros; discriminate|reflexivity|]. rewrite (h eq_refl). reflexivity.
  - destruct h as [_ h]; [intros; discriminate|reflexivity|]. rewrite (h eq_refl). reflexivity.
  - destruct h as [_ h]; [intros; discriminate|reflexivity|]. rewrite (h eq_refl). reflexivity.
Qed.

(** Every node of the copy has a model of its own: a change through one node
    is seen at that node only, after any changes. *)
Theorem C130_private : forall (A B X Y : Type) (f : A -> B) (fx : X -> Y) mt en dflt
    (p : problem A X) q cs t g s,
  prob_cast f fx mt en dflt p = Some q ->
  node (change t g (changes cs q)) s =
  if s =? t then option_map g (node (changes cs q) s) else node (changes cs q) s.
Proof.
  intros A B X Y f fx mt en dflt p q cs t g s e.
  apply change_private. pose proof (cast_private f fx _ _ _ _ _ e) as h. clear e.
  revert q h. induction cs as [|[u k] cs IH]; intros q h; [exact h|].
  cbn [changes]. apply IH. intros c. apply h. exact (proj1 (change_sharing u k q) c).
Qed.

(** The same changes made to a problem and to its copy leave the copy alike,
    if no two nodes of the problem share a model.  [matched] pairs the setters
    of the two scalar types. *)
Definition matched {A B} (f : A -> B) (c : nat * (A -> A)) (d : nat * (B -> B)) : Prop :=
  fst c = fst d /\ forall m, f (snd c m) = snd d (f m).

Theorem C130_changes_partial : forall (A B X Y : Type) (f : A -> B) (fx : X -> Y) mt en dflt
    (p : problem A X) q cs ds,
  ~ sharing p -> prob_cast f fx mt en dflt p = Some q ->
  Forall2 (matched f) cs ds -> alike f (changes cs p) (changes ds q).
Proof.
  intros A B X Y f fx mt en dflt p q cs ds hp e hm.
  pose proof (cast_private f fx _ _ _ _ _ e) as hq.
  pose proof (cast_alike f fx _ _ _ _ _ e) as ha. clear e.
  revert p q hp hq ha. induction hm as [|[t g] [t' k] cs ds [h1 h2] _ IH]; intros p q hp hq ha.
  - exact ha.
  - cbn [fst snd] in h1, h2. subst t'. cbn [changes]. apply IH.
    + intros c. apply hp. exact (proj1 (change_sharing t g p) c).
    + intros c. apply hq. exact (proj1 (change_sharing t k q) c).
    + destruct ha as [a1 a2]. split; [rewrite !change_horizon; exact a1|].
      intros s. rewrite !change_private by assumption. rewrite a2.
      destruct (s =? t); [|reflexivity].
      destruct (node p s) as [m|]; cbn; [|reflexivity]. rewrite h2. reflexivity.
Qed.

(** With sharing it always fails: one visible change through one of the nodes
    tells the copy from the problem. *)
Theorem C130_shared : forall (A B X Y : Type) (f : A -> B) (fx : X -> Y) mt en dflt
    (p : problem A X) q s t i m g k,
  prob_cast f fx mt en dflt p = Some q ->
  s <> t -> handle p s = Some i -> handle p t = Some i ->
  node p t = Some m -> f (g m) <> f m ->
  ~ alike f (change s g p) (change s k q).
Proof.
  intros A B X Y f fx mt en dflt p q s t i m g k e n hs ht hm hg [_ ha].
  specialize (ha t). rewrite (change_node s g p t i i hs ht), Nat.eqb_refl in ha.
  rewrite (change_private s k q t (cast_private f fx _ _ _ _ _ e)) in ha.
  destruct (Nat.eqb_spec t s) as [c|_]; [congruence|].
  destruct (cast_alike f fx _ _ _ _ _ e) as [_ a2]. rewrite a2, hm in ha.
  cbn in ha. congruence.
Qed.

(** The usual way to build a problem, one model repeated along the horizon:
    after the cast, a change of the model reaches the first node only. *)
Theorem C130_shared_refuted :
  exists (p q : problem nat nat) g,
    sound p /\ prob_cast (fun m => m) (fun x => x) true true 4 p = Some q /\
    Forall2 (matched (fun m => m)) [(0, g)] [(0, g)] /\
    alike (fun m => m) p q /\
    node (change 0 g p) 1 = Some 7 /\ node (change 0 g q) 1 = Some 3.
Proof.
  exists (Problem 0 [0; 0] 1 2 [3; 5]), (Problem 0 [0; 1] 2 2 [3; 3; 5]), (fun _ => 7).
  split.
  { intros t h. unfold horizon in h. cbn in h. destruct t as [|[|[|t]]]; [| | |lia]; cbn; discriminate. }
  split; [reflexivity|]. split.
  { constructor; [split; [reflexivity|intros m; reflexivity]|constructor]. }
  split.
  { split; [reflexivity|]. intros [|[|[|t]]]; try reflexivity.
    unfold node, handle. cbn [p_run p_term app nth_error]. destruct t; reflexivity. }
  split; reflexivity.
Qed.

(** A problem meeting the hypotheses: three nodes with their own models. *)
Example C130_ex :
  let p := Problem 9 [1; 0] 2 3 [4; 5; 6] in
  sound p /\ ~ sharing p /\
  prob_cast (fun m => m * 2) (fun x : nat => x + 1) true true 8 p =
    Some (Problem 10 [0; 1] 2 3 [10; 8; 12]) /\
  p_threads p = threads true true 8 [0; 3] (threads_init true true 8) /\
  matched (fun m => m * 2) (1, fun m => m + 1) (1, fun m => m + 2).
Proof.
  intros p. split.
  { intros t h. unfold horizon in h. cbn in h. destruct t as [|[|[|t]]]; [| | |lia]; cbn; discriminate. }
  split.
  { intros (s & t & i & n & h1 & h2).
    unfold handle, p in h1, h2. cbn [p_run p_term app] in h1, h2.
    destruct s as [|[|[|s]]]; cbn in h1; try (destruct s; discriminate);
      injection h1 as <-; destruct t as [|[|[|t]]]; cbn in h2;
        try (destruct t; discriminate); congruence. }
  split; [reflexivity|]. split; [reflexivity|].
  split; [reflexivity|]. intros m. cbn [snd]. lia.
Qed.

Print Assumptions C130_nodes.
Print Assumptions C130_threads.
Print Assumptions C130_private.
Print Assumptions C130_changes_partial.
Print Assumptions C130_shared.
Print Assumptions C130_shared_refuted.
