(** Proofs about the evaluation of the named containers. *)
From Coq Require Import ZArith String List Bool Arith Lia Permutation.
From Verif Require Import Common SMap Containers_Model Containers_Spec Containers_Proofs
  ContainersEval_Model.
Import ListNotations.

(** ** Cost sum *)
Section CostSum.
Context {S X U D : Type} (zero : S) (add mul : S -> S -> S) (val : D -> comp -> S).
Notation ecost := (ecost S X U D).

(** Specification: contributions of the active items, in name order. *)
Definition contribs (f : ecost -> D -> D) (ms : smap ecost) (ds : smap D) (c : comp) : list S :=
  flat_map (fun km => let '(k, m) := km in
    if e_active m then
      match mfind k ds with
      | Some d => [mul (e_weight m) (val (f m d) c)]
      | None => []
      end
    else []) ms.

Lemma sum_loop_spec scope f ms : forall ds t,
  ssorted (keys ds) -> keys ms = keys ds ->
  let '(t', ds') := sum_loop add mul val scope f ms ds t in
  (forall c, t' c = if scope c then fold_left add (contribs f ms ds c) (t c) else t c) /\
  keys ds' = keys ds /\
  (forall k m d, In (k, m) ms -> mfind k ds = Some d ->
     mfind k ds' = Some (if e_active m then f m d else d)).
Proof.
  induction ms as [|[k m] ms IH]; intros [|[k' d] ds] t Hs Hk; try discriminate.
  - simpl. split; [|split]; auto; [|easy]. intro c. now destruct (scope c).
  - simpl in Hk. injection Hk as <- Hk. simpl in Hs. apply ssorted_cons in Hs as [Hs Hall].
    rewrite Forall_forall in Hall.
    assert (forall c, contribs f ms ((k, d) :: ds) c = contribs f ms ds c) as Hc.
    { intro c. unfold contribs. rewrite !flat_map_concat_map. f_equal. apply map_ext_in.
      intros [k1 m1] Hin. simpl.
      assert (slt k k1) as Hlt by (apply Hall; rewrite <- Hk; now apply in_map with (f := fst) in Hin).
      now rewrite (slt_eqb' _ _ Hlt). }
    assert (forall k1 m1, In (k1, m1) ms -> String.eqb k1 k = false) as Hne.
    { intros k1 m1 Hin. apply slt_eqb'. apply Hall. rewrite <- Hk.
      now apply in_map with (f := fst) in Hin. }
    assert (forall c, contribs f ((k, m) :: ms) ((k, d) :: ds) c =
              (if e_active m then [mul (e_weight m) (val (f m d) c)] else []) ++ contribs f ms ds c) as Hcons.
    { intro c. rewrite <- Hc. unfold contribs. simpl. now rewrite String.eqb_refl. }
    cbn [sum_loop]. destruct (e_active m) eqn:Ea.
    + specialize (IH ds (accum add mul val scope (e_weight m) (f m d) t) Hs Hk).
      destruct (sum_loop _ _ _ _ _ ms ds _) as [t' ds']. destruct IH as (H1 & H2 & H3).
      split; [|split].
      * intro c. rewrite H1, Hcons. unfold accum.
        destruct (scope c); auto.
      * simpl. congruence.
      * intros k1 m1 d1 [Hin|Hin] Hf; simpl in *.
        -- injection Hin as <- <-. rewrite String.eqb_refl in *. rewrite Ea. congruence.
        -- rewrite (Hne _ _ Hin) in *. auto.
    + specialize (IH ds t Hs Hk).
      destruct (sum_loop _ _ _ _ _ ms ds _) as [t' ds']. destruct IH as (H1 & H2 & H3).
      split; [|split].
      * intro c. rewrite H1, Hcons. destruct (scope c); auto.
      * simpl. congruence.
      * intros k1 m1 d1 [Hin|Hin] Hf; simpl in *.
        -- injection Hin as <- <-. rewrite String.eqb_refl in *. rewrite Ea. congruence.
        -- rewrite (Hne _ _ Hin) in *. auto.
Qed.

Lemma sum_eval_spec scope f (ms : smap ecost) (s : sdata S D) :
  ssorted (keys (sd_items s)) -> keys ms = keys (sd_items s) ->
  exists s', sum_eval zero add mul val scope f ms s = Ok s' tt /\
    (forall c, scope c = true -> sd_tot s' c = fold_left add (contribs f ms (sd_items s) c) zero) /\
    (forall c, scope c = false -> sd_tot s' c = sd_tot s c) /\
    keys (sd_items s') = keys (sd_items s) /\
    (forall k m d, In (k, m) ms -> mfind k (sd_items s) = Some d ->
       mfind k (sd_items s') = Some (if e_active m then f m d else d)).
Proof.
  intros Hs Hk. unfold sum_eval.
  assert (length (sd_items s) = length ms) as ->.
  { apply (f_equal (@length _)) in Hk. unfold keys in Hk. now rewrite !map_length in Hk. }
  rewrite Nat.eqb_refl.
  pose proof (sum_loop_spec scope f ms (sd_items s)
    (fun c => if scope c then zero else sd_tot s c) Hs Hk) as H.
  destruct (sum_loop _ _ _ _ _ _ _ _) as [t ds]. destruct H as (H1 & H2 & H3).
  eexists; split; [reflexivity|]. simpl. repeat split; auto.
  - intros c Hc. rewrite H1, Hc. reflexivity.
  - intros c Hc. rewrite H1, Hc. reflexivity.
Qed.

(** Only the active entries matter. *)
Lemma contribs_active f (ms : smap ecost) ds c :
  contribs f ms ds c = contribs f (filter (fun km => e_active (snd km)) ms) ds c.
Proof.
  induction ms as [|[k m] ms IH]; simpl; auto.
  destruct (e_active m) eqn:E; simpl; auto. rewrite E. now f_equal.
Qed.
End CostSum.

(** Over a commutative monoid the total is a sum over the active items in any
    order. *)
Section Monoid.
Context {S : Type} (zero : S) (add : S -> S -> S)
  (add_comm : forall a b, add a b = add b a)
  (add_assoc : forall a b c, add a (add b c) = add (add a b) c)
  (add_0 : forall a, add zero a = a).

Lemma fold_left_add l : forall a, fold_left add l a = add a (fold_right add zero l).
Proof using add_comm add_assoc add_0.
  induction l as [|x l IH]; intro a; simpl.
  - now rewrite add_comm, add_0.
  - rewrite IH. now rewrite add_assoc.
Qed.

Lemma fold_right_perm l1 l2 : Permutation l1 l2 ->
  fold_right add zero l1 = fold_right add zero l2.
Proof using add_comm add_assoc.
  induction 1; simpl; congruence.
Qed.
End Monoid.

(** ** Stacking *)
Section Stack.
Context {S : Type}.
Implicit Types (l : list (seg_item S)) (b : bufs S).

Definition well_sized (m : seg_item S) : Prop :=
  length (s_g m) = s_ng m /\ length (s_h m) = s_nh m /\
  length (s_lb m) = s_ng m /\ length (s_ub m) = s_ng m.

Definition sum_nat (l : list nat) : nat := fold_right Nat.add 0 l.

Definition total (sel : seg_item S -> bool) (dim : seg_item S -> nat) l : nat :=
  sum_nat (map dim (filter sel l)).

Definition stacked {E} (sel : seg_item S -> bool) (part : seg_item S -> list E) l : list E :=
  concat (map part (filter sel l)).

Lemma write_seg_ok {E} (buf : list E) off n seg :
  off + n <= length buf -> length seg = n ->
  write_seg buf off n seg = Some (firstn off buf ++ seg ++ skipn (off + n) buf).
Proof.
  intros H1 H2. unfold write_seg. apply Nat.leb_le in H1. rewrite H1, H2, Nat.eqb_refl. reflexivity.
Qed.

(** Writing after a prefix [pre] that is already filled. *)
Lemma write_seg_prefix {E} (pre rest seg : list E) :
  length seg <= length rest ->
  write_seg (pre ++ rest) (length pre) (length seg) seg
  = Some ((pre ++ seg) ++ skipn (length seg) rest).
Proof.
  intro H. rewrite write_seg_ok; auto.
  - rewrite firstn_app, firstn_all, Nat.sub_diag, firstn_O, app_nil_r.
    rewrite skipn_app, skipn_all2 by lia.
    replace (length pre + length seg - length pre) with (length seg) by lia.
    simpl. now rewrite app_assoc.
  - rewrite app_length. lia.
Qed.

Lemma stack_loop_spec sel l : forall pg ph plb pub rg rh rlb rub,
  Forall well_sized l ->
  length plb = length pg -> length pub = length pg ->
  total sel s_ng l <= length rg -> total sel s_nh l <= length rh ->
  total sel s_ng l <= length rlb -> total sel s_ng l <= length rub ->
  stack_loop sel l (length pg) (length ph)
    (Bufs (pg ++ rg) (ph ++ rh) (plb ++ rlb) (pub ++ rub)) =
  Some (Bufs (pg ++ stacked sel s_g l ++ skipn (total sel s_ng l) rg)
             (ph ++ stacked sel s_h l ++ skipn (total sel s_nh l) rh)
             (plb ++ stacked sel s_lb l ++ skipn (total sel s_ng l) rlb)
             (pub ++ stacked sel s_ub l ++ skipn (total sel s_ng l) rub)).
Proof.
  induction l as [|m l IH]; intros pg ph plb pub rg rh rlb rub W L1 L2 Hg Hh Hlb Hub; simpl.
  - reflexivity.
  - inversion W as [|? ? (W1 & W2 & W3 & W4) Wl]; subst.
    unfold total, stacked in *. simpl in *. destruct (sel m) eqn:Es; simpl in *.
    + assert (forall (A : Type) (r : list A) n k, skipn k (skipn n r) = skipn (n + k) r) as Hsk.
      { intros A r n. revert r. induction n; intros r k; simpl; auto.
        destruct r; auto. now rewrite skipn_nil. }
      rewrite <- W1 at 1. rewrite write_seg_prefix by lia.
      rewrite <- W2 at 1. rewrite write_seg_prefix by lia.
      rewrite <- L1 at 1. rewrite <- W3 at 1. rewrite write_seg_prefix by lia.
      rewrite <- L2 at 1. rewrite <- W4 at 1. rewrite write_seg_prefix by lia.
      replace (length pg + s_ng m) with (length (pg ++ s_g m)) by (rewrite app_length; lia).
      replace (length ph + s_nh m) with (length (ph ++ s_h m)) by (rewrite app_length; lia).
      rewrite IH; auto; rewrite ?app_length, ?skipn_length; try lia.
      f_equal. rewrite !Hsk, !W1, !W2, !W3, !W4. now rewrite !app_assoc.
    + apply IH; auto.
Qed.

Lemma stacked_length_g sel l : Forall well_sized l ->
  length (stacked sel s_g l) = total sel s_ng l /\
  length (stacked sel s_h l) = total sel s_nh l /\
  length (stacked sel s_lb l) = total sel s_ng l /\
  length (stacked sel s_ub l) = total sel s_ng l.
Proof.
  intro W. unfold stacked, total. induction l as [|m l IH]; simpl; auto.
  inversion W as [|? ? (W1 & W2 & W3 & W4) Wl]; subst. specialize (IH Wl).
  destruct (sel m); simpl; auto. rewrite !app_length. lia.
Qed.

Lemma manager_stack sel l b :
  Forall well_sized l ->
  total sel s_ng l <= length (b_g b) -> total sel s_nh l <= length (b_h b) ->
  total sel s_ng l <= length (b_lb b) -> total sel s_ng l <= length (b_ub b) ->
  stack_loop sel l 0 0 b =
  Some (Bufs (stacked sel s_g l ++ skipn (total sel s_ng l) (b_g b))
             (stacked sel s_h l ++ skipn (total sel s_nh l) (b_h b))
             (stacked sel s_lb l ++ skipn (total sel s_ng l) (b_lb b))
             (stacked sel s_ub l ++ skipn (total sel s_ng l) (b_ub b))).
Proof.
  intros W H1 H2 H3 H4. destruct b as [g h lb ub].
  exact (stack_loop_spec sel l [] [] [] [] g h lb ub W eq_refl eq_refl H1 H2 H3 H4).
Qed.

(** If the view is too small the write is out of range. *)
Lemma manager_stack_too_small sel l b :
  Forall well_sized l -> length (b_g b) < total sel s_ng l ->
  stack_loop sel l 0 0 b = None.
Proof.
  intro W.
  enough (forall ngi nhi b, length (b_g b) < ngi + total sel s_ng l ->
            (ngi <= length (b_g b)) -> stack_loop sel l ngi nhi b = None) as H
    by (intro; apply H; simpl; lia).
  induction l as [|m l IH]; unfold total in *; simpl in *; intros ngi nhi b' H Hi; [lia|].
  inversion W as [|? ? (W1 & W2 & W3 & W4) Wl]; subst.
  destruct (sel m); simpl in *; [|now apply IH].
  destruct (write_seg (b_g b') ngi (s_ng m) (s_g m)) eqn:E1; auto.
  destruct (write_seg (b_h b') nhi (s_nh m) (s_h m)); auto.
  destruct (write_seg (b_lb b') ngi (s_ng m) (s_lb m)); auto.
  destruct (write_seg (b_ub b') ngi (s_ng m) (s_ub m)); auto.
  unfold write_seg in E1.
  destruct ((ngi + s_ng m <=? length (b_g b')) && (length (s_g m) =? s_ng m)) eqn:E; [|discriminate].
  apply andb_prop in E as [E _]. apply Nat.leb_le in E. inversion E1; subst.
  assert (length (firstn ngi (b_g b') ++ s_g m ++ skipn (ngi + s_ng m) (b_g b')) = length (b_g b')) as HL.
  { rewrite !app_length, firstn_length, skipn_length. lia. }
  apply IH; simpl; auto; rewrite HL; lia.
Qed.
End Stack.

(** ** Contact forces *)
Section Forces.
Context {F : Type} (fzero : F).
Implicit Type l : list (fcontact F).

Definition attached (j : nat) (c : fcontact F) : bool := f_active c && Nat.eqb (f_joint c) j.

Lemma update_force_last l j :
  fst (update_force fzero l) j =
  match filter (attached j) (rev l) with [] => fzero | c :: _ => f_fext c end.
Proof.
  unfold update_force. simpl.
  rewrite <- fold_left_rev_right.
  induction (rev l) as [|c r IH]; simpl; auto.
  unfold attached at 1. destruct (f_active c); simpl; auto.
  unfold fput. rewrite (Nat.eqb_sym j). destruct (Nat.eqb_spec (f_joint c) j); simpl; auto.
Qed.

Lemma update_force_unique l j :
  (forall k1 k2 c1 c2, nth_error l k1 = Some c1 -> nth_error l k2 = Some c2 ->
     attached j c1 = true -> attached j c2 = true -> k1 = k2) ->
  fst (update_force fzero l) j =
  match filter (attached j) l with [] => fzero | c :: _ => f_fext c end /\
  length (filter (attached j) l) <= 1.
Proof.
  intro H. rewrite update_force_last.
  assert (length (filter (attached j) l) <= 1) as HL.
  { induction l as [|c l IH]; simpl; auto. destruct (attached j c) eqn:E; simpl.
    - enough (filter (attached j) l = []) as -> by (simpl; lia).
      destruct (filter (attached j) l) as [|c' r] eqn:E'; auto. exfalso.
      assert (In c' (filter (attached j) l)) as Hin by (rewrite E'; now left).
      apply filter_In in Hin as [Hin Ha]. apply In_nth_error in Hin as [k Hk].
      specialize (H 0 (Datatypes.S k) c c' eq_refl Hk E Ha). discriminate.
    - apply IH. intros k1 k2 c1 c2 H1 H2 A1 A2.
      specialize (H (Datatypes.S k1) (Datatypes.S k2) c1 c2 H1 H2 A1 A2). now injection H. }
  split; auto.
  assert (forall (A : Type) (p : A -> bool) (x : list A), filter p (rev x) = rev (filter p x)) as Hfr.
  { intros A p x. induction x as [|a x IH]; simpl; auto.
    rewrite filter_app, IH. simpl. destruct (p a); simpl; auto. now rewrite app_nil_r. }
  rewrite Hfr. destruct (filter (attached j) l) as [|c [|c' r]]; simpl in *; auto. lia.
Qed.

Lemma update_force_inactive l c' :
  In c' (snd (update_force fzero l)) -> f_active c' = false -> f_fext c' = fzero.
Proof.
  unfold update_force. simpl. intros H Hc. apply in_map_iff in H as (c & <- & _).
  destruct (f_active c) eqn:E; simpl in *; auto; congruence.
Qed.
End Forces.

(** ** Insertion order *)
Lemma fold_insert_find {V} (l : list (string * V)) k :
  NoDup (map fst l) ->
  mfind k (fold_right (fun kv m => minsert (fst kv) (snd kv) m) [] l) = mfind k l.
Proof.
  induction l as [|[k' v] l IH]; simpl; intro H; auto.
  inversion H as [|? ? Hn Hd]; subst. specialize (IH Hd).
  destruct (String.eqb_spec k k').
  - subst. apply minsert_find_new. rewrite IH. now apply mfind_None_iff.
  - rewrite minsert_find_other; auto.
Qed.

Lemma fold_insert_sorted {V} (l : list (string * V)) :
  ssorted (keys (fold_right (fun kv m => minsert (fst kv) (snd kv) m) [] l)).
Proof. induction l; simpl; [constructor|]. now apply minsert_sorted. Qed.

Lemma mfind_NoDup_In {V} (l : list (string * V)) k v :
  NoDup (map fst l) -> (mfind k l = Some v <-> In (k, v) l).
Proof.
  induction l as [|[k' v'] l IH]; simpl; intro H; [split; easy|].
  inversion H as [|? ? Hn Hd]; subst. specialize (IH Hd).
  destruct (String.eqb_spec k k').
  - subst. split; [left; congruence|]. intros [E|E]; [congruence|].
    apply in_map with (f := fst) in E. contradiction.
  - rewrite IH. split; auto. intros [E|E]; auto. congruence.
Qed.

Lemma fold_insert_perm {V} (l1 l2 : list (string * V)) :
  NoDup (map fst l1) -> Permutation l1 l2 ->
  fold_right (fun kv m => minsert (fst kv) (snd kv) m) [] l1 =
  fold_right (fun kv m => minsert (fst kv) (snd kv) m) [] l2.
Proof.
  intros H P.
  assert (NoDup (map fst l2)) as H2
    by (eapply Permutation_NoDup; [apply Permutation_map; exact P|auto]).
  apply smap_canonical; auto using fold_insert_sorted.
  intro k. rewrite !fold_insert_find by auto.
  destruct (mfind k l1) as [v|] eqn:E1.
  - apply mfind_NoDup_In in E1; auto. symmetry. apply mfind_NoDup_In; auto.
    eapply Permutation_in; eauto.
  - destruct (mfind k l2) as [v|] eqn:E2; auto.
    apply mfind_NoDup_In in E2; auto. apply Permutation_sym in P.
    apply (Permutation_in _ P) in E2. apply mfind_NoDup_In in E2; auto. congruence.
Qed.

(** ** Row of an item *)
Lemma stacked_row {S} (sel : seg_item S -> bool) l1 m l2 r :
  Forall well_sized (l1 ++ m :: l2) -> sel m = true -> r < s_ng m ->
  nth_error (stacked sel s_g (l1 ++ m :: l2)) (total sel s_ng l1 + r) = nth_error (s_g m) r /\
  nth_error (stacked sel s_lb (l1 ++ m :: l2)) (total sel s_ng l1 + r) = nth_error (s_lb m) r /\
  nth_error (stacked sel s_ub (l1 ++ m :: l2)) (total sel s_ng l1 + r) = nth_error (s_ub m) r.
Proof.
  intros W Hm Hr. apply Forall_app in W as [W1 W2]. inversion W2 as [|? ? (A & B & C & E) W3]; subst.
  pose proof (stacked_length_g sel l1 W1) as (L1 & _ & L3 & L4).
  unfold stacked in *. rewrite filter_app, !map_app, !concat_app. simpl. rewrite Hm. simpl.
  repeat split; rewrite nth_error_app2 by lia;
    [rewrite L1|rewrite L3|rewrite L4]; replace (_ + r - _) with r by lia;
    apply nth_error_app1; lia.
Qed.

Lemma manager_calc_exact {S} (l : list (seg_item S)) b :
  Forall well_sized l ->
  length (b_g b) = total sel_running s_ng l -> length (b_h b) = total sel_running s_nh l ->
  length (b_lb b) = total sel_running s_ng l -> length (b_ub b) = total sel_running s_ng l ->
  manager_calc l b =
  Some (Bufs (stacked sel_running s_g l) (stacked sel_running s_h l)
             (stacked sel_running s_lb l) (stacked sel_running s_ub l)).
Proof.
  intros W H1 H2 H3 H4. unfold manager_calc. rewrite manager_stack by (auto; lia).
  rewrite <- H1 at 1. rewrite <- H2 at 1. rewrite <- H3 at 1. rewrite <- H4 at 1.
  now rewrite !skipn_all, !app_nil_r.
Qed.

Lemma manager_calcT_exact {S} (l : list (seg_item S)) b :
  Forall well_sized l ->
  length (b_g b) = total sel_terminal s_ng l -> length (b_h b) = total sel_terminal s_nh l ->
  length (b_lb b) = total sel_running s_ng l -> length (b_ub b) = total sel_running s_ng l ->
  total sel_terminal s_ng l <= total sel_running s_ng l /\
  manager_calcT l b =
  Some (Bufs (stacked sel_terminal s_g l) (stacked sel_terminal s_h l)
             (stacked sel_terminal s_lb l ++ skipn (total sel_terminal s_ng l) (b_lb b))
             (stacked sel_terminal s_ub l ++ skipn (total sel_terminal s_ng l) (b_ub b))).
Proof.
  intros W H1 H2 H3 H4.
  assert (total sel_terminal s_ng l <= total sel_running s_ng l) as HT.
  { clear. unfold total, sel_terminal, sel_running. induction l as [|m l IH]; simpl; auto.
    destruct (s_active m), (s_T m); simpl; lia. }
  split; auto. unfold manager_calcT. rewrite manager_stack by (auto; lia).
  rewrite <- H1 at 1. rewrite <- H2 at 1.
  now rewrite !skipn_all, !app_nil_r.
Qed.

(** ** Re-sizing after deactivations *)
Section Resize.
Local Open Scope Z_scope.

Definition nonneg (s : cman) : Prop := forall k i, In (k, i) (m_items s) -> 0 <= ci_ng i.

Lemma minsert_In {V} k (v : V) m x : In x (minsert k v m) -> x = (k, v) \/ In x m.
Proof.
  induction m as [|[k' v'] m IH]; simpl; [intuition|].
  destruct (String.compare k k'); simpl; intuition.
Qed.
Lemma merase_In {V} k (m : smap V) x : In x (merase k m) -> In x m.
Proof. induction m as [|[k' v'] m IH]; simpl; auto. destruct (String.eqb k k'); simpl; intuition. Qed.
Lemma mupdate_In {V} k g (m : smap V) k1 v1 :
  In (k1, v1) (mupdate k g m) -> In (k1, v1) m \/ exists v, In (k1, v) m /\ v1 = g v.
Proof.
  induction m as [|[k' v'] m IH]; simpl; auto.
  destruct (String.eqb k k'); simpl.
  - intros [H|H]; [injection H as <- <-; right; exists v'; auto|auto].
  - intros [H|H]; auto. destruct (IH H) as [|(v & Hv & ->)]; auto. right. exists v. auto.
Qed.

Lemma nonneg_step s o :
  nonneg s -> match o with MAdd _ i => 0 <= ci_ng i | _ => True end -> nonneg (mstep s o).
Proof.
  intros N H. destruct o as [n i|n|n b]; simpl.
  - unfold add_constraint. destruct (ci_nu i =? m_nu s); simpl; auto.
    destruct (mfind n (m_items s)); simpl; auto.
    destruct (ci_active i); simpl; intros k j Hj; apply minsert_In in Hj as [Hj|Hj];
      try (injection Hj as <- <-; exact H); eapply N; eauto.
  - unfold remove_constraint. destruct (mfind n (m_items s)) as [i|]; auto.
    destruct (ci_active i); simpl; intros k j Hj; apply merase_In in Hj; eapply N; eauto.
  - unfold change_constraint. destruct (mfind n (m_items s)) as [i|]; auto.
    destruct (b && negb (ci_active i)); [|destruct (negb b && ci_active i); auto];
      intros k j Hj; apply mupdate_In in Hj as [Hj|(v & Hv & ->)];
      [exact (N _ _ Hj)|exact (N _ _ Hv)|exact (N _ _ Hj)|exact (N _ _ Hv)].
Qed.

Lemma dims_nonneg s p : nonneg s -> 0 <= dims ci_ng p (m_items s).
Proof.
  unfold nonneg, dims. induction (m_items s) as [|[k i] l IH]; simpl; intro N; [lia|].
  assert (0 <= ci_ng i) by (eapply N; left; reflexivity).
  assert (0 <= sumZ (map (fun x => if p (snd x) then ci_ng (snd x) else 0) l)).
  { apply IH. intros k' i' Hin. eapply N. right; eauto. }
  destruct (p i); lia.
Qed.

Lemma shrink_step s f o :
  minv s f -> nonneg s ->
  match o with MAdd _ _ => False | MStatus _ b => b = false | _ => True end ->
  dims ci_ng ci_active (m_items (mstep s o)) <= dims ci_ng ci_active (m_items s).
Proof.
  intros I N H. destruct o as [n i|n|n b]; [easy| |]; simpl.
  - unfold remove_constraint. destruct (mfind n (m_items s)) as [i|] eqn:E; [|lia].
    assert (0 <= ci_ng i) by (eapply N; apply mfind_Some_In; eauto).
    destruct (ci_active i) eqn:Ei; simpl; rewrite dims_merase with (v := i) by auto; rewrite Ei; lia.
  - subst b. unfold change_constraint. destruct (mfind n (m_items s)) as [i|] eqn:E; [|lia].
    assert (0 <= ci_ng i) by (eapply N; apply mfind_Some_In; eauto).
    simpl. destruct (ci_active i) eqn:Ei; simpl; [|lia].
    rewrite dims_mupdate with (v := i) by auto. simpl. rewrite Ei. lia.
Qed.

Lemma mrun_app s h1 h2 : mrun s (h1 ++ h2) = mrun (mrun s h1) h2.
Proof. apply fold_left_app. Qed.

Lemma mrun_nonneg h : forall s, nonneg s ->
  (forall o, In o h -> match o with MAdd _ i => 0 <= ci_ng i | _ => True end) ->
  nonneg (mrun s h).
Proof.
  induction h as [|o h IH]; intros s N H; simpl; auto.
  apply IH; [apply nonneg_step; auto; apply H; now left|]. intros o' Ho'. apply H. now right.
Qed.

Lemma shrink_run h : forall s f,
  minv s f -> nonneg s ->
  (forall o, In o h -> match o with MAdd _ _ => False | MStatus _ b => b = false | _ => True end) ->
  dims ci_ng ci_active (m_items (mrun s h)) <= dims ci_ng ci_active (m_items s).
Proof.
  induction h as [|o h IH]; intros s f I N H; simpl; [lia|].
  assert (Ho := H o (or_introl eq_refl)).
  eapply Z.le_trans; [|exact (shrink_step s f o I N Ho)].
  apply (IH _ _ (minv_step _ _ o I)).
  - apply nonneg_step; auto. now destruct o.
  - intros o' Ho'. apply H. now right.
Qed.

Lemma resize_after_deactivation nu h1 h2 :
  (forall o, In o h1 -> match o with MAdd _ i => 0 <= ci_ng i | _ => True end) ->
  (forall l, enumerates l (amrun nu h1) -> dims ci_ng ci_active l < 2 ^ 64) ->
  (forall o, In o h2 -> match o with MAdd _ _ => False | MStatus _ b => b = false | _ => True end) ->
  gmem_safe (gmem_resize (m_ng (mrun (empty_cman nu) (h1 ++ h2)))
                         (gmem_create (m_ng (mrun (empty_cman nu) h1)))).
Proof.
  intros H1 H2 H3. unfold gmem_safe. simpl. rewrite mrun_app.
  pose proof (mrun_inv h1 _ _ (minv_empty nu)) as I1. simpl in I1. fold (amrun nu h1) in I1.
  set (s1 := mrun (empty_cman nu) h1) in *.
  assert (nonneg s1) as N1 by (apply mrun_nonneg; auto; intros k i []).
  pose proof (mrun_inv h2 _ _ I1) as I2.
  assert (nonneg (mrun s1 h2)) as N2.
  { apply mrun_nonneg; auto. intros o Ho. specialize (H3 o Ho). now destruct o. }
  rewrite (minv_ng _ _ I1), (minv_ng _ _ I2).
  pose proof (H2 _ (enumerates_smap _ _ (minv_items _ _ I1) (minv_find _ _ I1))) as B.
  pose proof (shrink_run h2 s1 _ I1 N1 H3).
  pose proof (dims_nonneg _ ci_active N1). pose proof (dims_nonneg _ ci_active N2).
  unfold size_mod in *. rewrite !wrap_small by (unfold size_mod; lia). lia.
Qed.
End Resize.
