(** Proofs about the named containers. *)
From Coq Require Import ZArith String List Bool Sorted Permutation Lia.
From Verif Require Import Common SMap Containers_Model Containers_Spec.
Import ListNotations.
Local Open Scope Z_scope.

(** ** Sums over maps *)
Section Dims.
Context {A : Type} (dim : A -> Z) (p : A -> bool).
Let contrib (v : A) : Z := if p v then dim v else 0.

Lemma dims_minsert k v (m : smap A) :
  mfind k m = None -> dims dim p (minsert k v m) = dims dim p m + contrib v.
Proof.
  unfold dims. induction m as [|[k' v'] m IH]; simpl; intro H; [unfold contrib; lia|].
  destruct (String.eqb_spec k k'); [discriminate|].
  destruct (String.compare k k') eqn:E; simpl.
  - now apply String.compare_eq_iff in E.
  - unfold contrib; lia.
  - rewrite IH by auto. unfold contrib; lia.
Qed.

Lemma dims_merase k v (m : smap A) :
  mfind k m = Some v -> dims dim p (merase k m) = dims dim p m - contrib v.
Proof.
  unfold dims. induction m as [|[k' v'] m IH]; simpl; [discriminate|].
  destruct (String.eqb k k'); intro H; simpl.
  - inversion H; subst. unfold contrib; lia.
  - rewrite IH by auto. lia.
Qed.

Lemma dims_mupdate k g v (m : smap A) :
  mfind k m = Some v ->
  dims dim p (mupdate k g m) = dims dim p m - contrib v + contrib (g v).
Proof.
  unfold dims. induction m as [|[k' v'] m IH]; simpl; [discriminate|].
  destruct (String.eqb k k'); intro H; simpl.
  - inversion H; subst. unfold contrib; lia.
  - rewrite IH by auto. lia.
Qed.

Lemma dims_perm l1 l2 : Permutation l1 l2 -> dims dim p l1 = dims dim p l2.
Proof.
  unfold dims. induction 1; simpl; auto; lia.
Qed.
End Dims.

Lemma NoDup_fst {A} (l : list (string * A)) : NoDup (map fst l) -> NoDup l.
Proof. apply NoDup_map_inv. Qed.

Lemma enumerates_perm {A} (l1 l2 : list (string * A)) f :
  enumerates l1 f -> enumerates l2 f -> Permutation l1 l2.
Proof.
  intros [N1 H1] [N2 H2]. apply NoDup_Permutation; try now apply NoDup_fst.
  intros [n v]. now rewrite H1, H2.
Qed.

Lemma enumerates_smap {A} (m : smap A) (f : amap A) :
  ssorted (keys m) -> (forall k, mfind k m = f k) -> enumerates m f.
Proof.
  intros Hs Hf. split; [now apply ssorted_NoDup|].
  intros n v. rewrite <- Hf. split; [now apply In_mfind | apply mfind_Some_In].
Qed.

(** ** Invariant of the cost/contact/impulse containers *)
Record inv (s : cont) (f : amap item) : Prop := {
  inv_items : ssorted (keys (c_items s));
  inv_act : ssorted (c_act s);
  inv_inact : ssorted (c_inact s);
  inv_find : forall k, mfind k (c_items s) = f k;
  inv_sets : exact_sets s f }.

Definition count_ok (s : cont) (off : Z) : Prop :=
  c_n s = wrap (dims it_dim it_active (c_items s) - off) /\
  c_ntot s = wrap (dims it_dim (fun _ => true) (c_items s)).

Lemma inv_empty nu : inv (empty_cont nu) (fun _ => None).
Proof.
  constructor; simpl; try constructor; auto.
  - split; [easy|]. now intros (i & H & _).
  - split; [easy|]. now intros (i & H & _).
Qed.

Lemma aset_same {A} n (v : option A) f : aset n v f n = v.
Proof. unfold aset. now rewrite String.eqb_refl. Qed.
Lemma aset_other {A} n (v : option A) f k : k <> n -> aset n v f k = f k.
Proof. unfold aset. destruct (String.eqb_spec k n); congruence. Qed.

Ltac dec_name k n :=
  destruct (String.eqb_spec k n) as [->|?];
  [rewrite ?aset_same in * | rewrite ?aset_other in * by assumption].

Lemma exact_sets_aset s f n v act inact :
  ssorted (c_act s) -> ssorted (c_inact s) -> exact_sets s f ->
  (forall x, In x act <-> (x = n /\ (exists i, v = Some i /\ it_active i = true)) \/ (x <> n /\ In x (c_act s))) ->
  (forall x, In x inact <-> (x = n /\ (exists i, v = Some i /\ it_active i = false)) \/ (x <> n /\ In x (c_inact s))) ->
  exact_sets (Cont (c_nu s) (c_n s) (c_ntot s) (c_items s) act inact) (aset n v f).
Proof.
  intros S1 S2 [E1 E2] H1 H2. split; simpl; intro x.
  - rewrite H1. dec_name x n.
    + intuition.
    + rewrite E1. intuition.
  - rewrite H2. dec_name x n.
    + intuition.
    + rewrite E2. intuition.
Qed.

Lemma exact_sets_ext s s' f f' :
  c_act s = c_act s' -> c_inact s = c_inact s' -> (forall k, f k = f' k) ->
  exact_sets s f -> exact_sets s' f'.
Proof.
  intros H1 H2 H3 [E1 E2]. split; intro n; rewrite <- ?H1, <- ?H2, <- ?H3; auto.
Qed.

Lemma inv_ext s f f' : (forall k, f k = f' k) -> inv s f -> inv s f'.
Proof.
  intros H [a b c d e]. constructor; auto.
  - intro. now rewrite <- H.
  - eapply exact_sets_ext; eauto.
Qed.

Lemma inv_not_act s f n : inv s f -> f n = None -> ~ In n (c_act s) /\ ~ In n (c_inact s).
Proof.
  intros [_ _ _ _ [E1 E2]] H. rewrite E1, E2, H. split; now intros (i & Hi & _).
Qed.

Ltac fin x n :=
  destruct (String.eqb_spec x n); [subst x|]; split; intros Hfin;
  repeat match goal with
         | H : _ \/ _ |- _ => destruct H
         | H : _ /\ _ |- _ => destruct H
         | H : exists _, _ |- _ => destruct H
         end; subst; try congruence; try contradiction;
  try match goal with H : Some _ = Some _ |- _ => inversion H; subst; simpl in *; congruence end;
  try (right; split; [congruence|assumption]); try (right; assumption); try (left; reflexivity);
  try (left; split; [reflexivity|eexists; split; [reflexivity|assumption || reflexivity]]);
  try (split; [assumption|congruence]); auto.

(** New item. *)
Lemma inv_add_new n i s f :
  inv s f -> f n = None ->
  inv (Cont (c_nu s) (c_n s) (c_ntot s) (minsert n i (c_items s))
            (if it_active i then sinsert n (c_act s) else c_act s)
            (if it_active i then c_inact s else sinsert n (c_inact s)))
      (aset n (Some i) f).
Proof.
  intros I Hn. pose proof (inv_not_act _ _ _ I Hn) as [Ha Hi]. destruct I as [a b c d e].
  assert (mfind n (c_items s) = None) as Hf by now rewrite d.
  constructor; simpl.
  - now apply minsert_sorted.
  - destruct (it_active i); auto. now apply sinsert_sorted.
  - destruct (it_active i); auto. now apply sinsert_sorted.
  - intro k. dec_name k n.
    + now apply minsert_find_new.
    + rewrite minsert_find_other; auto.
  - eapply exact_sets_ext; [| | |apply (exact_sets_aset s f n (Some i)
      (if it_active i then sinsert n (c_act s) else c_act s)
      (if it_active i then c_inact s else sinsert n (c_inact s)) b c e)]; simpl; auto.
    + intro x. destruct (it_active i) eqn:Ei; rewrite ?sinsert_In.
      * fin x n.
      * fin x n.
    + intro x. destruct (it_active i) eqn:Ei; rewrite ?sinsert_In.
      * fin x n.
      * fin x n.
Qed.

Lemma inv_remove n s f : inv s f -> inv (remove n s) (aset n None f).
Proof.
  intros [a b c d e]. unfold remove. destruct (mfind n (c_items s)) as [i|] eqn:E.
  - constructor; simpl.
    + now apply merase_sorted.
    + now apply serase_sorted.
    + now apply serase_sorted.
    + intro k. dec_name k n; [now apply merase_find_same|].
      rewrite merase_find_other; auto.
    + eapply exact_sets_ext; [| | |apply (exact_sets_aset s f n None
        (serase n (c_act s)) (serase n (c_inact s)) b c e)]; simpl; auto.
      * intro x. rewrite serase_In by auto. fin x n.
      * intro x. rewrite serase_In by auto. fin x n.
  - apply inv_ext with f.
    + intro k. dec_name k n; auto. now rewrite <- d.
    + now constructor.
Qed.

Lemma set_active_same i : set_active (it_active i) i = i.
Proof. now destruct i. Qed.

Lemma inv_status n b s f :
  inv s f -> inv (change_status n b s) (aset n (option_map (set_active b) (f n)) f).
Proof.
  intros [a b' c d e]. unfold change_status.
  destruct (mfind n (c_items s)) as [i|] eqn:E.
  - pose proof E as E'. rewrite d in E'. rewrite E'. simpl.
    assert (b = it_active i -> inv s (aset n (Some (set_active b i)) f)) as Hsame.
    { intros ->. rewrite set_active_same. apply inv_ext with f; [|now constructor].
      intro k. dec_name k n; auto. }
    destruct b, (it_active i) eqn:Ei; simpl; auto.
    + constructor; simpl; auto.
      * now rewrite mupdate_keys.
      * now apply sinsert_sorted.
      * now apply serase_sorted.
      * intro k. dec_name k n.
        -- now rewrite mupdate_find_same, E.
        -- rewrite mupdate_find_other; auto.
      * eapply exact_sets_ext; [| | |apply (exact_sets_aset s f n (Some (set_active true i))
          (sinsert n (c_act s)) (serase n (c_inact s)) b' c e)]; simpl; auto.
        -- intro x. rewrite sinsert_In. fin x n.
        -- intro x. rewrite serase_In by auto. fin x n.
    + constructor; simpl; auto.
      * now rewrite mupdate_keys.
      * now apply serase_sorted.
      * now apply sinsert_sorted.
      * intro k. dec_name k n.
        -- now rewrite mupdate_find_same, E.
        -- rewrite mupdate_find_other; auto.
      * eapply exact_sets_ext; [| | |apply (exact_sets_aset s f n (Some (set_active false i))
          (serase n (c_act s)) (sinsert n (c_inact s)) b' c e)]; simpl; auto.
        -- intro x. rewrite serase_In by auto. fin x n.
        -- intro x. rewrite sinsert_In. fin x n.
  - apply inv_ext with f; [|now constructor].
    intro k. dec_name k n; auto. rewrite <- d, E. reflexivity.
Qed.

(** The counters do not matter for [inv]. *)
Lemma inv_counters s f n t :
  inv s f -> inv (Cont (c_nu s) n t (c_items s) (c_act s) (c_inact s)) f.
Proof. intros [a b c d e]. constructor; auto. Qed.

Lemma inv_add_checked n i s f :
  inv s f ->
  inv (add_checked n i s) (match f n with Some _ => f | None => aset n (Some i) f end).
Proof.
  intro I. unfold add_checked. rewrite (inv_find _ _ I n).
  destruct (f n) eqn:E; auto.
  pose proof (inv_add_new n i s f I E) as H.
  destruct (it_active i); now apply (inv_counters _ _ _ _ H).
Qed.

Lemma step_nu s o : c_nu (step s o) = c_nu s.
Proof.
  destruct o; simpl; unfold add_named, add_item, add_checked, remove, change_status, keep; simpl.
  - destruct (it_nu i =? c_nu s); simpl; auto. destruct (mfind name (c_items s)); auto.
    destruct (it_active i); auto.
  - destruct (it_nu i =? c_nu s); simpl; auto. destruct (it_active i); auto.
  - destruct (mfind name (c_items s)); auto.
  - destruct (mfind name (c_items s)); auto.
    destruct (b && negb (it_active i)); auto. destruct (negb b && it_active i); auto.
Qed.

(** One call preserves [inv], except for a duplicate [addCost(CostItem)]. *)
Lemma inv_step s f o :
  inv s f ->
  match o with OpAddItem n i => it_nu i = c_nu s -> f n = None | _ => True end ->
  inv (step s o) (astep (c_nu s) f o).
Proof.
  intros I Hc. destruct o as [n i|n i|n|n b]; simpl.
  - unfold add_named, keep. destruct (it_nu i =? c_nu s); simpl; auto.
    now apply inv_add_checked.
  - unfold add_item, keep. destruct (Z.eqb_spec (it_nu i) (c_nu s)); simpl; auto.
    specialize (Hc e). rewrite Hc.
    pose proof (inv_add_new n i s f I Hc) as H.
    destruct (it_active i); now apply (inv_counters _ _ _ _ H).
  - now apply inv_remove.
  - now apply inv_status.
Qed.

Lemma count_ok_step s f o off :
  inv s f -> count_ok s off ->
  match o with OpAddItem n i => it_nu i = c_nu s -> f n = None | _ => True end ->
  count_ok (step s o)
    (off + match o with
           | OpRemove n => match f n with
                           | Some i => if it_active i then 0 else it_dim i
                           | None => 0 end
           | _ => 0 end).
Proof.
  intros I [C1 C2] Hc. pose proof (inv_find _ _ I) as Hf. destruct o as [n i|n i|n|n b]; simpl.
  - replace (off + 0) with off by lia.
    unfold add_named, keep, add_checked. destruct (it_nu i =? c_nu s); simpl; [|now split].
    destruct (mfind n (c_items s)) eqn:E; [now split|].
    destruct (it_active i) eqn:Ei; split; simpl;
      rewrite ?C1, ?C2; unfold sz_add; rewrite ?wrap_add_l, dims_minsert by auto; rewrite ?Ei;
      f_equal; lia.
  - replace (off + 0) with off by lia.
    unfold add_item, keep. destruct (Z.eqb_spec (it_nu i) (c_nu s)); simpl; [|now split].
    specialize (Hc e). rewrite <- Hf in Hc.
    destruct (it_active i) eqn:Ei; split; simpl;
      rewrite ?C1, ?C2; unfold sz_add; rewrite ?wrap_add_l, dims_minsert by auto; rewrite ?Ei;
      f_equal; lia.
  - unfold remove. rewrite <- (Hf n). destruct (mfind n (c_items s)) as [i|] eqn:E.
    + split; simpl; rewrite ?C1, ?C2; unfold sz_sub; rewrite ?wrap_sub_l, dims_merase with (v := i) by auto;
        f_equal; destruct (it_active i); lia.
    + split; auto. rewrite C1. f_equal. lia.
  - replace (off + 0) with off by lia. unfold change_status.
    destruct (mfind n (c_items s)) as [i|] eqn:E; [|now split].
    destruct b, (it_active i) eqn:Ei; simpl; try now split.
    + split; simpl; rewrite ?C1, ?C2; unfold sz_add;
        rewrite ?wrap_add_l, dims_mupdate with (v := i) by auto; simpl; rewrite ?Ei; f_equal; lia.
    + split; simpl; rewrite ?C1, ?C2; unfold sz_sub;
        rewrite ?wrap_sub_l, dims_mupdate with (v := i) by auto; simpl; rewrite ?Ei; f_equal; lia.
Qed.

Fixpoint no_dup_item (nu : Z) (f : amap item) (h : list cop) : Prop :=
  match h with
  | [] => True
  | o :: r =>
      match o with OpAddItem n i => it_nu i = nu -> f n = None | _ => True end
      /\ no_dup_item nu (astep nu f o) r
  end.

Lemma run_inv h : forall s f off,
  inv s f -> count_ok s off -> no_dup_item (c_nu s) f h ->
  inv (run s h) (fold_left (astep (c_nu s)) h f) /\
  count_ok (run s h) (off + removed_inactive (c_nu s) f h).
Proof.
  induction h as [|o h IH]; intros s f off I C N; simpl.
  - split; auto. now replace (off + 0) with off by lia.
  - destruct N as [N1 N2].
    pose proof (inv_step _ _ _ I N1) as I'. pose proof (count_ok_step _ _ _ _ I C N1) as C'.
    pose proof (IH (step s o) (astep (c_nu s) f o) _ I' C') as IH'.
    rewrite step_nu in IH'. specialize (IH' N2). destruct IH' as [A B]. split; auto.
    replace (off + (_ + _)) with
      (off + match o with
           | OpRemove n => match f n with
                           | Some i => if it_active i then 0 else it_dim i
                           | None => 0 end
           | _ => 0 end + removed_inactive (c_nu s) (astep (c_nu s) f o) h); auto.
    destruct o; lia.
Qed.

Lemma count_ok_empty nu : count_ok (empty_cont nu) 0.
Proof. split; reflexivity. Qed.

Lemma no_overload_no_dup h : no_item_overload h -> forall nu f, no_dup_item nu f h.
Proof.
  induction h as [|o h IH]; intros N nu f; simpl; auto. split.
  - specialize (N o (or_introl eq_refl)). now destruct o.
  - apply IH. intros o' H. apply N. now right.
Qed.

Lemma careful_no_dup h : forall nu f, careful nu f h -> no_dup_item nu f h /\ removed_inactive nu f h = 0.
Proof.
  induction h as [|o h IH]; intros nu f; simpl; auto. intros [H1 H2].
  apply IH in H2 as [H2 H3]. rewrite H3. split; [split; auto|].
  - now destruct o.
  - destruct o; auto. destruct (f name); auto. now rewrite H1.
Qed.

Lemma count_exact s f off :
  inv s f -> count_ok s off ->
  (exists l, enumerates l f) /\
  forall l, enumerates l f ->
    c_n s = wrap (dims it_dim it_active l - off) /\
    c_ntot s = wrap (dims it_dim (fun _ => true) l).
Proof.
  intros I [C1 C2]. pose proof (enumerates_smap _ _ (inv_items _ _ I) (inv_find _ _ I)) as E.
  split; [eauto|]. intros l El. pose proof (enumerates_perm _ _ _ E El) as P.
  rewrite C1, C2. now rewrite !(dims_perm _ _ _ _ P).
Qed.

Lemma careful_exact nu h :
  careful nu (fun _ => None) h ->
  (forall n, mfind n (c_items (run (empty_cont nu) h)) = arun nu h n) /\
  exact_counters (run (empty_cont nu) h) (arun nu h) /\
  exact_sets (run (empty_cont nu) h) (arun nu h).
Proof.
  intro H. apply careful_no_dup in H as [H1 H2].
  destruct (run_inv h _ _ 0 (inv_empty nu) (count_ok_empty nu) H1) as [I C].
  simpl in I, C. rewrite H2 in C. pose proof (count_exact _ _ _ I C) as E.
  split; [apply I|split; [|apply I]].
  destruct E as [E1 E2]. split; auto. intros l Hl. destruct (E2 l Hl) as [E3 E4].
  split; auto. rewrite E3. f_equal. lia.
Qed.

Lemma contacts_characterised nu h :
  no_item_overload h ->
  (forall n, mfind n (c_items (run (empty_cont nu) h)) = arun nu h n) /\
  exact_sets (run (empty_cont nu) h) (arun nu h) /\
  (exists l, enumerates l (arun nu h)) /\
  (forall l, enumerates l (arun nu h) ->
     c_n (run (empty_cont nu) h)
       = wrap (dims it_dim it_active l - removed_inactive nu (fun _ => None) h) /\
     c_ntot (run (empty_cont nu) h) = wrap (dims it_dim (fun _ => true) l)).
Proof.
  intro H. pose proof (no_overload_no_dup h H nu (fun _ => None)) as N.
  destruct (run_inv h _ _ 0 (inv_empty nu) (count_ok_empty nu) N) as [I C].
  simpl in I, C. pose proof (count_exact _ _ _ I C) as [E1 E2].
  split; [apply I|split; [apply I|split; auto]].
Qed.

(** ** Impulses: same container without the dimension check *)
Lemma inv_impulse_step s f o :
  inv s f -> inv (impulse_step s o) (aistep f o).
Proof.
  intro I. destruct o as [n i|n i|n|n b]; simpl; auto.
  - now apply inv_add_checked.
  - now apply inv_remove.
  - now apply inv_status.
Qed.

Fixpoint iremoved_inactive (f : amap item) (h : list cop) : Z :=
  match h with
  | [] => 0
  | o :: r =>
      match o with
      | OpRemove n => match f n with
                      | Some i => if it_active i then 0 else it_dim i
                      | None => 0
                      end
      | _ => 0
      end + iremoved_inactive (aistep f o) r
  end.

Lemma impulse_count_ok_step s f o off :
  inv s f -> count_ok s off ->
  count_ok (impulse_step s o)
    (off + match o with
           | OpRemove n => match f n with
                           | Some i => if it_active i then 0 else it_dim i
                           | None => 0 end
           | _ => 0 end).
Proof.
  intros I C. destruct o as [n i|n i|n|n b].
  - destruct C as [C1 C2]. replace (off + 0) with off by lia. simpl.
    unfold add_impulse, keep, add_checked. simpl.
    destruct (mfind n (c_items s)) eqn:E; [now split|].
    destruct (it_active i) eqn:Ei; split; simpl;
      rewrite ?C1, ?C2; unfold sz_add; rewrite ?wrap_add_l, dims_minsert by auto; rewrite ?Ei;
      f_equal; lia.
  - replace (off + 0) with off by lia. exact C.
  - exact (count_ok_step s f (OpRemove n) off I C Logic.I).
  - exact (count_ok_step s f (OpStatus n b) off I C Logic.I).
Qed.

Lemma impulse_run_inv h : forall s f off,
  inv s f -> count_ok s off ->
  inv (impulse_run s h) (fold_left aistep h f) /\
  count_ok (impulse_run s h) (off + iremoved_inactive f h).
Proof.
  induction h as [|o h IH]; intros s f off I C; simpl.
  - split; auto. now replace (off + 0) with off by lia.
  - pose proof (inv_impulse_step _ _ o I) as I'.
    pose proof (impulse_count_ok_step _ _ o _ I C) as C'.
    destruct (IH _ _ _ I' C') as [A B]. split; auto.
    replace (off + (_ + _)) with
      (off + match o with
           | OpRemove n => match f n with
                           | Some i => if it_active i then 0 else it_dim i
                           | None => 0 end
           | _ => 0 end + iremoved_inactive (aistep f o) h); auto.
    destruct o; lia.
Qed.

Lemma impulses_characterised nu h :
  (forall n, mfind n (c_items (impulse_run (empty_cont nu) h)) = airun h n) /\
  exact_sets (impulse_run (empty_cont nu) h) (airun h) /\
  (exists l, enumerates l (airun h)) /\
  (forall l, enumerates l (airun h) ->
     c_n (impulse_run (empty_cont nu) h)
       = wrap (dims it_dim it_active l - iremoved_inactive (fun _ => None) h) /\
     c_ntot (impulse_run (empty_cont nu) h) = wrap (dims it_dim (fun _ => true) l)).
Proof.
  destruct (impulse_run_inv h _ _ 0 (inv_empty nu) (count_ok_empty nu)) as [I C].
  simpl in C. pose proof (count_exact _ _ _ I C) as [E1 E2].
  split; [apply I|split; [apply I|split; auto]].
Qed.

(** ** Constraint manager *)
Record minv (s : cman) (f : amap citem) : Prop := {
  minv_items : ssorted (keys (m_items s));
  minv_act : ssorted (m_act s);
  minv_inact : ssorted (m_inact s);
  minv_find : forall k, mfind k (m_items s) = f k;
  minv_ng : m_ng s = wrap (dims ci_ng ci_active (m_items s));
  minv_nh : m_nh s = wrap (dims ci_nh ci_active (m_items s));
  minv_ngT : m_ngT s = wrap (dims ci_ng (fun i => ci_active i && ci_T i) (m_items s));
  minv_nhT : m_nhT s = wrap (dims ci_nh (fun i => ci_active i && ci_T i) (m_items s));
  minv_lb : m_lbsize s = m_ng s;
  minv_sact : forall n, In n (m_act s) <-> exists i, f n = Some i /\ ci_active i = true;
  minv_sinact : forall n, In n (m_inact s) <-> exists i, f n = Some i /\ ci_active i = false }.

Lemma minv_ext s f f' : (forall k, f k = f' k) -> minv s f -> minv s f'.
Proof.
  intros H [? ? ? ? ? ? ? ? ? ? ?]. constructor; auto; intro; rewrite <- H; auto.
Qed.

Lemma minv_empty nu : minv (empty_cman nu) (fun _ => None).
Proof.
  constructor; simpl; try constructor; auto; try easy; now intros (i & H & _).
Qed.

Lemma set_in_add (P Q : bool) (act : sset) (f : amap citem) n i x :
  (forall m, In m act <-> exists j, f m = Some j /\ ci_active j = P) ->
  ci_active i = P -> 
  (In x (sinsert n act) <-> exists j, aset n (Some i) f x = Some j /\ ci_active j = P).
Proof.
  intros H Hi. rewrite sinsert_In, H. dec_name x n.
  - split; eauto.
  - intuition.
Qed.

Lemma set_in_del (P : bool) (act : sset) (f : amap citem) n v x :
  ssorted act ->
  (forall m, In m act <-> exists j, f m = Some j /\ ci_active j = P) ->
  (forall i, v = Some i -> ci_active i <> P) ->
  (In x (serase n act) <-> exists j, aset n v f x = Some j /\ ci_active j = P).
Proof.
  intros S H Hi. rewrite serase_In, H by auto. dec_name x n.
  - split; [intuition|]. intros (j & Hj & Hj'). now apply Hi in Hj.
  - intuition.
Qed.

Lemma set_in_keep (P : bool) (act : sset) (f : amap citem) n v x :
  (forall m, In m act <-> exists j, f m = Some j /\ ci_active j = P) ->
  (forall i, f n = Some i -> ci_active i <> P) ->
  (forall i, v = Some i -> ci_active i <> P) ->
  (In x act <-> exists j, aset n v f x = Some j /\ ci_active j = P).
Proof.
  intros H Hn Hi. rewrite H. dec_name x n.
  - split; intros (j & Hj & Hj'); exfalso; [eapply Hn|eapply Hi]; eauto.
  - intuition.
Qed.

Lemma cset_active_same i : cset_active (ci_active i) i = i.
Proof. now destruct i. Qed.

Ltac cnt_tac Ei :=
  unfold sz_add, sz_sub in *; rewrite ?wrap_add_l, ?wrap_sub_l; f_equal; rewrite ?Ei; simpl; lia.

Lemma minv_step s f o :
  minv s f -> minv (mstep s o) (amstep (m_nu s) f o).
Proof.
  intro I. pose proof I as [a b c d g1 g2 g3 g4 lb s1 s2].
  destruct o as [n i|n|n v]; simpl.
  - unfold add_constraint. destruct (ci_nu i =? m_nu s); simpl; auto.
    rewrite d. destruct (f n) as [j|] eqn:E; simpl; auto.
    assert (mfind n (m_items s) = None) as Hn by now rewrite d.
    destruct (ci_active i) eqn:Ei; simpl; constructor; simpl; auto;
      try (apply minsert_sorted; now auto); try (apply sinsert_sorted; now auto);
      try (intro k; dec_name k n; [now apply minsert_find_new|rewrite minsert_find_other; auto]);
      try (rewrite ?g1, ?g2, ?g3, ?g4, dims_minsert by auto; rewrite Ei; simpl;
           try destruct (ci_T i); cnt_tac Ei).
    + intro x. apply set_in_add; auto. exact true.
    + intro x. apply set_in_keep; auto; intros i0 Hi0; [congruence|inversion Hi0; congruence].
    + intro x. apply set_in_keep; auto; intros i0 Hi0; [congruence|inversion Hi0; congruence].
    + intro x. apply set_in_add; auto. exact true.
  - unfold remove_constraint. destruct (mfind n (m_items s)) as [i|] eqn:E.
    + assert (f n = Some i) as Ef by now rewrite <- d.
      destruct (ci_active i) eqn:Ei; simpl; constructor; simpl; auto;
      try (apply merase_sorted; now auto); try (apply serase_sorted; now auto);
      try (intro k; dec_name k n; [now apply merase_find_same|rewrite merase_find_other; auto]);
      try (rewrite ?g1, ?g2, ?g3, ?g4, dims_merase with (v := i) by auto; rewrite Ei; simpl;
           try destruct (ci_T i); cnt_tac Ei).
      * intro x. apply set_in_del; auto. discriminate.
      * intro x. apply set_in_keep; auto; intros i0 Hi0; congruence.
      * intro x. apply set_in_keep; auto; intros i0 Hi0; congruence.
      * intro x. apply set_in_del; auto. discriminate.
    + apply minv_ext with f; auto. intro k. dec_name k n; auto. now rewrite <- d.
  - unfold change_constraint. destruct (mfind n (m_items s)) as [i|] eqn:E.
    + assert (f n = Some i) as Ef by now rewrite <- d. rewrite Ef. simpl.
      assert (v = ci_active i -> minv s (aset n (Some (cset_active v i)) f)) as Hsame.
      { intros ->. rewrite cset_active_same. apply minv_ext with f; auto.
        intro k. dec_name k n; auto. }
      destruct v, (ci_active i) eqn:Ei; simpl; auto; constructor; simpl; auto;
      try (now rewrite mupdate_keys);
      try (apply sinsert_sorted; now auto); try (apply serase_sorted; now auto);
      try (intro k; dec_name k n; [now rewrite mupdate_find_same, E|rewrite mupdate_find_other; auto]);
      try (rewrite ?g1, ?g2, ?g3, ?g4, dims_mupdate with (v := i) by auto; simpl; rewrite Ei; simpl;
           try destruct (ci_T i); cnt_tac Ei).
      * intro x. apply set_in_add; auto. exact true.
      * intro x. apply set_in_del; auto. intros i0 Hi0; inversion Hi0; discriminate.
      * intro x. apply set_in_del; auto. intros i0 Hi0; inversion Hi0; discriminate.
      * intro x. apply set_in_add; auto. exact true.
    + apply minv_ext with f; auto. intro k. dec_name k n; auto. rewrite <- d, E. reflexivity.
Qed.

Lemma mstep_nu s o : m_nu (mstep s o) = m_nu s.
Proof.
  destruct o; simpl; unfold add_constraint, remove_constraint, change_constraint; simpl.
  - destruct (ci_nu i =? m_nu s); simpl; auto. destruct (mfind name (m_items s)); auto.
    destruct (ci_active i); auto.
  - destruct (mfind name (m_items s)) as [i|]; auto. destruct (ci_active i); auto.
  - destruct (mfind name (m_items s)) as [i|]; auto.
    destruct (b && negb (ci_active i)); auto. destruct (negb b && ci_active i); auto.
Qed.

Lemma mrun_inv h : forall s f, minv s f -> minv (mrun s h) (fold_left (amstep (m_nu s)) h f).
Proof.
  induction h as [|o h IH]; intros s f I; simpl; auto.
  pose proof (IH _ _ (minv_step _ _ o I)) as H. now rewrite mstep_nu in H.
Qed.

Lemma manager_exact nu h :
  (forall n, mfind n (m_items (mrun (empty_cman nu) h)) = amrun nu h n) /\
  exact_manager (mrun (empty_cman nu) h) (amrun nu h).
Proof.
  pose proof (mrun_inv h _ _ (minv_empty nu)) as I. simpl in I. fold (amrun nu h) in I.
  destruct I as [a b c d g1 g2 g3 g4 lb s1 s2]. split; auto.
  pose proof (enumerates_smap _ _ a d) as E. split; [eauto|]. split; [|auto].
  intros l El. pose proof (enumerates_perm _ _ _ E El) as P.
  rewrite g1, g2, g3, g4, !(dims_perm _ _ _ _ P). auto.
Qed.

(** ** Counterexamples *)
Definition remove_inactive_history : list cop :=
  [OpAdd "contact" (Item 3 7 false); OpRemove "contact"].

Lemma remove_inactive_wraps :
  c_n (run (empty_cont 7) remove_inactive_history) = 2 ^ 64 - 3 /\
  c_items (run (empty_cont 7) remove_inactive_history) = [].
Proof. split; reflexivity. Qed.

Definition dup_item_history : list cop :=
  [OpAddItem "goal" (Item 6 7 true); OpAddItem "goal" (Item 6 7 false)].

Lemma dup_item_state :
  run (empty_cont 7) dup_item_history =
  Cont 7 6 12 [("goal"%string, Item 6 7 true)] ["goal"%string] ["goal"%string].
Proof. reflexivity. Qed.

Lemma enumerates_nil {A} : enumerates (@nil (string * A)) (fun _ => None).
Proof. split; [constructor|]. now split. Qed.
