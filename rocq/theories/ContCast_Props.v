(** C127: cast of the named containers. *)
From Coq Require Import ZArith String List Bool Sorted Lia.
From Verif Require Import Common SMap Containers_Model Containers_Spec Containers_Proofs ContCast_Model.
Import ListNotations.
Local Open Scope Z_scope.

(** ** Helpers *)
Lemma sset_canonical (a b : sset) : ssorted a -> ssorted b -> (forall x, In x a <-> In x b) -> a = b.
Proof.
  intros Ha Hb H. pose (tag := fun k : string => (k, tt)).
  assert (K : forall l, keys (map tag l) = l) by (intro l; unfold keys; rewrite map_map; apply map_id).
  assert (F : forall k l, mfind k (map tag l) = if in_dec string_dec k l then Some tt else None).
  { intros k l. destruct (in_dec string_dec k l) as [Hi|Hi].
    - destruct (mfind k (map tag l)) as [[]|] eqn:E; auto. apply mfind_None_iff in E. rewrite K in E. contradiction.
    - apply mfind_None_iff. now rewrite K. }
  assert (E : map tag a = map tag b).
  { apply smap_canonical; rewrite ?K; auto. intro k. rewrite !F.
    destruct (in_dec string_dec k a), (in_dec string_dec k b); auto; exfalso; firstorder. }
  rewrite <- (K a), <- (K b), E. reflexivity.
Qed.
(** Adding the items of a map one after the other builds the function the map stands for. *)
Lemma fold_graph {A O} (stp : amap A -> O -> amap A) (mk : string -> A -> O) (ok : A -> Prop) :
  (forall f n i, ok i -> stp f (mk n i) = match f n with Some _ => f | None => aset n (Some i) f end) ->
  forall (l : smap A) f, NoDup (keys l) -> (forall n i, In (n, i) l -> ok i) -> (forall k, In k (keys l) -> f k = None) ->
  forall k, fold_left stp (map (fun p => mk (fst p) (snd p)) l) f k = match mfind k l with Some i => Some i | None => f k end.
Proof.
  intros H. induction l as [|[n i] l IH]; intros f ND HO HN k; cbn [map fold_left mfind fst snd]; auto.
  cbn [keys map fst] in ND, HN. inversion_clear ND as [|? ? Hn ND'].
  rewrite H by (apply (HO n); now left). rewrite (HN n) by now left.
  rewrite IH; auto.
  - destruct (String.eqb_spec k n) as [->|Hk].
    + destruct (mfind n l) eqn:E; [|now rewrite aset_same]. apply mfind_In_keys in E. contradiction.
    + rewrite aset_other by auto. reflexivity.
  - intros n' i' Hi. apply (HO n'). now right.
  - intros k' Hk'. rewrite aset_other; [apply HN; now right|]. intros ->. contradiction.
Qed.

(** ** Costs and contacts *)
Definition same_dim (s : cont) : Prop := ssorted (keys (c_items s)) /\ forall n i, In (n, i) (c_items s) -> it_nu i = c_nu s.
Lemma minsert_In {A} n (v : A) m k w : In (k, w) (minsert n v m) -> (k, w) = (n, v) \/ In (k, w) m.
Proof.
  induction m as [|[n' v'] m IH]; cbn [minsert]; [intros [H|[]]; auto|].
  destruct (String.compare n n'); cbn [In]; intuition.
Qed.
Lemma merase_In {A} n (m : smap A) x : In x (merase n m) -> In x m.
Proof. induction m as [|[n' v'] m IH]; cbn [merase]; auto. destruct (String.eqb n n'); cbn [In]; intuition. Qed.
Lemma mupdate_In {A} n (g : A -> A) m k w : In (k, w) (mupdate n g m) -> exists w0, In (k, w0) m /\ (w = w0 \/ w = g w0).
Proof.
  induction m as [|[n' v'] m IH]; cbn [mupdate]; [intros []|]. destruct (String.eqb n n'); cbn [In].
  - intros [[= <- <-]|H]; eauto.
  - intros [[= <- <-]|H]; eauto. destruct (IH H) as (w0 & Hw & Ho). eauto.
Qed.
Lemma same_dim_step s o : same_dim s -> same_dim (step s o).
Proof.
  intros [H1 H2]. destruct o as [n i|n i|n|n b]; unfold step, keep.
  - unfold add_named, add_checked. destruct (Z.eqb_spec (it_nu i) (c_nu s)) as [E|E]; cbn [out_state]; [|split; auto].
    destruct (mfind n (c_items s)) eqn:F; [split; auto|].
    assert (forall k j, In (k, j) (minsert n i (c_items s)) -> it_nu j = c_nu s).
    { intros k j Hi. apply minsert_In in Hi as [[= -> ->]|Hi]; eauto. }
    destruct (it_active i); split; cbn [c_items c_nu]; auto using minsert_sorted.
  - unfold add_item. destruct (Z.eqb_spec (it_nu i) (c_nu s)) as [E|E]; cbn [out_state]; [|split; auto].
    assert (forall k j, In (k, j) (minsert n i (c_items s)) -> it_nu j = c_nu s).
    { intros k j Hi. apply minsert_In in Hi as [[= -> ->]|Hi]; eauto. }
    destruct (it_active i); split; cbn [c_items c_nu]; auto using minsert_sorted.
  - unfold remove. destruct (mfind n (c_items s)); [|split; auto].
    split; cbn [c_items c_nu]; auto using merase_sorted. intros k j Hi. apply merase_In in Hi. eauto.
  - assert (U : forall k j, In (k, j) (mupdate n (set_active b) (c_items s)) -> it_nu j = c_nu s).
    { intros k j Hi. apply mupdate_In in Hi as (w & Hw & [->| ->]); [eauto|]. cbn [set_active it_nu]. eauto. }
    unfold change_status. destruct (mfind n (c_items s)) as [i|]; [|split; auto].
    destruct (b && negb (it_active i)); [split; cbn [c_items c_nu]; auto; now rewrite mupdate_keys|].
    destruct (negb b && it_active i); [split; cbn [c_items c_nu]; auto; now rewrite mupdate_keys|split; auto].
Qed.
Lemma same_dim_run h : forall s, same_dim s -> same_dim (run s h).
Proof. induction h as [|o h IH]; intros s H; cbn [run fold_left]; auto. apply IH, same_dim_step, H. Qed.
Lemma same_dim_empty nu : same_dim (empty_cont nu).
Proof. split; [constructor|intros ? ? []]. Qed.

Lemma run_nu h : forall s, c_nu (run s h) = c_nu s.
Proof. induction h as [|o h IH]; intro s; auto. change (c_nu (run (step s o) h) = c_nu s). now rewrite IH, step_nu. Qed.

Definition adds (l : smap item) : list cop := map (fun p => OpAdd (fst p) (snd p)) l.
Lemma add_all_run l : forall s, (forall n i, In (n, i) l -> it_nu i = c_nu s) -> add_all add_named l s = Some (run s (adds l)).
Proof.
  induction l as [|[n i] l IH]; intros s H; cbn [add_all]; auto.
  assert (E : it_nu i = c_nu s) by (apply (H n); now left).
  unfold adds. cbn [map fst snd]. unfold run. cbn [fold_left]. cbn [step]. unfold add_named, keep. rewrite E, Z.eqb_refl. cbn [out_state].
  apply IH. intros n' i' Hi. transitivity (c_nu s); [apply (H n'); now right|].
  unfold add_checked. destruct (mfind n (c_items s)), (it_active i); reflexivity.
Qed.
Lemma adds_plain l : no_item_overload (adds l).
Proof. intros o H. unfold adds in H. apply in_map_iff in H as (p & <- & _). exact I. Qed.
Lemma adds_removed nu l : forall f, removed_inactive nu f (adds l) = 0.
Proof. induction l as [|p l IH]; intro f; cbn [adds map removed_inactive]; auto. change (0 + removed_inactive nu (astep nu f (OpAdd (fst p) (snd p))) (adds l) = 0). rewrite IH. reflexivity. Qed.
Lemma cast_inv s : same_dim s -> exists s', add_all add_named (c_items s) (empty_cont (c_nu s)) = Some s' /\ c_nu s' = c_nu s /\
  inv s' (fun n => mfind n (c_items s)) /\ count_ok s' 0.
Proof.
  intros [H1 H2]. eexists. split; [apply add_all_run; exact H2|].
  split; [now rewrite run_nu|].
  destruct (run_inv (adds (c_items s)) (empty_cont (c_nu s)) (fun _ => None) 0 (inv_empty _) (count_ok_empty _)
             (no_overload_no_dup _ (adds_plain _) _ _)) as [HI HC].
  cbn [c_nu empty_cont] in HI, HC. rewrite adds_removed in HC. split; [|exact HC].
  apply inv_ext with (2 := HI). intro k.
  rewrite (fold_graph (astep (c_nu s)) OpAdd (fun i => it_nu i = c_nu s)) with (l := c_items s); auto using ssorted_NoDup.
  - now destruct (mfind k (c_items s)).
  - intros f n i E. cbn [astep]. now rewrite E, Z.eqb_refl.
Qed.
Lemma inv_exact s f : inv s f -> count_ok s 0 -> exact_sets s f /\ exact_counters s f.
Proof.
  intros HI HC. split; [apply HI|]. destruct (count_exact s f 0 HI HC) as [E1 E2]. split; auto.
  intros l Hl. destruct (E2 l Hl) as [-> ->]. split; auto. f_equal. lia.
Qed.
Lemma inv_unique s s' f : inv s f -> inv s' f -> c_items s' = c_items s /\ c_act s' = c_act s /\ c_inact s' = c_inact s.
Proof.
  intros [a b c d [e1 e2]] [a' b' c' d' [e1' e2']]. split; [|split].
  - apply smap_canonical; auto. intro k. now rewrite d, d'.
  - apply sset_canonical; auto. intro x. now rewrite e1, e1'.
  - apply sset_canonical; auto. intro x. now rewrite e2, e2'.
Qed.

(** ** C127 *)
(** After any history cast succeeds and returns the same items under the same names, with the status of each; the lists
    of active and inactive names and the dimensions it reports are those of the items. *)
Theorem C127_costs nu h : exists s', cast_costs (run (empty_cont nu) h) = Some s' /\ c_nu s' = nu /\
  c_items s' = c_items (run (empty_cont nu) h) /\
  exact_sets s' (fun n => mfind n (c_items (run (empty_cont nu) h))) /\
  exact_counters s' (fun n => mfind n (c_items (run (empty_cont nu) h))).
Proof.
  pose proof (same_dim_run h _ (same_dim_empty nu)) as HS.
  pose proof (run_nu h (empty_cont nu)) as N. cbn [c_nu empty_cont] in N.
  destruct (cast_inv _ HS) as (s' & E & En & HI & HC). exists s'. split; [exact E|]. split; [congruence|].
  split; [|exact (inv_exact _ _ HI HC)].
  apply smap_canonical; [apply HI|apply HS|]. intro k. apply HI.
Qed.
(** When no inactive item was removed and no used name was added again by the item overload, the copy is the container itself.
    Missing: the other histories, where the container reports dimensions the copy does not. *)
Theorem C127_same_partial nu h : careful nu (fun _ => None) h -> cast_costs (run (empty_cont nu) h) = Some (run (empty_cont nu) h).
Proof.
  intro H. apply careful_no_dup in H as [H1 H2].
  destruct (run_inv h _ _ 0 (inv_empty nu) (count_ok_empty nu) H1) as [HI HC]. cbn [c_nu empty_cont] in HI, HC. rewrite H2 in HC.
  destruct (C127_costs nu h) as (s' & E & En & Ei & HS' & HX'). rewrite E. f_equal.
  assert (HI' : inv s' (fun n => mfind n (c_items (run (empty_cont nu) h)))).
  { destruct (cast_inv _ (same_dim_run h _ (same_dim_empty nu))) as (s2 & E2 & _ & HI2 & _). unfold cast_costs in E. congruence. }
  assert (HC' : count_ok s' 0).
  { destruct (cast_inv _ (same_dim_run h _ (same_dim_empty nu))) as (s2 & E2 & _ & _ & HC2). unfold cast_costs in E. congruence. }
  destruct (inv_unique (run (empty_cont nu) h) s' (fun n => mfind n (c_items (run (empty_cont nu) h)))) as (_ & Ea & Eb); auto.
  { apply inv_ext with (2 := HI). intro k. symmetry. apply HI. }
  pose proof (run_nu h (empty_cont nu)) as N. cbn [c_nu empty_cont] in N.
  destruct HC as [C1 C2], HC' as [C1' C2']. rewrite Ei in C1', C2'. replace (0 + 0) with 0 in C1 by lia.
  rewrite <- C1 in C1'. rewrite <- C2 in C2'.
  destruct s' as [u1 n1 t1 i1 a1 b1]. destruct (run (empty_cont nu) h) as [u2 n2 t2 i2 a2 b2]. cbn in *. subst. reflexivity.
Qed.

(** Contacts, with the flag that includes inactive contacts in the data. *)
Theorem C127_contacts_partial nu h : no_item_overload h -> exists s', cast_contacts (run (empty_cont nu) h, false) = Some (s', false) /\
  c_items s' = c_items (run (empty_cont nu) h) /\ c_act s' = c_act (run (empty_cont nu) h) /\ c_inact s' = c_inact (run (empty_cont nu) h) /\
  (removed_inactive nu (fun _ => None) h = 0 -> s' = run (empty_cont nu) h).
Proof.
  intro H. pose proof (no_overload_no_dup h H nu (fun _ => None)) as H1.
  destruct (run_inv h _ _ 0 (inv_empty nu) (count_ok_empty nu) H1) as [HI HC]. cbn [c_nu empty_cont] in HI, HC.
  destruct (cast_inv _ (same_dim_run h _ (same_dim_empty nu))) as (s' & E & En & HI' & HC').
  exists s'. unfold cast_contacts. cbn [fst]. rewrite E. split; auto.
  destruct (inv_unique (run (empty_cont nu) h) s' (fun n => mfind n (c_items (run (empty_cont nu) h)))) as (Ei & Ea & Eb); auto.
  { apply inv_ext with (2 := HI). intro k. symmetry. apply HI. }
  repeat split; auto. intro Hr. rewrite Hr in HC.
  destruct HC as [C1 C2], HC' as [C1' C2']. rewrite Ei in C1', C2'. replace (0 + 0) with 0 in C1 by lia. rewrite <- C1 in C1'. rewrite <- C2 in C2'.
  destruct s' as [u1 n1 t1 i1 a1 b1]. destruct (run (empty_cont nu) h) as [u2 n2 t2 i2 a2 b2]. cbn in *. subst. reflexivity.
Qed.
(** Impulses *)
Lemma add_all_impulses l : forall s, add_all add_impulse l s = Some (impulse_run s (adds l)).
Proof. induction l as [|[n i] l IH]; intros s; auto. exact (IH (add_checked n i s)). Qed.
Lemma adds_iremoved l : forall f, iremoved_inactive f (adds l) = 0.
Proof. induction l as [|p l IH]; intro f; auto. change (0 + iremoved_inactive (aistep f (OpAdd (fst p) (snd p))) (adds l) = 0). rewrite IH. reflexivity. Qed.
Theorem C127_impulses nu h : exists s', cast_impulses (impulse_run (empty_cont nu) h) = Some s' /\
  c_items s' = c_items (impulse_run (empty_cont nu) h) /\
  c_act s' = c_act (impulse_run (empty_cont nu) h) /\ c_inact s' = c_inact (impulse_run (empty_cont nu) h) /\
  exact_counters s' (airun h).
Proof.
  destruct (impulse_run_inv h _ _ 0 (inv_empty nu) (count_ok_empty nu)) as [HI HC].
  set (s := impulse_run (empty_cont nu) h) in *. unfold cast_impulses. rewrite add_all_impulses. eexists. split; [reflexivity|].
  destruct (impulse_run_inv (adds (c_items s)) _ _ 0 (inv_empty (c_nu s)) (count_ok_empty (c_nu s))) as [HI' HC']. rewrite adds_iremoved in HC'.
  assert (HI2 : inv (impulse_run (empty_cont (c_nu s)) (adds (c_items s))) (airun h)).
  { apply inv_ext with (2 := HI'). intro k.
    rewrite (fold_graph aistep OpAdd (fun _ => True)) with (l := c_items s); auto; [|apply ssorted_NoDup, HI].
    rewrite (inv_find _ _ HI k). now destruct (fold_left aistep h (fun _ => None) k) eqn:E; unfold airun; rewrite E. }
  destruct (inv_unique s _ _ HI HI2) as (Ei & Ea & Eb). repeat split; auto.
  - apply (inv_exact _ _ HI2 HC').
  - apply (inv_exact _ _ HI2 HC'); assumption.
  - apply (inv_exact _ _ HI2 HC'); assumption.
Qed.
(** Constraints: always the same manager. *)
Definition madds (l : smap citem) : list mop := map (fun p => MAdd (fst p) (snd p)) l.
Definition msame_dim (s : cman) : Prop := forall n i, In (n, i) (m_items s) -> ci_nu i = m_nu s.
Lemma msame_dim_step s o : msame_dim s -> msame_dim (mstep s o).
Proof.
  intros H2. unfold msame_dim in *. destruct o as [n i|n|n b]; cbn [mstep].
  - unfold add_constraint. destruct (Z.eqb_spec (ci_nu i) (m_nu s)) as [E|E]; cbn [out_state]; auto.
    destruct (mfind n (m_items s)) eqn:F; cbn [out_state]; auto.
    assert (forall k j, In (k, j) (minsert n i (m_items s)) -> ci_nu j = m_nu s).
    { intros k j Hi. apply minsert_In in Hi as [[= -> ->]|Hi]; eauto. }
    destruct (ci_active i); cbn [out_state m_items m_nu]; auto.
  - assert (forall k j, In (k, j) (merase n (m_items s)) -> ci_nu j = m_nu s) by (intros k j Hi; apply merase_In in Hi; eauto).
    unfold remove_constraint. destruct (mfind n (m_items s)) as [i|]; auto. destruct (ci_active i); cbn [m_items m_nu]; auto.
  - assert (U : forall k j, In (k, j) (mupdate n (cset_active b) (m_items s)) -> ci_nu j = m_nu s).
    { intros k j Hi. apply mupdate_In in Hi as (w & Hw & [->| ->]); [eauto|]. cbn [cset_active ci_nu]. eauto. }
    unfold change_constraint. destruct (mfind n (m_items s)) as [i|]; auto.
    destruct (b && negb (ci_active i)); cbn [m_items m_nu]; auto. destruct (negb b && ci_active i); cbn [m_items m_nu]; auto.
Qed.
Lemma msame_dim_run h : forall s, msame_dim s -> msame_dim (mrun s h).
Proof. induction h as [|o h IH]; intros s H; auto. exact (IH _ (msame_dim_step s o H)). Qed.
Lemma mrun_nu h : forall s, m_nu (mrun s h) = m_nu s.
Proof. induction h as [|o h IH]; intro s; auto. change (m_nu (mrun (mstep s o) h) = m_nu s). now rewrite IH, mstep_nu. Qed.
Lemma add_all_mrun l : forall s, (forall n i, In (n, i) l -> ci_nu i = m_nu s) -> add_all add_constraint l s = Some (mrun s (madds l)).
Proof.
  induction l as [|[n i] l IH]; intros s H; cbn [add_all]; auto.
  assert (E : ci_nu i = m_nu s) by (apply (H n); now left).
  change (madds ((n, i) :: l)) with (MAdd n i :: madds l). change (mrun s (MAdd n i :: madds l)) with (mrun (mstep s (MAdd n i)) (madds l)).
  assert (X : exists s1, add_constraint n i s = Ok s1 tt).
  { unfold add_constraint. rewrite E, Z.eqb_refl. destruct (mfind n (m_items s)), (ci_active i); eauto. }
  destruct X as [s1 X]. pose proof (mstep_nu s (MAdd n i)) as N. cbn [mstep] in N |- *. rewrite X in N |- *. cbn [out_state] in N |- *.
  apply IH. intros n' i' Hi. rewrite N. apply (H n'). now right.
Qed.
Theorem C127_constraints nu h : cast_constraints (mrun (empty_cman nu) h) = Some (mrun (empty_cman nu) h).
Proof.
  pose proof (mrun_inv h _ _ (minv_empty nu)) as HI. pose proof (mrun_nu h (empty_cman nu)) as N. cbn [m_nu empty_cman] in HI, N.
  assert (HD : msame_dim (mrun (empty_cman nu) h)) by (apply msame_dim_run; intros ? ? []).
  set (s := mrun (empty_cman nu) h) in *. unfold cast_constraints. rewrite add_all_mrun by exact HD. f_equal.
  pose proof (mrun_inv (madds (m_items s)) _ _ (minv_empty (m_nu s))) as HI'. pose proof (mrun_nu (madds (m_items s)) (empty_cman (m_nu s))) as N'.
  cbn [m_nu empty_cman] in HI', N'.
  set (f := fold_left (amstep nu) h (fun _ => None)) in *.
  assert (HI2 : minv (mrun (empty_cman (m_nu s)) (madds (m_items s))) f).
  { apply minv_ext with (2 := HI'). intro k. unfold madds.
    rewrite (fold_graph (amstep (m_nu s)) MAdd (fun i => ci_nu i = m_nu s)) with (l := m_items s); auto.
    - rewrite (minv_find _ _ HI k). now destruct (f k).
    - intros g n i E. cbn [amstep]. now rewrite E, Z.eqb_refl.
    - apply ssorted_NoDup, HI. }
  destruct HI as [a b c d g1 g2 g3 g4 lb s1 s2]. destruct HI2 as [a' b' c' d' g1' g2' g3' g4' lb' s1' s2'].
  assert (Ei : m_items (mrun (empty_cman (m_nu s)) (madds (m_items s))) = m_items s) by (apply smap_canonical; auto; intro k; now rewrite d, d').
  assert (Ea : m_act (mrun (empty_cman (m_nu s)) (madds (m_items s))) = m_act s) by (apply sset_canonical; auto; intro x; now rewrite s1, s1').
  assert (Eb : m_inact (mrun (empty_cman (m_nu s)) (madds (m_items s))) = m_inact s) by (apply sset_canonical; auto; intro x; now rewrite s2, s2').
  rewrite Ei in g1', g2', g3', g4'. rewrite <- g1 in g1'. rewrite <- g2 in g2'. rewrite <- g3 in g3'. rewrite <- g4 in g4'.
  destruct (mrun (empty_cman (m_nu s)) (madds (m_items s))) as [u1 n1 n2 n3 n4 l1 i1 a1 b1]. destruct s as [v1 m1 m2 m3 m4 k1 j1 c1 d1].
  cbn in *. subst. reflexivity.
Qed.

(** ** What is lost *)
(** After the removal of an inactive cost the copy reports another dimension than the original. *)
Theorem C127_dimension_refuted : exists nu h s', cast_costs (run (empty_cont nu) h) = Some s' /\ c_n s' <> c_n (run (empty_cont nu) h).
Proof. exists 7, remove_inactive_history. eexists. split; [vm_compute; reflexivity|]. vm_compute. discriminate. Qed.
(** The copy of a contact container that includes the inactive contacts does not include them. *)
Theorem C127_all_refuted : exists nu h s', cast_contacts (run (empty_cont nu) h, true) = Some s' /\ snd s' <> true.
Proof. exists 7, [OpAdd "foot" (Item 3 7 false)]. eexists. split; [vm_compute; reflexivity|]. discriminate. Qed.

(** A container with an active and an inactive item, after a change of status *)
Definition ex_h : list cop := [OpAdd "b" (Item 3 7 true); OpAdd "a" (Item 2 7 true); OpStatus "a" false; OpAdd "c" (Item 1 6 true)].
Example C127_ex : careful 7 (fun _ => None) ex_h /\ cast_costs (run (empty_cont 7) ex_h) =
  Some (Cont 7 3 5 [("a"%string, Item 2 7 false); ("b"%string, Item 3 7 true)] ["b"%string] ["a"%string]).
Proof. split; [cbn; repeat split|vm_compute; reflexivity]. Qed.

Print Assumptions C127_costs.
Print Assumptions C127_same_partial.
Print Assumptions C127_contacts_partial.
Print Assumptions C127_impulses.
Print Assumptions C127_constraints.
Print Assumptions C127_dimension_refuted.
Print Assumptions C127_all_refuted.
