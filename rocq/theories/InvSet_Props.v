(** C90: the constraints of the contact inverse dynamics follow its contacts. *)
From Coq Require Import ZArith String List Bool Lia Permutation.
From Verif Require Import Common SMap Containers_Model Containers_Spec Containers_Proofs InvSet_Model InvSet_Proofs.
Import ListNotations.
Local Open Scope Z_scope.

(** *** Specification *)
(** A constraint is named after a contact. *)
Definition named_after (g : amap item) (x : string) : Prop :=
  exists n i, g n = Some i /\ (x = (n ++ "_acc")%string \/ x = (n ++ "_force")%string).
(** The models a caller can build: contacts and constraints are managers with arbitrary histories, no
    constraint is named after a contact, and the contacts do not add up to 0 modulo 2^64. *)
Record built (nuc : Z) (hc : list cop) (num : Z) (h : list mop) (nv na : Z) (w : invdyn) : Prop := {
  b_over : no_item_overload hc;
  b_size : c_ntot (run (empty_cont nuc) hc) = 0 -> forall n, arun nuc hc n = None;
  b_names : forall x, named_after (arun nuc hc) x -> amrun num h x = None;
  b_make : construct nv na (run (empty_cont nuc) hc) (mrun (empty_cman num) h) = Some w }.
(** The caller may change statuses, add and remove constraints, but keeps those of the contacts. *)
Definition keeps (g : amap item) (ops : list iop) : Prop :=
  forall x, In (IMan (MRemove x)) ops -> ~ named_after g x.
Definition contact_of (w : invdyn) : amap item := fun n => mfind n (c_items (i_contacts w)).
Definition constraint_of (w : invdyn) : amap citem := fun n => mfind n (m_items (i_man w)).

Lemma keeps_leaves g ops : keeps g ops -> forall o, In o ops -> leaves g o.
Proof.
  intros K o O. destruct o as [| [n c|n|n b]|]; cbn [leaves]; auto. intros k i G.
  split; intros ->; apply (K _ O); exists k, i; auto.
Qed.
Lemma built_ok nuc hc num h nv na w : built nuc hc num h nv na w ->
  exists f, ok nv w (arun nuc hc) f /\
    (0 < sz_sub nv na -> amrun num h "tau"%string = None -> f "tau"%string = Some (equality (sz_sub nv na) (c_nu (i_contacts w)) true)) /\
    (forall x, ~ named_after (arun nuc hc) x -> x <> "tau"%string -> f x = amrun num h x).
Proof.
  intros [O S N M].
  destruct (run_inv hc (empty_cont nuc) (fun _ => None) 0 (inv_empty _) (count_ok_empty _) (no_overload_no_dup hc O _ _)) as [I C].
  cbn [c_nu empty_cont] in I. fold (arun nuc hc) in I.
  pose proof (mrun_inv h _ _ (minv_empty num)) as J. cbn [m_nu empty_cman] in J. fold (amrun num h) in J.
  destruct (construct_ok nv na _ _ w _ _ I J (ex_intro _ _ C)) as (f & P1 & P2 & P3 & P4).
  - rewrite run_nu. cbn [c_nu empty_cont]. unfold arun. apply asteps_nus. discriminate.
  - rewrite mrun_nu. cbn [m_nu empty_cman]. unfold amrun. apply amsteps_nus. discriminate.
  - intro Z. specialize (S Z). destruct (c_items (run (empty_cont nuc) hc)) as [|[k i] l] eqn:E; [reflexivity|].
    pose proof (enumerates_smap _ _ (inv_items _ _ I) (inv_find _ _ I)) as [_ EN]. rewrite E in EN. assert (A := proj1 (EN k i) (or_introl eq_refl)). rewrite S in A. discriminate.
  - intros n i G. split; apply N; exists n, i; auto.
  - exact M.
  - exists f. pose proof (construct_eq _ _ _ _ _ M) as (W & _). split; [exact P1|]. split.
    + intros A B. rewrite (P3 A B). rewrite W. reflexivity.
    + intros x A B. apply P4; [|intros _ _; exact B]. intros n i G. split; intro E; apply A; exists n, i; auto.
Qed.

(** *** C90: statuses *)
(** After calc, every contact has an acceleration constraint that is active when the contact is and a
    force constraint that is active when it is not; they have the dimension of the contact and are
    left out of terminal nodes. *)
Theorem C90_status nuc hc num h nv na w ops : built nuc hc num h nv na w -> keeps (arun nuc hc) ops ->
  let w' := irun w (ops ++ [ICalc]) in
  forall n i, contact_of w' n = Some i ->
    constraint_of w' (n ++ "_acc")%string = Some (CItem 0 (it_dim i) (c_nu (i_contacts w')) false (it_active i)) /\
    constraint_of w' (n ++ "_force")%string = Some (CItem 0 (it_dim i) (c_nu (i_contacts w')) false (negb (it_active i))) /\
    (In (n ++ "_acc")%string (m_act (i_man w')) <-> it_active i = true) /\
    (In (n ++ "_force")%string (m_act (i_man w')) <-> it_active i = false).
Proof.
  intros B K w' n i. destruct (built_ok _ _ _ _ _ _ _ B) as (f & O & _ & _).
  destruct (irun_ok nv ops w (arun nuc hc) f O (keeps_leaves _ _ K)) as (f1 & O1).
  assert (L : leaves (fold_left stepg ops (arun nuc hc)) ICalc) by exact Logic.I.
  pose proof (istep_ok _ _ _ _ ICalc O1 L) as O2. assert (E : istep (irun w ops) ICalc = w').
  { subst w'. unfold irun. rewrite fold_left_app. reflexivity. }
  rewrite E in O2. destruct O1 as (I1 & _ & _ & _ & _ & _ & H1). destruct O2 as (I2 & M2 & _ & _ & _ & _ & H2).
  cbn [stepg] in *. set (g := fold_left stepg ops (arun nuc hc)) in *. unfold contact_of, constraint_of. rewrite (inv_find _ _ I2). intro G.
  assert (CN : c_nu (i_contacts w') = c_nu (i_contacts (irun w ops))) by (rewrite <- E; reflexivity).
  destruct (H1 n i G) as [[a1 A1] [a2 A2]].
  assert (X1 : stepf (irun w ops) f1 ICalc (acc_name n) = Some (CItem 0 (it_dim i) (c_nu (i_contacts w')) false (it_active i))).
  { cbn [stepf]. rewrite (sync_acc _ _ g _ _ i I1 G), A1, CN. reflexivity. }
  assert (X2 : stepf (irun w ops) f1 ICalc (force_name n) = Some (CItem 0 (it_dim i) (c_nu (i_contacts w')) false (negb (it_active i)))).
  { cbn [stepf]. rewrite (sync_force _ _ g _ _ i I1 G), A2, CN. reflexivity. }
  fold (acc_name n) (force_name n). rewrite !(minv_find _ _ M2). split; [exact X1|]. split; [exact X2|].
  split; rewrite (minv_sact _ _ M2).
  - rewrite X1. split; [intros (j & Ej & Aj); assert (Y : j = CItem 0 (it_dim i) (c_nu (i_contacts w')) false (it_active i)) by congruence; subst j; exact Aj|].
    intro Y. eexists. split; [reflexivity|exact Y].
  - rewrite X2. split; [intros (j & Ej & Aj); assert (Y : j = CItem 0 (it_dim i) (c_nu (i_contacts w')) false (negb (it_active i))) by congruence; subst j; cbn in Aj; now destruct (it_active i)|].
    intro Y. eexists. split; [reflexivity|]. cbn. now rewrite Y.
Qed.
(** calc leaves the contacts and the other constraints alone, "tau" included; the contacts named and
    measured by the constraints are those the model was built with. *)
Theorem C90_others nuc hc num h nv na w ops : built nuc hc num h nv na w -> keeps (arun nuc hc) ops ->
  let w' := irun w ops in
  i_contacts (istep w' ICalc) = i_contacts w' /\
  (forall n, option_map it_dim (contact_of w' n) = option_map it_dim (arun nuc hc n)) /\
  (forall x, ~ named_after (arun nuc hc) x -> constraint_of (istep w' ICalc) x = constraint_of w' x) /\
  ~ named_after (arun nuc hc) "tau"%string.
Proof.
  intros B K w'. destruct (built_ok _ _ _ _ _ _ _ B) as (f & O & _ & _).
  destruct (irun_ok nv ops w (arun nuc hc) f O (keeps_leaves _ _ K)) as (f1 & O1). fold w' in O1.
  pose proof (istep_ok _ _ _ _ ICalc O1 Logic.I) as O2. destruct O1 as (I1 & M1 & _). destruct O2 as (_ & M2 & _).
  assert (D : same_dims (arun nuc hc) (fold_left stepg ops (arun nuc hc))).
  { clear. revert hc. intro hc. generalize (arun nuc hc). induction ops as [|o ops IH]; intros g k; [reflexivity|]. cbn [fold_left].
    rewrite <- (IH (stepg g o) k). apply stepg_dims. }
  split; [reflexivity|]. split; [intro n; unfold contact_of; rewrite (inv_find _ _ I1); symmetry; apply D|].
  split; [|intros (n & i & _ & [X|X]); [exact (tau_acc n X)|exact (tau_force n X)]].
  intros x N. unfold constraint_of. rewrite (minv_find _ _ M2), (minv_find _ _ M1). cbn [stepf]. apply (sync_other _ _ (fold_left stepg ops (arun nuc hc))); [exact I1|].
  intros n i G. specialize (D n). rewrite G in D. destruct (arun nuc hc n) as [j|] eqn:J; [|discriminate].
  split; intros ->; apply N; exists n, j; auto.
Qed.
(** An under-actuated model without a constraint of the caller named "tau" has the constraint of the
    nv - nu missing torques, and keeps every constraint of the caller. *)
Theorem C90_tau nuc hc num h nv na w : built nuc hc num h nv na w -> amrun num h "tau"%string = None ->
  (0 < sz_sub nv na -> constraint_of w "tau"%string = Some (CItem 0 (sz_sub nv na) (sz_add nv (c_ntot (i_contacts w))) false true)) /\
  (forall x c, amrun num h x = Some c -> constraint_of w x = Some c).
Proof.
  intros B T. destruct (built_ok _ _ _ _ _ _ _ B) as (f & O & P & Q). destruct O as (_ & M & _ & N & _). split.
  - intro A. unfold constraint_of. rewrite (minv_find _ _ M), (P A T), N. reflexivity.
  - intros x c X. unfold constraint_of. rewrite (minv_find _ _ M), Q; [exact X| |congruence].
    intro Y. rewrite (b_names _ _ _ _ _ _ _ B x Y) in X. discriminate.
Qed.

(** *** C90: dimensions *)
Definition pair_of (nu : Z) (x : string * item) : list (string * citem) :=
  [(acc_name (fst x), equality (it_dim (snd x)) nu (it_active (snd x))); (force_name (fst x), equality (it_dim (snd x)) nu (negb (it_active (snd x))))].
Lemma dims_app {A} (d : A -> Z) p (l l' : list (string * A)) : dims d p (l ++ l') = dims d p l + dims d p l'.
Proof. unfold dims. induction l as [|x l IH]; [reflexivity|]. cbn [app map sumZ fold_right] in *. lia. Qed.
Lemma dims_pairs nu l : dims ci_nh ci_active (flat_map (pair_of nu) l) = dims it_dim (fun _ => true) l.
Proof.
  induction l as [|[n i] l IH]; [reflexivity|]. cbn [flat_map]. rewrite dims_app, IH. unfold dims. cbn [map pair_of fst snd equality ci_nh ci_active sumZ fold_right].
  destruct (it_active i); cbn [negb]; lia.
Qed.
Lemma in_pair_names nu l x : In x (map fst (flat_map (pair_of nu) l)) -> exists n, In n (map fst l) /\ (x = acc_name n \/ x = force_name n).
Proof.
  intro H. apply in_map_iff in H. destruct H as ([y c] & E & H). cbn in E. subst y. apply in_flat_map in H. destruct H as ([n i] & I & H).
  exists n. split; [exact (in_map fst _ _ I)|]. cbn in H. destruct H as [H|[H|[]]]; injection H; auto.
Qed.
Lemma nodup_pairs nu l : NoDup (map fst l) -> NoDup (map fst (flat_map (pair_of nu) l)).
Proof.
  induction l as [|[n i] l IH]; intro H; [constructor|]. cbn [map fst] in H. apply NoDup_cons_iff in H. destruct H as [A B].
  cbn [flat_map pair_of app map fst snd]. constructor; [|constructor; [|now apply IH]].
  - intros [E|H]; [symmetry in E; now apply acc_force in E|]. apply in_pair_names in H. destruct H as (k & K & [E|E]); [apply acc_inj in E; congruence|now apply acc_force in E].
  - intro H. apply in_pair_names in H. destruct H as (k & K & [E|E]); [symmetry in E; now apply acc_force in E|apply force_inj in E; congruence].
Qed.
(** The number of equality constraints after calc: the dimensions of all the contacts, whatever their
    statuses, and those of the other active constraints. *)
Theorem C90_size nuc hc num h nv na w ops : built nuc hc num h nv na w -> keeps (arun nuc hc) ops ->
  let w' := irun w (ops ++ [ICalc]) in
  forall lc lo, enumerates lc (contact_of w') ->
    NoDup (map fst lo) -> (forall x c, In (x, c) lo <-> constraint_of w' x = Some c /\ ~ named_after (arun nuc hc) x) ->
    m_nh (i_man w') = wrap (dims it_dim (fun _ => true) lc + dims ci_nh ci_active lo).
Proof.
  intros B K w' lc lo EC ND LO. pose proof (C90_status _ _ _ _ _ _ _ _ B K) as ST. fold w' in ST. cbv zeta in ST.
  destruct (built_ok _ _ _ _ _ _ _ B) as (f & O & _ & _).
  assert (K' : keeps (arun nuc hc) (ops ++ [ICalc])).
  { intros x X. apply in_app_or in X. destruct X as [X|[X|[]]]; [now apply K|discriminate]. }
  pose proof (C90_others _ _ _ _ _ _ _ _ B K') as (_ & D & _). fold w' in D.
  destruct (irun_ok nv (ops ++ [ICalc]) w (arun nuc hc) f O (keeps_leaves _ _ K')) as (f2 & O2). fold w' in O2.
  destruct O2 as (_ & M & _). rewrite (minv_nh _ _ M). f_equal.
  rewrite <- (dims_pairs (c_nu (i_contacts w')) lc), <- dims_app. apply dims_perm.
  apply (enumerates_perm _ _ (constraint_of w')); [apply enumerates_smap; [apply (minv_items _ _ M)|reflexivity]|].
  destruct EC as [NC EC].
  assert (INN : forall n, In n (map fst lc) -> exists i, contact_of w' n = Some i /\ In (n, i) lc).
  { intros n X. apply in_map_iff in X. destruct X as ([k i] & E & X). cbn in E. subst k. exists i. split; [now apply EC|exact X]. }
  assert (OLD : forall n i, contact_of w' n = Some i -> exists j, arun nuc hc n = Some j).
  { intros n i G. specialize (D n). rewrite G in D. destruct (arun nuc hc n); [eauto|discriminate]. }
  split.
  - rewrite map_app. assert (A := nodup_pairs (c_nu (i_contacts w')) lc NC).
    assert (DJ : forall x, In x (map fst (flat_map (pair_of (c_nu (i_contacts w'))) lc)) -> ~ In x (map fst lo)).
    { intros x X Y. apply in_pair_names in X. destruct X as (n & X & E). destruct (INN n X) as (i & G & _). destruct (OLD n i G) as (j & J).
      apply in_map_iff in Y. destruct Y as ([y c] & E' & Y). cbn in E'. subst y. apply LO in Y. destruct Y as [_ Y]. apply Y. exists n, j. auto. }
    revert A DJ. generalize (map fst (flat_map (pair_of (c_nu (i_contacts w'))) lc)). induction l as [|y l IH]; intros A DJ; [exact ND|].
    apply NoDup_cons_iff in A. destruct A as [A1 A2]. cbn [app]. constructor; [|apply IH; [exact A2|intros x X; apply DJ; now right]].
    intro X. apply in_app_or in X. destruct X as [X|X]; [contradiction|]. exact (DJ y (or_introl eq_refl) X).
  - intros x c. rewrite in_app_iff, LO. split.
    + intros [X|[X _]]; [|exact X]. apply in_flat_map in X. destruct X as ([n i] & X & Y). apply EC in X. destruct (ST n i X) as (S1 & S2 & _).
      cbn in Y. destruct Y as [Y|[Y|[]]]; injection Y as <- <-; assumption.
    + intro X. destruct (in_dec string_dec x (map fst (flat_map (pair_of (c_nu (i_contacts w'))) lc))) as [Y|Y].
      * left. apply in_pair_names in Y. destruct Y as (n & Y & E). destruct (INN n Y) as (i & G & L). destruct (ST n i G) as (S1 & S2 & _).
        apply in_flat_map. exists (n, i). split; [exact L|]. cbn. fold (acc_name n) in S1. fold (force_name n) in S2.
        destruct E as [-> | ->]; [left|right; left]; f_equal; unfold equality; congruence.
      * right. split; [exact X|]. intros (n & j & J & E). apply Y. assert (G : exists i, contact_of w' n = Some i).
        { specialize (D n). rewrite J in D. destruct (contact_of w' n); [eauto|discriminate]. }
        destruct G as (i & G). apply EC in G. apply in_map_iff. fold (acc_name n) (force_name n) in E.
        destruct E as [-> | ->]; eexists (_, _); (split; [reflexivity|]); apply in_flat_map; exists (n, i); (split; [exact G|]); [left; reflexivity|right; left; reflexivity].
Qed.

(** *** C90: cast *)
(** A model after calc, whose "tau" constraint the caller has not touched, is copied: same contacts,
    same constraints with the same statuses, same dimensions. *)
Theorem C90_cast_partial nuc hc num h nv na w ops : built nuc hc num h nv na w -> keeps (arun nuc hc) ops ->
  let w' := irun w (ops ++ [ICalc]) in
  (0 < sz_sub nv na -> constraint_of w' "tau"%string = Some (CItem 0 (sz_sub nv na) (c_nu (i_contacts w')) false true)) ->
  exists w'', cast nv na w' = Some w'' /\
    (forall n, contact_of w'' n = contact_of w' n) /\ (forall x, constraint_of w'' x = constraint_of w' x) /\
    c_nu (i_contacts w'') = c_nu (i_contacts w') /\ c_ntot (i_contacts w'') = c_ntot (i_contacts w') /\
    m_nu (i_man w'') = m_nu (i_man w') /\ m_nh (i_man w'') = m_nh (i_man w') /\ m_ng (i_man w'') = m_ng (i_man w').
Proof.
  intros B K w' T. pose proof (C90_status _ _ _ _ _ _ _ _ B K) as ST. fold w' in ST. cbv zeta in ST.
  destruct (built_ok _ _ _ _ _ _ _ B) as (f & O & _ & _).
  assert (K' : keeps (arun nuc hc) (ops ++ [ICalc])).
  { intros x X. apply in_app_or in X. destruct X as [X|[X|[]]]; [now apply K|discriminate]. }
  destruct (irun_ok nv (ops ++ [ICalc]) w (arun nuc hc) f O (keeps_leaves _ _ K')) as (f2 & O2). fold w' in O2.
  pose proof (C90_others _ _ _ _ _ _ _ _ B K') as (_ & D & _). fold w' in D.
  destruct O2 as (I & M & C & N & GN & FN & H). set (g := fold_left stepg (ops ++ [ICalc]) (arun nuc hc)) in *.
  assert (NT : c_ntot (i_contacts w') = c_ntot (run (empty_cont nuc) hc)).
  { pose proof (construct_eq _ _ _ _ _ (b_make _ _ _ _ _ _ _ B)) as (W & _).
    transitivity (c_ntot (i_contacts w)); [|rewrite W; reflexivity]. subst w'. clear. generalize (ops ++ [ICalc]). intro l.
    revert w. induction l as [|o l IH]; intro w; [reflexivity|]. unfold irun in *. cbn [fold_left]. rewrite IH. destruct o; [|reflexivity|reflexivity].
    cbn [istep i_contacts]. apply status_fields. }
  destruct (cast_ok nv na w' g f2) as (w'' & E & (I' & M' & C' & N' & _) & E1 & E2).
  - exact (conj I (conj M (conj C (conj N (conj GN (conj FN H)))))).
  - intro Z. rewrite NT in Z. pose proof (b_size _ _ _ _ _ _ _ B Z) as Y.
    destruct (c_items (i_contacts w')) as [|[k i] l] eqn:L; [reflexivity|].
    assert (X : contact_of w' k = Some i). { unfold contact_of. rewrite L. cbn. now rewrite String.eqb_refl. }
    specialize (D k). rewrite X, Y in D. discriminate.
  - intros n i G. rewrite <- (inv_find _ _ I) in G. destruct (ST n i G) as (S1 & S2 & _). unfold constraint_of in S1, S2.
    rewrite (minv_find _ _ M) in S1, S2. split; assumption.
  - intro A. specialize (T A). unfold constraint_of in T. now rewrite (minv_find _ _ M) in T.
  - exists w''. split; [exact E|]. unfold contact_of, constraint_of.
    assert (X : forall x, mfind x (m_items (i_man w'')) = mfind x (m_items (i_man w'))) by (intro; now rewrite (minv_find _ _ M'), (minv_find _ _ M)).
    split; [intro; now rewrite (inv_find _ _ I'), (inv_find _ _ I)|]. split; [exact X|]. split; [exact E1|].
    pose proof (enumerates_smap _ _ (minv_items _ _ M') (minv_find _ _ M')) as L1. pose proof (enumerates_smap _ _ (minv_items _ _ M) (minv_find _ _ M)) as L2.
    pose proof (enumerates_perm _ _ _ L1 L2) as PM.
    split.
    + destruct C as [o1 [_ C]], C' as [o2 [_ C']]. rewrite C, C'. f_equal. apply dims_perm.
      apply (enumerates_perm _ _ g); apply enumerates_smap; [apply (inv_items _ _ I')|apply (inv_find _ _ I')|apply (inv_items _ _ I)|apply (inv_find _ _ I)].
    + split; [exact E2|]. rewrite (minv_nh _ _ M), (minv_nh _ _ M'), (minv_ng _ _ M), (minv_ng _ _ M'). split; f_equal; now apply dims_perm.
Qed.

(** *** Counterexamples *)
(** A caller's constraint named "tau" takes the place of the torque constraint: no equality constraint is
    left in a model with six unactuated directions. *)
Theorem C90_tau_refuted : exists nuc hc num h nv na w, built nuc hc num h nv na w /\ 0 < nv - na < 2 ^ 64 /\
  (forall ops, (forall x, ~ In (IMan (MRemove x)) ops) -> (forall x c, ~ In (IMan (MAdd x c)) ops) -> m_nh (i_man (irun w ops)) = 0).
Proof.
  exists 7, [], 7, [MAdd "tau" (CItem 2 0 7 true true)], 7, 1. eexists. split; [split; [intros o []|reflexivity| |reflexivity]|split; [lia|]].
  - intros x (n & i & G & _). discriminate.
  - set (w0 := Inv _ _). intros ops R A.
    assert (X : exists b, m_items (i_man (irun w0 ops)) = [("tau"%string, CItem 2 0 7 true b)] /\ m_nh (i_man (irun w0 ops)) = 0 /\ c_act (i_contacts (irun w0 ops)) = [] /\ c_inact (i_contacts (irun w0 ops)) = [] /\ c_items (i_contacts (irun w0 ops)) = []).
    { assert (X0 : exists b, m_items (i_man w0) = [("tau"%string, CItem 2 0 7 true b)] /\ m_nh (i_man w0) = 0 /\ c_act (i_contacts w0) = [] /\ c_inact (i_contacts w0) = [] /\ c_items (i_contacts w0) = []).
      { exists true. repeat split. }
      clearbody w0. revert w0 X0. induction ops as [|o ops IH]; intros w0 X0; [exact X0|]. unfold irun in *. cbn [fold_left]. apply IH.
      - intros x X. apply (R x). now right.
      - intros x c X. apply (A x c). now right.
      - destruct X0 as (b & X1 & X2 & X3 & X4 & X5). destruct w0 as [c m]. cbn [i_contacts i_man] in *. destruct o as [n b'|[n c'|n|n b']|]; cbn [istep i_contacts i_man].
        + exists b. unfold change_status. rewrite X5. cbn [mfind]. auto.
        + exfalso. apply (A n c'). now left.
        + exfalso. apply (R n). now left.
        + cbn [mstep]. unfold change_constraint. rewrite X1. cbn [mfind]. destruct (String.eqb_spec n "tau") as [->|ne].
          * destruct m as [mu ng nh ngT nhT lb it ac ina]; cbn [m_items m_nh] in X1, X2; subst it nh; destruct b', b; cbn [ci_active negb andb]; eexists; (split; [cbn; reflexivity|]); cbn; auto.
          * exists b. auto.
        + exists b. unfold sync_ops. rewrite X3, X4. cbn. auto. }
    destruct X as (b & _ & X & _). exact X.
Qed.
Definition made (nuc : Z) (hc : list cop) (num : Z) (h : list mop) (nv na : Z) : invdyn :=
  match construct nv na (run (empty_cont nuc) hc) (mrun (empty_cman num) h) with Some w => w | None => Inv (empty_cont 0) (empty_cman 0) end.
(** cast switches the torque constraint on again when the caller has switched it off. *)
Theorem C90_cast_refuted : exists nuc hc num h nv na w ops w'', built nuc hc num h nv na w /\ keeps (arun nuc hc) ops /\
  (forall x, ~ In (IMan (MRemove x)) ops) /\
  cast nv na (irun w (ops ++ [ICalc])) = Some w'' /\ m_nh (i_man w'') <> m_nh (i_man (irun w (ops ++ [ICalc]))).
Proof.
  exists 10, [OpAdd "foot" (Item 3 10 true)], 10, [], 7, 1, (made 10 [OpAdd "foot" (Item 3 10 true)] 10 [] 7 1), [IMan (MStatus "tau" false)], (made 10 [OpAdd "foot" (Item 3 10 true)] 10 [] 7 1).
  split; [|split; [|split; [|split; [vm_compute; reflexivity|vm_compute; discriminate]]]].
  - split; [intros o [<-|[]]; exact Logic.I|vm_compute; discriminate| |vm_compute; reflexivity]. intros x _. reflexivity.
  - intros x [X|[]]. discriminate.
  - intros x [X|[]]. discriminate.
Qed.

(** *** Examples *)
(** Two feet, one of them inactive, a constraint of the caller; the statuses are swapped and calc called. *)
Definition ex_hc : list cop := [OpAdd "left" (Item 6 18 true); OpAdd "right" (Item 3 18 true); OpStatus "right" false].
Definition ex_h : list mop := [MAdd "knee" (CItem 1 2 18 true true)].
Definition ex_ops : list iop := [IContact "left" false; IMan (MStatus "left_acc" true); IContact "right" true; IMan (MStatus "knee" false); IMan (MAdd "hip" (CItem 0 4 18 false true))].
Example C90_ex : exists w, built 18 ex_hc 18 ex_h 9 3 w /\ keeps (arun 18 ex_hc) ex_ops /\
  (let w' := irun w (ex_ops ++ [ICalc]) in
   m_nh (i_man w') = 6 + (6 + 3) + 4 /\ m_act (i_man w') = ["hip"; "left_force"; "right_acc"; "tau"]%string /\
   m_inact (i_man w') = ["knee"; "left_acc"; "right_force"]%string /\
   match cast 9 3 w' with Some w'' => m_items (i_man w'') = m_items (i_man w') | None => False end).
Proof.
  exists (made 18 ex_hc 18 ex_h 9 3). split; [|split; [|cbv zeta; split; [|split; [|split]]; vm_compute; reflexivity]].
  - split; [intros o [<-|[<-|[<-|[]]]]; exact Logic.I|vm_compute; discriminate| |vm_compute; reflexivity].
    intros x (n & i & G & E). unfold amrun, ex_h. cbn [fold_left amstep ci_nu]. cbn. unfold aset. destruct (String.eqb_spec x "knee") as [->|]; [|reflexivity]. exfalso.
    destruct E as [E|E]; fold (acc_name n) (force_name n) in E.
    + pose proof (acc_last n) as L. rewrite <- E in L. discriminate.
    + pose proof (acc_last n) as L. pose proof (f_equal list_ascii_of_string E) as L'. unfold force_name in L'. rewrite list_app in L'.
      apply (f_equal (@rev _)) in L'. rewrite rev_app_distr in L'. discriminate.
  - intros x X. cbn in X. destruct X as [X|[X|[X|[X|[X|[]]]]]]; discriminate.
Qed.

Print Assumptions C90_status.
Print Assumptions C90_others.
Print Assumptions C90_tau.
Print Assumptions C90_size.
Print Assumptions C90_cast_partial.
Print Assumptions C90_tau_refuted.
Print Assumptions C90_cast_refuted.
