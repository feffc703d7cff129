(** Proofs for the constraints of the contact inverse dynamics. *)
From Coq Require Import ZArith String List Bool Lia Permutation Ascii.
From Verif Require Import Common SMap Containers_Model Containers_Spec Containers_Proofs InvSet_Model.
Import ListNotations.
Local Open Scope Z_scope.

(** *** Names *)
Lemma list_app a b : list_ascii_of_string (a ++ b) = (list_ascii_of_string a ++ list_ascii_of_string b)%list.
Proof. induction a as [|c a IH]; [reflexivity|]. cbn. now rewrite IH. Qed.
Lemma list_inj a b : list_ascii_of_string a = list_ascii_of_string b -> a = b.
Proof. intro E. rewrite <- (string_of_list_ascii_of_string a), <- (string_of_list_ascii_of_string b). now rewrite E. Qed.
Lemma suffix_inj a b s : (a ++ s = b ++ s)%string -> a = b.
Proof. intro E. apply (f_equal list_ascii_of_string) in E. rewrite !list_app in E. apply app_inv_tail in E. now apply list_inj. Qed.
Lemma acc_inj a b : acc_name a = acc_name b -> a = b. Proof. apply suffix_inj. Qed.
Lemma force_inj a b : force_name a = force_name b -> a = b. Proof. apply suffix_inj. Qed.
Lemma last_app {A} (l : list A) x d : last (l ++ [x]) d = x.
Proof. induction l as [|y l IH]; [reflexivity|]. cbn [app last]. destruct (l ++ [x])%list eqn:E; [|assumption]. destruct l; discriminate. Qed.
Lemma acc_last n : last (list_ascii_of_string (acc_name n)) "a"%char = "c"%char.
Proof.
  unfold acc_name. rewrite list_app. change (list_ascii_of_string "_acc") with (["_"; "a"; "c"]%char ++ ["c"%char])%list. rewrite app_assoc. apply last_app.
Qed.
Lemma force_last n : last (list_ascii_of_string (force_name n)) "a"%char = "e"%char.
Proof.
  unfold force_name. rewrite list_app. change (list_ascii_of_string "_force") with (["_"; "f"; "o"; "r"; "c"]%char ++ ["e"%char])%list. rewrite app_assoc. apply last_app.
Qed.
Lemma acc_force a b : acc_name a <> force_name b.
Proof. intro E. assert (X := acc_last a). rewrite E, force_last in X. discriminate. Qed.
Lemma tau_acc a : "tau"%string <> acc_name a.
Proof. intro E. assert (X := acc_last a). rewrite <- E in X. discriminate. Qed.
Lemma tau_force a : "tau"%string <> force_name a.
Proof. intro E. assert (X := force_last a). rewrite <- E in X. discriminate. Qed.

(** *** Sequences of status changes *)
Lemma pair_dec (x y : string * bool) : {x = y} + {x <> y}.
Proof. decide equality; [apply Bool.bool_dec|apply string_dec]. Qed.
Definition stat (x : string * bool) : mop := MStatus (fst x) (snd x).
Lemma status_other nu l : forall f n, ~ In n (map fst l) -> fold_left (amstep nu) (map stat l) f n = f n.
Proof.
  induction l as [|[k b] l IH]; intros f n H; [reflexivity|]. cbn [map fold_left fst In] in *.
  rewrite IH by tauto. cbn [stat amstep fst snd]. apply aset_other. intro E. apply H. now left.
Qed.
Lemma status_in nu l b n : In (n, b) l -> (forall b', In (n, b') l -> b' = b) ->
  forall f, fold_left (amstep nu) (map stat l) f n = option_map (cset_active b) (f n).
Proof.
  induction l as [|[k c] l IH]; intros I U f; [destruct I|]. cbn [map fold_left].
  destruct (in_dec pair_dec (n, b) l) as [I'|NI].
  - rewrite IH; [|assumption|intros; apply U; now right]. cbn [stat amstep fst snd].
    destruct (string_dec n k) as [->|ne]; [|now rewrite aset_other].
    rewrite aset_same. rewrite (U c (or_introl eq_refl)). destruct (f k) as [[]|]; reflexivity.
  - destruct I as [I|I]; [|contradiction]. injection I as -> ->.
    rewrite status_other.
    + cbn [stat amstep fst snd]. apply aset_same.
    + intro I. apply in_map_iff in I. destruct I as ([n' b'] & E & I). cbn [fst] in E. subst n'. rewrite (U b' (or_intror I)) in I. contradiction.
Qed.
Definition pairs (c : cont) : list (string * bool) :=
  flat_map (fun n => [(acc_name n, true); (force_name n, false)]) (c_act c) ++
  flat_map (fun n => [(acc_name n, false); (force_name n, true)]) (c_inact c).
Lemma sync_pairs c : sync_ops c = map stat (pairs c).
Proof.
  unfold sync_ops, pairs. rewrite map_app. f_equal.
  - induction (c_act c) as [|n l IH]; [reflexivity|]. cbn. now rewrite IH.
  - induction (c_inact c) as [|n l IH]; [reflexivity|]. cbn. now rewrite IH.
Qed.
Lemma in_pairs c x b : In (x, b) (pairs c) <->
  exists n, (In n (c_act c) /\ ((x = acc_name n /\ b = true) \/ (x = force_name n /\ b = false))) \/
            (In n (c_inact c) /\ ((x = acc_name n /\ b = false) \/ (x = force_name n /\ b = true))).
Proof.
  unfold pairs. rewrite in_app_iff, !in_flat_map. split.
  - intros [(n & I & H)|(n & I & H)]; exists n; [left|right]; (split; [exact I|]); destruct H as [H|[H|[]]]; injection H as <- <-; auto.
  - intros (n & [(I & H)|(I & H)]); [left|right]; exists n; (split; [exact I|]); destruct H as [[-> ->]|[-> ->]]; cbn; auto.
Qed.

(** *** Invariant *)
(** The constraints of the contacts are in the manager. *)
Definition has (nu : Z) (g : amap item) (f : amap citem) : Prop :=
  forall n i, g n = Some i -> (exists a, f (acc_name n) = Some (equality (it_dim i) nu a)) /\ (exists a, f (force_name n) = Some (equality (it_dim i) nu a)).
Definition ok (nv : Z) (w : invdyn) (g : amap item) (f : amap citem) : Prop :=
  inv (i_contacts w) g /\ minv (i_man w) f /\ (exists off, count_ok (i_contacts w) off) /\
  c_nu (i_contacts w) = sz_add nv (c_ntot (i_contacts w)) /\
  (forall n i, g n = Some i -> it_nu i = c_nu (i_contacts w)) /\ (forall n i, f n = Some i -> ci_nu i = m_nu (i_man w)) /\
  has (c_nu (i_contacts w)) g f.
Lemma sync_acc nu' c g f n i : inv c g -> g n = Some i ->
  fold_left (amstep nu') (sync_ops c) f (acc_name n) = option_map (cset_active (it_active i)) (f (acc_name n)).
Proof.
  intros I E. destruct (inv_sets _ _ I) as [A B]. rewrite sync_pairs. apply status_in.
  - apply in_pairs. exists n. destruct (it_active i) eqn:Ei; [left|right]; (split; [|auto]); [apply A|apply B]; eauto.
  - intros b H. apply in_pairs in H. destruct H as (k & [(K & [[N ->]|[N _]])|(K & [[N ->]|[N _]])]); try (now apply acc_force in N); apply acc_inj in N; subst k;
      [apply A in K|apply B in K]; destruct K as (j & Ej & Aj); congruence.
Qed.
Lemma sync_force nu' c g f n i : inv c g -> g n = Some i ->
  fold_left (amstep nu') (sync_ops c) f (force_name n) = option_map (cset_active (negb (it_active i))) (f (force_name n)).
Proof.
  intros I E. destruct (inv_sets _ _ I) as [A B]. rewrite sync_pairs. apply status_in.
  - apply in_pairs. exists n. destruct (it_active i) eqn:Ei; [left|right]; (split; [|auto]); [apply A|apply B]; eauto.
  - intros b H. apply in_pairs in H. destruct H as (k & [(K & [[N _]|[N ->]])|(K & [[N _]|[N ->]])]); try (symmetry in N; now apply acc_force in N); apply force_inj in N; subst k;
      [apply A in K|apply B in K]; destruct K as (j & Ej & Aj); rewrite Ej in E; injection E as ->; now rewrite Aj.
Qed.
Lemma sync_other nu' c g f x : inv c g -> (forall n i, g n = Some i -> x <> acc_name n /\ x <> force_name n) ->
  fold_left (amstep nu') (sync_ops c) f x = f x.
Proof.
  intros I N. destruct (inv_sets _ _ I) as [A B]. rewrite sync_pairs. apply status_other. intro H.
  apply in_map_iff in H. destruct H as ([y b] & E & H). cbn [fst] in E. subst y. apply in_pairs in H.
  destruct H as (k & [(K & H)|(K & H)]); [apply A in K|apply B in K]; destruct K as (i & Ei & _); destruct (N k i Ei); destruct H as [[H _]|[H _]]; congruence.
Qed.

(** What the caller may do between construction and calc: anything but removing the constraints of the
    contacts. *)
Definition leaves (g : amap item) (o : iop) : Prop :=
  match o with IMan (MRemove n) => forall k i, g k = Some i -> n <> acc_name k /\ n <> force_name k | _ => True end.
Definition same_dims (g g' : amap item) : Prop := forall n, option_map it_dim (g n) = option_map it_dim (g' n).
Lemma leaves_dims g g' o : same_dims g g' -> leaves g o -> leaves g' o.
Proof.
  intros D. destruct o as [| [| |]|]; cbn; auto. intros L k i E. specialize (D k). rewrite E in D. destruct (g k) as [j|] eqn:Ej; [|discriminate]. eauto.
Qed.
Lemma has_status nu nu' g f n b : has nu g f -> has nu g (amstep nu' f (MStatus n b)).
Proof.
  intros H k i E. destruct (H k i E) as [[a1 E1] [a2 E2]]. cbn [amstep]. split; unfold aset.
  - destruct (String.eqb_spec (acc_name k) n) as [<-|]; [|eauto]. rewrite E1. exists b. reflexivity.
  - destruct (String.eqb_spec (force_name k) n) as [<-|]; [|eauto]. rewrite E2. exists b. reflexivity.
Qed.
Lemma has_statuses nu nu' g l : forall f, has nu g f -> has nu g (fold_left (amstep nu') (map stat l) f).
Proof. induction l as [|x l IH]; intros f H; [exact H|]. cbn [map fold_left]. apply IH. now apply has_status. Qed.
Definition stepg (g : amap item) (o : iop) : amap item :=
  match o with IContact n b => aset n (option_map (set_active b) (g n)) g | _ => g end.
Lemma stepg_dims g o : same_dims g (stepg g o).
Proof.
  destruct o; intro k; try reflexivity. cbn [stepg]. unfold aset. destruct (String.eqb_spec k n) as [->|]; [|reflexivity].
  destruct (g n); reflexivity.
Qed.
Lemma mrun_nu l : forall m, m_nu (mrun m l) = m_nu m.
Proof. induction l as [|o l IH]; intro m; [reflexivity|]. unfold mrun in *. cbn [fold_left]. now rewrite IH, mstep_nu. Qed.
Lemma amstep_nus nu f o : (forall n i, f n = Some i -> ci_nu i = nu) -> forall n i, amstep nu f o n = Some i -> ci_nu i = nu.
Proof.
  intros H n i. destruct o as [k c|k|k b]; cbn [amstep].
  - destruct (Z.eqb_spec (ci_nu c) nu); [|apply H]. destruct (f k); [apply H|]. unfold aset. destruct (String.eqb n k); [|apply H]. congruence.
  - unfold aset. destruct (String.eqb n k); [discriminate|apply H].
  - unfold aset. destruct (String.eqb n k); [|apply H]. destruct (f k) as [c|] eqn:E; [|discriminate]. cbn. intros [= <-]. cbn. now apply (H k).
Qed.
Lemma amsteps_nus nu l : forall f, (forall n i, f n = Some i -> ci_nu i = nu) -> forall n i, fold_left (amstep nu) l f n = Some i -> ci_nu i = nu.
Proof. induction l as [|o l IH]; intros f H; [exact H|]. cbn [fold_left]. apply IH. now apply amstep_nus. Qed.
Lemma astep_nus nu f o : (forall n i, f n = Some i -> it_nu i = nu) -> forall n i, astep nu f o n = Some i -> it_nu i = nu.
Proof.
  intros H n i. destruct o as [k c|k c|k|k b]; cbn [astep].
  - destruct (Z.eqb_spec (it_nu c) nu); [|apply H]. destruct (f k); [apply H|]. unfold aset. destruct (String.eqb n k); [|apply H]. congruence.
  - destruct (Z.eqb_spec (it_nu c) nu); [|apply H]. destruct (f k); [apply H|]. unfold aset. destruct (String.eqb n k); [|apply H]. congruence.
  - unfold aset. destruct (String.eqb n k); [discriminate|apply H].
  - unfold aset. destruct (String.eqb n k); [|apply H]. destruct (f k) as [c|] eqn:E; [|discriminate]. cbn. intros [= <-]. cbn. now apply (H k).
Qed.
Lemma asteps_nus nu l : forall f, (forall n i, f n = Some i -> it_nu i = nu) -> forall n i, fold_left (astep nu) l f n = Some i -> it_nu i = nu.
Proof. induction l as [|o l IH]; intros f H; [exact H|]. cbn [fold_left]. apply IH. now apply astep_nus. Qed.
Lemma status_fields n b c : c_nu (change_status n b c) = c_nu c /\ c_ntot (change_status n b c) = c_ntot c.
Proof.
  unfold change_status. destruct (mfind n (c_items c)) as [i|]; [|now split]. destruct b, (it_active i); now split.
Qed.
Lemma has_ext nu g g' f : (forall n i, g' n = Some i -> exists j, g n = Some j /\ it_dim j = it_dim i) -> has nu g f -> has nu g' f.
Proof. intros X H n i E. destruct (X n i E) as (j & Ej & D). rewrite <- D. now apply H. Qed.
Definition stepf (w : invdyn) (f : amap citem) (o : iop) : amap citem :=
  match o with
  | IContact _ _ => f
  | IMan o => amstep (m_nu (i_man w)) f o
  | ICalc => fold_left (amstep (m_nu (i_man w))) (sync_ops (i_contacts w)) f
  end.
Lemma istep_ok nv w g f o : ok nv w g f -> leaves g o -> ok nv (istep w o) (stepg g o) (stepf w f o).
Proof.
  intros (I & M & [off C] & N & GN & FN & H) L. destruct o as [n b|o|]; cbn [istep stepg stepf].
  - destruct (status_fields n b (i_contacts w)) as [S1 S2]. unfold ok. cbn [i_contacts i_man]. rewrite S1, S2.
    split; [|split; [|split; [|split; [|split; [|split]]]]]; auto.
    + now apply inv_status.
    + exists off. replace off with (off + 0) by lia. exact (count_ok_step _ _ (OpStatus n b) off I C Logic.I).
    + apply (astep_nus _ g (OpStatus n b)). exact GN.
    + revert H. apply has_ext. intros k i E. unfold aset in E. destruct (String.eqb_spec k n) as [->|]; [|eauto].
      destruct (g n) as [j|] eqn:Ej; [|discriminate]. cbn in E. injection E as <-. eauto.
  - split; [|split; [|split; [|split; [|split; [|split]]]]]; cbn [i_contacts i_man]; eauto.
    + now apply minv_step.
    + rewrite mstep_nu. now apply amstep_nus.
    + destruct o as [n c|n|n b]; [| |now apply has_status].
      * intros k i E. destruct (H k i E) as [[a1 E1] [a2 E2]]. cbn [amstep]. destruct (ci_nu c =? _); [|eauto].
        destruct (f n) as [x|] eqn:En; [eauto|]. split; [exists a1|exists a2]; unfold aset;
          [destruct (String.eqb_spec (acc_name k) n)|destruct (String.eqb_spec (force_name k) n)]; congruence.
      * intros k i E. destruct (L k i E). cbn [amstep]. rewrite !aset_other by congruence. now apply H.
  - split; [|split; [|split; [|split; [|split; [|split]]]]]; cbn [i_contacts i_man]; eauto.
    + now apply mrun_inv.
    + rewrite mrun_nu. now apply amsteps_nus.
    + rewrite sync_pairs. now apply has_statuses.
Qed.
Lemma irun_ok nv ops : forall w g f, ok nv w g f -> (forall o, In o ops -> leaves g o) ->
  exists f', ok nv (irun w ops) (fold_left stepg ops g) f'.
Proof.
  induction ops as [|o ops IH]; intros w g f O L; [exists f; exact O|].
  apply (IH _ _ _ (istep_ok nv w g f o O (L o (or_introl eq_refl)))).
  intros x X. apply (leaves_dims g); [apply stepg_dims|]. apply L. now right.
Qed.

(** *** Construction *)
Lemma list_eq_nil {A} (l : list A) : l = [] \/ l <> [].
Proof. destruct l; [now left|right; discriminate]. Qed.
Definition adds (nu : Z) (l : list (string * item)) : list mop := flat_map (contact_adds nu) l.
Lemma add_fresh nu f n c : ci_nu c = nu -> f n = None -> forall k, amstep nu f (MAdd n c) k = aset n (Some c) f k.
Proof. intros E N k. cbn [amstep]. rewrite E, Z.eqb_refl, N. reflexivity. Qed.
Lemma add_other nu f n c k : k <> n -> amstep nu f (MAdd n c) k = f k.
Proof. intro ne. cbn [amstep]. destruct (ci_nu c =? nu); [|reflexivity]. destruct (f n); [reflexivity|]. now apply aset_other. Qed.
Lemma adds_other nu l : forall f x, (forall n, In n (map fst l) -> x <> acc_name n /\ x <> force_name n) -> fold_left (amstep nu) (adds nu l) f x = f x.
Proof.
  induction l as [|[n i] l IH]; intros f x H; [reflexivity|]. cbn [adds flat_map contact_adds fst snd app fold_left]. fold (adds nu l).
  rewrite IH by (intros k K; apply H; now right). destruct (H n (or_introl eq_refl)). now rewrite !add_other.
Qed.
Lemma adds_in nu l : NoDup (map fst l) -> forall f, (forall n, In n (map fst l) -> f (acc_name n) = None /\ f (force_name n) = None) ->
  forall n i, In (n, i) l ->
    fold_left (amstep nu) (adds nu l) f (acc_name n) = Some (equality (it_dim i) nu (it_active i)) /\
    fold_left (amstep nu) (adds nu l) f (force_name n) = Some (equality (it_dim i) nu (negb (it_active i))).
Proof.
  induction l as [|[m j] l IH]; intros ND f F n i I; [destruct I|]. cbn [map fst] in ND. apply NoDup_cons_iff in ND. destruct ND as [NI ND].
  cbn [adds flat_map contact_adds fst snd app fold_left]. fold (adds nu l). set (f1 := amstep nu f _). set (f2 := amstep nu f1 _).
  destruct (F m (or_introl eq_refl)) as [Fa Ff].
  assert (A1 : forall k, f1 k = aset (acc_name m) (Some (equality (it_dim j) nu (it_active j))) f k) by (apply add_fresh; auto).
  assert (A2 : forall k, f2 k = aset (force_name m) (Some (equality (it_dim j) nu (negb (it_active j)))) f1 k).
  { apply add_fresh; [reflexivity|]. rewrite A1, aset_other; [assumption|]. intro E. symmetry in E. now apply acc_force in E. }
  destruct I as [I|I].
  - injection I as -> ->. assert (K : forall x, x = acc_name n \/ x = force_name n -> forall k, In k (map fst l) -> x <> acc_name k /\ x <> force_name k).
    { intros x [-> | ->] k K; split; intro E.
      - apply acc_inj in E. now subst.
      - now apply acc_force in E.
      - symmetry in E. now apply acc_force in E.
      - apply force_inj in E. now subst. }
    rewrite !adds_other by (apply K; auto). rewrite !A2. split.
    + rewrite aset_other by apply acc_force. rewrite A1. apply aset_same.
    + apply aset_same.
  - apply IH; auto. intros k K. assert (k <> m) by (intros ->; contradiction). destruct (F k (or_intror K)) as [Ka Kf].
    rewrite !A2. rewrite !aset_other.
    + rewrite !A1, !aset_other; auto; intro E; [symmetry in E; now apply acc_force in E|now apply acc_inj in E].
    + intro E. now apply force_inj in E.
    + apply acc_force.
Qed.

Lemma construct_eq nv na c m w : construct nv na c m = Some w ->
  w = Inv c (mrun m (init_ops nv na c)) /\ c_nu c = sz_add nv (c_ntot c) /\ (init_ops nv na c <> [] -> m_nu m = sz_add nv (c_ntot c)).
Proof.
  unfold construct. destruct (Z.eqb_spec (c_nu c) (sz_add nv (c_ntot c))) as [E|]; cbn [negb]; [|discriminate].
  destruct (init_ops nv na c) as [|o l] eqn:O; [intros [= <-]; split; [reflexivity|split; [assumption|congruence]]|].
  destruct (Z.eqb_spec (m_nu m) (sz_add nv (c_ntot c))); cbn [negb]; [|discriminate]. intros [= <-]. auto.
Qed.
(** No constraint of the caller is named after a contact. *)
Definition free_names (g : amap item) (f : amap citem) : Prop :=
  forall n i, g n = Some i -> f (acc_name n) = None /\ f (force_name n) = None.
Definition sized (c : cont) : Prop := c_ntot c = 0 -> c_items c = [].
Lemma construct_ok nv na c m w g f : inv c g -> minv m f -> (exists off, count_ok c off) ->
  (forall n i, g n = Some i -> it_nu i = c_nu c) -> (forall n i, f n = Some i -> ci_nu i = m_nu m) ->
  sized c -> free_names g f -> construct nv na c m = Some w ->
  exists f', ok nv w g f' /\
    (forall n i, g n = Some i -> f' (acc_name n) = Some (equality (it_dim i) (c_nu c) (it_active i)) /\ f' (force_name n) = Some (equality (it_dim i) (c_nu c) (negb (it_active i)))) /\
    (0 < sz_sub nv na -> f "tau"%string = None -> f' "tau"%string = Some (equality (sz_sub nv na) (c_nu c) true)) /\
    (forall x, (forall n i, g n = Some i -> x <> acc_name n /\ x <> force_name n) -> (0 < sz_sub nv na -> f "tau"%string = None -> x <> "tau"%string) -> f' x = f x).
Proof.
  intros I M C GN FN Z F E. destruct (construct_eq _ _ _ _ _ E) as (-> & NC & NM).
  exists (fold_left (amstep (m_nu m)) (init_ops nv na c) f).
  assert (MR : minv (mrun m (init_ops nv na c)) (fold_left (amstep (m_nu m)) (init_ops nv na c) f)) by now apply mrun_inv.
  assert (EN := enumerates_smap _ _ (inv_items _ _ I) (inv_find _ _ I)). destruct EN as [ND EN].
  set (f1 := fold_left (amstep (m_nu m)) (if 0 <? sz_sub nv na then [MAdd "tau" (equality (sz_sub nv na) (c_nu c) true)] else []) f).
  assert (T1 : 0 < sz_sub nv na -> f "tau"%string = None -> f1 "tau"%string = Some (equality (sz_sub nv na) (c_nu c) true)).
  { intros P Q. subst f1. apply Z.ltb_lt in P. rewrite P. cbn [fold_left]. rewrite add_fresh; [apply aset_same| |exact Q].
    cbn [equality ci_nu]. rewrite NC. symmetry. apply NM. unfold init_ops. rewrite P. discriminate. }
  assert (T2 : forall x, x <> "tau"%string -> f1 x = f x).
  { intros x ne. subst f1. destruct (0 <? sz_sub nv na); [|reflexivity]. cbn [fold_left]. now apply add_other. }
  assert (T3 : (0 < sz_sub nv na -> f "tau"%string = None -> False) -> forall x, f1 x = f x).
  { intros A x. subst f1. destruct (0 <? sz_sub nv na) eqn:P; [|reflexivity]. apply Z.ltb_lt in P. cbn [fold_left amstep].
    destruct (ci_nu _ =? m_nu m); [|reflexivity]. destruct (f "tau"%string); [reflexivity|]. exfalso. auto. }
  assert (EQ : c_items c <> [] -> fold_left (amstep (m_nu m)) (init_ops nv na c) f = fold_left (amstep (m_nu m)) (adds (m_nu m) (c_items c)) f1).
  { intro NE. unfold init_ops. rewrite fold_left_app. rewrite <- NC. fold f1. destruct (Z.eqb_spec (c_ntot c) 0) as [A|A]; [now apply Z in A|].
    unfold adds. rewrite NM, NC; [reflexivity|]. unfold init_ops. intro X. apply app_eq_nil in X. destruct X as [_ X].
    apply Z.eqb_neq in A. rewrite A in X. destruct (c_items c); [contradiction|discriminate]. }
  assert (EQ0 : c_items c = [] -> fold_left (amstep (m_nu m)) (init_ops nv na c) f = f1).
  { intro NE. unfold init_ops. rewrite fold_left_app. rewrite <- NC. fold f1. rewrite NE. destruct (c_ntot c =? 0); reflexivity. }
  set (f' := fold_left (amstep (m_nu m)) (init_ops nv na c) f) in *.
  assert (OWN : forall n i, g n = Some i -> f' (acc_name n) = Some (equality (it_dim i) (c_nu c) (it_active i)) /\ f' (force_name n) = Some (equality (it_dim i) (c_nu c) (negb (it_active i)))).
  { intros n i G. apply EN in G. assert (NE : c_items c <> []) by (intro X; rewrite X in G; destruct G). rewrite EQ by assumption.
    replace (c_nu c) with (m_nu m).
    - apply adds_in; auto. intros k K. apply in_map_iff in K. destruct K as ([k' j] & X & K). cbn [fst] in X. subst k'. apply EN in K.
      rewrite !T2; [now apply (F k j)| |]; intro X; symmetry in X; [now apply tau_force in X|now apply tau_acc in X].
    - rewrite NC. apply NM. unfold init_ops. intro X. apply app_eq_nil in X. destruct X as [_ X].
      destruct (Z.eqb_spec (c_ntot c) 0) as [A|A]; [now apply Z in A|]. destruct (c_items c); [contradiction|discriminate]. }
  assert (OTHER : forall x, (forall n i, g n = Some i -> x <> acc_name n /\ x <> force_name n) -> f' x = f1 x).
  { intros x X. destruct (list_eq_nil (c_items c)) as [Y|Y]; [now rewrite EQ0|]. rewrite EQ by assumption.
    apply adds_other. intros n K. apply in_map_iff in K. destruct K as ([k' j] & X' & K). cbn [fst] in X'. subst k'. apply EN in K. eauto. }
  split; [|split; [exact OWN|split]].
  - split; [|split; [|split; [|split; [|split; [|split]]]]]; cbn [i_contacts i_man]; auto.
    + rewrite mrun_nu. subst f'. now apply amsteps_nus.
    + intros n i G. destruct (OWN n i G). eauto.
  - intros P Q. rewrite OTHER; [now apply T1|]. intros; split; [apply tau_acc|apply tau_force].
  - intros x X T. rewrite OTHER by assumption. destruct (string_dec x "tau") as [->|ne]; [|now apply T2]. apply T3. intros A B. exact (T A B eq_refl).
Qed.

(** *** cast *)
Lemma madds nu l : NoDup (map fst l) -> (forall n i, In (n, i) l -> ci_nu i = nu) -> forall f, (forall n, In n (map fst l) -> f n = None) ->
  (forall n i, In (n, i) l -> fold_left (amstep nu) (map (fun x => MAdd (fst x) (snd x)) l) f n = Some i) /\
  (forall n, ~ In n (map fst l) -> fold_left (amstep nu) (map (fun x => MAdd (fst x) (snd x)) l) f n = f n).
Proof.
  induction l as [|[m j] l IH]; intros ND N f F; [split; [intros n i []|reflexivity]|]. cbn [map fst snd fold_left] in *.
  apply NoDup_cons_iff in ND. destruct ND as [NI ND]. set (f1 := amstep nu f _).
  assert (A1 : forall k, f1 k = aset m (Some j) f k) by (apply add_fresh; [apply (N m); now left|apply F; now left]).
  destruct (IH ND (fun n i X => N n i (or_intror X)) f1) as [P Q].
  { intros n K. rewrite A1, aset_other; [apply F; now right|]. intros ->. contradiction. }
  split.
  - intros n i [X|X]; [|now apply P]. injection X as -> ->. rewrite Q by assumption. rewrite A1. apply aset_same.
  - intros n X. rewrite Q by (intro Y; apply X; now right). rewrite A1. apply aset_other. intros ->. apply X. now left.
Qed.
Lemma cadds nu l : NoDup (map fst l) -> (forall n i, In (n, i) l -> it_nu i = nu) -> forall f, (forall n, In n (map fst l) -> f n = None) ->
  (forall n i, In (n, i) l -> fold_left (astep nu) (map (fun x => OpAdd (fst x) (snd x)) l) f n = Some i) /\
  (forall n, ~ In n (map fst l) -> fold_left (astep nu) (map (fun x => OpAdd (fst x) (snd x)) l) f n = f n).
Proof.
  induction l as [|[m j] l IH]; intros ND N f F; [split; [intros n i []|reflexivity]|]. cbn [map fst snd fold_left] in *.
  apply NoDup_cons_iff in ND. destruct ND as [NI ND]. set (f1 := astep nu f _).
  assert (A1 : forall k, f1 k = aset m (Some j) f k).
  { intro k. subst f1. cbn [astep]. rewrite (N m j (or_introl eq_refl)), Z.eqb_refl, (F m (or_introl eq_refl)). reflexivity. }
  destruct (IH ND (fun n i X => N n i (or_intror X)) f1) as [P Q].
  { intros n K. rewrite A1, aset_other; [apply F; now right|]. intros ->. contradiction. }
  split.
  - intros n i [X|X]; [|now apply P]. injection X as -> ->. rewrite Q by assumption. rewrite A1. apply aset_same.
  - intros n X. rewrite Q by (intro Y; apply X; now right). rewrite A1. apply aset_other. intros ->. apply X. now left.
Qed.
Definition removes (nv na : Z) (c : cont) : list string :=
  (if 0 <? sz_sub nv na then ["tau"%string] else []) ++
  (if c_ntot c =? 0 then [] else flat_map (fun x : string * item => [acc_name (fst x); force_name (fst x)]) (c_items c)).
Lemma cast_eq nv na w : cast nv na w =
  construct nv na (cast_cont (i_contacts w)) (mrun (cast_man (i_man w)) (map MRemove (removes nv na (i_contacts w)))).
Proof.
  unfold cast, removes. f_equal. f_equal. rewrite map_app. f_equal; [destruct (0 <? sz_sub nv na); reflexivity|].
  destruct (c_ntot _ =? 0); [reflexivity|]. induction (c_items (i_contacts w)) as [|x l IH]; [reflexivity|]. cbn. now rewrite IH.
Qed.
Lemma removed nu l : forall f x, fold_left (amstep nu) (map MRemove l) f x = if in_dec string_dec x l then None else f x.
Proof.
  induction l as [|y l IH]; intros f x; [reflexivity|]. cbn [map fold_left]. rewrite IH. cbn [amstep]. unfold aset.
  destruct (in_dec string_dec x l), (in_dec string_dec x (y :: l)) as [I|I], (String.eqb_spec x y); try reflexivity; exfalso; cbn in I; intuition congruence.
Qed.
Lemma run_nu l : forall c, c_nu (run c l) = c_nu c.
Proof. induction l as [|o l IH]; intro c; [reflexivity|]. unfold run in *. cbn [fold_left]. now rewrite IH, step_nu. Qed.
Lemma inv_ext c g g' : (forall n, g n = g' n) -> inv c g -> inv c g'.
Proof.
  intros X [a b c' d [s1 s2]]. constructor; auto.
  - intro k. now rewrite d.
  - split; intro n; [rewrite s1|rewrite s2]; split; intros (i & E & A); exists i; (split; [|exact A]); congruence.
Qed.
Lemma cast_cont_ok c g : inv c g -> (exists off, count_ok c off) -> (forall n i, g n = Some i -> it_nu i = c_nu c) ->
  inv (cast_cont c) g /\ (exists off, count_ok (cast_cont c) off) /\ c_nu (cast_cont c) = c_nu c /\ c_ntot (cast_cont c) = c_ntot c.
Proof.
  intros I [off C] GN. assert (EN := enumerates_smap _ _ (inv_items _ _ I) (inv_find _ _ I)). destruct EN as [ND EN].
  set (h := map (fun x : string * item => OpAdd (fst x) (snd x)) (c_items c)).
  assert (NO : no_item_overload h). { intros o O. apply in_map_iff in O. destruct O as (x & <- & _). exact Logic.I. }
  destruct (run_inv h (empty_cont (c_nu c)) (fun _ => None) 0 (inv_empty _) (count_ok_empty _) (no_overload_no_dup h NO _ _)) as [I' C'].
  destruct (cadds (c_nu c) (c_items c) ND (fun n i X => GN n i (proj1 (EN n i) X)) (fun _ => None) (fun _ _ => eq_refl)) as [P Q].
  assert (G : forall n, fold_left (astep (c_nu c)) h (fun _ => None) n = g n).
  { intro n. destruct (g n) as [i|] eqn:E; [apply P, EN, E|]. apply Q. intro X. apply in_map_iff in X. destruct X as ([k i] & K & X). cbn in K. subst k. apply EN in X. congruence. }
  assert (J : inv (cast_cont c) g) by exact (inv_ext _ _ _ G I').
  split; [exact J|]. split; [eexists; exact C'|]. split; [exact (run_nu h (empty_cont (c_nu c)))|].
  destruct C as [_ C], C' as [_ C']. rewrite C. etransitivity; [exact C'|]. f_equal. apply dims_perm.
  apply (enumerates_perm _ _ g); [apply enumerates_smap; [apply (inv_items _ _ J)|apply (inv_find _ _ J)]|now split].
Qed.
Lemma cast_man_ok m f : minv m f -> (forall n i, f n = Some i -> ci_nu i = m_nu m) -> minv (cast_man m) f /\ m_nu (cast_man m) = m_nu m.
Proof.
  intros M FN. assert (EN := enumerates_smap _ _ (minv_items _ _ M) (minv_find _ _ M)). destruct EN as [ND EN].
  split; [|exact (mrun_nu _ (empty_cman (m_nu m)))]. unfold cast_man. pose proof (mrun_inv (map (fun x => MAdd (fst x) (snd x)) (m_items m)) _ _ (minv_empty (m_nu m))) as X.
  cbn [m_nu empty_cman] in X. revert X. apply minv_ext. intro n.
  destruct (madds (m_nu m) (m_items m) ND (fun n i X => FN n i (proj1 (EN n i) X)) (fun _ => None) (fun _ _ => eq_refl)) as [P Q].
  destruct (f n) as [i|] eqn:E; [apply P, EN, E|]. apply Q. intro X. apply in_map_iff in X. destruct X as ([k i] & K & X). cbn in K. subst k. apply EN in X. congruence.
Qed.
(** A model whose constraints follow the statuses of its contacts is copied. *)
Lemma cast_ok nv na w g f : ok nv w g f -> sized (i_contacts w) ->
  (forall n i, g n = Some i -> f (acc_name n) = Some (equality (it_dim i) (c_nu (i_contacts w)) (it_active i)) /\ f (force_name n) = Some (equality (it_dim i) (c_nu (i_contacts w)) (negb (it_active i)))) ->
  (0 < sz_sub nv na -> f "tau"%string = Some (equality (sz_sub nv na) (c_nu (i_contacts w)) true)) ->
  exists w', cast nv na w = Some w' /\ ok nv w' g f /\ c_nu (i_contacts w') = c_nu (i_contacts w) /\ m_nu (i_man w') = m_nu (i_man w).
Proof.
  intros (I & M & C & N & GN & FN & H) Z S T. rewrite cast_eq. set (c := i_contacts w) in *. set (m := i_man w) in *.
  destruct (cast_cont_ok c g I C GN) as (I' & C' & N1 & N2). destruct (cast_man_ok m f M FN) as (M' & N3).
  set (m1 := mrun (cast_man m) (map MRemove (removes nv na c))).
  assert (EN := enumerates_smap _ _ (inv_items _ _ I) (inv_find _ _ I)). destruct EN as [ND EN].
  assert (EN' := enumerates_smap _ _ (inv_items _ _ I') (inv_find _ _ I')). destruct EN' as [ND' EN'].
  set (f1 := fold_left (amstep (m_nu (cast_man m))) (map MRemove (removes nv na c)) f).
  assert (M1 : minv m1 f1) by now apply mrun_inv.
  assert (N4 : m_nu m1 = m_nu m) by (unfold m1; now rewrite mrun_nu).
  assert (Z' : sized (cast_cont c)).
  { intro X. rewrite N2 in X. apply Z in X. destruct (c_items (cast_cont c)) as [|[k i] l] eqn:Y; [reflexivity|].
    assert (A : g k = Some i) by (apply EN'; rewrite ?Y; now left). apply EN in A. rewrite X in A. destruct A. }
  assert (NE : forall n i, g n = Some i -> c_ntot c <> 0).
  { intros n i G X. apply Z in X. apply EN in G. rewrite X in G. destruct G. }
  assert (RM : forall n i, g n = Some i -> In (acc_name n) (removes nv na c) /\ In (force_name n) (removes nv na c)).
  { intros n i G. unfold removes. assert (X := NE n i G). apply Z.eqb_neq in X. rewrite X. apply EN in G.
    split; apply in_or_app; right; apply in_flat_map; exists (n, i); (split; [exact G|cbn; auto]). }
  assert (RM' : forall x, In x (removes nv na c) -> (0 < sz_sub nv na /\ x = "tau"%string) \/ exists n i, g n = Some i /\ (x = acc_name n \/ x = force_name n)).
  { intros x X. unfold removes in X. apply in_app_or in X. destruct X as [X|X].
    - left. destruct (0 <? sz_sub nv na) eqn:P; [|destruct X]. apply Z.ltb_lt in P. destruct X as [<-|[]]. auto.
    - right. destruct (c_ntot c =? 0); [destruct X|]. apply in_flat_map in X. destruct X as ([n i] & Y & X). apply EN in Y. exists n, i. cbn in X. intuition. }
  assert (F1 : forall x, f1 x = if in_dec string_dec x (removes nv na c) then None else f x) by (intro; apply removed).
  assert (NI : init_ops nv na (cast_cont c) <> [] -> m_nu m = c_nu c).
  { intro X. destruct (0 <? sz_sub nv na) eqn:P.
    - apply Z.ltb_lt in P. symmetry. exact (FN _ _ (T P)).
    - destruct (list_eq_nil (c_items (cast_cont c))) as [Y|Y].
      + exfalso. apply X. unfold init_ops. rewrite P, Y. destruct (c_ntot (cast_cont c) =? 0); reflexivity.
      + destruct (c_items (cast_cont c)) as [|[k i] l] eqn:L; [contradiction|].
        assert (G : g k = Some i) by (apply EN'; rewrite ?L; now left). destruct (S k i G) as [A _]. symmetry. exact (FN _ _ A). }
  destruct (construct nv na (cast_cont c) m1) as [w'|] eqn:K.
  - assert (KE := construct_eq _ _ _ _ _ K). destruct KE as (KE & _).
    destruct (construct_ok nv na (cast_cont c) m1 w' g f1) as (f' & O & S' & T' & R'); auto.
    + now rewrite N1.
    + intros n i X. rewrite N4. rewrite F1 in X. destruct (in_dec _ _ _); [discriminate|]. eauto.
    + intros n i G. destruct (RM n i G). rewrite !F1. destruct (in_dec _ _ _), (in_dec _ _ _); tauto.
    + exists w'. split; [reflexivity|].
      assert (E : forall x, f' x = f x).
      { intro x. destruct (in_dec string_dec x (removes nv na c)) as [X|X].
        - destruct (RM' x X) as [[P ->]|(n & i & G & Y)].
          + rewrite T, T', N1; auto. rewrite F1. destruct (in_dec _ _ _); [reflexivity|contradiction].
          + destruct (S n i G) as [A B], (S' n i G) as [A' B']. rewrite N1 in *. destruct Y as [-> | ->]; congruence.
        - rewrite R'; [rewrite F1; destruct (in_dec _ _ _); [contradiction|reflexivity]| |].
          + intros n i G. destruct (RM n i G). split; intros ->; contradiction.
          + intros P _ ->. apply X. unfold removes. apply Z.ltb_lt in P. rewrite P. now left. }
      destruct O as (O1 & O2 & O3 & O4 & O5 & O6 & O7). subst w'. cbn [i_contacts i_man] in *.
      split; [|rewrite mrun_nu; auto].
      split; [|split; [|split; [|split; [|split; [|split]]]]]; cbn [i_contacts i_man]; auto.
      * revert O2. now apply minv_ext.
      * intros n i X. apply (O6 n). now rewrite E.
      * intros n i G. rewrite <- !E. now apply O7.
  - exfalso. unfold construct in K. rewrite N1, N2, N, Z.eqb_refl in K. cbn [negb] in K.
    destruct (init_ops nv na (cast_cont c)) as [|o l] eqn:Q; [discriminate|]. rewrite N4 in K. rewrite <- N in K.
    rewrite NI, Z.eqb_refl in K by congruence. cbn in K. discriminate.
Qed.
