(** C107: the Python classes of name sets and named maps behave as Python's. *)
From Coq Require Import ZArith String List Bool Lia Sorted.
From Verif Require Import SMap PySet_Model.
Import ListNotations.
Local Open Scope Z_scope.

(** *** Specification *)
(** A set of names is its membership predicate; names are ordered byte by byte. *)
Definition nset := string -> Prop.
(** [M] has [n] elements; [x] has [n] smaller elements in [M]. *)
Definition card (M : nset) (n : Z) : Prop := exists l, NoDup l /\ Z.of_nat (length l) = n /\ forall y, In y l <-> M y.
Definition rank (M : nset) (x : string) (n : Z) : Prop := card (fun y => M y /\ slt y x) n.
Definition same (M M' : nset) : Prop := forall y, M' y <-> M y.
(** Python: the index [i] means the position [k] among [n] *)
Definition means (n i k : Z) : Prop := 0 <= k < n /\ (i = k \/ i = k - n).
(** Python: where a bound of a slice lies *)
Definition bound (n dflt : Z) (a : option Z) : Z :=
  match a with None => dflt | Some a => Z.max 0 (Z.min n (if a <? 0 then n + a else a)) end.
(** the elements between two bounds *)
Definition between (M : nset) (lo hi : Z) (y : string) : Prop := M y /\ exists k, rank M y k /\ lo <= k < hi.

Inductive reply := Gives (a : answer) | Fails (e : pyexc).
(** What a call must do with the set [M]: the set afterwards and the reply. *)
Definition python_set {V} (M : nset) (o : op V) (M' : nset) (r : reply) : Prop :=
  match o with
  | Add (PyStr x) => r = Gives ANone /\ forall y, M' y <-> M y \/ y = x
  | Discard (PyStr x) => r = Gives ANone /\ forall y, M' y <-> M y /\ y <> x
  | Remove (PyStr x) => (M x /\ r = Gives ANone /\ forall y, M' y <-> M y /\ y <> x) \/ (~ M x /\ r = Fails KeyError /\ same M M')
  | Add _ | Discard _ | Remove _ => r = Fails TypeError /\ same M M'
  | Clear => r = Gives ANone /\ forall y, ~ M' y
  | Len => same M M' /\ exists n, r = Gives (AInt n) /\ card M n
  | In_ o => same M M' /\ exists b, r = Gives (ABool b) /\ (b = true <-> exists x, o = PyStr x /\ M x)
  | Get i => same M M' /\
      ((exists n k x, card M n /\ means n i k /\ M x /\ rank M x k /\ r = Gives (AStr x)) \/
       (r = Fails IndexError /\ forall n k, card M n -> ~ means n i k))
  | Del i =>
      (exists n k x, card M n /\ means n i k /\ M x /\ rank M x k /\ r = Gives ANone /\ forall y, M' y <-> M y /\ y <> x) \/
      (r = Fails IndexError /\ same M M' /\ forall n k, card M n -> ~ means n i k)
  | Set_ _ _ => same M M' /\ (r = Fails TypeError \/ r = Fails IndexError)
  | GetSlice a b false => same M M' /\ exists n s, card M n /\ r = Gives (ASet s) /\ ssorted s /\
      forall y, In y s <-> between M (bound n 0 a) (bound n n b) y
  | DelSlice a b false => exists n, card M n /\ r = Gives ANone /\
      forall y, M' y <-> M y /\ ~ between M (bound n 0 a) (bound n n b) y
  | GetSlice _ _ true | DelSlice _ _ true => r = Fails IndexError /\ same M M'
  end.
(** a sequence of calls and their replies *)
Fixpoint python_run {V} (M : nset) (os : list (op V)) (rs : list reply) (M' : nset) : Prop :=
  match os, rs with
  | [], [] => same M M'
  | o :: os, r :: rs => exists M1, python_set M o M1 r /\ python_run M1 os rs M'
  | _, _ => False
  end.
(** The code run on a sequence of calls; None: undefined behaviour. *)
Fixpoint run {V} (s : sset) (os : list (op V)) : option (sset * list reply) :=
  match os with
  | [] => Some (s, [])
  | o :: os =>
      match step s o with
      | Return s' a => option_map (fun p => (fst p, Gives a :: snd p)) (run s' os)
      | Raise s' e => option_map (fun p => (fst p, Fails e :: snd p)) (run s' os)
      | Undef => None
      end
  end.

(** *** Proofs *)
Definition mem (s : sset) : nset := fun y => In y s.
Lemma card_mem s : ssorted s -> card (mem s) (size s).
Proof. intro H. exists s. split; [now apply ssorted_NoDup|split; [reflexivity|intro; reflexivity]]. Qed.
Lemma card_unique M n n' : card M n -> card M n' -> n = n'.
Proof.
  intros (l & ND & <- & H) (l' & ND' & <- & H').
  assert (A : incl l l') by (intros y Y; now apply H', H). assert (B : incl l' l) by (intros y Y; now apply H, H').
  pose proof (NoDup_incl_length ND A). pose proof (NoDup_incl_length ND' B). lia.
Qed.
Lemma sorted_app l1 x l2 : ssorted (l1 ++ x :: l2) -> (forall y, In y l1 -> slt y x) /\ (forall y, In y l2 -> slt x y).
Proof.
  induction l1 as [|a l1 IH]; cbn; intro H.
  - apply ssorted_cons in H as [_ H]. rewrite Forall_forall in H. split; [intros y []|exact H].
  - apply ssorted_cons in H as [H1 H2]. destruct (IH H1) as [I1 I2]. split; [|exact I2].
    rewrite Forall_forall in H2. intros y [<- |Y]; [apply H2, in_or_app; right; now left|now apply I1].
Qed.
Lemma nodup_l {A} (l1 l2 : list A) : NoDup (l1 ++ l2) -> NoDup l1.
Proof.
  induction l1 as [|a l1 IH]; cbn; intro H; [constructor|]. apply NoDup_cons_iff in H as [N H]. constructor; [|now apply IH].
  intro I. apply N, in_or_app. now left.
Qed.
Lemma slt_asym x y : slt x y -> ~ slt y x.
Proof. intros H H'. exact (slt_irrefl _ (slt_trans _ _ _ H H')). Qed.
Lemma rank_nth s k x : ssorted s -> nth_error s k = Some x -> rank (mem s) x (Z.of_nat k).
Proof.
  intros H E. apply nth_error_split in E. destruct E as (l1 & l2 & -> & L). destruct (sorted_app _ _ _ H) as [A B].
  exists l1. split; [|split].
  - apply ssorted_NoDup in H. now apply nodup_l in H.
  - now rewrite L.
  - intro y. unfold mem. rewrite in_app_iff. cbn. split.
    + intro Y. split; [now left|now apply A].
    + intros [[Y|[<- |Y]] Z]; [exact Y|now apply slt_irrefl in Z|]. exfalso. exact (slt_asym _ _ (B _ Y) Z).
Qed.
Lemma rank_pos s y k : ssorted s -> In y s -> rank (mem s) y k -> 0 <= k < size s /\ nth_error s (Z.to_nat k) = Some y.
Proof.
  intros H Y R. apply In_nth_error in Y. destruct Y as [j E]. pose proof (rank_nth s j y H E) as R'.
  pose proof (card_unique _ _ _ R R') as ->. assert (L : (j < length s)%nat) by (apply nth_error_Some; congruence).
  unfold size. rewrite Nat2Z.id. split; [lia|exact E].
Qed.
Lemma nth_firstn {A} (l : list A) n k : nth_error (firstn n l) k = if (k <? n)%nat then nth_error l k else None.
Proof.
  revert n k. induction l as [|a l IH]; intros n k.
  - rewrite firstn_nil. destruct k; cbn [nth_error]; now destruct (Nat.ltb _ n).
  - destruct n; [now destruct k|]. destruct k; [reflexivity|]. cbn [firstn nth_error]. now rewrite IH.
Qed.
Lemma nth_skipn {A} (l : list A) n k : nth_error (skipn n l) k = nth_error l (n + k).
Proof. revert l. induction n; intros l; [reflexivity|]. destruct l; cbn; [now destruct k|apply IHn]. Qed.
Lemma range_In (s : sset) f t y : In y (firstn (t - f) (skipn f s)) <-> exists k, (f <= k < t)%nat /\ nth_error s k = Some y.
Proof.
  split.
  - intro Y. apply In_nth_error in Y. destruct Y as [k E]. rewrite nth_firstn in E. destruct (Nat.ltb_spec k (t - f)); [|discriminate].
    rewrite nth_skipn in E. exists (f + k)%nat. split; [lia|exact E].
  - intros (k & L & E). apply (nth_error_In _ (k - f)). rewrite nth_firstn.
    destruct (Nat.ltb_spec (k - f) (t - f)); [|lia]. rewrite nth_skipn. replace (f + (k - f))%nat with k by lia. exact E.
Qed.
Lemma outside_In (s : sset) f t y : (f <= t)%nat -> In y (firstn f s ++ skipn t s) <-> exists k, (k < f \/ t <= k)%nat /\ nth_error s k = Some y.
Proof.
  intro L. rewrite in_app_iff. split.
  - intros [Y|Y]; apply In_nth_error in Y; destruct Y as [k E].
    + rewrite nth_firstn in E. destruct (Nat.ltb_spec k f); [|discriminate]. exists k. split; [now left|exact E].
    + rewrite nth_skipn in E. exists (t + k)%nat. split; [right; lia|exact E].
  - intros (k & [K|K] & E).
    + left. apply (nth_error_In _ k). rewrite nth_firstn. destruct (Nat.ltb_spec k f); [exact E|lia].
    + right. apply (nth_error_In _ (k - t)). rewrite nth_skipn. replace (t + (k - t))%nat with k by lia. exact E.
Qed.
Lemma sorted_outside (s : sset) f t : ssorted s -> (f <= t)%nat -> ssorted (firstn f s ++ skipn t s).
Proof.
  revert f t. induction s as [|a s IH]; intros f t H L; [now rewrite firstn_nil, skipn_nil|].
  apply ssorted_cons in H as [H1 H2]. destruct f as [|f]; cbn [firstn app].
  - clear IH. destruct t as [|t]; [now apply ssorted_cons|]. cbn [skipn]. clear H2 L. revert s H1.
    induction t; intros s H1; [exact H1|]. destruct s; [constructor|]. apply ssorted_cons in H1 as [H1 _]. now apply IHt.
  - destruct t as [|t]; [lia|]. cbn [skipn]. apply ssorted_cons. split; [apply IH; [exact H1|lia]|].
    rewrite Forall_forall in *. intros y Y. apply H2. apply in_app_iff in Y.
    destruct Y as [Y|Y]; [rewrite <- (firstn_skipn f s)|rewrite <- (firstn_skipn t s)]; apply in_or_app; [now left|now right].
Qed.
Lemma of_range_In l y : In y (of_range l) <-> In y l.
Proof.
  assert (X : forall s, In y (fold_left (fun s x => sinsert x s) l s) <-> In y l \/ In y s).
  { induction l as [|a l IH]; intros s; cbn [fold_left]; [cbn; tauto|]. rewrite IH, sinsert_In. cbn [In]. intuition. }
  unfold of_range. rewrite X. cbn [In]. tauto.
Qed.
Lemma of_range_sorted l : ssorted (of_range l).
Proof.
  unfold of_range. assert (X : ssorted []) by constructor. revert X. generalize (@nil string).
  induction l as [|a l IH]; intros s X; cbn [fold_left]; [exact X|]. now apply IH, sinsert_sorted.
Qed.
Lemma contains_spec s k : contains s k = true <-> mem s k.
Proof.
  unfold contains, mem. rewrite existsb_exists. split.
  - intros (x & X & E). apply String.eqb_eq in E. now subst.
  - intro X. exists k. split; [exact X|apply String.eqb_refl].
Qed.
Lemma convert_means n i k : 0 <= n -> convert_index n i = Some k <-> means n i k.
Proof.
  intro N. unfold convert_index, means. destruct (Z.ltb_spec i 0).
  - destruct (Z.leb_spec n (i + n)), (Z.ltb_spec (i + n) 0); cbn; (split; [discriminate || intros [= <-]; lia|intros [A B]; try lia; f_equal; lia]).
  - destruct (Z.leb_spec n i), (Z.ltb_spec i 0); cbn; (split; [discriminate || intros [= <-]; lia|intros [A B]; try lia; f_equal; lia]).
Qed.
Lemma convert_none n i : 0 <= n -> convert_index n i = None -> forall k, ~ means n i k.
Proof. intros N E k H. apply convert_means in H; [congruence|exact N]. Qed.
Lemma slice_bound_spec n d a : 0 <= n -> slice_bound n d a = bound n d a.
Proof.
  intro N. destruct a as [a|]; [|reflexivity]. unfold slice_bound, bound. rewrite (Z.add_comm n a).
  destruct (Z.ltb_spec a 0).
  - destruct (Z.ltb_spec (a + n) 0); [destruct (Z.ltb_spec n 0)|destruct (Z.ltb_spec n (a + n))]; lia.
  - destruct (Z.ltb_spec a 0); [lia|]. destruct (Z.ltb_spec n a); lia.
Qed.
Lemma bound_range n d a : 0 <= d <= n -> 0 <= bound n d a <= n.
Proof. intro N. destruct a; cbn [bound]; [|exact N]. destruct (z <? 0); lia. Qed.
Lemma size_pos s : 0 <= size s. Proof. unfold size. lia. Qed.
Lemma between_nth s lo hi y : ssorted s -> 0 <= lo -> 0 <= hi ->
  between (mem s) lo hi y <-> exists k, (Z.to_nat lo <= k < Z.to_nat hi)%nat /\ nth_error s k = Some y.
Proof.
  intros H L1 L2. split.
  - intros (Y & k & R & L). destruct (rank_pos s y k H Y R) as [B E]. exists (Z.to_nat k). split; [lia|exact E].
  - intros (k & L & E). split; [now apply nth_error_In in E|]. exists (Z.of_nat k). split; [now apply rank_nth|lia].
Qed.
Lemma nth_inj s k k' y : ssorted s -> nth_error s k = Some y -> nth_error s k' = Some y -> k = k'.
Proof. intros H E E'. pose proof (card_unique _ _ _ (rank_nth s k y H E) (rank_nth s k' y H E')). lia. Qed.
Lemma not_between s lo hi y : ssorted s -> 0 <= lo -> 0 <= hi ->
  (exists k, (k < Z.to_nat lo \/ Z.to_nat hi <= k)%nat /\ nth_error s k = Some y) <-> mem s y /\ ~ between (mem s) lo hi y.
Proof.
  intros H L1 L2. split.
  - intros (k & L & E). split; [now apply nth_error_In in E|]. intro B. apply (between_nth s lo hi y H L1 L2) in B.
    destruct B as (k' & L' & E'). pose proof (nth_inj s k k' y H E E'). lia.
  - intros [Y N]. apply In_nth_error in Y. destruct Y as [k E]. exists k. split; [|exact E].
    destruct (Nat.lt_ge_cases k (Z.to_nat lo)); [now left|]. destruct (Nat.lt_ge_cases k (Z.to_nat hi)); [|now right].
    exfalso. apply N, (between_nth s lo hi y H L1 L2). exists k. split; [lia|exact E].
Qed.
Lemma same_refl M : same M M. Proof. intro; reflexivity. Qed.
Hint Resolve same_refl : core.

Definition meets {V} (s : sset) (o : op V) (r : result) : Prop :=
  match r with
  | Return s' a => ssorted s' /\ python_set (mem s) o (mem s') (Gives a)
  | Raise s' e => ssorted s' /\ python_set (mem s) o (mem s') (Fails e)
  | Undef => False
  end.
Lemma step_meets {V} s (o : op V) : ssorted s -> meets s o (step s o).
Proof.
  intro H. pose proof (size_pos s) as N. pose proof (card_mem s H) as C.
  destruct o as [x|x|x| | |x|i|i|i x|a b st|a b st]; cbn [step].
  - destruct x; cbn; auto. split; [now apply sinsert_sorted|]. split; [reflexivity|]. intro y. unfold mem. rewrite sinsert_In. tauto.
  - destruct x as [x| | |]; cbn; auto. unfold remove. destruct (contains s x) eqn:E; cbn.
    + apply contains_spec in E. split; [now apply serase_sorted|]. left. split; [exact E|]. split; [reflexivity|]. intro y. now apply serase_In.
    + split; [exact H|]. right. split; [|auto]. intro X. apply contains_spec in X. congruence.
  - destruct x; cbn; auto. split; [now apply serase_sorted|]. split; [reflexivity|]. intro y. now apply serase_In.
  - cbn. split; [constructor|]. split; [reflexivity|]. intros y [].
  - cbn. split; [exact H|]. split; [auto|]. exists (size s). auto.
  - destruct x as [x| | |]; cbn; (split; [exact H|]; split; [auto|]).
    + exists (contains s x). split; [reflexivity|]. rewrite contains_spec. split; [intro X; now exists x|intros (z & E & Z); congruence].
    + exists false. split; [reflexivity|]. split; [discriminate|intros (z & E & _); discriminate].
    + exists false. split; [reflexivity|]. split; [discriminate|intros (z & E & _); discriminate].
    + exists false. split; [reflexivity|]. split; [discriminate|intros (z & E & _); discriminate].
  - destruct (convert_index (size s) i) as [k|] eqn:E.
    + apply convert_means in E; [|exact N]. unfold get_item. destruct E as [K E]. destruct (nth_error s (Z.to_nat k)) as [x|] eqn:X.
      * cbn. split; [exact H|]. split; [auto|]. left. exists (size s), k, x. split; [exact C|]. split; [split; assumption|].
        split; [now apply nth_error_In in X|]. split; [|reflexivity]. rewrite <- (Z2Nat.id k) by lia. now apply rank_nth.
      * apply nth_error_None in X. unfold size in K. lia.
    + cbn. split; [exact H|]. split; [auto|]. right. split; [reflexivity|]. intros n k Cn.
      rewrite (card_unique _ _ _ Cn C). now apply convert_none.
  - destruct (convert_index (size s) i) as [k|] eqn:E.
    + apply convert_means in E; [|exact N]. unfold delete_item. destruct E as [K E]. destruct (Z.ltb_spec k (size s)); [|lia].
      assert (X : exists x, nth_error s (Z.to_nat k) = Some x).
      { destruct (nth_error s (Z.to_nat k)) eqn:X; [eauto|]. apply nth_error_None in X. unfold size in K. lia. }
      destruct X as [x X]. cbn [meets python_set]. split; [apply sorted_outside; [exact H|lia]|]. left. exists (size s), k, x.
      split; [exact C|]. split; [split; assumption|]. split; [now apply nth_error_In in X|].
      split; [rewrite <- (Z2Nat.id k) by lia; now apply rank_nth|]. split; [reflexivity|].
      intro y. unfold mem at 1. rewrite outside_In by lia. split.
      * intros (j & J & Y). split; [now apply nth_error_In in Y|]. intros ->. pose proof (nth_inj s _ _ x H X Y). lia.
      * intros [Y D]. apply In_nth_error in Y. destruct Y as [j Y]. exists j. split; [|exact Y].
        destruct (Nat.lt_trichotomy j (Z.to_nat k)) as [T|[T|T]]; [now left| |right; lia]. subst j. congruence.
    + cbn. split; [exact H|]. right. split; [reflexivity|]. split; [auto|]. intros n k Cn.
      rewrite (card_unique _ _ _ Cn C). now apply convert_none.
  - destruct x; cbn; auto. destruct (convert_index (size s) i); cbn; auto.
  - destruct st; [now cbn|]. cbn [slice_data]. rewrite !slice_bound_spec by exact N.
    pose proof (bound_range (size s) 0 a ltac:(lia)) as B1. pose proof (bound_range (size s) (size s) b ltac:(lia)) as B2.
    set (f := bound (size s) 0 a) in *. set (t := bound (size s) (size s) b) in *. unfold get_slice.
    destruct (Z.ltb_spec t f) as [L|L].
    + cbn [meets python_set]. split; [exact H|]. split; [auto|]. exists (size s), []. split; [exact C|]. split; [reflexivity|].
      split; [constructor|]. intro y. fold f t. split; [intros []|]. intros (_ & k & _ & K). lia.
    + unfold slice, reachable. destruct (Z.leb_spec f (size s)); [|lia]. destruct (Z.leb_spec t (size s)); [|lia]. cbn [andb meets python_set].
      split; [exact H|]. split; [auto|]. exists (size s). eexists. split; [exact C|]. split; [reflexivity|]. split; [apply of_range_sorted|].
      intro y. fold f t. rewrite of_range_In, Z2Nat.inj_sub by lia. rewrite range_In. rewrite between_nth by (exact H || lia). reflexivity.
  - destruct st; [now cbn|]. cbn [slice_data]. rewrite !slice_bound_spec by exact N.
    pose proof (bound_range (size s) 0 a ltac:(lia)) as B1. pose proof (bound_range (size s) (size s) b ltac:(lia)) as B2.
    set (f := bound (size s) 0 a) in *. set (t := bound (size s) (size s) b) in *. unfold delete_slice.
    destruct (Z.leb_spec f t) as [L|L].
    + unfold slice, reachable. destruct (Z.leb_spec f (size s)); [|lia]. destruct (Z.leb_spec t (size s)); [|lia]. cbn [andb meets python_set].
      split; [apply sorted_outside; [exact H|lia]|]. exists (size s). split; [exact C|]. split; [reflexivity|]. intro y. fold f t.
      unfold mem at 1. rewrite outside_In by lia. apply not_between; (exact H || lia).
    + cbn [meets python_set]. split; [exact H|]. exists (size s). split; [exact C|]. split; [reflexivity|]. intro y. fold f t.
      split; [|now intros [? _]]. intro Y. split; [exact Y|]. intros (_ & k & _ & K). lia.
Qed.

(** *** C107 *)
(** Every sequence of calls from Python on a set of the library answers as Python's sets and lists do,
    and never runs off the end. *)
Theorem C107_set : forall V (os : list (op V)) s, ssorted s ->
  exists s' rs, run s os = Some (s', rs) /\ ssorted s' /\ python_run (mem s) os rs (mem s').
Proof.
  intros V os. induction os as [|o os IH]; intros s H; cbn [run].
  - exists s, []. cbn. auto.
  - pose proof (step_meets s o H) as M. destruct (step s o) as [s1 a|s1 e|]; [| |destruct M]; destruct M as [H1 P];
      destruct (IH s1 H1) as (s' & rs & E & H' & R); rewrite E; cbn [option_map fst snd]; exists s'; eexists; (split; [reflexivity|]);
      (split; [exact H'|]); cbn [python_run]; exists (mem s1); split; assumption.
Qed.
(** Indices count from either end, slices are cut off at the ends, a missing name raises KeyError. *)
Local Open Scope string_scope.
Example C107_ex : ssorted ["ball"; "cart"; "foot"; "hand"] /\
  run (V := unit) ["ball"; "cart"; "foot"; "hand"]
    [Get (-1); Get 4; Add (PyStr "arm"); Get 0; GetSlice (Some (-2)) None false; Del 1; Remove (PyStr "ball");
     DelSlice (Some 1) (Some 9) false; Add (PyOther 3); Len]
  = Some (["arm"], [Gives (AStr "hand"); Fails IndexError; Gives ANone; Gives (AStr "arm"); Gives (ASet ["foot"; "hand"]);
      Gives ANone; Fails KeyError; Gives ANone; Fails TypeError; Gives (AInt 1)]).
Proof. split; [repeat constructor|reflexivity]. Qed.

Lemma sset_canonical s1 s2 : ssorted s1 -> ssorted s2 -> (forall y, In y s1 <-> In y s2) -> s1 = s2.
Proof.
  revert s2. induction s1 as [|a s1 IH]; intros [|b s2] H1 H2 E; [reflexivity|destruct (proj2 (E b)); now left|destruct (proj1 (E a)); now left|].
  apply ssorted_cons in H1 as [H1 F1]. apply ssorted_cons in H2 as [H2 F2]. rewrite Forall_forall in F1, F2.
  assert (AB : a = b).
  { destruct (proj1 (E a) (or_introl eq_refl)) as [X|X]; [congruence|]. destruct (proj2 (E b) (or_introl eq_refl)) as [Y|Y]; [congruence|].
    exfalso. exact (slt_asym _ _ (F1 _ Y) (F2 _ X)). }
  subst b. f_equal. apply IH; [exact H1|exact H2|]. intro y. split; intro Y.
  - destruct (proj1 (E y) (or_intror Y)) as [X|X]; [|exact X]. subst y. exfalso. exact (slt_irrefl _ (F1 _ Y)).
  - destruct (proj2 (E y) (or_intror Y)) as [X|X]; [|exact X]. subst y. exfalso. exact (slt_irrefl _ (F2 _ Y)).
Qed.
Lemma setstate_str V (l : list string) o : setstate (V := V) (map PyStr l) o = Some (fold_left (fun s x => sinsert x s) l o).
Proof. revert o. unfold setstate. induction l as [|a l IH]; intro o; [reflexivity|]. cbn [map fold_left extract_str]. apply IH. Qed.

(** Pickling and unpickling gives the set back, toset gives its elements. *)
Theorem C107_pickle : forall V s, ssorted s -> setstate (V := V) (getstate s) [] = Some s.
Proof.
  intros V s H. unfold getstate. rewrite setstate_str. f_equal.
  apply sset_canonical; [apply (of_range_sorted s)|exact H|apply (of_range_In s)].
Qed.
Theorem C107_toset : forall s, NoDup (to_python_set s) /\ forall y, In y (to_python_set s) <-> In y s.
Proof. intro s. split; [apply NoDup_nodup|intro y; apply nodup_In]. Qed.

(** A Python set of strings must become the set of these strings.
    Missing: every set but the empty one is refused. *)
Theorem C107_from_python_partial : forall V (l : list (pyobj V)) s, from_python_set l = Some s <-> l = [] /\ s = [].
Proof.
  intros V l s. unfold from_python_set. destruct l as [|a l]; cbn; split.
  - intros [= <-]. auto.
  - intros [_ ->]. reflexivity.
  - discriminate.
  - intros [E _]. discriminate.
Qed.
Theorem C107_from_python_refuted : exists l : list string, NoDup l /\ l <> [] /\ from_python_set (V := unit) (map PyStr l) = None.
Proof. exists ["cart"; "foot"]. split; [repeat constructor; cbn; intuition discriminate|]. split; [discriminate|reflexivity]. Qed.

(** A dict of named items becomes the map with the same entries; anything else in it raises. *)
Section Dict.
Context {V : Type}.
Implicit Type d : list (pyobj V * pyobj V).
Lemma map_put_sorted k (v : V) m : ssorted (keys m) -> ssorted (keys (map_put k v m)).
Proof. intro H. unfold map_put. destruct (mfind k m); [now rewrite mupdate_keys|now apply minsert_sorted]. Qed.
Lemma map_put_find k (v : V) m x : ssorted (keys m) -> mfind x (map_put k v m) = if String.eqb x k then Some v else mfind x m.
Proof.
  intro H. unfold map_put. destruct (String.eqb_spec x k) as [-> |N].
  - destruct (mfind k m) eqn:E; [now rewrite mupdate_find_same, E|]. now apply minsert_find_new.
  - destruct (mfind k m) eqn:E; [now apply mupdate_find_other|]. now apply minsert_find_other.
Qed.
Definition good_entry (e : pyobj V * pyobj V) : Prop := exists k v, e = (PyStr k, PyVal v).
Lemma fill_good d m : Forall good_entry d -> NoDup (map fst d) -> ssorted (keys m) -> (forall k, In (PyStr k) (map fst d) -> mfind k m = None) ->
  exists m', fill d m = inl m' /\ ssorted (keys m') /\ forall k v, mfind k m' = Some v <-> In (PyStr k, PyVal v) d \/ mfind k m = Some v.
Proof.
  revert m. induction d as [|e d IH]; intros m G ND H F; cbn [fill].
  - exists m. split; [reflexivity|]. split; [exact H|]. intros; cbn; tauto.
  - apply Forall_cons_iff in G as [(k0 & v0 & ->) G]. cbn [map fst] in *. apply NoDup_cons_iff in ND as [NI ND]. cbn [extract_str extract_val].
    destruct (IH (map_put k0 v0 m) G ND (map_put_sorted k0 v0 m H)) as (m' & E & H' & M').
    + intros k K. rewrite map_put_find by exact H. destruct (String.eqb_spec k k0) as [-> |N]; [contradiction|]. apply F. now right.
    + exists m'. split; [exact E|]. split; [exact H'|]. intros k v. rewrite M'. rewrite map_put_find by exact H. cbn [In].
      destruct (String.eqb_spec k k0) as [-> |N].
      * rewrite (F k0 (or_introl eq_refl)). split.
        -- intros [X|X]; [now left; right|]. left; left. congruence.
        -- intros [[X|X]|X]; [right; congruence|now left|discriminate].
      * split; [intros [X|X]; [left; now right|now right]|]. intros [[X|X]|X]; [congruence|now left|now right].
Qed.
Theorem C107_dict : forall d, NoDup (map fst d) ->
  (Forall good_entry d -> exists m, from_python_dict d = inl m /\ ssorted (keys m) /\
     forall k v, mfind k m = Some v <-> In (PyStr k, PyVal v) d) /\
  (~ Forall good_entry d -> exists e, from_python_dict d = inr e /\ (e = KeyError \/ e = ValueError)).
Proof.
  intros d ND. split.
  - intro G. destruct (fill_good d [] G ND ltac:(constructor) ltac:(reflexivity)) as (m & E & H & M).
    exists m. split; [exact E|]. split; [exact H|]. intros k v. rewrite M. cbn. intuition discriminate.
  - intro G. unfold from_python_dict. generalize (@nil (string * V)). clear ND. induction d as [|[ko vo] d IH]; intro m.
    + destruct G. constructor.
    + cbn [fill]. destruct ko as [k| | |]; cbn [extract_str]; eauto. destruct vo as [|v| |]; cbn [extract_val]; eauto.
      apply IH. intro G'. apply G. constructor; [now exists k, v|exact G'].
Qed.
Theorem C107_todict : forall m : smap V, ssorted (keys m) ->
  NoDup (map fst (to_python_dict m)) /\ forall k v, In (k, v) (to_python_dict m) <-> mfind k m = Some v.
Proof.
  intros m H. assert (X : forall d0 : list (string * V), (forall k, In k (keys m) -> ~ In k (map fst d0)) ->
    fold_left (fun (l : list (string * V)) e => if existsb (String.eqb (fst e)) (map fst l) then l else (l ++ [e])%list) m d0 = (d0 ++ m)%list).
  { clear - H. induction m as [|[k v] m IH]; intros d0 D; cbn [fold_left]; [now rewrite app_nil_r|].
    cbn [keys map fst] in H. apply ssorted_cons in H as [H F]. rewrite Forall_forall in F. cbn [fst].
    destruct (existsb (String.eqb k) (map fst d0)) eqn:E.
    - exfalso. apply existsb_exists in E as (x & X & Y). apply String.eqb_eq in Y. subst x. exact (D k (or_introl eq_refl) X).
    - rewrite IH; [now rewrite <- app_assoc|exact H|]. intros x X. rewrite map_app, in_app_iff. cbn. intros [Y|[<- |[]]].
      + exact (D x (or_intror X) Y).
      + exact (slt_irrefl _ (F _ X)). }
  unfold to_python_dict. rewrite X by (intros k _ []). cbn [app]. split; [now apply ssorted_NoDup|].
  intros k v. split; [now apply In_mfind|apply mfind_Some_In].
Qed.
End Dict.
Example C107_dict_ex :
  from_python_dict [(PyStr "foot", PyVal 2); (PyStr "cart", PyVal 1)] = inl [("cart", 1); ("foot", 2)] /\
  from_python_dict (V := Z) [(PyStr "foot", PyVal 2); (PyOther 0, PyVal 1)] = inr KeyError.
Proof. split; reflexivity. Qed.

Print Assumptions C107_set.
Print Assumptions C107_pickle.
Print Assumptions C107_toset.
Print Assumptions C107_from_python_partial.
Print Assumptions C107_from_python_refuted.
Print Assumptions C107_dict.
Print Assumptions C107_todict.
