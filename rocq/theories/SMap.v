(** [std::map<std::string, V>] and [std::set<std::string>]: lists sorted by the
    (byte-wise lexicographic) order of the keys, which is also the iteration
    order of the C++ containers. *)
From Coq Require Import String List Sorted Bool Ascii NArith Lia.
Import ListNotations.
Local Open Scope string_scope.

(** ** Definitions *)

Section Map.
Context {V : Type}.
Definition smap := list (string * V).

(** [std::map::find] *)
Fixpoint mfind (k : string) (m : smap) : option V :=
  match m with
  | [] => None
  | (k', v) :: r => if String.eqb k k' then Some v else mfind k r
  end.

(** [std::map::insert]: an existing key is left untouched. *)
Fixpoint minsert (k : string) (v : V) (m : smap) : smap :=
  match m with
  | [] => [(k, v)]
  | (k', v') :: r =>
      match String.compare k k' with
      | Lt => (k, v) :: m
      | Eq => m
      | Gt => (k', v') :: minsert k v r
      end
  end.

(** [std::map::erase] by key. *)
Fixpoint merase (k : string) (m : smap) : smap :=
  match m with
  | [] => []
  | (k', v') :: r => if String.eqb k k' then r else (k', v') :: merase k r
  end.

(** Mutation of the mapped value of an existing key through an iterator. *)
Fixpoint mupdate (k : string) (f : V -> V) (m : smap) : smap :=
  match m with
  | [] => []
  | (k', v') :: r =>
      if String.eqb k k' then (k', f v') :: r else (k', v') :: mupdate k f r
  end.

Definition keys (m : smap) : list string := map fst m.
Definition values (m : smap) : list V := map snd m.
End Map.
Arguments smap : clear implicits.

(** [std::set<std::string>] *)
Definition sset := list string.

Fixpoint sinsert (k : string) (s : sset) : sset :=
  match s with
  | [] => [k]
  | k' :: r =>
      match String.compare k k' with
      | Lt => k :: s
      | Eq => s
      | Gt => k' :: sinsert k r
      end
  end.

Fixpoint serase (k : string) (s : sset) : sset :=
  match s with
  | [] => []
  | k' :: r => if String.eqb k k' then r else k' :: serase k r
  end.

Definition slt (a b : string) : Prop := String.compare a b = Lt.

(** ** Order facts *)

Lemma ascii_compare_lt_trans a b c :
  Ascii.compare a b = Lt -> Ascii.compare b c = Lt -> Ascii.compare a c = Lt.
Proof.
  unfold Ascii.compare. rewrite !N.compare_lt_iff. apply N.lt_trans.
Qed.

Lemma ascii_compare_refl a : Ascii.compare a a = Eq.
Proof. unfold Ascii.compare. apply N.compare_refl. Qed.

Lemma scompare_refl a : String.compare a a = Eq.
Proof. induction a; simpl; [reflexivity|]. now rewrite ascii_compare_refl. Qed.

Lemma slt_irrefl a : ~ slt a a.
Proof. unfold slt. rewrite scompare_refl. discriminate. Qed.

Lemma slt_trans a b c : slt a b -> slt b c -> slt a c.
Proof.
  unfold slt. revert b c. induction a as [|x a IH]; intros [|y b] [|z c]; simpl;
    try discriminate; try reflexivity.
  destruct (Ascii.compare x y) eqn:E1; try discriminate.
  - apply Ascii.compare_eq_iff in E1; subst y. intro H.
    destruct (Ascii.compare x z); try discriminate; auto. apply IH; auto.
  - intros _. destruct (Ascii.compare y z) eqn:E2; try discriminate.
    + apply Ascii.compare_eq_iff in E2; subst z. now rewrite E1.
    + intros _. now rewrite (ascii_compare_lt_trans _ _ _ E1 E2).
Qed.

Lemma scompare_gt a b : String.compare a b = Gt -> slt b a.
Proof. unfold slt. rewrite String.compare_antisym. destruct (String.compare b a); simpl; congruence. Qed.

Lemma slt_neq a b : slt a b -> a <> b.
Proof. intros H ->. now apply slt_irrefl in H. Qed.

Lemma slt_eqb a b : slt a b -> String.eqb a b = false.
Proof. intro H. apply String.eqb_neq. now apply slt_neq. Qed.

Lemma slt_eqb' a b : slt b a -> String.eqb a b = false.
Proof. intro H. apply String.eqb_neq. intro; subst. now apply slt_irrefl in H. Qed.

(** ** Sorted keys *)

Definition ssorted (l : list string) := StronglySorted slt l.

Lemma ssorted_cons k l : ssorted (k :: l) <-> ssorted l /\ Forall (slt k) l.
Proof. split; [apply StronglySorted_inv | intros []; now constructor]. Qed.

Lemma ssorted_NoDup l : ssorted l -> NoDup l.
Proof.
  induction l; intro H; constructor.
  - apply ssorted_cons in H as [_ H]. intro Hin. rewrite Forall_forall in H.
    now apply H, slt_irrefl in Hin.
  - apply IHl. now apply ssorted_cons in H.
Qed.

Section MapFacts.
Context {V : Type}.
Implicit Type m : smap V.

Lemma mfind_None_iff k m : mfind k m = None <-> ~ In k (keys m).
Proof.
  induction m as [|[k' v] m IH]; simpl; [intuition|].
  destruct (String.eqb_spec k k'); subst.
  - split; [discriminate|]. intro H; exfalso; apply H; now left.
  - rewrite IH. intuition congruence.
Qed.

Lemma mfind_Some_In k m v : mfind k m = Some v -> In (k, v) m.
Proof.
  induction m as [|[k' v'] m IH]; simpl; [discriminate|].
  destruct (String.eqb_spec k k'); subst; intro H; [left; congruence|right; auto].
Qed.

Lemma mfind_In_keys k m v : mfind k m = Some v -> In k (keys m).
Proof. intro H. apply mfind_Some_In in H. now apply in_map with (f := fst) in H. Qed.

Lemma In_mfind k m v : ssorted (keys m) -> In (k, v) m -> mfind k m = Some v.
Proof.
  induction m as [|[k' v'] m IH]; simpl; [easy|]. intros Hs [H|H].
  - inversion H; subst. now rewrite String.eqb_refl.
  - apply ssorted_cons in Hs as [Hs Hf].
    assert (slt k' k) as Hlt.
    { rewrite Forall_forall in Hf. apply Hf. now apply in_map with (f := fst) in H. }
    rewrite (slt_eqb' _ _ Hlt). auto.
Qed.

Lemma minsert_keys_In k v m x : In x (keys (minsert k v m)) <-> x = k \/ In x (keys m).
Proof.
  induction m as [|[k' v'] m IH]; simpl; [intuition|].
  destruct (String.compare k k') eqn:E; simpl; [|intuition|].
  - apply String.compare_eq_iff in E; subst. intuition.
  - rewrite IH. intuition.
Qed.

Lemma minsert_sorted k v m : ssorted (keys m) -> ssorted (keys (minsert k v m)).
Proof.
  induction m as [|[k' v'] m IH]; simpl; intro H; [repeat constructor|].
  destruct (String.compare k k') eqn:E; simpl; auto.
  - apply ssorted_cons. split; auto. constructor; auto.
    apply ssorted_cons in H as [_ H]. eapply Forall_impl; [|exact H].
    intros a Ha. eapply slt_trans; eauto.
  - apply ssorted_cons in H as [H1 H2]. apply ssorted_cons. split; auto.
    rewrite Forall_forall in *. intros x Hx. apply minsert_keys_In in Hx as [->|Hx]; auto.
    now apply scompare_gt.
Qed.

Lemma minsert_present k v m v0 :
  ssorted (keys m) -> mfind k m = Some v0 -> minsert k v m = m.
Proof.
  induction m as [|[k' v'] m IH]; simpl; [discriminate|]. intros Hs Hf.
  apply ssorted_cons in Hs as [Hs Hall].
  destruct (String.eqb_spec k k'); subst.
  - now rewrite scompare_refl.
  - apply mfind_In_keys in Hf as Hin. rewrite Forall_forall in Hall.
    specialize (Hall _ Hin). unfold slt in Hall.
    rewrite String.compare_antisym, Hall. simpl. now rewrite IH.
Qed.

Lemma minsert_find_new k v m :
  mfind k m = None -> mfind k (minsert k v m) = Some v.
Proof.
  induction m as [|[k' v'] m IH]; simpl; [now rewrite String.eqb_refl|].
  destruct (String.eqb_spec k k'); [discriminate|]. intro H.
  destruct (String.compare k k') eqn:E; simpl.
  - now apply String.compare_eq_iff in E.
  - now rewrite String.eqb_refl.
  - apply String.eqb_neq in n. rewrite n. auto.
Qed.

Lemma minsert_find_other k v m x :
  x <> k -> mfind x (minsert k v m) = mfind x m.
Proof.
  intro Hx. induction m as [|[k' v'] m IH]; simpl.
  - destruct (String.eqb_spec x k); congruence.
  - destruct (String.compare k k') eqn:E; simpl.
    + reflexivity.
    + destruct (String.eqb_spec x k); congruence.
    + now rewrite IH.
Qed.

Lemma merase_keys_In k m x : In x (keys (merase k m)) -> In x (keys m).
Proof.
  induction m as [|[k' v'] m IH]; simpl; auto.
  destruct (String.eqb k k'); simpl; intuition.
Qed.

Lemma merase_sorted k m : ssorted (keys m) -> ssorted (keys (merase k m)).
Proof.
  induction m as [|[k' v'] m IH]; simpl; auto. intro H.
  apply ssorted_cons in H as [H1 H2]. destruct (String.eqb k k'); simpl; auto.
  apply ssorted_cons. split; auto. rewrite Forall_forall in *.
  intros x Hx. apply H2. eapply merase_keys_In; eauto.
Qed.

Lemma merase_find_other k m x : x <> k -> mfind x (merase k m) = mfind x m.
Proof.
  intro Hx. induction m as [|[k' v'] m IH]; simpl; auto.
  destruct (String.eqb_spec k k'); simpl.
  - subst. destruct (String.eqb_spec x k'); congruence.
  - now rewrite IH.
Qed.

Lemma merase_find_same k m : ssorted (keys m) -> mfind k (merase k m) = None.
Proof.
  induction m as [|[k' v'] m IH]; simpl; auto. intro H.
  apply ssorted_cons in H as [H1 H2].
  destruct (String.eqb_spec k k'); simpl.
  - subst. apply mfind_None_iff. intro Hin. rewrite Forall_forall in H2.
    now apply H2, slt_irrefl in Hin.
  - apply String.eqb_neq in n. rewrite n. auto.
Qed.

Lemma mupdate_keys k f m : keys (mupdate k f m) = keys m.
Proof.
  induction m as [|[k' v'] m IH]; simpl; auto.
  destruct (String.eqb k k'); simpl; congruence.
Qed.

Lemma mupdate_find_other k f m x : x <> k -> mfind x (mupdate k f m) = mfind x m.
Proof.
  intro Hx. induction m as [|[k' v'] m IH]; simpl; auto.
  destruct (String.eqb_spec k k'); simpl.
  - subst. destruct (String.eqb_spec x k'); congruence.
  - now rewrite IH.
Qed.

Lemma mupdate_find_same k f m : mfind k (mupdate k f m) = option_map f (mfind k m).
Proof.
  induction m as [|[k' v'] m IH]; simpl; auto.
  destruct (String.eqb k k') eqn:E; simpl; rewrite E; auto.
Qed.

(** A sorted map is determined by its lookup function: the representation is
    canonical, independent of the order of insertions. *)
Lemma smap_canonical m1 m2 :
  ssorted (keys m1) -> ssorted (keys m2) ->
  (forall k, mfind k m1 = mfind k m2) -> m1 = m2.
Proof.
  revert m2. induction m1 as [|[k1 v1] m1 IH]; intros [|[k2 v2] m2] H1 H2 Hf; auto.
  - specialize (Hf k2). simpl in Hf. rewrite String.eqb_refl in Hf. discriminate.
  - specialize (Hf k1). simpl in Hf. rewrite String.eqb_refl in Hf. discriminate.
  - simpl in H1, H2. apply ssorted_cons in H1 as [H1 F1]. apply ssorted_cons in H2 as [H2 F2].
    rewrite Forall_forall in F1, F2.
    assert (k1 = k2) as ->.
    { destruct (String.compare k1 k2) eqn:E.
      - now apply String.compare_eq_iff in E.
      - specialize (Hf k1). simpl in Hf. rewrite String.eqb_refl in Hf.
        rewrite (slt_eqb _ _ E) in Hf. symmetry in Hf. apply mfind_In_keys in Hf.
        apply F2 in Hf. exfalso. apply (slt_irrefl k1). eapply slt_trans; eauto.
      - apply scompare_gt in E. specialize (Hf k2). simpl in Hf.
        rewrite String.eqb_refl in Hf. rewrite (slt_eqb _ _ E) in Hf.
        apply mfind_In_keys in Hf. apply F1 in Hf.
        exfalso. apply (slt_irrefl k2). eapply slt_trans; eauto. }
    assert (v1 = v2) as ->.
    { specialize (Hf k2). simpl in Hf. rewrite String.eqb_refl in Hf. congruence. }
    f_equal. apply IH; auto. intro k. specialize (Hf k). simpl in Hf.
    destruct (String.eqb_spec k k2); auto. subst.
    transitivity (@None V); [|symmetry]; apply mfind_None_iff; intro Hin.
    + now apply F1, slt_irrefl in Hin.
    + now apply F2, slt_irrefl in Hin.
Qed.
End MapFacts.

(** ** Sets *)

Lemma sinsert_In k s x : In x (sinsert k s) <-> x = k \/ In x s.
Proof.
  induction s as [|k' s IH]; simpl; [intuition|].
  destruct (String.compare k k') eqn:E; simpl; [|intuition|].
  - apply String.compare_eq_iff in E; subst. intuition.
  - rewrite IH. intuition.
Qed.

Lemma sinsert_sorted k s : ssorted s -> ssorted (sinsert k s).
Proof.
  induction s as [|k' s IH]; simpl; intro H; [repeat constructor|].
  destruct (String.compare k k') eqn:E; auto.
  - apply ssorted_cons. split; auto. constructor; auto.
    apply ssorted_cons in H as [_ H]. eapply Forall_impl; [|exact H].
    intros a Ha. eapply slt_trans; eauto.
  - apply ssorted_cons in H as [H1 H2]. apply ssorted_cons. split; auto.
    rewrite Forall_forall in *. intros x Hx. apply sinsert_In in Hx as [->|Hx]; auto.
    now apply scompare_gt.
Qed.

Lemma serase_incl k s x : In x (serase k s) -> In x s.
Proof.
  induction s as [|k' s IH]; simpl; auto. destruct (String.eqb k k'); simpl; intuition.
Qed.

Lemma serase_sorted k s : ssorted s -> ssorted (serase k s).
Proof.
  induction s as [|k' s IH]; simpl; auto. intro H.
  apply ssorted_cons in H as [H1 H2]. destruct (String.eqb k k'); auto.
  apply ssorted_cons. split; auto. rewrite Forall_forall in *.
  intros x Hx. apply H2. eapply serase_incl; eauto.
Qed.

Lemma serase_In k s x : ssorted s -> (In x (serase k s) <-> In x s /\ x <> k).
Proof.
  induction s as [|k' s IH]; simpl; [intuition|]. intro H.
  apply ssorted_cons in H as [H1 H2]. rewrite Forall_forall in H2.
  destruct (String.eqb_spec k k').
  - subst. split.
    + intro Hx. split; auto. apply H2 in Hx. intro; subst. now apply slt_irrefl in Hx.
    + intuition congruence.
  - simpl. rewrite (IH H1). intuition congruence.
Qed.
