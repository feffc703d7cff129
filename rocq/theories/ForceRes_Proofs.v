(** Proofs about the residuals of the contact forces. *)
From Coquelicot Require Import Coquelicot.
From Coq Require Import Reals List Arith Bool Lra Lia.
From Verif Require Import Deriv VecMat Spatial Contact_Model ForceRes_Model.
Import ListNotations.
Open Scope R_scope.

Lemma upd_same {A} (l : list A) n f a : nth_error l n = Some a -> nth_error (upd l n f) n = Some (f a).
Proof. revert n. induction l as [|b l IH]; intros [|n] H; cbn in *; try discriminate; [congruence|auto]. Qed.
Lemma upd_other {A} (l : list A) n k f : n <> k -> nth_error (upd l n f) k = nth_error l k.
Proof. revert n k. induction l as [|b l IH]; intros [|n] [|k] H; cbn; auto; congruence. Qed.
Lemma upd_length {A} (l : list A) n f : length (upd l n f) = length l.
Proof. revert n. induction l as [|b l IH]; intros [|n]; cbn; auto. Qed.
Lemma nth_upd {A} (l : list A) n k f : nth_error (upd l n f) k = if (n =? k)%nat then option_map f (nth_error l k) else nth_error l k.
Proof.
destruct (Nat.eqb_spec n k) as [->|E]; [|now apply upd_other].
destruct (nth_error l k) eqn:H; [now apply upd_same|]. cbn. apply nth_error_None. rewrite upd_length. now apply nth_error_None.
Qed.
Lemma nth_snoc {A} (l : list A) a k : nth_error (l ++ [a]) k =
  if (k <? length l)%nat then nth_error l k else if (k =? length l)%nat then Some a else None.
Proof.
destruct (Nat.ltb_spec k (length l)); [now apply nth_error_app1|]. rewrite nth_error_app2 by assumption.
destruct (Nat.eqb_spec k (length l)) as [->|N]; [now rewrite Nat.sub_diag|].
destruct (k - length l)%nat eqn:E; [lia|]. cbn. now destruct n.
Qed.
Lemma frun_app a b w : frun (a ++ b) w = frun b (frun a w).
Proof. apply fold_left_app. Qed.

(** *** Algebra of the Jacobians *)
Definition total (ndx nu : nat) (X U : mat) (vx vu : vec) (i : nat) : R :=
  rsum ndx (fun j => X i j * vx j) + rsum nu (fun j => U i j * vu j).

Lemma total_mulm n ndx nu A X U vx vu i :
  total ndx nu (mulm n A X) (mulm n A U) vx vu i = rsum n (fun l => A i l * total ndx nu X U vx vu l).
Proof.
unfold total. rewrite (rsum_ext n _ (fun l => A i l * rsum ndx (fun j => X l j * vx j) + A i l * rsum nu (fun j => U l j * vu j))) by (intros; ring).
rewrite rsum_plus. unfold mulm. f_equal.
- rewrite (rsum_ext n _ (fun l => rsum ndx (fun j => A i l * X l j * vx j))).
  + rewrite <- rsum_swap. apply rsum_ext. intros j _. rewrite Rmult_comm, <- rsum_scal. apply rsum_ext. intros; ring.
  + intros l _. rewrite <- rsum_scal. apply rsum_ext. intros; ring.
- rewrite (rsum_ext n _ (fun l => rsum nu (fun j => A i l * U l j * vu j))).
  + rewrite <- rsum_swap. apply rsum_ext. intros j _. rewrite Rmult_comm, <- rsum_scal. apply rsum_ext. intros; ring.
  + intros l _. rewrite <- rsum_scal. apply rsum_ext. intros; ring.
Qed.
Lemma total_f2 ndx nu A X U vx vu i :
  total ndx nu (f_jac (RFriction A) F2 X) (f_jac (RFriction A) F2 U) vx vu i
  = A i 0%nat * total ndx nu X U vx vu 0 + A i 2%nat * total ndx nu X U vx vu 1.
Proof.
unfold total, f_jac.
rewrite (rsum_ext ndx _ (fun j => A i 0%nat * (X 0%nat j * vx j) + A i 2%nat * (X 1%nat j * vx j))) by (intros; ring).
rewrite (rsum_ext nu _ (fun j => A i 0%nat * (U 0%nat j * vu j) + A i 2%nat * (U 1%nat j * vu j))) by (intros; ring).
rewrite !rsum_plus, !rsum_scal. ring.
Qed.

(** *** The value along a curve of multipliers *)
Definition flat (k : fkind) (jMf : se3) : Prop := k = F2 -> rot jMf = I3.
Lemma d_value rk k jMf ndx nu X U vx vu (l : R -> vec) s i : accepts rk k = true -> flat k jMf ->
  (forall n, (n < fdim k)%nat -> is_derive (fun t => l t n) s (total ndx nu X U vx vu n)) ->
  (match rk with RForce _ => (i < fdim k)%nat | _ => True end) ->
  is_derive (fun t => f_value rk k (published k jMf (l t)) i) s (total ndx nu (f_jac rk k X) (f_jac rk k U) vx vu i).
Proof.
intros Ac Fl D Hi.
assert (Z : forall n, (n < fdim k)%nat -> forall c, is_derive (fun t => l t n - c) s (total ndx nu X U vx vu n)).
{ intros n Hn c. eapply deq; [apply dminus; [exact (D n Hn)|apply dconst]|ring]. }
destruct rk as [ref|A|A|A]; destruct k; try discriminate Ac.
- cbn [fdim] in Hi. assert (i = 0%nat) by lia. subst i. exact (Z 0%nat (Nat.lt_0_1) (c3 (lin ref))).
- cbn [fdim] in Hi. destruct i as [|[|[|i]]]; [..|lia].
  + exact (Z 0%nat ltac:(cbn; lia) (c1 (lin ref))).
  + exact (Z 1%nat ltac:(cbn; lia) (c2 (lin ref))).
  + exact (Z 2%nat ltac:(cbn; lia) (c3 (lin ref))).
- cbn [fdim] in Hi. destruct i as [|[|[|[|[|[|i]]]]]]; [..|lia].
  + exact (Z 0%nat ltac:(cbn; lia) (c1 (lin ref))).
  + exact (Z 1%nat ltac:(cbn; lia) (c2 (lin ref))).
  + exact (Z 2%nat ltac:(cbn; lia) (c3 (lin ref))).
  + exact (Z 3%nat ltac:(cbn; lia) (c1 (ang ref))).
  + exact (Z 4%nat ltac:(cbn; lia) (c2 (ang ref))).
  + exact (Z 5%nat ltac:(cbn; lia) (c3 (ang ref))).
- rewrite total_f2.
  apply (dext (fun t => A i 0%nat * l t 0%nat + A i 2%nat * l t 1%nat)).
  + intro t. unfold f_value, mulv, published, f2, col1, col3. rewrite (Fl eq_refl). cbn [rsum tov lin ang c1 c2 c3 add3 scal3 I3 row1 row2 row3 fst snd]. ring.
  + apply dplus; apply dscal; apply D; cbn; lia.
- cbn [f_jac]. rewrite total_mulm. unfold f_value, mulv.
  apply (drsum 3 (fun j t => A i j * tov (published F3 jMf (l t)) j) s (fun j => A i j * total ndx nu X U vx vu j)).
  intros j Hj. apply dscal. destruct j as [|[|[|j]]]; [..|lia]; apply D; cbn; lia.
- cbn [f_jac]. rewrite total_mulm. unfold f_value, mulv.
  apply (drsum 3 (fun j t => A i j * tov (published F6 jMf (l t)) j) s (fun j => A i j * total ndx nu X U vx vu j)).
  intros j Hj. apply dscal. destruct j as [|[|[|j]]]; [..|lia]; apply D; cbn; lia.
- cbn [f_jac]. rewrite total_mulm. unfold f_value, mulv.
  apply (drsum 6 (fun j t => A i j * tov (published F6 jMf (l t)) j) s (fun j => A i j * total ndx nu X U vx vu j)).
  intros j Hj. apply dscal. destruct j as [|[|[|[|[|[|j]]]]]]; [..|lia]; apply D; cbn; lia.
- cbn [f_jac]. rewrite total_mulm. unfold f_value, mulv.
  apply (drsum 6 (fun j t => A i j * tov (published F6 jMf (l t)) j) s (fun j => A i j * total ndx nu X U vx vu j)).
  intros j Hj. apply dscal. destruct j as [|[|[|[|[|[|j]]]]]]; [..|lia]; apply D; cbn; lia.
Qed.

(** *** Invariants of the histories *)
(** every data was accepted for the kind of its contact *)
Definition ok_acc (w : fworld) : Prop :=
  forall n c d, nth_error (w_datas w) n = Some (c, d) -> accepts (fm_kind (w_model w)) (fc_kind c) = true.
Lemma same_accepts k k' c : same_kind k k' = true -> accepts k c = accepts k' c.
Proof. now destruct k, k', c. Qed.
Lemma fwd_step w o : fm_fwd (w_model (fstep w o)) = fm_fwd (w_model w).
Proof.
destruct o; cbn; auto.
- unfold f_create. destruct (accepts _ _); cbn; auto. destruct (fm_fwd (w_model w)) eqn:E; cbn; auto.
- unfold f_set. now destruct (same_kind _ _).
- destruct (nth_error _ _) as [[c d]|]; cbn; auto. unfold f_diff. destruct (_ || _); cbn; auto.
Qed.
Lemma fwd_run ops w : fm_fwd (w_model (frun ops w)) = fm_fwd (w_model w).
Proof. revert w. induction ops as [|o ops IH]; intro w; cbn; auto. unfold frun in IH. rewrite IH. apply fwd_step. Qed.
Lemma kind_diff m c d : fm_kind (fst (f_diff m c d)) = fm_kind m.
Proof. unfold f_diff. now destruct (_ || _). Qed.
Lemma acc_upd w m n (f : fcontact * fdata -> fcontact * fdata) : ok_acc w ->
  (forall c, accepts (fm_kind m) c = accepts (fm_kind (w_model w)) c) ->
  (forall cd, fc_kind (fst (f cd)) = fc_kind (fst cd)) -> ok_acc (FWorld m (upd (w_datas w) n f)).
Proof.
intros I Hm Hf k c d H. cbn in *. rewrite nth_upd in H. destruct (Nat.eqb_spec n k) as [->|E].
- destruct (nth_error (w_datas w) k) as [[c' d']|] eqn:K; [|discriminate]. cbn in H.
  assert (Hc : f (c', d') = (c, d)) by congruence. rewrite Hm. replace (fc_kind c) with (fc_kind c').
  + exact (I k c' d' K).
  + pose proof (Hf (c', d')) as Y. rewrite Hc in Y. symmetry. exact Y.
- rewrite Hm. exact (I k c d H).
Qed.
Lemma acc_step w o : ok_acc w -> ok_acc (fstep w o).
Proof.
intro I. destruct o; cbn; try (apply acc_upd; auto; fail).
- unfold f_create. destruct (accepts _ _) eqn:Ac; [|exact I].
  assert (G : forall m' d, fm_kind m' = fm_kind (w_model w) -> ok_acc (FWorld m' (w_datas w ++ [(c, d)]))).
  { intros m' d E k c' d' H. cbn in H |- *. rewrite nth_snoc in H. rewrite E.
    destruct (k <? _)%nat; [exact (I _ _ _ H)|]. destruct (k =? _)%nat; [|discriminate].
    assert (c = c') by congruence. now subst. }
  destruct (fm_fwd _); cbn; apply G; reflexivity.
- intros n c d H. cbn in H |- *. unfold f_set. destruct (same_kind _ _) eqn:E; cbn; [|exact (I _ _ _ H)].
  rewrite <- (same_accepts _ _ _ E). exact (I _ _ _ H).
- destruct (nth_error _ _) as [[c d]|] eqn:H; [|exact I]. apply acc_upd; auto. intro. now rewrite kind_diff.
Qed.
Lemma acc_run ops k fwd : ok_acc (frun ops (FWorld (f_new k fwd) [])).
Proof.
assert (G : forall w, ok_acc w -> ok_acc (frun ops w)).
{ induction ops as [|o ops IH]; intros w H; cbn; auto. apply IH. now apply acc_step. }
apply G. intros [|n] c d H; discriminate.
Qed.

Lemma jac_zm rk k i j : f_jac rk k zm i j = 0.
Proof.
destruct rk as [ref|A|A|A]; cbn [f_jac]; unfold zm, mulm; auto.
- destruct k; try (apply rsum_0; intros; ring). ring.
- apply rsum_0. intros; ring.
- apply rsum_0. intros; ring.
Qed.

(** Inverse dynamics: the derivatives of the forces are written once, before createData. *)
Definition inverse_op (o : fop) : Prop :=
  match o with Create c => fc_dx c = zm | SetDiff _ _ _ => False | _ => True end.
Definition no_set (o : fop) : Prop := match o with SetRef _ => False | _ => True end.

Definition flatx (w : fworld) : Prop :=
  forall n c d, nth_error (w_datas w) n = Some (c, d) -> fc_dx c = zm /\ forall i j, fd_Rx d i j = 0.
Lemma flatx_upd w m n (f : fcontact * fdata -> fcontact * fdata) : flatx w ->
  (forall c d, nth_error (w_datas w) n = Some (c, d) -> fc_dx (fst (f (c, d))) = zm /\ forall i j, fd_Rx (snd (f (c, d))) i j = 0) ->
  flatx (FWorld m (upd (w_datas w) n f)).
Proof.
intros I Hf k c d H. cbn in H. rewrite nth_upd in H. destruct (Nat.eqb_spec n k) as [->|E]; [|exact (I k c d H)].
destruct (nth_error (w_datas w) k) as [[c' d']|] eqn:K; [|discriminate]. cbn in H.
assert (Hc : f (c', d') = (c, d)) by congruence. specialize (Hf c' d' eq_refl). now rewrite Hc in Hf.
Qed.
Lemma flatx_step w o : inverse_op o -> flatx w -> flatx (fstep w o).
Proof.
intros Ho I. destruct o; cbn [fstep]; try contradiction.
- unfold f_create. destruct (accepts _ _) eqn:Ac; [|exact I].
  assert (G : forall m' d, (forall i j, fd_Rx d i j = 0) -> flatx (FWorld m' (w_datas w ++ [(c, d)]))).
  { intros m' d E k c' d' H. cbn in H. rewrite nth_snoc in H.
    destruct (k <? _)%nat; [exact (I _ _ _ H)|]. destruct (k =? _)%nat; [|discriminate].
    assert (c = c' /\ d = d') as [<- <-] by (split; congruence). now split. }
  cbn in Ho. destruct (fm_fwd _); cbn; apply G; cbn; auto. intros. rewrite Ho. apply jac_zm.
- exact I.
- apply flatx_upd; auto. intros c d H. cbn. exact (I _ _ _ H).
- apply flatx_upd; auto. intros c d H. cbn. exact (I _ _ _ H).
- apply flatx_upd; auto. intros c d H. cbn. exact (I _ _ _ H).
- destruct (nth_error _ _) as [[c d]|] eqn:H; [|exact I]. destruct (I _ _ _ H) as [X Y].
  apply flatx_upd; auto. intros c' d' H'. assert (c = c') by congruence. subst c'. cbn. split; auto.
  unfold f_diff. destruct (_ || _); cbn; auto. intros. rewrite X. apply jac_zm.
- apply flatx_upd; auto. intros c d H. cbn. split; [exact (proj1 (I _ _ _ H))|reflexivity].
Qed.
Lemma flatx_run ops w : List.Forall inverse_op ops -> flatx w -> flatx (frun ops w).
Proof. revert w. induction ops as [|o ops IH]; intros w F I; cbn; auto. inversion F; subst. apply IH; auto. now apply flatx_step. Qed.

(** A data whose Ru belongs to the current reference *)
Definition synced (w : fworld) (n : nat) : Prop :=
  forall c d, nth_error (w_datas w) n = Some (c, d) -> fd_Ru d = f_jac (fm_kind (w_model w)) (fc_kind c) (fc_du c).
Lemma synced_upd w m n k (f : fcontact * fdata -> fcontact * fdata) : synced w k ->
  (forall c D, f_jac (fm_kind m) c D = f_jac (fm_kind (w_model w)) c D) ->
  (forall cd, fc_kind (fst (f cd)) = fc_kind (fst cd) /\ fc_du (fst (f cd)) = fc_du (fst cd)) ->
  (n = k -> forall c d, nth_error (w_datas w) k = Some (c, d) -> fd_Ru (snd (f (c, d))) = f_jac (fm_kind m) (fc_kind c) (fc_du c)) ->
  synced (FWorld m (upd (w_datas w) n f)) k.
Proof.
intros I Hm Hk Hf c d H. cbn in H |- *. rewrite nth_upd in H. destruct (Nat.eqb_spec n k) as [E|E].
- destruct (nth_error (w_datas w) k) as [[c' d']|] eqn:K; [|discriminate]. cbn in H.
  assert (Hc : f (c', d') = (c, d)) by congruence. specialize (Hf E c' d' eq_refl). destruct (Hk (c', d')) as [A B].
  rewrite Hc in Hf, A, B. cbn in Hf, A, B. now rewrite A, B.
- rewrite Hm. exact (I c d H).
Qed.
(** Steps that keep a data synced: everything but a new reference, and everything for force residuals. *)
Definition keeps_jac (m : fmodel) (o : fop) : Prop :=
  match o with SetRef k => (exists r, fm_kind m = RForce r) \/ same_kind (fm_kind m) k = false | _ => True end.
Lemma synced_step w o k : inverse_op o -> (k < length (w_datas w))%nat -> keeps_jac (w_model w) o -> synced w k -> synced (fstep w o) k.
Proof.
intros Ho Hk Kj I. destruct o; cbn [fstep]; try contradiction.
- unfold f_create. destruct (accepts _ _) eqn:Ac; [|exact I].
  assert (G : forall m' d, fm_kind m' = fm_kind (w_model w) -> synced (FWorld m' (w_datas w ++ [(c, d)])) k).
  { intros m' d E c' d' H. cbn in H |- *. rewrite nth_snoc in H. rewrite E.
    apply Nat.ltb_lt in Hk. rewrite Hk in H. exact (I _ _ H). }
  destruct (fm_fwd _); cbn; now apply G.
- intros c d H. cbn in H |- *. unfold f_set. destruct (same_kind _ _) eqn:E; [|exact (I _ _ H)]. cbn.
  cbn in Kj. destruct Kj as [[r Kj]|Kj]; [|congruence]. rewrite (I _ _ H). rewrite Kj in E |- *. destruct k0; try discriminate. reflexivity.
- apply synced_upd; [exact I|reflexivity|intro; split; reflexivity|]. intros E c d H. cbn. exact (I _ _ H).
- apply synced_upd; [exact I|reflexivity|intro; split; reflexivity|]. intros E c d H. cbn. exact (I _ _ H).
- apply synced_upd; [exact I|reflexivity|intro; split; reflexivity|]. intros E c d H. cbn. exact (I _ _ H).
- destruct (nth_error _ _) as [[c d]|] eqn:H; [|exact I].
  apply synced_upd; [exact I| |intro; split; reflexivity|].
  + intros. now rewrite kind_diff.
  + intros <- c' d' H'. assert (c = c' /\ d = d') as [<- <-] by (split; congruence). cbn. rewrite kind_diff.
    unfold f_diff. destruct (_ || _); cbn; auto.
- apply synced_upd; [exact I|reflexivity|intro; split; reflexivity|]. intros E c d H. cbn. exact (I _ _ H).
Qed.
Lemma len_step w o : (length (w_datas w) <= length (w_datas (fstep w o)))%nat.
Proof.
destruct o; cbn [fstep w_datas]; rewrite ?upd_length; auto.
- unfold f_create. destruct (accepts _ _); cbn; [|lia]. destruct (fm_fwd _); cbn; rewrite app_length; lia.
- destruct (nth_error _ _) as [[c d]|]; cbn; rewrite ?upd_length; auto.
Qed.
Lemma len_run ops w : (length (w_datas w) <= length (w_datas (frun ops w)))%nat.
Proof. revert w. induction ops as [|o ops IH]; intro w; cbn; auto. etransitivity; [apply (len_step w o)|apply IH]. Qed.
Lemma no_set_keeps m o : no_set o -> keeps_jac m o.
Proof. now destruct o. Qed.

(** A data created by a step of an inverse-dynamics residual is synced. *)
Lemma synced_new w o k : fm_fwd (w_model w) = false -> (length (w_datas w) <= k)%nat -> (k < length (w_datas (fstep w o)))%nat -> synced (fstep w o) k.
Proof.
intros F L L'. destruct o; cbn [fstep w_datas] in L'; rewrite ?upd_length in L'; try lia.
- cbn [fstep]. unfold f_create in *. destruct (accepts _ _) eqn:Ac; [|lia]. rewrite F in *. cbn in *.
  rewrite app_length in L'. cbn in L'. intros c' d' H. cbn in H |- *. rewrite nth_snoc in H.
  destruct (Nat.ltb_spec k (length (w_datas w))); [lia|]. destruct (k =? _)%nat; [|discriminate].
  assert (c = c' /\ FData zv (f_jac (fm_kind (w_model w)) (fc_kind c) (fc_dx c)) (f_jac (fm_kind (w_model w)) (fc_kind c) (fc_du c)) = d') as [<- <-] by (split; congruence).
  reflexivity.
- destruct (nth_error _ _) as [[c d]|]; cbn in L'; rewrite ?upd_length in L'; lia.
Qed.
Lemma synced_run ops w k : List.Forall inverse_op ops -> List.Forall no_set ops -> fm_fwd (w_model w) = false ->
  ((length (w_datas w) <= k)%nat \/ synced w k) -> (k < length (w_datas (frun ops w)))%nat -> synced (frun ops w) k.
Proof.
revert w. induction ops as [|o ops IH]; intros w F N B I L; cbn in *.
- destruct I as [I|I]; [lia|exact I].
- inversion F; subst. inversion N; subst. apply IH; auto; [now rewrite fwd_step|].
  destruct (Nat.lt_ge_cases k (length (w_datas w))) as [Hk|Hk].
  + right. apply synced_step; auto; [now apply no_set_keeps|]. destruct I as [I|I]; [lia|exact I].
  + destruct (Nat.lt_ge_cases k (length (w_datas (fstep w o)))) as [Hk'|Hk'].
    * right. now apply synced_new.
    * now left.
Qed.
Lemma force_step w o : (exists r, fm_kind (w_model w) = RForce r) -> exists r, fm_kind (w_model (fstep w o)) = RForce r.
Proof.
intros [r E]. destruct o; cbn; eauto.
- unfold f_create. destruct (accepts _ _); cbn; eauto. destruct (fm_fwd _); cbn; eauto.
- unfold f_set. rewrite E. destruct k; cbn; eauto.
- destruct (nth_error _ _) as [[c d]|]; cbn; eauto. rewrite kind_diff. eauto.
Qed.
Lemma force_run ops w k : List.Forall inverse_op ops -> (exists r, fm_kind (w_model w) = RForce r) -> fm_fwd (w_model w) = false ->
  ((length (w_datas w) <= k)%nat \/ synced w k) -> (k < length (w_datas (frun ops w)))%nat -> synced (frun ops w) k.
Proof.
revert w. induction ops as [|o ops IH]; intros w F E B I L; cbn in *.
- destruct I as [I|I]; [lia|exact I].
- inversion F; subst. apply IH; auto; [now apply force_step|now rewrite fwd_step|].
  destruct (Nat.lt_ge_cases k (length (w_datas w))) as [Hk|Hk].
  + right. apply synced_step; auto; [destruct o; cbn; auto|]. destruct I as [I|I]; [lia|exact I].
  + destruct (Nat.lt_ge_cases k (length (w_datas (fstep w o)))) as [Hk'|Hk'].
    * right. now apply synced_new.
    * now left.
Qed.
(** With one data, either the flag asks for an update or the data is synced. *)
Definition single (w : fworld) : Prop := fm_upd (w_model w) = true \/ synced w 0.
Lemma single_step w o : inverse_op o -> fm_fwd (w_model w) = false -> (length (w_datas (fstep w o)) <= 1)%nat -> single w -> single (fstep w o).
Proof.
intros Ho F L I. destruct (Nat.eq_dec (length (w_datas w)) 0) as [E|E].
- destruct (Nat.lt_ge_cases 0 (length (w_datas (fstep w o)))) as [Hk|Hk].
  + right. apply synced_new; auto; lia.
  + right. intros c d H. assert (nth_error (w_datas (fstep w o)) 0 <> None) by congruence. apply nth_error_Some in H0. lia.
- pose proof (len_step w o) as L1.
  destruct (match o with SetRef k => same_kind (fm_kind (w_model w)) k | _ => false end) eqn:SK.
  { destruct o; try discriminate. left. cbn. unfold f_set. now rewrite SK. }
  destruct (match o with Diff 0 => fm_upd (w_model w) | _ => false end) eqn:D.
  { right. destruct o as [| | | | | |n|]; try discriminate. destruct n; try discriminate. cbn [fstep].
    destruct (nth_error (w_datas w) 0) as [[c d]|] eqn:H; [|apply nth_error_None in H; lia].
    intros c' d' H'. cbn [w_datas w_model] in H' |- *. rewrite nth_upd, Nat.eqb_refl, H in H'. cbn [option_map fst] in H'.
    unfold f_diff in *. rewrite D, orb_true_r in *.
    assert (c = c' /\ snd (update_jacobians (w_model w) c d) = d') as [<- <-] by (split; congruence). reflexivity. }
  destruct I as [I|I].
  + destruct o; cbn in *; auto; try (left; exact I).
    * unfold f_create in *. destruct (accepts _ _); [|left; exact I]. destruct (fm_fwd _); cbn in L; rewrite app_length in L; cbn in L; lia.
    * left. unfold f_set. now rewrite SK.
    * destruct n; [congruence|]. destruct (nth_error _ (S n)) as [[c d]|] eqn:H; [|left; exact I].
      assert (nth_error (w_datas w) (S n) <> None) by congruence. apply nth_error_Some in H0.
      cbn [w_datas] in L. rewrite upd_length in L. lia.
  + right. apply synced_step; auto; [lia|]. destruct o; cbn; auto.
Qed.
Lemma single_run ops w : List.Forall inverse_op ops -> fm_fwd (w_model w) = false ->
  (length (w_datas (frun ops w)) <= 1)%nat -> single w -> single (frun ops w).
Proof.
revert w. induction ops as [|o ops IH]; intros w F B L I; cbn in *; auto.
inversion F; subst. apply IH; auto; [now rewrite fwd_step|]. apply single_step; auto.
pose proof (len_run ops (fstep w o)). unfold frun in *. lia.
Qed.
