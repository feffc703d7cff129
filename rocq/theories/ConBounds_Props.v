(** C134: the sizes a container of constraints reports when the bounds of its
    constraints change.  Specification: [Containers_Spec] (partial function from
    names to items, sums over the active ones). *)
From Coq Require Import ZArith String List Bool Lia.
From Verif Require Import Common SMap Containers_Model Containers_Spec Containers_Proofs
  ContainersEval_Model ConBounds_Model.
Import ListNotations.
Local Open Scope Z_scope.

(** What the calls mean: the items by name. *)
Definition axstep (nu : Z) (f : amap citem) (o : xop) : amap citem :=
  match o with
  | XOp o => amstep nu f o
  | XRemoveBounds n ngi nhi => aset n (option_map (removed ngi nhi) (f n)) f
  | XUpdateBounds n ngi nhi => aset n (option_map (updated ngi nhi) (f n)) f
  end.
Definition axrun (nu : Z) (h : list xop) : amap citem := fold_left (axstep nu) h (fun _ => None).

(** By how much the sizes (ng, nh) of the active items, all or only those of
    terminal nodes, shrink in one call that changes bounds. *)
Definition lost (p : citem -> bool) (dim : citem -> Z) (f : amap citem) (o : xop) : Z :=
  match o with
  | XOp _ => 0
  | XRemoveBounds n ngi nhi =>
      match f n with Some i => if p i then dim i - dim (removed ngi nhi i) else 0 | None => 0 end
  | XUpdateBounds n ngi nhi =>
      match f n with Some i => if p i then dim i - dim (updated ngi nhi i) else 0 | None => 0 end
  end.
Fixpoint drift (p : citem -> bool) (dim : citem -> Z) (nu : Z) (f : amap citem) (h : list xop) : Z :=
  match h with [] => 0 | o :: r => lost p dim f o + drift p dim nu (axstep nu f o) r end.

Definition act (i : citem) : bool := ci_active i.
Definition actT (i : citem) : bool := ci_active i && ci_T i.

(* ---------------------------------------------------------------- *)

Definition shift (a b c d : Z) (s : cman) : cman :=
  CMan (m_nu s) (wrap (m_ng s + a)) (wrap (m_nh s + b)) (wrap (m_ngT s + c)) (wrap (m_nhT s + d))
       (wrap (m_lbsize s + a)) (m_items s) (m_act s) (m_inact s).

Lemma wrap_add_sh x y a : sz_add (wrap (x + a)) y = wrap (sz_add x y + a).
Proof. unfold sz_add. rewrite !wrap_add_l. f_equal. lia. Qed.
Lemma wrap_sub_sh x y a : sz_sub (wrap (x + a)) y = wrap (sz_sub x y + a).
Proof. unfold sz_sub. rewrite wrap_sub_l, wrap_add_l. f_equal. lia. Qed.

Lemma mstep_shift a b c d s o : mstep (shift a b c d s) o = shift a b c d (mstep s o).
Proof.
  destruct o as [n i|n|n v]; cbn.
  - unfold add_constraint. cbn. destruct (ci_nu i =? m_nu s); [|reflexivity].
    destruct (mfind n (m_items s)); [reflexivity|].
    destruct (ci_active i); cbn; [|reflexivity]. unfold shift; cbn.
    rewrite !wrap_add_sh. destruct (ci_T i); rewrite ?wrap_add_sh; reflexivity.
  - unfold remove_constraint. cbn. destruct (mfind n (m_items s)) as [i|]; [|reflexivity].
    destruct (ci_active i); [|reflexivity]. unfold shift; cbn.
    rewrite !wrap_sub_sh. destruct (ci_T i); rewrite ?wrap_sub_sh; reflexivity.
  - unfold change_constraint. cbn. destruct (mfind n (m_items s)) as [i|]; [|reflexivity].
    destruct (v && negb (ci_active i)).
    + unfold shift; cbn. rewrite !wrap_add_sh. destruct (ci_T i); rewrite ?wrap_add_sh; reflexivity.
    + destruct (negb v && ci_active i); [|reflexivity]. unfold shift; cbn.
      rewrite !wrap_sub_sh. destruct (ci_T i); rewrite ?wrap_sub_sh; reflexivity.
Qed.

Lemma touch_shift a b c d n g s : touch n g (shift a b c d s) = shift a b c d (touch n g s).
Proof. reflexivity. Qed.

(** A container whose counters are right, up to a shift. *)
Lemma touch_minv s f n (g : citem -> citem) : minv s f ->
  (forall i, ci_active (g i) = ci_active i) -> (forall i, ci_T (g i) = ci_T i) ->
  let df (p : citem -> bool) (dim : citem -> Z) : Z := match f n with Some i => if p i then dim i - dim (g i) else 0 | None => 0 end in
  exists s', minv s' (aset n (option_map g (f n)) f) /\ m_nu s' = m_nu s /\
    touch n g s = shift (df act ci_ng) (df act ci_nh) (df actT ci_ng) (df actT ci_nh) s'.
Proof.
  intros [a b c e g1 g2 g3 g4 lb s1 s2] Ga Gt df.
  pose (k (p : citem -> bool) (dim : citem -> Z) (x : Z) := wrap (x - df p dim)).
  exists (CMan (m_nu s) (k act ci_ng (m_ng s)) (k act ci_nh (m_nh s)) (k actT ci_ng (m_ngT s))
               (k actT ci_nh (m_nhT s)) (k act ci_ng (m_lbsize s))
               (mupdate n g (m_items s)) (m_act s) (m_inact s)).
  assert (W : forall p dim x y, x = wrap y -> wrap (k p dim x + df p dim) = x).
  { intros p dim x y ->. unfold k. rewrite wrap_sub_l, wrap_add_l. f_equal. lia. }
  assert (D : forall p dim x, x = wrap (dims dim p (m_items s)) ->
    (forall i, p (g i) = p i) -> k p dim x = wrap (dims dim p (mupdate n g (m_items s)))).
  { intros p dim x -> Pg. unfold k, df. rewrite wrap_sub_l. destruct (f n) as [i|] eqn:E.
    - rewrite dims_mupdate with (v := i) by now rewrite e. rewrite Pg. f_equal. destruct (p i); lia.
    - rewrite Z.sub_0_r. f_equal. f_equal. symmetry.
      assert (N : mfind n (m_items s) = None) by now rewrite e.
      clear - N. induction (m_items s) as [|[k' v'] m IH]; cbn in *; auto.
      destruct (String.eqb n k'); [discriminate|]. now rewrite IH. }
  assert (PT : forall i, actT (g i) = actT i) by (intros i; unfold actT; now rewrite Ga, Gt).
  split; [|split; [reflexivity|]].
  - constructor; cbn [m_items m_act m_inact m_ng m_nh m_ngT m_nhT m_lbsize].
    + now rewrite mupdate_keys.
    + exact b.
    + exact c.
    + intros x. dec_name x n; [now rewrite mupdate_find_same, e|now rewrite mupdate_find_other].
    + now apply D.
    + now apply D.
    + now apply (D actT).
    + now apply (D actT).
    + now rewrite lb.
    + intros x. rewrite s1. dec_name x n; [|reflexivity]. destruct (f n) as [i|]; cbn; [|reflexivity].
      split; intros [j [E A]]; injection E as <-; eexists; split; eauto; congruence.
    + intros x. rewrite s2. dec_name x n; [|reflexivity]. destruct (f n) as [i|]; cbn; [|reflexivity].
      split; intros [j [E A]]; injection E as <-; eexists; split; eauto; congruence.
  - unfold touch, shift. cbn. rewrite lb.
    rewrite (W act ci_ng _ _ g1), (W act ci_nh _ _ g2), (W actT ci_ng _ _ g3), (W actT ci_nh _ _ g4).
    reflexivity.
Qed.

Lemma shift_shift a b c d a' b' c' d' s :
  shift a b c d (shift a' b' c' d' s) = shift (a' + a) (b' + b) (c' + c) (d' + d) s.
Proof. unfold shift; cbn. rewrite !wrap_add_l, !Z.add_assoc. reflexivity. Qed.

Lemma shift0 s f : minv s f -> shift 0 0 0 0 s = s.
Proof.
  intros [a b c e g1 g2 g3 g4 lb s1 s2]. destruct s. unfold shift; cbn in *. rewrite !Z.add_0_r.
  subst. assert (W : forall x, wrap (wrap x) = wrap x).
  { intros x. apply wrap_small, wrap_range. }
  rewrite !W. reflexivity.
Qed.

Lemma xstep_sim s f o : minv s f ->
  exists s', minv s' (axstep (m_nu s) f o) /\ m_nu s' = m_nu s /\
    forall a b c d, xstep (shift a b c d s) o =
      shift (lost act ci_ng f o + a) (lost act ci_nh f o + b)
            (lost actT ci_ng f o + c) (lost actT ci_nh f o + d) s'.
Proof.
  intros I. destruct o as [o|n ngi nhi|n ngi nhi].
  - exists (mstep s o). split; [now apply minv_step|]. split; [apply mstep_nu|].
    intros. cbn [xstep lost]. now rewrite mstep_shift.
  - destruct (touch_minv s f n (removed ngi nhi) I) as [s' [I' [N E]]]; auto.
    exists s'. split; [exact I'|]. split; [exact N|]. intros. cbn [xstep lost].
    now rewrite touch_shift, E, shift_shift.
  - destruct (touch_minv s f n (updated ngi nhi) I) as [s' [I' [N E]]]; auto.
    exists s'. split; [exact I'|]. split; [exact N|]. intros. cbn [xstep lost].
    now rewrite touch_shift, E, shift_shift.
Qed.

Lemma xrun_sim h : forall s f, minv s f ->
  exists s', minv s' (fold_left (axstep (m_nu s)) h f) /\
    forall a b c d, xrun (shift a b c d s) h =
      shift (a + drift act ci_ng (m_nu s) f h) (b + drift act ci_nh (m_nu s) f h)
            (c + drift actT ci_ng (m_nu s) f h) (d + drift actT ci_nh (m_nu s) f h) s'.
Proof.
  induction h as [|o h IH]; intros s f I; cbn.
  - exists s. split; auto. intros. now rewrite !Z.add_0_r.
  - destruct (xstep_sim s f o I) as [s1 [I1 [N1 E1]]].
    destruct (IH s1 _ I1) as [s2 [I2 E2]]. exists s2. rewrite N1 in *. split; [exact I2|].
    intros. rewrite E1. fold (xrun (shift (lost act ci_ng f o + a) (lost act ci_nh f o + b)
      (lost actT ci_ng f o + c) (lost actT ci_nh f o + d) s1) h). rewrite E2. f_equal; lia.
Qed.

(** What the container reports after any history, exactly: the sums over its
    active items, plus all that was lost by changing the bounds of items while
    they were active.  Names and statuses are right. *)
Theorem C134_drift nu h :
  let s := xrun (empty_cman nu) h in
  let f := axrun nu h in
  let df (p : citem -> bool) (dim : citem -> Z) := drift p dim nu (fun _ => None) h in
  (forall n, mfind n (m_items s) = f n) /\
  (exists l, enumerates l f) /\
  (forall l, enumerates l f ->
    m_ng s = wrap (dims ci_ng act l + df act ci_ng) /\
    m_nh s = wrap (dims ci_nh act l + df act ci_nh) /\
    m_ngT s = wrap (dims ci_ng actT l + df actT ci_ng) /\
    m_nhT s = wrap (dims ci_nh actT l + df actT ci_nh)) /\
  m_lbsize s = m_ng s /\
  (forall n, In n (m_act s) <-> exists i, f n = Some i /\ ci_active i = true) /\
  (forall n, In n (m_inact s) <-> exists i, f n = Some i /\ ci_active i = false).
Proof.
  intros s f df. pose proof (minv_empty nu) as I.
  destruct (xrun_sim h _ _ I) as [s' [I' E]]. specialize (E 0 0 0 0).
  rewrite (shift0 _ _ I) in E. fold s in E. cbn [m_nu empty_cman] in *.
  change (fold_left (axstep nu) h (fun _ => None)) with f in I'.
  destruct I' as [a b c d g1 g2 g3 g4 lb s1 s2]. rewrite E. cbn [m_items shift m_ng m_nh m_ngT m_nhT m_lbsize m_act m_inact].
  pose proof (enumerates_smap _ _ a d) as En.
  split; [exact d|]. split; [eauto|]. split; [|split; [now rewrite lb|auto]].
  intros l El. pose proof (enumerates_perm _ _ _ En El) as P.
  rewrite g1, g2, g3, g4, !(dims_perm _ _ _ _ P), !wrap_add_l. auto.
Qed.

(** Bounds changed only while the item is not active. *)
Fixpoint only_inactive (nu : Z) (f : amap citem) (h : list xop) : Prop :=
  match h with
  | [] => True
  | o :: r =>
      match o with
      | XOp _ => True
      | XRemoveBounds n _ _ | XUpdateBounds n _ _ => forall i, f n = Some i -> ci_active i = false
      end /\ only_inactive nu (axstep nu f o) r
  end.

Lemma drift_inactive p dim nu h : (forall i, p i = true -> ci_active i = true) ->
  forall f, only_inactive nu f h -> drift p dim nu f h = 0.
Proof.
  intros Hp. induction h as [|o h IH]; intros f Hf; cbn; auto.
  destruct Hf as [H Hr]. rewrite (IH _ Hr), Z.add_0_r. destruct o as [o|n x y|n x y]; cbn; auto;
  destruct (f n) as [i|]; auto; specialize (H i eq_refl);
  (destruct (p i) eqn:E; [apply Hp in E; congruence|auto]).
Qed.

Theorem C134_inactive_partial nu h : only_inactive nu (fun _ => None) h ->
  exact_manager (xrun (empty_cman nu) h) (axrun nu h).
Proof.
  intros H. destruct (C134_drift nu h) as [_ [En [C [L [A B]]]]].
  split; [exact En|]. split; [|auto]. intros l El. destruct (C l El) as [C1 [C2 [C3 C4]]].
  assert (PA : forall i, act i = true -> ci_active i = true) by (intros i Hi; exact Hi).
  assert (PT : forall i, actT i = true -> ci_active i = true)
    by (intros i Hi; unfold actT in Hi; destruct (ci_active i); auto).
  rewrite (drift_inactive act ci_ng nu h PA _ H), Z.add_0_r in C1.
  rewrite (drift_inactive act ci_nh nu h PA _ H), Z.add_0_r in C2.
  rewrite (drift_inactive actT ci_ng nu h PT _ H), Z.add_0_r in C3.
  rewrite (drift_inactive actT ci_nh nu h PT _ H), Z.add_0_r in C4. auto.
Qed.

Definition limit : citem := CItem 2 0 1 true true.

(** remove_bounds on an active constraint: the container still reports two
    inequalities and no equality, and a calc with data of the reported sizes
    leaves their range. *)
Theorem C134_active_refuted :
  let s := xrun (empty_cman 1) [XOp (MAdd "limit" limit); XRemoveBounds "limit" 2 0] in
  mfind "limit" (m_items s) = Some (CItem 0 2 1 true true) /\ m_ng s = 2 /\ m_nh s = 0 /\
  forall (v w lb ub : Z) (b : bufs Z),
    Z.of_nat (length (b_g b)) = m_ng s -> Z.of_nat (length (b_h b)) = m_nh s ->
    manager_calc [SegItem true true 0 2 [] [v; w] [] []] b = None.
Proof.
  cbn. repeat split. intros v w lb ub [g h l u] _ H. cbn in *. destruct h; [|discriminate].
  unfold manager_calc. cbn. destruct (write_seg g 0 0 []); reflexivity.
Qed.

(** Removing the constraint afterwards: the container is empty and reports
    2^64 - 2 equalities and two inequalities. *)
Theorem C134_underflow_refuted :
  let s := xrun (empty_cman 1)
    [XOp (MAdd "limit" limit); XRemoveBounds "limit" 2 0; XOp (MRemove "limit")] in
  m_items s = [] /\ m_nh s = 2 ^ 64 - 2 /\ m_ng s = 2.
Proof. repeat split. Qed.

(** Bounds changed while inactive: the sizes follow. *)
Definition quiet : list xop :=
  [XOp (MAdd "limit" limit); XOp (MStatus "limit" false); XRemoveBounds "limit" 2 0;
   XOp (MStatus "limit" true)].
Example C134_ex : only_inactive 1 (fun _ => None) quiet /\
  m_ng (xrun (empty_cman 1) quiet) = 0 /\ m_nh (xrun (empty_cman 1) quiet) = 2.
Proof.
  split; [|split; reflexivity]. unfold quiet. cbn [only_inactive]. repeat split.
  intros i E. cbn in E. injection E as <-. reflexivity.
Qed.

Print Assumptions C134_drift.
Print Assumptions C134_inactive_partial.
Print Assumptions C134_active_refuted.
Print Assumptions C134_underflow_refuted.
