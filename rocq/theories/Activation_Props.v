(** C36-C38: activation models. *)
From Coquelicot Require Import Coquelicot.
From Coq Require Import Reals List Lia Lra.
From Verif Require Import Deriv Activation_Model Activation_Spec Activation_Proofs.
Import ListNotations.
Open Scope R_scope.

(** C36: calc then calcDiff on any data, whatever it contains, give the documented value and
    its gradient. *)
Theorem C36_gradient n m r d : smooth_at n m r ->
  a_value (evaluated n m r d) = value n m r /\
  gradient_at n (value n m) r (Ar (evaluated n m r d)).
Proof.
  intro H. split.
  - rewrite <- (calc_value n m r d H). unfold evaluated.
    destruct d as [dv dg dh dw dl du da dd d0 d1], m; cbn [calc calcDiff snd a_value]; auto.
    now destruct (Rltb _ _).
  - apply (gradient_ext n (value n m) _ r (grad_of n m r)); auto.
    + intros i Hi. now rewrite calcDiff_grad.
    + now apply grad_correct.
Qed.

(** C36: the 2-norm barrier really has no gradient at the origin (the excluded point). *)
Theorem C36_norm_barrier_kink alpha th g : 0 < alpha ->
  ~ gradient_at 1 (value 1 (Norm2Barrier alpha th)) (fun _ => 0) g.
Proof.
  intros Ha H. specialize (H (fun s _ => s) 0 (fun _ => 1)).
  cbn [value rsum] in H.
  assert (D : is_derive (fun s => sq (Rmax 0 (alpha - sqrt (0 + sq s))) / 2) 0 (0 + g 0%nat * 1)).
  { apply H; [auto|]. intros. apply did. }
  (* right slope -alpha, left slope alpha *)
  apply is_derive_Reals in D.
  assert (E : forall h, Rabs h <= alpha -> sq (Rmax 0 (alpha - sqrt (0 + sq h))) / 2 = (alpha - Rabs h) * (alpha - Rabs h) / 2).
  { intros h Hh. rewrite Rplus_0_l. unfold sq at 2. rewrite sqrt_Rsqr_abs || (change (h * h) with (Rsqr h); rewrite sqrt_Rsqr_abs).
    rewrite Rmax_right by lra. reflexivity. }
  destruct (D (alpha / 2)) as [[e He] P]; [lra|]. simpl in P.
  set (h := Rmin (e / 2) (alpha / 4)).
  assert (0 < h) by (apply Rmin_glb_lt; lra).
  assert (h <= e / 2) by apply Rmin_l. assert (h <= alpha / 4) by apply Rmin_r.
  pose proof (P h ltac:(lra) ltac:(rewrite Rabs_right; lra)) as P1.
  pose proof (P (- h) ltac:(lra) ltac:(rewrite Rabs_left; lra)) as P2.
  rewrite (Rplus_0_l h) in P1. rewrite (Rplus_0_l (- h)) in P2.
  rewrite (E 0), (E h), ?Rabs_R0, (Rabs_right h) in P1 by (rewrite ?Rabs_R0, ?(Rabs_right h); lra).
  rewrite (E 0), (E (- h)), ?Rabs_R0, (Rabs_left (- h)) in P2 by (rewrite ?Rabs_R0, ?(Rabs_left (- h)); lra).
  replace (((alpha - h) * (alpha - h) / 2 - (alpha - 0) * (alpha - 0) / 2) / h) with (- alpha + h / 2) in P1 by (field; lra).
  replace (((alpha - - - h) * (alpha - - - h) / 2 - (alpha - 0) * (alpha - 0) / 2) / - h) with (alpha - h / 2) in P2 by (field; lra).
  apply Rabs_def2 in P1. apply Rabs_def2 in P2. lra.
Qed.

(** C37.  The models whose Hessian is right for all parameters: quadratic, weighted quadratic,
    quadratic barrier, 2-norm barrier with the true Hessian, flat-log and flat-exp; smooth
    1-norm with unit smoothing, weighted barrier with 0/1 weights, smooth 2-norm of a scalar
    with unit smoothing.  The data is any data of any history without set_weights. *)
Definition no_weights (o : aop) : Prop := match o with SetWeights _ => False | _ => True end.
Definition right_hessian (n : nat) (m : activation) : Prop :=
  match m with
  | Quad | WeightedQuad _ false | Barrier _ _ | Norm2Barrier _ true | FlatLog _ | FlatExp _ => True
  | WeightedQuad _ true => False      (* only set_weights sets the flag *)
  | WeightedBarrier _ _ w => forall i, (i < n)%nat -> w i = 0 \/ w i = 1
  | Smooth1Norm eps => eps = 1
  | Smooth2Norm eps => eps = 1 /\ n = 1%nat
  | Norm2Barrier _ false => False     (* documented Gauss-Newton approximation *)
  end.

Lemma in_upd_nth {A} k (f : A -> A) l x : In x (upd_nth k f l) -> In x l \/ exists y, In y l /\ x = f y.
Proof.
  revert k. induction l as [|y l IH]; intros [|k]; cbn; auto.
  - intros [<-|H]; eauto.
  - intros [<-|H]; auto. destruct (IH k H) as [H1|[z [H1 H2]]]; eauto.
Qed.

(** A data of a constant-Hessian model holds that Hessian. *)
Definition const_hess (m : activation) (d : adata) : Prop :=
  match m with Quad => Arr d = fun _ => 1 | WeightedQuad w false => Arr d = w | WeightedQuad _ true => False | _ => True end.
Lemma run_const n m ops : match m with WeightedQuad _ true => False | _ => True end -> Forall no_weights ops ->
  forall s, amodel s = m -> Forall (const_hess m) (adatas s) ->
  amodel (aruns n s ops) = m /\ Forall (const_hess m) (adatas (aruns n s ops)).
Proof.
  intros Hm. induction ops as [|o ops IH]; intros Ho s Es Hs; cbn [aruns fold_left]; auto.
  inversion Ho as [|? ? No Hos]; subst. apply IH; auto; clear IH.
  - destruct o; cbn [astep amodel]; auto; try contradiction.
    destruct (nth_error _ _) as [d|]; auto. cbn [amodel]. destruct (amodel s), d; cbn [calcDiff fst]; auto.
    destruct new_weights; [contradiction|auto].
  - destruct o; cbn [astep adatas]; auto.
    + apply Forall_app. split; auto. constructor; auto.
      unfold createData, const_hess. destruct (amodel s); cbn; auto. destruct new_weights; auto.
    + apply Forall_forall. intros d Hd. apply in_upd_nth in Hd as [Hd|[d' [Hd ->]]];
        pose proof (proj1 (Forall_forall _ _) Hs _ Hd) as C; auto.
      destruct d' as [dv dg dh dw dl du da dd d0 d1], (amodel s); cbn [calc const_hess Arr] in *; auto.
    + destruct (nth_error _ _) as [d0|]; auto. cbn [adatas].
      apply Forall_forall. intros d Hd. apply in_upd_nth in Hd as [Hd|[d' [Hd ->]]];
        pose proof (proj1 (Forall_forall _ _) Hs _ Hd) as C; auto.
      destruct d' as [dv dg dh dw dl du da dd dx0 dx1], (amodel s); cbn [calcDiff snd const_hess Arr] in *; auto.
      destruct new_weights; auto.
Qed.

Theorem C37_hessian_partial n m ops d r : right_hessian n m -> Forall no_weights ops ->
  In d (adatas (aruns n (AHist m []) ops)) -> twice_at n m r ->
  second_at n (value n m) r (Arr (evaluated n m r d)).
Proof.
  intros Hm Ho Hd Ht.
  assert (Hc : const_hess m d).
  { destruct (run_const n m ops) with (s := AHist m []) as [H0 H]; auto.
    - destruct m as [|? []| | | | | | |]; auto.
    - cbn. constructor.
    - now apply (proj1 (Forall_forall _ _) H). }
  pose proof (hess_correct n m r Ht) as H.
  assert (E : forall i, (i < n)%nat -> Arr (evaluated n m r d) i = hess_of n m r i).
  { intros i Hi. unfold evaluated. destruct Ht as [Hs H2].
    destruct d as [dv dg dh dw dl du da dd d0 d1], m; cbn [calc calcDiff snd Arr hess_of const_hess right_hessian smooth_at] in *; auto.
    - now rewrite Hc.
    - destruct new_weights; [contradiction|now rewrite Hc].
    - destruct (Hm i Hi) as [->| ->]; ring.
    - subst eps. unfold sq. set (s := sqrt _). unfold Rdiv. rewrite Rmult_1_l. f_equal. ring.
    - destruct Hm as [-> ->]. assert (i = 0)%nat by lia. subst i. unfold sqnorm, dotv. cbn [rsum]. unfold sq.
      assert (P : 0 <= 0 + r 0%nat * r 0%nat + 1) by nra. rewrite (sqrt_sqrt _ P). f_equal. ring.
    - destruct true_hessian; [|contradiction]. change (vnorm n r) with (norm_of n r).
      destruct (Rltb (norm_of n r) alpha); reflexivity.
    - replace (alpha + alpha * (sqnorm n r / alpha)) with (alpha + rsum n (fun i => sq (r i))); auto.
      rewrite sqnorm_sq. field. lra. }
  intros i Hi. destruct (H i Hi) as [f' [H1 H3]]. exists f'. split; auto. now rewrite E.
Qed.

(** C37 is false for the smooth 1-norm with smoothing 4 (1/8 instead of 1/2 at 0) ... *)
Theorem C37_smooth1_refuted : exists eps r, 0 < eps /\
  ~ second_at 1 (value 1 (Smooth1Norm eps)) r
      (Arr (evaluated 1 (Smooth1Norm eps) r (createData (Smooth1Norm eps)))).
Proof.
  exists 4, (fun _ => 0). split; [lra|]. intro H.
  assert (T : twice_at 1 (Smooth1Norm 4) (fun _ => 0)) by (split; cbn; auto; left; lra).
  pose proof (second_unique _ _ _ _ _ H (hess_correct _ _ _ T) 0%nat ltac:(lia)) as E.
  cbn in E. unfold sq in E. replace (0 * 0 + 4) with (2 * 2) in E by ring.
  rewrite sqrt_square in E by lra. lra.
Qed.
(** ... for the smooth 2-norm with the default smoothing in dimension 2 ... *)
Theorem C37_smooth2_refuted : exists r,
  ~ second_at 2 (value 2 (Smooth2Norm 1)) r
      (Arr (evaluated 2 (Smooth2Norm 1) r (createData (Smooth2Norm 1)))).
Proof.
  exists (fun i => if Nat.eqb i 0 then 1 else 0). intro H.
  set (r := fun i => _) in *.
  assert (T : twice_at 2 (Smooth2Norm 1) r) by (split; cbn; auto; left; lra).
  pose proof (second_unique _ _ _ _ _ H (hess_correct _ _ _ T) 1%nat ltac:(lia)) as E.
  cbn in E. unfold sqnorm, dotv, sq in E. cbn in E.
  replace (0 + 1 * 1 + 0 * 0 + 1) with 2 in E by ring.
  pose proof (sqrt_lt_R0 2 ltac:(lra)) as P. pose proof (sqrt_sqrt 2 ltac:(lra)) as Q.
  set (s := sqrt 2) in *.
  assert (F : 1 = s * s - 0 * 0).
  { apply (Rmult_eq_compat_r (s * (s * (s * 1)))) in E. field_simplify in E; lra. }
  lra.
Qed.
(** ... and for the weighted barrier with weight 2 (2 instead of 4). *)
Theorem C37_weighted_barrier_refuted : exists lb ub w r, ordered 1 lb ub /\
  twice_at 1 (WeightedBarrier lb ub w) r /\
  ~ second_at 1 (value 1 (WeightedBarrier lb ub w)) r
      (Arr (evaluated 1 (WeightedBarrier lb ub w) r (createData (WeightedBarrier lb ub w)))).
Proof.
  exists (fun _ => -1), (fun _ => 1), (fun _ => 2), (fun _ => 3).
  assert (O : ordered 1 (fun _ => -1) (fun _ => 1)) by (intros i _; lra).
  assert (T : twice_at 1 (WeightedBarrier (fun _ => -1) (fun _ => 1) (fun _ => 2)) (fun _ => 3)).
  { split; auto. intros i _. right. split; lra. }
  split; auto. split; auto. intro H.
  pose proof (second_unique _ _ _ _ _ H (hess_correct _ _ _ T) 0%nat ltac:(lia)) as E.
  cbn in E. unfold barrier_hess, Rleb in E.
  destruct (Rle_dec (3 - -1) 0); [lra|]. destruct (Rle_dec 0 (3 - 1)); lra.
Qed.

(** C38: with a single data, calc then calcDiff see the current weights after every history. *)
Definition weights_of (m : activation) : vec := match m with WeightedQuad w _ => w | _ => zerov end.
Definition fresh (s : ahist) : Prop :=
  exists w f, amodel s = WeightedQuad w f /\
    (adatas s = [] \/ exists d, adatas s = [d] /\ (f = true \/ Arr d = w)).
Definition news (ops : list aop) : nat := length (filter (fun o => match o with NewData => true | _ => false end) ops).

Lemma fresh_step n s o : fresh s -> (o = NewData -> adatas s = []) -> fresh (astep n s o).
Proof.
  intros [w [f [E H]]] Ho. destruct o; cbn [astep].
  - rewrite (Ho eq_refl). exists w, f. cbn [amodel adatas]. split; auto. right. eexists. split; [reflexivity|].
    rewrite E. cbn. auto.
  - rewrite E. exists w0, true. split; auto. destruct H as [H|[d [H _]]]; rewrite H; cbn; eauto.
  - exists w, f. split; auto. destruct H as [H|[d [H H']]]; rewrite H; cbn [adatas]; [left; now destruct k|].
    right. destruct k as [|k]; cbn [upd_nth].
    + eexists. split; [reflexivity|]. rewrite E. destruct d; cbn; auto.
    + exists d. split; auto. destruct k; auto.
  - destruct (nth_error (adatas s) k) as [d|] eqn:Ek; [|now exists w, f].
    destruct H as [H|[d' [H H']]]; rewrite H in Ek; [destruct k; discriminate|].
    destruct k as [|k]; [|destruct k; discriminate]. injection Ek as <-.
    exists w, false. rewrite E, H. destruct d'; cbn. split; auto. right. eexists. split; [reflexivity|]. cbn in *.
    right. destruct f; auto. destruct H'; congruence.
Qed.

Lemma len_step n s o : length (adatas (astep n s o)) =
  (length (adatas s) + match o with NewData => 1 | _ => 0 end)%nat.
Proof.
  assert (L : forall A k (f : A -> A) l, length (upd_nth k f l) = length l).
  { intros A k f l. revert k. induction l; intros [|k]; cbn; auto. }
  destruct o; cbn [astep adatas]; rewrite ?app_length, ?L; cbn; auto; try lia.
  destruct (nth_error _ _); cbn [adatas]; rewrite ?L; lia.
Qed.

Lemma fresh_run n ops : forall s, fresh s -> (length (adatas s) + news ops <= 1)%nat -> fresh (aruns n s ops).
Proof.
  induction ops as [|o ops IH]; intros s H L; cbn [aruns fold_left]; auto. apply IH.
  - apply fresh_step; auto. intros ->. cbn in L. destruct (adatas s); auto. cbn in L. lia.
  - rewrite len_step. unfold news in *. destruct o; cbn [filter length] in *; lia.
Qed.

Theorem C38_single_data_partial n w0 ops r d : (news ops <= 1)%nat ->
  let s := aruns n (AHist (WeightedQuad w0 false) []) ops in
  adatas s = [d] ->
  let d' := evaluated n (amodel s) r d in
  let w := weights_of (amodel s) in
  a_value d' = rsum n (fun i => w i * sq (r i) / 2) /\ Ar d' = (fun i => w i * r i) /\ Arr d' = w.
Proof.
  intros Hn s Hd d' w.
  assert (F : fresh s).
  { apply fresh_run; cbn; [|lia]. exists w0, false. auto. }
  destruct F as [w' [f [E H]]]. destruct H as [H|[e [H H']]]; [congruence|].
  rewrite Hd in H. injection H as <-.
  assert (Ew : w = w') by (unfold w; now rewrite E).
  split.
  - pose proof (C36_gradient n (amodel s) r d) as G. rewrite E in G at 1. destruct (G I) as [V _].
    unfold d'. rewrite V, E, Ew. reflexivity.
  - unfold d', evaluated. rewrite E, Ew. destruct d; cbn in *. split; auto.
    destruct f; auto. destruct H'; congruence.
Qed.

(** The weights themselves follow the last set_weights. *)
Theorem C38_weights_follow n m ops w k r : weights_of (amodel (aruns n m (ops ++ [SetWeights w; Calc k r; CalcDiff k r]))) =
  match amodel (aruns n m ops) with WeightedQuad _ _ => w | _ => zerov end.
Proof.
  unfold aruns. rewrite fold_left_app. cbn [fold_left]. set (s := fold_left _ _ _).
  cbn [astep]. destruct (nth_error _ _) as [d|]; cbn [amodel]; destruct (amodel s); cbn; auto; try (destruct d; cbn; auto).
Qed.

(** C38 is false with two datas: the first calcDiff consumes the new weights. *)
Theorem C38_two_datas_refuted : exists n w0 w ops r d,
  let s := aruns n (AHist (WeightedQuad w0 false) []) (ops ++ [SetWeights w; Calc 0 r; CalcDiff 0 r]) in
  nth_error (adatas s) 1 = Some d /\ weights_of (amodel s) = w /\
  Arr (evaluated n (amodel s) r d) 0%nat <> w 0%nat.
Proof.
  exists 1%nat, (fun _ => 1), (fun _ => 2), [NewData; NewData], (fun _ => 3). eexists. cbn.
  split; [reflexivity|]. split; auto. cbn. lra.
Qed.

(** Non-trivial cases. *)
Example C36_example : smooth_at 2 (Norm2Barrier 2 true) (fun _ => 1).
Proof. right. cbn. unfold sq. lra. Qed.
Example C37_example : right_hessian 3 (FlatExp 2) /\ twice_at 3 (FlatExp 2) (fun i => INR i) /\
  In (createData (FlatExp 2)) (adatas (aruns 3 (AHist (FlatExp 2) []) [NewData])).
Proof. repeat split; cbn; auto. lra. Qed.
Example C38_example : news [NewData; SetWeights (fun _ => 2); Calc 0 (fun _ => 1); CalcDiff 0 (fun _ => 1); SetWeights (fun _ => 5)] = 1%nat.
Proof. reflexivity. Qed.

Print Assumptions C36_gradient.
Print Assumptions C36_norm_barrier_kink.
Print Assumptions C37_hessian_partial.
Print Assumptions C37_smooth1_refuted.
Print Assumptions C37_smooth2_refuted.
Print Assumptions C37_weighted_barrier_refuted.
Print Assumptions C38_single_data_partial.
Print Assumptions C38_weights_follow.
Print Assumptions C38_two_datas_refuted.
