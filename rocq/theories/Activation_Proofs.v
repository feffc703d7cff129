From Coq Require Import Reals List Lia Lra FunctionalExtensionality.
From Coquelicot Require Import Coquelicot.
From Verif Require Import Deriv Activation_Model Activation_Spec.
Open Scope R_scope.

Lemma setv_same r i x : setv r i x i = x.
Proof. unfold setv. now rewrite PeanoNat.Nat.eqb_refl. Qed.
Lemma setv_other r i x j : j <> i -> setv r i x j = r j.
Proof. unfold setv. intro H. apply PeanoNat.Nat.eqb_neq in H. now rewrite H. Qed.
Lemma setv_id r i j : setv r i (r i) j = r j.
Proof. unfold setv. destruct (PeanoNat.Nat.eqb_spec j i); subst; auto. Qed.
Lemma rsum_setv n r i x (F : nat -> R -> R) : (i < n)%nat ->
  rsum n (fun j => F j (setv r i x j)) = rsum n (fun j => F j (r j)) - F i (r i) + F i x.
Proof.
  intro Hi. rewrite (rsum_split n i _ (fun j => F j (r j)) Hi).
  - now rewrite setv_same.
  - intros j _ Hj. now rewrite setv_other.
Qed.


(** A scalar function of one component. *)
Lemma curve_comp n (F : nat -> R -> R) (F' : nat -> R) (c : R -> vec) t r v :
  (forall i, (i < n)%nat -> is_derive (F i) (r i) (F' i)) ->
  (forall i, (i < n)%nat -> c t i = r i) ->
  (forall i, (i < n)%nat -> is_derive (fun s => c s i) t (v i)) ->
  is_derive (fun s => rsum n (fun i => F i (c s i))) t (rsum n (fun i => F' i * v i)).
Proof.
  intros HF Hc Hv. apply (drsum n (fun i s => F i (c s i)) t (fun i => F' i * v i)). intros i Hi.
  apply (dcomp (F i) (fun s => c s i)); auto. rewrite Hc; auto.
Qed.
Lemma sq_derive x : is_derive sq x (2 * x).
Proof. unfold sq. auto_derive; auto. ring. Qed.
Lemma curve_sq n c t r v : (forall i, (i < n)%nat -> c t i = r i) ->
  (forall i, (i < n)%nat -> is_derive (fun s => c s i) t (v i)) ->
  is_derive (fun s => rsum n (fun i => sq (c s i))) t (rsum n (fun i => 2 * r i * v i)).
Proof. intros Hc Hv. apply (curve_comp n (fun _ => sq) (fun i => 2 * r i) c t r v); auto. intros; apply sq_derive. Qed.

(** The smooth kinks. *)
Lemma half_pos2 x : is_derive (fun x => sq (Rmax 0 x) / 2) x (Rmax 0 x).
Proof.
  destruct (Rtotal_order x 0) as [H|[->|H]].
  - rewrite Rmax_left by lra. apply (dext_near (fun _ => 0) _ x 0 (- x)); [lra| |apply dconst].
    intros y Hy. apply Rabs_def2 in Hy. rewrite Rmax_left by lra. unfold sq. field.
  - rewrite Rmax_left by lra. apply is_derive_Reals. intros eps He.
    exists (mkposreal eps He). simpl. intros h Hh Hl.
    rewrite Rplus_0_l, (Rmax_left 0 0) by lra. unfold sq.
    replace ((Rmax 0 h * Rmax 0 h / 2 - 0 * 0 / 2) / h - 0) with (Rmax 0 h * Rmax 0 h / h / 2) by (field; auto).
    destruct (Rle_dec 0 h) as [P|P].
    + rewrite Rmax_right by lra. replace (h * h / h / 2) with (h / 2) by (field; auto).
      rewrite Rabs_right in *; lra.
    + rewrite Rmax_left by lra. replace (0 * 0 / h / 2) with 0 by (field; auto). rewrite Rabs_R0. lra.
  - rewrite Rmax_right by lra. apply (dext_near (fun y => y * y / 2) _ x x x); [lra| |].
    + intros y Hy. apply Rabs_def2 in Hy. rewrite Rmax_right by lra. reflexivity.
    + auto_derive; auto. field.
Qed.

Lemma excess_sq lb ub x : lb <= ub ->
  sq (excess lb ub x) = sq (Rmax 0 (x - ub)) + sq (Rmax 0 (lb - x)).
Proof.
  intro H. unfold excess. destruct (Rle_dec x ub).
  - rewrite (Rmax_left 0 (x - ub)) by lra. unfold sq. ring.
  - rewrite (Rmax_left 0 (lb - x)) by lra. unfold sq. ring.
Qed.

Lemma excess_derive lb ub x : lb <= ub ->
  is_derive (fun x => sq (excess lb ub x) / 2) x (Rmax 0 (x - ub) - Rmax 0 (lb - x)).
Proof.
  intro H. apply (dext (fun x => sq (Rmax 0 (x - ub)) / 2 + sq (Rmax 0 (lb - x)) / 2)).
  { intro t. rewrite excess_sq by auto. field. }
  eapply deq. apply dplus.
  - apply (dcomp (fun y => sq (Rmax 0 y) / 2) (fun x => x - ub) x _ 1 (half_pos2 (x - ub))).
    auto_derive; auto; ring.
  - apply (dcomp (fun y => sq (Rmax 0 y) / 2) (fun x => lb - x) x _ (-1) (half_pos2 (lb - x))).
    auto_derive; auto; ring.
  - ring.
Qed.

(** The gradients in closed form. *)
Definition norm_of (n : nat) (r : vec) : R := sqrt (rsum n (fun i => sq (r i))).
Definition grad_of (n : nat) (m : activation) (r : vec) : vec :=
  match m with
  | Quad => r
  | WeightedQuad w _ => fun i => w i * r i
  | Barrier lb ub => fun i => Rmax 0 (r i - ub i) - Rmax 0 (lb i - r i)
  | WeightedBarrier lb ub w => fun i => w i * w i * (Rmax 0 (r i - ub i) - Rmax 0 (lb i - r i))
  | Smooth1Norm eps => fun i => r i / sqrt (sq (r i) + eps)
  | Smooth2Norm eps => fun i => r i / sqrt (rsum n (fun i => sq (r i)) + eps)
  | Norm2Barrier alpha _ => fun i => - Rmax 0 (alpha - norm_of n r) / norm_of n r * r i
  | FlatLog alpha => fun i => 2 * r i / (alpha + rsum n (fun i => sq (r i)))
  | FlatExp alpha => fun i => 2 / alpha * exp (- (rsum n (fun i => sq (r i))) / alpha) * r i
  end.

Lemma sqnorm_sq n r : sqnorm n r = rsum n (fun i => sq (r i)).
Proof. reflexivity. Qed.
Lemma sqsum_ge0 n (r : vec) : 0 <= rsum n (fun i => sq (r i)).
Proof. apply rsum_ge0. intros i _. unfold sq. nra. Qed.
Lemma Rltb_t x y : x < y -> Rltb x y = true.
Proof. unfold Rltb. destruct (Rlt_dec x y); tauto. Qed.
Lemma Rltb_f x y : y <= x -> Rltb x y = false.
Proof. unfold Rltb. destruct (Rlt_dec x y); auto; lra. Qed.
Lemma Rmin_max x : Rmin x 0 = - Rmax 0 (- x).
Proof. unfold Rmin, Rmax. destruct (Rle_dec x 0), (Rle_dec 0 (- x)); lra. Qed.

(** calc computes the documented value. *)
Lemma calc_value n m r d : smooth_at n m r -> a_value (calc n m r d) = value n m r.
Proof.
  destruct d as [dv dg dh dw dl du da dd d0 d1], m; cbn [calc a_value value smooth_at]; intro H.
  - unfold dotv. rewrite <- rsum_scal. apply rsum_ext. intros; unfold sq; field.
  - unfold dotv. rewrite <- rsum_scal. apply rsum_ext. intros; unfold sq; field.
  - unfold sqnorm, dotv. rewrite <- !rsum_scal, <- rsum_plus. apply rsum_ext. intros i Hi.
    rewrite excess_sq by auto. rewrite Rmin_max, (Rmax_comm (r i - ub i)).
    replace (- (r i - lb i)) with (lb i - r i) by ring. unfold sq. field.
  - unfold sqnorm, dotv. rewrite <- !rsum_scal, <- rsum_plus. apply rsum_ext. intros i Hi.
    replace (sq (w i * excess (lb i) (ub i) (r i))) with (sq (w i) * sq (excess (lb i) (ub i) (r i))) by (unfold sq; ring).
    rewrite excess_sq by auto. rewrite Rmin_max, (Rmax_comm (r i - ub i)).
    replace (- (r i - lb i)) with (lb i - r i) by ring. unfold sq. field.
  - reflexivity.
  - reflexivity.
  - unfold vnorm. rewrite sqnorm_sq. set (s := sqrt _). destruct (Rlt_dec s alpha) as [L|L].
    + rewrite Rltb_t by auto. rewrite Rmax_right by lra. unfold sq. field.
    + rewrite Rltb_f by lra. rewrite Rmax_left by lra. unfold sq. field.
  - reflexivity.
  - reflexivity.
Qed.

(** calcDiff computes the closed-form gradient. *)
Lemma calcDiff_grad n m r d i : smooth_at n m r -> (i < n)%nat ->
  Ar (evaluated n m r d) i = grad_of n m r i.
Proof.
  unfold evaluated. destruct d as [dv dg dh dw dl du da dd d0 d1], m; cbn [calc calcDiff snd Ar grad_of smooth_at]; intros H Hi; auto.
  - rewrite Rmin_max, (Rmax_comm (r i - ub i)). replace (- (r i - lb i)) with (lb i - r i) by ring. ring.
  - rewrite Rmin_max, (Rmax_comm (r i - ub i)). replace (- (r i - lb i)) with (lb i - r i) by ring. ring.
  - unfold norm_of, vnorm. rewrite sqnorm_sq. set (s := sqrt _). destruct (Rlt_dec s alpha) as [L|L].
    + rewrite Rltb_t by auto. cbn [Ar]. rewrite Rmax_right by lra. unfold Rdiv. ring.
    + rewrite Rltb_f by lra. cbn [Ar]. rewrite Rmax_left by lra. unfold zerov, Rdiv. ring.
  - rewrite sqnorm_sq. pose proof (sqsum_ge0 n r). field. split; nra.
Qed.

(** ... which is the gradient. *)
Lemma sqrt_derive x : 0 < x -> is_derive sqrt x (/ (2 * sqrt x)).
Proof. intro H. auto_derive; auto. field. apply Rgt_not_eq, sqrt_lt_R0; auto. Qed.

Lemma gradient_ext n f g r h h' : (forall x, f x = g x) -> (forall i, (i < n)%nat -> h i = h' i) ->
  gradient_at n f r h -> gradient_at n g r h'.
Proof.
  intros E1 E2 H c t v Hc Hv. apply (dext (fun s => f (c s))); auto.
  rewrite (rsum_ext n _ (fun i => h i * v i)); [now apply H|]. intros i Hi. now rewrite E2.
Qed.

Lemma grad_correct n m r : smooth_at n m r -> gradient_at n (value n m) r (grad_of n m r).
Proof.
  intros H c t v Hc Hv. pose proof (curve_sq n c t r v Hc Hv) as HS.
  assert (E : rsum n (fun i => sq (c t i)) = rsum n (fun i => sq (r i)))
    by (apply rsum_ext; intros i Hi; now rewrite Hc).
  pose proof (sqsum_ge0 n r) as S0.
  destruct m; cbn [value grad_of smooth_at] in *.
  - apply (curve_comp n (fun _ x => sq x / 2) r c t r v); auto. intros i Hi. unfold sq. auto_derive; auto. field.
  - apply (curve_comp n (fun i x => w i * sq x / 2) (fun i => w i * r i) c t r v); auto.
    intros i Hi. unfold sq. auto_derive; auto. field.
  - apply (curve_comp n (fun i x => sq (excess (lb i) (ub i) x) / 2)
             (fun i => Rmax 0 (r i - ub i) - Rmax 0 (lb i - r i)) c t r v); auto.
    intros i Hi. apply excess_derive; auto.
  - apply (curve_comp n (fun i x => sq (w i * excess (lb i) (ub i) x) / 2)
             (fun i => w i * w i * (Rmax 0 (r i - ub i) - Rmax 0 (lb i - r i))) c t r v); auto.
    intros i Hi. apply (dext (fun x => w i * w i * (sq (excess (lb i) (ub i) x) / 2))).
    { intro; unfold sq; field. }
    apply dscal, excess_derive; auto.
  - apply (curve_comp n (fun i x => sqrt (sq x + eps)) (fun i => r i / sqrt (sq (r i) + eps)) c t r v); auto.
    intros i Hi. assert (P : 0 < sq (r i) + eps).
    { unfold sq. destruct H as [H|[H H']]; [nra|]. specialize (H' i Hi). nra. }
    eapply deq. apply (dcomp sqrt (fun x => sq x + eps) (r i) _ (2 * r i) (sqrt_derive _ P)).
    + unfold sq. auto_derive; auto. ring.
    + field. apply Rgt_not_eq, sqrt_lt_R0; auto.
  - assert (P : 0 < rsum n (fun i => sq (r i)) + eps) by lra.
    eapply deq.
    + apply (dcomp sqrt (fun s => rsum n (fun i => sq (c s i)) + eps) t
               (/ (2 * sqrt (rsum n (fun i => sq (r i)) + eps))) (rsum n (fun i => 2 * r i * v i))).
      * rewrite E. now apply sqrt_derive.
      * eapply deq. apply dplus; [exact HS|apply dconst]. ring.
    + rewrite <- rsum_scal. apply rsum_ext. intros i Hi. field. apply Rgt_not_eq, sqrt_lt_R0; auto.
  - destruct H as [H|P].
    + apply (dext (fun _ => 0)).
      { intro s. rewrite Rmax_left; [unfold sq; field|]. pose proof (sqrt_pos (rsum n (fun i => sq (c s i)))). lra. }
      eapply deq. apply dconst. symmetry. apply rsum_0. intros i Hi. unfold norm_of. rewrite Rmax_left; [unfold Rdiv; ring|].
      pose proof (sqrt_pos (rsum n (fun i => sq (r i)))). lra.
    + pose proof (sqrt_lt_R0 _ P) as Q.
      eapply deq.
      * apply (dcomp (fun y => sq (Rmax 0 y) / 2) (fun s => alpha - sqrt (rsum n (fun i => sq (c s i)))) t
                (Rmax 0 (alpha - norm_of n r)) (- (/ (2 * norm_of n r) * rsum n (fun i => 2 * r i * v i)))).
        -- unfold norm_of. rewrite <- E. apply half_pos2.
        -- eapply deq. apply dminus; [apply dconst|].
           apply (dcomp sqrt (fun s => rsum n (fun i => sq (c s i))) t); [|exact HS].
           rewrite E. now apply sqrt_derive. unfold norm_of. ring.
      * rewrite <- rsum_scal, <- Rmult_opp_opp, Ropp_involutive, <- rsum_scal.
        apply rsum_ext. intros i Hi. unfold norm_of. field. lra.
  - assert (Q : 0 < 1 + rsum n (fun i => sq (r i)) / alpha).
    { assert (0 <= rsum n (fun i => sq (r i)) / alpha) by (apply Rdiv_le_0_compat; auto). lra. }
    eapply deq.
    + apply (dcomp ln (fun s => 1 + rsum n (fun i => sq (c s i)) / alpha) t
               (/ (1 + rsum n (fun i => sq (r i)) / alpha)) (rsum n (fun i => 2 * r i * v i) / alpha)).
      * rewrite E. apply is_derive_Reals. now apply derivable_pt_lim_ln.
      * eapply deq. apply dplus; [apply dconst|apply ddiv; exact HS]. ring.
      transitivity (/ (alpha + rsum n (fun i => sq (r i))) * rsum n (fun i => 2 * r i * v i)).
      * field. split; lra.
      * rewrite <- rsum_scal. apply rsum_ext. intros i Hi. field. lra.
  - eapply deq.
    + apply (dminus (fun _ => 1) (fun s => exp (- rsum n (fun i => sq (c s i)) / alpha)) t 0); [apply dconst|].
      apply (dcomp exp (fun s => - rsum n (fun i => sq (c s i)) / alpha) t
               (exp (- rsum n (fun i => sq (r i)) / alpha)) (- rsum n (fun i => 2 * r i * v i) / alpha)).
      * rewrite E. apply is_derive_exp.
      * apply ddiv, dopp. exact HS.
    + transitivity (exp (- rsum n (fun i => sq (r i)) / alpha) / alpha * rsum n (fun i => 2 * r i * v i)).
      * field. lra.
      * rewrite <- rsum_scal. apply rsum_ext. intros i Hi. field. lra.
Qed.

(** Second derivatives. *)
Lemma setv_setv r i x y j : setv (setv r i x) i y j = setv r i y j.
Proof. unfold setv. destruct (Nat.eqb j i); auto. Qed.
Lemma value_ext n m r r' : (forall i, (i < n)%nat -> r i = r' i) -> value n m r = value n m r'.
Proof.
  intro H.
  assert (E : forall F : nat -> R -> R, rsum n (fun i => F i (r i)) = rsum n (fun i => F i (r' i)))
    by (intro F; apply rsum_ext; intros i Hi; now rewrite H).
  destruct m; cbn [value].
  - apply (E (fun _ x => sq x / 2)).
  - apply (E (fun i x => w i * sq x / 2)).
  - apply (E (fun i x => sq (excess (lb i) (ub i) x) / 2)).
  - apply (E (fun i x => sq (w i * excess (lb i) (ub i) x) / 2)).
  - apply (E (fun i x => sqrt (sq x + eps))).
  - now rewrite (E (fun _ => sq)).
  - now rewrite (E (fun _ => sq)).
  - now rewrite (E (fun _ => sq)).
  - now rewrite (E (fun _ => sq)).
Qed.

Lemma partial_derive n m r i x : (i < n)%nat -> smooth_at n m (setv r i x) ->
  is_derive (fun y => value n m (setv r i y)) x (grad_of n m (setv r i x) i).
Proof.
  intros Hi H. pose proof (grad_correct n m _ H (fun y => setv r i y) x (fun j => if Nat.eqb j i then 1 else 0)) as G.
  eapply deq. apply G.
  - auto.
  - intros j _. destruct (PeanoNat.Nat.eqb_spec j i) as [->|N].
    + apply (dext (fun s => s)); [intro; now rewrite setv_same|apply did].
    + apply (dext (fun _ => r j)); [intro; now rewrite setv_other|apply dconst].
  - rewrite (rsum_single n i); auto.
    + rewrite PeanoNat.Nat.eqb_refl. ring.
    + intros j _ Hj. apply PeanoNat.Nat.eqb_neq in Hj. rewrite Hj. ring.
Qed.

Lemma second_intro n m r h :
  (forall i, (i < n)%nat -> locally (r i) (fun x => smooth_at n m (setv r i x)) /\
                            is_derive (fun x => grad_of n m (setv r i x) i) (r i) (h i)) ->
  second_at n (value n m) r h.
Proof.
  intros H i Hi. destruct (H i Hi) as [H1 H2]. exists (fun x => grad_of n m (setv r i x) i). split; auto.
  destruct H1 as [e He]. exists e. intros y Hy. apply partial_derive; auto.
Qed.

Lemma second_unique n f r h h' : second_at n f r h -> second_at n f r h' -> forall i, (i < n)%nat -> h i = h' i.
Proof.
  intros H H' i Hi. destruct (H i Hi) as [g [[e L] D]], (H' i Hi) as [g' [[e' L'] D']].
  apply (duniq g' (r i)); auto. destruct e as [e He], e' as [e' He'].
  apply (dext_near g g' (r i) (h i) (Rmin e e')); auto.
  - now apply Rmin_glb_lt.
  - intros t Ht. apply (duniq (fun y => f (setv r i y)) t).
    + apply L. unfold ball; simpl. eapply Rlt_le_trans; [exact Ht|apply Rmin_l].
    + apply L'. unfold ball; simpl. eapply Rlt_le_trans; [exact Ht|apply Rmin_r].
Qed.

(** The true second derivatives. *)
Definition hess_of (n : nat) (m : activation) (r : vec) : vec :=
  match m with
  | Quad => fun _ => 1
  | WeightedQuad w _ => w
  | Barrier lb ub => barrier_hess lb ub r
  | WeightedBarrier lb ub w => fun i => w i * w i * barrier_hess lb ub r i
  | Smooth1Norm eps => fun i => eps / sqrt (sq (r i) + eps) ^ 3
  | Smooth2Norm eps => fun i =>
      let s := sqrt (rsum n (fun i => sq (r i)) + eps) in (s * s - r i * r i) / s ^ 3
  | Norm2Barrier alpha _ => fun i =>
      if Rltb (norm_of n r) alpha
      then alpha * (r i) ^ 2 / norm_of n r ^ 3 + (norm_of n r - alpha) / norm_of n r else 0
  | FlatLog alpha => fun i =>
      let a1 := 2 / (alpha + rsum n (fun i => sq (r i))) in - a1 * a1 * (r i) ^ 2 + a1
  | FlatExp alpha => fun i =>
      let a1 := 2 / alpha * exp (- (rsum n (fun i => sq (r i))) / alpha) in - 2 * a1 * (r i) ^ 2 / alpha + a1
  end.

Lemma near_lt (x y : R) : x < y -> locally x (fun t => t < y).
Proof. intro H. assert (P : 0 < y - x) by lra. exists (mkposreal _ P). intros t Ht. apply Rabs_def2 in Ht. simpl in Ht. unfold minus, plus, opp in Ht; simpl in Ht. lra. Qed.
Lemma near_gt (x y : R) : y < x -> locally x (fun t => y < t).
Proof. intro H. assert (P : 0 < x - y) by lra. exists (mkposreal _ P). intros t Ht. apply Rabs_def2 in Ht. simpl in Ht. unfold minus, plus, opp in Ht; simpl in Ht. lra. Qed.
Lemma near_neq (x y : R) : x <> y -> locally x (fun t => t <> y).
Proof.
  intro H. destruct (Rdichotomy _ _ H) as [L|L].
  - generalize (near_lt _ _ L). apply filter_imp. intros; lra.
  - generalize (near_gt _ _ L). apply filter_imp. intros; lra.
Qed.
Lemma dext_loc (f g : R -> R) (x l : R) : locally x (fun t => f t = g t) -> is_derive f x l -> is_derive g x l.
Proof. intros H1 H2. exact (is_derive_ext_loc f g x l H1 H2). Qed.

Lemma barrier_second lb ub x : lb <= ub -> (lb = ub \/ (x <> lb /\ x <> ub)) ->
  is_derive (fun x => Rmax 0 (x - ub) - Rmax 0 (lb - x)) x
    (if Rleb (x - lb) 0 then 1 else if Rleb 0 (x - ub) then 1 else 0).
Proof.
  intros H [->|[H1 H2]].
  - apply (dext (fun x => x - ub)).
    { intro t. destruct (Rle_dec t ub); [rewrite (Rmax_left 0 (t - ub)), (Rmax_right 0 (ub - t)) by lra; ring|].
      rewrite (Rmax_right 0 (t - ub)), (Rmax_left 0 (ub - t)) by lra. ring. }
    eapply deq. apply dminus; [apply did|apply dconst].
    unfold Rleb. destruct (Rle_dec (x - ub) 0); [ring|]. destruct (Rle_dec 0 (x - ub)); lra.
  - unfold Rleb. destruct (Rle_dec (x - lb) 0).
    + apply (dext_loc (fun x => x - lb)).
      * assert (L : x < lb) by (apply Rnot_le_lt; intro; apply H1; lra).
        generalize (near_lt _ _ L). apply filter_imp. intros t Ht. rewrite Rmax_left, Rmax_right by lra. ring.
      * eapply deq. apply dminus; [apply did|apply dconst]. ring.
    + destruct (Rle_dec 0 (x - ub)).
      * apply (dext_loc (fun x => x - ub)).
        -- assert (L : ub < x) by (apply Rnot_le_lt; intro; apply H2; lra).
           generalize (near_gt _ _ L). apply filter_imp. intros t Ht. rewrite Rmax_right, Rmax_left by lra. ring.
        -- eapply deq. apply dminus; [apply did|apply dconst]. ring.
      * apply (dext_loc (fun x => 0)); [|apply dconst].
        assert (L1 : lb < x) by lra. assert (L2 : x < ub) by lra.
        generalize (filter_and _ _ (near_gt _ _ L1) (near_lt _ _ L2)). apply filter_imp. intros t [Ha Hb].
        rewrite !Rmax_left by lra. ring.
Qed.

Lemma smooth_const n m r i : (forall r', smooth_at n m r') -> locally (r i) (fun x => smooth_at n m (setv r i x)).
Proof. intro H. apply filter_forall. auto. Qed.

Lemma sqsum_setv n r i x : (i < n)%nat ->
  rsum n (fun j => sq (setv r i x j)) = rsum n (fun j => sq (r j)) - sq (r i) + sq x.
Proof. intro Hi. apply (rsum_setv n r i x (fun _ => sq)); auto. Qed.

Lemma sqsum_cont n r i : (i < n)%nat -> forall b, b < rsum n (fun j => sq (r j)) ->
  locally (r i) (fun x => b < rsum n (fun j => sq (setv r i x j))).
Proof.
  intros Hi b Hb.
  assert (C : continuous (fun x => rsum n (fun j => sq (setv r i x j))) (r i)).
  { apply (ex_derive_continuous (fun x => rsum n (fun j => sq (setv r i x j)))). exists (2 * r i).
    apply (dext (fun x => rsum n (fun j => sq (r j)) - sq (r i) + sq x)); [intro; now rewrite sqsum_setv|].
    eapply deq. apply dplus; [apply dconst|apply sq_derive]. ring. }
  apply (C (fun y => b < y)). rewrite (rsum_ext n _ (fun j => sq (r j))) by (intros; now rewrite setv_id).
  now apply near_gt.
Qed.

Lemma hess_correct n m r : twice_at n m r -> second_at n (value n m) r (hess_of n m r).
Proof.
  intros [H H2]. apply second_intro. intros i Hi. pose proof (sqsum_ge0 n r) as S0.
  destruct m; cbn [smooth_at grad_of hess_of] in *.
  - split; [apply filter_forall; auto|]. apply (dext (fun x => x)); [intro; now rewrite setv_same|apply did].
  - split; [apply filter_forall; auto|]. apply (dext (fun x => w i * x)); [intro; now rewrite setv_same|].
    eapply deq. apply dscal, did. ring.
  - split; [apply filter_forall; auto|].
    apply (dext (fun x => Rmax 0 (x - ub i) - Rmax 0 (lb i - x))); [intro; now rewrite setv_same|].
    unfold barrier_hess. apply barrier_second; auto.
  - split; [apply filter_forall; auto|].
    apply (dext (fun x => w i * w i * (Rmax 0 (x - ub i) - Rmax 0 (lb i - x)))); [intro; now rewrite setv_same|].
    apply dscal. unfold barrier_hess. apply barrier_second; auto.
  - split.
    + destruct H as [H|[H H']]; [apply filter_forall; auto|].
      generalize (near_neq _ _ (H' i Hi)). apply filter_imp. intros x Hx. right. split; auto.
      intros j Hj. destruct (Nat.eq_dec j i) as [->|N]; [now rewrite setv_same|rewrite setv_other; auto].
    + apply (dext (fun x => x / sqrt (sq x + eps))); [intro; now rewrite setv_same|].
      assert (P : 0 < r i * r i + eps).
      { destruct H as [H|[H H']]; [nra|]. specialize (H' i Hi). nra. }
      pose proof (sqrt_lt_R0 _ P) as Q. pose proof (sqrt_sqrt (r i * r i + eps) ltac:(lra)) as Q2.
      unfold sq. auto_derive. { split; auto. split; auto. lra. }
      set (s := sqrt _) in *. replace eps with (s * s - r i * r i) by lra. field. lra.
  - split.
    + destruct H as [H|[H H']]; [apply filter_forall; auto|].
      generalize (sqsum_cont n r i Hi 0 H'). apply filter_imp. auto.
    + set (C := rsum n (fun j => sq (r j)) - sq (r i)).
      apply (dext (fun x => x / sqrt (C + sq x + eps))).
      { intro. rewrite setv_same, sqsum_setv; auto. }
      assert (P : 0 < C + r i * r i + eps) by (unfold C, sq in *; lra).
      pose proof (sqrt_lt_R0 _ P) as Q. pose proof (sqrt_sqrt (C + r i * r i + eps) ltac:(lra)) as Q2.
      assert (E : rsum n (fun i => sq (r i)) + eps = C + r i * r i + eps) by (unfold C, sq in *; lra).
      rewrite E. unfold sq. auto_derive. { split; auto. split; auto. lra. }
      set (s := sqrt _) in *. field. lra.
  - destruct H as [H|P].
    + split.
      * apply filter_forall; auto.
      * apply (dext (fun _ => 0)).
        { intro x. rewrite Rmax_left; [unfold Rdiv; ring|]. unfold norm_of. pose proof (sqrt_pos (rsum n (fun i0 => sq (setv r i x i0)))). lra. }
        rewrite Rltb_f; [apply dconst|]. unfold norm_of. pose proof (sqrt_pos (rsum n (fun i0 => sq (r i0)))). lra.
    + split.
      * generalize (sqsum_cont n r i Hi 0 P). apply filter_imp. auto.
      * set (C := rsum n (fun j => sq (r j)) - sq (r i)).
        assert (EN : forall x, norm_of n (setv r i x) = sqrt (C + sq x)).
        { intro x. unfold norm_of. rewrite sqsum_setv; auto. }
        assert (E : norm_of n r = sqrt (C + sq (r i))).
        { unfold norm_of, C. f_equal. ring. }
        assert (P' : 0 < C + r i * r i) by (unfold C, sq in *; lra).
        assert (N : alpha <= 0 \/ norm_of n r <> alpha) by exact H2.
        assert (CT : continuous (fun x => sqrt (C + sq x)) (r i)).
        { apply (ex_derive_continuous (fun x => sqrt (C + sq x))). unfold sq. auto_derive. lra. }
        destruct (Rlt_dec (norm_of n r) alpha) as [L|L].
        -- rewrite Rltb_t by auto.
           apply (dext_loc (fun x => (sqrt (C + sq x) - alpha) / sqrt (C + sq x) * x)).
           { assert (LL : locally (r i) (fun x => sqrt (C + sq x) < alpha)).
             { apply (CT (fun y => y < alpha)). apply near_lt. rewrite <- E. auto. }
             generalize LL. apply filter_imp. intros x Hx. rewrite setv_same, EN, Rmax_right by lra. unfold Rdiv. ring. }
           rewrite E. pose proof (sqrt_lt_R0 _ P') as Q. pose proof (sqrt_sqrt (C + r i * r i) ltac:(lra)) as Q2.
           unfold sq. auto_derive. { repeat split; auto; lra. }
           set (s := sqrt _) in *. field_simplify_eq; [|lra]. ring.
        -- rewrite Rltb_f by lra.
           apply (dext_loc (fun x => 0)); [|apply dconst].
           assert (LL : locally (r i) (fun x => alpha < sqrt (C + sq x))).
           { apply (CT (fun y => alpha < y)). apply near_gt. rewrite <- E. destruct N as [N|N]; [|lra].
             rewrite E. pose proof (sqrt_lt_R0 _ P'). unfold sq. lra. }
           generalize LL. apply filter_imp. intros x Hx. rewrite EN, Rmax_left by lra. unfold Rdiv. ring.
  - split; [apply filter_forall; auto|].
    set (C := rsum n (fun j => sq (r j)) - sq (r i)).
    assert (E : rsum n (fun i => sq (r i)) = C + r i * r i) by (unfold C, sq in *; lra).
    apply (dext (fun x => 2 * x / (alpha + (C + sq x)))).
    { intro. rewrite setv_same, sqsum_setv; auto. }
    rewrite E in *. unfold sq. auto_derive; [lra|]. field. lra.
  - split; [apply filter_forall; auto|].
    set (C := rsum n (fun j => sq (r j)) - sq (r i)).
    assert (E : rsum n (fun i => sq (r i)) = C + r i * r i) by (unfold C, sq in *; lra).
    apply (dext (fun x => 2 / alpha * exp (- (C + sq x) / alpha) * x)).
    { intro. rewrite setv_same, sqsum_setv; auto. }
    rewrite E in *. unfold sq. auto_derive; auto.
    change (- (C + r i * r i) / alpha) with (- (C + r i * r i) * / alpha). set (e := exp _). field. lra.
Qed.
