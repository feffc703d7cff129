(** C45: linear-quadratic action models evaluate and differentiate the matrices last set. *)
From Coquelicot Require Import Coquelicot.
From Coq Require Import Reals List Arith Bool Lia Lra.
From Verif Require Import Deriv VecMat State_Model Integrator_Spec LQR_Model LQR_Proofs.
Import ListNotations.
Open Scope R_scope.

(** ** Specification *)
Section Spec.
Variables (nx nu no ng nh : nat).
Definition lq_next (p : lqr) (x u : vec) : vec := fun i =>
  rsum nx (fun j => ment (pA p) i j * x j) + rsum nu (fun j => ment (pB p) i j * u j) + ent (pf p) i.
Definition lq_cost (p : lqr) (x u : vec) : R :=
  / 2 * rsum nx (fun i => rsum nx (fun j => x i * ment (pQ p) i j * x j)) +
  / 2 * rsum nu (fun i => rsum nu (fun j => u i * ment (pR p) i j * u j)) +
  rsum nx (fun i => rsum nu (fun j => x i * ment (pN p) i j * u j)) +
  rsum nx (fun i => ent (pq p) i * x i) + rsum nu (fun i => ent (pr p) i * u i).
Definition lq_con (G : sm) (g : sv) (x u : vec) : vec := fun i =>
  rsum nx (fun j => ment G i j * x j) + rsum nu (fun j => ment G i (nx + j)%nat * u j) + ent g i.

Definition size_is (M : sm) (r c : nat) : Prop := rows M = r /\ cols M = c.
(** Parameters of the right sizes. *)
Definition sized (p : lqr) : Prop :=
  size_is (pA p) no nx /\ size_is (pB p) no nu /\ size_is (pQ p) nx nx /\ size_is (pR p) nu nu /\
  size_is (pN p) nx nu /\ size_is (pG p) ng (nx + nu) /\ size_is (pH p) nh (nx + nu) /\
  sz (pf p) = no /\ sz (pq p) = nx /\ sz (pr p) = nu /\ sz (pg p) = ng /\ sz (ph p) = nh.

(** [d] holds the first and second derivatives at (x, u), in matrices of the right sizes. *)
Definition exact_data (p : lqr) (d : ldata) (x u : vec) : Prop :=
  deriv2 nx nu no (lq_next p) x u (ment (d_Fx d)) (ment (d_Fu d)) /\
  deriv2 nx nu 1 (fun x u _ => lq_cost p x u) x u (fun _ => d_Lx d) (fun _ => d_Lu d) /\
  (exists gx gu : vec -> vec -> vec,
    (forall x u, deriv2 nx nu 1 (fun x u _ => lq_cost p x u) x u (fun _ => gx x u) (fun _ => gu x u)) /\
    deriv2 nx nu nx gx x u (ment (d_Lxx d)) (ment (d_Lxu d)) /\
    deriv2 nx nu nu gu x u (tr (ment (d_Lxu d))) (ment (d_Luu d))) /\
  deriv2 nx nu ng (lq_con (pG p) (pg p)) x u (ment (d_Gx d)) (ment (d_Gu d)) /\
  deriv2 nx nu nh (lq_con (pH p) (ph p)) x u (ment (d_Hx d)) (ment (d_Hu d)) /\
  size_is (d_Fx d) no nx /\ size_is (d_Fu d) no nu /\ size_is (d_Lxx d) nx nx /\ size_is (d_Luu d) nu nu /\
  size_is (d_Lxu d) nx nu /\ size_is (d_Gx d) ng nx /\ size_is (d_Gu d) ng nu /\ size_is (d_Hx d) nh nx /\ size_is (d_Hu d) nh nu.
Definition symmetric (p : lqr) : Prop := sym nx (ment (pQ p)) /\ sym nu (ment (pR p)).
End Spec.

(** Calls to set_LQR whose dynamics have as many columns as the model (the code does not check). *)
Definition fitting (nx nu : nat) (o : lop) : Prop :=
  match o with LSet p => cols (pA p) = nx /\ cols (pB p) = nu | _ => True end.
Definition no_set (o : lop) : Prop := match o with LSet _ => False | _ => True end.
Definition no_diff (o : lop) : Prop := match o with LDiff _ _ _ | LDiffT _ _ => False | _ => True end.
Definition no_terminal_diff (o : lop) : Prop := match o with LDiffT _ _ => False | _ => True end.
Fixpoint creations (os : list lop) : nat :=
  match os with [] => O | LCreate :: os' => S (creations os') | _ :: os' => creations os' end.

Section Props.
Variables (k : lkind) (nx nu ng nh : nat).
Notation run := (lrun k nx nu ng nh).
Notation step := (lstep k nx nu ng nh).
Notation sized := (sized nx nu (no k nx) ng nh).
Notation exact_data := (exact_data nx nu (no k nx) ng nh).

Lemma accepts_sized p : accepts k nx nu ng nh p = true -> cols (pA p) = nx -> cols (pB p) = nu -> sized p.
Proof.
  unfold accepts. rewrite !andb_true_iff, !Nat.eqb_eq, !dims_spec. unfold LQR_Props.sized, size_is. tauto.
Qed.
Lemma step_sized o w w' : fitting nx nu o -> sized (w_par w) -> step o w = Some w' -> sized (w_par w').
Proof.
  intros Hf Hs H. destruct o; cbn [lstep fitting] in *.
  - destruct (accepts k nx nu ng nh p) eqn:E; injection H as <-; cbn [w_par]; auto. destruct Hf. now apply accepts_sized.
  - destruct (lcreate _ _ _); [injection H as <-|discriminate]; auto.
  - destruct (nth_error _ _); [destruct (lcalc _ _ _ _ _ _); [|discriminate]|]; injection H as <-; auto.
  - destruct (nth_error _ _); injection H as <-; auto.
  - destruct (nth_error _ _); injection H as <-; auto.
  - destruct (nth_error _ _); injection H as <-; auto.
Qed.
Lemma run_sized os w w' : Forall (fitting nx nu) os -> sized (w_par w) -> run os w = Some w' -> sized (w_par w').
Proof.
  intro Hf. revert w. induction Hf as [|o os Ho Hos IH]; cbn [lrun]; intros w Hs H; [now injection H as <-|].
  destruct (step o w) as [w1|] eqn:E; [|discriminate]. eapply IH; [|eassumption]. eapply step_sized; eauto.
Qed.

(** *** Setting the matrices *)
(** An accepted call installs its arguments, a rejected one changes nothing; no other call
    changes the parameters.  Acceptance is exactly the documented size checks (without the
    columns of the dynamics) and the semi-definiteness test. *)
Theorem C45_set w p :
  (accepts k nx nu ng nh p = true ->
     exists w', step (LSet p) w = Some w' /\ w_par w' = p /\ w_data w' = w_data w) /\
  (accepts k nx nu ng nh p = false -> step (LSet p) w = Some w) /\
  (cols (pA p) = nx -> cols (pB p) = nu ->
     (accepts k nx nu ng nh p = true <-> sized p /\ psd_lower (nx + nu) (joint nx (pQ p) (pN p) (pR p)))) /\
  (forall o w', no_set o -> step o w = Some w' -> w_par w' = w_par w).
Proof.
  split; [|split; [|split]].
  - intro H. cbn [lstep]. rewrite H. eauto.
  - intro H. cbn [lstep]. now rewrite H.
  - intros HA HB. rewrite <- check_psd_spec. split.
    + intro H. split; [now apply accepts_sized|]. unfold accepts in H. now apply andb_true_iff in H.
    + unfold accepts. rewrite !andb_true_iff, !Nat.eqb_eq, !dims_spec. unfold LQR_Props.sized, size_is. tauto.
  - intros o w' Ho H. destruct o; cbn [lstep no_set] in *; [contradiction|..].
    + destruct (lcreate _ _ _); [injection H as <-|discriminate]; auto.
    + destruct (nth_error _ _); [destruct (lcalc _ _ _ _ _ _); [|discriminate]|]; injection H as <-; auto.
    + destruct (nth_error _ _); injection H as <-; auto.
    + destruct (nth_error _ _); injection H as <-; auto.
    + destruct (nth_error _ _); injection H as <-; auto.
Qed.

(** For symmetric Q and R of the right sizes, set_LQR takes effect exactly when the second-order part
    of the cost is bounded below by the tolerance: the cost is convex up to 1e-9. *)
Lemma joint_form p v : symmetric nx nu p ->
  dot (nx + nu) v (mulv (nx + nu) (lower (joint nx (pQ p) (pN p) (pR p))) v) =
  lq_cost nx nu p v (fun i => v (nx + i)%nat) + lq_cost nx nu p (fun i => - v i) (fun i => - v (nx + i)%nat).
Proof.
  intros [HQ HR]. unfold dot, mulv, lq_cost. rewrite rsum_app.
  set (u := fun i => v (nx + i)%nat). set (J := joint nx (pQ p) (pN p) (pR p)).
  assert (E1 : forall i, (i < nx)%nat -> rsum (nx + nu) (fun j => lower J i j * v j) =
    rsum nx (fun j => ment (pQ p) i j * v j) + rsum nu (fun j => ment (pN p) i j * u j)).
  { intros i Hi. rewrite rsum_app. f_equal; apply rsum_ext; intros j Hj; unfold lower, J, joint, u.
    - replace (i <? nx) with true by (symmetry; now apply Nat.ltb_lt). replace (j <? nx) with true by (symmetry; now apply Nat.ltb_lt).
      destruct (j <=? i); [reflexivity|]. now rewrite (HQ j i).
    - replace (nx + j <=? i) with false by (symmetry; apply Nat.leb_gt; lia).
      replace (nx + j <? nx) with false by (symmetry; apply Nat.ltb_ge; lia).
      replace (i <? nx) with true by (symmetry; now apply Nat.ltb_lt). now replace (nx + j - nx)%nat with j by lia. }
  assert (E2 : forall i, (i < nu)%nat -> rsum (nx + nu) (fun j => lower J (nx + i)%nat j * v j) =
    rsum nx (fun j => ment (pN p) j i * v j) + rsum nu (fun j => ment (pR p) i j * u j)).
  { intros i Hi. rewrite rsum_app. f_equal; apply rsum_ext; intros j Hj; unfold lower, J, joint, u.
    - replace (j <=? nx + i) with true by (symmetry; apply Nat.leb_le; lia).
      replace (nx + i <? nx) with false by (symmetry; apply Nat.ltb_ge; lia).
      replace (j <? nx) with true by (symmetry; now apply Nat.ltb_lt). now replace (nx + i - nx)%nat with i by lia.
    - replace (nx + i <? nx) with false by (symmetry; apply Nat.ltb_ge; lia).
      replace (nx + j <? nx) with false by (symmetry; apply Nat.ltb_ge; lia).
      replace (nx + i - nx)%nat with i by lia. replace (nx + j - nx)%nat with j by lia.
      destruct (nx + j <=? nx + i); [reflexivity|]. now rewrite (HR j i). }
  rewrite (rsum_ext nx _ (fun i => rsum nx (fun j => v i * ment (pQ p) i j * v j) + rsum nu (fun j => v i * ment (pN p) i j * u j))).
  2:{ intros i Hi. cbv beta. rewrite (E1 i Hi), Rmult_plus_distr_l, <- !rsum_scal. f_equal; apply rsum_ext; intros; ring. }
  rewrite (rsum_ext nu _ (fun i => rsum nx (fun j => v j * ment (pN p) j i * u i) + rsum nu (fun j => u i * ment (pR p) i j * u j))).
  2:{ intros i Hi. cbv beta. rewrite (E2 i Hi), Rmult_plus_distr_l, <- !rsum_scal. unfold u. f_equal; apply rsum_ext; intros; ring. }
  rewrite !rsum_plus. rewrite (rsum_swap nu nx).
  rewrite (rsum_ext nx (fun i => rsum nx (fun j => - v i * _ * - v j)) (fun i => rsum nx (fun j => v i * ment (pQ p) i j * v j)))
    by (intros; apply rsum_ext; intros; ring).
  rewrite (rsum_ext nu (fun i => rsum nu (fun j => - v (nx + i)%nat * _ * - v (nx + j)%nat)) (fun i => rsum nu (fun j => u i * ment (pR p) i j * u j)))
    by (intros; apply rsum_ext; intros; unfold u; ring).
  rewrite (rsum_ext nx (fun i => rsum nu (fun j => - v i * _ * - v (nx + j)%nat)) (fun i => rsum nu (fun j => v i * ment (pN p) i j * u j)))
    by (intros; apply rsum_ext; intros; unfold u; ring).
  rewrite (rsum_ext nx (fun i => _ * - v i) (fun i => (-1) * (ent (pq p) i * v i))) by (intros; ring).
  rewrite (rsum_ext nu (fun i => _ * - v (nx + i)%nat) (fun i => (-1) * (ent (pr p) i * u i))) by (intros; unfold u; ring).
  rewrite !rsum_scal. unfold u. lra.
Qed.
Theorem C45_convex_partial w p : sized p -> symmetric nx nu p ->
  ((exists w', step (LSet p) w = Some w' /\ w_par w' = p) <->
   w_par w = p \/
   forall x u, - (1 / 1000000000) * (dot nx x x + dot nu u u) <=
     lq_cost nx nu p x u + lq_cost nx nu p (fun i => - x i) (fun i => - u i)).
Proof.
  intros Hs Hy. assert (Hc : cols (pA p) = nx /\ cols (pB p) = nu) by (destruct Hs as ((_ & ?) & (_ & ?) & _); auto).
  assert (X : accepts k nx nu ng nh p = true <-> forall x u, - (1 / 1000000000) * (dot nx x x + dot nu u u) <=
     lq_cost nx nu p x u + lq_cost nx nu p (fun i => - x i) (fun i => - u i)).
  { destruct (C45_set w p) as (_ & _ & H & _). rewrite H by tauto. unfold psd_lower. split.
    - intros [_ H'] x u. set (v := fun i => if i <? nx then x i else u (i - nx)%nat).
      specialize (H' v). rewrite joint_form in H' by assumption.
      assert (V1 : forall i, (i < nx)%nat -> v i = x i) by (intros i Hi; unfold v; apply Nat.ltb_lt in Hi; now rewrite Hi).
      assert (V2 : forall i, v (nx + i)%nat = u i).
      { intro i. unfold v. replace (nx + i <? nx) with false by (symmetry; apply Nat.ltb_ge; lia). f_equal. lia. }
      assert (D : dot (nx + nu) v v = dot nx x x + dot nu u u).
      { unfold dot. rewrite rsum_app. f_equal; apply rsum_ext; intros i Hi; [now rewrite V1|now rewrite V2]. }
      assert (Q : forall x' u' x'' u'', (forall i, (i < nx)%nat -> x' i = x'' i) -> (forall i, (i < nu)%nat -> u' i = u'' i) ->
        lq_cost nx nu p x' u' = lq_cost nx nu p x'' u'').
      { intros x' u' x'' u'' A B. unfold lq_cost. repeat apply (f_equal2 Rplus); repeat apply (f_equal2 Rmult); try reflexivity;
          apply rsum_ext; intros i Hi; try apply rsum_ext; intros; rewrite ?A, ?B by assumption; reflexivity. }
      rewrite D in H'. rewrite (Q v _ x u) in H' by (auto; intros; now rewrite ?V2).
      rewrite (Q (fun i => - v i) _ (fun i => - x i) (fun i => - u i)) in H' by (intros; now rewrite ?V1, ?V2 by assumption).
      exact H'.
    - intro H'. split; [assumption|]. intro v. rewrite joint_form by assumption.
      specialize (H' v (fun i => v (nx + i)%nat)). unfold dot in *. rewrite rsum_app. exact H'. }
  rewrite <- X. split.
  - intros (w' & S & E). destruct (accepts k nx nu ng nh p) eqn:A; [now right|left].
    cbn [lstep] in S. rewrite A in S. injection S as <-. exact E.
  - intros [E|A]; [|destruct (proj1 (C45_set w p) A) as (w' & ? & ? & _); eauto].
    destruct (accepts k nx nu ng nh p) eqn:A; [destruct (proj1 (C45_set w p) A) as (w' & ? & ? & _); eauto|].
    exists w. split; [cbn [lstep]; now rewrite A|exact E].
Qed.

(** *** calc *)
Lemma cost_spec p x u : sized p ->
  5 / 10 * dot nx x (smv (pQ p) x) + 5 / 10 * dot nu u (smv (pR p) u) + dot nx x (smv (pN p) u)
  + dot nx (ent (pq p)) x + dot nu (ent (pr p)) u = lq_cost nx nu p x u.
Proof.
  intros (_ & _ & (_ & HQ) & (_ & HR) & (_ & HN) & _). unfold lq_cost, smv, dot, mulv. rewrite HQ, HR, HN.
  assert (D : forall n m (x y : vec) M, rsum n (fun i => x i * rsum m (fun j => ment M i j * y j)) =
     rsum n (fun i => rsum m (fun j => x i * ment M i j * y j))).
  { intros. apply rsum_ext. intros i _. rewrite <- rsum_scal. apply rsum_ext. intros; ring. }
  rewrite !D. lra.
Qed.
Lemma con_spec G g x u i : cols G = (nx + nu)%nat ->
  smv (leftCols nx G) x i + smv (rightCols nu G) u i + ent g i = lq_con nx nu G g x u i.
Proof.
  intro H. unfold smv, leftCols, rightCols, lq_con, mulv. cbn [cols ment]. rewrite H.
  now replace (nx + nu - nu)%nat with nx by lia.
Qed.

(** After any history of fitting calls, calc evaluates the parameters last set, whatever the data
    held and whoever created it; the derivatives in the data, the other datas and the model do
    not change. *)
Theorem C45_calc os w0 w i x u d :
  sized (w_par w0) -> Forall (fitting nx nu) os -> run os w0 = Some w -> nth_error (w_data w) i = Some d ->
  let p := w_par w in
  exists w' d', step (LCalc i x u) w = Some w' /\ nth_error (w_data w') i = Some d' /\
    (forall r, d_next d' r = lq_next nx nu p x u r) /\
    d_cost d' = lq_cost nx nu p x u /\
    (forall r, d_g d' r = lq_con nx nu (pG p) (pg p) x u r) /\
    (forall r, d_h d' r = lq_con nx nu (pH p) (ph p) x u r) /\
    d' = LData (d_next d') (d_cost d') (d_g d') (d_h d') (d_Fx d) (d_Fu d) (d_Lx d) (d_Lu d) (d_Lxx d) (d_Luu d) (d_Lxu d)
           (d_Gx d) (d_Gu d) (d_Hx d) (d_Hu d) /\
    w_par w' = p /\ w_upd w' = w_upd w /\ (forall j, j <> i -> nth_error (w_data w') j = nth_error (w_data w) j).
Proof.
  intros Hs Hf Hr Hd p. pose proof (run_sized _ _ _ Hf Hs Hr) as Hp. fold p in Hp. cbn [lstep]. rewrite Hd. fold p.
  unfold lcalc. replace (fits nx nu p) with true
    by (symmetry; unfold fits; destruct Hp as ((_ & ->) & (_ & ->) & _); now rewrite !Nat.eqb_refl).
  do 2 eexists. split; [reflexivity|]. cbn [w_data w_par w_upd]. rewrite nth_error_upd_same by (eapply nth_error_lt; eauto).
  split; [reflexivity|]. cbn [d_next d_cost d_g d_h].
  split. { intro r. unfold smv, lq_next, mulv. destruct Hp as ((_ & ->) & (_ & ->) & _). reflexivity. }
  split; [now apply cost_spec|].
  split. { intro r. apply con_spec. apply Hp. }
  split. { intro r. apply con_spec. apply Hp. }
  do 3 (split; [reflexivity|]). intros j Hj. apply nth_error_upd_other; auto.
Qed.

(** Without a control: the discrete model stays in place, the cost and the constraints are those
    of a zero control. *)
Theorem C45_calc_terminal os w0 w i x d :
  sized (w_par w0) -> Forall (fitting nx nu) os -> run os w0 = Some w -> nth_error (w_data w) i = Some d ->
  let p := w_par w in let u := fun _ => 0 in
  exists w' d', step (LCalcT i x) w = Some w' /\ nth_error (w_data w') i = Some d' /\
    d_next d' = match k with discrete => x | continuous => d_next d end /\
    d_cost d' = lq_cost nx nu p x u /\
    (forall r, d_g d' r = lq_con nx nu (pG p) (pg p) x u r) /\
    (forall r, d_h d' r = lq_con nx nu (pH p) (ph p) x u r) /\
    d' = LData (d_next d') (d_cost d') (d_g d') (d_h d') (d_Fx d) (d_Fu d) (d_Lx d) (d_Lu d) (d_Lxx d) (d_Luu d) (d_Lxu d)
           (d_Gx d) (d_Gu d) (d_Hx d) (d_Hu d) /\
    w_par w' = p /\ w_upd w' = w_upd w /\ (forall j, j <> i -> nth_error (w_data w') j = nth_error (w_data w) j).
Proof.
  intros Hs Hf Hr Hd p u. pose proof (run_sized _ _ _ Hf Hs Hr) as Hp. fold p in Hp. cbn [lstep]. rewrite Hd. fold p.
  assert (Z : forall n f, rsum n (fun j => f j * u j) = 0) by (intros; apply rsum_0; intros; unfold u; ring).
  do 2 eexists. split; [reflexivity|]. cbn [w_data w_par w_upd]. rewrite nth_error_upd_same by (eapply nth_error_lt; eauto).
  split; [reflexivity|]. cbn [lcalc_x d_next d_cost d_g d_h].
  split; [reflexivity|].
  split. { rewrite <- cost_spec by auto. unfold dot, smv, mulv.
    rewrite (rsum_0 nu (fun i => u i * _)) by (intros; unfold u; ring).
    rewrite (rsum_0 nx (fun i => x i * rsum (cols (pN p)) _)) by (intros; rewrite Z; ring). rewrite Z. ring. }
  split. { intro r. rewrite <- con_spec by apply Hp. unfold smv at 3. unfold mulv at 1. rewrite Z. ring. }
  split. { intro r. rewrite <- con_spec by apply Hp. unfold smv at 3. unfold mulv at 1. rewrite Z. ring. }
  do 3 (split; [reflexivity|]). intros j Hj. apply nth_error_upd_other; auto.
Qed.

(** *** Gradients *)
Definition gx_of (p : lqr) (x u : vec) : vec := fun i => ent (pq p) i + smv (pQ p) x i + smv (pN p) u i.
Definition gu_of (p : lqr) (x u : vec) : vec := fun i => ent (pr p) i + mulv nx (tr (ment (pN p))) x i + smv (pR p) u i.

Lemma quad_deriv n (c : R -> vec) s (v : vec) M : sym n M ->
  (forall j, (j < n)%nat -> is_derive (fun t => c t j) s (v j)) ->
  is_derive (fun t => 5 / 10 * dot n (c t) (mulv n M (c t))) s (rsum n (fun j => mulv n M (c s) j * v j)).
Proof.
  intros HM Hd. eapply deq; [apply dscal, (d_bilinear n n c c s v v M Hd Hd)|].
  rewrite (rsum_ext n (fun j => mulv n (tr M) (c s) j * v j) (fun j => mulv n M (c s) j * v j)). { lra. }
  intros j Hj. f_equal. unfold mulv, tr. apply rsum_ext. intros i Hi. now rewrite HM.
Qed.
Lemma grads p x u : sized p -> symmetric nx nu p ->
  deriv2 nx nu 1 (fun x u _ => lq_cost nx nu p x u) x u (fun _ => gx_of p x u) (fun _ => gu_of p x u).
Proof.
  intros Hp [SQ SR] cx cu s vx vu Ex Eu Dx Du i _.
  apply (dext (fun t => 5 / 10 * dot nx (cx t) (smv (pQ p) (cx t)) + 5 / 10 * dot nu (cu t) (smv (pR p) (cu t))
     + dot nx (cx t) (smv (pN p) (cu t)) + dot nx (ent (pq p)) (cx t) + dot nu (ent (pr p)) (cu t))).
  { intro t. now apply cost_spec. }
  unfold gx_of, gu_of, smv. destruct Hp as (_ & _ & (_ & ->) & (_ & ->) & (_ & ->) & _).
  eapply deq.
  { apply dplus; [apply dplus; [apply dplus; [apply dplus|]|]|].
    - apply (quad_deriv nx cx s vx _ SQ Dx).
    - apply (quad_deriv nu cu s vu _ SR Du).
    - apply (d_bilinear nx nu cx cu s vx vu _ Dx Du).
    - apply (d_dot_x nx cx s vx Dx).
    - apply (d_dot_x nu cu s vu Du). }
  assert (EX : forall M i, mulv nx M (cx s) i = mulv nx M x i) by (intros; apply rsum_ext; intros; now rewrite Ex).
  assert (EU : forall M i, mulv nu M (cu s) i = mulv nu M u i) by (intros; apply rsum_ext; intros; now rewrite Eu).
  rewrite (rsum_ext nx (fun j => (_ + _ + _) * vx j) (fun j => (ent (pq p) j * vx j + mulv nx (ment (pQ p)) (cx s) j * vx j) + mulv nu (ment (pN p)) (cu s) j * vx j))
    by (intros; rewrite EX, EU; ring).
  rewrite (rsum_ext nu (fun j => (_ + _ + _) * vu j) (fun j => (ent (pr p) j * vu j + mulv nx (tr (ment (pN p))) (cx s) j * vu j) + mulv nu (ment (pR p)) (cu s) j * vu j))
    by (intros; rewrite EX, EU; ring).
  rewrite !rsum_plus. ring.
Qed.

(** calcDiff gives the exact gradient of the cost on every data after every history, if Q and R
    are symmetric. *)
Theorem C45_gradient_partial os w0 w i x u d :
  sized (w_par w0) -> Forall (fitting nx nu) os -> run os w0 = Some w -> nth_error (w_data w) i = Some d ->
  symmetric nx nu (w_par w) ->
  exists w' d', step (LDiff i x u) w = Some w' /\ nth_error (w_data w') i = Some d' /\
    deriv2 nx nu 1 (fun x u _ => lq_cost nx nu (w_par w) x u) x u (fun _ => d_Lx d') (fun _ => d_Lu d') /\
    w_par w' = w_par w /\ (forall j, j <> i -> nth_error (w_data w') j = nth_error (w_data w) j).
Proof.
  intros Hs Hf Hr Hd Hsym. pose proof (run_sized _ _ _ Hf Hs Hr) as Hp. cbn [lstep]. rewrite Hd.
  do 2 eexists. split; [reflexivity|]. cbn [w_data w_par]. rewrite nth_error_upd_same by (eapply nth_error_lt; eauto).
  split; [reflexivity|]. split; [apply grads; auto|]. split; [reflexivity|]. intros j Hj. apply nth_error_upd_other; auto.
Qed.

(** The same without a control: the gradient with respect to the state of the cost at a zero control;
    the gradient with respect to the control and the other datas are left alone. *)
Theorem C45_terminal_gradient_partial os w0 w i x d :
  sized (w_par w0) -> Forall (fitting nx nu) os -> run os w0 = Some w -> nth_error (w_data w) i = Some d ->
  symmetric nx nu (w_par w) ->
  exists w' d', step (LDiffT i x) w = Some w' /\ nth_error (w_data w') i = Some d' /\
    deriv2 nx nu 1 (fun x _ _ => lq_cost nx nu (w_par w) x (fun _ => 0)) x (fun _ => 0) (fun _ => d_Lx d') (fun _ _ => 0) /\
    d_Lu d' = d_Lu d /\ w_par w' = w_par w /\ (forall j, j <> i -> nth_error (w_data w') j = nth_error (w_data w) j).
Proof.
  intros Hs Hf Hr Hd Hsym. pose proof (run_sized _ _ _ Hf Hs Hr) as Hp. cbn [lstep]. rewrite Hd.
  do 2 eexists. split; [reflexivity|]. cbn [w_data w_par]. rewrite nth_error_upd_same by (eapply nth_error_lt; eauto).
  split; [reflexivity|]. split.
  { intros cx cu s vx vu Ex Eu Dx Du r Hr0.
    eapply deq.
    { apply (grads (w_par w) x (fun _ => 0) Hp Hsym cx (fun _ _ => 0) s vx (fun _ => 0) Ex) with (i := r); auto.
      intros; apply (dconst 0 s). }
    cbn [lcalcDiff_x set_grads d_Lx]. f_equal.
    - apply rsum_ext; intros j Hj. f_equal. unfold gx_of.
      replace (smv (pN (w_par w)) (fun _ => 0) j) with 0 by (unfold smv, mulv; symmetry; apply rsum_0; intros; ring).
      ring.
    - rewrite !rsum_0; auto; intros; ring. }
  split; [unfold lcalcDiff_x; now destruct (w_upd w)|]. split; [reflexivity|]. intros j Hj. apply nth_error_upd_other; auto.
Qed.

(** *** All derivatives *)
Definition has_consts (p : lqr) (d : ldata) : Prop :=
  d_Fx d = pA p /\ d_Fu d = pB p /\ d_Lxx d = pQ p /\ d_Luu d = pR p /\ d_Lxu d = pN p /\
  d_Gx d = leftCols nx (pG p) /\ d_Gu d = rightCols nu (pG p) /\ d_Hx d = leftCols nx (pH p) /\ d_Hu d = rightCols nu (pH p).
Lemma affine_deriv q A B (f : vec) x u :
  deriv2 nx nu q (fun x u i => rsum nx (fun j => A i j * x j) + rsum nu (fun j => B i j * u j) + f i) x u A B.
Proof.
  intros cx cu s vx vu _ _ Dx Du i _. eapply deq.
  { apply dplus; [apply dplus; [apply (d_mulv_x nx cx s vx Dx)|apply (d_mulv_x nu cu s vu Du)]|apply dconst]. } ring.
Qed.
Lemma deriv2_ext n m q f g x u J K : (forall x u i, (i < q)%nat -> f x u i = g x u i) -> deriv2 n m q f x u J K -> deriv2 n m q g x u J K.
Proof. intros E H cx cu s vx vu Ex Eu Dx Du i Hi. apply (dext (fun t => f (cx t) (cu t) i)); [intro; now apply E|now apply H]. Qed.

Lemma consts_exact p d x u : sized p -> symmetric nx nu p -> has_consts p d ->
  d_Lx d = gx_of p x u -> d_Lu d = gu_of p x u -> exact_data p d x u.
Proof.
  intros Hp Hsym (H1 & H2 & H3 & H4 & H5 & H6 & H7 & H8 & H9) Hx Hu. unfold LQR_Props.exact_data.
  rewrite H1, H2, H3, H4, H5, H6, H7, H8, H9, Hx, Hu.
  split; [apply affine_deriv|]. split; [now apply grads|].
  assert (C : forall G g q, cols G = (nx + nu)%nat -> deriv2 nx nu q (lq_con nx nu G g) x u (ment (leftCols nx G)) (ment (rightCols nu G))).
  { intros G g q HG. apply (deriv2_ext _ _ _ (fun x u i => rsum nx (fun j => ment (leftCols nx G) i j * x j) + rsum nu (fun j => ment (rightCols nu G) i j * u j) + ent g i)).
    - intros; now apply con_spec.
    - apply affine_deriv. }
  split.
  { exists (gx_of p), (gu_of p). split; [intros; now apply grads|]. split.
    - apply (deriv2_ext _ _ _ (fun x u i => rsum nx (fun j => ment (pQ p) i j * x j) + rsum nu (fun j => ment (pN p) i j * u j) + ent (pq p) i)).
      + intros. unfold gx_of, smv, mulv. destruct Hp as (_ & _ & (_ & ->) & _ & (_ & ->) & _). ring.
      + apply affine_deriv.
    - apply (deriv2_ext _ _ _ (fun x u i => rsum nx (fun j => tr (ment (pN p)) i j * x j) + rsum nu (fun j => ment (pR p) i j * u j) + ent (pr p) i)).
      + intros. unfold gu_of, smv, mulv. destruct Hp as (_ & _ & _ & (_ & ->) & _). ring.
      + apply affine_deriv. }
  destruct Hp as (P1 & P2 & P3 & P4 & P5 & P6 & P7 & _).
  split; [apply C, P6|]. split; [apply C, P7|].
  do 5 (split; [assumption|]). unfold size_is, leftCols, rightCols; cbn [rows cols]. destruct P6, P7. repeat split; auto.
Qed.

Lemma even_left : Nat.even nx = true -> (2 * nq nx)%nat = nx.
Proof.
  intro H. unfold nq. apply Nat.even_spec in H. destruct H as [m ->]. rewrite Nat.div2_double. lia.
Qed.
Lemma create_consts p d : Nat.even nx = true -> lcreate nx nu p = Some d -> has_consts p d.
Proof.
  intros He. unfold lcreate. rewrite even_left by auto. destruct (nx <=? nx + nu); [|discriminate].
  intro E. injection E as <-. repeat split; reflexivity.
Qed.
Lemma nq_bound : (2 * nq nx <= nx + 1)%nat.
Proof. unfold nq. pose proof (Nat.div2_odd nx). destruct (Nat.odd nx); cbn [Nat.b2n] in *; lia. Qed.

(** What one call does to data [i]. *)
Lemma step_keeps o w w' i d : no_set o -> step o w = Some w' -> nth_error (w_data w) i = Some d ->
  has_consts (w_par w) d -> w_par w' = w_par w /\ exists d', nth_error (w_data w') i = Some d' /\ has_consts (w_par w') d'.
Proof.
  intros Ho H Hd Hc. split; [eapply (proj2 (proj2 (proj2 (C45_set w (w_par w))))); eauto|].
  assert (U : forall j e, (forall e0, nth_error (w_data w) j = Some e0 -> has_consts (w_par w) e0 -> has_consts (w_par w) e) ->
     (j < length (w_data w))%nat -> exists d', nth_error (upd_nth j e (w_data w)) i = Some d' /\ has_consts (w_par w) d').
  { intros j e He Hl. destruct (Nat.eq_dec j i) as [->|Hj].
    - rewrite nth_error_upd_same by auto. eauto.
    - rewrite nth_error_upd_other by auto. eauto. }
  destruct o; cbn [lstep no_set] in *; [contradiction|..].
  - destruct (lcreate _ _ _); [injection H as <-|discriminate]. cbn [w_data w_par].
    rewrite nth_error_app1 by (eapply nth_error_lt; eauto). eauto.
  - destruct (nth_error (w_data w) i0) as [e|] eqn:E; [|injection H as <-; eauto].
    unfold lcalc in H. destruct (fits nx nu (w_par w)); [|discriminate]. injection H as <-. cbn [w_data w_par]. apply U; [|eapply nth_error_lt; eauto].
    intros e0 E0 He0. rewrite E in E0. injection E0 as <-. exact He0.
  - destruct (nth_error (w_data w) i0) as [e|] eqn:E; injection H as <-; [|eauto]. cbn [w_data w_par]. apply U; [|eapply nth_error_lt; eauto].
    intros e0 E0 He0. rewrite E in E0. injection E0 as <-. exact He0.
  - destruct (nth_error (w_data w) i0) as [e|] eqn:E; injection H as <-; [|eauto]. cbn [w_data w_par]. apply U; [|eapply nth_error_lt; eauto].
    intros e0 E0 He0. rewrite E in E0. injection E0 as <-. unfold lcalcDiff. destruct (w_upd w); [exact He0|]. repeat split; reflexivity.
  - destruct (nth_error (w_data w) i0) as [e|] eqn:E; injection H as <-; [|eauto]. cbn [w_data w_par]. apply U; [|eapply nth_error_lt; eauto].
    intros e0 E0 He0. rewrite E in E0. injection E0 as <-. unfold lcalcDiff_x. destruct (w_upd w); [exact He0|].
    destruct He0 as (? & ? & ? & ? & ? & ? & ? & ? & ?). repeat split; auto.
Qed.
Lemma run_keeps os w w' i d : Forall no_set os -> run os w = Some w' -> nth_error (w_data w) i = Some d ->
  has_consts (w_par w) d -> w_par w' = w_par w /\ exists d', nth_error (w_data w') i = Some d' /\ has_consts (w_par w') d'.
Proof.
  intro Ho. revert w d. induction Ho as [|o os Ho Hos IH]; cbn [lrun]; intros w d H Hd Hc; [injection H as <-; eauto|].
  destruct (step o w) as [w1|] eqn:E; [|discriminate].
  destruct (step_keeps o w w1 i d Ho E Hd Hc) as (Hp & d1 & Hd1 & Hc1). destruct (IH w1 d1 H Hd1 Hc1) as (Hp' & R). split; [congruence|auto].
Qed.
Lemma diff_exact w i x u d : sized (w_par w) -> symmetric nx nu (w_par w) -> nth_error (w_data w) i = Some d -> 
  w_upd w = false \/ has_consts (w_par w) d ->
  exists w' d', step (LDiff i x u) w = Some w' /\ nth_error (w_data w') i = Some d' /\
    exact_data (w_par w) d' x u /\ has_consts (w_par w') d' /\ w_par w' = w_par w.
Proof.
  intros Hp Hsym Hd Hc. cbn [lstep]. rewrite Hd. do 2 eexists. split; [reflexivity|]. cbn [w_data w_par].
  rewrite nth_error_upd_same by (eapply nth_error_lt; eauto). split; [reflexivity|].
  assert (C : has_consts (w_par w) (lcalcDiff nx nu (w_par w) (w_upd w) x u d)).
  { unfold lcalcDiff. destruct (w_upd w); [|repeat split; reflexivity]. destruct Hc as [|Hc]; [discriminate|exact Hc]. }
  split; [|split; [exact C|reflexivity]]. apply consts_exact; auto.
Qed.

(** A data created since the last set_LQR gives exact derivatives, whatever else happened, when
    the number of states is even. *)
Theorem C45_new_data_partial pre post w0 w w1 i x u :
  Nat.even nx = true -> sized (w_par w0) -> Forall (fitting nx nu) pre -> Forall no_set post ->
  run pre w0 = Some w -> i = length (w_data w) -> run (LCreate :: post) w = Some w1 ->
  symmetric nx nu (w_par w1) ->
  exists w' d', step (LDiff i x u) w1 = Some w' /\ nth_error (w_data w') i = Some d' /\ exact_data (w_par w1) d' x u.
Proof.
  intros Hev Hs Hf Hns Hr -> Hr1 Hsym. pose proof (run_sized _ _ _ Hf Hs Hr) as Hp.
  cbn [lrun lstep] in Hr1. destruct (lcreate nx nu (w_par w)) as [d|] eqn:E; [|discriminate].
  assert (C : has_consts (w_par w) d).
  { now apply create_consts. }
  edestruct (run_keeps post _ w1 (length (w_data w)) d Hns Hr1) as (Hpar & d1 & Hd1 & Hc1).
  { cbn [w_data]. rewrite nth_error_app2 by lia. now rewrite Nat.sub_diag. }
  { exact C. }
  cbn [w_par] in Hpar.
  destruct (diff_exact w1 (length (w_data w)) x u d1) as (w' & d' & A & B & D & _); auto; [now rewrite Hpar|]. eauto.
Qed.

(** A data that makes the first calcDiff call after set_LQR, with a control, gives exact
    derivatives from then on. *)
Theorem C45_first_user_partial pre mid post p w0 w w1 i x0 u0 x u d :
  sized (w_par w0) -> Forall (fitting nx nu) (pre ++ [LSet p]) -> accepts k nx nu ng nh p = true ->
  Forall (fun o => no_set o /\ no_diff o) mid -> Forall no_set post ->
  run (pre ++ [LSet p] ++ mid) w0 = Some w -> nth_error (w_data w) i = Some d ->
  run (LDiff i x0 u0 :: post) w = Some w1 -> symmetric nx nu p ->
  exists w' d', step (LDiff i x u) w1 = Some w' /\ nth_error (w_data w') i = Some d' /\ exact_data p d' x u.
Proof.
  intros Hs Hf Ha Hm Hns Hr Hd Hr1 Hsym.
  apply Forall_app in Hf. destruct Hf as [Hf Hfp]. inversion Hfp as [|? ? Hp0 _]; subst.
  assert (P : w_par w = p /\ w_upd w = false).
  { clear Hr1 Hd. destruct (run pre w0) as [wa|] eqn:Ea.
    2:{ exfalso. clear - Hr Ea. revert w0 Ea Hr. induction pre as [|o pre IH]; cbn [lrun app]; [discriminate|].
        intros w0. destruct (step o w0); [|discriminate]. apply IH. }
    rewrite (run_app _ _ _ _ _ _ _ _ _ Ea) in Hr. cbn [app lrun lstep] in Hr. rewrite Ha in Hr.
    set (wb := LWorld p false (w_data wa)) in Hr. assert (Q : w_par wb = p /\ w_upd wb = false) by now split.
    clearbody wb. revert wb Q Hr. induction Hm as [|o mid [O1 O2] Hm IH]; cbn [lrun]; intros wb Q Hr; [now injection Hr as <-|].
    destruct (step o wb) as [wc|] eqn:Ec; [|discriminate]. apply (IH wc); auto. clear - Q O1 O2 Ec. destruct Q as [Q1 Q2].
    destruct o; cbn [lstep no_set no_diff] in *; try contradiction.
    - destruct (lcreate _ _ _); [injection Ec as <-|discriminate]; auto.
    - destruct (nth_error _ _); [destruct (lcalc _ _ _ _ _ _); [|discriminate]|]; injection Ec as <-; auto.
    - destruct (nth_error _ _); injection Ec as <-; auto. }
  destruct P as [P1 P2]. assert (Hp : sized p) by (apply accepts_sized; [auto|apply Hp0|apply Hp0]). subst p.
  destruct (diff_exact w i x0 u0 d) as (wd & dd & A & B & _ & C & E); auto.
  cbn [lrun] in Hr1. rewrite A in Hr1.
  destruct (run_keeps post wd w1 i dd Hns Hr1 B C) as (Hpar & d1 & Hd1 & Hc1).
  assert (EP : w_par w1 = w_par w) by congruence.
  destruct (diff_exact w1 i x u d1) as (w' & d' & A' & B' & D & _); auto; try (now rewrite EP). rewrite EP in D. eauto.
Qed.

(** With one data and no calcDiff without control, every calcDiff is exact. *)
Theorem C45_single_data_partial os w0 w x u d :
  Nat.even nx = true -> sized (w_par w0) -> w_data w0 = [] -> Forall (fitting nx nu) os -> Forall no_terminal_diff os ->
  creations os = 1%nat -> run os w0 = Some w -> symmetric nx nu (w_par w) -> nth_error (w_data w) 0 = Some d ->
  exists w' d', step (LDiff 0 x u) w = Some w' /\ nth_error (w_data w') 0 = Some d' /\ exact_data (w_par w) d' x u.
Proof.
  intros Hev Hs Hw Hf Ht Hc Hr Hsym Hd. pose proof (run_sized _ _ _ Hf Hs Hr) as Hp.
  assert (Inv : (length (w_data w) <= 1)%nat /\ forall d, nth_error (w_data w) 0 = Some d -> w_upd w = false \/ has_consts (w_par w) d).
  { assert (I0 : (length (w_data w0) + creations os <= 1)%nat /\
       forall d, nth_error (w_data w0) 0 = Some d -> w_upd w0 = false \/ has_consts (w_par w0) d).
    { rewrite Hw, Hc. split; [auto|]. intros d0 H; discriminate. }
    clear Hw Hd Hs Hp Hsym d Hc. revert w0 I0 Hr. induction os as [|o os IH]; cbn [lrun]; intros w0 I0 Hr.
    { injection Hr as <-. cbn [creations] in I0. split; [lia|apply I0]. }
    inversion Hf; inversion Ht; subst. destruct (step o w0) as [w1|] eqn:E; [|discriminate].
    apply (IH H2 H6 w1); auto. clear IH Hr. destruct I0 as [I1 I2]. destruct o; cbn [lstep creations no_terminal_diff] in *; try contradiction.
    - destruct (accepts k nx nu ng nh p); injection E as <-; cbn [w_data w_par w_upd]; auto.
    - destruct (lcreate nx nu (w_par w0)) as [d|] eqn:Ed; [injection E as <-|discriminate]. cbn [w_data w_par w_upd]. rewrite app_length. cbn [length].
      split; [lia|]. intros d0 H0. destruct (w_data w0); cbn [length app nth_error] in *; [|lia]. injection H0 as <-. right.
      now apply create_consts.
    - destruct (nth_error (w_data w0) i) as [e|] eqn:Ei; [|injection E as <-; auto].
      unfold lcalc in E. destruct (fits nx nu (w_par w0)); [|discriminate]. injection E as <-. cbn [w_data w_par w_upd]. rewrite upd_length. split; auto.
      pose proof (nth_error_lt _ _ _ Ei). assert (i = 0%nat) by lia. subst i. intros d0 H0. rewrite nth_error_upd_same in H0 by auto. injection H0 as <-.
      destruct (I2 e Ei) as [|Hcc]; [now left|right; exact Hcc].
    - destruct (nth_error (w_data w0) i) as [e|] eqn:Ei; injection E as <-; [|auto]. cbn [w_data w_par w_upd]. rewrite upd_length. split; auto.
      pose proof (nth_error_lt _ _ _ Ei). assert (i = 0%nat) by lia. subst i. intros d0 H0. rewrite nth_error_upd_same in H0 by auto. injection H0 as <-.
      destruct (I2 e Ei) as [|Hcc]; [now left|right; exact Hcc].
    - destruct (nth_error (w_data w0) i) as [e|] eqn:Ei; injection E as <-; [|auto]. cbn [w_data w_par w_upd]. rewrite upd_length. split; auto.
      pose proof (nth_error_lt _ _ _ Ei). assert (i = 0%nat) by lia. subst i. intros d0 H0. rewrite nth_error_upd_same in H0 by auto. injection H0 as <-. right.
      unfold lcalcDiff. destruct (w_upd w0); [|repeat split; reflexivity]. destruct (I2 e Ei) as [|Hcc]; [discriminate|exact Hcc]. }
  destruct (diff_exact w 0 x u d) as (w' & d' & A & B & D & _); auto; [now apply Inv|]. eauto.
Qed.
End Props.

(** ** What fails *)
Lemma psd_identity n L : (forall i j, (i < n)%nat -> (j < n)%nat -> lower L i j = idm i j) -> psd_lower n L.
Proof.
  intros H v. assert (E : dot n v (mulv n (lower L) v) = dot n v v).
  { unfold dot. apply rsum_ext. intros i Hi. f_equal. unfold mulv.
    rewrite (rsum_ext n _ (fun j => idm i j * v j)) by (intros; rewrite H; auto). now apply rsum_id_l. }
  rewrite E. assert (0 <= dot n v v) by (apply rsum_ge0; intros; apply Rle_0_sqr). lra.
Qed.
Lemma joint_identity nx nu Q N R : (forall i j, (i < nx)%nat -> (j <= i)%nat -> ment Q i j = idm i j) ->
  (forall i j, (i < nu)%nat -> (j <= i)%nat -> ment R i j = idm i j) -> (forall i j, ment N i j = 0) ->
  forall i j, (i < nx + nu)%nat -> (j < nx + nu)%nat -> lower (joint nx Q N R) i j = idm i j.
Proof.
  intros HQ HR HN.
  assert (G : forall i j, (i < nx + nu)%nat -> (j <= i)%nat -> joint nx Q N R i j = idm i j).
  { intros i j Hi Hj. unfold joint. destruct (Nat.ltb_spec i nx), (Nat.ltb_spec j nx); try lia; auto.
    - rewrite HN. symmetry. apply idm_other. lia.
    - rewrite HR by lia. unfold idm. destruct (Nat.eqb_spec (i - nx) (j - nx)), (Nat.eqb_spec i j); auto; lia. }
  intros i j Hi Hj. unfold lower. destruct (Nat.leb_spec j i); [now apply G|]. rewrite G by lia.
  unfold idm. now rewrite Nat.eqb_sym.
Qed.
Lemma default_sized k nx nu b : sized nx nu (no k nx) 0 0 (default_lqr k nx nu b).
Proof. unfold sized, size_is. destruct k; cbn [default_lqr pA pB pQ pR pN pG pH pf pq pr pg ph id_sm zero_sm const_sv rows cols sz no]; repeat split; auto. Qed.
Lemma default_accepted k nx nu b : accepts k nx nu 0 0 (default_lqr k nx nu b) = true.
Proof.
  apply (C45_set k nx nu 0 0 (LWorld (default_lqr k nx nu b) false [])).
  - destruct k; reflexivity.
  - destruct k; reflexivity.
  - split; [apply default_sized|]. apply psd_identity, joint_identity; destruct k; reflexivity.
Qed.
Lemma default_symmetric k nx nu b : symmetric nx nu (default_lqr k nx nu b).
Proof. split; intros i j _ _; destruct k; cbn [default_lqr pQ pR id_sm ment]; unfold idm; now rewrite Nat.eqb_sym. Qed.

(** The default model with other dynamics. *)
Definition with_A (a : R) (p : lqr) : lqr :=
  LQR (SM (rows (pA p)) (cols (pA p)) (fun i j => a * ment (pA p) i j)) (pB p) (pQ p) (pR p) (pN p) (pG p) (pH p)
      (pf p) (pq p) (pr p) (pg p) (ph p).
Definition w21 : lworld := default_world discrete 2 1 true false.
Definition p2 : lqr := with_A 2 (default_lqr discrete 2 1 true).
Lemma p2_accepted : accepts discrete 2 1 0 0 p2 = true.
Proof.
  apply (C45_set discrete 2 1 0 0 w21); try reflexivity.
  split; [repeat split|]. apply psd_identity, joint_identity; reflexivity.
Qed.
Definition z : vec := fun _ => 0.
Lemma stale_not_exact d x u : ment (d_Fx d) 0%nat 0%nat = 1 -> ment (d_Fx d) 0%nat 1%nat = 0 -> ~ exact_data 2 1 2 0 0 p2 d x u.
Proof.
  intros H H' (E & _). specialize (E (fun t j => x j + (if Nat.eqb j 0 then t else 0)) (fun _ => u) 0 (fun j => if Nat.eqb j 0 then 1 else 0) (fun _ => 0)).
  assert (D : is_derive (fun t => lq_next 2 1 p2 (fun j => x j + (if Nat.eqb j 0 then t else 0)) u 0%nat) 0
    (rsum 2 (fun j => ment (d_Fx d) 0%nat j * (if Nat.eqb j 0 then 1 else 0)) + rsum 1 (fun j => ment (d_Fu d) 0%nat j * 0))).
  { refine (E _ _ _ _ 0%nat _); auto.
    - intros j _. destruct (Nat.eqb j 0); ring.
    - intros j _. destruct (Nat.eqb j 0); (eapply deq; [apply dplus; [apply dconst|]|]); [apply did|ring|apply dconst|ring].
    - intros j _. apply dconst. }
  assert (D1 : is_derive (fun t => lq_next 2 1 p2 (fun j => x j + (if Nat.eqb j 0 then t else 0)) u 0%nat) 0 2).
  { apply (dext (fun t => lq_next 2 1 p2 x u 0%nat + 2 * t)).
    - intro t. unfold lq_next. cbn [rsum Nat.eqb p2 with_A default_lqr pA pB ment id_sm pf]. rewrite idm_same, (idm_other 0 1) by lia. ring.
    - eapply deq; [apply dplus; [apply dconst|apply dscal, did]|ring]. }
  pose proof (duniq _ _ _ _ D D1) as Q. cbn [rsum Nat.eqb] in Q. rewrite H, H' in Q. lra.
Qed.

(** Two datas of the same model: only the first one to be differentiated after set_LQR is
    updated. *)
Theorem C45_two_datas_refuted : exists w d,
  lrun discrete 2 1 0 0 [LCreate; LCreate; LSet p2; LDiff 0 z z; LDiff 1 z z] w21 = Some w /\
  w_par w = p2 /\ symmetric 2 1 p2 /\ nth_error (w_data w) 1 = Some d /\ ~ exact_data 2 1 2 0 0 p2 d z z.
Proof.
  do 2 eexists. split; [cbn [lrun lstep lcreate]; change (2 * nq 2 <=? 2 + 1) with true; cbn [lrun lstep lcreate];
    change (2 * nq 2 <=? 2 + 1) with true; cbn [lrun lstep]; rewrite p2_accepted; reflexivity|].
  split; [reflexivity|]. split; [apply (default_symmetric discrete 2 1 true)|]. split; [reflexivity|].
  apply stale_not_exact; [apply idm_same|apply idm_other; lia].
Qed.

(** One data: a calcDiff without control clears the flag, and the dynamics stay the old ones in
    every later calcDiff. *)
Theorem C45_terminal_refuted : exists w d,
  lrun discrete 2 1 0 0 [LCreate; LSet p2; LDiffT 0 z; LDiff 0 z z] w21 = Some w /\
  w_par w = p2 /\ symmetric 2 1 p2 /\ nth_error (w_data w) 0 = Some d /\ ~ exact_data 2 1 2 0 0 p2 d z z.
Proof.
  do 2 eexists. split; [cbn [lrun lstep lcreate]; change (2 * nq 2 <=? 2 + 1) with true; cbn [lrun lstep]; rewrite p2_accepted; reflexivity|].
  split; [reflexivity|]. split; [apply (default_symmetric discrete 2 1 true)|]. split; [reflexivity|].
  apply stale_not_exact; [apply idm_same|apply idm_other; lia].
Qed.

(** set_LQR accepts a non-symmetric Q, for which Lx is not the gradient. *)
Definition p_asym : lqr :=
  let p := default_lqr discrete 2 1 true in
  LQR (pA p) (pB p) (SM 2 2 (fun i j => if Nat.leb i j then 1 else 0)) (pR p) (pN p) (pG p) (pH p) (pf p) (const_sv 2 0) (pr p) (pg p) (ph p).
Theorem C45_asymmetric_refuted : exists x u w d,
  accepts discrete 2 1 0 0 p_asym = true /\
  lrun discrete 2 1 0 0 [LSet p_asym; LCreate; LDiff 0 x u] w21 = Some w /\ nth_error (w_data w) 0 = Some d /\
  ~ deriv2 2 1 1 (fun x u _ => lq_cost 2 1 p_asym x u) x u (fun _ => d_Lx d) (fun _ => d_Lu d).
Proof.
  assert (A : accepts discrete 2 1 0 0 p_asym = true).
  { apply (C45_set discrete 2 1 0 0 w21); try reflexivity. split; [repeat split|]. apply psd_identity, joint_identity; try reflexivity.
    intros i j Hi Hj. cbn [p_asym pQ ment]. unfold idm. destruct (Nat.leb_spec i j), (Nat.eqb_spec i j); auto; lia. }
  exists (fun j => if Nat.eqb j 1 then 1 else 0), z. do 2 eexists. split; [exact A|].
  split; [cbn [lrun lstep]; rewrite A; cbn [lrun lstep lcreate w_par]; change (2 * nq 2 <=? 2 + 1) with true; reflexivity|].
  split; [reflexivity|]. intro H.
  specialize (H (fun t j => if Nat.eqb j 1 then 1 else t) (fun _ => z) 0 (fun j => if Nat.eqb j 1 then 0 else 1) z).
  match type of H with ?a -> ?b -> ?c -> ?e -> _ => assert (Ha : a); [|assert (Hb : b); [|assert (Hc : c); [|assert (He : e); [|specialize (H Ha Hb Hc He 0%nat ltac:(lia))]]]] end.
  - intros j _. now destruct (Nat.eqb j 1).
  - reflexivity.
  - intros j _. destruct (Nat.eqb j 1); [apply dconst|apply did].
  - intros j _. apply dconst.
  - assert (D : is_derive (fun t => lq_cost 2 1 p_asym (fun j => if Nat.eqb j 1 then 1 else t) z) 0 (/ 2)).
    { apply (dext (fun t => / 2 * (t * t) + / 2 * t + / 2)).
      - intro t. unfold lq_cost. cbn -[Rinv]. unfold z. ring.
      - eapply deq; [apply dplus; [apply dplus; [apply dscal, dmult; apply did|apply dscal, did]|apply dconst]|]. cbv beta. ring. }
    pose proof (duniq _ _ _ _ H D) as E. cbn -[Rinv] in E. unfold z in E. lra.
Qed.

(** set_LQR accepts dynamics with any number of columns, with which calc is undefined. *)
Theorem C45_columns_refuted : exists p w,
  lrun discrete 2 1 0 0 [LCreate; LSet p] w21 = Some w /\ w_par w = p /\ lstep discrete 2 1 0 0 (LCalc 0 z z) w = None.
Proof.
  set (p := let p := default_lqr discrete 2 1 true in
    LQR (SM 2 7 idm) (pB p) (pQ p) (pR p) (pN p) (pG p) (pH p) (pf p) (pq p) (pr p) (pg p) (ph p)).
  assert (A : accepts discrete 2 1 0 0 p = true).
  { unfold accepts. rewrite (proj2 (check_psd_spec _ _)); [reflexivity|]. apply psd_identity, joint_identity; reflexivity. }
  exists p. eexists. split; [cbn [lrun lstep lcreate]; change (2 * nq 2 <=? 2 + 1) with true; cbn [lrun lstep]; rewrite A; reflexivity|].
  split; reflexivity.
Qed.

(** With an odd number of states, a new data of the discrete model has one column too many in
    Gx and Hx, and creating it is undefined without controls. *)
Theorem C45_odd_refuted nx nu ng nh w : Nat.odd nx = true ->
  (nu = 0%nat -> lstep discrete nx nu ng nh LCreate w = None) /\
  (nu <> 0%nat -> exists w' d, lstep discrete nx nu ng nh LCreate w = Some w' /\ nth_error (w_data w') (length (w_data w)) = Some d /\
     cols (d_Gx d) = S nx /\ cols (d_Hx d) = S nx).
Proof.
  intro Ho. assert (E : (2 * nq nx)%nat = S nx).
  { unfold nq. apply Nat.odd_spec in Ho. destruct Ho as [m ->]. replace (2 * m + 1)%nat with (S (2 * m)) by lia. rewrite Nat.div2_succ_double. lia. }
  cbn [lstep]. unfold lcreate. rewrite E. split; intro Hu.
  - subst nu. destruct (Nat.leb_spec (S nx) (nx + 0)); [lia|reflexivity].
  - destruct (Nat.leb_spec (S nx) (nx + nu)); [|lia]. do 2 eexists. split; [reflexivity|]. cbn [w_data].
    rewrite nth_error_app2, Nat.sub_diag by lia. split; [reflexivity|]. split; reflexivity.
Qed.
(** ... which stays after calcDiff if another data was differentiated before. *)
Theorem C45_odd_stays_refuted : exists w d,
  lrun discrete 1 1 0 0 [LCreate; LDiff 0 z z; LCreate; LDiff 1 z z] (default_world discrete 1 1 true false) = Some w /\
  nth_error (w_data w) 1 = Some d /\ ~ exact_data 1 1 1 0 0 (w_par w) d z z.
Proof.
  do 2 eexists. split; [cbn [lrun lstep lcreate]; change (2 * nq 1 <=? 1 + 1) with true; cbn [lrun lstep lcreate nth_error w_data w_par default_world];
     change (2 * nq 1 <=? 1 + 1) with true; reflexivity|].
  split; [reflexivity|]. intros (_ & _ & _ & _ & _ & _ & _ & _ & _ & _ & (_ & H) & _). cbn in H. discriminate.
Qed.

(** ** Copies *)
(** The copy constructor succeeds on every model whose matrices were accepted (or are the
    default ones), with the same matrices and a cleared flag. *)
Theorem C45_copy nx nu ng nh p :
  cols (pA p) = nx -> cols (pB p) = nu -> accepts discrete nx nu ng nh p = true ->
  create_lqr p = Some (nx, nu, LWorld p false []).
Proof.
  intros <- <- H. unfold create_lqr.
  pose proof (accepts_sized _ _ _ _ _ _ H eq_refl eq_refl) as (_ & _ & _ & _ & _ & (-> & _) & (-> & _) & _). now rewrite H.
Qed.
Example C45_copy_default nx nu b : create_lqr (default_lqr discrete nx nu b) = Some (nx, nu, LWorld (default_lqr discrete nx nu b) false []).
Proof. apply (C45_copy nx nu 0 0); try reflexivity. apply default_accepted. Qed.

(** The hypotheses of the positive theorems are met by the default model with new dynamics. *)
Example C45_example : exists w d,
  lrun discrete 2 1 0 0 [LCreate; LDiff 0 z z; LSet p2; LCalc 0 z z] w21 = Some w /\
  Forall (fitting 2 1) [LCreate; LDiff 0 z z; LSet p2; LCalc 0 z z] /\
  Forall no_terminal_diff [LCreate; LDiff 0 z z; LSet p2; LCalc 0 z z] /\
  nth_error (w_data w) 0 = Some d /\ symmetric 2 1 (w_par w) /\ sized 2 1 2 0 0 (w_par w21).
Proof.
  do 2 eexists. split; [cbn [lrun lstep lcreate]; change (2 * nq 2 <=? 2 + 1) with true; cbn [lrun lstep nth_error w_data]; rewrite p2_accepted; reflexivity|].
  split; [repeat constructor|]. split; [repeat constructor|]. split; [reflexivity|]. split; [apply (default_symmetric discrete 2 1 true)|apply default_sized].
Qed.

(** ** The default models *)
(** The state (or, in continuous time, position plus velocity) and the control are added, with a
    constant drift of one unless drift-free; costs are half of the squares plus the entries. *)
Theorem C45_default k m nu b x u i :
  let nx := match k with discrete => m | continuous => (2 * m)%nat end in
  let p := default_lqr k nx nu b in
  (i < m)%nat ->
  lq_next nx nu p x u i =
    match k with discrete => x i | continuous => x i + x (m + i)%nat end + (if i <? nu then u i else 0) + (if b then 0 else 1) /\
  lq_cost nx nu p x u = rsum nx (fun j => / 2 * (x j * x j) + x j) + rsum nu (fun j => / 2 * (u j * u j) + u j) /\
  sized nx nu m 0 0 p /\ accepts k nx nu 0 0 p = true.
Proof.
  intros nx p Hi.
  assert (Eno : no k nx = m).
  { unfold nx. destruct k; cbn [no]; [reflexivity|]. unfold nq. rewrite Nat.div2_double. lia. }
  assert (EB : rsum nu (fun j => idm i j * u j) = if i <? nu then u i else 0).
  { destruct (Nat.ltb_spec i nu) as [L|L]; [now apply rsum_id_l|].
    apply rsum_0. intros j Hj. rewrite idm_other by lia. ring. }
  assert (Q1 : forall n (v : vec), / 2 * rsum n (fun i => rsum n (fun j => v i * idm i j * v j)) + rsum n (fun i => 1 * v i)
     = rsum n (fun j => / 2 * (v j * v j) + v j)).
  { intros n v. rewrite (rsum_ext n (fun i => 1 * v i) v) by (intros; ring). rewrite rsum_plus, (rsum_scal n (/ 2) (fun j => v j * v j)). f_equal. f_equal.
    apply rsum_ext. intros j Hj. rewrite (rsum_ext n _ (fun l => idm j l * (v j * v l))) by (intros; ring). now rewrite rsum_id_l. }
  split; [|split; [|split]].
  - unfold lq_next, p, default_lqr. cbn [pA pB pf id_sm const_sv ent]. change (ment (id_sm (no k nx) nu)) with idm.
    rewrite EB. f_equal. f_equal. unfold nx in *. destruct k; cbn [ment id_sm].
    + now apply rsum_id_l.
    + rewrite Eno. replace (2 * m)%nat with (m + m)%nat by lia. rewrite rsum_app. f_equal.
      * rewrite (rsum_ext m _ (fun j => idm i j * x j)); [now apply rsum_id_l|].
        intros j Hj. now destruct (Nat.ltb_spec j m); [|lia].
      * rewrite (rsum_ext m _ (fun j => idm i j * x (m + j)%nat)); [exact (rsum_id_l m i (fun j => x (m + j)%nat) Hi)|].
        intros j Hj. destruct (Nat.ltb_spec (m + j) m); [lia|]. now replace (m + j - m)%nat with j by lia.
  - unfold lq_cost, p, default_lqr. cbn [pQ pR pN pq pr id_sm zero_sm const_sv ent ment].
    rewrite <- (Q1 nx x), <- (Q1 nu u).
    rewrite (rsum_0 nx (fun i => rsum nu (fun j => x i * 0 * u j))); [ring|].
    intros j _. apply rsum_0. intros l _. ring.
  - rewrite <- Eno. apply default_sized.
  - apply default_accepted.
Qed.
Print Assumptions C45_default.

Print Assumptions C45_set.
Print Assumptions C45_convex_partial.
Print Assumptions C45_calc.
Print Assumptions C45_calc_terminal.
Print Assumptions C45_gradient_partial.
Print Assumptions C45_new_data_partial.
Print Assumptions C45_first_user_partial.
Print Assumptions C45_single_data_partial.
Print Assumptions C45_two_datas_refuted.
Print Assumptions C45_terminal_refuted.
Print Assumptions C45_asymmetric_refuted.
Print Assumptions C45_columns_refuted.
Print Assumptions C45_odd_refuted.
Print Assumptions C45_odd_stays_refuted.
Print Assumptions C45_copy.
