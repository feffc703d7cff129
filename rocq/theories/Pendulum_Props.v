(** C114: the cost and the actuation of the double pendulum. *)
From Coquelicot Require Import Coquelicot.
From Coq Require Import Reals Arith Bool List Lia Lra.
From Verif Require Import Deriv VecMat Pendulum_Model.
Import ListNotations.
Open Scope R_scope.

(** ** Specification *)
(** [Ar] is the gradient of the activation *)
Definition act_gradient (A : act) : Prop := forall (r : R -> vec) (dr : vec) t,
  (forall i, (i < 6)%nat -> is_derive (fun s => r s i) t (dr i)) ->
  is_derive (fun s => act_a A (r s)) t (rsum 6 (fun i => act_Ar A (r t) i * dr i)).
Definition moving (x : R -> vec) (dx : vec) (t : R) : Prop :=
  forall j, (j < 4)%nat -> is_derive (fun s => x s j) t (dx j).
(** the weighted quadratic activation *)
Definition wquad (w : vec) : act :=
  Act 6 (fun r => 1 / 2 * rsum 6 (fun i => w i * (r i * r i))) (fun r i => w i * r i) (fun _ i => w i).
(** the cost of the double pendulum: the sines of the angles, one minus the cosines, the velocities *)
Definition pendulum_cost (w x : vec) : R :=
  1 / 2 * (w 0%nat * (sin (x 0%nat))^2 + w 1%nat * (sin (x 1%nat))^2 + w 2%nat * (1 - cos (x 0%nat))^2
           + w 3%nat * (1 - cos (x 1%nat))^2 + w 4%nat * (x 2%nat)^2 + w 5%nat * (x 3%nat)^2).

(** calc and then calcDiff *)
Definition both (A : act) (d : pdata) (x : vec) : option pdata :=
  match p_calc A d x with Some d1 => p_calcDiff A d1 x | None => None end.

(** ** Proofs *)
Definition in_block (i j : nat) : bool :=
  ((i <? 2) && (j <? 2) || (2 <=? i) && (i <? 4) && (j <? 2) || (4 <=? i) && (i <? 6) && (2 <=? j) && (j <? 4))%nat.
Definition clean (d : pdata) : Prop := forall i j, in_block i j = false -> p_Rx d i j = 0 /\ p_Rxx d i j = 0.
Lemma set_diag2_out i0 j0 a b M i j :
  ((i0 <=? i)%nat && (i <? i0 + 2)%nat && (j0 <=? j)%nat && (j <? j0 + 2)%nat) = false -> set_diag2 i0 j0 a b M i j = M i j.
Proof. intro H. unfold set_diag2. now rewrite H. Qed.
Lemma three_blocks a1 a2 b1 b2 c1 c2 M i j : in_block i j = false ->
  set_diag2 4 2 c1 c2 (set_diag2 2 0 b1 b2 (set_diag2 0 0 a1 a2 M)) i j = M i j.
Proof.
  unfold in_block. rewrite !orb_false_iff. intros ((H1 & H2) & H3).
  rewrite !set_diag2_out; [reflexivity|..]; cbn [Nat.add]; change (0 <=? i)%nat with true; change (0 <=? j)%nat with true; rewrite ?andb_true_l, ?andb_true_r; [exact H1|exact H2|exact H3].
Qed.
Lemma run_clean A l : clean (p_run A p_create l).
Proof.
  assert (H : forall d, clean d -> clean (p_run A d l)).
  { unfold p_run. induction l as [|k l IH]; intros d Hd; [exact Hd|]. cbn [fold_left]. apply IH.
    unfold p_step. destruct k as [x|x]; unfold p_calc, p_calcDiff; destruct (Nat.eqb (act_nr A) 6); try exact Hd.
    intros i j Hij. cbn [p_Rx p_Rxx]. rewrite !three_blocks by exact Hij. now apply Hd. }
  apply H. intros i j _. now split.
Qed.
(** what calcDiff leaves in Lx *)
Definition gradient (A : act) (x : vec) : vec := fun j =>
  let g := act_Ar A (residual x) in
  match j with
  | 0%nat => cos (x 0%nat) * g 0%nat + sin (x 0%nat) * g 2%nat
  | 1%nat => cos (x 1%nat) * g 1%nat + sin (x 1%nat) * g 3%nat
  | 2%nat => g 4%nat
  | _ => g 5%nat
  end.
Lemma both_values A d x : act_nr A = 6%nat -> clean d ->
  exists d2, both A d x = Some d2 /\ p_cost d2 = act_a A (residual x) /\
    (forall j, (j < 4)%nat -> p_Lx d2 j = gradient A x j) /\
    (forall i j, (i < 4)%nat -> (j < 4)%nat ->
       let h := act_Arr A (residual x) in
       p_Lxx d2 i j = if Nat.eqb i j then
         match i with
         | 0%nat => (cos (x 0%nat) * cos (x 0%nat) - sin (x 0%nat) * sin (x 0%nat)) * h 0%nat
                    + (sin (x 0%nat) * sin (x 0%nat) + (1 - cos (x 0%nat)) * cos (x 0%nat)) * h 2%nat
         | 1%nat => (cos (x 1%nat) * cos (x 1%nat) - sin (x 1%nat) * sin (x 1%nat)) * h 1%nat
                    + (sin (x 1%nat) * sin (x 1%nat) + (1 - cos (x 1%nat)) * cos (x 1%nat)) * h 3%nat
         | 2%nat => h 4%nat
         | _ => h 5%nat
         end else 0).
Proof.
  intros Hn Hd. unfold both, p_calc, p_calcDiff. rewrite Hn. cbn [Nat.eqb p_r p_Rx p_Rxx p_cost].
  eexists. split; [reflexivity|]. cbn [p_cost p_Lx p_Lxx]. split; [reflexivity|].
  assert (Z1 : forall i j, in_block i j = false -> p_Rx d i j = 0) by (intros; now apply Hd).
  assert (Z2 : forall i j, in_block i j = false -> p_Rxx d i j = 0) by (intros; now apply Hd).
  split.
  - intros j Hj. destruct j as [|[|[|[|j]]]]; [| | | |lia]; unfold gradient, rsum; cbn [set_diag2 Nat.leb Nat.ltb andb Nat.add Nat.sub Nat.eqb];
      unfold set_diag2; cbn; rewrite ?Z1 by reflexivity; ring.
  - intros i j Hi Hj. destruct (Nat.eqb_spec i j) as [<-|_]; [|reflexivity].
    destruct i as [|[|[|[|i]]]]; [| | | |lia]; unfold rsum, set_diag2; cbn; rewrite ?Z2 by reflexivity; ring.
Qed.

Lemma dsin (f : R -> R) t a : is_derive f t a -> is_derive (fun s => sin (f s)) t (cos (f t) * a).
Proof. intro H. apply (dcomp sin f t (cos (f t)) a); [apply is_derive_Reals, derivable_pt_lim_sin|exact H]. Qed.
Lemma dcos (f : R -> R) t a : is_derive f t a -> is_derive (fun s => cos (f s)) t (- sin (f t) * a).
Proof. intro H. apply (dcomp cos f t (- sin (f t)) a); [apply is_derive_Reals, derivable_pt_lim_cos|exact H]. Qed.
Lemma residual_moves x dx t : moving x dx t -> forall i, (i < 6)%nat ->
  is_derive (fun s => residual (x s) i) t
    (match i with
     | 0%nat => cos (x t 0%nat) * dx 0%nat | 1%nat => cos (x t 1%nat) * dx 1%nat
     | 2%nat => sin (x t 0%nat) * dx 0%nat | 3%nat => sin (x t 1%nat) * dx 1%nat
     | 4%nat => dx 2%nat | _ => dx 3%nat end).
Proof.
  intros H i Hi. destruct i as [|[|[|[|[|[|i]]]]]]; [..|lia]; cbn [residual].
  - apply dsin, H. lia.
  - apply dsin, H. lia.
  - eapply deq; [apply dminus; [apply dconst|apply dcos, H; lia]|cbn; ring].
  - eapply deq; [apply dminus; [apply dconst|apply dcos, H; lia]|cbn; ring].
  - apply H. lia.
  - apply H. lia.
Qed.

(** After calc, and whatever was called before on the data, calcDiff writes the gradient of the cost
    that calc computes, for every activation with six residuals and a right gradient. *)
Theorem C114_gradient A l x dx t : act_nr A = 6%nat -> act_gradient A -> moving x dx t ->
  exists d2, both A (p_run A p_create l) (x t) = Some d2 /\
  forall cost, (forall s, exists d, p_calc A (p_run A p_create l) (x s) = Some d /\ p_cost d = cost s) ->
    p_cost d2 = cost t /\ is_derive cost t (rsum 4 (fun j => p_Lx d2 j * dx j)).
Proof.
  intros Hn HA Hx. destruct (both_values A (p_run A p_create l) (x t) Hn (run_clean A l)) as (d2 & E & C & G & _).
  exists d2. split; [exact E|]. intros cost Hc.
  assert (Ec : forall s, cost s = act_a A (residual (x s))).
  { intro s. destruct (Hc s) as (d & Ed & <-). unfold p_calc in Ed. rewrite Hn in Ed. cbn [Nat.eqb] in Ed.
    assert (F : d = PData (residual (x s)) (p_Rx (p_run A p_create l)) (act_a A (residual (x s))) (p_Lx (p_run A p_create l)) (p_Lxx (p_run A p_create l)) (p_Rxx (p_run A p_create l))) by congruence.
    now rewrite F. }
  split; [now rewrite Ec|]. apply (dext (fun s => act_a A (residual (x s)))); [intro s; now rewrite Ec|].
  eapply deq; [apply (HA (fun s => residual (x s)) _ t (residual_moves x dx t Hx))|].
  unfold rsum. rewrite !G by lia. unfold gradient. cbn. ring.
Qed.
Lemma wquad_gradient w : act_gradient (wquad w).
Proof.
  intros r dr t H. cbn [act_a act_Ar wquad].
  eapply deq.
  - apply dscal. apply (drsum 6 (fun i s => w i * (r s i * r s i)) t (fun i => w i * (dr i * r t i + r t i * dr i))).
    intros i Hi. apply dscal. apply dmult; now apply H.
  - rewrite <- rsum_scal. apply rsum_ext. intros i _. field.
Qed.
(** With a weighted quadratic activation the cost is the documented one and Lxx its exact Hessian. *)
Theorem C114_hessian_partial w l x dx t i : moving x dx t -> (i < 4)%nat ->
  exists d2, both (wquad w) (p_run (wquad w) p_create l) (x t) = Some d2 /\
  p_cost d2 = pendulum_cost w (x t) /\
  forall grad, (forall s, exists d, both (wquad w) (p_run (wquad w) p_create l) (x s) = Some d /\ p_Lx d i = grad s) ->
    is_derive grad t (rsum 4 (fun j => p_Lxx d2 i j * dx j)).
Proof.
  intros Hx Hi.
  assert (V : forall s, _) by exact (fun s => both_values (wquad w) (p_run (wquad w) p_create l) (x s) eq_refl (run_clean _ l)).
  destruct (V t) as (d2 & E & C & _ & Hh). exists d2. split; [exact E|]. split.
  - rewrite C. unfold pendulum_cost, wquad, rsum, residual. cbn [act_a]. cbn. ring.
  - intros grad Hg.
    assert (Eg : forall s, grad s = gradient (wquad w) (x s) i).
    { intro s. destruct (Hg s) as (d & Ed & <-). destruct (V s) as (d' & E' & _ & G & _).
      assert (F : d = d') by congruence. rewrite F. now apply G. }
    apply (dext (fun s => gradient (wquad w) (x s) i)); [intro s; now rewrite Eg|]. clear V E C Hg Eg.
    pose proof (dsin _ _ _ (Hx 0%nat ltac:(lia))) as S0. pose proof (dsin _ _ _ (Hx 1%nat ltac:(lia))) as S1.
    pose proof (dcos _ _ _ (Hx 0%nat ltac:(lia))) as C0. pose proof (dcos _ _ _ (Hx 1%nat ltac:(lia))) as C1.
    unfold rsum. rewrite !Hh by lia.
    destruct i as [|[|[|[|i]]]]; [| | | |lia]; unfold gradient; cbn [wquad act_Ar act_Arr residual Nat.eqb].
    + eapply deq; [apply dplus; [apply dmult; [exact C0|apply dscal; exact S0]|
        apply dmult; [exact S0|apply dscal; apply dminus; [apply dconst|exact C0]]]|]. cbn. ring.
    + eapply deq; [apply dplus; [apply dmult; [exact C1|apply dscal; exact S1]|
        apply dmult; [exact S1|apply dscal; apply dminus; [apply dconst|exact C1]]]|]. cbn. ring.
    + eapply deq; [apply dscal; apply Hx; lia|]. cbn. ring.
    + eapply deq; [apply dscal; apply Hx; lia|]. cbn. ring.
Qed.

(** With another activation Lxx is not the Hessian: for the sum of the fourth powers of the residuals,
    at the first angle pi/2. *)
Definition quartic : act :=
  Act 6 (fun r => rsum 6 (fun i => r i * r i * (r i * r i))) (fun r i => 4 * (r i * r i * r i)) (fun r i => 12 * (r i * r i)).
Lemma quartic_gradient : act_gradient quartic.
Proof.
  intros r dr t H. cbn [act_a act_Ar quartic].
  eapply deq.
  - apply (drsum 6 (fun i s => r s i * r s i * (r s i * r s i)) t
      (fun i => (dr i * r t i + r t i * dr i) * (r t i * r t i) + r t i * r t i * (dr i * r t i + r t i * dr i))).
    intros i Hi. apply (dmult (fun s => r s i * r s i) (fun s => r s i * r s i)); apply (dmult (fun s => r s i) (fun s => r s i)); now apply H.
  - apply rsum_ext. intros i _. ring.
Qed.
Theorem C114_hessian_refuted : exists A x dx t,
  act_nr A = 6%nat /\ act_gradient A /\ moving x dx t /\
  exists d2, both A p_create (x t) = Some d2 /\
  forall grad, (forall s, exists d, both A p_create (x s) = Some d /\ p_Lx d 0%nat = grad s) ->
    ~ is_derive grad t (rsum 4 (fun j => p_Lxx d2 0%nat j * dx j)).
Proof.
  set (x := fun (s : R) (j : nat) => if Nat.eqb j 0 then s else 0).
  assert (Hx : moving x (fun j => if Nat.eqb j 0 then 1 else 0) (PI / 2)).
  { intros j Hj. unfold x. destruct (Nat.eqb j 0); [apply did|apply dconst]. }
  exists quartic, x, (fun j => if Nat.eqb j 0 then 1 else 0), (PI / 2).
  split; [reflexivity|]. split; [apply quartic_gradient|]. split; [exact Hx|].
  assert (Hc : clean p_create) by (intros i j _; now split).
  destruct (both_values quartic p_create (x (PI / 2)) eq_refl Hc) as (d2 & E & _ & _ & Hh).
  exists d2. split; [exact E|]. intros grad Hg D.
  assert (Eg : forall s, grad s = gradient quartic (x s) 0%nat).
  { intro s. destruct (Hg s) as (d & Ed & <-). destruct (both_values quartic p_create (x s) eq_refl Hc) as (d' & E' & _ & G & _).
    assert (F : d = d') by congruence. rewrite F. apply G. lia. }
  assert (D2 : is_derive (fun s => cos s * (4 * (sin s * sin s * sin s)) + sin s * (4 * ((1 - cos s) * (1 - cos s) * (1 - cos s)))) (PI / 2)
                 (- (4) + 3 * 4)).
  { auto_derive; [exact I|]. rewrite sin_PI2, cos_PI2. ring. }
  pose proof (duniq _ _ _ _ D (dext _ _ _ _ (fun s => eq_sym (Eg s)) D2)) as F.
  unfold rsum in F. rewrite !Hh in F by lia. cbn in F. unfold x in F. cbn in F. rewrite sin_PI2, cos_PI2 in F. lra.
Qed.
(** Without an activation the first calc raises: the default has four residuals, not six. *)
Theorem C114_default_refuted d x : p_calc (p_init None) d x = None /\ p_calcDiff (p_init None) d x = None.
Proof. now split. Qed.

(** The actuated joint gets the control, the other one nothing, and commands gives it back. *)
Theorem C114_actuation link u :
  let d := a_calc (a_create link) u in
  (forall i, (i < 2)%nat -> a_tau d i = if Nat.eqb i (if link then 0 else 1) then u else 0) /\
  a_u (a_commands link d (a_tau d)) = u /\
  forall t, is_derive (fun u => a_tau (a_calc (a_create link) u) (if link then 0 else 1)%nat) t
              (a_dtau_du d (if link then 0 else 1)%nat).
Proof.
  cbv zeta. split; [|split].
  - intros i Hi. destruct link, i as [|[|i]]; cbn; try lia; ring.
  - destruct link; cbn; ring.
  - intro t. destruct link; cbn; (eapply deq; [apply dscal, did|ring]).
Qed.

Example moving_ex : moving (fun s j => INR j + s) (fun _ => 1) 0.
Proof. intros j _. eapply deq; [apply dplus; [apply dconst|apply did]|ring]. Qed.
Example hess_ex : exists d2, both (wquad (fun _ => 1)) p_create (fun j => if Nat.eqb j 0 then PI / 2 else 1) = Some d2 /\ p_Lxx d2 0%nat 0%nat = 0.
Proof.
  destruct (both_values (wquad (fun _ => 1)) p_create (fun j => if Nat.eqb j 0 then PI / 2 else 1) eq_refl) as (d2 & E & _ & _ & H);
    [intros i j _; now split|].
  exists d2. split; [exact E|]. rewrite H by lia. cbn. rewrite sin_PI2, cos_PI2. ring.
Qed.

Print Assumptions C114_gradient.
Print Assumptions C114_hessian_partial.
Print Assumptions C114_hessian_refuted.
Print Assumptions C114_default_refuted.
Print Assumptions C114_actuation.
