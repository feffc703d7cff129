(** C58: costs made of a residual and an activation. *)
From Coquelicot Require Import Coquelicot.
From Coq Require Import Reals List Arith Bool Lia Lra.
From Verif Require Import Deriv VecMat Integrator_Spec Residual_Model Residual_Proofs.
Import ListNotations.
Open Scope R_scope.

(** ** Specification *)
(** What the residual declares about its dependences is true: undeclared blocks of the Jacobians
    vanish.  The tangent vector is made of ndx - nv configuration coordinates and nv velocities. *)
Definition honest (m : rmodel) : Prop :=
  (q_dep m = false -> forall x u k i, (i < r_ndx m - r_nv m)%nat -> r_Rx m x u k i = 0) /\
  (v_dep m = false -> forall x u k i, (r_ndx m - r_nv m <= i < r_ndx m)%nat -> r_Rx m x u k i = 0) /\
  (u_dep m = false -> forall x u k j, r_Ru m x u k j = 0).
(** A residual of the configuration only lives on a state with as many configuration as velocity
    coordinates. *)
Definition balanced (m : rmodel) : Prop := q_dep m = true -> v_dep m = false -> Nat.even (r_ndx m) = true.

Definition composed (m : rmodel) (a : amodel) (x u : vec) : R := a_val a (r_val m x u).
(** J' h J with a diagonal h *)
Definition gn (n : nat) (J : mat) (h : vec) (K : mat) : mat := fun i j => rsum n (fun k => h k * J k i * K k j).

(** The activation's gradient is exact at r. *)
Definition act_exact (nr : nat) (a : amodel) (r : vec) : Prop :=
  forall (c : R -> vec) (s : R) (v : vec),
    (forall k, (k < nr)%nat -> c s k = r k) -> (forall k, (k < nr)%nat -> is_derive (fun t => c t k) s (v k)) ->
    is_derive (fun t => a_val a (c t)) s (rsum nr (fun k => a_grad a r k * v k)).

Lemma honest_sound m : honest m -> sound m.
Proof.
intros (A & B & C). split; [|exact C]. intros x u k i Hi. unfold dep_col, is_q. destruct (Nat.ltb_spec i (r_ndx m - r_nv m)).
- intro E. now apply A.
- intro E. apply B; [exact E|lia].
Qed.
Lemma balanced_even m : balanced m -> even_q m.
Proof.
intros H A B. specialize (H A B). apply Nat.even_spec in H. destruct H as [k Hk]. unfold r_nv. rewrite Hk. rewrite (Nat.mul_comm 2 k), Nat.div_mul by lia. lia.
Qed.

Section C58.
Variables (m : rmodel) (a : amodel) (cs : list ccall).
Hypothesis Hh : honest m.
Hypothesis Hb : balanced m.
Let d := c_run m a cs c_create.

Lemma inv_d : inv m d.
Proof. apply inv_run; [now apply honest_sound|now apply balanced_even|]. apply inv_create. Qed.

(** After any calls on this data, calc computes the activation of the residual ... *)
Theorem C58_cost x u : d_cost (c_calc m a x u d) = composed m a x u.
Proof. reflexivity. Qed.

(** ... and calcDiff the Gauss-Newton derivatives, with the complete Jacobians. *)
Theorem C58_gauss_newton_partial x u :
  let o := c_calcDiff m a x u (c_calc m a x u d) in
  let r := r_val m x u in let J := r_Rx m x u in let K := r_Ru m x u in let h := a_hess a r in
  d_cost o = composed m a x u /\
  (forall i, (i < r_ndx m)%nat -> d_Lx o i = rsum (r_nr m) (fun k => a_grad a r k * J k i)) /\
  (forall j, (j < r_nu m)%nat -> d_Lu o j = rsum (r_nr m) (fun k => a_grad a r k * K k j)) /\
  (forall i j, (i < r_ndx m)%nat -> (j < r_ndx m)%nat -> d_Lxx o i j = gn (r_nr m) J h J i j) /\
  (forall i j, (i < r_ndx m)%nat -> (j < r_nu m)%nat -> d_Lxu o i j = gn (r_nr m) J h K i j) /\
  (forall i j, (i < r_nu m)%nat -> (j < r_nu m)%nat -> d_Luu o i j = gn (r_nr m) K h K i j).
Proof.
intros o r J K h.
assert (I : inv m (c_calc m a x u d)) by (exact (inv_step m a (honest_sound m Hh) (balanced_even m Hb) d (CCalc x u) inv_d)).
destruct (diff_out m a (honest_sound m Hh) (balanced_even m Hb) true x u _ I) as (A & B & C & _ & D & _).
destruct (C eq_refl) as (C1 & C2 & C3). fold (c_calcDiff m a x u (c_calc m a x u d)) in A, B, C1, C2, C3, D. fold o in A, B, C1, C2, C3, D.
split; [exact D|]. split; [|split; [|split; [|split]]].
- intros i Hi. rewrite A by exact Hi. apply rsum_ext. intros k _. apply Rmult_comm.
- intros j Hj. rewrite C1 by exact Hj. apply rsum_ext. intros k _. apply Rmult_comm.
- intros i j Hi Hj. rewrite B by assumption. apply rsum_ext. intros k _. cbv beta. fold J h. change (d_r (c_calc m a x u d)) with r. fold h. ring.
- intros i j Hi Hj. rewrite C2 by assumption. apply rsum_ext. intros k _. change (d_r (c_calc m a x u d)) with r. fold h J K. ring.
- intros i j Hi Hj. rewrite C3 by assumption. apply rsum_ext. intros k _. change (d_r (c_calc m a x u d)) with r. fold h K. ring.
Qed.

(** The gradient is the derivative of the cost. *)
Theorem C58_gradient_partial x u :
  deriv2 (r_ndx m) (r_nu m) (r_nr m) (r_val m) x u (r_Rx m x u) (r_Ru m x u) -> act_exact (r_nr m) a (r_val m x u) ->
  (forall y y' v v', (forall i, (i < r_ndx m)%nat -> y i = y' i) -> (forall j, (j < r_nu m)%nat -> v j = v' j) ->
     forall k, (k < r_nr m)%nat -> r_val m y v k = r_val m y' v' k) ->
  let o := c_calcDiff m a x u (c_calc m a x u d) in
  deriv2 (r_ndx m) (r_nu m) 1 (fun y v _ => composed m a y v) x u (fun _ => d_Lx o) (fun _ => d_Lu o).
Proof.
intros DR DA Loc o cx cu s vx vu Ex Eu Dx Du i _.
destruct (C58_gauss_newton_partial x u) as (_ & GX & GU & _). fold o in GX, GU. unfold composed.
eapply deq.
- apply (DA (fun t => r_val m (cx t) (cu t)) s (fun k => rsum (r_ndx m) (fun j => r_Rx m x u k j * vx j) + rsum (r_nu m) (fun j => r_Ru m x u k j * vu j))).
  + intros k Hk. now apply Loc.
  + intros k Hk. now apply DR.
- rewrite (rsum_ext (r_nr m) _ (fun k => rsum (r_ndx m) (fun j => a_grad a (r_val m x u) k * r_Rx m x u k j * vx j)
      + rsum (r_nu m) (fun j => a_grad a (r_val m x u) k * r_Ru m x u k j * vu j))).
  2:{ intros k _. rewrite Rmult_plus_distr_l, <- !rsum_scal. f_equal; apply rsum_ext; intros; ring. }
  rewrite rsum_plus. f_equal; rewrite rsum_swap; apply rsum_ext; intros j Hj.
  + rewrite GX by exact Hj. rewrite Rmult_comm, <- rsum_scal. apply rsum_ext. intros; ring.
  + rewrite GU by exact Hj. rewrite Rmult_comm, <- rsum_scal. apply rsum_ext. intros; ring.
Qed.

(** Symmetric, and positive semidefinite when the activation is convex. *)
Theorem C58_psd_partial x u :
  let o := c_calcDiff m a x u (c_calc m a x u d) in
  (forall i j, (i < r_ndx m)%nat -> (j < r_ndx m)%nat -> d_Lxx o i j = d_Lxx o j i) /\
  (forall i j, (i < r_nu m)%nat -> (j < r_nu m)%nat -> d_Luu o i j = d_Luu o j i) /\
  ((forall k, (k < r_nr m)%nat -> 0 <= a_hess a (r_val m x u) k) ->
   forall v w, 0 <= rsum (r_ndx m) (fun i => v i * rsum (r_ndx m) (fun j => d_Lxx o i j * v j))
     + 2 * rsum (r_ndx m) (fun i => v i * rsum (r_nu m) (fun j => d_Lxu o i j * w j))
     + rsum (r_nu m) (fun i => w i * rsum (r_nu m) (fun j => d_Luu o i j * w j))).
Proof.
intro o. destruct (C58_gauss_newton_partial x u) as (_ & _ & _ & XX & XU & UU). fold o in XX, XU, UU.
assert (GS : forall n J h i j, gn n J h J i j = gn n J h J j i) by (intros; unfold gn; apply rsum_ext; intros; ring).
split; [intros i j Hi Hj; now rewrite !XX|]. split; [intros i j Hi Hj; now rewrite !UU|].
intros Hp v w. set (h := a_hess a (r_val m x u)) in *. set (J := r_Rx m x u) in *. set (K := r_Ru m x u) in *.
set (p := fun k => rsum (r_ndx m) (fun i => J k i * v i)). set (q := fun k => rsum (r_nu m) (fun i => K k i * w i)).
assert (Q : forall n n' (A B : mat) (y z : vec) (M : mat), (forall i j, (i < n)%nat -> (j < n')%nat -> M i j = gn (r_nr m) A h B i j) ->
  rsum n (fun i => y i * rsum n' (fun j => M i j * z j)) =
  rsum (r_nr m) (fun k => h k * rsum n (fun i => A k i * y i) * rsum n' (fun j => B k j * z j))).
{ intros n n' A B y z M HM.
  rewrite (rsum_ext n _ (fun i => rsum (r_nr m) (fun k => h k * (A k i * y i) * rsum n' (fun j => B k j * z j)))).
  - rewrite rsum_swap. apply rsum_ext. intros k _.
    rewrite (rsum_ext n _ (fun i => (h k * rsum n' (fun j => B k j * z j)) * (A k i * y i))) by (intros; ring).
    rewrite rsum_scal. ring.
  - intros i Hi. rewrite (rsum_ext n' _ (fun j => rsum (r_nr m) (fun k => h k * A k i * (B k j * z j)))).
    + rewrite rsum_swap, <- rsum_scal. apply rsum_ext. intros k _. rewrite rsum_scal. ring.
    + intros j Hj. rewrite HM by assumption. unfold gn. rewrite Rmult_comm, <- rsum_scal. apply rsum_ext. intros; ring. }
rewrite (Q _ _ J J v v (d_Lxx o) XX), (Q _ _ J K v w (d_Lxu o) XU), (Q _ _ K K w w (d_Luu o) UU).
rewrite <- rsum_scal, <- !rsum_plus. apply rsum_ge0. intros k Hk. fold (p k) (q k).
replace (h k * p k * p k + 2 * (h k * p k * q k) + h k * q k * q k) with (h k * ((p k + q k) * (p k + q k))) by ring.
apply Rmult_le_pos; [now apply Hp|]. apply Rle_0_sqr.
Qed.

(** Without a control, for a residual that depends on the state: the same with a zero control; the
    derivatives with respect to the control are not touched.  A residual of the control only
    contributes nothing. *)
Theorem C58_terminal_partial x :
  let o := c_calcDiffT m a x (c_calcT m a x d) in
  let r := r_val m x unone in let J := r_Rx m x unone in let h := a_hess a r in
  (q_dep m = true \/ v_dep m = true ->
    d_cost o = composed m a x unone /\
    (forall i, (i < r_ndx m)%nat -> d_Lx o i = rsum (r_nr m) (fun k => a_grad a r k * J k i)) /\
    (forall i j, (i < r_ndx m)%nat -> (j < r_ndx m)%nat -> d_Lxx o i j = gn (r_nr m) J h J i j)) /\
  (q_dep m = false -> v_dep m = false -> d_cost o = 0 /\ (forall i, d_Lx o i = 0) /\ forall i j, d_Lxx o i j = 0) /\
  d_Lu o = d_Lu d /\ d_Lxu o = d_Lxu d /\ d_Luu o = d_Luu d.
Proof.
intros o r J h.
assert (I : inv m (c_calcT m a x d)) by (exact (inv_step m a (honest_sound m Hh) (balanced_even m Hb) d (CCalcT x) inv_d)).
destruct (diff_out m a (honest_sound m Hh) (balanced_even m Hb) false x unone _ I) as (A & B & _ & C & D & _).
destruct (C eq_refl) as (C1 & C2 & C3). unfold o, c_calcDiffT.
destruct (negb (q_dep m) && negb (v_dep m)) eqn:E.
- assert (Eq : q_dep m = false /\ v_dep m = false) by (destruct (q_dep m), (v_dep m); now split). destruct Eq as [Eq Ev].
  split; [intros [H|H]; congruence|]. split.
  + intros _ _. unfold c_calcT. rewrite E. cbn [d_cost d_Lx d_Lxx set_cost]. now repeat split.
  + unfold c_calcT. rewrite E. now repeat split.
- assert (R0 : d_r (c_calcT m a x d) = r) by (unfold c_calcT; rewrite E; reflexivity).
  split; [|split].
  + intros _. split; [rewrite D; unfold c_calcT; rewrite E; reflexivity|]. split.
    * intros i Hi. rewrite A by exact Hi. rewrite R0. apply rsum_ext. intros k _. apply Rmult_comm.
    * intros i j Hi Hj. rewrite B by assumption. rewrite R0. apply rsum_ext. intros k _. fold h J. ring.
  + intros Hq Hv. rewrite Hq, Hv in E. discriminate.
  + rewrite C1, C2, C3. unfold c_calcT. rewrite E. now repeat split.
Qed.
End C58.

(** A state with an odd number of coordinates (StateVector accepts one): a residual of the
    configuration only is cut after nv columns. *)
Definition r1 : rmodel := RModel 1 1 1 true false false (fun x _ => x) (fun _ _ _ _ => 1) (fun _ _ _ _ => 0).
Definition quad_act : amodel := AModel (fun r => r 0%nat * r 0%nat / 2) (fun r => r) (fun _ _ => 1).
Theorem C58_odd_refuted : honest r1 /\
  deriv2 1 1 1 (r_val r1) (fun _ => 1) (fun _ => 0) (r_Rx r1 (fun _ => 1) (fun _ => 0)) (r_Ru r1 (fun _ => 1) (fun _ => 0)) /\
  d_Lx (c_calcDiff r1 quad_act (fun _ => 1) (fun _ => 0) (c_calc r1 quad_act (fun _ => 1) (fun _ => 0) c_create)) 0%nat = 0 /\
  rsum 1 (fun k => a_grad quad_act (r_val r1 (fun _ => 1) (fun _ => 0)) k * r_Rx r1 (fun _ => 1) (fun _ => 0) k 0%nat) = 1.
Proof.
split; [|split; [|split]].
- split; [discriminate|]. split; [intros _ x u k i Hi; unfold r_nv in Hi; cbn in Hi; lia|reflexivity].
- intros cx cu s vx vu _ _ Dx Du i Hi. assert (i = 0%nat) by lia. subst i. cbn [r_val r1 r_Rx r_Ru rsum].
  eapply deq; [exact (Dx 0%nat Nat.lt_0_1)|ring].
- reflexivity.
- cbn [rsum quad_act a_grad r_val r_Rx r1]. ring.
Qed.

(** A case that meets the hypotheses: a residual of velocity and control on a pendulum-like state,
    after a terminal evaluation of the same data. *)
Definition r2 : rmodel := RModel 2 1 1 false true true (fun x u _ => 3 * x 1%nat + u 0%nat)
  (fun _ _ _ i => if Nat.eqb i 1 then 3 else 0) (fun _ _ _ _ => 1).
Example C58_example : honest r2 /\ balanced r2 /\
  deriv2 2 1 1 (r_val r2) (fun _ => 1) (fun _ => 2) (r_Rx r2 (fun _ => 1) (fun _ => 2)) (r_Ru r2 (fun _ => 1) (fun _ => 2)) /\
  let d := c_run r2 quad_act [CCalcT (fun _ => 7); CDiffT (fun _ => 7)] c_create in
  let o := c_calcDiff r2 quad_act (fun _ => 1) (fun _ => 2) (c_calc r2 quad_act (fun _ => 1) (fun _ => 2) d) in
  d_Lx d 1%nat = 63 /\ d_Lx o 0%nat = 0 /\ d_Lx o 1%nat = 15 /\ d_Lu o 0%nat = 5 /\ d_Lxx o 1%nat 1%nat = 9 /\ d_Lxu o 1%nat 0%nat = 3.
Proof.
assert (H : honest r2).
{ split; [|split; [discriminate|discriminate]]. intros _ x u k i Hi. unfold r_nv in Hi. cbn in Hi. assert (i = 0%nat) by lia. subst i. reflexivity. }
assert (B : balanced r2) by discriminate.
split; [exact H|]. split; [exact B|]. split.
- intros cx cu s vx vu _ _ Dx Du i _. cbn [r_val r2 r_Rx r_Ru rsum Nat.eqb].
  eapply deq; [apply dplus; [apply dscal; exact (Dx 1%nat Nat.lt_1_2)|exact (Du 0%nat Nat.lt_0_1)]|ring].
- intros d o. destruct (C58_gauss_newton_partial r2 quad_act [CCalcT (fun _ => 7); CDiffT (fun _ => 7)] H B (fun _ => 1) (fun _ => 2)) as (_ & A1 & A2 & A3 & A4 & _).
  fold d in A1, A2, A3, A4. fold o in A1, A2, A3, A4. clearbody o.
  split; [|rewrite !A1, A2, A3, A4 by (cbn; lia); unfold gn; cbn [r_nr r2 rsum quad_act a_grad a_hess r_val r_Rx r_Ru Nat.eqb]; repeat split; lra].
  change (d_Lx d 1%nat) with (d_Lx (c_calcDiffT r2 quad_act (fun _ => 7) (c_calcT r2 quad_act (fun _ => 7) (c_run r2 quad_act [] c_create))) 1%nat).
  destruct (C58_terminal_partial r2 quad_act [] H B (fun _ => 7)) as (T & _). destruct (T (or_intror eq_refl)) as (_ & T1 & _).
  rewrite T1 by (cbn; lia). cbn [r_nr r2 rsum quad_act a_grad r_val r_Rx Nat.eqb]. unfold unone. lra.
Qed.

Print Assumptions C58_cost.
Print Assumptions C58_gauss_newton_partial.
Print Assumptions C58_gradient_partial.
Print Assumptions C58_psd_partial.
Print Assumptions C58_terminal_partial.
Print Assumptions C58_odd_refuted.
