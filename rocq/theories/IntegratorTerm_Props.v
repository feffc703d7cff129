(** C65: terminal evaluation of integrated actions. *)
From Coquelicot Require Import Coquelicot.
From Coq Require Import Reals List Arith Bool Lia Lra.
From Verif Require Import Deriv VecMat ControlParam_Model Integrator_Model Integrator_Spec IntegratorTerm_Model Integrator_Props.
Import ListNotations.
Open Scope R_scope.

(** ** Specification *)
(** [g] is the gradient of [f] at [x] along every curve. *)
Definition grad_at (n : nat) (f : vec -> R) (x g : vec) : Prop :=
  forall (c : R -> vec) (s : R) (v : vec), (forall j, (j < n)%nat -> c s j = x j) ->
    (forall j, (j < n)%nat -> is_derive (fun t => c t j) s (v j)) ->
    is_derive (fun t => f (c t)) s (rsum n (fun j => g j * v j)).
(** Every row of [J] is the gradient of a component. *)
Definition jac_at (n q : nat) (f : vec -> vec) (x : vec) (J : mat) : Prop :=
  forall i, (i < q)%nat -> grad_at n (fun x => f x i) x (J i).

(** The differential model differentiates its terminal outputs exactly at [x]. *)
Definition term_exact (n nc : nat) (tm : termmodel) (x : vec) : Prop :=
  grad_at n (t_cost tm) x (t_Lx tm x) /\
  jac_at n n (fun y => t_Lx tm y) x (t_Lxx tm x) /\
  jac_at n nc (t_con tm) x (t_Gx tm x).

(** The calls after which Fx holds the derivative of a step, not that of the terminal map. *)
Definition is_running_diff (c : icall) : bool := match c with ICalcDiff _ _ => true | _ => false end.

(** ** Euler *)
(** After any history, calc(x) and calcDiff(x) leave the state in place and report the cost of
    the differential model at [x], with its exact derivatives, and change nothing else. *)
Theorem C65_euler nv nw nc p dm tm ts x d0 hist :
  let d := euler_run nv nw p dm tm ts hist d0 in
  let o := e_act (euler_calcDiff_x tm x (euler_calc_x tm x d)) in
  (forall i, xnext o i = x i) /\ cost o = t_cost tm x /\ (forall i, cons o i = t_con tm x i) /\
  (grad_at (2 * nv) (t_cost tm) x (t_Lx tm x) -> grad_at (2 * nv) (fun y => cost (e_act (euler_calc_x tm y d))) x (Lx o)) /\
  (jac_at (2 * nv) (2 * nv) (t_Lx tm) x (t_Lxx tm x) ->
    jac_at (2 * nv) (2 * nv) (fun y => Lx (e_act (euler_calcDiff_x tm y d))) x (Lxx o)) /\
  (jac_at (2 * nv) nc (t_con tm) x (t_Gx tm x) -> jac_at (2 * nv) nc (fun y => cons (e_act (euler_calc_x tm y d))) x (Gx o)) /\
  Fu o = Fu (e_act d) /\ Lu o = Lu (e_act d) /\ Lxu o = Lxu (e_act d) /\ Luu o = Luu (e_act d) /\ Gu o = Gu (e_act d).
Proof. cbn. intros. do 3 (split; [easy|]). do 3 (split; [intro H; exact H|]). easy. Qed.

(** Fx is the derivative of x -> xnext if the data never ran calcDiff with a control. *)
Theorem C65_euler_Fx_partial nv nw p dm tm ts x d0 hist :
  new_matrices (e_act d0) -> existsb is_running_diff hist = false ->
  let d := euler_calc_x tm x (euler_run nv nw p dm tm ts hist d0) in
  jac_at (2 * nv) (2 * nv) (fun y => xnext (e_act (euler_calc_x tm y d))) x (Fx (e_act (euler_calcDiff_x tm x d))).
Proof.
  intros Hn Hh d.
  assert (Z : forall i j, i <> j -> Fx (e_act (euler_run nv nw p dm tm ts hist d0)) i j = 0).
  { assert (Z0 : forall i j, i <> j -> Fx (e_act d0) i j = 0) by (intros; apply Hn). clear Hn d.
    revert d0 Z0 Hh. unfold euler_run. induction hist as [|c hist IH]; cbn [fold_left existsb]; auto.
    intros d0 Z0 Hh. apply orb_false_iff in Hh. destruct Hh as [Hc Hh]. apply IH; auto.
    destruct c; cbn in *; auto; try discriminate. intros i j Hij. destruct (Nat.eqb_spec i j); [congruence|auto]. }
  intros i Hi c s v _ Hd. cbn [euler_calc_x e_act xnext euler_calcDiff_x Fx]. eapply deq; [apply (Hd i Hi)|].
  unfold d. cbn [euler_calc_x e_act Fx]. symmetry.
  rewrite (rsum_single (2 * nv) i); auto.
  - rewrite Nat.eqb_refl. ring.
  - intros j _ Hj. rewrite (proj2 (Nat.eqb_neq i j)), Z by auto. ring.
Qed.

(** After a calcDiff with a control, the off-diagonal blocks of the step survive. *)
Theorem C65_euler_Fx_refuted : exists nv nw p dm tm ts x d0 hist,
  new_matrices (e_act d0) /\ (forall x, exact_at nv nw 0 dm x (fun _ => 0)) /\ (forall x, term_exact (2 * nv) 0 tm x) /\
  let d := euler_calc_x tm x (euler_run nv nw p dm tm ts hist d0) in
  ~ jac_at (2 * nv) (2 * nv) (fun y => xnext (e_act (euler_calc_x tm y d))) x (Fx (e_act (euler_calcDiff_x tm x d))).
Proof.
  exists 1%nat, 1%nat, PolyZero, (spring 1),
    (TermModel (fun _ => 0) (fun _ _ => 0) (fun _ _ => 0) (fun _ _ _ => 0) (fun _ _ _ => 0)), (mk_step 1),
    (fun _ => 0), (EData zero_act (cp_create PolyZero) (fun _ => 0) (fun _ _ => 0) (fun _ _ => 0)),
    [ICalcDiff (fun _ => 0) (fun _ => 0)].
  split; [now split|]. split; [intros; apply spring_exact|]. split.
  { intro x. split; [|split]; [|intros i Hi|intros i Hi; lia]; intros c s v _ Hd; cbn [rsum Nat.mul Nat.add t_Lx t_Lxx t_cost]; (eapply deq; [apply dconst|]); ring. }
  intros d H. specialize (H 0%nat ltac:(lia) (fun t j => if Nat.eqb j 1 then t else 0) 0 (fun j => if Nat.eqb j 1 then 1 else 0)).
  assert (D : is_derive (fun t : R => (if Nat.eqb 0%nat 1 then t else 0)) 0
    (rsum (2 * 1) (fun j => Fx (e_act (euler_calcDiff_x (TermModel (fun _ => 0) (fun _ _ => 0) (fun _ _ => 0) (fun _ _ _ => 0) (fun _ _ _ => 0)) (fun _ => 0) d)) 0%nat j * (if Nat.eqb j 1 then 1 else 0)))).
  { refine (H _ _); intros j _; cbv beta; destruct (Nat.eqb j 1); auto; [apply did|apply dconst]. }
  pose proof (duniq _ _ _ _ D (dconst 0 0)) as E. revert E. unfold d, mk_step, euler_run.
  cbn -[Rlt_dec]. destruct (Rlt_dec 1 0); cbn; lra.
Qed.

(** ** Runge-Kutta *)
Theorem C65_rk nv nw nc p dm tm ts rk x d0 hist :
  let d := rk_run nv nw p dm tm ts rk hist d0 in
  let o := r_act (rk_calcDiff_x tm x (rk_calc_x tm x d)) in
  (forall i, xnext o i = x i) /\ cost o = t_cost tm x /\ (forall i, cons o i = t_con tm x i) /\
  (grad_at (2 * nv) (t_cost tm) x (t_Lx tm x) -> grad_at (2 * nv) (fun y => cost (r_act (rk_calc_x tm y d))) x (Lx o)) /\
  (jac_at (2 * nv) (2 * nv) (t_Lx tm) x (t_Lxx tm x) ->
    jac_at (2 * nv) (2 * nv) (fun y => Lx (r_act (rk_calcDiff_x tm y d))) x (Lxx o)) /\
  (jac_at (2 * nv) nc (t_con tm) x (t_Gx tm x) -> jac_at (2 * nv) nc (fun y => cons (r_act (rk_calc_x tm y d))) x (Gx o)) /\
  Fu o = Fu (r_act d) /\ Lu o = Lu (r_act d) /\ Lxu o = Lxu (r_act d) /\ Luu o = Luu (r_act d) /\ Gu o = Gu (r_act d).
Proof. cbn. intros. do 3 (split; [easy|]). do 3 (split; [intro H; exact H|]). easy. Qed.

(** Fx is never written: on a data used only for terminal evaluations it is the zero matrix,
    for every model of positive dimension. *)
Theorem C65_rk_Fx_refuted nv nw p dm tm ts rk x d0 hist : (0 < nv)%nat ->
  new_matrices (r_act d0) -> existsb is_running_diff hist = false ->
  let d := rk_calc_x tm x (rk_run nv nw p dm tm ts rk hist d0) in
  ~ jac_at (2 * nv) (2 * nv) (fun y => xnext (r_act (rk_calc_x tm y d))) x (Fx (r_act (rk_calcDiff_x tm x d))).
Proof.
  intros Hp Hn Hh d.
  assert (Z : forall i j, Fx (r_act (rk_run nv nw p dm tm ts rk hist d0)) i j = 0).
  { assert (Z0 : forall i j, Fx (r_act d0) i j = 0) by (intros; apply Hn). clear Hn d.
    revert d0 Z0 Hh. unfold rk_run. induction hist as [|c hist IH]; cbn [fold_left existsb]; auto.
    intros d0 Z0 Hh. apply orb_false_iff in Hh. destruct Hh as [Hc Hh]. apply IH; auto.
    destruct c; cbn in *; auto; discriminate. }
  intro H. specialize (H 0%nat ltac:(lia) (fun t j => x j + t) 0 (fun _ => 1)).
  assert (D : is_derive (fun t => x 0%nat + t) 0 (rsum (2 * nv) (fun j => Fx (r_act (rk_calcDiff_x tm x d)) 0%nat j * 1))).
  { refine (H _ _); intros j _; [cbv beta; ring|]. eapply deq; [apply dplus; [apply dconst|apply did]|ring]. }
  assert (D1 : is_derive (fun t => x 0%nat + t) 0 1).
  { eapply deq; [apply dplus; [apply dconst|apply did]|ring]. }
  pose proof (duniq _ _ _ _ D D1) as E.
  rewrite (rsum_ext _ _ (fun _ => 0)) in E.
  - rewrite rsum_0 in E; [lra|reflexivity].
  - intros j _. change (Fx (r_act (rk_run nv nw p dm tm ts rk hist d0)) 0%nat j * 1 = 0). rewrite Z. ring.
Qed.

(** The hypotheses are met: a quadratic terminal cost on a two-dimensional state. *)
Definition quad_term : termmodel :=
  TermModel (fun x => x 0%nat * x 0%nat + x 0%nat * x 1%nat) (fun x _ => x 1%nat)
    (fun x j => if Nat.eqb j 0 then 2 * x 0%nat + x 1%nat else x 0%nat)
    (fun _ i j => if Nat.eqb i 0 then (if Nat.eqb j 0 then 2 else 1) else (if Nat.eqb j 0 then 1 else 0))
    (fun _ _ j => if Nat.eqb j 1 then 1 else 0).
Example C65_example x : term_exact (2 * 1) 1 quad_term x.
Proof.
  split; [|split]; [|intros i Hi|intros i Hi]; intros c s v Ec Hd; pose proof (Hd 0%nat ltac:(lia)) as D0; pose proof (Hd 1%nat ltac:(lia)) as D1;
    cbn [quad_term t_cost t_Lx t_Lxx t_con t_Gx Nat.mul Nat.add rsum Nat.eqb].
  - rewrite <- (Ec 0%nat), <- (Ec 1%nat) by lia.
    eapply deq; [apply dplus; apply dmult; eassumption|]. cbv beta. ring.
  - destruct i as [|[|i]]; cbn [Nat.eqb]; [| |lia].
    + eapply deq; [apply dplus; [apply dscal|]; eassumption|]. ring.
    + eapply deq; [eassumption|]. ring.
  - eapply deq; [eassumption|]. ring.
Qed.

Print Assumptions C65_euler.
Print Assumptions C65_euler_Fx_partial.
Print Assumptions C65_euler_Fx_refuted.
Print Assumptions C65_rk.
Print Assumptions C65_rk_Fx_refuted.
