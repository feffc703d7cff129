(** C31-C33, C63: integrated action models on a Euclidean state. *)
From Coquelicot Require Import Coquelicot.
From Coq Require Import Reals List Arith Bool Lia Lra FunctionalExtensionality.
From Verif Require Import Deriv VecMat ControlParam_Model ControlParam_Spec ControlParam_Proofs Integrator_Model Integrator_Spec Integrator_Proofs IntegratorRK_Proofs IntegratorPsd_Proofs IntegratorStep_Proofs.
Import ListNotations.
Open Scope R_scope.

(** Steps a user can obtain: construction followed by any calls to set_dt. *)
Fixpoint step_after (h : R) (hs : list R) : tstep :=
  match hs with
  | [] => mk_step h
  | h' :: hs' => match set_dt h' (step_after h hs') with Some s => s | None => step_after h hs' end
  end.
Lemma step_after_good h hs : good_step (step_after h hs).
Proof.
  induction hs as [|a hs IH]; cbn [step_after]. { apply mk_step_good. }
  destruct (set_dt a (step_after h hs)) eqn:E; [exact (set_dt_good _ _ _ E)|exact IH].
Qed.

(** ** C31 *)
(** The time step is never negative; a non-negative request is honoured, a negative one at
    construction is replaced by 1e-3 and a later one is rejected without effect. *)
Theorem C31_step h hs :
  0 <= dt (step_after h hs) /\
  (forall s', (0 <= h -> dt (mk_step h) = h) /\ (h < 0 -> dt (mk_step h) = 1 / 1000) /\
    (h < 0 -> set_dt h s' = None) /\ (0 <= h -> exists s, set_dt h s' = Some s /\ dt s = h)).
Proof.
  split; [apply step_after_good|]. intro s'. unfold mk_step, set_dt. cbn [dt].
  destruct (Rlt_dec h 0); cbn [dt]; repeat split; try lra; eauto.
Qed.

(** Next state and cost of calc, whatever the data held before. *)
Theorem C31_map nv nw p dm h hs x u d : supported p ->
  let ts := step_after h hs in
  let w := control_of p nw 0 u in
  let o := e_act (euler_calc nv nw p dm ts x u d) in
  (forall i, (i < 2 * nv)%nat -> xnext o i = euler_next nv (dt ts) (acc dm x w) x i) /\
  cost o = dt ts * lcost dm x w /\ cons o = con dm x w.
Proof.
  intros Hs ts w o. destruct (step_after_good h hs) as [_ H2]. fold ts in H2.
  assert (Ew : cp_w (cp_calc p nw 0 u (e_cp d)) = w) by (extensionality k; now apply calc_control).
  unfold o, euler_calc. rewrite Ew. cbn [e_act xnext cost cons]. split; [|now split].
  intros i Hi. unfold euler_next. rewrite H2. destruct (i <? nv); ring.
Qed.

(** Derivatives: exact whenever those of the differential model are, for every previous content
    of the data, also when calcDiff runs on another data than calc. *)
Theorem C31_derivatives nv nw nc p dm h hs x u d d1 : supported p ->
  let ts := step_after h hs in
  let f := fun x u => e_act (euler_calc nv nw p dm ts x u d) in
  let o := e_act (euler_calcDiff nv nw p dm ts x u d1) in
  exact_at nv nw nc dm x (control_of p nw 0 u) ->
  deriv2 (2 * nv) (np p nw) (2 * nv) (fun x u => xnext (f x u)) x u (Fx o) (Fu o) /\
  deriv2 (2 * nv) (np p nw) 1 (fun x u _ => cost (f x u)) x u (fun _ => Lx o) (fun _ => Lu o) /\
  deriv2 (2 * nv) (np p nw) nc (fun x u => cons (f x u)) x u (Gx o) (Gu o).
Proof.
  intros Hs ts f o He.
  assert (Ew : cp_w (cp_calc p nw 0 u (e_cp d)) = control_of p nw 0 u) by (extensionality k; now apply calc_control).
  rewrite <- Ew in He.
  now apply (euler_derivs nv nw nc p dm ts (step_after_good h hs) x u d d1).
Qed.

(** ** C32 *)
(** Exact for RK2 and RK4.  Missing for RK3: only when the time step is zero or the acceleration
    does not depend on the configuration at the second stage (see C32_rk3_refuted). *)
Theorem C32_derivatives_partial nv nw nc p dm ts rk x u d :
  local_model nv nw dm ->
  let f := fun x u => r_act (rk_calc nv nw p dm ts rk x u d) in
  let d1 := rk_calc nv nw p dm ts rk x u d in
  let o := r_act (rk_calcDiff nv nw p dm ts rk d1) in
  (forall i, (i < rk_n rk)%nat -> exact_at nv nw nc dm (r_y d1 i) (r_w d1 i)) ->
  (rk <> three \/ dt ts = 0 \/
   forall r k, (r < nv)%nat -> (k < nv)%nat -> dFx dm (r_y d1 1%nat) (r_w d1 1%nat) r k = 0) ->
  deriv2 (2 * nv) (np p nw) (2 * nv) (fun x u => xnext (f x u)) x u (Fx o) (Fu o) /\
  deriv2 (2 * nv) (np p nw) 1 (fun x u _ => cost (f x u)) x u (fun _ => Lx o) (fun _ => Lu o) /\
  deriv2 (2 * nv) (np p nw) nc (fun x u => cons (f x u)) x u (Gx o) (Gu o).
Proof.
  intros Hl f d1 o He Hok. split; [|split]; intros cx cu s vx vu Ex Eu Dx Du i Hi.
  - now apply (rk_dnext nv nw nc p dm ts rk x u d Hl He cx cu s vx vu Ex Eu Dx Du (or_introl Hok)).
  - now apply (rk_dcost nv nw nc p dm ts rk x u d Hl He cx cu s vx vu Ex Eu Dx Du (or_introl Hok)).
  - now apply (rk_dcons nv nw nc p dm ts rk x u d He cx cu s vx vu Ex Eu Dx Du).
Qed.

(** The derivatives with respect to the control, and both derivatives of the constraints, are
    exact for all three schemes. *)
Theorem C32_control nv nw nc p dm ts rk x u d :
  local_model nv nw dm ->
  let f := fun x u => r_act (rk_calc nv nw p dm ts rk x u d) in
  let d1 := rk_calc nv nw p dm ts rk x u d in
  let o := r_act (rk_calcDiff nv nw p dm ts rk d1) in
  (forall i, (i < rk_n rk)%nat -> exact_at nv nw nc dm (r_y d1 i) (r_w d1 i)) ->
  jacobian_at (np p nw) (2 * nv) (fun u => xnext (f x u)) u (Fu o) /\
  jacobian_at (np p nw) 1 (fun u _ => cost (f x u)) u (fun _ => Lu o) /\
  deriv2 (2 * nv) (np p nw) nc (fun x u => cons (f x u)) x u (Gx o) (Gu o).
Proof.
  intros Hl f d1 o He. split; [|split].
  3:{ intros cx cu s vx vu Ex Eu Dx Du i Hi. now apply (rk_dcons nv nw nc p dm ts rk x u d He cx cu s vx vu Ex Eu Dx Du). }
  all: intros cu s vu Eu Du i Hi.
  - eapply deq; [apply (rk_dnext nv nw nc p dm ts rk x u d Hl He (fun _ => x) cu s (fun _ => 0) vu (fun _ _ => eq_refl) Eu
        (fun _ _ => dconst _ _) Du (or_intror (fun _ _ => eq_refl)) i Hi)|].
    rewrite rsum_0 by (intros; ring). fold d1. fold o. ring.
  - eapply deq; [apply (rk_dcost nv nw nc p dm ts rk x u d Hl He (fun _ => x) cu s (fun _ => 0) vu (fun _ _ => eq_refl) Eu
        (fun _ _ => dconst _ _) Du (or_intror (fun _ _ => eq_refl)))|].
    rewrite rsum_0 by (intros; ring). fold d1. fold o. ring.
Qed.

(** The spring q'' = k q with cost |q|^2/2 and no constraint: a smooth differential model. *)
Definition spring (k : R) : diffmodel :=
  DiffModel (fun x w _ => k * x 0%nat + w 0%nat) (fun x _ => / 2 * (x 0%nat * x 0%nat)) (fun _ _ _ => 0)
    (fun _ _ _ j => if Nat.eqb j 0 then k else 0) (fun _ _ _ j => if Nat.eqb j 0 then 1 else 0)
    (fun x _ j => if Nat.eqb j 0 then x 0%nat else 0) (fun _ _ _ => 0)
    (fun _ _ i j => if Nat.eqb i 0 && Nat.eqb j 0 then 1 else 0) (fun _ _ _ _ => 0) (fun _ _ _ _ => 0)
    (fun _ _ _ _ => 0) (fun _ _ _ _ => 0).
Lemma spring_exact k x w : exact_at 1 1 0 (spring k) x w.
Proof.
  split; [|split]; intros cx cw s vx vw Ex Ew Dx Dw i Hi; cbn [spring acc lcost con dFx dFu dLx dLu Nat.mul Nat.add rsum Nat.eqb]; [| |lia].
  - eapply deq; [apply dplus; [apply dscal, (Dx 0%nat); lia|apply (Dw 0%nat); lia]|]. ring.
  - eapply deq; [apply dscal, dmult; apply (Dx 0%nat); lia|]. cbv beta. rewrite (Ex 0%nat) by lia. field.
Qed.
Lemma spring_local k : local_model 1 1 (spring k).
Proof.
  intros x x' w w' Hx Hw. cbn [spring acc lcost]. rewrite (Hx 0%nat), (Hw 0%nat) by lia. now split.
Qed.

Definition zero_act : actdata :=
  ActData (fun _ => 0) 0 (fun _ => 0) (fun _ _ => 0) (fun _ _ => 0) (fun _ => 0) (fun _ => 0)
    (fun _ _ => 0) (fun _ _ => 0) (fun _ _ => 0) (fun _ _ => 0) (fun _ _ => 0).
Definition zero_rk (p : param) : rkdata := RKData zero_act (fun _ _ => 0) (fun _ _ => 0) (fun _ => cp_create p).

(** RK3: Fx is wrong on every example where the acceleration depends on the configuration.  Here
    q'' = q with dt = 1: the derivative of the next configuration with respect to the velocity
    is 7/6, the code gives 5/4. *)
Theorem C32_rk3_refuted :
  exists nv nw nc p dm ts rk x u d,
    local_model nv nw dm /\ (forall x w, exact_at nv nw nc dm x w) /\ supported p /\ ts = mk_step 1 /\
    let f := fun x u => r_act (rk_calc nv nw p dm ts rk x u d) in
    let o := r_act (rk_calcDiff nv nw p dm ts rk (rk_calc nv nw p dm ts rk x u d)) in
    Fx o 0%nat 1%nat = 5 / 4 /\
    is_derive (fun t => xnext (f (fun j => if Nat.eqb j 1 then t else 0) u) 0%nat) 0 (7 / 6) /\
    ~ deriv2 (2 * nv) (np p nw) (2 * nv) (fun x u => xnext (f x u)) x u (Fx o) (Fu o).
Proof.
  exists 1%nat, 1%nat, 0%nat, PolyZero, (spring 1), (mk_step 1), three, (fun _ => 0), (fun _ => 0), (zero_rk PolyZero).
  split; [apply spring_local|]. split; [intros; apply spring_exact|]. split; [discriminate|]. split; [reflexivity|].
  intros f o.
  assert (Ets : mk_step 1 = TStep 1 1).
  { unfold mk_step. cbn [dt]. destruct (Rlt_dec 1 0); [lra|]. f_equal. ring. }
  assert (EF : Fx o 0%nat 1%nat = 5 / 4).
  { unfold o. rewrite Ets. unfold rk_calcDiff, rk_calc.
    cbv beta iota zeta delta [r_act r_y r_w r_cp Fx plus_id dcombo dk_dx dkdx0 dkdx_of dy_of dt spring dFx Nat.ltb Nat.leb Nat.eqb Nat.add Nat.sub rsum rk_c]. field. }
  assert (ED : is_derive (fun t => xnext (f (fun j => if Nat.eqb j 1 then t else 0) (fun _ => 0)) 0%nat) 0 (7 / 6)).
  { apply (dext (fun t => 7 / 6 * t)).
    - intro t. unfold f. rewrite Ets. unfold rk_calc.
      cbv beta iota zeta delta [r_act xnext combo rk_k rk_k_of rk_y dt spring acc Nat.ltb Nat.leb Nat.eqb Nat.add Nat.sub rk_c].
      assert (EW : forall c q, cp_w (cp_calc PolyZero 1 c (fun _ => 0) q) 0%nat = 0).
      { intros c q. rewrite calc_control by discriminate. unfold control_of. cbn [nodes length nth rsum]. ring. }
      rewrite !EW. field.
    - eapply deq; [apply dscal, did|]. ring. }
  split; [exact EF|]. split; [exact ED|].
  intro H.
  specialize (H (fun t j => if Nat.eqb j 1 then t else 0) (fun _ _ => 0) 0 (fun j => if Nat.eqb j 1 then 1 else 0) (fun _ => 0)).
  assert (H' : is_derive (fun t => xnext (f (fun j => if Nat.eqb j 1 then t else 0) (fun _ => 0)) 0%nat) 0
     (rsum (2 * 1) (fun j => Fx o 0%nat j * (if Nat.eqb j 1 then 1 else 0)) + rsum (np PolyZero 1) (fun j => Fu o 0%nat j * 0))).
  { apply H; try lia; intros j Hj; cbn [Nat.eqb]; auto.
    - now destruct (Nat.eqb j 1).
    - destruct (Nat.eqb j 1); [apply did|apply dconst].
    - apply dconst. }
  pose proof (duniq _ _ _ _ ED H') as E. cbn [Nat.mul Nat.add rsum np Nat.eqb] in E. rewrite EF in E. lra.
Qed.

(** ** C33 *)
Definition field_of (nv : nat) (dm : diffmodel) (w : R -> vec) (c : R) (y : vec) : vec :=
  fun j => if j <? nv then y (nv + j)%nat else acc dm y (w c) (j - nv)%nat.

(** calc performs one step of the explicit Runge-Kutta method with the textbook tableau, for the
    state and for the cost, and that tableau satisfies the conditions of its order. *)
Theorem C33_scheme nv nw p dm ts rk x u d : supported p ->
  let o := r_act (rk_calc nv nw p dm ts rk x u d) in
  let w := fun c => control_of p nw c u in
  (forall j, xnext o j = erk_step (tab rk) (field_of nv dm w) (dt ts) x j) /\
  cost o = erk_cost (tab rk) (field_of nv dm w) (fun c y => lcost dm y (w c)) (dt ts) x /\
  order_conditions (tab rk) (order_of rk).
Proof.
  intros Hs o w. split; [|split].
  - intro j. exact (proj1 (rk_is_erk nv nw p dm ts rk x u d j Hs)).
  - exact (proj2 (rk_is_erk nv nw p dm ts rk x u d 0%nat Hs)).
  - unfold order_conditions, lsum, aapp. destruct rk;
      cbn [tab ta tb tc order_of map fold_right ldot lmul];
      (split; [repeat apply (f_equal2 (@Datatypes.cons R)); try reflexivity; field|]); repeat split; intros; try lia; field.
Qed.

(** Consequence on systems with a linear field: the step is the truncated exponential series. *)
Theorem C33_linear nv nw p dm ts rk x u d j : supported p ->
  (forall x w w', acc dm x w = acc dm x w') ->
  linear_map (field_of nv dm (fun _ _ => 0) 0) ->
  xnext (r_act (rk_calc nv nw p dm ts rk x u d)) j =
  taylor (field_of nv dm (fun _ _ => 0) 0) (dt ts) (order_of rk) x j.
Proof.
  intros Hs Hw HF. rewrite (proj1 (C33_scheme nv nw p dm ts rk x u d Hs) j).
  rewrite <- (erk_taylor rk) by assumption.
  apply (f_equal (fun g => g j)), erk_ext. intros c y _. unfold field_of. extensionality k.
  now rewrite (Hw y (control_of p nw c u) (fun _ => 0)).
Qed.

(** Constant accelerations are integrated exactly by all schemes. *)
Theorem C33_constant nv nw p dm ts rk x u d a : supported p ->
  (forall x w, acc dm x w = a) ->
  let o := r_act (rk_calc nv nw p dm ts rk x u d) in
  (forall i, (i < nv)%nat -> xnext o i = x i + dt ts * x (nv + i)%nat + dt ts * dt ts / 2 * a i) /\
  (forall i, (i < nv)%nat -> xnext o (nv + i)%nat = x (nv + i)%nat + dt ts * a i).
Proof.
  intros Hs Ha o. pose proof (proj1 (C33_scheme nv nw p dm ts rk x u d Hs)) as E.
  assert (EF : field_of nv dm (fun c => control_of p nw c u) = fun _ y j => if j <? nv then y (nv + j)%nat else a (j - nv)%nat).
  { extensionality c. extensionality y. unfold field_of. now rewrite Ha. }
  cbn zeta in E. rewrite EF in E.
  assert (L2 : forall i, (nv + i <? nv) = false) by (intro; apply Nat.ltb_ge; lia).
  split; intros i Hi; unfold o; rewrite E; unfold erk_step; destruct rk;
    cbn [tab ta tb tc erk_stages app wsum]; rewrite ?L2, ?(ltb_t i nv Hi); replace (nv + i - nv)%nat with i by lia; field.
Qed.

(** ** C63 *)
Theorem C63_euler_psd nv nw p dm h hs x u d : supported p ->
  let w := control_of p nw 0 u in
  let o := e_act (euler_calcDiff nv nw p dm (step_after h hs) x u d) in
  psd_blocks (2 * nv) nw (dLxx dm x w) (dLxu dm x w) (dLuu dm x w) ->
  psd_blocks (2 * nv) (np p nw) (Lxx o) (Lxu o) (Luu o).
Proof.
  intros Hs w o H a b.
  assert (Ew : cp_w (cp_calc p nw 0 u (e_cp d)) = w) by (extensionality k; now apply calc_control).
  unfold o. rewrite (euler_quad nv nw p dm (step_after h hs) x u d a b), Ew.
  apply Rmult_le_pos; [apply step_after_good|apply H].
Qed.

Theorem C63_rk_psd nv nw p dm h hs rk d :
  let ts := step_after h hs in
  let o := r_act (rk_calcDiff nv nw p dm ts rk d) in
  (forall i, (i < rk_n rk)%nat -> let y := r_y d i in let w := r_w d i in
     sym (2 * nv) (dLxx dm y w) /\ psd_blocks (2 * nv) nw (dLxx dm y w) (dLxu dm y w) (dLuu dm y w)) ->
  psd_blocks (2 * nv) (np p nw) (Lxx o) (Lxu o) (Luu o).
Proof.
  intros ts o H a b. unfold o. rewrite (rk_quad nv nw p dm ts rk d a b).
  apply (dcombo_nonneg nw p); [apply step_after_good|]. intros i Hi. destruct (H i Hi) as [Hs Hp].
  rewrite stage_quad by exact Hs. apply Hp.
Qed.

Theorem C63_rk_symmetric nv nw p dm ts rk d :
  let o := r_act (rk_calcDiff nv nw p dm ts rk d) in
  (forall i, (i < rk_n rk)%nat -> sym (2 * nv) (dLxx dm (r_y d i) (r_w d i)) /\ sym nw (dLuu dm (r_y d i) (r_w d i))) ->
  sym (2 * nv) (Lxx o) /\ sym (np p nw) (Luu o).
Proof.
  intros o H. unfold o, rk_calcDiff. cbn [r_act Lxx Luu]. split; intros a b Ha Hb; apply (dcombo_ext nw p); intros i Hi; destruct (H i Hi) as [H1 H2].
  - now apply ddx_sym.
  - now apply ddu_sym.
Qed.

(** ** Concrete cases *)
(** The spring is smooth, local, has PSD Hessians; RK4 gets the right derivatives. *)
Example rk4_spring_derivatives p x u d : supported p ->
  let ts := mk_step (1 / 10) in
  let f := fun x u => r_act (rk_calc 1 1 p (spring (-4)) ts four x u d) in
  let o := r_act (rk_calcDiff 1 1 p (spring (-4)) ts four (rk_calc 1 1 p (spring (-4)) ts four x u d)) in
  deriv2 2 (np p 1) 2 (fun x u => xnext (f x u)) x u (Fx o) (Fu o).
Proof.
  intros Hs ts f o.
  apply (C32_derivatives_partial 1 1 0 p (spring (-4)) ts four x u d (spring_local _)).
  - intros; apply spring_exact.
  - left; discriminate.
Qed.
Example rk3_double_integrator p x u d :
  let f := fun x u => r_act (rk_calc 1 1 p (spring 0) (mk_step 1) three x u d) in
  let o := r_act (rk_calcDiff 1 1 p (spring 0) (mk_step 1) three (rk_calc 1 1 p (spring 0) (mk_step 1) three x u d)) in
  deriv2 2 (np p 1) 2 (fun x u => xnext (f x u)) x u (Fx o) (Fu o).
Proof.
  apply (C32_derivatives_partial 1 1 0 p (spring 0) (mk_step 1) three x u d (spring_local _)).
  - intros; apply spring_exact.
  - right; right. intros. cbn [spring dFx]. now destruct (Nat.eqb k 0).
Qed.
Example euler_spring_derivatives x u d d1 :
  let f := fun x u => e_act (euler_calc 1 1 PolyOne (spring 3) (step_after (-1) [1 / 2; -3]) x u d) in
  let o := e_act (euler_calcDiff 1 1 PolyOne (spring 3) (step_after (-1) [1 / 2; -3]) x u d1) in
  deriv2 2 2 2 (fun x u => xnext (f x u)) x u (Fx o) (Fu o).
Proof.
  apply (C31_derivatives 1 1 0 PolyOne (spring 3) (-1) [1 / 2; -3] x u d d1); [discriminate|apply spring_exact].
Qed.
Example spring_psd k x w : sym 2 (dLxx (spring k) x w) /\ psd_blocks 2 1 (dLxx (spring k) x w) (dLxu (spring k) x w) (dLuu (spring k) x w).
Proof.
  split.
  - intros i j _ _. cbn [spring dLxx]. now rewrite andb_comm.
  - intros a b. unfold quad, dot, mulv. cbn [spring dLxx dLxu dLuu rsum Nat.eqb andb]. nra.
Qed.
Example free_spring_linear : linear_map (field_of 1 (DiffModel (fun x w _ => -4 * x 0%nat) (lcost (spring 0)) (con (spring 0))
   (dFx (spring 0)) (dFu (spring 0)) (dLx (spring 0)) (dLu (spring 0)) (dLxx (spring 0)) (dLxu (spring 0)) (dLuu (spring 0)) (dGx (spring 0)) (dGu (spring 0)))
   (fun _ _ => 0) 0).
Proof.
  intros x y c. extensionality i. unfold field_of. cbn [acc]. destruct (i <? 1); ring.
Qed.

Print Assumptions C31_step.
Print Assumptions C31_map.
Print Assumptions C31_derivatives.
Print Assumptions C32_derivatives_partial.
Print Assumptions C32_control.
Print Assumptions C32_rk3_refuted.
Print Assumptions C33_scheme.
Print Assumptions C33_linear.
Print Assumptions C33_constant.
Print Assumptions C63_euler_psd.
Print Assumptions C63_rk_psd.
Print Assumptions C63_rk_symmetric.
