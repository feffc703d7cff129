(** C55-C57, C70: thrusters, squashing, floating-base and full actuation, squashed actuation. *)
From Coquelicot Require Import Coquelicot.
From Coq Require Import Reals Lra Lia List Arith Bool.
From Verif Require Import Deriv VecMat Actuation_Model Actuation_Proofs.
Import ListNotations.
Open Scope R_scope.

(** ** C56: squashing *)
(** Whatever smoothness values were set before, the output lies within the control bounds. *)
Theorem C56_bounds lb ub l m s i : sq_run lb ub l = Some m -> lb i <= ub i -> lb i <= sq_calc m s i <= ub i.
Proof.
  intros H Hb. apply sq_run_inv in H. rewrite (sq_calc_eq _ _ _ _ _ _ H). pose proof (sq_a_nonneg _ _ _ _ i H) as Ha.
  pose proof (sqrt_shift_le (s_a m i) (s i - ub i) (ub i - lb i) Ha ltac:(lra)).
  pose proof (sqrt_shift_ge (s_a m i) (s i - ub i) (ub i - lb i) Ha ltac:(lra)). lra.
Qed.
(** It is non-decreasing in its argument, and component i depends on component i only. *)
Theorem C56_monotone lb ub l m s s' i : sq_run lb ub l = Some m -> lb i <= ub i ->
  (s i <= s' i -> sq_calc m s i <= sq_calc m s' i) /\ (s i = s' i -> sq_calc m s i = sq_calc m s' i).
Proof.
  intros H Hb. split; [|apply sq_calc_local]. intro Hs. apply sq_run_inv in H. rewrite !(sq_calc_eq _ _ _ _ _ _ H). pose proof (sq_a_nonneg _ _ _ _ i H) as Ha.
  pose proof (sqrt_incr (s_a m i) (s i - ub i) (s' i - ub i) (ub i - lb i) Ha ltac:(lra) ltac:(lra)). lra.
Qed.
(** set_smooth is refused exactly on negative values. *)
Theorem C56_accepts lb ub l : (exists m, sq_run lb ub l = Some m) <-> List.Forall (fun sm => 0 <= sm) l.
Proof.
  unfold sq_run. generalize (sq_create lb ub). induction l as [|s l IH]; intro m.
  - split; [constructor|]. intros _. now exists m.
  - unfold sq_steps. cbn [fold_left]. fold (sq_steps l (sq_set_smooth s m)).
    unfold sq_set_smooth. destruct (Rlt_dec s 0).
    + rewrite sq_steps_none. split; [intros [? H]; discriminate|]. intro H. inversion H. lra.
    + rewrite IH. split; [constructor; auto; lra|]. intro H. now inversion H.
Qed.
(** With a non-zero smoothness and distinct bounds calcDiff gives a number, which is the exact
    derivative along every curve.  Missing from the full statement: smoothness 0 and equal
    bounds, where it may be NaN (below). *)
Theorem C56_derivative_partial lb ub l m i : sq_run lb ub l = Some m -> last l (1 / 10) <> 0 -> lb i < ub i ->
  forall (cs : R -> vec) t (vs : vec), is_derive (fun t => cs t i) t (vs i) ->
  exists g, sq_calcDiff m (cs t) i = Some g /\ is_derive (fun t => sq_calc m (cs t) i) t (g * vs i).
Proof.
  intros H Hl Hb cs t vs Hv. apply sq_run_inv in H.
  assert (Ha : 0 < s_a m i).
  { destruct H as [_ [_ [_ H]]]. rewrite H. apply pow2_gt_0. intro E. apply Rmult_integral in E. lra. }
  pose proof (pow2_ge_0 (cs t i - lb i)). pose proof (pow2_ge_0 (cs t i - ub i)).
  destruct (sq_calcDiff_ok lb ub _ m (cs t) i H ltac:(lra) ltac:(lra)) as [g [E1 E2]].
  exists g. split; auto. now apply sq_curve.
Qed.
(** Away from the two bounds the derivative is exact for every accepted smoothness. *)
Theorem C56_derivative_away_partial lb ub l m i : sq_run lb ub l = Some m ->
  forall (cs : R -> vec) t (vs : vec), is_derive (fun t => cs t i) t (vs i) -> cs t i <> lb i -> cs t i <> ub i ->
  exists g, sq_calcDiff m (cs t) i = Some g /\ is_derive (fun t => sq_calc m (cs t) i) t (g * vs i).
Proof.
  intros H cs t vs Hv N1 N2. apply sq_run_inv in H. pose proof (sq_a_nonneg _ _ _ _ i H) as Ha.
  assert (P1 : 0 < (cs t i - lb i) ^ 2) by (apply pow2_gt_0; lra). assert (P2 : 0 < (cs t i - ub i) ^ 2) by (apply pow2_gt_0; lra).
  destruct (sq_calcDiff_ok lb ub _ m (cs t) i H ltac:(lra) ltac:(lra)) as [g [E1 E2]].
  exists g. split; auto. now apply sq_curve.
Qed.
(** With equal bounds (a fixed control) the squashing is constant, so its derivative is 0, and
    calcDiff gives NaN there. *)
Theorem C56_equal_bounds_refuted : exists lb ub m s, sq_run lb ub [] = Some m /\ lb 0%nat <= ub 0%nat /\
  (forall s', sq_calc m s' 0%nat = lb 0%nat) /\ sq_calcDiff m s 0%nat = None.
Proof.
  exists (fun _ => 1), (fun _ => 1). eexists. exists (fun _ => 1). split; [reflexivity|]. split; [lra|]. split.
  - intro s'. unfold sq_calc. cbn. unfold sq_d. field_simplify. lra.
  - unfold sq_calcDiff, inv_sqrt_times. cbn [s_a s_ulb sq_create]. unfold sq_d.
    destruct (Req_EM_T _ 0) as [|N]; auto. exfalso. apply N. ring.
Qed.
(** With the accepted smoothness 0 calcDiff gives NaN on a bound. *)
Theorem C56_smooth0_refuted : forall lb ub s i, s i = lb i \/ s i = ub i ->
  exists m, sq_run lb ub [0] = Some m /\ sq_calcDiff m s i = None.
Proof.
  intros lb ub s i H. unfold sq_run, sq_steps. cbn [fold_left]. unfold sq_set_smooth. destruct (Rlt_dec 0 0); [lra|].
  eexists. split; [reflexivity|]. unfold sq_calcDiff, inv_sqrt_times. cbn [s_a s_ulb s_uub sq_create]. unfold sq_d.
  destruct H as [H|H]; rewrite H.
  - destruct (Req_EM_T _ 0) as [|N]; auto. exfalso. apply N. ring.
  - destruct (Req_EM_T ((ub i - lb i) * 0 * ((ub i - lb i) * 0) + (ub i - lb i) ^ 2) 0); auto.
    destruct (Req_EM_T _ 0) as [|N]; auto. exfalso. apply N. ring.
Qed.

(** a concrete case: bounds -1 and 1, smoothness 3/4, s = 1 gives 1/2 with derivative 2/5 *)
Definition sq_ex : squash := Squash (fun _ => -1) (fun _ => 1) (fun _ => -1) (fun _ => 1) (3 / 4) (sq_d (fun _ => -1) (fun _ => 1) (3 / 4))
  (fun i => sq_d (fun _ => -1) (fun _ => 1) (3 / 4) i * sq_d (fun _ => -1) (fun _ => 1) (3 / 4) i).
Lemma sq_ex_run : sq_run (fun _ => -1) (fun _ => 1) [3 / 4] = Some sq_ex.
Proof. unfold sq_run, sq_steps. cbn [fold_left]. unfold sq_set_smooth. destruct (Rlt_dec (3 / 4) 0); [lra|]. reflexivity. Qed.
Example C56_case : sq_calc sq_ex (fun _ => 1) 0%nat = 1 / 2 /\ sq_calcDiff sq_ex (fun _ => 1) 0%nat = Some (2 / 5).
Proof.
  assert (E1 : sqrt (25 / 4) = 5 / 2) by (replace (25 / 4) with (5 / 2 * (5 / 2)) by field; apply sqrt_square; lra).
  assert (E2 : sqrt (9 / 4) = 3 / 2) by (replace (9 / 4) with (3 / 2 * (3 / 2)) by field; apply sqrt_square; lra).
  split.
  - unfold sq_calc. cbn [s_a s_ulb s_uub sq_ex]. unfold sq_d.
    replace ((1 - -1) ^ 2 + (1 - -1) * (3 / 4) * ((1 - -1) * (3 / 4))) with (25 / 4) by field.
    replace ((1 - 1) ^ 2 + (1 - -1) * (3 / 4) * ((1 - -1) * (3 / 4))) with (9 / 4) by field. rewrite E1, E2. field.
  - unfold sq_calcDiff, inv_sqrt_times. cbn [s_a s_ulb s_uub sq_ex]. unfold sq_d.
    replace ((1 - -1) * (3 / 4) * ((1 - -1) * (3 / 4)) + (1 - -1) ^ 2) with (25 / 4) by field.
    replace ((1 - -1) * (3 / 4) * ((1 - -1) * (3 / 4)) + (1 - 1) ^ 2) with (9 / 4) by field.
    destruct (Req_EM_T (25 / 4) 0); [lra|]. destruct (Req_EM_T (9 / 4) 0); [lra|]. rewrite E1, E2. f_equal. field.
Qed.

(** ** C57: floating-base and full actuation *)
(** After any calls on a data, a calc leaves no torque on the base, commands recovers the
    control, and the Jacobian maps the control to the torque; nu joints. *)
Theorem C57_floating_base nfb nu cs u : let d := fb_calc nfb u (fb_run nfb cs) in
  (forall i, (i < nfb)%nat -> t_tau d i = 0) /\
  (forall i, (i < nu)%nat -> t_tau d (nfb + i)%nat = u i) /\
  (forall i, (i < nfb + nu)%nat -> mulv nu (t_du d) u i = t_tau d i) /\
  (forall i, (i < nu)%nat -> t_u (fb_commands nfb (t_tau d) d) i = u i) /\
  (forall i, (i < nu)%nat -> mulv (nfb + nu) (t_M d) (t_tau d) i = u i).
Proof.
  cbv zeta. destruct (fb_run_inv nfb cs) as [H1 [H2 [H3 [H4 H5]]]].
  unfold fb_calc, fb_commands, with_tau, with_u. cbn [t_tau t_u t_du t_M].
  assert (Hlt : forall i, (i < nfb)%nat -> (i <? nfb)%nat = true) by (intros; now apply Nat.ltb_lt).
  assert (Hge : forall i, (nfb + i <? nfb)%nat = false) by (intros; apply Nat.ltb_ge; lia).
  split; [|split; [|split; [|split]]].
  - intros i Hi. rewrite Hlt by auto. auto.
  - intros i Hi. rewrite Hge. f_equal. lia.
  - intros i Hi. rewrite H2. unfold mulv, fb_create. cbn [t_du]. destruct (Nat.ltb_spec i nfb) as [L|L].
    + rewrite H1 by auto. apply rsum_0. intros j Hj. replace (i =? j + nfb)%nat with false by (symmetry; apply Nat.eqb_neq; lia). ring.
    + rewrite (rsum_ext nu _ (fun j => idm (i - nfb)%nat j * u j)).
      * apply rsum_id_l. lia.
      * intros j Hj. unfold idm. destruct (Nat.eqb_spec i (j + nfb)), (Nat.eqb_spec (i - nfb) j); try lia; reflexivity.
  - intros i Hi. rewrite Hge. f_equal. lia.
  - intros i Hi. rewrite H3. unfold mulv, fb_create. cbn [t_M].
    rewrite (rsum_ext (nfb + nu) _ (fun j => idm (nfb + i)%nat j * (if (j <? nfb)%nat then t_tau (fb_run nfb cs) j else u (j - nfb)%nat))).
    + rewrite rsum_id_l by lia. rewrite Hge. f_equal. lia.
    + intros j Hj. unfold idm. destruct (Nat.eqb_spec j (i + nfb)), (Nat.eqb_spec (nfb + i) j); try lia; reflexivity.
Qed.
(** The torque transform inverts the Jacobian, and the coordinates marked as not set are
    exactly those no control can move. *)
Theorem C57_floating_base_sets nfb nu cs : let d := fb_run nfb cs in
  (forall i j, (i < nu)%nat -> (j < nu)%nat -> mulm (nfb + nu) (t_M d) (t_du d) i j = idm i j) /\
  (forall i, (i < nfb + nu)%nat -> (t_set d i = false <-> forall u, t_tau (fb_calc nfb u d) i = 0)) /\
  (forall i j, t_dx d i j = 0).
Proof.
  cbv zeta. destruct (fb_run_inv nfb cs) as [H1 [H2 [H3 [H4 H5]]]]. split; [|split].
  - intros i j Hi Hj. rewrite H2, H3. unfold mulm, fb_create. cbn [t_M t_du].
    rewrite (rsum_ext (nfb + nu) _ (fun k => idm (nfb + i)%nat k * (if (k =? j + nfb)%nat then 1 else 0))).
    + rewrite rsum_id_l by lia. unfold idm. destruct (Nat.eqb_spec (nfb + i) (j + nfb)), (Nat.eqb_spec i j); auto; lia.
    + intros k Hk. unfold idm. destruct (Nat.eqb_spec k (i + nfb)), (Nat.eqb_spec (nfb + i) k); try lia; reflexivity.
  - intros i Hi. rewrite H4. unfold fb_create. cbn [t_set fb_calc with_tau t_tau]. destruct (Nat.ltb_spec i nfb).
    + split; auto.
    + split; [discriminate|]. intro H'. specialize (H' (fun _ => 1)). cbv beta in H'. lra.
  - intros. rewrite H5. reflexivity.
Qed.
(** Full actuation: tau = u, both maps the identity, every coordinate set. *)
Theorem C57_full nu cs u : let d := full_calc u (full_run cs) in
  (forall i, (i < nu)%nat -> t_tau d i = u i /\ mulv nu (t_du d) u i = t_tau d i /\ t_u (full_commands (t_tau d) d) i = u i /\
     mulv nu (t_M d) (t_tau d) i = u i /\ t_set d i = true) /\
  (forall i j, (i < nu)%nat -> (j < nu)%nat -> mulm nu (t_M d) (t_du d) i j = idm i j).
Proof.
  cbv zeta. destruct (full_run_inv cs) as [H1 [H2 [H3 H4]]]. cbn. rewrite H1, H2. split.
  - intros i Hi. repeat split; auto; unfold mulv; apply rsum_id_l; auto.
  - intros i j Hi Hj. unfold mulm. apply (rsum_id_l nu i (fun k => idm k j)). auto.
Qed.
(** The torques in a data are those of the last calc and the commands those of the last commands call,
    whatever was called in between; zero before the first one. *)
Fixpoint last_calc (cs : list fbcall) : vec :=
  match cs with [] => fun _ => 0 | FbCalc u :: _ => u | _ :: cs => last_calc cs end.
Fixpoint last_commands (cs : list fbcall) : vec :=
  match cs with [] => fun _ => 0 | FbCommands t :: _ => t | _ :: cs => last_commands cs end.
Theorem C57_last nfb cs : 
  (forall i, t_tau (full_run cs) i = last_calc (rev cs) i /\ t_u (full_run cs) i = last_commands (rev cs) i) /\
  (forall i, t_tau (fb_run nfb cs) (nfb + i)%nat = last_calc (rev cs) i /\ t_u (fb_run nfb cs) i = last_commands (rev cs) (nfb + i)%nat).
Proof.
  induction cs as [|c cs IH] using rev_ind; [repeat split|]. destruct IH as [I1 I2].
  unfold full_run, fb_run in *. rewrite !fold_left_app, !rev_app_distr. cbn [fold_left rev app].
  split; intro i; destruct (I1 i) as [A B], (I2 i) as [C D]; destruct c; cbn; auto.
  split; auto. fold (nfb + i <? nfb)%nat. change (match nfb with O => false | S m => (nfb + i <=? m)%nat end) with (nfb + i <? nfb)%nat.
  rewrite (proj2 (Nat.ltb_ge (nfb + i) nfb)) by lia. f_equal; lia.
Qed.
Example C57_case : let d := fb_calc 6 (fun i => INR i) (fb_run 6 [FbCalc (fun _ => 5); FbCommands (fun _ => 7)]) in
  t_tau d 5%nat = 0 /\ t_tau d 8%nat = 2 /\ t_set d 5%nat = false /\ t_set d 6%nat = true.
Proof. cbn. repeat split; lra. Qed.

(** ** C70: squashed actuation *)
(** The inner actuation's Jacobian with respect to the control is exact at (x, u). *)
Definition exact_du (nv nu : nat) (am : amap) (x u : vec) : Prop :=
  forall (cu : R -> vec) t (vu : vec), (forall i, (i < nu)%nat -> cu t i = u i) -> (forall i, (i < nu)%nat -> is_derive (fun t => cu t i) t (vu i)) ->
  forall r, (r < nv)%nat -> is_derive (fun t => am_tau am x (cu t) r) t (mulv nu (am_du am x u) vu r).
(** tau and the actuated set are those of the inner actuation at the squashed control, which is
    within its bounds; after calcDiff, dtau_du is the exact derivative of tau through the
    squashing.  Missing: dtau_dx, and commands (below). *)
Theorem C70_control_partial nv nu am lb ub l m x (cu : R -> vec) t (vu : vec) d :
  sq_run lb ub l = Some m -> last l (1 / 10) <> 0 -> (forall i, (i < nu)%nat -> lb i < ub i) ->
  exact_du nv nu am x (sq_calc m (cu t)) -> (forall i, (i < nu)%nat -> is_derive (fun t => cu t i) t (vu i)) ->
  let tau t := t_tau (q_out (sa_calc am m x (cu t) d)) in
  exists d', sa_calcDiff nu am m x (cu t) (sa_calc am m x (cu t) d) = Some d' /\
    (forall r, t_tau (q_out d') r = tau t r) /\ (forall i, t_set (q_out d') i = am_set am i) /\
    (exists w, (forall i, (i < nu)%nat -> lb i <= w i <= ub i) /\ forall r, tau t r = am_tau am x w r) /\
    (forall r, (r < nv)%nat -> is_derive (fun t => tau t r) t (mulv nu (t_du (q_out d')) vu r)).
Proof.
  intros H Hl Hb Hex Hcu tau.
  assert (Hg : forall i, (i < nu)%nat -> exists g, sq_calcDiff m (cu t) i = Some g /\ is_derive (fun t => sq_calc m (cu t) i) t (g * vu i)).
  { intros i Hi. apply (C56_derivative_partial lb ub l m i H Hl (Hb i Hi) cu t vu). auto. }
  assert (Hall : all_some nu (sq_calcDiff m (cu t)) = true).
  { apply all_some_spec. intros i Hi. destruct (Hg i Hi) as [g [E _]]. eauto. }
  unfold sa_calcDiff. rewrite Hall. eexists. split; [reflexivity|]. cbn [q_out t_tau t_set t_du sa_calc].
  split; [reflexivity|]. split; [reflexivity|]. split.
  { exists (sq_calc m (cu t)). split; [|reflexivity]. intros i Hi. apply (C56_bounds lb ub l); auto. specialize (Hb i Hi). lra. }
  intros r Hr. unfold tau. cbn [q_out t_tau sa_calc].
  eapply deq.
  - apply (Hex (fun t => sq_calc m (cu t)) t (fun i => valopt (sq_calcDiff m (cu t) i) * vu i)); auto.
    intros i Hi. destruct (Hg i Hi) as [g [E1 E2]]. rewrite E1. exact E2.
  - unfold mulv. apply rsum_ext. intros i Hi. cbn [q_squ q_in t_du sa_calc]. cbv beta. ring.
Qed.
(** The derivative of tau with respect to the state, exact in the inner actuation, is not
    passed on: dtau_dx keeps whatever it held (zero in a new data). *)
Theorem C70_state_refuted : exists am m (x u : vec), sq_run (fun _ => -1) (fun _ => 1) [3 / 4] = Some m /\
  (forall (cx : R -> vec) t (vx : vec), is_derive (fun t => cx t 0%nat) t (vx 0%nat) ->
     is_derive (fun t => am_tau am (cx t) u 0%nat) t (mulv 1 (am_dx am (cx t) u) vx 0%nat)) /\
  exists d, sa_calcDiff 1 am m x u (sa_calc am m x u sa_create) = Some d /\
    t_dx (q_out d) 0%nat 0%nat = 0 /\
    is_derive (fun t => t_tau (q_out (sa_calc am m (fun i => x i + t) u sa_create)) 0%nat) 0 1.
Proof.
  exists (AMap (fun x u i => x i + u i) (fun _ _ => idm) (fun _ _ => idm) (fun _ => true)), sq_ex, (fun _ => 0), (fun _ => 1).
  split; [exact sq_ex_run|]. split.
  - intros cx t vx H. cbn [am_tau am_dx]. eapply deq; [apply dplus; [exact H|apply dconst]|]. unfold mulv. cbn. unfold idm. cbn. ring.
  - unfold sa_calcDiff.
    assert (Hall : all_some 1 (sq_calcDiff sq_ex (fun _ => 1)) = true).
    { apply all_some_spec. intros i Hi. replace i with 0%nat by lia. exists (2 / 5). apply C56_case. }
    rewrite Hall. eexists. split; [reflexivity|]. split; [reflexivity|].
    cbn [q_out t_tau sa_calc am_tau]. eapply deq; [apply dplus; [apply dplus; [apply dconst|apply did]|apply dconst]|]. ring.
Qed.
(** commands is refused for every torque as soon as the actuation is not square. *)
Theorem C70_commands_refuted : forall nx nv nu am m pinv szx sztau x tau d, nv <> nu ->
  sa_commands nx nv nu am m pinv szx sztau x tau d = None.
Proof.
  intros. unfold sa_commands. destruct (Nat.eqb_spec sztau nv) as [->|]; cbn [negb]; auto.
  destruct (szx =? nx)%nat; cbn [negb]; auto. destruct (Nat.eqb_spec nv nu); cbn [negb]; auto. contradiction.
Qed.
(** Where it is square, commands does not recover the control from its torque: the squashing is
    linearised at the torque instead of being inverted. *)
Definition am_full : amap := AMap (fun _ u => u) (fun _ _ _ _ => 0) (fun _ _ => idm) (fun _ => true).
Theorem C70_inverse_refuted : forall nx pinv, (forall A, A 0%nat 0%nat <> 0 -> pinv A 0%nat 0%nat = / A 0%nat 0%nat) ->
  exists m x u, sq_run (fun _ => -1) (fun _ => 1) [3 / 4] = Some m /\
    forall d', sa_commands nx 1 1 am_full m pinv nx 1 x (t_tau (q_out (sa_calc am_full m x u sa_create))) sa_create = Some d' ->
    t_u (q_out d') 0%nat <> u 0%nat.
Proof.
  intros nx pinv Hp. exists sq_ex, (fun _ => 0), (fun _ => 6). split; [exact sq_ex_run|].
  intros d'. unfold sa_commands. rewrite !Nat.eqb_refl. cbn [negb Nat.eqb].
  set (tau := t_tau (q_out (sa_calc am_full sq_ex (fun _ => 0) (fun _ => 6) sa_create))).
  assert (Hb : -1 <= tau 0%nat <= 1) by (apply (C56_bounds (fun _ => -1) (fun _ => 1) [3 / 4] sq_ex (fun _ => 6) 0%nat sq_ex_run); lra).
  assert (H0 : 0 <= tau 0%nat).
  { pose proof (C56_monotone (fun _ => -1) (fun _ => 1) [3 / 4] sq_ex (fun _ => 1) (fun _ => 6) 0%nat sq_ex_run ltac:(lra)) as [M _].
    specialize (M ltac:(lra)). pose proof (proj1 C56_case) as E. rewrite E in M. unfold tau. cbn [sa_calc q_out t_tau am_full am_tau]. lra. }
  clearbody tau. unfold sa_calcDiff. cbn [all_some andb]. destruct (sq_calcDiff sq_ex tau 0) as [D|] eqn:ED; [|discriminate].
  cbn [andb]. intros [= <-]. cbn [q_out t_u t_du q_in am_full am_du].
  assert (HD : 1 / 5 <= D).
  { revert ED. unfold sq_calcDiff, inv_sqrt_times. cbn [s_a s_ulb s_uub sq_ex]. unfold sq_d.
    replace ((1 - -1) * (3 / 4) * ((1 - -1) * (3 / 4))) with (9 / 4) by field.
    set (z := tau 0%nat) in *. clearbody z.
    destruct (Req_EM_T (9 / 4 + (z - -1) ^ 2) 0); [discriminate|]. destruct (Req_EM_T (9 / 4 + (z - 1) ^ 2) 0); [discriminate|].
    intro ED. apply (f_equal valopt) in ED. cbn [valopt] in ED. rewrite <- ED. clear ED.
    assert (S1 : 0 < sqrt (9 / 4 + (z - -1) ^ 2)) by (apply sqrt_lt_R0; pose proof (pow2_ge_0 (z - -1)); lra).
    assert (S2 : 0 < sqrt (9 / 4 + (z - 1) ^ 2)) by (apply sqrt_lt_R0; pose proof (pow2_ge_0 (z - 1)); lra).
    assert (E1 : sqrt (9 / 4 + (z - -1) ^ 2) <= 5 / 2).
    { replace (5 / 2) with (sqrt (5 / 2 * (5 / 2))) by (apply sqrt_square; lra). apply sqrt_le_1_alt. nra. }
    assert (P1 : 2 / 5 <= / sqrt (9 / 4 + (z - -1) ^ 2)).
    { replace (2 / 5) with (/ (5 / 2)) by field. apply Rinv_le_contravar; auto. }
    pose proof (Rinv_0_lt_compat _ S2) as P2.
    set (A := / sqrt (9 / 4 + (z - -1) ^ 2)) in *. set (B := / sqrt (9 / 4 + (z - 1) ^ 2)) in *. clearbody A B.
    assert (2 / 5 * 1 <= A * (z - -1)) by (apply Rmult_le_compat; lra).
    assert (0 <= B * (1 - z)) by (apply Rmult_le_pos; lra).
    replace (B * (z - 1)) with (- (B * (1 - z))) by ring. lra. }
  unfold mulv. cbn [rsum]. rewrite Hp.
  - cbv beta. unfold idm. cbn [Nat.eqb]. cbn [valopt]. intro E.
    assert (E' : tau 0%nat = (0 + / (1 * D) * tau 0%nat) * D) by (field; lra). rewrite ED in E. cbn [valopt] in E. rewrite E in E'.
    lra.
  - cbv beta. unfold idm. cbn [Nat.eqb]. rewrite ED. cbn [valopt]. lra.
Qed.
(** the hypotheses of C70_control_partial at full actuation *)
Example C70_case : exact_du 1 1 am_full (fun _ => 0) (sq_calc sq_ex (fun _ => 1)) /\
  exists d', sa_calcDiff 1 am_full sq_ex (fun _ => 0) (fun _ => 1) (sa_calc am_full sq_ex (fun _ => 0) (fun _ => 1) sa_create) = Some d' /\
    t_tau (q_out d') 0%nat = 1 / 2 /\ t_du (q_out d') 0%nat 0%nat = 2 / 5.
Proof.
  split.
  - intros cu t vu _ H r Hr. cbn [am_full am_tau am_du]. replace r with 0%nat by lia. eapply deq; [apply H; lia|]. unfold mulv. cbn. unfold idm. cbn. ring.
  - unfold sa_calcDiff. cbn [all_some]. rewrite (proj2 C56_case). cbn [andb]. eexists. split; [reflexivity|].
    cbn [q_out t_tau t_du sa_calc am_full am_tau am_du q_in]. split; [apply C56_case|]. rewrite (proj2 C56_case). cbn [valopt]. unfold idm. cbn. ring.
Qed.

(** ** C55: thrusters *)
(** Specification: column c of the map is the wrench of thruster c per unit of thrust, the other
    columns are the joint torques.  The moment of a force, component by component. *)
Definition moment (p f : vec) (i : nat) : R :=
  let j := ((i + 1) mod 3)%nat in let k := ((i + 2) mod 3)%nat in p j * f k - p k * f j.
Definition thr_matrix (nj n : nat) (ps : list thruster) : mat := fun r c =>
  match nth_error ps c with
  | Some p => if (r <? 3)%nat then th_fz p r
      else if (r <? 6)%nat then moment (th_p p) (th_fz p) (r - 3)%nat + (if th_cw p then 1 else -1) * th_c p * th_fz p (r - 3)%nat
      else 0
  | None => if (r =? 6 + (c - n))%nat then 1 else 0
  end.
Definition no_set (c : thcall) : Prop := match c with TSet _ => False | _ => True end.
Definition no_create (c : thcall) : Prop := match c with TCreate => False | _ => True end.

Lemma moment_cross p f i : (i < 3)%nat -> cross p f i = moment p f i.
Proof. intro H. assert (i = 0 \/ i = 1 \/ i = 2)%nat as [-> | [-> | ->]] by lia; reflexivity. Qed.
Lemma W0_thr nj ps r c : (r < 6 + nj)%nat -> (c < length ps + nj)%nat -> add_thrusters 0 ps (th_W0 (length ps)) r c = thr_matrix nj (length ps) ps r c.
Proof.
  intros Hr Hc. unfold thr_matrix. destruct (nth_error ps c) as [p|] eqn:E.
  - assert (L : (c < length ps)%nat) by (apply nth_error_Some; congruence).
    rewrite (add_thrusters_nth ps 0 _ r c p E). cbn [Nat.add]. unfold add_thruster, th_W0. rewrite Nat.eqb_refl.
    replace (length ps <=? c)%nat with false by (symmetry; apply Nat.leb_gt; lia). rewrite andb_false_r. cbn [andb].
    destruct (r <? 3)%nat eqn:E3; [ring|]. destruct (r <? 6)%nat eqn:E6; auto.
    apply Nat.ltb_ge in E3. apply Nat.ltb_lt in E6.
    rewrite moment_cross by lia. destruct (th_cw p); ring.
  - apply nth_error_None in E. rewrite add_thrusters_beyond by lia. unfold th_W0.
    replace (length ps <=? c)%nat with true by (symmetry; apply Nat.leb_le; lia). rewrite andb_true_r.
    destruct (Nat.leb_spec 6 r); cbn [andb]; destruct (Nat.eqb_spec r (6 + (c - length ps))); try lia; auto.
    + replace (r - 6 =? c - length ps)%nat with true by (symmetry; apply Nat.eqb_eq; lia). auto.
    + replace (r - 6 =? c - length ps)%nat with false by (symmetry; apply Nat.eqb_neq; lia). auto.
Qed.
(** the invariant of histories without set_thrusters *)
Definition th_inv (pinv : mat -> mat) (W : mat) (w : thworld) : Prop :=
  m_W (w_model w) = W /\ m_Mtau (w_model w) = pinv W /\ List.Forall (fun d => td_du d = W /\ td_M d = pinv W) (w_datas w).
Lemma upd_Forall {A} (P : A -> Prop) k a l : P a -> List.Forall P l -> List.Forall P (upd k a l).
Proof.
  intros Pa H. revert k. induction H as [|b l Pb Hl IH]; intro k; destruct k; cbn; constructor; auto.
Qed.
Lemma th_inv_step nj n pinv W w c w' : th_inv pinv W w -> no_set c -> th_step nj n pinv w c = Some w' -> th_inv pinv W w'.
Proof.
  intros [H1 [H2 H3]] Hc H. destruct c as [|ps|k u]; cbn [th_step] in H; [|destruct Hc|].
  - injection H as <-. unfold th_inv, clean, updateData. cbn. repeat split; auto. apply Forall_app. split; auto.
  - destruct (nth_error (w_datas w) k) as [d|] eqn:E; [|discriminate].
    assert (Hd : td_du d = W /\ td_M d = pinv W) by (apply nth_error_In in E; rewrite List.Forall_forall in H3; auto).
    destruct (m_upd (w_model w)); injection H as <-; unfold th_inv, clean, updateData; cbn; repeat split; auto; apply upd_Forall; cbn; auto.
Qed.
Lemma th_inv_run nj n pinv W cs : forall w w', th_inv pinv W w -> List.Forall no_set cs -> th_run nj n pinv cs w = Some w' -> th_inv pinv W w'.
Proof.
  induction cs as [|c cs IH]; intros w w' Hi Hc H; cbn [th_run] in H; [now injection H as <-|].
  inversion Hc as [|? ? Hc1 Hc2]; subst. destruct (th_step nj n pinv w c) as [w1|] eqn:E; [|discriminate].
  exact (IH w1 w' (th_inv_step _ _ _ _ _ _ _ Hi Hc1 E) Hc2 H).
Qed.
(** As long as set_thrusters is not called again, every data holds the map of the thrusters
    given at construction and its pseudo-inverse, and calc yields the sum of the thrusters'
    wrenches on the base and the joint torques below.  Missing: the two refutations below. *)
Theorem C55_new_partial nj pinv ps m cs w k u w' d :
  th_create (length ps) pinv ps = Some m -> List.Forall no_set cs -> th_run nj (length ps) pinv cs (ThWorld m []) = Some w ->
  th_step nj (length ps) pinv w (TCalc k u) = Some w' -> nth_error (w_datas w') k = Some d ->
  (forall r c, (r < 6 + nj)%nat -> (c < length ps + nj)%nat -> td_du d r c = thr_matrix nj (length ps) ps r c) /\
  td_M d = pinv (td_du d) /\
  (forall r, (r < 6 + nj)%nat -> td_tau d r = mulv (length ps + nj) (thr_matrix nj (length ps) ps) u r) /\
  (forall j, (j < nj)%nat -> td_tau d (6 + j)%nat = u (length ps + j)%nat).
Proof.
  intros Hm Hc Hr Hs Hd. unfold th_create, th_set in Hm. cbn [m_n m_W] in Hm. rewrite Nat.eqb_refl in Hm. cbn [negb] in Hm.
  set (W := add_thrusters 0 ps (th_W0 (length ps))) in *. injection Hm as Hm.
  assert (HW : forall r c, (r < 6 + nj)%nat -> (c < length ps + nj)%nat -> W r c = thr_matrix nj (length ps) ps r c) by (intros; now apply W0_thr).
  assert (Hi : th_inv pinv W (ThWorld m [])) by (subst m; split; [reflexivity|split; [reflexivity|constructor]]). clearbody W.
  pose proof (th_inv_run _ _ _ _ _ _ _ Hi Hc Hr) as Hi1. pose proof (th_inv_step _ _ _ _ _ (TCalc k u) _ Hi1 I Hs) as [_ [_ Hi2]].
  assert (Hdd : td_du d = W /\ td_M d = pinv W) by (rewrite List.Forall_forall in Hi2; apply Hi2; eapply nth_error_In; eauto).
  assert (Ht : td_tau d = mulv (length ps + nj) W u).
  { cbn [th_step] in Hs. destruct (nth_error (w_datas w) k) as [d0|] eqn:E; [|discriminate].
    destruct Hi1 as [G1 [G2 G3]].
    assert (Hd0 : td_du d0 = W) by (rewrite List.Forall_forall in G3; apply G3; eapply nth_error_In; eauto).
    destruct (m_upd (w_model w)); injection Hs as <-; cbn [w_datas] in Hd; rewrite nth_error_upd_th, Nat.eqb_refl, E in Hd;
      injection Hd as <-; cbn [td_tau updateData td_du]; congruence. }
  destruct Hdd as [D1 D2]. rewrite D1. split; [exact HW|]. split; [exact D2|].
  assert (Hmul : forall r, (r < 6 + nj)%nat -> td_tau d r = mulv (length ps + nj) (thr_matrix nj (length ps) ps) u r).
  { intros r Hr'. rewrite Ht. unfold mulv. apply rsum_ext. intros c Hc'. now rewrite HW. }
  split; auto. intros j Hj. rewrite Hmul by lia. unfold mulv.
  rewrite (rsum_ext _ _ (fun c => idm (length ps + j)%nat c * u c)); [apply rsum_id_l; lia|].
  intros c Hc'. unfold thr_matrix. destruct (nth_error ps c) as [p|] eqn:E.
  - assert (c < length ps)%nat by (apply nth_error_Some; congruence).
    replace (6 + j <? 3)%nat with false by (symmetry; apply Nat.ltb_ge; lia). replace (6 + j <? 6)%nat with false by (symmetry; apply Nat.ltb_ge; lia).
    rewrite idm_other by lia. reflexivity.
  - apply nth_error_None in E. unfold idm. destruct (Nat.eqb_spec (6 + j) (6 + (c - length ps))), (Nat.eqb_spec (length ps + j) c); try lia; reflexivity.
Qed.
(** A single data always follows the model: after a calc it holds the model's current matrix,
    whatever calls of set_thrusters came before. *)
Theorem C55_one_data_partial nj n pinv m cs w u w' d :
  List.Forall no_create cs -> th_run nj n pinv (TCreate :: cs) (ThWorld m []) = Some w ->
  th_step nj n pinv w (TCalc 0 u) = Some w' -> nth_error (w_datas w') 0 = Some d ->
  td_du d = m_W (w_model w) /\ td_M d = m_Mtau (w_model w) /\ td_tau d = mulv (n + nj) (m_W (w_model w)) u.
Proof.
  intros Hc Hr Hs Hd.
  assert (Hi : forall cs w1 w, (exists d, w_datas w1 = [d] /\ (m_upd (w_model w1) = false -> td_du d = m_W (w_model w1) /\ td_M d = m_Mtau (w_model w1))) ->
    List.Forall no_create cs -> th_run nj n pinv cs w1 = Some w ->
    exists d, w_datas w = [d] /\ (m_upd (w_model w) = false -> td_du d = m_W (w_model w) /\ td_M d = m_Mtau (w_model w))).
  { clear. induction cs as [|c cs IH]; intros w1 w [d [H1 H2]] Hc H; cbn [th_run] in H; [injection H as <-; eauto|].
    inversion Hc as [|? ? Hc1 Hc2]; subst. destruct (th_step nj n pinv w1 c) as [w2|] eqn:E; [|discriminate].
    apply (IH w2 w); auto. destruct c as [|ps|k u]; cbn [th_step] in E; [destruct Hc1| |].
    - unfold th_set in E. destruct (negb _); [discriminate|]. injection E as <-. exists d. split; auto. cbn. discriminate.
    - rewrite H1 in E. destruct k; cbn [nth_error] in E; [|destruct k; discriminate].
      destruct (m_upd (w_model w1)); injection E as <-; cbn [w_datas upd w_model]; eexists; (split; [reflexivity|]); cbn; auto. }
  cbn [th_run th_step] in Hr. cbn [w_model w_datas app] in Hr.
  match type of Hr with th_run _ _ _ _ ?w1 = _ =>
    assert (Hw1 : exists d, w_datas w1 = [d] /\ (m_upd (w_model w1) = false -> td_du d = m_W (w_model w1) /\ td_M d = m_Mtau (w_model w1)))
      by (eexists; split; [reflexivity|]; cbn; auto) end.
  destruct (Hi cs _ w Hw1 Hc Hr) as [d0 [E1 E2]]. clear Hi Hr Hw1.
  cbn [th_step] in Hs. rewrite E1 in Hs. cbn [nth_error] in Hs.
  destruct (m_upd (w_model w)) eqn:U; injection Hs as <-; cbn in Hd; injection Hd as <-; cbn; auto.
  destruct (E2 eq_refl) as [E3 E4]. rewrite E3. auto.
Qed.
(** Setting the very thrusters the model was built with doubles their wrenches. *)
Theorem C55_accumulate_refuted : forall nj pinv ps m m',
  th_create (length ps) pinv ps = Some m -> th_set pinv ps m = Some m' ->
  forall r c, (r < 6)%nat -> (c < length ps)%nat -> m_W m' r c = 2 * thr_matrix nj (length ps) ps r c.
Proof.
  intros nj pinv ps m m' Hm Hm' r c Hr Hc. unfold th_create, th_set in Hm. cbn [m_n m_W] in Hm. rewrite Nat.eqb_refl in Hm. cbn [negb] in Hm.
  injection Hm as <-. unfold th_set in Hm'. cbn [m_n m_W] in Hm'. rewrite Nat.eqb_refl in Hm'. cbn [negb] in Hm'. injection Hm' as <-. cbn [m_W].
  destruct (nth_error ps c) as [p|] eqn:E; [|apply nth_error_None in E; lia].
  rewrite (add_thrusters_nth ps 0 _ r c p E). cbn [Nat.add]. unfold add_thruster. rewrite Nat.eqb_refl. rewrite (W0_thr nj) by lia.
  unfold thr_matrix. rewrite E. destruct (Nat.ltb_spec r 3); [ring|]. destruct (Nat.ltb_spec r 6); [|lia]. rewrite moment_cross by lia. destruct (th_cw p); ring.
Qed.
(** With two datas, only the one used first after set_thrusters sees the new map. *)
Definition up_thruster (p : vec) : thruster := Thruster (fun i => if (i =? 2)%nat then 1 else 0) p 0 true.
Definition side_thruster : thruster := Thruster (fun i => if (i =? 0)%nat then 1 else 0) (fun _ => 0) 0 true.
Theorem C55_second_data_refuted : forall pinv, exists ps ps' m w d0 d1,
  th_create 1 pinv ps = Some m /\
  th_run 0 1 pinv [TCreate; TCreate; TSet ps'; TCalc 0 (fun _ => 1); TCalc 1 (fun _ => 1)] (ThWorld m []) = Some w /\
  m_thr (w_model w) = ps' /\ nth_error (w_datas w) 0 = Some d0 /\ nth_error (w_datas w) 1 = Some d1 /\
  td_tau d0 0%nat = 1 /\ td_tau d1 0%nat = 0.
Proof.
  intro pinv. exists [up_thruster (fun _ => 0)], [side_thruster]. do 4 eexists. cbn [th_create th_set length m_n Nat.eqb negb].
  split; [reflexivity|]. cbn. split; [reflexivity|]. split; [reflexivity|]. split; [reflexivity|]. split; [reflexivity|].
  unfold mulv. cbn [rsum Nat.add td_tau]. unfold add_thruster, th_W0. cbn. split; lra.
Qed.
(** two thrusters and one joint *)
Example C55_case : forall pinv, exists m w w' d,
  th_create 2 pinv [up_thruster (fun i => if (i =? 0)%nat then 1 else 0); side_thruster] = Some m /\
  th_run 1 2 pinv [TCreate; TCreate] (ThWorld m []) = Some w /\ th_step 1 2 pinv w (TCalc 1 (fun i => INR (1 + i))) = Some w' /\
  nth_error (w_datas w') 1 = Some d /\ td_tau d 0%nat = 2 /\ td_tau d 2%nat = 1 /\ td_tau d 4%nat = -1 /\ td_tau d 6%nat = 3.
Proof.
  intro pinv. do 4 eexists. split; [reflexivity|]. split; [reflexivity|]. split; [reflexivity|]. split; [reflexivity|].
  cbn. unfold mulv. cbn. unfold add_thruster, th_W0, cross. cbn. repeat split; lra.
Qed.

Print Assumptions C56_bounds.
Print Assumptions C56_monotone.
Print Assumptions C56_accepts.
Print Assumptions C56_derivative_partial.
Print Assumptions C56_derivative_away_partial.
Print Assumptions C56_equal_bounds_refuted.
Print Assumptions C56_smooth0_refuted.
Print Assumptions C57_floating_base.
Print Assumptions C57_floating_base_sets.
Print Assumptions C57_full.
Print Assumptions C70_control_partial.
Print Assumptions C70_state_refuted.
Print Assumptions C70_commands_refuted.
Print Assumptions C70_inverse_refuted.
Print Assumptions C55_new_partial.
Print Assumptions C55_one_data_partial.
Print Assumptions C55_accumulate_refuted.
Print Assumptions C55_second_data_refuted.
