(** C126: SolverKKT on convex linear-quadratic problems. *)
From Coquelicot Require Import Coquelicot.
From Coq Require Import Reals List Bool Lra Lia Arith FunctionalExtensionality.
From Verif Require Import Deriv VecMat Integrator_Spec IntegratorPsd_Proofs KKT_Model KKT_Proofs KKT_Props KKTLQ_Model.
Import ListNotations.
Open Scope R_scope.

Section P.
Variables (T nd : nat) (nu : nat -> nat) (p : lqp).
Notation pcost := (pcost T nd nu p).
Notation lqdata := (lqdata T nd nu p).
Notation lqnext := (lqnext nd nu p).

(** ** Specification *)
(** The trajectories of the problem: from x0, along the dynamics A x + B u + f *)
Definition trajectory (xs us : nat -> vec) : Prop :=
  (forall i, (i < nd)%nat -> xs 0%nat i = p_x0 p i) /\
  (forall t i, (t < T)%nat -> (i < nd)%nat ->
     xs (S t) i = mulv nd (sA (p_run p t)) (xs t) i + mulv (nu t) (sB (p_run p t)) (us t) i + sf (p_run p t) i).
Definition same (xs us ys vs : nat -> vec) : Prop :=
  (forall t i, (t <= T)%nat -> (i < nd)%nat -> ys t i = xs t i) /\ (forall t j, (t < T)%nat -> (j < nu t)%nat -> vs t j = us t j).
(** The total cost *)
Definition total (xs us : nat -> vec) : R :=
  rsum T (fun t => let s := p_run p t in
    (dot nd (xs t) (mulv nd (sQ s) (xs t)) + 2 * dot nd (xs t) (mulv (nu t) (sN s) (us t)) + dot (nu t) (us t) (mulv (nu t) (sR s) (us t))) / 2
    + dot nd (xs t) (sq_ s) + dot (nu t) (us t) (sr s)) +
  (dot nd (xs T) (mulv nd (p_QT p) (xs T)) / 2 + dot nd (xs T) (p_qT p)).
(** The only optimal trajectory *)
Definition optimum (xs us : nat -> vec) : Prop :=
  trajectory xs us /\ forall ys vs, trajectory ys vs -> total xs us <= total ys vs /\ (total ys vs = total xs us -> same xs us ys vs).
(** Convex data with positive definite control costs *)
Definition lq_symmetric : Prop :=
  (forall t, (t < T)%nat -> sym nd (sQ (p_run p t)) /\ sym (nu t) (sR (p_run p t))) /\ sym nd (p_QT p).
Definition lq_convex : Prop :=
  (forall t, (t < T)%nat -> psd_blocks nd (nu t) (sQ (p_run p t)) (sN (p_run p t)) (sR (p_run p t))) /\
  (forall a, 0 <= dot nd a (mulv nd (p_QT p) a)) /\
  (forall t (b : vec), (t < T)%nat -> dot (nu t) b (mulv (nu t) (sR (p_run p t)) b) = 0 -> forall j, (j < nu t)%nat -> b j = 0).

Hypothesis HS : lq_symmetric.
Hypothesis HV : lq_convex.

Lemma dsym xs us : symmetric T nd nu (lqdata xs us).
Proof. exact HS. Qed.
Lemma dconv xs us : convex T nd nu (lqdata xs us).
Proof. destruct HV as [H1 [H2 _]]. split; [intros t a b Ht; exact (H1 t Ht a b)|exact H2]. Qed.
Lemma dpd xs us : pd_control T nu (lqdata xs us).
Proof. exact (proj2 (proj2 HV)). Qed.

Lemma dot_comm n (a b : vec) : dot n a b = dot n b a.
Proof. unfold dot. apply rsum_ext. intros. ring. Qed.
Lemma total_pcost xs us : total xs us = pcost xs us.
Proof.
  unfold total, KKTLQ_Model.pcost, lqcost, lqcostT. f_equal.
  - apply rsum_ext. intros t Ht. cbv zeta. rewrite (dot_comm nd (xs t) (sq_ _)), (dot_comm (nu t) (us t) (sr _)). field.
  - rewrite (dot_comm nd (xs T) (p_qT p)). field.
Qed.
Lemma dot_3 n (a x y z : vec) : dot n (fun i => x i + y i + z i) a = dot n a (fun i => x i + y i) + dot n z a.
Proof. unfold dot. rewrite <- rsum_plus. apply rsum_ext. intros. ring. Qed.
Lemma dot_2 n (a x z : vec) : dot n (fun i => x i + z i) a = dot n a x + dot n z a.
Proof. unfold dot. rewrite <- rsum_plus. apply rsum_ext. intros. ring. Qed.
Lemma dot_scal n (a b : vec) r : dot n a (fun i => r * b i) = r * dot n a b.
Proof. unfold dot. rewrite <- rsum_scal. apply rsum_ext. intros. ring. Qed.
Lemma quad_scal n m A B C a b r : quad n m A B C (fun i => r * a i) (fun i => r * b i) = r * r * quad n m A B C a b.
Proof. rewrite !quad_bil, !bil_scall, !bil_scalr. ring. Qed.
(** The quadratic model is exact *)
Lemma cost_step a xs us dx du :
  pcost (stepped a xs dx) (stepped a us du) = pcost xs us + qcost T nd nu (lqdata xs us) (scaled a dx) (scaled a du).
Proof.
  destruct HS as [S1 S2]. rewrite <- !total_pcost. unfold total, qcost.
  match goal with |- rsum T ?f + ?A = rsum T ?g + ?B + (rsum T ?h + ?C) =>
    assert (E1 : forall t, (t < T)%nat -> f t = g t + h t); [|assert (E2 : A = B + C)] end.
  - intros t Ht. cbv zeta. cbn [k_run k_Lx k_Lu KKTLQ_Model.lqdata]. cbv zeta. cbn [k_Lx k_Lu].
    destruct (S1 t Ht) as [SQ SR].
    pose proof (quad_line nd (nu t) (sQ (p_run p t)) (sN (p_run p t)) (sR (p_run p t)) (xs t) (dx t) (us t) (du t) a SQ SR) as E.
    unfold stage_quad. cbn [k_run KKTLQ_Model.lqdata]. cbv zeta. cbn [k_Lxx k_Lxu k_Luu]. unfold scaled. rewrite quad_scal.
    rewrite !dot_scal, !dot_3.
    unfold stepped. rewrite !(dot_comm _ (fun i => _ + a * _) (sq_ _)), !(dot_comm _ (fun i => _ + a * _) (sr _)), !dot_line.
    rewrite (dot_comm nd (xs t) (sq_ _)), (dot_comm (nu t) (us t) (sr _)).
    unfold quad at 1 2 in E. fold (quad nd (nu t) (sQ (p_run p t)) (sN (p_run p t)) (sR (p_run p t)) (dx t) (du t)) in E.
    unfold Rdiv. rewrite E. field.
  - cbn [k_LxT k_LxxT KKTLQ_Model.lqdata]. unfold scaled, stepped.
    assert (E : dot nd (fun i => xs T i + a * dx T i) (mulv nd (p_QT p) (fun i => xs T i + a * dx T i)) =
       dot nd (xs T) (mulv nd (p_QT p) (xs T)) + 2 * a * dot nd (dx T) (mulv nd (p_QT p) (xs T)) + a * a * dot nd (dx T) (mulv nd (p_QT p) (dx T))).
    { change (bil nd nd (p_QT p) (fun i => xs T i + a * dx T i) (fun i => xs T i + a * dx T i) = bil nd nd (p_QT p) (xs T) (xs T) + 2 * a * bil nd nd (p_QT p) (dx T) (xs T) + a * a * bil nd nd (p_QT p) (dx T) (dx T)).
      rewrite bil_line, (bil_sym nd (p_QT p) (xs T) (dx T)) by auto. ring. }
    assert (E' : dot nd (fun i => a * dx T i) (mulv nd (p_QT p) (fun i => a * dx T i)) = a * a * dot nd (dx T) (mulv nd (p_QT p) (dx T))).
    { change (bil nd nd (p_QT p) (fun i => a * dx T i) (fun i => a * dx T i) = a * a * bil nd nd (p_QT p) (dx T) (dx T)). rewrite bil_scall, bil_scalr. ring. }
    rewrite E, E'.
    rewrite !dot_scal, (dot_comm _ (fun i => _ + a * _) (p_qT p)), dot_line, dot_2, (dot_comm nd (xs T) (p_qT p)).
    field.
  - rewrite E2. rewrite (rsum_ext T _ _ E1), rsum_plus. ring.
Qed.

(** Differences of trajectories are the solutions of the linearised dynamics *)
Definition minus (ys xs : nat -> vec) : nat -> vec := fun t i => ys t i - xs t i.
Lemma mulv_minus n A (x y : vec) i : mulv n A (fun j => x j - y j) i = mulv n A x i - mulv n A y i.
Proof. unfold mulv. rewrite <- rsum_minus. apply rsum_ext. intros. ring. Qed.
Lemma traj_lin xs us ys vs : trajectory ys vs <-> lin T nd nu (lqdata xs us) (minus ys xs) (minus vs us).
Proof.
  unfold trajectory, lin, minus. cbn [k_run k_gap0 KKTLQ_Model.lqdata]. cbv zeta. cbn [k_Fx k_Fu k_gap]. unfold KKTLQ_Model.lqnext.
  split; intros [H1 H2]; split.
  - intros i Hi. rewrite H1 by auto. ring.
  - intros t i Ht Hi. rewrite H2, !mulv_minus by auto. ring.
  - intros i Hi. specialize (H1 i Hi). lra.
  - intros t i Ht Hi. specialize (H2 t i Ht Hi). rewrite !mulv_minus in H2. lra.
Qed.
Lemma step_minus xs ys : stepped 1 xs (minus ys xs) = ys.
Proof. apply functional_extensionality; intro t; apply functional_extensionality; intro i. unfold stepped, minus. ring. Qed.
Lemma scaled_1 a : scaled 1 a = a.
Proof. apply functional_extensionality; intro t; apply functional_extensionality; intro i. unfold scaled. ring. Qed.
Lemma total_minus xs us ys vs : total ys vs = total xs us + qcost T nd nu (lqdata xs us) (minus ys xs) (minus vs us).
Proof. rewrite !total_pcost. rewrite <- (step_minus xs ys) at 1. rewrite <- (step_minus us vs) at 1. rewrite cost_step, !scaled_1. reflexivity. Qed.

(** Without curvature along a solution of the homogeneous dynamics there is no difference *)
Lemma flat xs us a b : (forall i, (i < nd)%nat -> a 0%nat i = 0) ->
  (forall t i, (t < T)%nat -> (i < nd)%nat -> a (S t) i = mulv nd (sA (p_run p t)) (a t) i + mulv (nu t) (sB (p_run p t)) (b t) i) ->
  curv T nd nu (lqdata xs us) a b = 0 ->
  (forall t i, (t <= T)%nat -> (i < nd)%nat -> a t i = 0) /\ (forall t j, (t < T)%nat -> (j < nu t)%nat -> b t j = 0).
Proof.
  intros H1 H2 C0. destruct (dconv xs us) as [V1 V2]. pose proof (dpd xs us) as HP. unfold curv in C0.
  assert (S0 : forall t, (t < T)%nat -> stage_quad nd nu (lqdata xs us) t (a t) (b t) = 0).
  { assert (P : forall k (f : nat -> R), (forall t, (t < k)%nat -> 0 <= f t) -> rsum k f <= 0 -> forall t, (t < k)%nat -> f t = 0).
    { induction k; intros f Hf Hs t Ht; [lia|]. cbn [rsum] in Hs. pose proof (Hf k ltac:(lia)). pose proof (rsum_ge0 k f ltac:(intros; apply Hf; lia)).
      destruct (Nat.eq_dec t k) as [->|]; [lra|]. apply IHk; [intros; apply Hf; lia|lra|lia]. }
    apply (P T (fun t => stage_quad nd nu (lqdata xs us) t (a t) (b t))); [intros; apply V1; auto|]. pose proof (V2 (a T)). lra. }
  assert (UX : forall t, (t < T)%nat -> (forall i, (i < nd)%nat -> a t i = 0) -> forall j, (j < nu t)%nat -> b t j = 0).
  { intros t Ht Hx. apply (HP t (b t) Ht). pose proof (S0 t Ht) as Q0. unfold stage_quad, quad in Q0.
    assert (Zx : forall q : vec, dot nd (a t) q = 0) by (intros q; unfold dot; apply rsum_0; intros i Hi; rewrite Hx by auto; ring). rewrite !Zx in Q0. lra. }
  assert (X0 : forall t, (t <= T)%nat -> forall i, (i < nd)%nat -> a t i = 0).
  { induction t as [|t IH]; intros Ht i Hi; [apply H1; auto|]. specialize (IH ltac:(lia)). rewrite H2 by (auto; lia). unfold mulv.
    rewrite !rsum_0; [ring| |]; intros j Hj; [rewrite (UX t) by (auto; lia)|rewrite IH by auto]; ring. }
  split; [intros; apply X0; auto|]. intros t j Ht Hj. apply (UX t); auto. intros i Hi. apply X0; [lia|auto].
Qed.

(** ** One full step *)
Section Step.
Variables (xs us : nat -> vec) (m m' : mat * vec) (z : vec).
Hypothesis HR : kreach T nd nu m.
Hypothesis HC : kcalcDiff T nd nu (lqdata xs us) m = Some m'.
Hypothesis HZ : solves (ksize T nd nu) m' z.
Notation dx := (dxs nd z).
Notation du := (dus T nd nu z).

Lemma minus_step a v w : minus (stepped a v w) v = scaled a w.
Proof. apply functional_extensionality; intro t; apply functional_extensionality; intro i. unfold stepped, minus, scaled. ring. Qed.
Lemma full_optimum : optimum (stepped 1 xs dx) (stepped 1 us du).
Proof.
  pose proof (sol_lin T nd nu (lqdata xs us) m m' HR HC z HZ) as HL. split.
  - apply (traj_lin xs us). rewrite !minus_step, !scaled_1. exact HL.
  - intros ys vs Ht. rewrite (total_minus xs us ys vs), (total_minus xs us (stepped 1 xs dx) (stepped 1 us du)), !minus_step, !scaled_1. apply (traj_lin xs us) in Ht.
    set (a := fun t i => minus ys xs t i - dx t i). set (b := fun t i => minus vs us t i - du t i).
    assert (E : qcost T nd nu (lqdata xs us) (minus ys xs) (minus vs us) = qcost T nd nu (lqdata xs us) dx du + / 2 * curv T nd nu (lqdata xs us) a b).
    { set (l := lambdas T nd nu z). rewrite <- (lagr_feas T nd nu _ _ _ l Ht), <- (lagr_feas T nd nu _ _ _ l HL).
      assert (E : lagr T nd nu (lqdata xs us) (minus ys xs) (minus vs us) l = lagr T nd nu (lqdata xs us) (along 1 dx a) (along 1 du b) l).
      { f_equal; apply functional_extensionality; intro t; apply functional_extensionality; intro i; unfold along, a, b; ring. }
      rewrite E, lagr_line by apply dsym.
      rewrite (slope_zero T nd nu _ dx du l a b (sol_gx T nd nu _ m m' HR HC z HZ) (sol_gu T nd nu _ m m' HR HC z HZ)). ring. }
    assert (C : 0 <= curv T nd nu (lqdata xs us) a b).
    { destruct (dconv xs us) as [V1 V2]. unfold curv. apply Rplus_le_le_0_compat; [apply rsum_ge0; intros; apply V1; auto|apply V2]. }
    rewrite E. split; [lra|]. intro E'.
    destruct (flat xs us a b) as [A B]; [| |lra|].
    + intros i Hi. unfold a. destruct HL as [HL _], Ht as [Ht _]. rewrite HL, Ht by auto. ring.
    + intros t i Hlt Hi. unfold a, b. rewrite !mulv_minus. destruct HL as [_ HL], Ht as [_ Ht]. rewrite HL, Ht by auto.
      cbn [k_run KKTLQ_Model.lqdata]. cbv zeta. cbn [k_Fx k_Fu]. ring.
    + split.
      * intros t i Hlt Hi. specialize (A t i Hlt Hi). unfold a, minus in A. unfold stepped. lra.
      * intros t j Hlt Hj. specialize (B t j Hlt Hj). unfold b, minus in B. unfold stepped. lra.
Qed.
Lemma cost_exact a : pcost xs us - pcost (stepped a xs dx) (stepped a us du) = kdVexp T nd nu m' z a.
Proof. rewrite cost_step, (C74_expected T nd nu (lqdata xs us) m m' HR HC). ring. Qed.
End Step.

(** ** The loop *)
Variable lu : nat -> mat -> vec -> vec.
(** The factorisation solves the systems of the problem that are not singular *)
Hypothesis LU : forall xs us m m', kreach T nd nu m -> kcalcDiff T nd nu (lqdata xs us) m = Some m' ->
  (forall z, (forall i, (i < ksize T nd nu)%nat -> mulv (ksize T nd nu) (fst m') z i = 0) -> forall i, (i < ksize T nd nu)%nat -> z i = 0) ->
  solves (ksize T nd nu) m' (lu (ksize T nd nu) (fst m') (fun i => - snd m' i)).
Variables (th_grad th_accept th_stop : R) (alphas : list R).
(** The first step length tried is 1; thresholds as the constructor and the setters leave them *)
Hypothesis HA : hd 0 alphas = 1.
Hypothesis Hg : 0 < th_grad.
Hypothesis Ha : th_accept < 1.
Hypothesis Hs : 0 < th_stop.
Hypothesis HT : (0 < T)%nat.
Notation kiteration := (kiteration T nd nu p lu th_grad th_accept th_stop alphas).
Notation ksolve := (ksolve T nd nu p lu th_grad th_accept th_stop alphas).
(** A solver between two calls: a candidate said to be feasible is a trajectory, and the system is what any
    history of evaluations leaves *)
Definition sound (s : kstate) : Prop :=
  kreach T nd nu (c_sys s) /\ (c_feas s = true -> trajectory (c_xs s) (c_us s)).

Lemma traj_gaps xs us : trajectory xs us ->
  (forall i, (i < nd)%nat -> k_gap0 (lqdata xs us) i = 0) /\ (forall t i, (t < T)%nat -> (i < nd)%nat -> k_gap (k_run (lqdata xs us) t) i = 0).
Proof.
  intros [H1 H2]. cbn [k_run k_gap0 KKTLQ_Model.lqdata]. cbv zeta. cbn [k_gap]. unfold KKTLQ_Model.lqnext. split.
  - intros i Hi. rewrite H1 by auto. ring.
  - intros t i Ht Hi. rewrite H2 by auto. ring.
Qed.
Lemma optimum_same xs us ys vs : optimum xs us -> optimum ys vs -> same xs us ys vs.
Proof.
  intros [T1 O1] [T2 O2]. apply O1; auto. destruct (O1 _ _ T2) as [L1 _], (O2 _ _ T1) as [L2 _]. lra.
Qed.

Lemma one_pass dF s : sound s -> exists s1 b, kiteration dF s = Some (s1, b) /\
  optimum (c_xs s1) (c_us s1) /\ c_cost s1 = total (c_xs s1) (c_us s1) /\ sound s1 /\ c_feas s1 = true /\
  (b = true -> c_feas s = true) /\ (c_feas s = true -> optimum (c_xs s) (c_us s) -> b = true).
Proof.
  intros [HR HF]. set (xs := c_xs s) in *. set (us := c_us s) in *.
  assert (EC : exists m', kcalcDiff T nd nu (lqdata xs us) (c_sys s) = Some m').
  { unfold kcalcDiff. rewrite (proj2 (Nat.eqb_neq T 0)) by lia. destruct (c_sys s) as [M r]. destruct (kloop _ _ _ _ _ _) as [M' r']. eexists. reflexivity. }
  destruct EC as [m' HC]. unfold KKTLQ_Model.kiteration. fold xs us. rewrite HC. set (z := lu _ _ _).
  assert (HZ : solves (ksize T nd nu) m' z).
  { apply (LU xs us (c_sys s)); auto. intros y Hy. exact (C28_nonsingular T nd nu (lqdata xs us) (c_sys s) m' HR HC y (dsym xs us) (dconv xs us) (dpd xs us) Hy). }
  pose proof (full_optimum xs us _ m' z HR HC HZ) as HO.
  destruct alphas as [|a l] eqn:EA; [cbn in HA; lra|]. cbn in HA. subst a.
  cbn [ksearch c_xs c_us c_cost c_feas c_sys]. cbv zeta.
  match goal with |- context [if ?c then KState _ _ _ _ _ _ else _] => assert (HAcc : c = true) end.
  { destruct (Rlt_dec (kd0 T nd nu m' z) th_grad) as [|N0]; [reflexivity|]. destruct (c_feas s) eqn:EF; [|reflexivity]. cbn [orb negb].
    destruct (Rlt_dec _ _) as [|N1]; [reflexivity|]. exfalso. apply N1.
    destruct (traj_gaps xs us (HF eq_refl)) as [G0 G1].
    destruct (C74_descent T nd nu (lqdata xs us) (c_sys s) m' HR HC z HZ (dsym xs us) (dconv xs us) G0 G1) as [D1 [D2 _]].
    rewrite (cost_exact xs us _ m' z HR HC). unfold kdVexp. rewrite D1. nra. }
  rewrite HAcc. clear HAcc. eexists. eexists. split; [reflexivity|]. cbn [c_xs c_us c_cost c_feas c_was c_sys].
  split; [exact HO|]. split; [symmetry; apply total_pcost|]. split; [split; [cbn; eapply kr_calc; eauto|intros _; exact (proj1 HO)]|].
  split; [reflexivity|]. split; [intro E; apply andb_prop in E; apply E|].
  intros EF HO0. rewrite EF. cbn [andb]. destruct (Rlt_dec _ _) as [|N0]; [reflexivity|]. exfalso. apply N0. clear N0.
  destruct (optimum_same _ _ _ _ HO0 HO) as [Sx Su].
  assert (Zx : forall t i, (t <= T)%nat -> (i < nd)%nat -> dxs nd z t i = 0) by (intros t i Ht Hi; specialize (Sx t i Ht Hi); unfold stepped in Sx; lra).
  assert (Zu : forall t j, (t < T)%nat -> (j < nu t)%nat -> dus T nd nu z t j = 0) by (intros t j Ht Hj; specialize (Su t j Ht Hj); unfold stepped in Su; lra).
  assert (ZX : forall A t i, (t <= T)%nat -> mulv nd A (dxs nd z t) i = 0) by (intros A t i Ht; unfold mulv; apply rsum_0; intros j Hj; rewrite Zx by auto; ring).
  assert (ZU : forall A t i, (t < T)%nat -> mulv (nu t) A (dus T nd nu z t) i = 0) by (intros A t i Ht; unfold mulv; apply rsum_0; intros j Hj; rewrite Zu by auto; ring).
  destruct (traj_gaps xs us (HF EF)) as [G0 G1].
  rewrite (C74_stop T nd nu (lqdata xs us) (c_sys s) m' HR HC).
  rewrite (rsum_0 (S T)), (rsum_0 T), (rsum_0 nd), (rsum_0 T); [lra| | | |].
  - intros t Ht. apply rsum_0. intros i Hi. rewrite G1 by auto. unfold sq. ring.
  - intros i Hi. rewrite G0 by auto. unfold sq. ring.
  - intros t Ht. apply rsum_0. intros j Hj.
    assert (E : foc_u nd (lqdata xs us) (lambdas T nd nu z) t j = 0); [|rewrite E; unfold sq; ring].
    pose proof (sol_gu T nd nu (lqdata xs us) (c_sys s) m' HR HC z HZ t j Ht Hj) as G. unfold gu in G. rewrite ZX, ZU in G by lia.
    unfold foc_u. unfold mulv, tr in G. lra.
  - intros t Ht. apply rsum_0. intros i Hi.
    assert (E : foc_x T nd (lqdata xs us) (lambdas T nd nu z) t i = 0); [|rewrite E; unfold sq; ring].
    pose proof (sol_gx T nd nu (lqdata xs us) (c_sys s) m' HR HC z HZ t i ltac:(lia) Hi) as G. unfold gx in G. unfold foc_x.
    destruct (Nat.ltb_spec t T) as [Hl|Hl]; rewrite ZX in G by lia; [rewrite ZU in G by lia|]; unfold mulv, tr in G; lra.
Qed.

(** ** C126 *)
(** Any number of passes, at least one, leaves the optimum as candidate. *)
Theorem C126_optimum dF maxiter it s s1 b n : sound s -> (0 < maxiter)%nat -> ksolve dF maxiter it s = Some (s1, b, n) ->
  optimum (c_xs s1) (c_us s1) /\ c_cost s1 = total (c_xs s1) (c_us s1) /\ c_feas s1 = true.
Proof.
  revert it s. induction maxiter as [|k IH]; intros it s HSo Hk H; [lia|]. cbn [KKTLQ_Model.ksolve] in H.
  destruct (one_pass dF s HSo) as [s2 [b2 [E [HO [HCo [HS2 [HF _]]]]]]]. rewrite E in H. destruct b2; [injection H as <- _ _; auto|].
  destruct k as [|k]; [cbn in H; injection H as <- _ _; auto|]. eapply IH; eauto. lia.
Qed.
(** With two passes allowed the solver returns true, after at most two. *)
Theorem C126_converges dF maxiter s : sound s -> (2 <= maxiter)%nat ->
  exists s1 n, ksolve dF maxiter 0 s = Some (s1, true, n) /\ (1 <= n <= 2)%nat /\ optimum (c_xs s1) (c_us s1) /\
  (c_feas s = false -> n = 2%nat).
Proof.
  intros HSo Hm. destruct maxiter as [|[|k]]; [lia|lia|]. cbn [KKTLQ_Model.ksolve].
  destruct (one_pass dF s HSo) as [s2 [b2 [E [HO [_ [HS2 [HF [HB _]]]]]]]]. rewrite E. destruct b2.
  - exists s2, 1%nat. split; [reflexivity|]. split; [lia|]. split; [exact HO|]. intro E'. rewrite HB in E' by reflexivity. discriminate.
  - destruct (one_pass dF s2 HS2) as [s3 [b3 [E3 [HO3 [_ [_ [_ [_ HB3]]]]]]]]. rewrite E3. rewrite (HB3 HF HO).
    exists s3, 2%nat. split; [reflexivity|]. split; [lia|]. auto.
Qed.
(** One pass from an infeasible guess reaches the optimum but reports no convergence; no pass leaves the guess. *)
Theorem C126_few dF s : sound s ->
  (c_feas s = false -> exists s1, ksolve dF 1 0 s = Some (s1, false, 1%nat) /\ optimum (c_xs s1) (c_us s1)) /\
  ksolve dF 0 0 s = Some (s, false, 0%nat).
Proof.
  intro HSo. split; [|reflexivity]. intro Hf. cbn [KKTLQ_Model.ksolve].
  destruct (one_pass dF s HSo) as [s2 [b2 [E [HO [_ [_ [_ [HB _]]]]]]]]. rewrite E. destruct b2.
  - rewrite HB in Hf by reflexivity. discriminate.
  - exists s2. auto.
Qed.
End P.

(** ** A concrete case: one node, x' = x + u + 1, cost x^2/2 + u^2/2 + u, terminal cost x^2/2, from x0 = 3 *)
Definition ex_lq : lqp :=
  Lqp (fun _ => Lqs (fun _ _ => 1) (fun _ _ => 1) (fun _ => 1) (fun _ _ => 1) (fun _ _ => 0) (fun _ _ => 1) (fun _ => 0) (fun _ => 1))
      (fun _ _ => 1) (fun _ => 0) (fun _ => 3).
(** The rows of the system: x0 + l0 - l1 = r0, x1 + l1 = r1, u - l1 = r2, x0 = r3, x1 - x0 - u = r4 *)
Definition ex_lu (_ : nat) (_ : mat) (r : vec) : vec :=
  let u := (r 1%nat + r 2%nat - r 3%nat - r 4%nat) / 2 in
  let x1 := r 3%nat + u + r 4%nat in
  let l1 := r 1%nat - x1 in
  fun i => match i with O => r 3%nat | S O => x1 | S (S O) => u | S (S (S O)) => r 0%nat - r 3%nat + l1 | _ => l1 end.
Definition one : nat -> nat := fun _ => 1%nat.
Lemma ex_solves xs us m m' : kreach 1 1 one m -> kcalcDiff 1 1 one (lqdata 1 1 one ex_lq xs us) m = Some m' ->
  solves 5 m' (ex_lu 5 (fst m') (fun i => - snd m' i)).
Proof.
  intros HR HC.
  assert (E0 : exists m0, kcalcDiff 1 1 one (lqdata 1 1 one ex_lq xs us) kalloc = Some m0) by (eexists; reflexivity).
  destruct E0 as [m0 E0].
  assert (E : forall i j, (i < 5)%nat -> (j < 5)%nat -> fst m' i j = fst m0 i j).
  { intros i j Hi Hj. exact (proj1 (C28_history 1 1 one _ m m' HR HC kalloc m0 (kr_alloc 1 1 one) E0 i j Hi Hj)). }
  assert (K : forall i j, fst m0 i j = fst (match kcalcDiff 1 1 one (lqdata 1 1 one ex_lq xs us) kalloc with Some m1 => m1 | None => kalloc end) i j) by (intros; rewrite E0; reflexivity).
  intros i Hi. unfold mulv. rewrite (rsum_ext 5 _ (fun j => fst m0 i j * ex_lu 5 (fst m') (fun i => - snd m' i) j)) by (intros j Hj; rewrite E by auto; reflexivity).
  generalize (snd m'). intro r. cbn [rsum]. rewrite !K. clear K E HC.
  do 5 (destruct i as [|i]; [cbn; unfold ex_lu, idm; cbn; field|]). lia.
Qed.
Example C126_ex dF : exists s1, ksolve 1 1 one ex_lq ex_lu (/ 10) (/ 10) (/ 10) [1; / 2] dF 2 0
    (KState (fun _ _ => 0) (fun _ _ => 0) false false 0 kalloc) = Some (s1, true, 2%nat) /\ optimum 1 1 one ex_lq (c_xs s1) (c_us s1).
Proof.
  assert (H1 : lq_symmetric 1 1 one ex_lq) by (split; [intros t Ht; split|]; intros i j Hi Hj; reflexivity).
  assert (H2 : lq_convex 1 1 one ex_lq).
  { split; [intros t Ht a b; unfold quad, dot, mulv; cbn; nra|]. split; [intro a; unfold dot, mulv; cbn; nra|].
    intros t b Ht H j Hj. unfold dot, mulv, one in H, Hj. cbn in H, Hj. replace j with 0%nat by lia. nra. }
  assert (HSo : sound 1 1 one ex_lq (KState (fun _ _ => 0) (fun _ _ => 0) false false 0 kalloc)) by (split; [apply kr_alloc|discriminate]).
  destruct (C126_converges 1 1 one ex_lq H1 H2 ex_lu (fun xs us m m' HR HC _ => ex_solves xs us m m' HR HC) (/ 10) (/ 10) (/ 10) [1; / 2]
              eq_refl ltac:(lra) ltac:(lra) ltac:(lra) ltac:(lia) dF 2 _ HSo ltac:(lia)) as [s1 [n [E [_ [HO Hn]]]]].
  rewrite (Hn eq_refl) in E. exists s1. auto.
Qed.
Print Assumptions C126_optimum.
Print Assumptions C126_converges.
Print Assumptions C126_few.
