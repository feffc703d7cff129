(** C106: SolverIpopt. *)
From Coq Require Import QArith ZArith Reals Lra Lia List Arith Bool String.
From Verif Require Import XFloat Deriv VecMat Integrator_Spec IntegratorPsd_Proofs Ipopt_Model Ipopt_Proofs Ipopt_Props IpoptSolver_Model.
Import ListNotations.
Close Scope Q_scope.
Local Open Scope R_scope.

Section Props.
Context {P : Type}.
Implicit Type (p : iproblem P) (v : solver P).

(** ** Specification *)
(** A solver of the problem, after any calls. *)
Inductive lives p : solver P -> Prop :=
| l_new z d th o v : new_solver p z d th o = Some v -> lives p v
| l_solve xs us n f r v b v' : lives p v -> solve p xs us n f r v = Some (b, v') -> lives p v'
| l_resize v v' : lives p v -> resize p v = Some v' -> lives p v'
| l_th th v v' : lives p v -> set_th_stop th v = Some v' -> lives p v'
| l_base th v v' : lives p v -> base_set_th_stop th v = Some v' -> lives p v'
| l_num tag x v : lives p v -> lives p (set_numeric_option tag x v).

(** Where the variables of a node are in Ipopt's vector *)
Definition first p (t : nat) : nat := nsum t (fun i => ndx p i + nu p i)%nat.
(** What Ipopt promises: the objective it reports is the one the interface answers at the final
    point, and when it claims success it has finalised at a point where the constraints hold up to
    [eps] and the variables are in their bounds up to [delta] ([big] is the largest double). *)
Definition honest p (xs us : nat -> vec) v (r : irun_result) (big eps delta : R) : Prop :=
  let s := irun p (Ipopt_Model.set_us us (Ipopt_Model.set_xs xs (v_iface v))) (r_calls r) in
  (forall x obj, r_end r = Some (x, obj) -> obj = fst (eval_f p s x 0)) /\
  (accepted (r_status r) = true -> exists x obj, r_end r = Some (x, obj) /\
    (forall w, In w (fst (eval_g p s x)) -> Rabs (snd w) <= eps) /\
    (forall a j, (j < s_nvar s)%nat ->
       writes a (bounds_x p s big false) j - delta <= x j <= writes a (bounds_x p s big true) j + delta)).
(** gap of a candidate at a node, distance to the initial state, cost *)
Definition gap p (xnext : nat -> vec -> vec -> vec) (xs us : nat -> vec) (t : nat) : vec :=
  i_diff (p_node p t) (xnext t (xs t) (us t)) (xs (S t)).
Definition total p (cost : nat -> vec -> vec -> R) (xs us : nat -> vec) : R :=
  rsum (p_T p) (fun t => cost t (xs t) (us t)) + cost (p_T p) (xs (p_T p)) (fun _ => 0).

Lemma lives_reach p v : lives p v -> reach p (v_iface v).
Proof.
  induction 1 as [z d th o v H|xs us n f r v b v' L IH H|v v' L IH H|th v v' L IH H|th v v' L IH H|tag x v L IH].
  - unfold new_solver in H. destruct (ipopt_create p z d) eqn:E; [|discriminate].
    apply (f_equal (option_map v_iface)) in H. cbn [option_map v_iface] in H.
    assert (E2 : v_iface v = i) by congruence. rewrite E2. exact (r_create p z d i E).
  - unfold solve in H. destruct (r_stats r); [|discriminate].
    assert (R1 : reach p (irun p (Ipopt_Model.set_us us (Ipopt_Model.set_xs xs (v_iface v))) (r_calls r))).
    { unfold irun. assert (G : forall cs s, reach p s -> reach p (fold_left (istep p) cs s)).
      { induction cs as [|c cs IHc]; intros s Hs; [exact Hs|]. cbn [fold_left]. apply IHc. now apply r_call. }
      apply G. apply r_us. now apply r_xs. }
    destruct (r_end r) as [[x obj]|]; assert (E := f_equal (fun o => match o with Some (_, w) => Some (v_iface w) | None => None end) H);
      cbn in E; [assert (E2 : v_iface v' = finalize p (irun p (Ipopt_Model.set_us us (Ipopt_Model.set_xs xs (v_iface v))) (r_calls r)) x obj) by congruence
                |assert (E2 : v_iface v' = irun p (Ipopt_Model.set_us us (Ipopt_Model.set_xs xs (v_iface v))) (r_calls r)) by congruence];
      rewrite E2; [now apply r_final|exact R1].
  - unfold resize in H. destruct (ipopt_resize p (v_iface v)) eqn:E; [|discriminate].
    apply (f_equal (option_map v_iface)) in H. cbn [option_map v_iface] in H.
    assert (E2 : v_iface v' = i) by congruence. rewrite E2. exact (r_resize p _ _ E).
  - unfold set_th_stop in H. destruct (xle th (Fin 0)); [discriminate|].
    apply (f_equal (option_map v_iface)) in H. cbn [option_map v_iface] in H. assert (E2 : v_iface v' = v_iface v) by congruence. now rewrite E2.
  - unfold base_set_th_stop in H. destruct (xle th (Fin 0)); [discriminate|].
    apply (f_equal (option_map v_iface)) in H. cbn [option_map v_iface] in H. assert (E2 : v_iface v' = v_iface v) by congruence. now rewrite E2.
  - exact IH.
Qed.

(** ** What solve installs *)
(** The candidate afterwards: the states are the guess moved by Ipopt's increments, the controls are
    Ipopt's; without a final point the guess stays.  The answer is Ipopt's success. *)
Theorem C106_installs p v xs us n f r b v' : lives p v -> solve p xs us n f r v = Some (b, v') ->
  b = accepted (r_status r) /\ r_stats r = Some (v_iter v') /\
  match r_end r with
  | Some (x, obj) => v_cost v' = obj /\
      (forall t, (t <= p_T p)%nat -> v_xs v' t = i_int (p_node p t) (xs t) (fun i => if (i <? ndx p t)%nat then x (first p t + i)%nat else 0)) /\
      (forall t j, (t < p_T p)%nat -> (j < nu p t)%nat -> v_us v' t j = x (first p t + ndx p t + j)%nat)
  | None => v_cost v' = s_cost (irun p (Ipopt_Model.set_us us (Ipopt_Model.set_xs xs (v_iface v))) (r_calls r)) /\
      (forall t, v_xs v' t = xs t) /\ (forall t, v_us v' t = us t)
  end.
Proof.
  intros L H. apply lives_reach in L. apply reach_laid in L. unfold solve in H.
  set (s0 := Ipopt_Model.set_us us (Ipopt_Model.set_xs xs (v_iface v))) in *. set (s1 := irun p s0 (r_calls r)) in *.
  destruct (irun_keeps p (r_calls r) s0) as (K1 & K2 & K3 & K4 & K5). fold s1 in K1, K2, K3, K4, K5.
  destruct L as (LT & LI & _).
  assert (O : forall t, (t <= p_T p)%nat -> s_ixu s1 t = first p t) by (intros t Ht; rewrite K3; exact (LI t Ht)).
  destruct (r_stats r) as [k|] eqn:Ek; [|discriminate].
  destruct (r_end r) as [[x obj]|].
  - assert (E : (accepted (r_status r), Solver (v_th v) (s_xs (finalize p s1 x obj)) (s_us (finalize p s1 x obj)) (s_cost (finalize p s1 x obj)) k f
       (finalize p s1 x obj) (set_max_iter (to_index n) (v_opts v))) = (b, v')) by congruence.
    pose proof (f_equal fst E) as E1. pose proof (f_equal snd E) as E2. cbn [fst snd] in E1, E2. rewrite <- E2.
    split; [now symmetry|]. cbn [v_iter v_cost v_xs v_us]. split; [reflexivity|]. split; [reflexivity|]. unfold finalize. cbn [s_xs s_us]. split.
    + intros t Ht. rewrite (proj2 (Nat.leb_le t _) Ht). unfold v_x, v_dx, seg. rewrite O by exact Ht. now rewrite K1.
    + intros t j Ht Hj. rewrite (proj2 (Nat.ltb_lt t _) Ht). unfold v_u, seg. rewrite (proj2 (Nat.ltb_lt t _) Ht), (proj2 (Nat.ltb_lt j _) Hj).
      rewrite O by lia. reflexivity.
  - assert (E : (accepted (r_status r), Solver (v_th v) (s_xs s1) (s_us s1) (s_cost s1) k f s1 (set_max_iter (to_index n) (v_opts v))) = (b, v')) by congruence.
    pose proof (f_equal fst E) as E1. pose proof (f_equal snd E) as E2. cbn [fst snd] in E1, E2. rewrite <- E2.
    split; [now symmetry|]. cbn [v_iter v_cost v_xs v_us]. rewrite K1, K2. repeat split.
Qed.

(** ** What a success certifies *)
Theorem C106_certificate p cost xnext dd ready v xs us n f r v' big eps delta :
  regular p cost xnext dd ready -> lives p v -> honest p xs us v r big eps delta ->
  solve p xs us n f r v = Some (true, v') ->
  (forall t j, (t < p_T p)%nat -> (j < ndx p t)%nat -> Rabs (gap p xnext (v_xs v') (v_us v') t j) <= eps) /\
  (forall j, (j < ndx p 0)%nat -> Rabs (i_diff (p_node p 0) (v_xs v' 0%nat) (p_x0 p) j) <= eps) /\
  (forall t j, (t < p_T p)%nat -> (j < nu p t)%nat -> i_lim (p_node p t) = true ->
     i_ulb (p_node p t) j - delta <= v_us v' t j <= i_uub (p_node p t) j + delta) /\
  v_cost v' = total p cost (v_xs v') (v_us v').
Proof.
  intros HR L [H1 H2] H. pose proof (lives_reach p v L) as RE. unfold solve in H.
  set (s0 := Ipopt_Model.set_us us (Ipopt_Model.set_xs xs (v_iface v))) in *. set (s1 := irun p s0 (r_calls r)) in *.
  assert (RE1 : reach p s1).
  { unfold s1, irun. assert (G : forall cs s, reach p s -> reach p (fold_left (istep p) cs s)).
    { induction cs as [|c cs IHc]; intros s Hs; [exact Hs|]. cbn [fold_left]. apply IHc. now apply r_call. }
    apply G. apply r_us. now apply r_xs. }
  pose proof (reach_laid p s1 RE1) as (LT & LI & _).
  destruct (r_stats r) as [k|]; [|discriminate].
  assert (A : accepted (r_status r) = true) by (apply (f_equal (fun o => match o with Some (b, _) => b | None => false end)) in H; exact H).
  destruct (H2 A) as (x & obj & Ef & Hg & Hb). rewrite Ef in H.
  assert (E : Solver (v_th v) (s_xs (finalize p s1 x obj)) (s_us (finalize p s1 x obj)) (s_cost (finalize p s1 x obj)) k f
       (finalize p s1 x obj) (set_max_iter (to_index n) (v_opts v)) = v') by congruence.
  assert (XS : forall t, (t <= p_T p)%nat -> v_xs v' t = v_x p s1 x t).
  { intros t Ht. rewrite <- E. cbn [v_xs finalize s_xs]. now rewrite (proj2 (Nat.leb_le t _) Ht). }
  assert (US : forall t, (t < p_T p)%nat -> v_us v' t = v_u p s1 x t).
  { intros t Ht. rewrite <- E. cbn [v_us finalize s_us]. now rewrite (proj2 (Nat.ltb_lt t _) Ht). }
  assert (NX : forall t, (t < p_T p)%nat -> v_xnext p s1 x t = v_x p s1 x (S t)).
  { intros t Ht. unfold v_xnext, v_x, v_dxnext, v_dx. rewrite (LI t), (LI (S t)) by lia. now rewrite off_S. }
  fold (g_writes p s1 x) in Hg. rewrite g_writes_eq in Hg.
  assert (BD : forall t j, (t < p_T p)%nat -> (j < nu p t)%nat -> i_lim (p_node p t) = true ->
     i_ulb (p_node p t) j - delta <= v_us v' t j <= i_uub (p_node p t) j + delta).
  { intros t j Ht Hj Hl. rewrite (US t) by exact Ht.
    assert (Bn : (off p t + ndx p t + j < s_nvar s1)%nat).
    { pose proof (reach_laid p s1 RE1) as (_ & _ & -> & _). pose proof (off_mono p t (p_T p) Ht). lia. }
    pose proof (Hb (fun _ => 0) _ Bn) as B.
    destruct (C73_bounds p s1 big (fun _ => 0) false RE1) as (_ & _ & B1 & _). destruct (C73_bounds p s1 big (fun _ => 0) true RE1) as (_ & _ & B2 & _).
    rewrite (B1 t j Ht Hj), (B2 t j Ht Hj), Hl in B.
    assert (EU : v_u p s1 x t j = x (off p t + ndx p t + j)%nat).
    { unfold v_u, seg. rewrite (proj2 (Nat.ltb_lt t _) Ht), (proj2 (Nat.ltb_lt j _) Hj), (LI t) by lia. reflexivity. }
    rewrite EU. exact B. }
  split; [|split; [|split; [exact BD|]]].
  - intros t j Ht Hj. unfold gap. rewrite (XS t), (XS (S t)), (US t), <- NX by lia.
    assert (G : g_dyn p s1 x t j = i_diff (p_node p t) (xnext t (v_x p s1 x t) (v_u p s1 x t)) (v_xnext p s1 x t) j).
    { unfold g_dyn, do_calc. now rewrite (rg_xnext _ _ _ _ _ HR) by lia. }
    rewrite <- G. apply (Hg ((cix p t + j)%nat, g_dyn p s1 x t j)). apply in_or_app. left.
    apply in_flat_map. exists t. split; [apply in_seq; lia|]. now apply in_seg.
  - intros j Hj. rewrite (XS 0%nat) by lia.
    assert (G : g_ic p s1 x j = i_diff (p_node p 0) (v_x p s1 x 0) (p_x0 p) j).
    { unfold g_ic, v_x, v_dx. rewrite (LI 0%nat) by lia. reflexivity. }
    rewrite <- G. apply (Hg ((cix p (p_T p) + j)%nat, g_ic p s1 x j)). apply in_or_app. right. now apply in_seg.
  - transitivity obj. { rewrite <- E. reflexivity. }
    rewrite (H1 x obj Ef), (C53_objective_partial p cost xnext dd ready HR). unfold total. rewrite Rplus_0_l. f_equal.
    + apply rsum_ext. intros t Ht. now rewrite (XS t), (US t) by lia.
    + rewrite (XS (p_T p)) by lia. unfold v_u. now rewrite Nat.ltb_irrefl.
Qed.
End Props.

(** ** Settings *)
Inductive sop {P : Type} := OTh (x : xf) | OBase (x : xf) | ONum (tag : string) (x : xf)
| OSolve (p : iproblem P) (xs us : nat -> vec) (n : nat) (f : bool) (r : irun_result).
Arguments sop : clear implicits.
(** a call that throws leaves the solver as it was; an undefined one is not considered (None) *)
Definition sstep {P} (v : solver P) (o : sop P) : option (solver P) :=
  match o with
  | OTh x => Some (match set_th_stop x v with Some v' => v' | None => v end)
  | OBase x => Some (match base_set_th_stop x v with Some v' => v' | None => v end)
  | ONum tag x => Some (set_numeric_option tag x v)
  | OSolve p xs us n f r => option_map snd (solve p xs us n f r v)
  end.
Fixpoint srun {P} (v : solver P) (l : list (sop P)) : option (solver P) :=
  match l with [] => Some v | o :: l => match sstep v o with Some v' => srun v' l | None => None end end.
(** the threshold set last, by whatever call, among the positive ones *)
Definition last_threshold {P} (x : xf) (l : list (sop P)) : xf :=
  fold_left (fun x o => match o with OTh y | OBase y => if xle y (Fin 0) then x else y | _ => x end) l x.
(** The tolerance Ipopt works with is the threshold set last, as long as all settings go through
    SolverIpopt itself. *)
Definition direct {P} (o : sop P) : Prop := match o with OBase _ => False | ONum tag _ => tag <> "tol"%string | _ => True end.
Theorem C106_tolerance_partial {P} (p : iproblem P) z d th o v l v' : xle th (Fin 0) = false ->
  new_solver p z d th o = Some v -> List.Forall direct l -> srun v l = Some v' ->
  o_tol (v_opts v') = last_threshold th l /\ v_th v' = last_threshold th l.
Proof.
  intros Hth Hv HD HR.
  assert (I : o_tol (v_opts v) = th /\ v_th v = th).
  { unfold new_solver in Hv. destruct (ipopt_create p z d); [|discriminate].
    pose proof (f_equal (option_map v_opts) Hv) as E1. pose proof (f_equal (option_map v_th) Hv) as E2.
    cbn [option_map v_opts v_th] in E1, E2. unfold set_tol in E1. rewrite Hth in E1.
    assert (E3 : v_opts v = Options th (o_max_iter o)) by congruence. rewrite E3. split; [reflexivity|congruence]. }
  clear Hv. revert v th Hth I HR. induction l as [|c l IH]; intros v th Hth [I1 I2] HR.
  - cbn [srun] in HR. assert (E : v' = v) by congruence. rewrite E. cbn. auto.
  - inversion_clear HD as [|? ? D1 D2]. cbn [srun] in HR. destruct (sstep v c) as [w|] eqn:Es; [|discriminate].
    cbn [last_threshold fold_left]. fold (last_threshold (P := P)).
    assert (W : o_tol (v_opts w) = (match c with OTh y | OBase y => if xle y (Fin 0) then th else y | _ => th end) /\
                v_th w = (match c with OTh y | OBase y => if xle y (Fin 0) then th else y | _ => th end)).
    { destruct c as [y|y|tag y|q xs us n f r]; cbn [sstep direct] in *.
      - unfold set_th_stop in Es. destruct (xle y (Fin 0)) eqn:Ey.
        + assert (E : w = v) by congruence. rewrite E. auto.
        + pose proof (f_equal (option_map v_opts) Es) as E1. pose proof (f_equal (option_map v_th) Es) as E2.
          cbn [option_map v_opts v_th] in E1, E2. unfold set_tol in E1. rewrite Ey in E1.
          assert (E3 : v_opts w = Options y (o_max_iter (v_opts v))) by congruence. rewrite E3. split; [reflexivity|congruence].
      - contradiction.
      - pose proof (f_equal (option_map v_opts) Es) as E1. pose proof (f_equal (option_map v_th) Es) as E2.
        unfold set_numeric_option in E1, E2. cbn [option_map v_opts v_th] in E1, E2.
        destruct (String.eqb_spec tag "tol"); [contradiction|]. split; congruence.
      - unfold solve in Es. destruct (r_stats r); [|discriminate].
        pose proof (f_equal (option_map v_opts) Es) as E1. pose proof (f_equal (option_map v_th) Es) as E2.
        cbn [option_map snd v_opts v_th] in E1, E2. unfold set_max_iter in E1.
        split; [|congruence]. destruct (Z.ltb (to_index n) 0).
        + assert (E3 : v_opts w = v_opts v) by congruence. now rewrite E3.
        + assert (E3 : v_opts w = Options (o_tol (v_opts v)) (to_index n)) by congruence. now rewrite E3. }
    apply (IH D2 w _); [|exact W|exact HR].
    destruct c as [y|y|tag y|q xs us n f r]; auto; destruct (xle y (Fin 0)) eqn:Ey; auto.
Qed.
(** Called through a SolverAbstract, set_th_stop does not reach Ipopt. *)
Theorem C106_tolerance_refuted : exists v v', new_solver w_problem (fun _ _ => 0) (fun _ => w_data) (Fin (1 # 1000)) (Options (Fin (1 # 100)) 3000) = Some v /\
  base_set_th_stop (Fin 1) v = Some v' /\ v_th v' = Fin 1 /\ o_tol (v_opts v') = Fin (1 # 1000).
Proof. eexists. eexists. split; [reflexivity|]. split; [reflexivity|]. split; reflexivity. Qed.
(** The bound on the iterations is Ipopt's when it fits an int. *)
Theorem C106_maxiter_partial {P} (p : iproblem P) xs us n f r v b v' : (Z.of_nat n < 2 ^ 31)%Z ->
  solve p xs us n f r v = Some (b, v') -> o_max_iter (v_opts v') = Z.of_nat n.
Proof.
  intros Hn H. unfold solve in H. destruct (r_stats r); [|discriminate].
  pose proof (f_equal (option_map (fun w => v_opts (snd w))) H) as E1. cbn [option_map snd v_opts] in E1.
  assert (E : to_index n = Z.of_nat n).
  { unfold to_index. rewrite Z.mod_small by lia. destruct (Z.ltb_spec (Z.of_nat n) (2 ^ 31)); [reflexivity|lia]. }
  unfold set_max_iter in E1. rewrite E in E1. destruct (Z.ltb_spec (Z.of_nat n) 0); [lia|].
  assert (E3 : v_opts v' = Options (o_tol (v_opts v)) (Z.of_nat n)) by congruence. now rewrite E3.
Qed.
(** Otherwise the bound of an earlier call stays. *)
Theorem C106_maxiter_refuted {P} (p : iproblem P) xs us n f r v b v' : Z.of_nat n = (2 ^ 31)%Z ->
  solve p xs us n f r v = Some (b, v') -> o_max_iter (v_opts v') = o_max_iter (v_opts v).
Proof.
  intros Hn H. unfold solve in H. destruct (r_stats r); [|discriminate].
  pose proof (f_equal (option_map (fun w => v_opts (snd w))) H) as E1. cbn [option_map snd v_opts] in E1.
  unfold to_index in E1. rewrite Hn in E1.
  assert (E3 : v_opts v' = v_opts v) by (unfold set_max_iter in E1; cbn in E1; congruence). now rewrite E3.
Qed.

(** ** What does not hold *)
Definition w_solver : solver R :=
  match new_solver w_problem (fun _ _ => 0) (fun _ => w_data) (Fin (1 # 1000)) (Options (Fin (1 # 100)) 3000) with
  | Some v => v | None => Solver NaN (fun _ _ => 0) (fun _ _ => 0) 0 0 false (IFace (fun _ _ => 0) (fun _ _ => 0) (fun _ => 0%nat) 0 0 0 (fun _ => w_data)) (Options NaN 0)
  end.
Lemma w_lives : lives w_problem w_solver.
Proof. eapply l_new. reflexivity. Qed.
Ltac same_end :=
  let x := fresh "x" in let obj := fresh "obj" in let E := fresh "E" in
  intros x obj E; pose proof (f_equal (fun o => match o with Some (y, _) => y | None => x end) E) as E1;
  pose proof (f_equal (fun o => match o with Some (_, y) => y | None => obj end) E) as E2;
  cbv beta iota delta [r_end] in E1, E2; rewrite <- E1; symmetry; exact E2.
Definition w_cost : nat -> vec -> vec -> R := fun _ x _ => x 0%nat * x 0%nat.
Definition w_next : nat -> vec -> vec -> vec := fun _ x _ _ => x 0%nat * x 0%nat.
Definition w_us : nat -> vec := fun _ _ => 0.
(** The feasibility flag is that of the guess: from a feasible guess flagged as such Ipopt stops, out
    of iterations, at a candidate with a gap that is still flagged feasible; and a feasible solution
    found from a guess not flagged is not flagged. *)
Theorem C106_flag_refuted :
  exists r v', gap w_problem w_next (fun _ => pt 1) w_us 0%nat 0%nat = 0 /\ gap w_problem w_next (fun _ => pt 1) w_us 1%nat 0%nat = 0 /\
    honest w_problem (fun _ => pt 1) w_us w_solver r 1 0 0 /\
    solve w_problem (fun _ => pt 1) w_us 100 true r w_solver = Some (false, v') /\
    v_feas v' = true /\ gap w_problem w_next (v_xs v') (v_us v') 0%nat 0%nat <> 0.
Proof.
  exists (Run [] (Some (pt 1, fst (eval_f w_problem (Ipopt_Model.set_us w_us (Ipopt_Model.set_xs (fun _ => pt 1) (v_iface w_solver))) (pt 1) 0))) MaximumIterationsExceeded (Some 100%nat)).
  eexists. split; [unfold gap, w_next, pt; cbn; ring|]. split; [unfold gap, w_next, pt; cbn; ring|].
  split; [split; [same_end|discriminate]|].
  split; [reflexivity|]. split; [reflexivity|].
  unfold gap, w_next. cbn. unfold pt. lra.
Qed.
Theorem C106_flag_success_refuted :
  exists r v', honest w_problem (fun _ => pt 1) w_us w_solver r 1 0 0 /\
    solve w_problem (fun _ => pt 1) w_us 100 false r w_solver = Some (true, v') /\
    v_feas v' = false /\ (forall t, (t < 2)%nat -> gap w_problem w_next (v_xs v') (v_us v') t 0%nat = 0) /\ v_xs v' 0%nat 0%nat = p_x0 w_problem 0%nat.
Proof.
  exists (Run [] (Some (pt 0, fst (eval_f w_problem (Ipopt_Model.set_us w_us (Ipopt_Model.set_xs (fun _ => pt 1) (v_iface w_solver))) (pt 0) 0))) SolveSucceeded (Some 1%nat)).
  eexists. split; [|split; [reflexivity|split; [reflexivity|split]]].
  - split; [same_end|].
    intros _. eexists. eexists. split; [reflexivity|]. split.
    + cbn [r_calls irun fold_left]. intros w Hw. cbn in Hw. unfold pt, seg in Hw. cbn in Hw.
      destruct Hw as [<- |[<- |[<- |[]]]]; cbn [snd]; rewrite Rabs_right; lra.
    + intros a j Hj. cbn in Hj. cbn [r_calls irun fold_left].
      assert (J : (j = 0 \/ j = 1 \/ j = 2)%nat) by lia. destruct J as [-> |[-> | ->]]; cbn; unfold pt; lra.
  - intros t Ht. assert (J : (t = 0 \/ t = 1)%nat) by lia. destruct J as [-> | ->]; unfold gap, w_next; cbn; unfold pt, seg; cbn; lra.
  - cbn. unfold pt, seg. cbn. ring.
Qed.
(** When Ipopt gives up without a final point, the cost is still the one of the solve before. *)
Theorem C106_cost_refuted :
  exists r1 v1 r2 v2, honest w_problem (fun _ => pt 1) w_us w_solver r1 1 0 0 /\
    solve w_problem (fun _ => pt 1) w_us 100 false r1 w_solver = Some (false, v1) /\
    honest w_problem (fun _ => pt 5) w_us v1 r2 1 0 0 /\
    solve w_problem (fun _ => pt 5) w_us 100 false r2 v1 = Some (false, v2) /\
    v_cost v2 <> total w_problem w_cost (v_xs v2) (v_us v2).
Proof.
  exists (Run [] (Some (pt 0, fst (eval_f w_problem (Ipopt_Model.set_us w_us (Ipopt_Model.set_xs (fun _ => pt 1) (v_iface w_solver))) (pt 0) 0))) MaximumIterationsExceeded (Some 1%nat)).
  eexists. exists (Run [] None (OtherStatus (-13)) (Some 0%nat)). eexists.
  split; [split; [same_end|discriminate]|].
  split; [reflexivity|]. split; [split; discriminate|]. split; [reflexivity|].
  unfold total, w_cost. cbn. unfold pt, seg. cbn. lra.
Qed.
(** After the problem's nodes are replaced, solve keeps the old layout: Ipopt is told of 3 variables
    where the problem has 6. *)
Definition w_node2 : inode R := INode 2 0 (fun x dx i => x i + dx i) (fun _ _ => idm) (fun x y i => y i - x i) (fun _ _ i j => - idm i j) (fun _ _ => idm)
  false (fun _ => 0) (fun _ => 0) (fun d _ _ => d) (fun d _ _ => d).
Definition w_problem2 : iproblem R := IProblem 2 (fun _ => w_node2) (fun _ => 1).
Theorem C106_layout_refuted : forall xs us n f r b v', solve w_problem2 xs us n f r w_solver = Some (b, v') ->
  fst (fst (fst (nlp_info w_problem2 (Ipopt_Model.set_us us (Ipopt_Model.set_xs xs (v_iface w_solver)))))) = 3%nat /\
  n_variables w_problem2 = 6%nat /\ s_nvar (v_iface v') = 3%nat.
Proof.
  intros xs us n f r b v' H. split; [reflexivity|]. split; [reflexivity|]. unfold solve in H.
  destruct (irun_keeps w_problem2 (r_calls r) (Ipopt_Model.set_us us (Ipopt_Model.set_xs xs (v_iface w_solver)))) as (_ & _ & _ & _ & K).
  destruct (r_stats r); [|discriminate].
  pose proof (f_equal (option_map (fun w => s_nvar (v_iface (snd w)))) H) as E. cbn [option_map snd v_iface] in E.
  destruct (r_end r) as [[x obj]|]; cbn [finalize s_nvar] in E; rewrite K in E; cbn in E; congruence.
Qed.

(** ** Examples *)
(** the certificate applies to the successful run of C106_flag_success_refuted *)
Example C106_ex_certificate : exists r v', honest w_problem (fun _ => pt 1) w_us w_solver r 1 0 0 /\ lives w_problem w_solver /\
  solve w_problem (fun _ => pt 1) w_us 100 false r w_solver = Some (true, v') /\ v_cost v' = 3.
Proof.
  destruct C106_flag_success_refuted as (r & v' & H & S1 & _ & G & X0). exists r, v'. split; [exact H|]. split; [exact w_lives|]. split; [exact S1|].
  destruct (C106_certificate w_problem _ _ _ _ _ _ _ _ _ _ _ _ _ _ w_regular w_lives H S1) as (_ & _ & _ & E). rewrite E.
  pose proof (G 0%nat ltac:(lia)) as G0. pose proof (G 1%nat ltac:(lia)) as G1. unfold gap, w_next in G0, G1. cbn in G0, G1, X0.
  unfold total. cbn. rewrite X0 in *. replace (v_xs v' 1%nat 0%nat) with 1 in * by lra. replace (v_xs v' 2%nat 0%nat) with 1 by lra. lra.
Qed.
Example C106_ex_tolerance : last_threshold (P := R) (Fin (1 # 1000)) [OTh (Fin 2); OTh (Fin (-1)); ONum "acceptable_tol" (Fin 5)] = Fin 2.
Proof. reflexivity. Qed.

Print Assumptions C106_installs.
Print Assumptions C106_certificate.
Print Assumptions C106_tolerance_partial.
Print Assumptions C106_tolerance_refuted.
Print Assumptions C106_maxiter_partial.
Print Assumptions C106_maxiter_refuted.
Print Assumptions C106_flag_refuted.
Print Assumptions C106_flag_success_refuted.
Print Assumptions C106_cost_refuted.
Print Assumptions C106_layout_refuted.
