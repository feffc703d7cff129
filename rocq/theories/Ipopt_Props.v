(** C52-C54, C71-C73: the Ipopt interface. *)
From Coquelicot Require Import Coquelicot.
From Coq Require Import Reals Lra Lia List Arith Bool FunctionalExtensionality.
From Verif Require Import Deriv VecMat Integrator_Spec IntegratorPsd_Proofs Ipopt_Model Ipopt_Proofs.
Import ListNotations.
Open Scope R_scope.

Section Props.
Context {P : Type}.
Implicit Type (p : iproblem P) (s : iface P).

(** ** Specification *)
(** Dimensions of the nonlinear program: a state increment per node, a control per running node;
    a gap per running node and the initial condition. *)
Definition n_variables p : nat := (nsum (p_T p) (fun t => ndx p t + nu p t) + ndx p (p_T p))%nat.
Definition n_constraints p : nat := (nsum (p_T p) (fun t => ndx p t) + ndx p 0)%nat.
(** An interface built for p or resized to p (from whatever it was), after any history of calls *)
Inductive reach p : iface P -> Prop :=
| r_create z d s : ipopt_create p z d = Some s -> reach p s
| r_resize s s' : ipopt_resize p s = Some s' -> reach p s'
| r_call s c : reach p s -> reach p (istep p s c)
| r_xs s xs : reach p s -> reach p (set_xs xs s)
| r_us s us : reach p s -> reach p (set_us us s)
| r_final s x obj : reach p s -> reach p (finalize p s x obj).
(** the same without a resize *)
Inductive fresh p : iface P -> Prop :=
| f_create z d s : ipopt_create p z d = Some s -> fresh p s
| f_call s c : fresh p s -> fresh p (istep p s c)
| f_xs s xs : fresh p s -> fresh p (set_xs xs s)
| f_us s us : fresh p s -> fresh p (set_us us s)
| f_final s x obj : fresh p s -> fresh p (finalize p s x obj).

Lemma istep_keeps p s c : s_xs (istep p s c) = s_xs s /\ s_us (istep p s c) = s_us s /\ s_ixu (istep p s c) = s_ixu s /\ s_nconst (istep p s c) = s_nconst s /\ s_nvar (istep p s c) = s_nvar s.
Proof.
  destruct c; cbn [istep]; unfold eval_f, eval_grad_f, eval_g, eval_jac_g, eval_h; cbn [snd]; auto.
  destruct (g_loop _ _ _ _ _); cbn [snd]; auto.
Qed.
Lemma reach_laid p s : reach p s -> laid p s.
Proof.
  induction 1 as [z d s H|s s' H|s c H IH|s xs H IH|s us H IH|s x obj H IH]; auto.
  - now apply create_laid in H.
  - now apply resize_laid in H.
  - destruct (istep_keeps p s c) as [_ [_ [E1 [E2 E3]]]]. unfold laid in *. now rewrite E1, E2, E3.
Qed.
Lemma fresh_reach p s : fresh p s -> reach p s /\ s_nconst s = n_constraints p.
Proof.
  induction 1 as [z d s H|s c H [IH1 IH2]|s xs H [IH1 IH2]|s us H [IH1 IH2]|s x obj H [IH1 IH2]].
  - split; [now apply (r_create p z d)|]. apply create_laid in H. apply H.
  - split; [now apply r_call|]. destruct (istep_keeps p s c) as [_ [_ [_ [E _]]]]. congruence.
  - split; [now apply r_xs|auto].
  - split; [now apply r_us|auto].
  - split; [now apply r_final|auto].
Qed.

(** ** C52 *)
Theorem C52_jacobian p s x : reach p s -> let '(n, m, nnz_jac, nnz_h) := nlp_info p s in
  length (jac_struct p s) = nnz_jac /\ length (fst (eval_jac_g p s x)) = nnz_jac /\ NoDup (jac_struct p s) /\
  (forall r c, In (r, c) (jac_struct p s) -> (r < m)%nat /\ (c < n)%nat).
Proof.
  intro H. apply reach_laid in H. unfold nlp_info. rewrite nnz_spec. cbn [Nat.add]. rewrite jac_vals_length, <- jac_struct_length.
  split; [reflexivity|]. split; [reflexivity|]. split; [apply jac_NoDup|]. intros r c. now apply jac_range.
Qed.
Theorem C52_hessian p s x sigma : reach p s -> let '(n, m, nnz_jac, nnz_h) := nlp_info p s in
  length (hess_struct p s) = nnz_h /\ length (fst (eval_h p s x sigma)) = nnz_h /\ NoDup (hess_struct p s) /\
  (forall r c, In (r, c) (hess_struct p s) -> (c <= r < n)%nat).
Proof.
  intro H. apply reach_laid in H. unfold nlp_info. rewrite nnz_spec. cbn [Nat.add]. rewrite hess_vals_length, <- hess_struct_length.
  split; [reflexivity|]. split; [reflexivity|]. split; [now apply hess_NoDup|]. intros r c Hrc. apply hess_range in Hrc; auto.
Qed.
(** The vectors: the gradient writes every variable once, the constraints are written once each. *)
Theorem C52_vectors p s x : fresh p s -> let '(n, m, _, _) := nlp_info p s in n = n_variables p /\ m = n_constraints p /\
  map fst (fst (eval_grad_f p s x)) = seq 0 n /\ map fst (starting_point p s) = seq 0 n /\ map fst (fst (eval_g p s x)) = seq 0 m.
Proof.
  intro H. apply fresh_reach in H. destruct H as [H Hc]. apply reach_laid in H. unfold nlp_info. rewrite nnz_spec.
  split; [apply H|]. split; [exact Hc|]. split; [|split].
  - exact (per_node_positions p s _ _ H).
  - exact (per_node_positions p s (fun _ _ => 0) (s_us s) H).
  - rewrite Hc. exact (g_positions p s x).
Qed.

(** ** C54 *)
Theorem C54_nvar_partial p s s' : ipopt_resize p s = Some s' -> s_nvar s' = n_variables p /\ s_nconst s' = (s_nconst s + n_constraints p)%nat.
Proof. intro H. apply resize_laid in H. destruct H as [[_ [_ [H _]]] H2]. split; [exact H|]. rewrite H2. unfold n_constraints. fold (cix p (p_T p)). lia. Qed.
Fixpoint resizes p (k : nat) s : option (iface P) := match k with O => Some s | S k => match ipopt_resize p s with Some s => resizes p k s | None => None end end.
(** k resizes announce k + 1 times the constraints. *)
Theorem C54_nconst_refuted p z d s k : ipopt_create p z d = Some s -> exists s', resizes p k s = Some s' /\
  s_nvar s' = n_variables p /\ s_nconst s' = (S k * n_constraints p)%nat /\ ((0 < k)%nat -> (0 < ndx p 0)%nat -> s_nconst s' <> n_constraints p).
Proof.
  intro H. assert (HT : (p_T p =? 0)%nat = false) by (unfold ipopt_create in H; destruct (p_T p =? 0)%nat; [discriminate|auto]).
  apply create_laid in H. destruct H as [[_ [_ [Hv _]]] Hc].
  assert (G : forall k s a, s_nvar s = n_variables p -> s_nconst s = (a * n_constraints p)%nat -> exists s', resizes p k s = Some s' /\ s_nvar s' = n_variables p /\ s_nconst s' = ((k + a) * n_constraints p)%nat).
  { clear s k Hv Hc. induction k as [|k IH]; intros s a H1 H2; cbn [resizes]; [exists s; auto|].
    destruct (ipopt_resize p s) as [s1|] eqn:E.
    - pose proof (C54_nvar_partial p s s1 E) as [G1 G2]. destruct (IH s1 (S a) G1) as [s' [K1 [K2 K3]]]; [rewrite G2, H2; lia|].
      exists s'. split; [exact K1|]. split; [exact K2|]. rewrite K3. f_equal. lia.
    - exfalso. unfold ipopt_resize in E. rewrite HT in E. destruct (layout p (s_ixu s) (s_nconst s)) as [[? ?] ?]. discriminate. }
  destruct (G k s 1%nat Hv ltac:(rewrite Hc; unfold n_constraints; fold (cix p (p_T p)); lia)) as [s' [K1 [K2 K3]]]. exists s'. split; [exact K1|]. split; [exact K2|].
  replace (k + 1)%nat with (S k) in K3 by lia. split; [exact K3|]. intros Hk Hn. rewrite K3. assert (Hp : (0 < n_constraints p)%nat) by (unfold n_constraints; lia). nia.
Qed.

(** ** Order of the calls *)
(** The action models: after calc at a point, calcDiff at the same point yields derivatives that
    depend only on the point; calc itself yields a cost and a next state that do.  [ready] is
    whatever calc leaves in the data for calcDiff. *)
Record regular p (cost : nat -> vec -> vec -> R) (xnext : nat -> vec -> vec -> vec) (dd : nat -> vec -> vec -> idata P) (ready : nat -> idata P -> vec -> vec -> Prop) : Prop := {
  rg_cost : forall t d x u, (t <= p_T p)%nat -> d_cost (i_calc (p_node p t) d x u) = cost t x u;
  rg_xnext : forall t d x u, (t <= p_T p)%nat -> d_xnext (i_calc (p_node p t) d x u) = xnext t x u;
  rg_calc : forall t d x u, (t <= p_T p)%nat -> ready t (i_calc (p_node p t) d x u) x u;
  rg_keep : forall t d x u, (t <= p_T p)%nat -> ready t d x u -> ready t (i_calcDiff (p_node p t) d x u) x u;
  rg_diff : forall t d x u, (t <= p_T p)%nat -> ready t d x u ->
    let d' := i_calcDiff (p_node p t) d x u in let e := dd t x u in
    d_xnext d' = d_xnext e /\ d_Fx d' = d_Fx e /\ d_Fu d' = d_Fu e /\ d_Lx d' = d_Lx e /\ d_Lu d' = d_Lu e /\ d_Lxx d' = d_Lxx e /\ d_Lxu d' = d_Lxu e /\ d_Luu d' = d_Luu e }.
Definition call_point (c : icall) : vec := match c with CF x _ | CGrad x | CG x | CJac x | CH x _ => x end.
Definition calls_calc (c : icall) : Prop := match c with CF _ _ | CGrad _ | CG _ => True | _ => False end.
(** a history that ends with calls at x, the first of which runs calc *)
Definition settled (x : vec) (cs : list icall) : Prop := exists cs0 c ts, cs = cs0 ++ c :: ts /\ calls_calc c /\ call_point c = x /\ List.Forall (fun c => call_point c = x) ts.

Lemma on_nodes_lt p f g s t : (t < p_T p)%nat -> s_data (on_nodes p f g s) t = f t (s_data s t).
Proof. intro H. unfold on_nodes, set_data. cbn [s_data]. destruct (Nat.ltb_spec t (p_T p)); auto; lia. Qed.
Lemma on_nodes_T p f g s : s_data (on_nodes p f g s) (p_T p) = g (p_T p) (s_data s (p_T p)).
Proof. unfold on_nodes, set_data. cbn [s_data]. now rewrite Nat.ltb_irrefl, Nat.eqb_refl. Qed.
Lemma irun_keeps p cs : forall s, s_xs (irun p s cs) = s_xs s /\ s_us (irun p s cs) = s_us s /\ s_ixu (irun p s cs) = s_ixu s /\ s_nconst (irun p s cs) = s_nconst s /\ s_nvar (irun p s cs) = s_nvar s.
Proof.
  induction cs as [|c cs IH]; intro s; cbn [irun fold_left]; [auto|]. destruct (istep_keeps p s c) as [E1 [E2 [E3 [E4 E5]]]].
  fold (irun p (istep p s c) cs). destruct (IH (istep p s c)) as [F1 [F2 [F3 [F4 F5]]]]. repeat split; congruence.
Qed.
(** functions of the point depend on xs_ and ixu_ only *)
Definition same p s s' : Prop := s_xs s = s_xs s' /\ s_ixu s = s_ixu s'.
Lemma same_v p s s' x t : same p s s' -> v_x p s x t = v_x p s' x t /\ v_u p s x t = v_u p s' x t /\ v_dx p s x t = v_dx p s' x t /\ v_xnext p s x t = v_xnext p s' x t /\ v_dxnext p s x t = v_dxnext p s' x t.
Proof. intros [E1 E2]. unfold v_x, v_u, v_dx, v_xnext, v_dxnext. now rewrite E1, E2. Qed.

Section Order.
Variables (p : iproblem P) (cost : nat -> vec -> vec -> R) (xnext : nat -> vec -> vec -> vec) (dd : nat -> vec -> vec -> idata P) (ready : nat -> idata P -> vec -> vec -> Prop).
Hypothesis HR : regular p cost xnext dd ready.
Definition node_ready (s : iface P) (x : vec) : Prop := forall t, (t < p_T p)%nat -> ready t (s_data s t) (v_x p s x t) (v_u p s x t).
Lemma eval_g_data s x t : (t < p_T p)%nat -> s_data (snd (eval_g p s x)) t = do_calc p s x t (s_data s t).
Proof. intro H. unfold eval_g. destruct (g_loop _ _ _ _ _). cbn [snd]. now rewrite on_nodes_lt. Qed.
Lemma calc_ready s c : calls_calc c -> node_ready (istep p s c) (call_point c).
Proof.
  intros Hc t Ht. destruct (istep_keeps p s c) as [E1 [_ [E2 _]]]. destruct (same_v p (istep p s c) s (call_point c) t (conj E1 E2)) as [V1 [V2 _]]. rewrite V1, V2.
  destruct c; cbn in Hc; try easy; cbn [istep call_point].
  - unfold eval_f. cbn [snd]. rewrite on_nodes_lt by auto. apply (rg_calc _ _ _ _ _ HR). lia.
  - unfold eval_grad_f. cbn [snd]. rewrite on_nodes_lt by auto. apply (rg_keep _ _ _ _ _ HR); [lia|]. apply (rg_calc _ _ _ _ _ HR). lia.
  - rewrite eval_g_data by auto. apply (rg_calc _ _ _ _ _ HR). lia.
Qed.
Lemma keep_ready s c : node_ready s (call_point c) -> node_ready (istep p s c) (call_point c).
Proof.
  intros H t Ht. specialize (H t Ht). destruct (istep_keeps p s c) as [E1 [_ [E2 _]]]. destruct (same_v p (istep p s c) s (call_point c) t (conj E1 E2)) as [V1 [V2 _]].
  destruct c as [y o|y|y|y|y o]; [exact (calc_ready s (CF y o) I t Ht)|exact (calc_ready s (CGrad y) I t Ht)|exact (calc_ready s (CG y) I t Ht)| |]; rewrite V1, V2; cbn [istep call_point] in *.
  - unfold eval_jac_g. cbn [snd]. rewrite on_nodes_lt by auto. apply (rg_keep _ _ _ _ _ HR); [lia|auto].
  - unfold eval_h. cbn [snd]. rewrite on_nodes_lt by auto. apply (rg_keep _ _ _ _ _ HR); [lia|auto].
Qed.
Lemma settled_ready s x cs : settled x cs -> node_ready (irun p s cs) x.
Proof.
  intros [cs0 [c [ts [-> [Hc [<- Ht]]]]]]. unfold irun. rewrite fold_left_app. cbn [fold_left]. fold (irun p s cs0). 
  assert (G : forall ts s, List.Forall (fun c' => call_point c' = call_point c) ts -> node_ready s (call_point c) -> node_ready (fold_left (istep p) ts s) (call_point c)).
  { induction ts0 as [|c' ts0 IH]; intros s0 F N; auto. inversion F as [|? ? F1 F2]; subst. cbn [fold_left]. apply IH; auto. rewrite <- F1. apply keep_ready. now rewrite F1. }
  apply G; auto. now apply calc_ready.
Qed.
(** ** C71 *)
(** The objective, its gradient and the constraints depend only on the point, after any history. *)
Theorem C71_calc_calls s x obj cs cs' :
  fst (eval_f p (irun p s cs) x obj) = fst (eval_f p (irun p s cs') x obj) /\
  fst (eval_grad_f p (irun p s cs) x) = fst (eval_grad_f p (irun p s cs') x) /\
  fst (eval_g p (irun p s cs) x) = fst (eval_g p (irun p s cs') x).
Proof.
  destruct (irun_keeps p cs s) as [E1 [_ [E2 _]]], (irun_keeps p cs' s) as [F1 [_ [F2 _]]].
  assert (HS : same p (irun p s cs) (irun p s cs')) by (split; congruence). set (s1 := irun p s cs) in *. set (s2 := irun p s cs') in *. clearbody s1 s2.
  assert (HX : s_ixu s1 = s_ixu s2) by apply HS. split; [|split].
  - unfold eval_f. cbn [fst]. rewrite !on_nodes_T. f_equal.
    + f_equal. apply rsum_ext. intros t Ht. rewrite !on_nodes_lt by auto. unfold do_calc. rewrite !(rg_cost _ _ _ _ _ HR) by lia. destruct (same_v p s1 s2 x t HS) as [V1 [V2 _]]. now rewrite V1, V2.
    + unfold do_calc. rewrite !(rg_cost _ _ _ _ _ HR) by lia. destruct (same_v p s1 s2 x (p_T p) HS) as [V1 [V2 _]]. now rewrite V1, V2.
  - unfold eval_grad_f. cbn [fst]. rewrite HX. 
    assert (G : forall t e1 e2, (t <= p_T p)%nat -> d_Lx (do_diff p s1 x t (do_calc p s1 x t e1)) = d_Lx (do_diff p s2 x t (do_calc p s2 x t e2)) /\
      d_Lu (do_diff p s1 x t (do_calc p s1 x t e1)) = d_Lu (do_diff p s2 x t (do_calc p s2 x t e2))).
    { intros t e1 e2 Ht. unfold do_diff, do_calc. destruct (same_v p s1 s2 x t HS) as [V1 [V2 _]]. rewrite V1, V2.
      destruct (rg_diff _ _ _ _ _ HR t _ _ _ Ht (rg_calc _ _ _ _ _ HR t e1 (v_x p s2 x t) (v_u p s2 x t) Ht)) as [_ [_ [_ [A1 [A2 _]]]]].
      destruct (rg_diff _ _ _ _ _ HR t _ _ _ Ht (rg_calc _ _ _ _ _ HR t e2 (v_x p s2 x t) (v_u p s2 x t) Ht)) as [_ [_ [_ [B1 [B2 _]]]]]. rewrite A1, A2, B1, B2. auto. }
    destruct HS as [HS1 HS2]. f_equal.
    + apply flat_map_ext_in. intros t Ht. apply in_seq in Ht. rewrite !on_nodes_lt by lia. destruct (G t (s_data s1 t) (s_data s2 t) ltac:(lia)) as [G1 G2].
      rewrite G1, G2. unfold v_dx. now rewrite HS1, HS2.
    + rewrite !on_nodes_T. destruct (G (p_T p) (s_data s1 (p_T p)) (s_data s2 (p_T p)) ltac:(lia)) as [G1 G2]. rewrite G1. unfold v_dx. now rewrite HS1, HS2.
  - change (g_writes p s1 x = g_writes p s2 x). rewrite !g_writes_eq. f_equal.
    + apply flat_map_ext_in. intros t Ht. apply in_seq in Ht. unfold g_dyn, do_calc. rewrite !(rg_xnext _ _ _ _ _ HR) by lia.
      destruct (same_v p s1 s2 x t HS) as [V1 [V2 [_ [V4 _]]]]. now rewrite V1, V2, V4.
    + unfold g_ic. destruct HS as [HS1 HS2]. now rewrite HS1.
Qed.
(** So do the Jacobian and the Hessian when the last point at which calc ran is that point.
    Missing: Ipopt may ask for derivatives after evaluations elsewhere (below). *)
Theorem C71_diff_calls_partial s x sigma cs cs' : settled x cs -> settled x cs' ->
  fst (eval_jac_g p (irun p s cs) x) = fst (eval_jac_g p (irun p s cs') x) /\
  fst (eval_h p (irun p s cs) x sigma) = fst (eval_h p (irun p s cs') x sigma).
Proof.
  intros H1 H2. apply (settled_ready s) in H1, H2.
  destruct (irun_keeps p cs s) as [E1 [_ [E2 _]]], (irun_keeps p cs' s) as [F1 [_ [F2 _]]].
  assert (HS : same p (irun p s cs) (irun p s cs')) by (split; congruence). set (s1 := irun p s cs) in *. set (s2 := irun p s cs') in *. clearbody s1 s2.
  assert (D1 : forall t, (t < p_T p)%nat -> let a := do_diff p s1 x t (s_data s1 t) in let b := do_diff p s2 x t (s_data s2 t) in
    d_xnext a = d_xnext b /\ d_Fx a = d_Fx b /\ d_Fu a = d_Fu b /\ d_Lxx a = d_Lxx b /\ d_Lxu a = d_Lxu b /\ d_Luu a = d_Luu b).
  { intros t Ht. cbv zeta. unfold do_diff. pose proof (H1 t Ht) as K1. pose proof (H2 t Ht) as K2. destruct (same_v p s1 s2 x t HS) as [V1 [V2 _]]. rewrite V1, V2 in *.
    destruct (rg_diff _ _ _ _ _ HR t _ _ _ ltac:(lia) K1) as [A1 [A2 [A3 [A4 [A5 [A6 [A7 A8]]]]]]].
    destruct (rg_diff _ _ _ _ _ HR t _ _ _ ltac:(lia) K2) as [B1 [B2 [B3 [B4 [B5 [B6 [B7 B8]]]]]]]. repeat split; congruence. }
  assert (D2 : d_Lxx (do_diff p s1 x (p_T p) (do_calc p s1 x (p_T p) (s_data s1 (p_T p)))) = d_Lxx (do_diff p s2 x (p_T p) (do_calc p s2 x (p_T p) (s_data s2 (p_T p))))).
  { unfold do_diff, do_calc. destruct (same_v p s1 s2 x (p_T p) HS) as [V1 [V2 _]]. rewrite V1, V2.
    destruct (rg_diff _ _ _ _ _ HR (p_T p) _ _ _ ltac:(lia) (rg_calc _ _ _ _ _ HR (p_T p) (s_data s1 (p_T p)) (v_x p s2 x (p_T p)) (v_u p s2 x (p_T p)) ltac:(lia))) as [_ [_ [_ [_ [_ [A _]]]]]].
    destruct (rg_diff _ _ _ _ _ HR (p_T p) _ _ _ ltac:(lia) (rg_calc _ _ _ _ _ HR (p_T p) (s_data s2 (p_T p)) (v_x p s2 x (p_T p)) (v_u p s2 x (p_T p)) ltac:(lia))) as [_ [_ [_ [_ [_ [B _]]]]]]. congruence. }
  destruct HS as [HS1 HS2]. split.
  - unfold eval_jac_g. cbn [fst]. f_equal.
    + apply flat_map_ext_in. intros t Ht. apply in_seq in Ht. destruct (D1 t ltac:(lia)) as [A1 [A2 [A3 _]]]. apply flat_map_ext_in. intros r _. rewrite !on_nodes_lt by lia.
      unfold Jg_dx, Jg_u, Jg_dxnext, v_xnext, v_dxnext, v_dx. rewrite A1, A2, A3, HS1, HS2. reflexivity.
    + apply flat_map_ext_in. intros r _. unfold Jg_ic. now rewrite HS1.
  - unfold eval_h. cbn [fst]. f_equal.
    + apply flat_map_ext_in. intros t Ht. apply in_seq in Ht. destruct (D1 t ltac:(lia)) as [A1 [A2 [A3 [A4 [A5 A6]]]]]. rewrite !on_nodes_lt by lia.
      unfold Ldxdx, Ldxu, v_dx. rewrite A4, A5, A6, HS1, HS2. reflexivity.
    + rewrite !on_nodes_T. unfold Ldxdx, v_dx. rewrite D2, HS1, HS2. reflexivity.
Qed.

(** ** C53 *)
(** eval_f adds the total cost at the point to what its output argument held. *)
Theorem C53_objective_partial s x obj : fst (eval_f p s x obj) =
  obj + (rsum (p_T p) (fun t => cost t (v_x p s x t) (v_u p s x t)) + cost (p_T p) (v_x p s x (p_T p)) (v_u p s x (p_T p))).
Proof.
  unfold eval_f. cbn [fst]. rewrite on_nodes_T.
  assert (ET : forall d, d_cost (do_calc p s x (p_T p) d) = cost (p_T p) (v_x p s x (p_T p)) (v_u p s x (p_T p))) by (intro d; unfold do_calc; now rewrite (rg_cost _ _ _ _ _ HR) by lia).
  rewrite ET.
  rewrite (rsum_ext (p_T p) _ (fun t => cost t (v_x p s x t) (v_u p s x t))); [ring|]. intros t Ht. rewrite on_nodes_lt by auto. unfold do_calc. now rewrite (rg_cost _ _ _ _ _ HR) by lia.
Qed.
(** eval_h: the quadratic form of the reported matrix is obj_factor times that of the running
    nodes plus that of the terminal node without the factor.  It is the one of the total cost for
    obj_factor = 1. *)
Theorem C53_hessian_partial s0 cs x sigma v : let s := irun p s0 cs in laid p s -> settled x cs ->
  (forall t, (t <= p_T p)%nat -> sym (ndx p t) (d_Lxx (dd t (v_x p s x t) (v_u p s x t)))) ->
  (forall t, (t < p_T p)%nat -> sym (nu p t) (d_Luu (dd t (v_x p s x t) (v_u p s x t)))) ->
  let J t := i_Jint (p_node p t) (s_xs s t) (v_dx p s x t) in let e t := dd t (v_x p s x t) (v_u p s x t) in
  lsum (trip_quad v) (combine (hess_struct p s) (fst (eval_h p s x sigma))) =
  sigma * rsum (p_T p) (fun t => quad (ndx p t) (nu p t) (d_Lxx (e t)) (d_Lxu (e t)) (d_Luu (e t)) (mulv (ndx p t) (J t) (fun i => v (off p t + i)%nat)) (fun i => v (off p t + ndx p t + i)%nat)) +
  quad (ndx p (p_T p)) 0 (d_Lxx (e (p_T p))) (d_Lxu (e (p_T p))) (d_Luu (e (p_T p))) (mulv (ndx p (p_T p)) (J (p_T p)) (fun i => v (off p (p_T p) + i)%nat)) (fun _ => 0).
Proof.
  intros s HL Hs Hx Hu J e. apply (settled_ready s0) in Hs. fold s in Hs. clearbody s. rewrite hess_sum. cbv zeta. f_equal.
  - rewrite <- rsum_scal. apply rsum_ext. intros t Ht. set (d := s_data (snd (eval_h p s x sigma)) t).
    assert (Ed : d = do_diff p s x t (s_data s t)) by (unfold d, eval_h; cbn [snd]; now rewrite on_nodes_lt).
    destruct (rg_diff _ _ _ _ _ HR t _ _ _ ltac:(lia) (Hs t Ht)) as [_ [_ [_ [_ [_ [A1 [A2 A3]]]]]]].
    change (i_calcDiff (p_node p t) (s_data s t) (v_x p s x t) (v_u p s x t)) with (do_diff p s x t (s_data s t)) in A1, A2, A3. rewrite <- Ed in A1, A2, A3. fold (e t) in A1, A2, A3.
    assert (Ex : s_ixu s t = off p t) by (apply HL; lia). rewrite Ex.
    destruct (full_quad p s x t d (fun i => v (off p t + i)%nat) (fun i => v (off p t + ndx p t + i)%nat) (fun i => v (off p t + i)%nat)) as [S1 S2].
    + rewrite A1. apply Hx. lia.
    + rewrite A3. now apply Hu.
    + auto.
    + intros i _. now rewrite Nat.add_assoc.
    + rewrite A1, A2, A3 in S2. fold (J t) in S2. rewrite <- S2.
      assert (SS : sym (ndx p t + nu p t) (fun r c => sigma * hess_full p s x t d r c)) by (intros i j Hi Hj; now rewrite S1).
      rewrite <- (bil_scal _ _ sigma). rewrite <- (tri_quad _ _ v (off p t) SS). reflexivity.
  - set (d := s_data (snd (eval_h p s x sigma)) (p_T p)).
    assert (Ed : d = do_diff p s x (p_T p) (do_calc p s x (p_T p) (s_data s (p_T p)))) by (unfold d, eval_h; cbn [snd]; now rewrite on_nodes_T).
    destruct (rg_diff _ _ _ _ _ HR (p_T p) _ _ _ ltac:(lia) (rg_calc _ _ _ _ _ HR (p_T p) (s_data s (p_T p)) (v_x p s x (p_T p)) (v_u p s x (p_T p)) ltac:(lia))) as [_ [_ [_ [_ [_ [A1 _]]]]]].
    change (d_Lxx (do_diff p s x (p_T p) (do_calc p s x (p_T p) (s_data s (p_T p)))) = d_Lxx (e (p_T p))) in A1. rewrite <- Ed in A1.
    assert (Ex : s_ixu s (p_T p) = off p (p_T p)) by (apply HL; lia). rewrite Ex.
    assert (B : forall a b, bil (ndx p (p_T p)) (ndx p (p_T p)) (Ldxdx p s x (p_T p) d) a b = bil (ndx p (p_T p)) (ndx p (p_T p)) (d_Lxx d) (mulv (ndx p (p_T p)) (J (p_T p)) a) (mulv (ndx p (p_T p)) (J (p_T p)) b)).
    { intros a b. unfold Ldxdx. fold (J (p_T p)). now rewrite bil_mulr, bil_mull. }
    assert (SS : sym (ndx p (p_T p)) (Ldxdx p s x (p_T p) d)) by (apply sym_bil; intros a b; rewrite !B, A1; apply bil_sym; apply Hx; lia).
    rewrite (tri_quad _ _ v (off p (p_T p)) SS), B, A1. unfold quad, bil.
    set (a := mulv (ndx p (p_T p)) (J (p_T p)) (fun i => v (off p (p_T p) + i)%nat)).
    assert (Z : dot (ndx p (p_T p)) a (mulv 0 (d_Lxu (e (p_T p))) (fun _ => 0)) = 0) by (unfold dot; apply rsum_0; intros; unfold mulv; cbn [rsum]; ring).
    rewrite Z. replace (dot 0 (fun _ => 0) (mulv 0 (d_Luu (e (p_T p))) (fun _ => 0))) with 0 by reflexivity. ring.
Qed.
End Order.

(** ** C72 *)
(** Smooth data: [tang X q v] says that the curve of states X has tangent velocity v at q.  For a
    Euclidean state it is the derivative; for a manifold it is a velocity in the tangent space.
    Every node has nd tangent coordinates, integrate and diff have the Jacobians that Jintegrate and Jdiff
    report, and the next state and cost of every node have the derivatives that calcDiff reports
    after calc. *)
Record smooth p (nd : nat) (tang : (R -> vec) -> R -> vec -> Prop) : Prop := {
  sm_nd : forall t, (t <= p_T p)%nat -> ndx p t = nd;
  sm_const : forall x q, tang (fun _ => x) q (fun _ => 0);
  sm_int : forall t x (DX : R -> vec) q W, (t <= p_T p)%nat -> (forall j, (j < nd)%nat -> is_derive (fun r => DX r j) q (W j)) ->
    tang (fun r => i_int (p_node p t) x (DX r)) q (mulv nd (i_Jint (p_node p t) x (DX q)) W);
  sm_diff : forall t (X Y : R -> vec) q v w i, (t <= p_T p)%nat -> tang X q v -> tang Y q w -> (i < nd)%nat ->
    is_derive (fun r => i_diff (p_node p t) (X r) (Y r) i) q (mulv nd (i_Jd1 (p_node p t) (X q) (Y q)) v i + mulv nd (i_Jd2 (p_node p t) (X q) (Y q)) w i);
  sm_dyn : forall t d (X U : R -> vec) q v w, (t < p_T p)%nat -> tang X q v -> (forall j, (j < nu p t)%nat -> is_derive (fun r => U r j) q (w j)) ->
    let d' := i_calcDiff (p_node p t) (i_calc (p_node p t) d (X q) (U q)) (X q) (U q) in
    tang (fun r => d_xnext (i_calc (p_node p t) d (X r) (U r))) q (fun i => mulv nd (d_Fx d') v i + mulv (nu p t) (d_Fu d') w i);
  sm_cost : forall t d (X U : R -> vec) q v w, (t <= p_T p)%nat -> tang X q v -> (forall j, (j < nu p t)%nat -> is_derive (fun r => U r j) q (w j)) ->
    let d' := i_calcDiff (p_node p t) (i_calc (p_node p t) d (X q) (U q)) (X q) (U q) in
    is_derive (fun r => d_cost (i_calc (p_node p t) d (X r) (U r))) q (dot nd (d_Lx d') v + dot (nu p t) (d_Lu d') w);
  sm_keep : forall t d x u, (t <= p_T p)%nat -> d_xnext (i_calcDiff (p_node p t) d x u) = d_xnext d }.

Lemma rsum_off p (f : nat -> R) k : rsum (off p k) f =
  rsum k (fun t => rsum (ndx p t) (fun j => f (off p t + j)%nat) + rsum (nu p t) (fun j => f (off p t + ndx p t + j)%nat)).
Proof. induction k; [reflexivity|]. rewrite off_S, !rsum_app, IHk. cbn [rsum]. ring. Qed.
Lemma dot_tr n J a b : dot n (mulv n (tr J) a) b = dot n a (mulv n J b).
Proof.
  change (dot n a (mulv n J b)) with (bil n n J a b). rewrite <- bil_tr. unfold bil, dot. apply rsum_ext. intros. ring.
Qed.
Lemma var_x p s t j : laid p s -> (t <= p_T p)%nat -> (j < ndx p t)%nat -> (off p t + j < s_nvar s)%nat.
Proof.
  intros [_ [_ [-> _]]] Ht Hj. destruct (Nat.eq_dec t (p_T p)) as [->|]; [lia|]. pose proof (off_mono p t (p_T p) ltac:(lia)). lia.
Qed.
Lemma var_u p s t j : laid p s -> (t < p_T p)%nat -> (j < nu p t)%nat -> (off p t + ndx p t + j < s_nvar s)%nat.
Proof. intros [_ [_ [-> _]]] Ht Hj. pose proof (off_mono p t (p_T p) Ht). lia. Qed.

Section Smooth.
Variables (p : iproblem P) (nd : nat) (tang : (R -> vec) -> R -> vec -> Prop).
Hypothesis HS : smooth p nd tang.
Variables (s : iface P) (X : R -> vec) (q : R) (V : vec).
Hypothesis HL : laid p s.
Hypothesis HX : forall j, (j < s_nvar s)%nat -> is_derive (fun r => X r j) q (V j).
Let W (t : nat) : vec := fun j => V (off p t + j)%nat.
Let Wu (t : nat) : vec := fun j => if (t <? p_T p)%nat then V (off p t + ndx p t + j)%nat else 0.
Lemma dx_derive t j : (t <= p_T p)%nat -> (j < nd)%nat -> is_derive (fun r => v_dx p s (X r) t j) q (W t j).
Proof.
  intros Ht Hj. destruct HL as [_ [Hx _]]. unfold v_dx, seg. rewrite Hx, (sm_nd _ _ _ HS) by auto. rewrite (proj2 (Nat.ltb_lt j nd) Hj).
  apply HX. apply var_x; auto. now rewrite (sm_nd _ _ _ HS).
Qed.
Lemma u_derive t j : (t <= p_T p)%nat -> (j < nu p t)%nat -> is_derive (fun r => v_u p s (X r) t j) q (Wu t j).
Proof.
  intros Ht Hj. destruct HL as [_ [Hx _]]. unfold v_u, seg, Wu. destruct (Nat.ltb_spec t (p_T p)) as [L|L]; [|apply dconst].
  rewrite Hx by auto. rewrite (proj2 (Nat.ltb_lt j _) Hj). apply HX. now apply var_u.
Qed.
Lemma x_tang t : (t <= p_T p)%nat -> tang (fun r => v_x p s (X r) t) q (mulv nd (i_Jint (p_node p t) (s_xs s t) (v_dx p s (X q) t)) (W t)).
Proof. intro Ht. apply (sm_int _ _ _ HS t (s_xs s t) (fun r => v_dx p s (X r) t)); auto. intros j Hj. now apply dx_derive. Qed.
(** eval_grad_f is the gradient of eval_f. *)
Lemma grad_lemma a obj : is_derive (fun r => fst (eval_f p s (X r) obj)) q (dot (s_nvar s) (writes a (fst (eval_grad_f p s (X q)))) V).
Proof.
  set (D := fun t => do_diff p s (X q) t (do_calc p s (X q) t (s_data s t))).
  set (Jt := fun t => i_Jint (p_node p t) (s_xs s t) (v_dx p s (X q) t)).
  assert (HC : forall t, (t <= p_T p)%nat -> is_derive (fun r => d_cost (do_calc p s (X r) t (s_data s t))) q (dot nd (d_Lx (D t)) (mulv nd (Jt t) (W t)) + dot (nu p t) (d_Lu (D t)) (Wu t))).
  { intros t Ht. apply (sm_cost _ _ _ HS t (s_data s t) (fun r => v_x p s (X r) t) (fun r => v_u p s (X r) t)); auto; [now apply x_tang|]. intros j Hj. now apply u_derive. }
  eapply deq.
  - apply (dext (fun r => obj + rsum (p_T p) (fun t => d_cost (do_calc p s (X r) t (s_data s t))) + d_cost (do_calc p s (X r) (p_T p) (s_data s (p_T p))))).
    + intro r. unfold eval_f. cbn [fst]. rewrite on_nodes_T. f_equal. f_equal. apply rsum_ext. intros t Ht. now rewrite on_nodes_lt.
    + apply dplus; [apply dplus; [apply dconst|]|].
      * apply (drsum (p_T p) (fun t r => d_cost (do_calc p s (X r) t (s_data s t))) q (fun t => dot nd (d_Lx (D t)) (mulv nd (Jt t) (W t)) + dot (nu p t) (d_Lu (D t)) (Wu t))).
        intros t Ht. apply HC. lia.
      * apply HC. lia.
  - assert (Hg : fst (eval_grad_f p s (X q)) = per_node p s (fun t => mulv (ndx p t) (tr (Jt t)) (d_Lx (D t))) (fun t => d_Lu (D t))).
    { unfold eval_grad_f, per_node. cbn [fst]. f_equal.
      - apply flat_map_ext_in. intros t Ht. apply in_seq in Ht. now rewrite !on_nodes_lt by lia.
      - now rewrite on_nodes_T. }
    rewrite Hg. symmetry. unfold dot at 1. assert (En : s_nvar s = (off p (p_T p) + ndx p (p_T p))%nat) by apply HL. rewrite En, rsum_app, rsum_off.
    rewrite (rsum_ext (p_T p) _ (fun t => dot nd (d_Lx (D t)) (mulv nd (Jt t) (W t)) + dot (nu p t) (d_Lu (D t)) (Wu t))).
    + rewrite (rsum_ext (ndx p (p_T p)) _ (fun j => mulv (ndx p (p_T p)) (tr (Jt (p_T p))) (d_Lx (D (p_T p))) j * W (p_T p) j)).
      * change (rsum (ndx p (p_T p)) (fun j => mulv (ndx p (p_T p)) (tr (Jt (p_T p))) (d_Lx (D (p_T p))) j * W (p_T p) j)) with
          (dot (ndx p (p_T p)) (mulv (ndx p (p_T p)) (tr (Jt (p_T p))) (d_Lx (D (p_T p)))) (W (p_T p))). rewrite dot_tr, (sm_nd _ _ _ HS) by lia.
        assert (Z : dot (nu p (p_T p)) (d_Lu (D (p_T p))) (Wu (p_T p)) = 0) by (unfold dot; apply rsum_0; intros j _; unfold Wu; rewrite Nat.ltb_irrefl; ring). rewrite Z. ring.
      * intros j Hj. now rewrite per_node_x by (auto; lia).
    + intros t Ht. f_equal.
      * rewrite (rsum_ext (ndx p t) _ (fun j => mulv (ndx p t) (tr (Jt t)) (d_Lx (D t)) j * W t j)) by (intros j Hj; now rewrite per_node_x by (auto; lia)).
        change (dot (ndx p t) (mulv (ndx p t) (tr (Jt t)) (d_Lx (D t))) (W t) = dot nd (d_Lx (D t)) (mulv nd (Jt t) (W t))). now rewrite dot_tr, (sm_nd _ _ _ HS) by lia.
      * unfold dot. apply rsum_ext. intros j Hj. rewrite per_node_u by auto. unfold Wu. now rewrite (proj2 (Nat.ltb_lt t _) Ht).
Qed.
(** the Jacobian, dynamics rows and initial condition *)
Lemma jac_lemma_dyn a t r : (t < p_T p)%nat -> (r < ndx p t)%nat -> let s' := snd (eval_g p s (X q)) in
  is_derive (fun y => writes a (fst (eval_g p s (X y))) (cix p t + r)%nat) q (lsum (trip_row (cix p t + r) V) (combine (jac_struct p s') (fst (eval_jac_g p s' (X q))))).
Proof.
  intros Ht Hr s'. assert (Hr' : (r < nd)%nat) by (rewrite <- (sm_nd _ _ _ HS t); [auto|lia]).
  rewrite jac_apply_dyn by auto.
  destruct (istep_keeps p s (CG (X q))) as [E1 [_ [E2 _]]]. cbn [istep] in E1, E2. fold s' in E1, E2.
  assert (Ed : s_data (snd (eval_jac_g p s' (X q))) t = do_diff p s (X q) t (do_calc p s (X q) t (s_data s t))).
  { unfold eval_jac_g. cbn [snd]. rewrite on_nodes_lt by auto. unfold s' at 2. rewrite eval_g_data by auto. unfold do_diff.
    destruct (same_v p s' s (X q) t (conj E1 E2)) as [V1 [V2 _]]. now rewrite V1, V2. }
  rewrite Ed. set (d := do_diff p s (X q) t (do_calc p s (X q) t (s_data s t))).
  apply (dext (fun y => g_dyn p s (X y) t r)); [intro y; symmetry; exact (g_value_dyn p s (X y) a t r Ht Hr)|].
  set (v := mulv nd (i_Jint (p_node p t) (s_xs s t) (v_dx p s (X q) t)) (W t)).
  assert (T1 : tang (fun y => d_xnext (do_calc p s (X y) t (s_data s t))) q (fun i => mulv nd (d_Fx d) v i + mulv (nu p t) (d_Fu d) (Wu t) i)).
  { apply (sm_dyn _ _ _ HS t (s_data s t) (fun y => v_x p s (X y) t) (fun y => v_u p s (X y) t)); auto; [apply x_tang; lia|]. intros j Hj. apply u_derive; auto; lia. }
  assert (T2 : tang (fun y => v_xnext p s (X y) t) q (mulv nd (i_Jint (p_node p (S t)) (s_xs s (S t)) (v_dxnext p s (X q) t)) (W (S t)))).
  { apply (sm_int _ _ _ HS (S t) (s_xs s (S t)) (fun y => v_dxnext p s (X y) t)); [lia|]. intros j Hj. unfold v_dxnext, seg. rewrite (sm_nd _ _ _ HS (S t)) by lia. rewrite (proj2 (Nat.ltb_lt j nd) Hj).
    destruct HL as [_ [Hx _]]. rewrite Hx by lia. rewrite <- off_S. apply HX. apply var_x; auto. rewrite (sm_nd _ _ _ HS); auto. }
  eapply deq; [exact (sm_diff _ _ _ HS t _ _ q _ _ r ltac:(lia) T1 T2 Hr')|].
  assert (Exn : d_xnext d = d_xnext (do_calc p s (X q) t (s_data s t))) by (unfold d, do_diff; apply (sm_keep _ _ _ HS); lia).
  cbv beta. rewrite <- Exn. set (A1 := i_Jd1 (p_node p t) (d_xnext d) (v_xnext p s (X q) t)). set (A2 := i_Jd2 (p_node p t) (d_xnext d) (v_xnext p s (X q) t)).
  assert (Ex : s_ixu s' t = off p t) by (rewrite E2; apply HL; lia). rewrite Ex.
  assert (N1 : ndx p t = nd) by (apply (sm_nd _ _ _ HS); lia). assert (N2 : ndx p (S t) = nd) by (apply (sm_nd _ _ _ HS); lia).
  rewrite !rsum_app.
  assert (S1 : rsum (ndx p t) (fun c => jac_row p s' (X q) t d r c * V (off p t + c)%nat) = mulv nd A1 (mulv nd (d_Fx d) v) r).
  { transitivity (mulv nd (mulm nd A1 (mulm nd (d_Fx d) (i_Jint (p_node p t) (s_xs s t) (v_dx p s (X q) t)))) (W t) r).
    - unfold mulv at 1. rewrite N1. apply rsum_ext. intros c Hc. unfold jac_row, two. rewrite N1.
      destruct (Nat.ltb_spec c (nd + nu p t)); [|lia]. destruct (Nat.ltb_spec c nd); [|lia]. f_equal. unfold Jg_dx, A1, v_xnext, v_dxnext, v_dx. now rewrite N1, E1, E2.
    - rewrite mulv_mulm. apply rsum_ext. intros j Hj. f_equal. apply mulv_mulm. }
  assert (S2 : rsum (nu p t) (fun i => jac_row p s' (X q) t d r (ndx p t + i)%nat * V (off p t + (ndx p t + i))%nat) = mulv nd A1 (mulv (nu p t) (d_Fu d) (Wu t)) r).
  { rewrite <- mulv_mulm. unfold mulv at 1. apply rsum_ext. intros c Hc. unfold jac_row, two. rewrite N1.
    destruct (Nat.ltb_spec (nd + c) (nd + nu p t)); [|lia]. destruct (Nat.ltb_spec (nd + c) nd); [lia|]. unfold Wu. rewrite (proj2 (Nat.ltb_lt t _) Ht), N1, Nat.add_assoc. f_equal.
    unfold Jg_u, A1, v_xnext, v_dxnext. rewrite N1, E1, E2. now replace (nd + c - nd)%nat with c by lia. }
  assert (S3 : rsum (ndx p (S t)) (fun i => jac_row p s' (X q) t d r (ndx p t + nu p t + i)%nat * V (off p t + (ndx p t + nu p t + i))%nat) =
     mulv nd A2 (mulv nd (i_Jint (p_node p (S t)) (s_xs s (S t)) (v_dxnext p s (X q) t)) (W (S t))) r).
  { rewrite <- mulv_mulm. unfold mulv at 1. rewrite N2. apply rsum_ext. intros c Hc. unfold jac_row, two. rewrite N1.
    destruct (Nat.ltb_spec (nd + nu p t + c) (nd + nu p t)); [lia|]. unfold W. rewrite off_S, N1, !Nat.add_assoc. f_equal.
    unfold Jg_dxnext, A2, v_xnext, v_dxnext. rewrite N1, E1, E2. now replace (nd + nu p t + c - (nd + nu p t))%nat with c by lia. }
  rewrite S1, S2, S3. f_equal. unfold mulv at 1. rewrite (rsum_ext nd _ (fun j => A1 r j * mulv nd (d_Fx d) v j + A1 r j * mulv (nu p t) (d_Fu d) (Wu t) j)) by (intros; ring).
  rewrite rsum_plus. reflexivity.
Qed.
Lemma jac_lemma_ic a r : (r < ndx p 0)%nat -> let s' := snd (eval_g p s (X q)) in
  is_derive (fun y => writes a (fst (eval_g p s (X y))) (cix p (p_T p) + r)%nat) q (lsum (trip_row (cix p (p_T p) + r) V) (combine (jac_struct p s') (fst (eval_jac_g p s' (X q))))).
Proof.
  intros Hr s'. assert (N0 : ndx p 0 = nd) by (apply (sm_nd _ _ _ HS); lia). assert (Hr' : (r < nd)%nat) by lia.
  rewrite jac_apply_ic by auto. destruct (istep_keeps p s (CG (X q))) as [E1 [_ [E2 _]]]. cbn [istep] in E1, E2. fold s' in E1, E2.
  apply (dext (fun y => g_ic p s (X y) r)); [intro y; symmetry; exact (g_value_ic p s (X y) a r Hr)|].
  assert (Hd : forall j, (j < nd)%nat -> is_derive (fun y => seg (X y) 0 (ndx p 0) j) q (V j)).
  { intros j Hj. unfold seg. rewrite N0, (proj2 (Nat.ltb_lt j nd) Hj). apply HX. apply (var_x p s 0 j HL); lia. }
  pose proof (sm_int _ _ _ HS 0%nat (s_xs s 0%nat) (fun y => seg (X y) 0 (ndx p 0)) q V ltac:(lia) Hd) as T1.
  eapply deq; [exact (sm_diff _ _ _ HS 0%nat _ _ q _ _ r ltac:(lia) T1 (sm_const _ _ _ HS (p_x0 p) q) Hr')|].
  rewrite <- mulv_mulm. cbv beta.
  assert (Z : mulv nd (i_Jd2 (p_node p 0) (i_int (p_node p 0) (s_xs s 0%nat) (seg (X q) 0 (ndx p 0))) (p_x0 p)) (fun _ => 0) r = 0) by (unfold mulv; apply rsum_0; intros; ring).
  rewrite Z, Rplus_0_r. unfold mulv at 1. rewrite N0. apply rsum_ext. intros c Hc. f_equal. unfold Jg_ic. rewrite N0, E1. reflexivity.
Qed.
End Smooth.
Lemma row_cases p i : (i < n_constraints p)%nat -> (exists t r, (t < p_T p)%nat /\ (r < ndx p t)%nat /\ i = (cix p t + r)%nat) \/ (exists r, (r < ndx p 0)%nat /\ i = (cix p (p_T p) + r)%nat).
Proof.
  intro H. destruct (lt_dec i (cix p (p_T p))) as [L|L].
  - left. clear H. revert L. generalize (p_T p) as k. induction k as [|k IH]; intro L; [unfold cix in L; cbn in L; lia|].
    destruct (lt_dec i (cix p k)) as [L'|L'].
    + destruct (IH L') as [t [r [H1 [H2 H3]]]]. exists t, r. repeat split; auto; lia.
    + exists k, (i - cix p k)%nat. change (cix p (S k)) with (cix p k + ndx p k)%nat in L. repeat split; lia.
  - right. exists (i - cix p (p_T p))%nat. unfold n_constraints in H. fold (cix p (p_T p)) in H. split; lia.
Qed.
(** Along every smooth curve of points, whatever the output arrays held before: the objective
    changes as the gradient says, and every constraint as its row of the Jacobian says, when the
    Jacobian is asked for at the point where the constraints were evaluated. *)
Theorem C72_gradient p nd tang s X q V a obj : smooth p nd tang -> reach p s -> (forall j, (j < s_nvar s)%nat -> is_derive (fun r => X r j) q (V j)) ->
  is_derive (fun r => fst (eval_f p s (X r) obj)) q (dot (s_nvar s) (writes a (fst (eval_grad_f p s (X q)))) V).
Proof. intros HS HR HX. apply (grad_lemma p nd tang HS s X q V (reach_laid p s HR) HX). Qed.
Theorem C72_jacobian p nd tang s X q V a i : smooth p nd tang -> reach p s -> (forall j, (j < s_nvar s)%nat -> is_derive (fun r => X r j) q (V j)) ->
  (i < n_constraints p)%nat -> let s' := snd (eval_g p s (X q)) in
  is_derive (fun r => writes a (fst (eval_g p s (X r))) i) q (lsum (trip_row i V) (combine (jac_struct p s') (fst (eval_jac_g p s' (X q))))).
Proof.
  intros HS HR HX Hi. destruct (row_cases p i Hi) as [[t [r [H1 [H2 ->]]]]|[r [H1 ->]]].
  - exact (jac_lemma_dyn p nd tang HS s X q V (reach_laid p s HR) HX a t r H1 H2).
  - exact (jac_lemma_ic p nd tang HS s X q V (reach_laid p s HR) HX a r H1).
Qed.

(** ** C73 *)
(** The states integrate the zero increment to themselves. *)
Definition unital p : Prop := forall t x, (t <= p_T p)%nat -> i_int (p_node p t) x (fun _ => 0) = x.
Lemma start_values p s a t : reach p s -> (t <= p_T p)%nat -> let x := writes a (starting_point p s) in
  v_dx p s x t = (fun _ => 0) /\ (forall j, (t < p_T p)%nat -> (j < nu p t)%nat -> v_u p s x t j = s_us s t j).
Proof.
  intros H Ht x. pose proof (reach_laid p s H) as HL. assert (Hx : x = writes a (per_node p s (fun _ _ => 0) (s_us s))) by reflexivity. split.
  - apply functional_extensionality. intro j. unfold v_dx, seg. destruct (Nat.ltb_spec j (ndx p t)); auto. rewrite Hx. rewrite (proj1 (proj2 HL) t Ht).
    apply (per_node_x p s (fun _ _ => 0) (s_us s) a t j); auto.
  - intros j Ht' Hj. unfold v_u, seg. rewrite (proj2 (Nat.ltb_lt t _) Ht'), (proj2 (Nat.ltb_lt j _) Hj), Hx. rewrite (proj1 (proj2 HL) t Ht).
    apply (per_node_u p s (fun _ _ => 0) (s_us s) a t j); auto.
Qed.
(** The starting point stands for the stored candidate, and finalising there gives it back. *)
Theorem C73_start p s a : reach p s -> unital p -> let x := writes a (starting_point p s) in
  (forall t, (t <= p_T p)%nat -> v_x p s x t = s_xs s t) /\
  (forall t j, (t < p_T p)%nat -> (j < nu p t)%nat -> v_u p s x t j = s_us s t j) /\
  (forall obj t, s_xs (finalize p s x obj) t = s_xs s t) /\ (forall obj t j, (t < p_T p)%nat -> (j < nu p t)%nat -> s_us (finalize p s x obj) t j = s_us s t j).
Proof.
  intros H HU x.
  assert (G1 : forall t, (t <= p_T p)%nat -> v_x p s x t = s_xs s t) by (intros t Ht; unfold v_x, x; rewrite (proj1 (start_values p s a t H Ht)); now apply HU).
  assert (G2 : forall t j, (t < p_T p)%nat -> (j < nu p t)%nat -> v_u p s x t j = s_us s t j) by (intros t j Ht Hj; unfold x; apply (proj2 (start_values p s a t H ltac:(lia)) j Ht Hj)).
  split; [exact G1|]. split; [exact G2|]. split.
  - intros obj t. unfold finalize. cbn [s_xs]. destruct (Nat.leb_spec t (p_T p)); auto.
  - intros obj t j Ht Hj. unfold finalize. cbn [s_us]. rewrite (proj2 (Nat.ltb_lt t _) Ht). now apply G2.
Qed.
(** The solution is stored so that a new solve starts from it: after finalising at x, the new
    starting point stands for the states and controls of x. *)
Theorem C73_warm_start p s a x obj : reach p s -> unital p -> let s' := finalize p s x obj in let x' := writes a (starting_point p s') in
  s_cost s' = obj /\ (forall t, (t <= p_T p)%nat -> s_xs s' t = v_x p s x t /\ v_x p s' x' t = v_x p s x t) /\
  (forall t j, (t < p_T p)%nat -> (j < nu p t)%nat -> s_us s' t j = v_u p s x t j /\ v_u p s' x' t j = v_u p s x t j).
Proof.
  intros H HU s' x'. assert (H' : reach p s') by now apply r_final. destruct (C73_start p s' a H' HU) as [G1 [G2 _]]. fold x' in G1, G2.
  split; [reflexivity|]. split.
  - intros t Ht. assert (E : s_xs s' t = v_x p s x t) by (unfold s', finalize; cbn [s_xs]; now rewrite (proj2 (Nat.leb_le t _) Ht)). split; auto. rewrite G1; auto.
  - intros t j Ht Hj. assert (E : s_us s' t j = v_u p s x t j) by (unfold s', finalize; cbn [s_us]; now rewrite (proj2 (Nat.ltb_lt t _) Ht)). split; auto. rewrite G2; auto.
Qed.
(** The bounds given to Ipopt: the control limits of the models that have them, none elsewhere;
    the constraints are equalities. *)
Theorem C73_bounds p s big a up : reach p s -> let b := writes a (bounds_x p s big up) in let none := if up then big else - big in
  map fst (bounds_x p s big up) = seq 0 (s_nvar s) /\
  (forall t j, (t <= p_T p)%nat -> (j < ndx p t)%nat -> b (off p t + j)%nat = none) /\
  (forall t j, (t < p_T p)%nat -> (j < nu p t)%nat -> b (off p t + ndx p t + j)%nat =
     if i_lim (p_node p t) then (if up then i_uub (p_node p t) j else i_ulb (p_node p t) j) else none) /\
  (forall i, (i < s_nconst s)%nat -> writes a (bounds_g s) i = 0).
Proof.
  intros H b none. pose proof (reach_laid p s H) as HL.
  assert (E : bounds_x p s big up = per_node p s (fun _ _ => none) (fun t j => if i_lim (p_node p t) then (if up then i_uub (p_node p t) j else i_ulb (p_node p t) j) else none)) by reflexivity.
  split; [rewrite E; now apply per_node_positions|]. split; [|split].
  - intros t j Ht Hj. unfold b. rewrite E. now rewrite per_node_x.
  - intros t j Ht Hj. unfold b. rewrite E. now rewrite per_node_u.
  - intros i Hi. apply writes_in; [unfold bounds_g; rewrite map_fst_seg; apply seq_NoDup|]. unfold bounds_g. apply (in_seg 0 (s_nconst s) (fun _ => 0) i Hi).
Qed.
End Props.

(** ** Witnesses: one coordinate, no control, x' = x^2 with calcDiff reusing what calc stored,
    cost x^2, terminal cost x^2 *)
Definition w_node : inode R := INode 1 0 (fun x dx i => x i + dx i) (fun _ _ => idm) (fun x y i => y i - x i) (fun _ _ i j => - idm i j) (fun _ _ => idm)
  false (fun _ => 0) (fun _ => 0)
  (fun d x _ => IData (fun _ => x 0%nat * x 0%nat) (x 0%nat * x 0%nat) (d_Fx d) (d_Fu d) (d_Lx d) (d_Lu d) (d_Lxx d) (d_Lxu d) (d_Luu d) (x 0%nat))
  (fun d x _ => IData (d_xnext d) (d_cost d) (fun _ _ => 2 * d_priv d) (fun _ _ => 0) (fun _ => 2 * x 0%nat) (fun _ => 0) (fun _ _ => 2) (fun _ _ => 0) (fun _ _ => 0) (d_priv d)).
Definition w_problem : iproblem R := IProblem 2 (fun _ => w_node) (fun _ => 1).
Definition w_data : idata R := IData (fun _ => 0) 0 (fun _ _ => 0) (fun _ _ => 0) (fun _ => 0) (fun _ => 0) (fun _ _ => 0) (fun _ _ => 0) (fun _ _ => 0) 0.
Lemma w_reach : exists s, ipopt_create w_problem (fun _ _ => 0) (fun _ => w_data) = Some s /\ reach w_problem s /\ fresh w_problem s.
Proof. eexists. split; [reflexivity|]. split; [eapply r_create; reflexivity|eapply f_create; reflexivity]. Qed.
Lemma w_regular : regular w_problem (fun _ x _ => x 0%nat * x 0%nat) (fun _ x _ _ => x 0%nat * x 0%nat)
  (fun _ x _ => IData (fun _ => x 0%nat * x 0%nat) 0 (fun _ _ => 2 * x 0%nat) (fun _ _ => 0) (fun _ => 2 * x 0%nat) (fun _ => 0) (fun _ _ => 2) (fun _ _ => 0) (fun _ _ => 0) 0)
  (fun _ d x _ => d_priv d = x 0%nat /\ d_xnext d = (fun _ => x 0%nat * x 0%nat)).
Proof.
  constructor; cbn; auto.
  intros t d x u _ [-> ->]. repeat split.
Qed.
Lemma w_smooth : smooth w_problem 1 (fun X q v => is_derive (fun r => X r 0%nat) q (v 0%nat)).
Proof.
  constructor; cbn [p_T w_problem p_node w_node i_ndx i_int i_Jint i_diff i_Jd1 i_Jd2 i_calc i_calcDiff d_xnext d_cost d_Fx d_Fu d_Lx d_Lu d_priv]; auto.
  - intros x q. apply dconst.
  - intros t x DX q W _ H. eapply deq; [apply dplus; [apply dconst|apply H; lia]|]. unfold mulv, idm. cbn. ring.
  - intros t X Y q v w i _ HX HY Hi. replace i with 0%nat by lia. eapply deq; [apply dminus; [exact HY|exact HX]|]. unfold mulv, idm. cbn. ring.
  - intros t d X U q v w _ HX _. cbv beta. eapply deq; [apply dmult; exact HX|]. unfold mulv. cbn [rsum nu p_node i_nu w_problem w_node]. unfold nu. cbn. ring.
  - intros t d X U q v w _ HX _. eapply deq; [apply dmult; exact HX|]. unfold dot. unfold nu. cbn. ring.
Qed.
Definition pt (c : R) : vec := fun _ => c.
(** calcDiff at a point after calc at another: the Jacobian is the one of the other point. *)
Theorem C71_jacobian_refuted : exists s, reach w_problem s /\
  fst (eval_jac_g w_problem (irun w_problem s [CG (pt 1); CG (pt 2)]) (pt 1)) <> fst (eval_jac_g w_problem (irun w_problem s [CG (pt 2); CG (pt 1)]) (pt 1)).
Proof.
  destruct w_reach as [s [E [H _]]]. injection E as E. exists s. split; [exact H|]. subst s. intro K. apply (f_equal (fun l => nth 0 l 0)) in K. cbn in K.
  unfold Jg_dx, mulm in K. cbn in K. unfold seg, pt, idm in K. cbn in K. lra.
Qed.
Theorem C53_objective_refuted : exists s, reach w_problem s /\ fst (eval_f w_problem s (pt 1) 0) <> fst (eval_f w_problem s (pt 1) 5).
Proof.
  destruct w_reach as [s [E [H _]]]. injection E as E. exists s. split; [exact H|]. rewrite !(C53_objective_partial w_problem _ _ _ _ w_regular). lra.
Qed.
(** With obj_factor = 0 the Hessian of the objective should vanish; the terminal entry is 2. *)
Theorem C53_hessian_refuted : exists s, reach w_problem s /\
  lsum (trip_quad (pt 1)) (combine (hess_struct w_problem s) (fst (eval_h w_problem (irun w_problem s [CG (pt 1)]) (pt 1) 0))) = 2.
Proof.
  destruct w_reach as [s [E [H _]]]. injection E as E. exists s. split; [exact H|]. subst s. cbn. unfold Ldxdx, mulm, tr, idm, pt. cbn. ring.
Qed.
(** No running node: the constructor reads models[0]. *)
Example C52_empty : forall P (node : nat -> inode P) x0 z d, ipopt_create (IProblem 0 node x0) z d = None.
Proof. reflexivity. Qed.
(** the hypotheses are met by the witness: history, settled calls, a curve of points *)
Example C71_case : settled (pt 1) [CG (pt 2); CF (pt 1) 0; CJac (pt 1)] /\ settled (pt 1) [CGrad (pt 1)].
Proof.
  split.
  - exists [CG (pt 2)], (CF (pt 1) 0), [CJac (pt 1)]. split; [reflexivity|]. split; [exact I|]. split; [reflexivity|]. apply List.Forall_cons; [reflexivity|apply List.Forall_nil].
  - exists [], (CGrad (pt 1)), []. split; [reflexivity|]. split; [exact I|]. split; [reflexivity|apply List.Forall_nil].
Qed.
Example C72_case : exists s (X : R -> vec) (V : vec), reach w_problem s /\ (forall j, (j < s_nvar s)%nat -> is_derive (fun r => X r j) 0 (V j)) /\ V 0%nat <> 0 /\ n_constraints w_problem = 3%nat.
Proof.
  destruct w_reach as [s [E [H _]]]. exists s, (fun r _ => r), (fun _ => 1). split; [exact H|]. split; [intros; apply did|]. split; [lra|reflexivity].
Qed.
Example C73_case : unital w_problem.
Proof. intros t x _. apply functional_extensionality. intro i. cbn. ring. Qed.

Print Assumptions C52_jacobian.
Print Assumptions C52_hessian.
Print Assumptions C52_vectors.
Print Assumptions C53_objective_partial.
Print Assumptions C53_objective_refuted.
Print Assumptions C53_hessian_partial.
Print Assumptions C53_hessian_refuted.
Print Assumptions C54_nvar_partial.
Print Assumptions C54_nconst_refuted.
Print Assumptions C71_calc_calls.
Print Assumptions C71_diff_calls_partial.
Print Assumptions C71_jacobian_refuted.
Print Assumptions C72_gradient.
Print Assumptions C72_jacobian.
Print Assumptions C73_start.
Print Assumptions C73_warm_start.
Print Assumptions C73_bounds.
