From Coq Require Import QArith List Bool Arith Lia Lqa.
From Verif Require Import Common XFloat XFloatFacts Params_Model Params_Spec Solver_Model Solver_Spec Solver_Proofs.
Import ListNotations.
Local Open Scope nat_scope.

Section Loop.
Context {X U V G : Type}.
Variables (vscale : V -> xf -> V) (clamp : U -> U -> U -> U) (xnorm : X -> xf)
          (pol : G -> nat -> xf -> U -> V -> U)
          (bwd : list X -> list U -> list V -> bool -> xf -> option G)
          (eiD : G -> xf * xf) (eiF : G -> list X -> list V -> bool -> list X -> xf * xf)
          (pb : sproblem X U V) (par : params).
Notation st := (st X U V G).
Notation forward := (forward vscale clamp xnorm pol pb).
Notation retry := (retry bwd pb par).
Notation line_search := (line_search vscale clamp xnorm pol eiF pb par).
Notation iteration := (iteration vscale clamp xnorm pol bwd eiD eiF pb par).
Notation iterations := (iterations vscale clamp xnorm pol bwd eiD eiF pb par).
Notation T := (length (q_run pb)).

(** Fields the line search leaves alone until it accepts. *)
Definition same_core (s s' : st) : Prop :=
  s_xs s' = s_xs s /\ s_us s' = s_us s /\ s_feas s' = s_feas s /\ s_was s' = s_was s /\
  s_xt0 s' = s_xt0 s /\ s_fs s' = s_fs s /\ s_g s' = s_g s /\ s_cost s' = s_cost s /\
  s_preg s' = s_preg s /\ s_dreg s' = s_dreg s /\ s_log s' = s_log s.

Lemma same_core_refl s : same_core s s.
Proof. unfold same_core. repeat split. Qed.
Lemma same_core_trans s1 s2 s3 : same_core s1 s2 -> same_core s2 s3 -> same_core s1 s3.
Proof. unfold same_core. intuition congruence. Qed.

(** What an accepted trial looks like. *)
Definition accepted (k : kind) (g : G) (s s' : st) : Prop :=
  exists a uo ds dT s2,
    length uo = length (s_uo s) /\ length ds = length (s_ds s) /\
    let fr := forward k g a (s_feas s) (s_xt0 s) (s_xs s) (s_us s) uo (s_fs s) ds dT in
    f_ok fr = true /\ same_core s s2 /\ In a (p_alphas par) /\
    s_alpha s2 = a /\ s_uo s2 = f_us fr /\ s_ds s2 = f_ds fr /\ s_dT s2 = f_dT fr /\
    accepts par k s2 (xsub (s_cost s) (f_cost fr))
            (xmul a (xadd (s_d0 s2) (xmul (xmul (Fin (1 # 2)) a) (s_d1 s2)))) = true /\
    s' = set_accept (accept_flag k s2) fr s2.

Lemma line_search_spec k g : forall al s s' b,
  incl al (p_alphas par) -> arrays (q_run pb) (s_xs s) (s_us s) (s_uo s) (s_fs s) (s_ds s) ->
  line_search k g al s = (s', b) ->
  (b = false /\ same_core s s' /\ length (s_uo s') = length (s_uo s) /\ length (s_ds s') = length (s_ds s)) \/
  (b = true /\ accepted k g s s').
Proof.
  induction al as [|a al IH]; intros s s' b I Ar E.
  - simpl in E. injection E as <- <-. left. repeat split.
  - cbn [Solver_Model.line_search] in E. cbv zeta in E.
    set (fr := forward k g a (s_feas s) (s_xt0 s) (s_xs s) (s_us s) (s_uo s) (s_fs s) (s_ds s) (s_dT s)) in *.
    pose proof (forward_len vscale clamp xnorm pol pb k g a (s_feas s) (s_xt0 s) _ _ _ _ _ (s_dT s) Ar) as Lr.
    cbv zeta in Lr. fold fr in Lr. destruct Lr as (L1 & L2 & _).
    assert (exists s1 : st, same_core s s1 /\ s_uo s1 = f_us fr /\ s_ds s1 = f_ds fr /\ s_dT s1 = f_dT fr /\ s_alpha s1 = a /\
            ((f_ok fr = true /\
              accepts par k s1 (xsub (s_cost s) (f_cost fr))
                (xmul a (xadd (s_d0 s1) (xmul (xmul (Fin (1 # 2)) a) (s_d1 s1)))) = true /\
              (s', b) = (set_accept (accept_flag k s1) fr s1, true)) \/
             line_search k g al s1 = (s', b))) as (s1 & Sc & E1 & E2 & E3 & E4 & Alt).
    { destruct (f_ok fr) eqn:Ok.
      - set (s2 := if fddp_loop k then _ else _) in E.
        exists s2.
        assert (same_core s s2) by (unfold s2; destruct (fddp_loop k); unfold same_core; repeat split).
        assert (s_uo s2 = f_us fr /\ s_ds s2 = f_ds fr /\ s_dT s2 = f_dT fr /\ s_alpha s2 = a) as (? & ? & ? & ?)
          by (unfold s2; destruct (fddp_loop k); repeat split).
        repeat (split; [assumption|]).
        change (s_cost (set_try a fr s)) with (s_cost s) in E.
        match type of E with (if ?c then _ else _) = _ => destruct c eqn:Ac end.
        + left. auto.
        + right. exact E.
      - exists (set_try a fr s). repeat (split; [unfold same_core; repeat split|]). right. exact E. }
    destruct Alt as [(Ok & Ac & Eq)|E5].
    + right. injection Eq as -> ->. split; auto.
      exists a, (s_uo s), (s_ds s), (s_dT s), s1. cbv zeta. fold fr.
      split; auto. split; auto. split; auto. split; auto. split; [apply I; now left|].
      repeat (split; [assumption|]). reflexivity.
    + pose proof Sc as (C1 & C2 & C3 & C4 & C5 & C6 & C7 & C8 & C9 & C10 & C11).
      assert (arrays (q_run pb) (s_xs s1) (s_us s1) (s_uo s1) (s_fs s1) (s_ds s1)) as Ar1.
      { destruct Ar as (A1 & A2 & A3 & A4 & A5). unfold arrays. rewrite C1, C2, C6, E1, E2. auto. }
      destruct Ar as (_ & _ & A3 & _ & A5).
      destruct (IH s1 s' b (fun x Hx => I x (or_intror Hx)) Ar1 E5) as [(B & Sc' & L3 & L4)|(B & Acc)].
      * left. split; auto. split; [eapply same_core_trans; eauto|]. split; congruence.
      * right. split; auto. destruct Acc as (a' & uo & ds & dT & s2 & Lu & Ld & Acc). cbv zeta in Acc.
        exists a', uo, ds, dT, s2. rewrite C1, C2, C3, C5, C6, C8 in Acc.
        split; [congruence|]. split; [congruence|]. cbv zeta.
        destruct Acc as (K1 & K2 & K3 & K4 & K5 & K6 & K7 & K8 & K9).
        repeat (split; [first [assumption | eapply same_core_trans; eassumption]|]). exact K9.
Qed.

(** * Invariants *)
Definition good0 (s : st) : Prop :=
  sized (q_run pb) (s_xs s) (s_us s) /\ length (s_uo s) = T /\ s_xt0 s = q_x0 pb.
Definition good (s : st) : Prop :=
  good0 s /\ length (s_fs s) = S T /\ length (s_ds s) = T.
Definition cost_ok (s : st) : Prop :=
  s_cost s = total_cost (q_term pb) (Fin 0) (q_run pb) (s_xs s) (s_us s).
Definition data_ok (s : st) : Prop :=
  s_ds s = evals (q_run pb) (s_xs s) (s_us s) /\ s_cost s = data_cost (s_ds s) (s_dT s).
Definition fs_ok (s : st) : Prop :=
  s_fs s = gaps (q_x0 pb) (q_run pb) (s_xs s) (s_us s).
Definition feas_ok (s : st) : Prop :=
  s_feas s = true -> follows (q_x0 pb) (q_run pb) (s_xs s) (s_us s).

(** State at the head of iteration [i]. *)
Definition pre (i : nat) (recalc : bool) (s : st) : Prop :=
  good0 s /\
  ((i = 0 /\ recalc = true) \/
   (good s /\ cost_ok s /\ (recalc = true -> data_ok s) /\ (recalc = false -> fs_ok s))).

Lemma good_arrays s : good s ->
  arrays (q_run pb) (s_xs s) (s_us s) (s_uo s) (s_fs s) (s_ds s).
Proof.
  intros (((L1 & L2) & L3 & _) & L4 & L5). unfold arrays. rewrite L1, L4. repeat split; auto; lia.
Qed.

Lemma total_cost_evals tn (ns : list (node X U V)) : forall xs us c x,
  length xs = S (length ns) -> length us = length ns -> nth_error xs (length ns) = Some x ->
  xadd (fold_left (fun c d => xadd c (snd d)) (evals ns xs us) c) (t_cost tn x) = total_cost tn c ns xs us.
Proof.
  induction ns as [|n ns IH]; intros [|y xs] [|u us] c x L1 L2 E; simpl in *; try lia; try discriminate.
  - destruct xs; [|discriminate]. injection E as ->. reflexivity.
  - apply IH; auto.
Qed.

Lemma gap_list_len xs (ds : list (X * xf)) :
  q_run pb <> [] -> length xs = S T -> length ds = T -> length (gap_list pb xs ds) = S T.
Proof.
  intros N L1 L2. unfold gap_list. destruct xs as [|x xs]; [discriminate|].
  destruct (q_run pb) as [|n ns] eqn:E; [congruence|]. rewrite <- E in *.
  cbn [length]. rewrite map_length, !combine_length. simpl in L1. lia.
Qed.

Lemma gaps_from_combine (ns : list (node X U V)) : forall x xs us,
  length xs = length ns -> length us = length ns ->
  map (fun p : node X U V * (X * (X * xf)) => let '(n, (x, d)) := p in n_diff n x (fst d))
      (combine ns (combine xs (evals ns (x :: xs) us))) = gaps_from ns (x :: xs) us.
Proof.
  induction ns as [|n ns IH]; intros x [|z xs] [|u us] L1 L2; simpl in *; try lia; auto.
  f_equal. apply IH; lia.
Qed.
Lemma gap_list_evals xs us : sized (q_run pb) xs us ->
  gap_list pb xs (evals (q_run pb) xs us) = gaps (q_x0 pb) (q_run pb) xs us.
Proof.
  intros [L1 L2]. unfold gap_list, gaps. destruct xs as [|x xs]; [discriminate|].
  destruct (q_run pb) as [|n ns] eqn:E; [reflexivity|]. rewrite <- E in *. f_equal.
  apply gaps_from_combine; auto.
Qed.

Lemma calc_diff_spec i s :
  q_run pb <> [] -> pre i true s ->
  let s' := calc_diff pb i s in
  good s' /\ cost_ok s' /\ fs_ok s' /\ (i = 0 \/ s_cost s' = s_cost s) /\
  s_xs s' = s_xs s /\ s_us s' = s_us s /\ s_feas s' = s_feas s /\ s_was s' = s_was s /\
  s_preg s' = s_preg s /\ s_dreg s' = s_dreg s /\ s_log s' = s_log s.
Proof.
  intros N (G0 & P). cbv zeta.
  assert (forall b, b = Nat.eqb i 0 -> good (calc_diff pb i s) /\ cost_ok (calc_diff pb i s) /\
                    fs_ok (calc_diff pb i s) /\ (i = 0 \/ s_cost (calc_diff pb i s) = s_cost s)) as H.
  2: { destruct (H _ eq_refl) as (H1 & H2 & H3 & H4). split; auto. split; auto. split; auto. split; auto. repeat split. }
  intros b Eb. destruct G0 as ((L1 & L2) & L3 & L4).
  destruct (Nat.eqb i 0) eqn:Ei.
  - apply Nat.eqb_eq in Ei. subst i.
    destruct (nth_error (s_xs s) T) as [x|] eqn:Ex.
    2: { apply nth_error_None in Ex. lia. }
    assert (length (eval_run pb (s_xs s) (s_us s)) = T) as Le.
    { unfold eval_run. rewrite map_length, !combine_length. lia. }
    assert (eval_run pb (s_xs s) (s_us s) = evals (q_run pb) (s_xs s) (s_us s)) as Ee.
    { unfold eval_run, evals. apply map_ext. intros [n [x' u']]. reflexivity. }
    split; [|split; [|split]]; auto.
    + split; [repeat split; auto|]. cbn [calc_diff s_fs s_ds Nat.eqb]. split; auto.
      apply gap_list_len; auto.
    + unfold cost_ok. cbn [calc_diff s_cost s_xs s_us Nat.eqb]. rewrite Ex.
      unfold data_cost. rewrite Ee. now apply total_cost_evals.
    + unfold fs_ok. cbn [calc_diff s_fs s_xs s_us Nat.eqb]. rewrite Ee. apply gap_list_evals. split; auto.
  - destruct P as [[-> _]|(Gd & C & D & _)]; [discriminate|]. specialize (D eq_refl).
    destruct Gd as (_ & L5 & L6). destruct D as [D1 D2]. split; [|split; [|split]].
    + split; [repeat split; auto|]. unfold calc_diff. rewrite Ei. cbn [s_fs s_ds]. split; auto.
      apply gap_list_len; auto.
    + unfold cost_ok, calc_diff. rewrite Ei. cbn [s_cost s_xs s_us]. rewrite <- D2. exact C.
    + unfold fs_ok, calc_diff. rewrite Ei. cbn [s_fs s_xs s_us]. rewrite D1. apply gap_list_evals. split; auto.
    + right. unfold calc_diff. rewrite Ei. cbn [s_cost]. auto.
Qed.

Definition is_dir (e : event X U V) : Prop := match e with EDir _ _ _ _ _ _ _ => True | _ => False end.

(** Everything retry keeps; [D] are the events it emits. *)
Lemma retry_spec fuel : forall i recalc s r,
  q_run pb <> [] -> pre i recalc s -> retry fuel i recalc s = r ->
  match r with
  | Fuel => True
  | Next s' _ | Ret _ s' =>
      good s' /\ cost_ok s' /\ fs_ok s' /\ ((i = 0 /\ recalc = true) \/ s_cost s' = s_cost s) /\
      s_xs s' = s_xs s /\ s_us s' = s_us s /\ s_feas s' = s_feas s /\ s_was s' = s_was s /\
      (exists es, s_log s' = es ++ s_log s /\
         Forall is_dir es)
  end /\
  match r with
  | Next s' b => b = false /\ exists g, s_g s' = Some g
  | Ret b s' => b = false /\ xeq (s_preg s') (p_val par RegMax) = true
  | Fuel => True
  end.
Proof.
  induction fuel as [|fuel IH]; intros i recalc s r N P E; cbn [Solver_Model.retry] in E.
  - subst. auto.
  - set (s1 := linearise pb i recalc s) in *. cbv zeta in E.
    assert (exists e, is_dir e /\ good s1 /\ cost_ok s1 /\ fs_ok s1 /\ ((i = 0 /\ recalc = true) \/ s_cost s1 = s_cost s) /\
            s_xs s1 = s_xs s /\ s_us s1 = s_us s /\ s_feas s1 = s_feas s /\ s_was s1 = s_was s /\
            s_log s1 = e :: s_log s) as (e & Ke & K1 & K2 & Kf & K3 & K4 & K5 & K6 & K7 & K8).
    { unfold s1, linearise. destruct recalc.
      - destruct (calc_diff_spec i s N P) as (Q1 & Q2 & Qf & Q3 & Q4 & Q5 & Q6 & Q7 & Q8 & Q9 & Q10).
        exists (EDir (s_preg (calc_diff pb i s)) (s_dreg (calc_diff pb i s)) (s_lx (calc_diff pb i s))
                     (s_lu (calc_diff pb i s)) (s_fs (calc_diff pb i s)) (s_xs (calc_diff pb i s)) (s_us (calc_diff pb i s))).
        split; [exact I|]. repeat (split; [first [assumption | destruct Q3; auto]|]).
        cbn [emit s_log]. rewrite Q10. reflexivity.
      - destruct P as (G0 & [[_ [=]]|(Gd & C & _ & Fs)]).
        exists (EDir (s_preg s) (s_dreg s) (s_lx s) (s_lu s) (s_fs s) (s_xs s) (s_us s)). split; [exact I|].
        split; [exact Gd|]. split; [exact C|]. split; [exact (Fs eq_refl)|]. split; [right; reflexivity|]. repeat split. }
    clearbody s1.
    destruct (bwd _ _ _ _ _) as [g|] eqn:Eb.
    + subst r. split; [|split; [reflexivity|exists g; reflexivity]].
      split; [exact K1|]. split; [exact K2|]. split; [exact Kf|]. repeat (split; [assumption|]).
      exists [e]. split; auto.
    + set (s2 := set_reg (inc_reg par (s_preg s1)) s1) in *.
      destruct (xeq (s_preg s2) (p_val par RegMax)) eqn:Ex.
      * subst r. split; [|split; auto].
        split; [exact K1|]. split; [exact K2|]. split; [exact Kf|]. repeat (split; [assumption|]).
        exists [e]. split; auto.
      * assert (pre i false s2) as P2.
        { split; [apply K1|]. right. split; [exact K1|]. split; [exact K2|]. split; [discriminate|]. intros _. exact Kf. }
        destruct (IH i false s2 r N P2 E) as [H1 H2]. split; auto.
        destruct r as [s' b|b s'|]; auto.
        -- destruct H1 as (J1 & J2 & Jf & J3 & J4 & J5 & J6 & J7 & es & J8 & J9).
           split; auto. split; auto. split; auto. split.
           { destruct J3 as [[_ [=]]|J3]. change (s_cost s2) with (s_cost s1) in J3.
             destruct K3 as [K3|K3]; auto. right. congruence. }
           change (s_xs s2) with (s_xs s1) in J4. change (s_us s2) with (s_us s1) in J5.
           change (s_feas s2) with (s_feas s1) in J6. change (s_was s2) with (s_was s1) in J7.
           split; [congruence|]. split; [congruence|]. split; [congruence|]. split; [congruence|].
           exists (es ++ [e]). change (s_log s2) with (s_log s1) in J8. rewrite J8, K8, <- app_assoc. split; auto.
           apply Forall_app. split; auto.
        -- destruct H1 as (J1 & J2 & Jf & J3 & J4 & J5 & J6 & J7 & es & J8 & J9).
           split; auto. split; auto. split; auto. split.
           { destruct J3 as [[_ [=]]|J3]. change (s_cost s2) with (s_cost s1) in J3.
             destruct K3 as [K3|K3]; auto. right. congruence. }
           change (s_xs s2) with (s_xs s1) in J4. change (s_us s2) with (s_us s1) in J5.
           change (s_feas s2) with (s_feas s1) in J6. change (s_was s2) with (s_was s1) in J7.
           split; [congruence|]. split; [congruence|]. split; [congruence|]. split; [congruence|].
           exists (es ++ [e]). change (s_log s2) with (s_log s1) in J8. rewrite J8, K8, <- app_assoc. split; auto.
           apply Forall_app. split; auto.
Qed.

Definition box_inv (k : kind) (us0 us : list U) : Prop :=
  k = BoxDDP \/ k = BoxFDDP ->
  us = us0 \/
  Forall2 (fun n u => n_u n = true -> n_lim n = true -> exists v, u = clamp (n_lb n) (n_ub n) v) (q_run pb) us.

(** What one pass of the main loop does to the candidate, [acc] being the acceptance
    event if any. *)
Definition step_facts (k : kind) (i : nat) (recalc : bool) (s : st) (acc : list (event X U V)) (s' : st) : Prop :=
  good s' /\ cost_ok s' /\ (acc = [] -> fs_ok s') /\
  ((acc = [] /\ s_xs s' = s_xs s /\ s_us s' = s_us s /\ s_feas s' = s_feas s /\ s_was s' = s_was s /\
    ((i = 0 /\ recalc = true) \/ s_cost s' = s_cost s)) \/
   (exists a d0 cb, acc = [EAccept (s_feas s) a d0 cb (s_cost s')] /\
      In a (p_alphas par) /\
      cb = total_cost (q_term pb) (Fin 0) (q_run pb) (s_xs s) (s_us s) /\
      ((i = 0 /\ recalc = true) \/ cb = s_cost s) /\
      s_was s' = s_feas s /\ data_ok s' /\
      s_feas s' = (if fddp_loop k then s_feas s || xeq a (Fin 1) else true) /\
      (k = DDP \/ s_feas s = true \/ xeq a (Fin 1) = true ->
         follows (q_x0 pb) (q_run pb) (s_xs s') (s_us s')) /\
      (fddp_loop k = true -> s_feas s = false -> xeq a (Fin 1) = false ->
         gap_law vscale (q_run pb) (q_term pb) a ->
         gaps (q_x0 pb) (q_run pb) (s_xs s') (s_us s') =
         map (fun f => vscale f (xsub (Fin 1) a)) (gaps (q_x0 pb) (q_run pb) (s_xs s) (s_us s))) /\
      (k = BoxDDP \/ k = BoxFDDP ->
         Forall2 (fun n u => n_u n = true -> n_lim n = true -> exists v, u = clamp (n_lb n) (n_ub n) v)
                 (q_run pb) (s_us s')) /\
      (positive (p_val par ThAcceptStep) ->
         xlt (xabs d0) (p_val par ThGrad) = true \/ s_feas s = false \/ xlt (s_cost s') cb = true))).

(** Changes of the regularization, of the stopping value and of the log only. *)
Definition same_cand (s s' : st) : Prop :=
  s_xs s' = s_xs s /\ s_us s' = s_us s /\ s_feas s' = s_feas s /\ s_was s' = s_was s /\
  s_xt0 s' = s_xt0 s /\ s_uo s' = s_uo s /\ s_fs s' = s_fs s /\ s_ds s' = s_ds s /\ s_dT s' = s_dT s /\
  s_cost s' = s_cost s.

Lemma step_facts_cand k i recalc s acc s1 s2 :
  same_cand s1 s2 -> step_facts k i recalc s acc s1 -> step_facts k i recalc s acc s2.
Proof.
  intros (E1 & E2 & E3 & E4 & E5 & E6 & E7 & E8 & E9 & E10) H.
  unfold step_facts, good, good0, cost_ok, data_ok, fs_ok in *.
  rewrite E1, E2, E3, E4, E5, E6, E7, E8, E9, E10. exact H.
Qed.

Lemma accepts_facts k (s : st) (c ct dVexp : xf) :
  positive (p_val par ThAcceptStep) -> accepts par k s (xsub c ct) dVexp = true ->
  xlt (xabs (s_d0 s)) (p_val par ThGrad) = true \/ s_feas s = false \/ xlt ct c = true.
Proof.
  intros Hp. unfold accepts. destruct (xle (Fin 0) dVexp) eqn:E.
  - rewrite !orb_true_iff. intros [[H|H]|H]; auto.
    + right. left. apply andb_true_iff in H. destruct H as [_ H]. now apply negb_true_iff in H.
    + right. right. destruct (xmul_nonneg _ _ Hp E) as [Hn|Hn].
      * destruct (xmul (p_val par ThAcceptStep) dVexp); discriminate.
      * eapply xsub_above; eauto.
  - intro H. apply andb_true_iff in H. destruct H as [H _]. apply andb_true_iff in H. destruct H as [_ H].
    apply negb_true_iff in H. auto.
Qed.

Lemma iteration_spec k fuel i recalc s :
  q_run pb <> [] -> pre i recalc s ->
  match iteration k fuel i recalc s with
  | Fuel => True
  | Next s' rc =>
      exists es acc st p d, s_log s' = ECall i (s_xs s') (s_us s') (s_feas s') (s_was s') (s_cost s') st p d :: acc ++ es ++ s_log s /\
        Forall is_dir es /\ step_facts k i recalc s acc s' /\ (rc = true -> acc <> []) /\ (rc = false -> acc = []) /\
        st = s_stop s' /\ s_was s' && xlt (s_stop s') (p_val par ThStop) = false
  | Ret true s' =>
      exists es acc st p d, s_log s' = ECall i (s_xs s') (s_us s') (s_feas s') (s_was s') (s_cost s') st p d :: acc ++ es ++ s_log s /\
        Forall is_dir es /\ step_facts k i recalc s acc s' /\
        st = s_stop s' /\ s_was s' = true /\ xlt (s_stop s') (p_val par ThStop) = true /\
        s_stop s' = xabs (xadd (s_d0 s') (xmul (Fin (1 # 2)) (s_d1 s')))
  | Ret false s' =>
      exists es acc, s_log s' = acc ++ es ++ s_log s /\
        Forall is_dir es /\ step_facts k i recalc s acc s' /\
        xeq (s_preg s') (p_val par RegMax) = true
  end.
Proof.
  intros N P. unfold Solver_Model.iteration.
  destruct (retry fuel i recalc s) as [s1 b|b s1|] eqn:Er; auto.
  2: { destruct (retry_spec fuel i recalc s _ N P Er) as [(K1 & K2 & Kf & K3 & K4 & K5 & K6 & K7 & es & K8 & K9) [-> H2]].
       exists es, []. split; auto. split; auto. split; auto.
       split; auto. split; auto. split; auto. left. repeat (split; [assumption || reflexivity|]). exact K3. }
  destruct (retry_spec fuel i recalc s _ N P Er) as [(K1 & K2 & Kf & K3 & K4 & K5 & K6 & K7 & es & K8 & K9) [_ [g Hg]]].
  rewrite Hg.
  set (s2 := if fddp_loop k then s1 else set_d (eiD g) s1).
  assert (same_core s1 s2 /\ s_uo s2 = s_uo s1 /\ s_ds s2 = s_ds s1) as (C2 & U2 & D2)
    by (unfold s2; destruct (fddp_loop k); unfold same_core; repeat split).
  clearbody s2. destruct (line_search k g (p_alphas par) s2) as [s3 rc] eqn:El.
  assert (exists acc, step_facts k i recalc s acc s3 /\ s_log s3 = acc ++ es ++ s_log s /\
                      (rc = true -> acc <> []) /\ (rc = false -> acc = [])) as (acc & F3 & L3 & R3 & R3').
  { pose proof C2 as (E1 & E2 & E3 & E4 & E5 & E6 & E7 & E8 & E9 & E10 & E11).
    assert (arrays (q_run pb) (s_xs s2) (s_us s2) (s_uo s2) (s_fs s2) (s_ds s2)) as Ar.
    { rewrite E1, E2, E6, U2, D2. now apply good_arrays. }
    destruct K1 as (((L1 & L2) & L3 & L4) & L5 & L6).
    destruct (line_search_spec k g _ _ _ _ (incl_refl _) Ar El) as [(-> & Sc & Lu & Ld)|(-> & Acc)].
    - exists []. pose proof (same_core_trans _ _ _ C2 Sc) as (S1 & S2 & S3 & S4 & S5 & S6 & S7 & S8 & S9 & S10 & S11).
      split; [|split; [simpl; congruence|split; [discriminate|reflexivity]]].
      unfold step_facts, good, good0, sized, cost_ok, fs_ok. rewrite S1, S2, S3, S4, S5, S6, S8, Lu, Ld, U2, D2.
      split; [auto|]. split; [exact K2|]. split; [intros _; exact Kf|]. left. repeat (split; [congruence|]).
      destruct K3; auto.
    - destruct Acc as (a & uo & ds & dT & s2' & Lu & Ld & Acc). cbv zeta in Acc.
      rewrite E1, E2, E3, E5, E6, E8 in Acc. rewrite U2 in Lu. rewrite D2 in Ld.
      set (fr := forward k g a (s_feas s1) (s_xt0 s1) (s_xs s1) (s_us s1) uo (s_fs s1) ds dT) in *.
      destruct Acc as (Ok & Sc & Hin & Ea & Eu & Ed & Et & Ha & ->).
      pose proof (same_core_trans _ _ _ C2 Sc) as (S1 & S2 & S3 & S4 & S5 & S6 & S7 & S8 & S9 & S10 & S11).
      assert (arrays (q_run pb) (s_xs s1) (s_us s1) uo (s_fs s1) ds) as Ar'.
      { unfold arrays. repeat split; try lia. }
      destruct (forward_len vscale clamp xnorm pol pb k g a (s_feas s1) (s_xt0 s1) _ _ _ _ _ dT Ar') as (F1 & F2 & F3).
      destruct (forward_cost vscale clamp xnorm pol pb k g a (s_feas s1) (s_xt0 s1) _ _ _ _ _ dT Ar' Ok) as (G1 & G2 & G3 & _).
      pose proof (forward_full vscale clamp xnorm pol pb k g a (s_feas s1) (s_xt0 s1) _ _ _ _ _ dT Ar') as G4.
      cbv zeta in F1, F2, F3, G4. fold fr in F1, F2, F3, G1, G2, G3, G4. specialize (F3 Ok).
      exists [EAccept (s_feas s2') (s_alpha s2') (s_d0 s2') (s_cost s2') (f_cost fr)].
      split; [|split; [simpl; congruence|split; discriminate]].
      unfold step_facts, good, good0, sized, cost_ok, data_ok.
      cbn [set_accept s_xs s_us s_feas s_was s_xt0 s_uo s_fs s_ds s_dT s_cost].
      rewrite F1, F3, Eu, Ed, Et, F1, F2, S3, S5, S6, S8, Ea.
      split; [auto|]. split; [exact G1|]. split; [discriminate|]. right.
      exists a, (s_d0 s2'), (s_cost s1). rewrite K6.
      split; auto. split; auto. split; [rewrite <- K4, <- K5; exact K2|].
      split; [destruct K3; auto|]. split; auto. split; [auto|].
      split; [unfold accept_flag; rewrite S3, Ea, K6; reflexivity|]. split.
      + intro Hk. rewrite K6 in G4. specialize (G4 Hk Ok).
        rewrite L4 in G4. destruct k; exact G4.
      + split.
        * intros Hk Hf Ha1 Hg1.
          pose proof (forward_gaps vscale clamp xnorm pol pb k g a (s_feas s1) (s_xt0 s1) (s_xs s1) (s_us s1) uo (s_fs s1) ds dT) as H.
          cbv zeta in H. fold fr in H. assert (k = FDDP \/ k = BoxFDDP) as Hk' by (destruct k; try discriminate; auto).
          rewrite (H Hk' Ar' L5 N Hg1 ltac:(congruence) Ha1 Ok). unfold fs_ok in Kf. rewrite Kf, K4, K5. reflexivity.
        * split.
          { intro Hk. apply (forward_box vscale clamp xnorm pol pb k g a (s_feas s1) (s_xt0 s1) _ _ _ _ _ dT Hk Ar' Ok). }
          intro Hp. destruct (accepts_facts k s2' _ _ _ Hp Ha) as [H|[H|H]]; auto.
        right. left. congruence. }
  set (s4 := if xlt (p_val par ThStepDec) (s_alpha s3) then set_reg (dec_reg par (s_preg s3)) s3 else s3).
  assert (same_cand s3 s4 /\ s_log s4 = s_log s3) as (C4 & L4)
    by (unfold s4; destruct (xlt _ _); unfold same_cand; repeat split).
  clearbody s4. cbv zeta.
  set (s5 := if xle (s_alpha s4) (p_val par ThStepInc) then set_reg (inc_reg par (s_preg s4)) s4 else s4).
  assert (same_cand s4 s5 /\ s_log s5 = s_log s4) as (C5 & L5)
    by (unfold s5; destruct (xle _ _); unfold same_cand; repeat split).
  assert (step_facts k i recalc s acc s5) as F5
    by (eapply step_facts_cand; [exact C5|]; eapply step_facts_cand; eauto).
  assert (s_log s5 = acc ++ es ++ s_log s) as L5' by congruence.
  clearbody s5.
  destruct (xle (s_alpha s4) (p_val par ThStepInc) && xeq (s_preg s5) (p_val par RegMax)) eqn:Ab.
  - apply andb_true_iff in Ab. exists es, acc. repeat (split; [first [assumption|apply Ab]|]). apply Ab.
  - set (s6 := set_stop _ s5). cbn [emit s_was s_stop].
    destruct (s_was s6 && xlt (s_stop s6) (p_val par ThStop)) eqn:Eb.
    + apply andb_true_iff in Eb. destruct Eb as [Eb1 Eb2].
      exists es, acc, (s_stop s6), (s_preg s6), (s_dreg s6). split; [unfold emit; cbn [s_log s_xs s_us s_feas s_was s_cost]; f_equal; exact L5'|].
      repeat (split; [first [assumption|reflexivity|exact F5]|]). reflexivity.
    + exists es, acc, (s_stop s6), (s_preg s6), (s_dreg s6). split; [unfold emit; cbn [s_log s_xs s_us s_feas s_was s_cost]; f_equal; exact L5'|].
      repeat (split; [first [assumption|reflexivity|exact F5]|]). exact Eb.
Qed.

(** * The whole run *)
Notation tc s := (total_cost (q_term pb) (Fin 0) (q_run pb) (s_xs s) (s_us s)).

Definition call_ok (k : kind) (f0 : bool) (us0 : list U) (e : event X U V) : Prop :=
  match e with
  | ECall _ xs us feas was cost _ _ _ =>
      (k <> BoxDDP \/ f0 = true -> feas = true -> follows (q_x0 pb) (q_run pb) xs us) /\
      cost = total_cost (q_term pb) (Fin 0) (q_run pb) xs us /\
      (was = true -> feas = true) /\ box_inv k us0 us
  | EAccept f _ d0 before after =>
      positive (p_val par ThAcceptStep) ->
      xlt (xabs d0) (p_val par ThGrad) = true \/ f = false \/ xlt after before = true
  | EDir _ _ _ _ _ _ _ => True
  end.
(** The stopping test failed at this callback. *)
Definition not_stopped (e : event X U V) : Prop :=
  match e with ECall _ _ _ _ was _ stop _ _ => was && xlt stop (p_val par ThStop) = false | _ => True end.

Definition was_ok (s : st) : Prop :=
  s_was s = true -> s_feas s = true /\ last_accept_feasible (s_log s).
Definition strict : Prop := p_val par ThGrad = Fin 0 /\ positive (p_val par ThAcceptStep).
Definition desc (c0 : xf) (f0 : bool) (s : st) : Prop :=
  strict -> f0 = true -> s_feas s = true /\
  descending c0 (call_costs (s_log s)) /\ tc s = hd c0 (call_costs (s_log s)).

(** While the candidate is flagged infeasible its gaps are the initial ones, shrunk by
    every accepted step. *)
Definition gap_inv (k : kind) (g0 : list V) (feas : bool) (xs : list X) (us : list U) (log : list (event X U V)) : Prop :=
  fddp_loop k = true -> (forall a, In a (p_alphas par) -> gap_law vscale (q_run pb) (q_term pb) a) ->
  feas = false ->
  gaps (q_x0 pb) (q_run pb) xs us = map (shrink vscale (steps log)) g0.
Definition inv0 (k : kind) (f0 : bool) (us0 : list U) (g0 : list V) (s : st) : Prop :=
  (k <> BoxDDP \/ f0 = true -> feas_ok s) /\ was_ok s /\ Forall (call_ok k f0 us0) (s_log s) /\
  (f0 = true -> s_feas s = true) /\ gap_inv k g0 (s_feas s) (s_xs s) (s_us s) (s_log s) /\
  box_inv k us0 (s_us s).
Definition inv (k : kind) (f0 : bool) (us0 : list U) (g0 : list V) (i : nat) (s : st) : Prop :=
  inv0 k f0 us0 g0 s /\ Forall not_stopped (s_log s) /\ calls (s_log s) = rev (seq 0 i).

Lemma dirs_nil (es l : list (event X U V)) :
  Forall is_dir es ->
  calls (es ++ l) = calls l /\ call_costs (es ++ l) = call_costs l /\ steps (es ++ l) = steps l /\
  (last_accept_feasible l -> last_accept_feasible (es ++ l)).
Proof.
  induction es as [|e es IH]; intro H; [auto|]. inversion H as [|? ? H1 H2]; subst.
  destruct e; try contradiction. destruct (IH H2) as (I1 & I2 & I3 & I4). simpl. auto.
Qed.

Lemma dirs_forall (P : event X U V -> Prop) (es l : list (event X U V)) :
  (forall p d lx lu fs xs us, P (EDir p d lx lu fs xs us)) -> Forall is_dir es -> Forall P l -> Forall P (es ++ l).
Proof.
  intros D H L. apply Forall_app. split; auto. eapply Forall_impl; [|exact H].
  intros [p d| |]; simpl; auto; contradiction.
Qed.

(** The candidate part of an iteration, with the log extended by [acc ++ es]. *)
Lemma step_inv0 k f0 us0 g0 i recalc s acc es s' :
  Forall is_dir es -> step_facts k i recalc s acc s' -> inv0 k f0 us0 g0 s ->
  (k <> BoxDDP \/ f0 = true -> feas_ok s') /\
  (s_was s' = true -> s_feas s' = true /\ last_accept_feasible (acc ++ es ++ s_log s)) /\
  Forall (call_ok k f0 us0) (acc ++ es ++ s_log s) /\
  (f0 = true -> s_feas s' = true) /\
  gap_inv k g0 (s_feas s') (s_xs s') (s_us s') (acc ++ es ++ s_log s) /\
  box_inv k us0 (s_us s') /\
  Forall not_stopped acc /\ calls (acc ++ es ++ s_log s) = calls (s_log s) /\
  call_costs (acc ++ es ++ s_log s) = call_costs (s_log s).
Proof.
  intros He (Gd & C & _ & Alt) (F & W & L & S0 & Gi & Bi).
  assert (Forall (call_ok k f0 us0) (es ++ s_log s)) as Les by (apply dirs_forall; auto; simpl; auto).
  destruct (dirs_nil es (s_log s) He) as (D1 & D2 & D3 & D4).
  destruct Alt as [(-> & E1 & E2 & E3 & E4 & _)|(a & d0 & cb & -> & Hin & Ecb & _ & Ew & Dt & Ef & Fo & Gf & Bf & Dec)].
  - split; [|split; [|split; [|split; [|split; [|split; [|split; [|split]]]]]]]; auto.
    + intros Hk Hf. rewrite E1, E2. apply F; auto. congruence.
    + intro Hw. rewrite E3. rewrite E4 in Hw. destruct (W Hw) as [W1 W2]. simpl. auto.
    + intro H0. rewrite E3. auto.
    + intros H1 H2 H3. rewrite E1, E2. cbn [app]. rewrite D3. apply Gi; auto. congruence.
    + now rewrite E2.
  - split; [|split; [|split; [|split; [|split; [|split; [|split; [|split]]]]]]]; auto.
    + intros Hk Hf. destruct Hk as [Hk|Hk]; [|apply Fo; auto].
      destruct k; try (now contradiction Hk); simpl in Ef.
      * apply Fo. auto.
      * rewrite Ef in Hf. apply orb_true_iff in Hf. apply Fo. auto.
      * rewrite Ef in Hf. apply orb_true_iff in Hf. apply Fo. auto.
    + intro Hw. rewrite Ew in Hw. split; [|exact Hw]. rewrite Ef, Hw. destruct (fddp_loop k); auto.
    + simpl. constructor; auto.
    + intro H0. rewrite Ef, (S0 H0). destruct (fddp_loop k); auto.
    + intros H1 H2 H3. rewrite H1 in Ef. rewrite Ef in H3. apply orb_false_iff in H3. destruct H3 as [H3 H4].
      rewrite (Gf H1 H3 H4 (H2 a Hin)). rewrite (Gi H1 H2 H3), map_map.
      change (steps ([EAccept (s_feas s) a d0 cb (s_cost s')] ++ es ++ s_log s)) with (a :: steps (es ++ s_log s)).
      rewrite D3. reflexivity.
    + intro Hk. right. auto.
    + repeat constructor.
Qed.

Lemma step_desc k i recalc s acc es s' c0 f0 :
  Forall is_dir es -> step_facts k i recalc s acc s' -> desc c0 f0 s ->
  strict -> f0 = true ->
  s_feas s' = true /\ no_increase (hd c0 (call_costs (s_log s))) (tc s').
Proof.
  intros He (Gd & C & _ & Alt) D Hs H0. destruct (D Hs H0) as (Hf & D1 & D2).
  destruct Alt as [(-> & E1 & E2 & E3 & E4 & _)|(a & d0 & cb & -> & Hin & Ecb & _ & Ew & Dt & Ef & Fo & Gf & Bf & Dec)].
  - split; [congruence|]. left. now rewrite E1, E2.
  - split.
    + rewrite Ef, Hf. destruct (fddp_loop k); auto.
    + right. destruct Hs as [Hg Hp]. destruct (Dec Hp) as [B|[B|B]].
      * rewrite Hg, xabs_below_zero in B. discriminate.
      * congruence.
      * rewrite <- D2, <- Ecb. unfold cost_ok in C. rewrite <- C. exact B.
Qed.

Lemma pre_step k i recalc s acc s' rc :
  step_facts k i recalc s acc s' -> (rc = true -> acc <> []) -> (rc = false -> acc = []) -> pre (S i) rc s'.
Proof.
  intros (Gd & C & Fs & Alt) R R'. split; [apply Gd|]. right. split; auto. split; auto.
  split; [|auto]. intro E. specialize (R E). destruct Alt as [(-> & _)|(a & d0 & cb & -> & _ & _ & _ & _ & Dt & _)]; auto.
  congruence.
Qed.

Definition final_ok (k : kind) (c0 : xf) (f0 : bool) (us0 : list U) (g0 : list V) (m : nat) (b : bool) (s' : st) : Prop :=
  inv0 k f0 us0 g0 s' /\ good0 s' /\
  (exists j, calls (s_log s') = rev (seq 0 j) /\ j <= m /\
     (b = true -> 0 < j) /\
     (b = false -> j = m \/ j < m /\ xeq (s_preg s') (p_val par RegMax) = true)) /\
  (b = false -> Forall not_stopped (s_log s')) /\
  (b = true -> exists i xs us feas was cost st p d l,
     s_log s' = ECall i xs us feas was cost st p d :: l /\ Forall not_stopped l /\
     xs = s_xs s' /\ us = s_us s' /\ feas = s_feas s' /\ was = s_was s' /\ cost = s_cost s' /\ st = s_stop s' /\
     s_was s' = true /\ xlt (s_stop s') (p_val par ThStop) = true /\
     s_stop s' = xabs (xadd (s_d0 s') (xmul (Fin (1 # 2)) (s_d1 s')))) /\
  (strict -> f0 = true -> s_feas s' = true /\ descending c0 (call_costs (s_log s')) /\
     no_increase (hd c0 (call_costs (s_log s'))) (tc s')).

Lemma iterations_spec k fuel c0 f0 us0 g0 : q_run pb <> [] -> forall n i recalc s b s',
  pre i recalc s -> inv k f0 us0 g0 i s -> desc c0 f0 s ->
  iterations k fuel n i recalc s = Ret b s' -> final_ok k c0 f0 us0 g0 (i + n) b s'.
Proof.
  intro N. induction n as [|n IH]; intros i recalc s b s' P I D E; cbn [Solver_Model.iterations] in E.
  - injection E as <- <-. destruct I as (I0 & I1 & I2).
    split; auto. split; [apply P|]. split.
    { exists i. split; auto. split; [lia|]. split; [discriminate|]. left. lia. }
    split; auto. split; [discriminate|].
    intros Hs H0. destruct (D Hs H0) as (Hf & D1 & D2). split; auto. split; auto. left. auto.
  - pose proof (iteration_spec k fuel i recalc s N P) as Sp.
    destruct I as (I0 & I1 & I2).
    destruct (iteration k fuel i recalc s) as [s1 rc|b1 s1|] eqn:Ei; [| |discriminate].
    + destruct Sp as (es & acc & stp & p & d & L & He & F & R & R' & Est & Nst).
      destruct (step_inv0 _ _ _ _ _ _ _ _ _ _ He F I0) as (S1 & S2 & S3 & Sf & Sg & Sb & S4 & S5 & S6).
      assert (inv k f0 us0 g0 (S i) s1) as I'.
      { split; [|split].
        - split; auto. split; [|split; [|split; [exact Sf|split; [rewrite L; exact Sg|exact Sb]]]].
          + intro Hw. rewrite L. destruct (S2 Hw). split; auto.
          + rewrite L. constructor; auto. split; [|split; [|split]]; [| | |exact Sb].
            * exact S1.
            * apply F.
            * intro Hw. now destruct (S2 Hw).
        - rewrite L. constructor.
          + simpl. rewrite Est. exact Nst.
          + apply Forall_app. split; auto. apply dirs_forall; auto. simpl; auto.
        - rewrite L, seq_S, rev_app_distr. cbn [calls flat_map app rev]. fold (calls (acc ++ es ++ s_log s)). now rewrite S5, I2. }
      assert (desc c0 f0 s1) as D'.
      { intros Hs H0. destruct (step_desc _ _ _ _ _ _ _ c0 f0 He F D Hs H0) as [K1 K2].
        destruct (D Hs H0) as (Hf & D1 & D2). split; auto.
        rewrite L. cbn [call_costs flat_map app]. fold (call_costs (acc ++ es ++ s_log s)). rewrite S6.
        assert (s_cost s1 = tc s1) as Ec by apply F. rewrite Ec. split; auto.
        destruct (call_costs (s_log s)) as [|c cs] eqn:Ecs; [exact K2|]. split; auto. }
      destruct (IH (S i) rc s1 b s' (pre_step _ _ _ _ _ _ _ F R R') I' D' E) as (F1 & F2 & F3 & F4 & F5 & F6).
      replace (S i + n) with (i + S n) in F3 by lia.
      repeat (split; [assumption|]). exact F6.
    + injection E as <- <-. destruct b1.
      * destruct Sp as (es & acc & stp & p & d & L & He & F & Est & Nst & Nst' & Est').
        destruct (step_inv0 _ _ _ _ _ _ _ _ _ _ He F I0) as (S1 & S2 & S3 & Sf & Sg & Sb & S4 & S5 & S6).
        split; [|split; [apply F|split; [|split; [discriminate|split]]]].
        -- split; auto. split; [|split; [|split; [exact Sf|split; [rewrite L; exact Sg|exact Sb]]]].
           ++ intro Hw. rewrite L. destruct (S2 Hw). split; auto.
           ++ rewrite L. constructor; auto. split; [|split; [|split]]; [exact S1|apply F| |exact Sb].
              intro Hw. now destruct (S2 Hw).
        -- exists (S i). split; [|split; [lia|split; [lia|discriminate]]].
           rewrite L, seq_S, rev_app_distr. cbn [calls flat_map app rev]. fold (calls (acc ++ es ++ s_log s)).
           now rewrite S5, I2.
        -- intros _. do 9 eexists. exists (acc ++ es ++ s_log s). split; [exact L|].
           split; [apply Forall_app; split; auto; apply dirs_forall; simpl; auto|].
           repeat (split; [reflexivity || assumption|]). exact Est'.
        -- intros Hs H0. destruct (step_desc _ _ _ _ _ _ _ c0 f0 He F D Hs H0) as [K1 K2].
           destruct (D Hs H0) as (Hf & D1 & D2). split; auto.
           rewrite L. cbn [call_costs flat_map app]. fold (call_costs (acc ++ es ++ s_log s)). rewrite S6.
           assert (s_cost s1 = tc s1) as Ec by apply F. rewrite Ec.
           split; [|left; reflexivity].
           destruct (call_costs (s_log s)) as [|c cs] eqn:Ecs; [exact K2|]. split; auto.
      * destruct Sp as (es & acc & L & He & F & Rg).
        destruct (step_inv0 _ _ _ _ _ _ _ _ _ _ He F I0) as (S1 & S2 & S3 & Sf & Sg & Sb & S4 & S5 & S6).
        split; [|split; [apply F|split; [|split; [|split; [discriminate|]]]]].
        -- split; auto. split; [|split; [now rewrite L|split; [exact Sf|split; [rewrite L; exact Sg|exact Sb]]]].
           intro Hw. rewrite L. auto.
        -- exists i. split; [rewrite L; congruence|]. split; [lia|]. split; [discriminate|].
           right. split; [lia|auto].
        -- intros _. rewrite L. apply Forall_app. split; auto. apply dirs_forall; simpl; auto.
        -- intros Hs H0. destruct (step_desc _ _ _ _ _ _ _ c0 f0 He F D Hs H0) as [K1 K2].
           destruct (D Hs H0) as (Hf & D1 & D2). split; auto. rewrite L, S6. auto.
Qed.
End Loop.
