From Coq Require Import QArith List Bool Arith Lia.
From Verif Require Import Common XFloat XFloatFacts Params_Model Solver_Model Solver_Spec
  Solver_Proofs SolverLoop_Proofs KKTLoop_Model.
Import ListNotations.
Local Open Scope nat_scope.

Section Proofs.
Context {X U V K L : Type}.
Variables
  (vscale : V -> xf -> V) (ustep : U -> xf -> U -> U)
  (tcalc tdiff : list X -> list U -> bool)
  (sys : list X -> list U -> K)
  (dir : K -> list V * list U * L)
  (ei : K -> list V * list U * L -> xf * xf)
  (stopc : K -> list V * list U * L -> xf)
  (pb : sproblem X U V)
  (reg_max th_grad : xf) (alphas : list xf) (th_acceptstep th_stop : xf).
Notation kst := (kst X U V K L).
Notation retry := (@k_retry X U V K L tcalc tdiff sys dir pb reg_max).
Notation search := (@k_search X U V K L vscale ustep tcalc pb th_grad th_acceptstep).
Notation iteration := (@k_iteration X U V K L vscale ustep tcalc tdiff sys dir ei stopc pb
                         reg_max th_grad alphas th_acceptstep th_stop).
Notation iterations := (@k_iterations X U V K L vscale ustep tcalc tdiff sys dir ei stopc pb
                         reg_max th_grad alphas th_acceptstep th_stop).
Notation T := (length (q_run pb)).
Notation loop := (trial_loop vscale ustep pb).

(** * Fuel *)
Lemma retry_two f i recalc (s : kst) : retry (S (S f)) i recalc s = retry 2 i recalc s.
Proof.
  cbn [k_retry]. destruct (recalc && _); [|reflexivity]. cbn [andb].
  destruct (xeq _ _); reflexivity.
Qed.
Lemma retry_ends i recalc (s : kst) : retry 2 i recalc s <> KFuel.
Proof.
  cbn [k_retry]. destruct (recalc && _); [|discriminate]. cbn [andb].
  destruct (xeq _ _); discriminate.
Qed.
Lemma iteration_two f i recalc (s : kst) : iteration (S (S f)) i recalc s = iteration 2 i recalc s.
Proof. unfold k_iteration. rewrite retry_two. reflexivity. Qed.
Lemma iteration_ends i recalc (s : kst) : iteration 2 i recalc s <> KFuel.
Proof.
  unfold k_iteration. pose proof (retry_ends i recalc s) as H.
  destruct (retry 2 i recalc s); [|discriminate|congruence]. cbv zeta. destruct (_ && _); discriminate.
Qed.
Lemma iterations_two f : forall n i recalc (s : kst),
  iterations (S (S f)) n i recalc s = iterations 2 n i recalc s.
Proof.
  induction n as [|n IH]; intros i recalc s; cbn [k_iterations]; [reflexivity|].
  rewrite iteration_two. destruct (iteration 2 i recalc s); auto.
Qed.
Lemma iterations_ends : forall n i recalc (s : kst), iterations 2 n i recalc s <> KFuel.
Proof.
  induction n as [|n IH]; intros i recalc s; cbn [k_iterations]; [discriminate|].
  pose proof (iteration_ends i recalc s) as H. destruct (iteration 2 i recalc s); auto.
Qed.

Lemma iterations_ret f : forall n i recalc (s : kst) s' rc, iterations f n i recalc s <> KNext s' rc.
Proof.
  induction n as [|n IH]; intros i recalc s s' rc; cbn [k_iterations]; [discriminate|].
  destruct (iteration f i recalc s); [apply IH|discriminate|discriminate].
Qed.

(** * One pass *)
Definition same_lin (s s' : kst) : Prop :=
  k_lx s' = k_lx s /\ k_lu s' = k_lu s /\ k_sys s' = k_sys s /\ k_dir s' = k_dir s /\ k_preg s' = k_preg s.
Definition same_cand (s s' : kst) : Prop :=
  k_xs s' = k_xs s /\ k_us s' = k_us s /\ k_feas s' = k_feas s /\ k_was s' = k_was s /\ k_cost s' = k_cost s.

Definition rejected (s s' : kst) : Prop :=
  same_lin s s' /\ same_cand s s' /\ k_log s' = k_log s.
Definition taken (s s' : kst) (a : xf) (uo : list U) : Prop :=
  same_lin s s' /\
  (k_xs s', k_us s') = loop a (q_run pb) (k_xs s) (k_us s) uo (fst (fst (k_dir s))) (snd (fst (k_dir s))) /\
  k_feas s' = true /\ k_was s' = k_feas s /\ k_cost s' = pcost pb (k_xs s') (k_us s') /\
  tcalc (k_xs s') (k_us s') = false /\
  k_log s' = KAccept (k_feas s) a (k_d0 s) (k_cost s) (k_cost s') :: k_log s.

Lemma same_lin_trans s1 s2 s3 : same_lin s1 s2 -> same_lin s2 s3 -> same_lin s1 s3.
Proof. unfold same_lin. intuition congruence. Qed.

Lemma trial_len a : forall ns (xs : list X) us uo dx du,
  length xs = S (length ns) -> length us = length ns -> length uo = length ns ->
  length dx = S (length ns) -> length du = length ns ->
  length (fst (loop a ns xs us uo dx du)) = S (length ns) /\
  length (snd (loop a ns xs us uo dx du)) = length ns.
Proof.
  induction ns as [|n ns IH]; intros [|x xs] [|u us] [|u0 uo] [|v dx] [|w du] H1 H2 H3 H4 H5;
    simpl in H1, H2, H3, H4, H5; try discriminate; cbn [trial_loop].
  - split; reflexivity.
  - destruct (IH xs us uo dx du) as [I1 I2]; try lia.
    destruct (loop a ns xs us uo dx du) as [rx ru]. cbn [fst snd length] in *. lia.
Qed.

Definition dir_len (s : kst) : Prop :=
  length (fst (fst (k_dir s))) = S T /\ length (snd (fst (k_dir s))) = T.
Definition lens (s : kst) : Prop :=
  sized (q_run pb) (k_xs s) (k_us s) /\ length (k_uo s) = T.

Lemma search_spec : forall al (s : kst),
  lens s -> dir_len s ->
  let s' := search al s in
  lens s' /\ (rejected s s' \/ exists a uo, In a al /\ length uo = T /\ taken s s' a uo).
Proof.
  induction al as [|a al IH]; intros s Ls Ld; cbn [k_search]; cbv zeta.
  - split; auto. left. unfold rejected, same_lin, same_cand. repeat split.
  - destruct Ls as ((L1 & L2) & L3). destruct Ld as (L4 & L5).
    set (t := trial vscale ustep pb a s).
    destruct (trial_len a (q_run pb) (k_xs s) (k_us s) (k_uo s) _ _ L1 L2 L3 L4 L5) as [T1 T2].
    change (length (fst t) = S T) in T1. change (length (snd t) = T) in T2.
    assert (lens (k_try a (snd t) s)) as Ls1 by (split; [split; assumption|assumption]).
    destruct (IH (k_try a (snd t) s) Ls1 (conj L4 L5)) as (I1 & I2).
    set (s' := search al (k_try a (snd t) s)) in *.
    assert (lens s' /\ (rejected s s' \/ exists a0 uo, In a0 (a :: al) /\ length uo = T /\ taken s s' a0 uo)) as I.
    { split; auto. destruct I2 as [I2|(a0 & uo & H0 & H1 & H2)]; [left; exact I2|right].
      exists a0, uo. split; [now right|]. split; auto. }
    destruct (tcalc (fst t) (snd t)) eqn:Et; [exact I|].
    match goal with |- context [if ?c then _ else _] => destruct c eqn:Ec end; [|exact I].
    split; [split; [split; assumption|assumption]|].
    right. exists a, (k_uo s). split; [now left|]. split; [exact L3|].
    split; [unfold same_lin; repeat split|]. split; [|repeat split; exact Et].
    cbn [k_accept k_xs k_us]. unfold t, trial. destruct (loop _ _ _ _ _ _ _); reflexivity.
Qed.

(** What an iteration that runs to its end does.  [e]: an evaluation threw. *)
Definition through (i : nat) (recalc e : bool) (s s' : kst) : Prop :=
  exists acc,
    k_log s' = KCall i (k_xs s') (k_us s') (k_feas s') (k_was s') (k_cost s') (k_stop s') ::
               acc ++ KDir i (k_lx s') (k_lu s') (k_xs s) (k_us s) :: k_log s /\
    lens s' /\ k_dir s' = dir (k_sys s') /\ k_stop s' = stopc (k_sys s') (k_dir s') /\
    k_preg s' = k_preg s /\
    (if recalc && negb e then k_lx s' = k_xs s /\ k_lu s' = k_us s /\ k_sys s' = sys (k_xs s) (k_us s)
     else k_lx s' = k_lx s /\ k_lu s' = k_lu s /\ k_sys s' = k_sys s) /\
    ((acc = [] /\ k_xs s' = k_xs s /\ k_us s' = k_us s /\ k_feas s' = k_feas s /\ k_was s' = k_was s /\
      (if recalc && negb e then k_cost s' = pcost pb (k_xs s) (k_us s) else True) /\
      (recalc = false -> k_cost s' = k_cost s)) \/
     exists a uo d0 c, acc = [KAccept (k_feas s) a d0 c (k_cost s')] /\ In a alphas /\ length uo = T /\
      (k_xs s', k_us s') = loop a (q_run pb) (k_xs s) (k_us s) uo
                             (fst (fst (k_dir s'))) (snd (fst (k_dir s'))) /\
      k_feas s' = true /\ k_was s' = k_feas s /\ k_cost s' = pcost pb (k_xs s') (k_us s') /\
      tcalc (k_xs s') (k_us s') = false).

Hypothesis dir_sized : forall k, length (fst (fst (dir k))) = S T /\ length (snd (fst (dir k))) = T.

Definition evthrows (s : kst) : bool := tcalc (k_xs s) (k_us s) || tdiff (k_xs s) (k_us s).

Lemma iteration_spec f i recalc (s : kst) : lens s ->
  match iteration f i recalc s with
  | KFuel => True
  | KNext s' rc => through i recalc (evthrows s) s s' /\ rc = recalc && negb (evthrows s) /\
                   k_was s' && xlt (k_stop s') th_stop = false
  | KRet true s' => through i recalc (evthrows s) s s' /\ k_was s' = true /\ xlt (k_stop s') th_stop = true
  | KRet false s' => recalc = true /\ evthrows s = true /\ xeq (k_preg s) reg_max = true /\
                     k_log s' = k_log s /\ k_xs s' = k_xs s /\ k_us s' = k_us s /\ k_feas s' = k_feas s /\
                     k_was s' = k_was s
  end.
Proof.
  intro Ls. unfold k_iteration.
  assert (match retry f i recalc s with
   | KFuel => True
   | KNext s1 rc => rc = recalc && negb (evthrows s) /\
       k_log s1 = KDir i (k_lx s1) (k_lu s1) (k_xs s) (k_us s) :: k_log s /\
       k_xs s1 = k_xs s /\ k_us s1 = k_us s /\ k_feas s1 = k_feas s /\ k_was s1 = k_was s /\
       k_uo s1 = k_uo s /\ k_dir s1 = dir (k_sys s1) /\ k_preg s1 = k_preg s /\
       (if recalc && negb (evthrows s)
        then k_lx s1 = k_xs s /\ k_lu s1 = k_us s /\ k_sys s1 = sys (k_xs s) (k_us s) /\
             k_cost s1 = pcost pb (k_xs s) (k_us s)
        else k_lx s1 = k_lx s /\ k_lu s1 = k_lu s /\ k_sys s1 = k_sys s) /\
       (recalc = false -> k_cost s1 = k_cost s)
   | KRet b s1 => b = false /\ recalc = true /\ evthrows s = true /\ xeq (k_preg s) reg_max = true /\
       k_log s1 = k_log s /\ k_xs s1 = k_xs s /\ k_us s1 = k_us s /\ k_feas s1 = k_feas s /\ k_was s1 = k_was s
   end) as H.
  { destruct f as [|f]; cbn [k_retry]; [exact I|]. fold (evthrows s).
    destruct recalc; cbn [andb].
    - destruct (evthrows s) eqn:Et; cbn [negb].
      + destruct (xeq (k_preg (k_interrupted tcalc pb s)) reg_max) eqn:Ex.
        * cbn [k_interrupted k_preg] in Ex. repeat split; auto.
        * destruct f as [|f]; cbn [k_retry]; [exact I|]. cbn [andb].
          split; [reflexivity|]. repeat (split; [reflexivity|]). split; [repeat split|discriminate].
      + split; [reflexivity|]. repeat (split; [reflexivity|]). split; [repeat split|discriminate].
    - split; [reflexivity|]. repeat (split; [reflexivity|]). split; [repeat split|reflexivity]. }
  destruct (retry f i recalc s) as [s1 rc|b s1|]; [| |exact I].
  2: { destruct H as (-> & H). exact H. }
  destruct H as (R & H1 & H2 & H3 & H4 & H5 & H6 & H7 & H8 & H9 & H10).
  cbv zeta.
  set (s2 := KSt (k_xs s1) (k_us s1) (k_feas s1) (k_was s1) (k_uo s1) (k_lx s1) (k_lu s1)
                    (k_sys s1) (k_dir s1) (k_cost s1) (k_preg s1) (k_alpha s1) (fst (ei (k_sys s1) (k_dir s1)))
                    (snd (ei (k_sys s1) (k_dir s1))) (k_stop s1) (k_log s1)).
  assert (lens s2) as L2.
  { destruct Ls as ((L1 & L2) & L3). unfold lens, s2. cbn [k_xs k_us k_uo]. rewrite H2, H3, H6. split; [split|]; auto. }
  assert (dir_len s2) as D2.
  { unfold dir_len, s2. cbn [k_dir]. rewrite H7. apply dir_sized. }
  destruct (search_spec alphas s2 L2 D2) as [L3 Sp]. set (s3 := search alphas s2) in *.
  set (s4 := KSt (k_xs s3) (k_us s3) (k_feas s3) (k_was s3) (k_uo s3) (k_lx s3) (k_lu s3)
                    (k_sys s3) (k_dir s3) (k_cost s3) (k_preg s3) (k_alpha s3) (k_d0 s3) (k_d1 s3)
                    (stopc (k_sys s3) (k_dir s3))
                    (KCall i (k_xs s3) (k_us s3) (k_feas s3) (k_was s3) (k_cost s3) (stopc (k_sys s3) (k_dir s3)) :: k_log s3)).
  assert (through i recalc (evthrows s) s s4) as Th.
  { assert (same_lin s2 s3) as Sl by (destruct Sp as [(A & _)|(a & uo & _ & _ & A & _)]; exact A).
    destruct Sl as (E1 & E2 & E3 & E4 & E5). change (k_lx s2) with (k_lx s1) in E1.
    change (k_lu s2) with (k_lu s1) in E2. change (k_sys s2) with (k_sys s1) in E3. change (k_dir s2) with (k_dir s1) in E4.
    change (k_preg s2) with (k_preg s1) in E5.
    assert (k_dir s3 = dir (k_sys s3)) as Ed by congruence.
    assert (if recalc && negb (evthrows s) then k_lx s3 = k_xs s /\ k_lu s3 = k_us s /\ k_sys s3 = sys (k_xs s) (k_us s)
     else k_lx s3 = k_lx s /\ k_lu s3 = k_lu s /\ k_sys s3 = k_sys s) as El.
    { rewrite E1, E2, E3. destruct (recalc && _); tauto. }
    destruct Sp as [(_ & (C1 & C2 & C3 & C4 & C5) & C6)|(a & uo & Hin & Lu & _ & C1 & C2 & C3 & C4 & C6 & C5)].
    - exists []. unfold s4. cbn [k_log k_xs k_us k_feas k_was k_cost k_stop k_lx k_lu k_dir k_sys k_preg app].
      split; [rewrite C6; cbn [s2 k_log]; rewrite H1, E1, E2; reflexivity|].
      split; [exact L3|]. split; [exact Ed|]. split; [reflexivity|]. split; [congruence|]. split; [exact El|].
      left. split; [reflexivity|]. unfold s2 in C1, C2, C3, C4, C5. cbn [k_xs k_us k_feas k_was k_cost] in C1, C2, C3, C4, C5.
      split; [congruence|]. split; [congruence|]. split; [congruence|]. split; [congruence|]. split.
      + destruct (recalc && _); [|exact I]. destruct H9 as (_ & _ & _ & H9). congruence.
      + intro Hr. rewrite C5. auto.
    - exists [KAccept (k_feas s2) a (k_d0 s2) (k_cost s2) (k_cost s3)].
      unfold s4. cbn [k_log k_xs k_us k_feas k_was k_cost k_stop k_lx k_lu k_dir k_sys k_preg app].
      split; [rewrite C5; cbn [s2 k_log]; rewrite H1, E1, E2; reflexivity|].
      split; [exact L3|]. split; [exact Ed|]. split; [reflexivity|]. split; [congruence|]. split; [exact El|].
      right. exists a, uo, (k_d0 s2), (k_cost s2). unfold s2 in C1, C3. cbn [k_xs k_us k_feas k_dir] in C1, C3.
      split; [cbn [s2 k_feas]; rewrite H4; reflexivity|]. split; [exact Hin|]. split; [exact Lu|].
      split; [rewrite C1, H2, H3, E4; reflexivity|]. split; [exact C2|]. split; [congruence|]. split; [exact C4|exact C6]. }
  clearbody s4.
  destruct (k_was s4 && xlt (k_stop s4) th_stop) eqn:Eb.
  - apply andb_true_iff in Eb. split; [exact Th|]. exact Eb.
  - split; [exact Th|]. split; [exact R|exact Eb].
Qed.

Lemma pcost_total xs us : sized (q_run pb) xs us ->
  pcost pb xs us = total_cost (q_term pb) (Fin 0) (q_run pb) xs us.
Proof.
  intros [L1 L2]. unfold pcost. destruct (nth_error xs T) as [x|] eqn:E.
  - unfold data_cost.
    assert (eval_run pb xs us = evals (q_run pb) xs us) as ->.
    { unfold eval_run, evals. apply map_ext. intros [n [x' u']]. reflexivity. }
    now apply total_cost_evals.
  - apply nth_error_None in E. lia.
Qed.

(** * The whole run *)
Definition kcalls (l : list (kevent X U)) : list nat :=
  flat_map (fun e => match e with KCall i _ _ _ _ _ _ => [i] | _ => [] end) l.
Definition kdirs (l : list (kevent X U)) : list nat :=
  flat_map (fun e => match e with KDir i _ _ _ _ => [i] | _ => [] end) l.
Fixpoint last_taken (l : list (kevent X U)) : option bool :=
  match l with
  | [] => None
  | KAccept f _ _ _ _ :: _ => Some f
  | _ :: r => last_taken r
  end.

Definition flags (was0 feas0 : bool) (s : kst) : Prop :=
  match last_taken (k_log s) with
  | None => k_was s = was0 /\ k_feas s = feas0
  | Some f => k_was s = f /\ k_feas s = true
  end.
Definition kinv (was0 feas0 : bool) (i : nat) (s : kst) : Prop :=
  lens s /\ kcalls (k_log s) = rev (seq 0 i) /\ kdirs (k_log s) = rev (seq 0 i) /\ flags was0 feas0 s.

Lemma through_inv was0 feas0 i recalc e s s' :
  kinv was0 feas0 i s -> through i recalc e s s' -> kinv was0 feas0 (S i) s'.
Proof.
  intros (L1 & L2 & L2' & L3) (acc & El & T1 & _ & _ & _ & _ & T2).
  split; [exact T1|].
  assert (forall acc, acc = [] \/ (exists a b c d e, acc = [KAccept a b c d e]) ->
    kcalls (acc ++ KDir i (k_lx s') (k_lu s') (k_xs s) (k_us s) :: k_log s) = kcalls (k_log s) /\
    kdirs (acc ++ KDir i (k_lx s') (k_lu s') (k_xs s) (k_us s) :: k_log s) = i :: kdirs (k_log s)) as Hc
    by (intros ac [->|(? & ? & ? & ? & ? & ->)]; split; reflexivity).
  destruct (Hc acc) as [Hc1 Hc2]; [destruct T2 as [(-> & _)|(a & uo & d0 & c & -> & _)]; [now left|right; repeat eexists]|].
  split; [|split].
  - rewrite El, seq_S, rev_app_distr.
    match goal with |- kcalls (_ :: ?l) = _ => change (i :: kcalls l = i :: rev (seq 0 i)) end. congruence.
  - rewrite El, seq_S, rev_app_distr.
    match goal with |- kdirs (_ :: ?l) = _ => change (kdirs l = i :: rev (seq 0 i)) end. congruence.
  - unfold flags in *. rewrite El. cbn [last_taken].
    destruct T2 as [(-> & E1 & E2 & E3 & E4 & _)|(a & uo & d0 & c & -> & _ & _ & _ & E1 & E2 & _)]; cbn [app last_taken].
    + rewrite E3, E4. exact L3.
    + split; assumption.
Qed.

Definition kfinal (was0 feas0 : bool) (m : nat) (b : bool) (s' : kst) : Prop :=
  exists j, kinv was0 feas0 j s' /\ j <= m /\
  (b = true -> exists i recalc e s, j = S i /\ kinv was0 feas0 i s /\ through i recalc e s s' /\
     k_was s' = true /\ xlt (k_stop s') th_stop = true) /\
  (b = false -> j = m \/ j < m /\ xeq (k_preg s') reg_max = true /\
     tcalc (k_xs s') (k_us s') || tdiff (k_xs s') (k_us s') = true).

Lemma iterations_spec was0 feas0 f : forall n i recalc s b s',
  kinv was0 feas0 i s -> iterations f n i recalc s = KRet b s' -> kfinal was0 feas0 (i + n) b s'.
Proof.
  induction n as [|n IH]; intros i recalc s b s' I E; cbn [k_iterations] in E.
  - injection E as <- <-. exists i. split; [exact I|]. split; [lia|]. split; [discriminate|]. intros _. left. lia.
  - pose proof (iteration_spec f i recalc s (proj1 I)) as Sp.
    destruct (iteration f i recalc s) as [s1 rc|b1 s1|] eqn:Ei; [|injection E as <- <-|discriminate].
    + destruct Sp as (Th & _). replace (i + S n) with (S i + n) by lia.
      eapply IH; [|exact E]. eapply through_inv; eassumption.
    + destruct b1.
      * destruct Sp as (Th & W & St). exists (S i). split; [eapply through_inv; eassumption|]. split; [lia|].
        split; [|discriminate]. intros _. exists i, recalc, (evthrows s), s. split; [reflexivity|]. auto.
      * destruct Sp as (-> & Et & Ex & E1 & E2 & E3 & E4 & E5).
        assert (lens s1 /\ k_preg s1 = k_preg s) as [L1 Ep].
        { clear - Ei I. unfold k_iteration in Ei. destruct (retry f i true s) as [s2 rc|b s2|] eqn:Er; [| |discriminate].
          - cbv zeta in Ei. destruct (_ && _); discriminate.
          - injection Ei as _ Ei. subst s2. destruct f as [|f]; cbn [k_retry] in Er; [discriminate|]. cbn [andb] in Er.
            destruct (_ || _); [|discriminate].
            destruct (xeq _ _); [injection Er as _ Er; subst s1; split; [apply I|reflexivity]|].
            destruct f as [|f]; cbn [k_retry] in Er; discriminate. }
        exists i. split.
        -- destruct I as (I1 & I2 & I2' & I3). split; [exact L1|]. unfold flags. rewrite E1, E4, E5. auto.
        -- split; [lia|]. split; [discriminate|]. intros _. right. split; [lia|]. rewrite Ep, E2, E3. auto.
Qed.

(** ** Without exceptions on the candidates *)
Definition ev_ok (e : kevent X U) : Prop :=
  match e with
  | KDir _ lx lu xs us => lx = xs /\ lu = us
  | KCall _ xs us _ _ cost _ => cost = total_cost (q_term pb) (Fin 0) (q_run pb) xs us
  | KAccept _ _ _ _ _ => True
  end.

Lemma iterations_clean f : (forall xs us, tdiff xs us = false) -> forall n i s b s',
  lens s -> tcalc (k_xs s) (k_us s) = false -> Forall ev_ok (k_log s) ->
  iterations f n i true s = KRet b s' ->
  Forall ev_ok (k_log s') /\
  (0 < n \/ k_cost s = total_cost (q_term pb) (Fin 0) (q_run pb) (k_xs s) (k_us s) ->
   k_cost s' = total_cost (q_term pb) (Fin 0) (q_run pb) (k_xs s') (k_us s')) /\
  (b = true -> exists i' s0, lens s0 /\ through i' true false s0 s').
Proof.
  intro Nd. induction n as [|n IH]; intros i s b s' Ls Tc Fo E; cbn [k_iterations] in E.
  - injection E as <- <-. split; [exact Fo|]. split; [|discriminate]. intros [H|H]; [lia|exact H].
  - pose proof (iteration_spec f i true s Ls) as Sp.
    assert (evthrows s = false) as Et by (unfold evthrows; rewrite Tc, Nd; reflexivity).
    rewrite Et in Sp.
    assert (forall s1, through i true false s s1 -> lens s1 /\ tcalc (k_xs s1) (k_us s1) = false /\
              Forall ev_ok (k_log s1) /\ k_cost s1 = total_cost (q_term pb) (Fin 0) (q_run pb) (k_xs s1) (k_us s1)) as H.
    { intros s1 (acc & El & T1 & _ & _ & _ & (P1 & P2 & _) & T2). cbn [andb negb] in P1, P2.
      assert (tcalc (k_xs s1) (k_us s1) = false /\
              k_cost s1 = total_cost (q_term pb) (Fin 0) (q_run pb) (k_xs s1) (k_us s1)) as [A1 A2].
      { destruct T2 as [(_ & E1 & E2 & _ & _ & E3 & _)|(a & uo & d0 & c & _ & _ & _ & _ & _ & _ & E3 & E4)].
        - rewrite E1, E2. split; [exact Tc|]. cbn [andb negb] in E3. rewrite E3. apply pcost_total, Ls.
        - split; [exact E4|]. rewrite E3. apply pcost_total, T1. }
      split; [exact T1|]. split; [exact A1|]. split; [|exact A2].
      rewrite El. apply Forall_cons; [exact A2|]. apply Forall_app. split.
      - destruct T2 as [(-> & _)|(a & uo & d0 & c & -> & _)]; [apply Forall_nil|apply Forall_cons; [exact I|apply Forall_nil]].
      - apply Forall_cons; [split; assumption|exact Fo]. }
    destruct (iteration f i true s) as [s1 rc|b1 s1|] eqn:Ei; [|injection E as <- <-|discriminate].
    + destruct Sp as (Th & R & _). cbn [andb negb] in R. subst rc.
      destruct (H s1 Th) as (H1 & H2 & H3 & H4).
      destruct (IH (S i) s1 b s' H1 H2 H3 E) as (J1 & J2 & J3). split; [exact J1|]. split; [|exact J3]. auto.
    + destruct b1.
      * destruct Sp as (Th & _). destruct (H s1 Th) as (H1 & H2 & H3 & H4).
        split; [exact H3|]. split; [auto|]. intros _. exists i, s. split; assumption.
      * destruct Sp as (_ & [=] & _).
Qed.

(** * Which trials are accepted *)
(** The systems a run can use: that of some trajectory, or the one left by earlier calls. *)
Variable k0 : K.
Definition of_run (k : K) : Prop := k = k0 \/ exists xs us, k = sys xs us.
Definition acc_ok (e : kevent X U) : Prop :=
  match e with
  | KAccept f a d0 before after => In a alphas /\ exists k d1, of_run k /\ ei k (dir k) = (d0, d1) /\
      (xlt d0 th_grad = true \/ f = false \/
       xlt (xmul th_acceptstep (xadd (xmul a d0) (xmul (xmul (xmul (Fin (1 # 2)) a) a) d1)))
           (xsub before after) = true)
  | _ => True
  end.

Lemma search_acc : forall al (s : kst), incl al alphas -> of_run (k_sys s) ->
  ei (k_sys s) (dir (k_sys s)) = (k_d0 s, k_d1 s) ->
  Forall acc_ok (k_log s) -> Forall acc_ok (k_log (search al s)) /\ k_sys (search al s) = k_sys s.
Proof.
  induction al as [|a al IH]; intros s Hin Hr Hei Fo; cbn [k_search]; cbv zeta; [split; [exact Fo|reflexivity]|].
  assert (forall uo, Forall acc_ok (k_log (search al (k_try a uo s))) /\
                     k_sys (search al (k_try a uo s)) = k_sys s) as J.
  { intro uo. apply (IH (k_try a uo s)); auto. intros x Hx. apply Hin. now right. }
  destruct (tcalc _ _); [apply J|].
  match goal with |- context [if ?c then _ else _] => destruct c eqn:Ec end; [|apply J].
  cbn [k_accept k_log]. split; [|reflexivity]. apply Forall_cons; [|exact Fo].
  split; [apply Hin; now left|]. exists (k_sys s), (k_d1 s). split; [exact Hr|]. split; [exact Hei|].
  apply orb_true_iff in Ec as [Ec|Ec]; [apply orb_true_iff in Ec as [Ec|Ec]|].
  - left. exact Ec.
  - right. left. now apply negb_true_iff in Ec.
  - right. right. exact Ec.
Qed.

Lemma retry_acc : forall f i recalc (s : kst), of_run (k_sys s) -> Forall acc_ok (k_log s) ->
  match retry f i recalc s with
  | KNext s' _ => of_run (k_sys s') /\ k_dir s' = dir (k_sys s') /\ Forall acc_ok (k_log s')
  | KRet _ s' => Forall acc_ok (k_log s')
  | KFuel => True
  end.
Proof.
  induction f as [|f IH]; intros i recalc s Hr Fo; cbn [k_retry]; [exact I|].
  destruct (recalc && _).
  - cbv zeta. destruct (xeq _ _); [exact Fo|]. apply IH; assumption.
  - cbv zeta. cbn [k_emit k_log k_sys]. split; [destruct recalc; [right; do 2 eexists; reflexivity|exact Hr]|].
    split; [destruct recalc; reflexivity|]. apply Forall_cons; [exact I|]. destruct recalc; exact Fo.
Qed.

Lemma iterations_acc f : forall n i recalc (s : kst), of_run (k_sys s) -> Forall acc_ok (k_log s) ->
  match iterations f n i recalc s with
  | KNext s' _ | KRet _ s' => Forall acc_ok (k_log s')
  | KFuel => True
  end.
Proof.
  induction n as [|n IH]; intros i recalc s Hr Fo; cbn [k_iterations]; [exact Fo|].
  unfold k_iteration. pose proof (retry_acc f i recalc s Hr Fo) as H.
  destruct (retry f i recalc s) as [s1 rc|b s1|]; [|exact H|exact I].
  destruct H as (Hr1 & Hd & H). cbv zeta.
  match goal with |- context [search alphas ?x] => set (s2 := x) end.
  assert (Forall acc_ok (k_log (search alphas s2)) /\ k_sys (search alphas s2) = k_sys s2) as [H2 H2'].
  { apply (search_acc alphas s2); auto using incl_refl. cbn [s2 k_sys k_d0 k_d1].
    rewrite Hd. apply surjective_pairing. }
  match goal with |- context [if ?c then KRet true ?x else _] =>
    assert (Forall acc_ok (k_log x)) as H3 by (cbn [k_log]; apply Forall_cons; [exact I|exact H2]);
    assert (of_run (k_sys x)) as H4 by (cbn [k_sys]; rewrite H2'; exact Hr1);
    destruct c; [exact H3|apply IH; assumption] end.
Qed.
End Proofs.
