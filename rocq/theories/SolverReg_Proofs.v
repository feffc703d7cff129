(** Regularization window and termination of the main loops. *)
From Coq Require Import QArith Qabs List Bool Arith Lia Lqa.
From Verif Require Import Common XFloat XFloatFacts Params_Model Params_Spec Solver_Model Solver_Spec.
Import ListNotations.
Local Open Scope nat_scope.

Section Window.
Variable par : params.
Definition factors_ok : Prop :=
  is_fin (p_val par RegInc) = true /\ above1 (p_val par RegInc) /\
  is_fin (p_val par RegDec) = true /\ above1 (p_val par RegDec) /\
  nonneg (p_val par RegMin).

Lemma mul_ge p q : (1 < q -> 0 <= p -> p <= Qred (p * q))%Q.
Proof.
  intros H1 H2. pose proof (Qred_correct (p * q)).
  assert (0 <= p * (q - 1))%Q by (apply Qmult_le_0_compat; lra). lra.
Qed.
Lemma div_le p q : (1 < q -> 0 <= p -> 0 <= Qred (p / q) /\ Qred (p / q) <= p)%Q.
Proof.
  intros H1 H2. pose proof (Qred_correct (p / q)) as E.
  assert (0 <= p / q)%Q by (apply Qle_shift_div_l; lra).
  assert (p / q <= p)%Q.
  { apply Qle_shift_div_r; [lra|]. assert (0 <= p * (q - 1))%Q by (apply Qmult_le_0_compat; lra). lra. }
  lra.
Qed.

Lemma inc_window r : factors_ok -> in_window par r -> in_window par (inc_reg par r).
Proof.
  intros (F1 & F2 & _ & _ & F5) [W1 W2]. unfold inc_reg, in_window, nonneg, above1 in *.
  destruct (p_val par RegInc) as [| | |q]; try discriminate.
  assert (xle r (xmul r (Fin q)) = true) as H.
  { destruct (xle_nan_l _ _ W1) as [N1 N2].
    pose proof (xle_trans _ _ _ F5 W1) as P.
    destruct r as [| | |p]; try discriminate.
    - cbn [xmul xsgn]. assert ((q ?= 0)%Q = Gt) as -> by (apply Qgt_alt; apply xlt_fin in F2; lra). reflexivity.
    - cbn [xmul]. apply xle_fin. apply xlt_fin in F2. apply xle_fin in P. now apply mul_ge. }
  destruct (xlt (p_val par RegMax) _) eqn:E.
  - split; [eapply xle_trans; eauto|]. apply xle_refl. now apply xle_nan_l in W2.
  - split; [eapply xle_trans; eauto|].
    destruct (xle_nan_l _ _ H) as [_ N]. destruct (xle_nan_l _ _ W2) as [_ N'].
    rewrite xle_not_lt by auto. now rewrite E.
Qed.

Lemma dec_window r : factors_ok -> in_window par r -> in_window par (dec_reg par r).
Proof.
  intros (_ & _ & F3 & F4 & F5) [W1 W2]. unfold dec_reg, in_window, nonneg, above1 in *.
  destruct (p_val par RegDec) as [| | |q]; try discriminate.
  assert (xle (xdiv r (Fin q)) r = true) as H.
  { pose proof (xle_trans _ _ _ F5 W1) as P. apply xlt_fin in F4.
    destruct r as [| | |p]; try discriminate.
    - cbn [xdiv xsgn]. assert ((q ?= 0)%Q = Gt) as -> by (apply Qgt_alt; lra). reflexivity.
    - cbn [xdiv]. destruct (Qeq_bool q 0) eqn:E; [apply Qeq_bool_iff in E; lra|].
      apply xle_fin. apply xle_fin in P. now apply div_le. }
  destruct (xlt _ (p_val par RegMin)) eqn:E.
  - split; [|eapply xle_trans; eauto]. apply xle_refl. now apply xle_nan_l in W1.
  - split; [|eapply xle_trans; eauto].
    destruct (xle_nan_l _ _ H) as [N _]. destruct (xle_nan_l _ _ W1) as [N' _].
    rewrite xle_not_lt by auto. now rewrite E.
Qed.

(** Inside the window, with equal factors, decreasing undoes increasing and conversely. *)
Lemma dec_inc p q : p_val par RegInc = Fin q -> p_val par RegDec = Fin q -> (1 < q)%Q ->
  xle (p_val par RegMin) (Fin p) = true -> xle (xmul (Fin p) (Fin q)) (p_val par RegMax) = true ->
  xeq (dec_reg par (inc_reg par (Fin p))) (Fin p) = true.
Proof.
  intros E1 E2 Hq H1 H2. unfold inc_reg. rewrite E1. cbv zeta.
  assert (xlt (p_val par RegMax) (xmul (Fin p) (Fin q)) = false) as ->.
  { destruct (xle_nan_l _ _ H2). rewrite xlt_not_le by auto. now rewrite H2. }
  unfold dec_reg. rewrite E2. cbn [xmul xdiv]. cbv zeta.
  destruct (Qeq_bool q 0) eqn:E; [apply Qeq_bool_iff in E; lra|].
  assert (Qred (Qred (p * q) / q) == p)%Q as Ep.
  { rewrite Qred_correct, Qred_correct. field. lra. }
  assert (xlt (Fin (Qred (Qred (p * q) / q))) (p_val par RegMin) = false) as ->.
  { destruct (p_val par RegMin) as [| | |m]; try discriminate; auto. apply xle_fin in H1. apply xlt_fin_false. lra. }
  now apply xeq_fin.
Qed.
Lemma inc_dec p q : p_val par RegInc = Fin q -> p_val par RegDec = Fin q -> (1 < q)%Q ->
  xle (p_val par RegMin) (xdiv (Fin p) (Fin q)) = true -> xle (Fin p) (p_val par RegMax) = true ->
  xeq (inc_reg par (dec_reg par (Fin p))) (Fin p) = true.
Proof.
  intros E1 E2 Hq H1 H2. unfold dec_reg. rewrite E2. cbv zeta.
  assert (xlt (xdiv (Fin p) (Fin q)) (p_val par RegMin) = false) as ->.
  { destruct (xle_nan_l _ _ H1). rewrite xlt_not_le by auto. now rewrite H1. }
  unfold inc_reg. rewrite E1. cbn [xdiv].
  destruct (Qeq_bool q 0) eqn:E; [apply Qeq_bool_iff in E; lra|]. cbn [xmul]. cbv zeta.
  assert (Qred (Qred (p / q) * q) == p)%Q as Ep.
  { rewrite Qred_correct, Qred_correct. field. lra. }
  assert (xlt (p_val par RegMax) (Fin (Qred (Qred (p / q) * q))) = false) as ->.
  { destruct (p_val par RegMax) as [| | |m]; try discriminate; auto. apply xle_fin in H2. apply xlt_fin_false. lra. }
  now apply xeq_fin.
Qed.
End Window.

Section Loop.
Context {X U V G : Type}.
Variables (vscale : V -> xf -> V) (clamp : U -> U -> U -> U) (xnorm : X -> xf)
          (pol : G -> nat -> xf -> U -> V -> U)
          (bwd : list X -> list U -> list V -> bool -> xf -> option G)
          (eiD : G -> xf * xf) (eiF : G -> list X -> list V -> bool -> list X -> xf * xf)
          (pb : sproblem X U V) (par : params).
Notation st := (st X U V G).
Notation retry := (retry bwd pb par).
Notation line_search := (line_search vscale clamp xnorm pol eiF pb par).
Notation iteration := (iteration vscale clamp xnorm pol bwd eiD eiF pb par).
Notation iterations := (iterations vscale clamp xnorm pol bwd eiD eiF pb par).

Definition reg_ok (s : st) : Prop :=
  s_preg s = s_dreg s /\ in_window par (s_preg s) /\ Forall (reg_event_ok par) (s_log s).

(** The line search does not touch the regularization. *)
Lemma line_search_reg k g : forall al s s' b, line_search k g al s = (s', b) ->
  s_preg s' = s_preg s /\ s_dreg s' = s_dreg s /\
  (s_log s' = s_log s \/ exists f a d0 c c', s_log s' = EAccept f a d0 c c' :: s_log s).
Proof.
  induction al as [|a al IH]; intros s s' b E; cbn [Solver_Model.line_search] in E.
  - injection E as <- <-. auto.
  - cbv zeta in E. destruct (f_ok _).
    + destruct (fddp_loop k);
      match type of E with (if ?c then _ else _) = _ => destruct c end;
      first [ injection E as <- <-; split; [reflexivity|]; split; [reflexivity|]; right; repeat eexists
            | exact (IH _ _ _ E) ].
    + exact (IH _ _ _ E).
Qed.

Lemma retry_reg fuel : forall i recalc s,
  factors_ok par -> reg_ok s ->
  match retry fuel i recalc s with Fuel => True | Next s' _ | Ret _ s' => reg_ok s' end.
Proof.
  induction fuel as [|fuel IH]; intros i recalc s F (R1 & R2 & R3); cbn [Solver_Model.retry]; auto.
  set (s1 := linearise pb i recalc s).
  assert (s_preg s1 = s_preg s /\ s_dreg s1 = s_dreg s /\ exists lx lu fs xs us, s_log s1 = EDir (s_preg s) (s_dreg s) lx lu fs xs us :: s_log s)
    as (E1 & E2 & lx & lu & fs & xs & us & E3)
    by (unfold s1, linearise; destruct recalc; repeat split; do 5 eexists; reflexivity).
  clearbody s1. cbv zeta.
  assert (Forall (reg_event_ok par) (s_log s1)) as R3'.
  { rewrite E3. constructor; simpl; auto. }
  destruct (bwd _ _ _ _ _).
  - split; [|split]; cbn [set_g s_preg s_dreg s_log]; congruence.
  - assert (reg_ok (set_reg (inc_reg par (s_preg s1)) s1)) as R.
    { split; [|split]; cbn [set_reg s_preg s_dreg s_log]; auto. apply inc_window; auto. congruence. }
    destruct (xeq _ _); auto. apply IH; auto.
Qed.

Lemma iteration_reg k fuel i recalc s :
  factors_ok par -> reg_ok s ->
  match iteration k fuel i recalc s with Fuel => True | Next s' _ | Ret _ s' => reg_ok s' end.
Proof.
  intros F R. unfold Solver_Model.iteration. pose proof (retry_reg fuel i recalc s F R) as R1.
  destruct (retry fuel i recalc s) as [s1 b|b s1|]; auto.
  destruct (s_g s1) as [g|]; auto.
  set (s2 := if fddp_loop k then s1 else set_d (eiD g) s1).
  assert (reg_ok s2) as R2 by (unfold s2; destruct (fddp_loop k); exact R1). clearbody s2.
  destruct (line_search k g (p_alphas par) s2) as [s3 rc] eqn:E.
  destruct (line_search_reg _ _ _ _ _ _ E) as (H1 & H2 & H3).
  assert (reg_ok s3) as R3.
  { destruct R2 as (Q1 & Q2 & Q3). split; [congruence|]. split; [congruence|].
    destruct H3 as [H3|(f & a & d0 & c & c' & H3)]; rewrite H3; auto. constructor; simpl; auto. }
  clear E. set (s4 := if xlt (p_val par ThStepDec) (s_alpha s3) then _ else _).
  assert (reg_ok s4) as R4.
  { unfold s4. destruct (xlt _ _); auto. destruct R3 as (Q1 & Q2 & Q3).
    split; [|split]; simpl; auto. now apply dec_window. }
  clearbody s4. cbv zeta. set (s5 := if xle (s_alpha s4) (p_val par ThStepInc) then _ else _).
  assert (reg_ok s5) as R5.
  { unfold s5. destruct (xle _ _); auto. destruct R4 as (Q1 & Q2 & Q3).
    split; [|split]; simpl; auto. now apply inc_window. }
  clearbody s5. destruct (_ && xeq _ _); auto. set (s6 := set_stop _ s5).
  assert (reg_ok (emit (ECall i (s_xs s6) (s_us s6) (s_feas s6) (s_was s6) (s_cost s6) (s_stop s6) (s_preg s6) (s_dreg s6)) s6)) as R7.
  { destruct R5 as (Q1 & Q2 & Q3). split; [|split]; auto. constructor; simpl; auto. }
  destruct (_ && xlt _ _); auto.
Qed.

Lemma iterations_reg k fuel : factors_ok par -> forall n i recalc s,
  reg_ok s ->
  match iterations k fuel n i recalc s with Fuel => True | Next s' _ | Ret _ s' => reg_ok s' end.
Proof.
  intro F. induction n as [|n IH]; intros i recalc s R; cbn [Solver_Model.iterations]; auto.
  pose proof (iteration_reg k fuel i recalc s F R) as H.
  destruct (iteration k fuel i recalc s); auto. exact (IH _ _ _ H).
Qed.

(** * Termination *)
Section Bound.
Variables (lo q mx : Q).
Hypothesis Hinc : p_val par RegInc = Fin q.
Hypothesis Hmax : p_val par RegMax = Fin mx.
Hypothesis Hq : (1 < q)%Q.
Hypothesis Hlo : (0 < lo)%Q.

Definition above (s : st) : Prop := exists p, s_preg s = Fin p /\ (lo <= p)%Q.

Lemma inc_fin p : (0 < p)%Q ->
  (inc_reg par (Fin p) = Fin mx) \/
  (inc_reg par (Fin p) = Fin (Qred (p * q)) /\ (Qred (p * q) <= mx)%Q).
Proof.
  intro Hp. unfold inc_reg. rewrite Hinc, Hmax. cbn [xmul]. cbv zeta.
  destruct (xlt _ _) eqn:E; auto. right. split; auto. now apply xlt_fin_false in E.
Qed.

Lemma retry_S f i recalc (s : st) : retry (S f) i recalc s =
  let s1 := linearise pb i recalc s in
  match bwd (s_lx s1) (s_lu s1) (s_fs s1) (s_feas s1) (s_preg s1) with
  | Some g => Next (set_g g s1) false
  | None => let s2 := set_reg (inc_reg par (s_preg s1)) s1 in
            if xeq (s_preg s2) (p_val par RegMax) then Ret false s2 else retry f i false s2
  end.
Proof. reflexivity. Qed.

Lemma retry_fuel fuel : forall i recalc s p,
  s_preg s = Fin p -> (lo <= p)%Q -> (mx < p * qpow q fuel)%Q ->
  match retry (S fuel) i recalc s with
  | Fuel => False
  | Next s' _ => above s'
  | Ret _ _ => True
  end.
Proof using Hinc Hlo Hmax Hq.
  induction fuel as [|fuel IH]; intros i recalc s p Ep Lp M;
    rewrite retry_S; cbv zeta;
    set (s1 := linearise pb i recalc s);
    (assert (s_preg s1 = Fin p) as E1 by (unfold s1; destruct recalc; auto));
    clearbody s1; cbv zeta; (destruct (bwd _ _ _ _ _); [exists p; auto|]);
    rewrite E1; (assert (0 < p)%Q as Hp by lra); cbn [set_reg s_preg].
  - cbn [qpow] in M.
    destruct (inc_fin p Hp) as [E|[E L]].
    + rewrite E, Hmax. assert (xeq (Fin mx) (Fin mx) = true) as -> by (apply xeq_fin; reflexivity). exact I.
    + pose proof (Qred_correct (p * q)). exfalso.
      assert (0 < p * (q - 1))%Q by (apply Qmult_lt_0_compat; lra). lra.
  - destruct (inc_fin p Hp) as [E|[E L]].
    + rewrite E, Hmax. assert (xeq (Fin mx) (Fin mx) = true) as -> by (apply xeq_fin; reflexivity). exact I.
    + destruct (xeq _ _); auto. rewrite E.
      apply (IH i false (set_reg (Fin (Qred (p * q))) s1) (Qred (p * q))); auto.
      * pose proof (mul_ge p q Hq ltac:(lra)). lra.
      * pose proof (Qred_correct (p * q)) as Er. cbn [qpow] in M.
        rewrite Er. setoid_replace (p * q * qpow q fuel)%Q with (p * (q * qpow q fuel))%Q by ring. exact M.
Qed.

Variables (mn qd : Q).
Hypothesis Hmin : p_val par RegMin = Fin mn.
Hypothesis Hdec : p_val par RegDec = Fin qd.
Hypothesis Hqd : (1 < qd)%Q.
Hypothesis Hmn : (lo <= mn)%Q.

Lemma iteration_fuel k fuel i recalc s :
  above s -> (forall p, (lo <= p -> mx < p * qpow q fuel)%Q) ->
  match iteration k (S fuel) i recalc s with
  | Fuel => False
  | Next s' _ => above s'
  | Ret _ _ => True
  end.
Proof using Hinc Hlo Hmax Hq Hmin Hdec Hqd Hmn.
  intros (p & Ep & Lp) M. unfold Solver_Model.iteration.
  pose proof (retry_fuel fuel i recalc s p Ep Lp (M p Lp)) as R1.
  assert (match retry (S fuel) i recalc s with Next s' _ => exists g, s_g s' = Some g | _ => True end) as Hg.
  { clear. generalize (S fuel) as f. intro f. revert i recalc s.
    induction f as [|f IH]; intros i recalc s; cbn [Solver_Model.retry]; auto.
    destruct (bwd _ _ _ _ _); [eexists; reflexivity|]. destruct (xeq _ _); auto. apply IH. }
  destruct (retry (S fuel) i recalc s) as [s1 b|b s1|]; auto.
  destruct Hg as [g Hg]. rewrite Hg.
  set (s2 := if fddp_loop k then s1 else set_d (eiD g) s1).
  assert (above s2) as R2 by (unfold s2; destruct (fddp_loop k); exact R1). clearbody s2.
  destruct (line_search k g (p_alphas par) s2) as [s3 rc] eqn:E.
  destruct (line_search_reg _ _ _ _ _ _ E) as (H1 & H2 & H3).
  assert (above s3) as R3 by (destruct R2 as (p' & E2 & L2); exists p'; split; congruence).
  clear E. set (s4 := if xlt (p_val par ThStepDec) (s_alpha s3) then _ else _).
  assert (above s4) as R4.
  { unfold s4. destruct (xlt _ _); auto. destruct R3 as (p' & E2 & L2). unfold above. cbn [set_reg s_preg].
    unfold dec_reg. rewrite E2, Hmin, Hdec. cbn [xdiv]. cbv zeta.
    destruct (Qeq_bool qd 0) eqn:E0; [apply Qeq_bool_iff in E0; lra|].
    destruct (xlt _ _) eqn:E1; [exists mn; auto|]. apply xlt_fin_false in E1.
    eexists. split; [reflexivity|]. lra. }
  clearbody s4. cbv zeta. set (s5 := if xle (s_alpha s4) (p_val par ThStepInc) then _ else _).
  assert (above s5 \/ xle (s_alpha s4) (p_val par ThStepInc) && xeq (s_preg s5) (p_val par RegMax) = true) as R5.
  { unfold s5. destruct (xle _ _); auto. destruct R4 as (p' & E2 & L2). unfold above. cbn [set_reg s_preg andb].
    rewrite E2. destruct (inc_fin p' ltac:(lra)) as [E1|[E1 _]]; rewrite E1.
    - right. rewrite Hmax. apply xeq_fin. reflexivity.
    - left. eexists. split; [reflexivity|]. pose proof (mul_ge p' q Hq ltac:(lra)). lra. }
  clearbody s5. destruct R5 as [R5|R5].
  - destruct (_ && xeq _ _); auto. destruct (_ && xlt _ _); auto.
  - rewrite R5. exact I.
Qed.

Lemma iterations_fuel k fuel : (forall p, (lo <= p -> mx < p * qpow q fuel)%Q) -> forall n i recalc s,
  above s -> iterations k (S fuel) n i recalc s <> Fuel.
Proof using Hinc Hlo Hmax Hq Hmin Hdec Hqd Hmn.
  intro M. induction n as [|n IH]; intros i recalc s A; cbn [Solver_Model.iterations]; [discriminate|].
  pose proof (iteration_fuel k fuel i recalc s A M) as H.
  destruct (iteration k (S fuel) i recalc s); auto; discriminate.
Qed.
End Bound.

(** Increasing the fuel of the retry loop does not change a finished run. *)
Lemma retry_mono f f' : forall i recalc s, f <= f' -> retry f i recalc s <> Fuel ->
  retry f' i recalc s = retry f i recalc s.
Proof.
  revert f'. induction f as [|f IH]; intros f' i recalc s L N; [cbn in N; congruence|].
  destruct f' as [|f']; [lia|]. cbn [Solver_Model.retry] in *.
  destruct (bwd _ _ _ _ _); auto. destruct (xeq _ _); auto. apply IH; auto. lia.
Qed.
Lemma iterations_mono k f f' : f <= f' -> forall n i recalc s,
  iterations k f n i recalc s <> Fuel -> iterations k f' n i recalc s = iterations k f n i recalc s.
Proof.
  intros L. induction n as [|n IH]; intros i recalc s N; cbn [Solver_Model.iterations] in *; auto.
  assert (iteration k f i recalc s <> Fuel) as N1 by (intro E; rewrite E in N; congruence).
  assert (iteration k f' i recalc s = iteration k f i recalc s) as ->.
  { unfold Solver_Model.iteration in *. rewrite (retry_mono f f'); auto.
    intro E. rewrite E in N1. congruence. }
  destruct (iteration k f i recalc s); auto.
Qed.
End Loop.
