From Coq Require Import QArith Qabs List Bool Arith Lia Lqa.
From Verif Require Import Common XFloat XFloatFacts Params_Model Params_Spec Solver_Model Solver_Spec
  Solver_Proofs SolverLoop_Proofs SolverReg_Proofs SolverSync_Proofs IntroLoop_Model.
Import ListNotations.
Local Open Scope nat_scope.

Lemma cmax_cases a b : (cmax a b = a /\ xlt a b = false) \/ (cmax a b = b /\ xlt a b = true).
Proof. unfold cmax. destruct (xlt a b); auto. Qed.

(** Latest first: every value equals or exceeds its predecessor, the first one [u0]. *)
Fixpoint rising (u0 : xf) (l : list xf) : Prop :=
  match l with
  | [] => True
  | u :: r => (u = hd u0 r \/ xlt (hd u0 r) u = true) /\ rising u0 r
  end.

Section Intro.
Context {X U V G : Type}.
Variables
  (vscale : V -> xf -> V) (clamp : U -> U -> U -> U) (xnorm : X -> xf)
  (pol : G -> nat -> xf -> U -> V -> U)
  (bwd : list X -> list U -> list V -> bool -> xf -> option G)
  (eiP : G -> st X U V G -> xf * xf)
  (eiF : G -> list X -> list V -> bool -> list X -> xf * xf)
  (hf : list X -> list U -> xf)
  (pb : sproblem X U V) (par : params) (th_feas rho : xf).
Notation st := (st X U V G).
Notation ist := (ist X U V G).
Notation i_retry := (i_retry bwd hf pb par).
Notation i_search := (i_search vscale clamp xnorm pol eiF hf pb par).
Notation i_iteration := (i_iteration vscale clamp xnorm pol bwd eiP eiF hf pb par th_feas rho).
Notation i_iterations := (i_iterations vscale clamp xnorm pol bwd eiP eiF hf pb par th_feas rho).
Notation T := (length (q_run pb)).
Notation cost_of := (total_cost (q_term pb) (Fin 0) (q_run pb)).
Notation rollout := (follows (q_x0 pb) (q_run pb)).

Definition hf_ok (s : ist) : Prop := t_hf s = hf (s_xs (t_s s)) (s_us (t_s s)).

(** What the acceptance test established. *)
Definition acc_ok (e : iacc) : Prop :=
  let dV := xsub (a_c0 e) (a_c1 e) in
  let dfeas := xsub (a_h0 e) (a_h1 e) in
  let dVexp := xmul (a_alpha e) (xadd (fst (a_d e)) (xmul (xmul (Fin (1 # 2)) (a_alpha e)) (snd (a_d e)))) in
  let dPhiexp := xadd dVexp (xmul (xmul (a_alpha e) (a_ups e)) dfeas) in
  if xle (Fin 0) dPhiexp
  then xlt (xabs (fst (a_d e))) (p_val par ThGrad) = true \/
       xlt (xmul (p_val par ThAcceptStep) dPhiexp) (xadd dV (xmul (a_ups e) dfeas)) = true
  else xlt (xmul (p_val par ThAcceptNegStep) dVexp) dV = true.

Definition sound (s : ist) : Prop :=
  good pb (t_s s) /\ cost_ok pb (t_s s) /\ feas_ok pb (t_s s) /\ hf_ok s /\
  log_ok pb (t_s s) /\ Forall acc_ok (t_acc s).

Lemma i_search_spec g : forall al s s' b,
  incl al (p_alphas par) -> sound s -> fs_ok pb (t_s s) -> lin_ok (t_s s) ->
  i_search g al s = (s', b) ->
  sound s' /\ t_ups s' = t_ups s /\ t_calls s' = t_calls s /\ t_uplog s' = t_uplog s /\
  s_preg (t_s s') = s_preg (t_s s) /\ s_dreg (t_s s') = s_dreg (t_s s) /\
  (s_log (t_s s') = s_log (t_s s) \/ exists f a d0 c c', s_log (t_s s') = EAccept f a d0 c c' :: s_log (t_s s)) /\
  (s_feas (t_s s) = true -> s_feas (t_s s') = true) /\
  (if b then data_ok pb (t_s s') /\
             t_merit s' = xadd (s_cost (t_s s')) (xmul (t_ups s') (t_hf s')) /\
             exists e, t_acc s' = e :: t_acc s /\ In (a_alpha e) (p_alphas par) /\ a_ups e = t_ups s /\
               a_c0 e = s_cost (t_s s) /\ a_h0 e = t_hf s /\ a_c1 e = s_cost (t_s s') /\ a_h1 e = t_hf s' /\
               s_feas (t_s s') = s_feas (t_s s) || xeq (a_alpha e) (Fin 1)
   else fs_ok pb (t_s s') /\ lin_ok (t_s s') /\ s_xs (t_s s') = s_xs (t_s s) /\ s_us (t_s s') = s_us (t_s s) /\
        s_feas (t_s s') = s_feas (t_s s) /\ t_acc s' = t_acc s /\ t_merit s' = t_merit s).
Proof.
  induction al as [|a al IH]; intros s s' b Hin Sd Fs Ln E.
  - cbn [IntroLoop_Model.i_search] in E. injection E as <- <-. split; [exact Sd|].
    do 5 (split; [reflexivity|]). split; [left; reflexivity|]. split; [auto|].
    split; [exact Fs|]. split; [exact Ln|]. repeat split.
  - cbn [IntroLoop_Model.i_search] in E. cbv zeta in E.
    destruct Sd as (Gd & Co & Fe & Hh & Lg & Ac).
    set (fr := forward vscale clamp xnorm pol pb FDDP g a (s_feas (t_s s)) (s_xt0 (t_s s)) (s_xs (t_s s)) (s_us (t_s s))
               (s_uo (t_s s)) (s_fs (t_s s)) (s_ds (t_s s)) (s_dT (t_s s))) in *.
    pose proof (good_arrays pb _ Gd) as Ar.
    destruct (forward_len vscale clamp xnorm pol pb FDDP g a (s_feas (t_s s)) (s_xt0 (t_s s)) _ _ _ _ _ (s_dT (t_s s)) Ar) as (L1 & L2 & L3).
    cbv zeta in L1, L2, L3. fold fr in L1, L2, L3.
    pose proof (forward_full vscale clamp xnorm pol pb FDDP g a (s_feas (t_s s)) (s_xt0 (t_s s)) _ _ _ _ _ (s_dT (t_s s)) Ar) as Hfull.
    cbv zeta in Hfull. fold fr in Hfull.
    (* a rejected trial leaves a sound state *)
    assert (forall d al0 dV0, good pb (set_d d (set_try a fr (t_s s))) /\
              sound (ISt (set_d d (set_try a fr (t_s s))) (t_hf s) (t_ups s) al0 dV0 (t_calls s) (t_uplog s) (t_acc s))) as Rej.
    { intros d m dV. destruct Gd as (((G1 & G2) & G3 & G4) & G5 & G6).
      assert (good pb (set_d d (set_try a fr (t_s s)))) as Gr.
      { split; [split; [split; assumption|split; [exact L1|exact G4]]|]. split; [exact G5|exact L2]. }
      split; [exact Gr|]. split; [exact Gr|]. split; [exact Co|]. split; [exact Fe|].
      split; [exact Hh|]. split; [exact Lg|exact Ac]. }
    assert (good pb (set_try a fr (t_s s)) /\
              sound (ISt (set_try a fr (t_s s)) (t_hf s) (t_ups s) (t_merit s) (t_dV s) (t_calls s) (t_uplog s) (t_acc s))) as Rej'.
    { destruct Gd as (((G1 & G2) & G3 & G4) & G5 & G6).
      assert (good pb (set_try a fr (t_s s))) as Gr.
      { split; [split; [split; assumption|split; [exact L1|exact G4]]|]. split; [exact G5|exact L2]. }
      split; [exact Gr|]. split; [exact Gr|]. split; [exact Co|]. split; [exact Fe|].
      split; [exact Hh|]. split; [exact Lg|exact Ac]. }
    destruct (f_ok fr) eqn:Ok.
    + match type of E with (if ?c then _ else _) = _ => destruct c eqn:Acc end.
      * injection E as <- <-.
        destruct (forward_cost vscale clamp xnorm pol pb FDDP g a (s_feas (t_s s)) (s_xt0 (t_s s)) _ _ _ _ _ (s_dT (t_s s)) Ar Ok) as (C1 & C2 & C3 & _).
        fold fr in C1, C2, C3. specialize (L3 eq_refl).
        destruct Gd as (((G1 & G2) & G3 & G4) & G5 & G6).
        set (d := eiF _ _ _ _ _) in *.
        split; [split; [|split; [|split; [|split; [|split]]]]|].
        -- split; [split; [split; [exact L3|exact L1]|split; [exact L1|exact G4]]|]. split; [exact G5|exact L2].
        -- exact C1.
        -- intro Hf. cbn [t_s set_accept s_feas set_d set_try] in Hf. apply orb_true_iff in Hf.
           exact (Hfull (or_intror Hf) eq_refl).
        -- reflexivity.
        -- unfold log_ok. cbn [t_s set_accept s_log]. apply Forall_cons; [exact I|exact Lg].
        -- cbn [t_acc]. apply Forall_cons; [|exact Ac]. unfold acc_ok. cbn [a_alpha a_d a_ups a_c0 a_h0 a_c1 a_h1 fst snd].
           cbv zeta. cbn [set_d set_try s_cost s_d0 s_d1 t_s fst snd] in Acc |- *.
           match type of Acc with (if ?c then _ else _) = _ => destruct c end; [apply orb_true_iff in Acc; exact Acc|exact Acc].
        -- do 5 (split; [reflexivity|]). split; [right; do 5 eexists; reflexivity|].
           split; [intro Hf; cbn [t_s set_accept s_feas set_d set_try] in Hf |- *; rewrite Hf; reflexivity|].
           split; [split; [exact C3|exact C2]|]. split; [reflexivity|].
           eexists. split; [reflexivity|]. split; [apply Hin; now left|].
           repeat (split; [reflexivity|]). reflexivity.
      * refine (IH _ s' b (fun x Hx => Hin x (or_intror Hx)) (proj2 (Rej _ _ _)) Fs Ln E).
    + refine (IH _ s' b (fun x Hx => Hin x (or_intror Hx)) (proj2 Rej') Fs Ln E).
Qed.

(** * One pass of the main loop *)
Definition icall_ok (c : icall X U) : Prop :=
  (c_feas c = true -> rollout (c_xs c) (c_us c)) /\
  c_cost c = cost_of (c_xs c) (c_us c) /\ c_hf c = hf (c_xs c) (c_us c) /\
  c_stop c = cmax (c_hf c) (xabs (xadd (fst (c_d c)) (xmul (Fin (1 # 2)) (snd (c_d c))))).
Definition stops (c : icall X U) : bool := c_feas c && xlt (c_stop c) (p_val par ThStop).
Definition iup_ok (u : iup) : Prop := u_new u = update_upsilon rho (u_i u) (u_old u) (u_hf u) (u_d u).

Definition ipre (i : nat) (recalc : bool) (s : ist) : Prop :=
  pre pb i recalc (t_s s) /\ feas_ok pb (t_s s) /\ (recalc = false -> lin_ok (t_s s)) /\
  log_ok pb (t_s s) /\ (i = 0 /\ recalc = true \/ hf_ok s) /\ Forall acc_ok (t_acc s).

(** Everything recorded so far, [j] iterations completed; [u0] is the initial weight. *)
Definition rec_ok (u0 : xf) (j : nat) (s : ist) : Prop :=
  map (@c_i X U) (t_calls s) = rev (seq 0 j) /\ Forall icall_ok (t_calls s) /\
  rising u0 (map (@c_ups X U) (t_calls s)) /\ t_ups s = hd u0 (map (@c_ups X U) (t_calls s)) /\
  Forall iup_ok (t_uplog s) /\ map u_i (t_uplog s) = rev (seq 0 j) /\
  map u_new (t_uplog s) = map (@c_ups X U) (t_calls s).

Lemma i_retry_spec fuel i recalc s :
  q_run pb <> [] -> ipre i recalc s ->
  match i_retry fuel i recalc s with
  | IFuel => True
  | INext s1 _ | IRet _ s1 =>
      sound s1 /\ fs_ok pb (t_s s1) /\ lin_ok (t_s s1) /\
      s_xs (t_s s1) = s_xs (t_s s) /\ s_us (t_s s1) = s_us (t_s s) /\ s_feas (t_s s1) = s_feas (t_s s) /\
      t_ups s1 = t_ups s /\ t_calls s1 = t_calls s /\ t_uplog s1 = t_uplog s /\ t_acc s1 = t_acc s
  end /\
  match i_retry fuel i recalc s with
  | INext s1 _ => exists g, s_g (t_s s1) = Some g
  | IRet b s1 => b = false /\ xeq (s_preg (t_s s1)) (p_val par RegMax) = true
  | IFuel => True
  end.
Proof.
  intros N (P & Fe & Ln & Lg & Hh & Ac). unfold IntroLoop_Model.i_retry.
  set (h := if recalc then _ else _).
  assert (h = hf (s_xs (t_s s)) (s_us (t_s s))) as Eh.
  { unfold h. destruct recalc; [reflexivity|]. destruct Hh as [[_ [=]]|H]; exact H. }
  clearbody h.
  pose proof (retry_sync bwd pb par fuel i recalc (t_s s) N P Ln Lg) as Sy.
  pose proof (retry_spec bwd pb par fuel i recalc (t_s s) _ N P eq_refl) as Sp.
  destruct (retry bwd pb par fuel i recalc (t_s s)) as [s1 rc|b s1|]; [| |auto].
  - destruct Sp as [(K1 & K2 & Kf & K3 & K4 & K5 & K6 & K7 & _) [_ Hg]]. destruct Sy as [Y1 Y2].
    split; [|exact Hg]. split.
    + split; [exact K1|]. split; [exact K2|]. split; [unfold feas_ok; cbn [t_s]; rewrite K4, K5, K6; exact Fe|].
      split; [unfold hf_ok; cbn [t_s t_hf]; rewrite K4, K5; exact Eh|]. split; [exact Y2|exact Ac].
    + split; [exact Kf|]. split; [exact Y1|]. repeat (split; [assumption|]). repeat split.
  - destruct Sp as [(K1 & K2 & Kf & K3 & K4 & K5 & K6 & K7 & _) [Eb Hg]]. destruct Sy as [Y1 Y2].
    split; [|split; assumption]. split.
    + split; [exact K1|]. split; [exact K2|]. split; [unfold feas_ok; cbn [t_s]; rewrite K4, K5, K6; exact Fe|].
      split; [unfold hf_ok; cbn [t_s t_hf]; rewrite K4, K5; exact Eh|]. split; [exact Y2|exact Ac].
    + split; [exact Kf|]. split; [exact Y1|]. repeat (split; [assumption|]). repeat split.
Qed.

Lemma update_upsilon_cases i ups h d :
  update_upsilon rho i ups h d = ups \/ xlt ups (update_upsilon rho i ups h d) = true.
Proof.
  unfold update_upsilon. destruct (_ && _); auto.
  destruct (cmax_cases ups (xdiv (xadd (fst d) (xmul (Fin (1 # 2)) (snd d))) (xmul (xsub (Fin 1) rho) h))) as [[-> _]|[-> H]]; auto.
Qed.

(** The tail of an iteration: regularization updates do not touch the candidate. *)
Definition same_all (b b' : st) : Prop :=
  same_cand b b' /\ s_lx b' = s_lx b /\ s_lu b' = s_lu b /\ s_log b' = s_log b /\
  s_d0 b' = s_d0 b /\ s_d1 b' = s_d1 b /\ s_stop b' = s_stop b.
Lemma set_reg_all r b : same_all b (set_reg r b).
Proof. unfold same_all, same_cand. repeat split. Qed.

Lemma sound_same s b h ups m dV c u : sound s -> same_cand (t_s s) b -> s_log b = s_log (t_s s) -> h = t_hf s ->
  sound (ISt b h ups m dV c u (t_acc s)).
Proof.
  intros (Gd & Co & Fe & Hh & Lg & Ac) (E1 & E2 & E3 & E4 & E5 & E6 & E7 & E8 & E9 & E10) El ->.
  unfold sound, good, good0, cost_ok, feas_ok, hf_ok, log_ok in *. cbn [t_s t_hf t_acc].
  rewrite E1, E2, E3, E5, E6, E7, E8, E10, El.
  split; [exact Gd|]. split; [exact Co|]. split; [exact Fe|]. split; [exact Hh|]. split; [exact Lg|exact Ac].
Qed.

Lemma i_iteration_spec fuel i recalc s u0 :
  q_run pb <> [] -> ipre i recalc s -> rec_ok u0 i s ->
  match i_iteration fuel i recalc s with
  | IFuel => True
  | INext s' rc =>
      ipre (S i) rc s' /\ sound s' /\ rec_ok u0 (S i) s' /\
      exists c, t_calls s' = c :: t_calls s /\ stops c = false /\ c_feas c = s_feas (t_s s')
  | IRet b s' =>
      sound s' /\
      ((b = false /\ rec_ok u0 i s' /\ t_calls s' = t_calls s /\ xeq (s_preg (t_s s')) (p_val par RegMax) = true) \/
       (rec_ok u0 (S i) s' /\ exists c, t_calls s' = c :: t_calls s /\
          (b = true -> stops c = true /\ c_xs c = s_xs (t_s s') /\ c_us c = s_us (t_s s') /\ c_feas c = s_feas (t_s s') /\
                       c_hf c = t_hf s' /\ c_stop c = s_stop (t_s s') /\ c_d c = (s_d0 (t_s s'), s_d1 (t_s s'))) /\
          (b = false -> xeq (s_preg (t_s s')) (p_val par RegMax) = true)))
  end.
Proof.
  intros N P (R1 & R2 & R3 & R4 & R5 & R6 & R7). unfold IntroLoop_Model.i_iteration.
  destruct (i_retry_spec fuel i recalc s N P) as [H1 H2].
  destruct (i_retry fuel i recalc s) as [s1 b|b s1|]; auto.
  2: { destruct H1 as (Sd & _ & _ & E1 & E2 & E3 & E4 & E5 & E6 & E7). destruct H2 as [-> H2].
       split; [exact Sd|]. left. split; [reflexivity|]. split; [|split; [exact E5|exact H2]].
       unfold rec_ok. rewrite E4, E5, E6. repeat (split; [assumption|]). assumption. }
  destruct H2 as [g Hg]. rewrite Hg.
  destruct H1 as (Sd & Fs & Ln & E1 & E2 & E3 & E4 & E5 & E6 & E7).
  set (d := eiP g (t_s s1)). set (ups := update_upsilon rho i (t_ups s1) (t_hf s1) d).
  set (s2 := ISt (set_d d (t_s s1)) (t_hf s1) ups (t_merit s1) (t_dV s1) (t_calls s1)
                 (IUp i (t_ups s1) ups (t_hf s1) d :: t_uplog s1) (t_acc s1)).
  assert (sound s2) as Sd2 by exact Sd.
  cbv zeta. fold s2.
  destruct (i_search g (p_alphas par) s2) as [s3 rc] eqn:El.
  destruct (i_search_spec g _ s2 s3 rc (incl_refl _) Sd2 Fs Ln El) as (Sd3 & U3 & C3 & L3 & _ & _ & _ & _ & B3).
  clear El. cbn [t_ups t_calls t_uplog s2] in U3, C3, L3. rewrite C3, L3, U3, E5, E6.
  set (stop := cmax (t_hf s3) _).
  set (c := ICall i _ _ _ _ _ _ _ _).
  set (b4 := set_stop stop (t_s s3)).
  assert (same_cand (t_s s3) b4 /\ s_lx b4 = s_lx (t_s s3) /\ s_lu b4 = s_lu (t_s s3) /\ s_log b4 = s_log (t_s s3)) as Sm4
    by (unfold same_cand; repeat split).
  assert (s_d0 b4 = s_d0 (t_s s3) /\ s_d1 b4 = s_d1 (t_s s3) /\ s_stop b4 = stop) as (D4 & D4' & St4) by (repeat split).
  set (b5 := if _ : bool then set_reg (dec_reg par (s_preg b4)) b4 else b4).
  assert (same_all b4 b5) as Sm5 by (unfold b5; destruct (_ && _); [apply set_reg_all|unfold same_all, same_cand; repeat split]).
  set (inc := xle (s_alpha b5) (p_val par ThStepInc) || xle (xabs (s_d1 b5)) th_feas).
  set (b6 := if inc then set_reg (inc_reg par (s_preg b5)) b5 else b5).
  assert (same_all b5 b6) as Sm6 by (unfold b6; destruct inc; [apply set_reg_all|unfold same_all, same_cand; repeat split]).
  clearbody b4 b5 inc b6.
  destruct Sm4 as (Q4 & Q4x & Q4u & Q4l). destruct Sm5 as (Q5 & Q5x & Q5u & Q5l & Q5d & Q5d' & Q5s).
  destruct Sm6 as (Q6 & Q6x & Q6u & Q6l & Q6d & Q6d' & Q6s).
  assert (same_cand (t_s s3) b5) as Q35.
  { clear -Q4 Q5. unfold same_cand in *. intuition congruence. }
  assert (same_cand (t_s s3) b6) as Q36.
  { clear -Q35 Q6. unfold same_cand in *. intuition congruence. }
  assert (icall_ok c) as Ic.
  { destruct Sd3 as (_ & Co & Fe & Hh & _). unfold icall_ok, c. cbn [c_feas c_xs c_us c_cost c_hf c_stop c_d fst snd].
    split; [exact Fe|]. split; [exact Co|]. split; [exact Hh|]. reflexivity. }
  assert (forall b, rec_ok u0 (S i)
            (ISt b (t_hf s3) ups (t_merit s3) (t_dV s3) (c :: t_calls s) (IUp i (t_ups s1) ups (t_hf s1) d :: t_uplog s) (t_acc s3))) as Rk.
  { intro b0. unfold rec_ok. cbn [t_calls t_ups t_uplog map u_i u_new rising hd].
    assert (c_i c = i) as -> by reflexivity. assert (c_ups c = ups) as -> by reflexivity. split; [rewrite seq_S, rev_app_distr, R1; reflexivity|].
    split; [apply Forall_cons; assumption|].
    split; [split; [|exact R3]|].
    - rewrite <- R4, <- E4. apply update_upsilon_cases.
    - split; [reflexivity|]. split; [apply Forall_cons; [reflexivity|exact R5]|].
      split; [rewrite seq_S, rev_app_distr, R6; reflexivity|]. f_equal. exact R7. }
  destruct (inc && xeq (s_preg b5) (p_val par RegMax)) eqn:Ei.
  - split; [apply (sound_same s3 b5); auto; congruence|]. right. split; [apply Rk|].
    exists c. split; [reflexivity|]. split; [discriminate|]. intros _. apply andb_true_iff in Ei. apply Ei.
  - destruct (s_feas b6 && xlt (s_stop b6) (p_val par ThStop)) eqn:Es.
    + split; [apply (sound_same s3 b6); auto; congruence|]. right. split; [apply Rk|].
      exists c. split; [reflexivity|]. split; [|discriminate]. intros _.
      destruct Q36 as (F1 & F2 & F3 & _). unfold stops, c. cbn [c_feas c_stop c_xs c_us c_hf c_d t_s t_hf].
      rewrite Q6s, Q5s, St4 in Es |- *. rewrite F3 in Es |- *. rewrite F1, F2, Q6d, Q5d, D4, Q6d', Q5d', D4'.
      split; [exact Es|]. repeat split.
    + assert (sound (ISt b6 (t_hf s3) ups (t_merit s3) (t_dV s3) (c :: t_calls s)
                         (IUp i (t_ups s1) ups (t_hf s1) d :: t_uplog s) (t_acc s3))) as Sd6
        by (apply (sound_same s3 b6); auto; congruence).
      split; [|split; [exact Sd6|split; [apply Rk|]]].
      * destruct Sd6 as (Gd & Co & Fe & Hh & Lg & Ac). split; [|split; [exact Fe|split; [|split; [exact Lg|split; [right; exact Hh|exact Ac]]]]].
        -- split; [exact (proj1 Gd)|]. right. split; [exact Gd|]. split; [exact Co|].
           destruct Q36 as (F1 & F2 & F3 & F4 & F5 & F6 & F7 & F8 & F9 & F10). cbn [t_s].
           split; intros ->.
           ++ destruct B3 as (B3 & _). unfold data_ok in *. rewrite F1, F2, F8, F9, F10. exact B3.
           ++ destruct B3 as (B3 & _). unfold fs_ok in *. rewrite F1, F2, F7. exact B3.
        -- intros ->. destruct B3 as (_ & B3 & _). destruct Q36 as (F1 & F2 & _). cbn [t_s].
           unfold lin_ok in *. rewrite F1, F2, Q6x, Q5x, Q4x, Q6u, Q5u, Q4u. exact B3.
      * exists c. split; [reflexivity|]. destruct Q36 as (F1 & F2 & F3 & _). unfold stops, c. cbn [c_feas c_stop t_s].
        rewrite Q6s, Q5s, St4 in Es. rewrite F3 in Es |- *. split; [exact Es|reflexivity].
Qed.

Definition ifinal (u0 : xf) (maxiter : nat) (b : bool) (s' : ist) : Prop :=
  exists j, j <= maxiter /\ rec_ok u0 j s' /\ Forall acc_ok (t_acc s') /\ feas_ok pb (t_s s') /\ log_ok pb (t_s s') /\
  (maxiter <> 0 -> sound s') /\
  (if b then exists c l, t_calls s' = c :: l /\ Forall (fun c => stops c = false) l /\ stops c = true /\
                c_xs c = s_xs (t_s s') /\ c_us c = s_us (t_s s') /\ c_feas c = s_feas (t_s s') /\
                c_hf c = t_hf s' /\ c_stop c = s_stop (t_s s') /\ c_d c = (s_d0 (t_s s'), s_d1 (t_s s'))
   else j = maxiter \/ xeq (s_preg (t_s s')) (p_val par RegMax) = true).

Lemma i_iterations_spec fuel u0 : forall n i recalc s b s',
  q_run pb <> [] -> ipre i recalc s -> (0 < i -> sound s) -> rec_ok u0 i s ->
  Forall (fun c => stops c = false) (t_calls s) ->
  i_iterations fuel n i recalc s = IRet b s' -> ifinal u0 (i + n) b s'.
Proof.
  induction n as [|n IH]; intros i recalc s b s' N P Sd R Ns E; cbn [IntroLoop_Model.i_iterations] in E.
  - injection E as <- <-. rewrite Nat.add_0_r. exists i. split; [lia|]. split; [exact R|].
    destruct P as (_ & Fe & _ & Lg & _ & Ac). split; [exact Ac|]. split; [exact Fe|]. split; [exact Lg|].
    split; [intro; apply Sd; lia|]. left. reflexivity.
  - pose proof (i_iteration_spec fuel i recalc s u0 N P R) as H.
    destruct (i_iteration fuel i recalc s) as [s1 rc|b1 s1|]; [| |discriminate].
    + destruct H as (P1 & S1 & R1 & c & C1 & C2 & _). rewrite Nat.add_succ_r.
      change (S (i + n)) with (S i + n). refine (IH (S i) rc s1 b s' N P1 (fun _ => S1) R1 _ E).
      rewrite C1. apply Forall_cons; assumption.
    + injection E as <- <-. destruct H as (S1 & H).
      destruct H as [(-> & R1 & _ & Hx)|(R1 & c & C1 & C2 & C3)].
      * exists i. split; [lia|]. split; [exact R1|]. split; [apply S1|]. split; [apply S1|]. split; [apply S1|].
        split; [auto|]. right. exact Hx.
      * exists (S i). split; [lia|]. split; [exact R1|]. split; [apply S1|]. split; [apply S1|]. split; [apply S1|].
        split; [auto|]. destruct b1; [|right; auto].
        exists c, (t_calls s). split; [exact C1|]. split; [exact Ns|]. exact (C2 eq_refl).
Qed.
End Intro.

(** * Regularization and termination *)
Section Reg.
Context {X U V G : Type}.
Variables
  (vscale : V -> xf -> V) (clamp : U -> U -> U -> U) (xnorm : X -> xf)
  (pol : G -> nat -> xf -> U -> V -> U)
  (bwd : list X -> list U -> list V -> bool -> xf -> option G)
  (eiP : G -> st X U V G -> xf * xf)
  (eiF : G -> list X -> list V -> bool -> list X -> xf * xf)
  (hf : list X -> list U -> xf)
  (pb : sproblem X U V) (par : params) (th_feas rho : xf).
Notation st := (st X U V G).
Notation ist := (ist X U V G).
Notation i_retry := (i_retry bwd hf pb par).
Notation i_search := (i_search vscale clamp xnorm pol eiF hf pb par).
Notation i_iteration := (i_iteration vscale clamp xnorm pol bwd eiP eiF hf pb par th_feas rho).
Notation i_iterations := (i_iterations vscale clamp xnorm pol bwd eiP eiF hf pb par th_feas rho).

Lemma i_search_reg g : forall al s s' b, i_search g al s = (s', b) ->
  s_preg (t_s s') = s_preg (t_s s) /\ s_dreg (t_s s') = s_dreg (t_s s) /\
  (s_log (t_s s') = s_log (t_s s) \/ exists f a d0 c c', s_log (t_s s') = EAccept f a d0 c c' :: s_log (t_s s)).
Proof.
  induction al as [|a al IH]; intros s s' b E; cbn [IntroLoop_Model.i_search] in E.
  - injection E as <- <-. auto.
  - cbv zeta in E. destruct (f_ok _).
    + match type of E with (if ?c then _ else _) = _ => destruct c end.
      * injection E as <- <-. split; [reflexivity|]. split; [reflexivity|]. right. do 5 eexists. reflexivity.
      * exact (IH _ _ _ E).
    + exact (IH _ _ _ E).
Qed.

(** What an iteration does to the regularization, from the base state [b3] after the
    line search. *)
Lemma i_iteration_reg (P : st -> Prop) fuel i recalc s :
  (forall r, retry bwd pb par fuel i recalc (t_s s) = r ->
     match r with Next b _ => P b /\ exists g, s_g b = Some g | Ret _ b => P b | Fuel => False end) ->
  (forall b b', s_preg b' = s_preg b -> s_dreg b' = s_dreg b ->
     (s_log b' = s_log b \/ exists f a d0 c c', s_log b' = EAccept f a d0 c c' :: s_log b) -> P b -> P b') ->
  (forall b, P b -> P (set_reg (dec_reg par (s_preg b)) b)) ->
  (forall b, P b -> xeq (s_preg b) (p_val par RegMax) = false -> P (set_reg (inc_reg par (s_preg b)) b)) ->
  match i_iteration fuel i recalc s with INext s' _ | IRet _ s' => P (t_s s') | IFuel => False end.
Proof.
  intros Hr Hs Hd Hi. unfold IntroLoop_Model.i_iteration, IntroLoop_Model.i_retry.
  specialize (Hr _ eq_refl). destruct (retry bwd pb par fuel i recalc (t_s s)) as [s1 rc|b s1|]; auto.
  destruct Hr as [P1 [g Hg]]. cbn [t_s]. rewrite Hg. cbv zeta.
  match goal with |- context [i_search g ?al ?s2] => destruct (i_search g al s2) as [s3 rc3] eqn:El end.
  destruct (i_search_reg g _ _ _ _ El) as (E1 & E2 & E3). cbn [t_s set_d s_preg s_dreg s_log] in E1, E2, E3.
  pose proof (Hs s1 (t_s s3) E1 E2 E3 P1) as P3. clear El.
  set (b4 := set_stop _ (t_s s3)).
  assert (P b4) as P4 by (apply (Hs (t_s s3)); auto). clearbody b4.
  set (b5 := if _ : bool then set_reg (dec_reg par (s_preg b4)) b4 else b4).
  assert (P b5) as P5 by (unfold b5; destruct (_ && _); auto). clearbody b5.
  set (inc := _ || _). clearbody inc.
  destruct inc; cbn [andb].
  - destruct (xeq (s_preg b5) (p_val par RegMax)) eqn:Ex; [exact P5|].
    destruct (_ && _); exact (Hi b5 P5 Ex).
  - destruct (_ && _); exact P5.
Qed.

Lemma retry_gain fuel : forall i recalc s, match retry bwd pb par fuel i recalc s with Next s' _ => exists g : G, s_g s' = Some g | _ => True end.
Proof.
  induction fuel as [|f IH]; intros i recalc s; cbn [Solver_Model.retry]; auto.
  destruct (bwd _ _ _ _ _); [eexists; reflexivity|]. destruct (xeq _ _); auto. apply IH.
Qed.

Lemma i_iterations_window fuel : factors_ok par -> forall n i recalc s,
  reg_ok par (t_s s) ->
  match i_iterations fuel n i recalc s with IFuel => True | INext s' _ | IRet _ s' => reg_ok par (t_s s') end.
Proof.
  intro F. induction n as [|n IH]; intros i recalc s R; cbn [IntroLoop_Model.i_iterations]; auto.
  pose proof (retry_reg bwd pb par fuel i recalc (t_s s) F R) as Hr.
  pose proof (retry_gain fuel i recalc (t_s s)) as Hg.
  destruct (retry bwd pb par fuel i recalc (t_s s)) as [s1 rc|b1 s1|] eqn:Er.
  3: { unfold IntroLoop_Model.i_iteration, IntroLoop_Model.i_retry. rewrite Er. exact I. }
  - pose proof (i_iteration_reg (reg_ok par) fuel i recalc s) as H. rewrite Er in H.
    assert (match i_iteration fuel i recalc s with INext s' _ | IRet _ s' => reg_ok par (t_s s') | IFuel => False end) as H0.
    { apply H; clear H.
      - intros r <-. auto.
      - intros b b' E1 E2 E3 (Q1 & Q2 & Q3). split; [congruence|]. split; [congruence|].
        destruct E3 as [E3|(f & a & d0 & c & c' & E3)]; rewrite E3; auto. constructor; simpl; auto.
      - intros b (Q1 & Q2 & Q3). split; [reflexivity|]. split; [now apply dec_window|exact Q3].
      - intros b (Q1 & Q2 & Q3) _. split; [reflexivity|]. split; [now apply inc_window|exact Q3]. }
    destruct (i_iteration fuel i recalc s); auto. exact (IH _ _ _ H0).
  - unfold IntroLoop_Model.i_iteration, IntroLoop_Model.i_retry. rewrite Er. exact Hr.
Qed.

Section Bound.
Variables (lo q mx : Q).
Hypothesis Hinc : p_val par RegInc = Fin q.
Hypothesis Hmax : p_val par RegMax = Fin mx.
Hypothesis Hq : (1 < q)%Q.
Hypothesis Hlo : (0 < lo)%Q.
Variables (mn qd : Q).
Hypothesis Hmin : p_val par RegMin = Fin mn.
Hypothesis Hdec : p_val par RegDec = Fin qd.
Hypothesis Hqd : (1 < qd)%Q.
Hypothesis Hmn : (lo <= mn)%Q.
Hypothesis Hmx : (lo <= mx)%Q.

Lemma i_iteration_fuel fuel i recalc s :
  above lo (t_s s) -> (forall p, (lo <= p -> mx < p * qpow q fuel)%Q) ->
  match i_iteration (S fuel) i recalc s with
  | IFuel => False | INext s' _ => above lo (t_s s') | IRet _ _ => True
  end.
Proof using Hinc Hlo Hmax Hq Hmin Hdec Hqd Hmn Hmx.
  intros (p & Ep & Lp) M.
  pose proof (retry_fuel bwd pb par lo q mx Hinc Hmax Hq Hlo fuel i recalc (t_s s) p Ep Lp (M p Lp)) as R1.
  pose proof (retry_gain (S fuel) i recalc (t_s s)) as Hg.
  destruct (retry bwd pb par (S fuel) i recalc (t_s s)) as [s1 rc|b1 s1|] eqn:Er; [| |contradiction].
  - pose proof (i_iteration_reg (above lo) (S fuel) i recalc s) as H. rewrite Er in H.
    assert (match i_iteration (S fuel) i recalc s with INext s' _ | IRet _ s' => above lo (t_s s') | IFuel => False end) as H0.
    { apply H; clear H.
      - intros r <-. auto.
      - intros b b' E1 _ _ (p' & E2 & L2). exists p'. split; congruence.
      - intros b (p' & E2 & L2). unfold above. cbn [set_reg s_preg].
        unfold dec_reg. rewrite E2, Hmin, Hdec. cbn [xdiv]. cbv zeta.
        destruct (Qeq_bool qd 0) eqn:E0; [apply Qeq_bool_iff in E0; lra|].
        destruct (xlt _ _) eqn:E1; [exists mn; auto|]. apply xlt_fin_false in E1.
        eexists. split; [reflexivity|]. lra.
      - intros b (p' & E2 & L2) _. unfold above. cbn [set_reg s_preg]. rewrite E2.
        destruct (inc_fin par q mx Hinc Hmax p' ltac:(lra)) as [E1|[E1 _]]; rewrite E1.
        + exists mx. auto.
        + eexists. split; [reflexivity|]. pose proof (mul_ge p' q Hq ltac:(lra)). lra. }
    destruct (i_iteration (S fuel) i recalc s); auto.
  - unfold IntroLoop_Model.i_iteration, IntroLoop_Model.i_retry. rewrite Er. exact I.
Qed.

Lemma i_iterations_fuel fuel : (forall p, (lo <= p -> mx < p * qpow q fuel)%Q) -> forall n i recalc s,
  above lo (t_s s) -> i_iterations (S fuel) n i recalc s <> IFuel.
Proof using Hinc Hlo Hmax Hq Hmin Hdec Hqd Hmn Hmx.
  intro M. induction n as [|n IH]; intros i recalc s A; cbn [IntroLoop_Model.i_iterations]; [discriminate|].
  pose proof (i_iteration_fuel fuel i recalc s A M) as H.
  destruct (i_iteration (S fuel) i recalc s); auto; discriminate.
Qed.
End Bound.

Lemma i_iterations_mono f f' : f <= f' -> forall n i recalc s,
  i_iterations f n i recalc s <> IFuel -> i_iterations f' n i recalc s = i_iterations f n i recalc s.
Proof.
  intros L. induction n as [|n IH]; intros i recalc s N; cbn [IntroLoop_Model.i_iterations] in *; auto.
  assert (i_iteration f i recalc s <> IFuel) as N1 by (intro E; rewrite E in N; congruence).
  assert (i_iteration f' i recalc s = i_iteration f i recalc s) as ->.
  { unfold IntroLoop_Model.i_iteration, IntroLoop_Model.i_retry in *. rewrite (retry_mono bwd pb par f f'); auto.
    intro E. rewrite E in N1. congruence. }
  destruct (i_iteration f i recalc s); auto.
Qed.
Lemma i_iterations_ret f : forall n i recalc s s' rc, i_iterations f n i recalc s <> INext s' rc.
Proof.
  induction n as [|n IH]; intros i recalc s s' rc E; cbn [IntroLoop_Model.i_iterations] in E; [discriminate|].
  destruct (i_iteration f i recalc s); [exact (IH _ _ _ _ _ E)|discriminate|discriminate].
Qed.
End Reg.
