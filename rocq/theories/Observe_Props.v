(** C121: observing a solve does not change it. *)
From Coq Require Import Reals List Bool Lra Lia.
From Verif Require Import Observe_Model.
Import ListNotations.
Local Open Scope R_scope.

(** What a user compares: the result, the solver afterwards, and the solver (with the stopping value)
    at the test of convergence of each iteration *)
Definition view {G S} (r : @result G S) : bool * G * S * list (G * S * R) :=
  (r_ret r, r_g r, r_s r, map (fun o => (o_g o, o_s o, o_stop o)) (r_trace r)).

Section Proofs.
Context {G S A : Type}.
Variables
  (direction : G -> S -> G * S * bool) (e0 e1 : G -> R) (gaps : G -> S -> R)
  (feas was : S -> bool) (hfeas : S -> R) (crit : G -> R) (penalty : nat -> S -> R * R -> S)
  (alphas : list A) (try_step : G -> S -> A -> S * bool) (accept : S -> A -> R * R -> option S)
  (reg : S -> S * bool) (reg_intro : S -> bool -> S * bool) (th_feas th_stop : R).
Notation Solve k := (solve direction e0 e1 gaps feas was hfeas crit penalty alphas try_step accept reg reg_intro th_feas th_stop k).
Notation Search k := (search e0 e1 gaps feas try_step accept k).
Notation Calls k := (calls e0 e1 gaps feas hfeas crit k).
Notation Exp k := (expected e0 e1 gaps feas k).
Notation Crit k := (criterion hfeas crit k).

(** One line of the improvement that the stopping value reads *)
Let half (d : R * R) : R := fst d + / 2 * snd d.
Lemma half_exp k g s : half (Exp k g s) = e0 g + / 2 * e1 g.
Proof. unfold half, expected; destruct k; cbn; try reflexivity; destruct (feas s); lra. Qed.
Lemma crit_half k g s d d' : half d = half d' -> Crit k g s d = Crit k g s d'.
Proof. unfold half, criterion; intro H; destruct k; rewrite ?H; reflexivity. Qed.

Lemma view_cons o o' r r' :
  (o_g o, o_s o, o_stop o) = (o_g o', o_s o', o_stop o') -> view r = view r' ->
  view (cons_obs o r : @result G S) = view (cons_obs o' r').
Proof. unfold view; cbn; intros E F; injection F as -> -> -> ->; rewrite E; reflexivity. Qed.

(** The callbacks keep the stopping value and [half d], when [half d] is that of the present direction *)
Lemma calls_half k i g s cs : forall d stop d' stop' es,
  half d = e0 g + / 2 * e1 g -> stop = Crit k g s d ->
  Calls k i g s cs d stop = (d', stop', es) ->
  half d' = half d /\ stop' = stop.
Proof.
  induction cs as [|c cs IH]; intros d stop d' stop' es H E C; cbn [calls] in C.
  - injection C as <- <- <-; auto.
  - destruct c; cbn [call] in C.
    + destruct (Calls k i g s cs (Exp k g s) (Crit k g s d)) as [[d1 s1] e1'] eqn:Q.
      injection C as <- <- <-.
      destruct (IH (Exp k g s) (Crit k g s d) d1 s1 e1') as [I J]; auto.
      * apply half_exp.
      * apply crit_half; rewrite half_exp; exact H.
      * rewrite I, J, half_exp; auto.
    + destruct (Calls k i g s cs d stop) as [[d1 s1] e1'] eqn:Q. injection C as <- <- <-.
      apply (IH d stop d1 s1 e1'); auto.
Qed.

(** The callbacks keep [d] itself when it is the expected improvement of the present state *)
Lemma calls_same k i g s cs : forall d stop d' stop' es,
  d = Exp k g s -> stop = Crit k g s d ->
  Calls k i g s cs d stop = (d', stop', es) -> d' = d /\ stop' = stop.
Proof.
  induction cs as [|c cs IH]; intros d stop d' stop' es H E C; cbn [calls] in C.
  - injection C as <- <- <-; auto.
  - destruct c; cbn [call] in C.
    + destruct (Calls k i g s cs (Exp k g s) (Crit k g s d)) as [[d1 s1] e1'] eqn:Q.
      injection C as <- <- <-.
      destruct (IH (Exp k g s) (Crit k g s d) d1 s1 e1') as [I J]; auto.
      * now rewrite H.
      * rewrite I, J; auto.
    + destruct (Calls k i g s cs d stop) as [[d1 s1] e1'] eqn:Q. injection C as <- <- <-.
      apply (IH d stop d1 s1 e1'); auto.
Qed.

Lemma calls_verbose k i g s cs : forall d stop d' stop' es,
  Forall (eq Verbose) cs -> Calls k i g s cs d stop = (d', stop', es) -> d' = d /\ stop' = stop.
Proof.
  induction cs as [|c cs IH]; intros d stop d' stop' es F C; cbn [calls] in C.
  - injection C as <- <- <-; auto.
  - inversion F as [|? ? <- F']; subst; cbn [call] in C.
    destruct (Calls k i g s cs d stop) as [[d1 s1] e1'] eqn:Q. injection C as <- <- <-.
    apply (IH d stop d1 s1 e1'); auto.
Qed.

(** The search: with a plain kind it keeps [d]; with FDDP and Intro, an evaluated trial fixes [half d],
    and whatever [d] was before does not matter *)
Lemma search_plain k l g : (k = DDP \/ k = KKT) -> forall s d s' d' ev,
  Search k l g s d = (s', d', ev) -> d' = d.
Proof.
  intro K; induction l as [|a l IH]; intros s d s' d' ev H; cbn [search] in H.
  - now injection H as <- <- <-.
  - destruct (try_step g s a) as [s1 [|]].
    + replace (match k with FDDP | Intro => Exp k g s1 | _ => d end) with d in H by (destruct K as [-> | ->]; reflexivity).
      destruct (accept s1 a d).
      * now injection H as <- <- <-.
      * destruct (Search k l g s1 d) as [[s2 d2] v2] eqn:Q. injection H as <- <- <-. eapply IH, Q.
    + eapply IH, H.
Qed.

Lemma search_half k l g : (k = FDDP \/ k = Intro) -> forall s d s' d' ev,
  Search k l g s d = (s', d', ev) -> ev = true \/ half d = e0 g + / 2 * e1 g ->
  half d' = e0 g + / 2 * e1 g.
Proof.
  intro K; induction l as [|a l IH]; intros s d s' d' ev H E; cbn [search] in H.
  - injection H as <- <- <-; destruct E; [discriminate | auto].
  - destruct (try_step g s a) as [s1 [|]].
    + replace (match k with FDDP | Intro => Exp k g s1 | _ => d end) with (Exp k g s1) in H by (destruct K as [-> | ->]; reflexivity).
      destruct (accept s1 a (Exp k g s1)).
      * injection H as <- <- <-; apply half_exp.
      * destruct (Search k l g s1 (Exp k g s1)) as [[s2 d2] v2] eqn:Q. injection H as <- <- <-.
        eapply IH; [exact Q|]. right; apply half_exp.
    + eapply IH; eauto.
Qed.

Lemma search_fresh l g : forall s d1 d2 s1 x1 v1 s2 x2 v2,
  Search FDDP l g s d1 = (s1, x1, v1) -> Search FDDP l g s d2 = (s2, x2, v2) ->
  s1 = s2 /\ v1 = v2 /\ (v1 = true -> x1 = x2).
Proof.
  induction l as [|a l IH]; intros s d1 d2 s1 x1 v1 s2 x2 v2 H1 H2; cbn [search] in H1, H2.
  - injection H1 as <- <- <-; injection H2 as <- <- <-; repeat split; discriminate.
  - destruct (try_step g s a) as [s0 [|]].
    + rewrite H1 in H2. injection H2 as <- <- <-; auto.
    + eapply IH; eauto.
Qed.

(** With FDDP and Intro a feasible candidate has no gap term *)
Hypothesis try_feas : forall g s a, feas (fst (try_step g s a)) = feas s.
Hypothesis penalty_feas : forall i s d, feas (penalty i s d) = feas s.
Hypothesis accept_feas : forall s a d s', accept s a d = Some s' -> feas s = true -> feas s' = true.
Lemma exp_feas k g s : feas s = true -> Exp k g s = (e0 g, e1 g).
Proof. intro F; unfold expected; rewrite F; destruct k; auto; f_equal; lra. Qed.
Lemma search_feas l g : forall s d s' d' ev,
  Search Intro l g s d = (s', d', ev) -> feas s = true -> d = (e0 g, e1 g) ->
  feas s' = true /\ d' = (e0 g, e1 g).
Proof.
  induction l as [|a l IH]; intros s d s' d' ev H F D; cbn [search] in H.
  - injection H as <- <- <-; auto.
  - pose proof (try_feas g s a) as T. destruct (try_step g s a) as [s1 ok]; cbn [fst] in T. rewrite F in T.
    destruct ok.
    + rewrite (exp_feas Intro g s1 T) in H.
      destruct (accept s1 a (e0 g, e1 g)) eqn:P.
      * injection H as <- <- <-; eauto.
      * destruct (Search Intro l g s1 (e0 g, e1 g)) as [[s2 d2] v2] eqn:Q. injection H as <- <- <-. eapply IH; eauto.
    + eapply IH; eauto.
Qed.

(** DDP, BoxDDP and KKT: callbacks, whichever and however many, change nothing *)
Theorem C121_ddp k n i cs g s d : (k = DDP \/ k = KKT) ->
  view (Solve k n i cs g s d) = view (Solve k n i [] g s d).
Proof.
  intro K; revert i g s d; induction n as [|n IH]; intros i g s d; [reflexivity|].
  cbn [solve calls]. destruct (direction g s) as [[g1 s1] [|]]; [reflexivity|]. cbv zeta.
  replace (match k with FDDP => d | _ => Exp k g1 s1 end) with (Exp k g1 s1) by (destruct K as [-> | ->]; reflexivity).
  replace (match k with Intro => penalty i s1 (Exp k g1 s1) | _ => s1 end) with s1 by (destruct K as [-> | ->]; reflexivity).
  destruct (Search k alphas g1 s1 (Exp k g1 s1)) as [[s2 d2] ev] eqn:Q.
  pose proof (search_plain k alphas g1 K _ _ _ _ _ Q) as ->.
  destruct (match k with DDP | FDDP => reg s2 | _ => (s2, false) end) as [s3 [|]]; [reflexivity|].
  destruct (Calls k i g1 s3 cs (Exp k g1 s1) (Crit k g1 s3 (Exp k g1 s1))) as [[d4 st4] es] eqn:C.
  destruct (calls_same k i g1 s3 cs (Exp k g1 s1) (Crit k g1 s3 (Exp k g1 s1)) d4 st4 es) as [-> ->]; auto.
  { destruct K as [-> | ->]; reflexivity. }
  destruct (match k with Intro => _ | _ => (s3, false) end) as [s5 [|]]; [reflexivity|].
  destruct (_ && _); [reflexivity|]. apply view_cons; [reflexivity|]. apply IH.
Qed.

(** The verbose callback alone changes nothing in any solver *)
Theorem C121_verbose k n i cs g s d : Forall (eq Verbose) cs ->
  view (Solve k n i cs g s d) = view (Solve k n i [] g s d).
Proof.
  intro F; revert i g s d; induction n as [|n IH]; intros i g s d; [reflexivity|].
  cbn [solve calls]. destruct (direction g s) as [[g1 s1] [|]]; [reflexivity|]. cbv zeta.
  destruct (Search k alphas g1 _ _) as [[s2 d2] ev].
  destruct (match k with DDP | FDDP => reg s2 | _ => (s2, false) end) as [s3 [|]]; [reflexivity|].
  destruct (Calls k i g1 s3 cs d2 (Crit k g1 s3 d2)) as [[d4 st4] es] eqn:C.
  destruct (calls_verbose k i g1 s3 cs d2 (Crit k g1 s3 d2) d4 st4 es) as [-> ->]; auto.
  destruct (match k with Intro => _ | _ => (s3, false) end) as [s5 [|]]; [reflexivity|].
  destruct (_ && _); [reflexivity|]. apply view_cons; [reflexivity|]. apply IH.
Qed.

(** FDDP: callbacks change nothing if in every iteration some trial step could be evaluated *)
Theorem C121_fddp_partial n i cs g s d d' :
  Forall (fun o => o_eval o = true) (r_trace (Solve FDDP n i [] g s d)) ->
  view (Solve FDDP n i cs g s d') = view (Solve FDDP n i [] g s d).
Proof.
  revert i g s d d'; induction n as [|n IH]; intros i g s d d' F; [reflexivity|].
  cbn [solve calls] in F |- *. destruct (direction g s) as [[g1 s1] [|]]; [reflexivity|]. cbv zeta in F |- *.
  destruct (Search FDDP alphas g1 s1 d) as [[s2 d2] ev] eqn:Q.
  destruct (Search FDDP alphas g1 s1 d') as [[s2' d2'] ev'] eqn:Q'.
  destruct (search_fresh _ _ _ _ _ _ _ _ _ _ _ Q Q') as (<- & <- & X).
  destruct (reg s2) as [s3 [|]]; [reflexivity|].
  assert (E : ev = true).
  { destruct (_ && _) in F; cbn in F; inversion F; assumption. }
  subst ev. specialize (X eq_refl); subst d2'.
  pose proof (search_half FDDP alphas g1 (or_introl eq_refl) _ _ _ _ _ Q (or_introl eq_refl)) as H.
  destruct (Calls FDDP i g1 s3 cs d2 (Crit FDDP g1 s3 d2)) as [[d4 st4] es] eqn:C.
  destruct (calls_half FDDP i g1 s3 cs d2 (Crit FDDP g1 s3 d2) d4 st4 es H eq_refl C) as [_ ->].
  destruct (_ && _); [reflexivity|]. apply view_cons; [reflexivity|]. apply IH.
  cbn in F. inversion F; assumption.
Qed.

(** Intro: callbacks change nothing if the candidate is feasible before the line search of every iteration *)
Theorem C121_intro_partial n i cs g s d d' :
  Forall (fun o => o_feas o = true) (r_trace (Solve Intro n i [] g s d)) ->
  view (Solve Intro n i cs g s d') = view (Solve Intro n i [] g s d).
Proof.
  revert i g s d d'; induction n as [|n IH]; intros i g s d d' F; [reflexivity|].
  cbn [solve calls] in F |- *. destruct (direction g s) as [[g1 s1] [|]]; [reflexivity|]. cbv zeta in F |- *.
  set (s1' := penalty i s1 (Exp Intro g1 s1)) in *.
  destruct (Search Intro alphas g1 s1' (Exp Intro g1 s1)) as [[s2 d2] ev] eqn:Q.
  assert (E : feas s1' = true).
  { destruct (reg_intro s2 _) as [? [|]] in F; [|destruct (_ && _) in F]; cbn in F; inversion F; assumption. }
  destruct (Calls Intro i g1 s2 cs d2 (Crit Intro g1 s2 d2)) as [[d4 st4] es] eqn:C.
  assert (E1 : feas s1 = true) by (unfold s1' in E; now rewrite penalty_feas in E).
  destruct (search_feas alphas g1 _ _ _ _ _ Q E (exp_feas Intro g1 s1 E1)) as [E2 ->].
  destruct (calls_same Intro i g1 s2 cs (e0 g1, e1 g1) (Crit Intro g1 s2 (e0 g1, e1 g1)) d4 st4 es) as [-> ->]; auto.
  { symmetry; now apply exp_feas. }
  destruct (reg_intro s2 _) as [s5 [|]]; [reflexivity|].
  destruct (_ && _); [reflexivity|]. apply view_cons; [reflexivity|]. apply IH.
  cbn in F. inversion F; assumption.
Qed.

(** What the logs hold, in every solver: one record per callback and iteration, numbered by the
    iterations; if the expected improvement is of this iteration (some trial was evaluated, or the
    solver is not FDDP), the stopping value of every record is the one the solver compares *)
Lemma calls_records k i g s cs : forall d stop d' stop' es,
  Calls k i g s cs d stop = (d', stop', es) ->
  length es = length cs /\ Forall (fun e => l_iter e = i /\ l_state e = s) es.
Proof.
  induction cs as [|c cs IH]; intros d stop d' stop' es H; cbn [calls] in H.
  - injection H as <- <- <-; auto.
  - destruct (call _ _ _ _ _ _ _ i g c s d stop) as [[d1 st1] e] eqn:Q.
    destruct (Calls k i g s cs d1 st1) as [[d2 st2] es'] eqn:Q'. injection H as <- <- <-.
    destruct (IH _ _ _ _ _ Q') as [L F]. cbn; split; [now rewrite L|]. constructor; auto.
    destruct c; cbn in Q; injection Q as <- <- <-; auto.
Qed.
Lemma calls_stops k i g s cs : forall d stop d' stop' es,
  half d = e0 g + / 2 * e1 g \/ k = KKT -> stop = Crit k g s d ->
  Calls k i g s cs d stop = (d', stop', es) ->
  stop' = stop /\ Forall (fun e => l_stop e = stop) es.
Proof.
  induction cs as [|c cs IH]; intros d stop d' stop' es H E C; cbn [calls] in C.
  - injection C as <- <- <-; auto.
  - destruct c; cbn [call] in C.
    + destruct (Calls k i g s cs (Exp k g s) (Crit k g s d)) as [[d1 s1] e1'] eqn:Q.
      injection C as <- <- <-.
      destruct (IH (Exp k g s) (Crit k g s d) d1 s1 e1') as [I J]; auto.
      * left; apply half_exp.
      * destruct H as [H | ->]; [|reflexivity]. apply crit_half; rewrite half_exp; exact H.
      * subst stop. split; auto.
    + destruct (Calls k i g s cs d stop) as [[d1 s1] e1'] eqn:Q. injection C as <- <- <-.
      destruct (IH d stop d1 s1 e1') as [I J]; auto.
Qed.

Theorem C121_log k n cs : forall i g s d j o,
  nth_error (r_trace (Solve k n i cs g s d)) j = Some o ->
  length (o_calls o) = length cs /\
  Forall (fun e => l_iter e = (i + j)%nat) (o_calls o) /\
  (k <> Intro -> Forall (fun e => l_state e = o_s o) (o_calls o)) /\
  (k <> FDDP \/ o_eval o = true -> Forall (fun e => l_stop e = o_stop o) (o_calls o)).
Proof.
  induction n as [|n IH]; intros i g s d j o H; [destruct j; discriminate|].
  cbn [solve] in H. destruct (direction g s) as [[g1 s1] [|]]; [destruct j; discriminate|]. cbv zeta in H.
  set (d1 := match k with FDDP => d | _ => Exp k g1 s1 end) in *.
  set (s1' := match k with Intro => _ | _ => s1 end) in *.
  destruct (Search k alphas g1 s1' d1) as [[s2 d2] ev] eqn:Q.
  destruct (match k with DDP | FDDP => reg s2 | _ => (s2, false) end) as [s3 [|]]; [destruct j; discriminate|].
  destruct (Calls k i g1 s3 cs d2 (Crit k g1 s3 d2)) as [[d4 st4] es] eqn:C.
  destruct (calls_records _ _ _ _ _ _ _ _ _ _ C) as [L F].
  destruct (match k with Intro => _ | _ => (s3, false) end) as [s5 stuck] eqn:W.
  assert (P : forall o, o = Obs g1 s5 st4 ev (feas s1') es ->
    length (o_calls o) = length cs /\
    Forall (fun e => l_iter e = (i + 0)%nat) (o_calls o) /\
    (k <> Intro -> Forall (fun e => l_state e = o_s o) (o_calls o)) /\
    (k <> FDDP \/ o_eval o = true -> Forall (fun e => l_stop e = o_stop o) (o_calls o))).
  { clear H o. intros o ->; cbn [o_calls o_s o_eval o_stop]. rewrite PeanoNat.Nat.add_0_r.
    split; [exact L|]. split; [eapply Forall_impl, F; intros e [X _]; exact X|]. split.
    - intro K. assert (s5 = s3) as -> by (destruct k; congruence).
      eapply Forall_impl, F; intros e [_ X]; exact X.
    - intro K. destruct (calls_stops k i g1 s3 cs d2 (Crit k g1 s3 d2) d4 st4 es) as [-> X]; auto.
      destruct k; [| | |auto]; left.
      + rewrite (search_plain DDP alphas g1 (or_introl eq_refl) _ _ _ _ _ Q). apply half_exp.
      + destruct K as [K|K]; [congruence|]. eapply (search_half FDDP); eauto.
      + eapply (search_half Intro); eauto. right. apply half_exp. }
  assert (T : j = 0%nat -> o = Obs g1 s5 st4 ev (feas s1') es).
  { intros ->. destruct stuck; [|destruct (_ && _) in H]; cbn in H; congruence. }
  destruct j as [|j]; [apply P, T; reflexivity|]. clear T P.
  destruct stuck; [|destruct (_ && _) in H]; cbn [cons_obs r_trace nth_error] in H; try (destruct j; discriminate).
  apply IH in H. replace (i + Datatypes.S j)%nat with (Datatypes.S i + j)%nat by lia. exact H.
Qed.

(** The gradients on record: without a gap term (DDP, KKT, a feasible candidate, or a candidate that is
    the last trial) a logger records that of the present direction, and so is what is printed *)
Lemma calls_grads k i g s cs : forall d stop d' stop' es,
  d = (e0 g, e1 g) -> Exp k g s = (e0 g, e1 g) -> Calls k i g s cs d stop = (d', stop', es) ->
  Forall2 (fun c e => l_grad e = match c with Logger => - e1 g | Verbose => Rabs (e0 g) end) cs es.
Proof.
  induction cs as [|c cs IH]; intros d stop d' stop' es D E C; cbn [calls] in C.
  - injection C as <- <- <-; constructor.
  - destruct c; cbn [call] in C.
    + destruct (Calls k i g s cs (Exp k g s) (Crit k g s d)) as [[d1 s1] e1'] eqn:Q.
      injection C as <- <- <-. constructor; [cbn; now rewrite E|]. exact (IH _ _ _ _ _ E E Q).
    + destruct (Calls k i g s cs d stop) as [[d1 s1] e1'] eqn:Q. injection C as <- <- <-.
      constructor; [cbn; now rewrite D|]. exact (IH _ _ _ _ _ D E Q).
Qed.
Lemma calls_grads_logger k i g s cs : forall d stop d' stop' es,
  Exp k g s = (e0 g, e1 g) -> Calls k i g s cs d stop = (d', stop', es) ->
  Forall2 (fun c e => c = Logger -> l_grad e = - e1 g) cs es.
Proof.
  induction cs as [|c cs IH]; intros d stop d' stop' es E C; cbn [calls] in C.
  - injection C as <- <- <-; constructor.
  - destruct c; cbn [call] in C.
    + destruct (Calls k i g s cs (Exp k g s) (Crit k g s d)) as [[d1 s1] e1'] eqn:Q.
      injection C as <- <- <-. constructor; [cbn; now rewrite E|]. eapply IH; eauto.
    + destruct (Calls k i g s cs d stop) as [[d1 s1] e1'] eqn:Q. injection C as <- <- <-.
      constructor; [discriminate|]. eapply IH; eauto.
Qed.

(** The flag of [C121_fddp_partial]: it is down exactly when every trial step threw *)
Fixpoint all_threw (l : list A) (g : G) (s : S) : Prop :=
  match l with
  | [] => True
  | a :: l => snd (try_step g s a) = false /\ all_threw l g (fst (try_step g s a))
  end.
Theorem C121_evaluated k l : forall g s d, snd (Search k l g s d) = false <-> all_threw l g s.
Proof.
  induction l as [|a l IH]; intros g s d; cbn [search all_threw]; [cbn; tauto|].
  destruct (try_step g s a) as [s1 ok]; cbn [fst snd]. destruct ok; [|rewrite IH; tauto].
  destruct (accept s1 a _) as [s2|]; [cbn; intuition discriminate|].
  destruct (Search k l g s1 _) as [[s2 d2] ev]; cbn; intuition discriminate.
Qed.

Theorem C121_gradient_partial k n cs : forall i g s d o,
  In o (r_trace (Solve k n i cs g s d)) ->
  ((k = DDP \/ k = KKT) ->
   Forall2 (fun c e => l_grad e = match c with Logger => - e1 (o_g o) | Verbose => Rabs (e0 (o_g o)) end) cs (o_calls o)) /\
  (k = FDDP -> feas (o_s o) = true \/ gaps (o_g o) (o_s o) = 0 ->
   Forall2 (fun c e => c = Logger -> l_grad e = - e1 (o_g o)) cs (o_calls o)).
Proof.
  induction n as [|n IH]; intros i g s d o H; [contradiction|].
  cbn [solve] in H. destruct (direction g s) as [[g1 s1] [|]]; [contradiction|]. cbv zeta in H.
  set (d1 := match k with FDDP => d | _ => Exp k g1 s1 end) in *.
  set (s1' := match k with Intro => _ | _ => s1 end) in *.
  destruct (Search k alphas g1 s1' d1) as [[s2 d2] ev] eqn:Q.
  destruct (match k with DDP | FDDP => reg s2 | _ => (s2, false) end) as [s3 [|]]; [contradiction|].
  destruct (Calls k i g1 s3 cs d2 (Crit k g1 s3 d2)) as [[d4 st4] es] eqn:C.
  destruct (match k with Intro => _ | _ => (s3, false) end) as [s5 stuck] eqn:W.
  assert (P : o = Obs g1 s5 st4 ev (feas s1') es \/ exists i g s d, In o (r_trace (Solve k n i cs g s d))).
  { destruct stuck; [|destruct (_ && _) in H]; cbn in H; destruct H as [H|H]; auto; try contradiction.
    right; eauto. }
  clear H. destruct P as [-> | (i' & g' & s' & d' & P)]; [|apply (IH _ _ _ _ _ P)].
  cbn [o_calls o_s o_g]. split.
  - intro K. eapply calls_grads; [| |exact C].
    + rewrite (search_plain k alphas g1 K _ _ _ _ _ Q). destruct K as [-> | ->]; reflexivity.
    + destruct K as [-> | ->]; reflexivity.
  - intros -> K. injection W as <- _. eapply calls_grads_logger; [|exact C].
    unfold expected. destruct K as [K|K]; rewrite K; [f_equal; lra|]. destruct (feas s3); f_equal; lra.
Qed.
End Proofs.

(** Witnesses *)
Ltac decide_tests := repeat match goal with
  | |- context [Rle_dec ?a ?b] => let J := fresh in destruct (Rle_dec a b) as [J|J]; try (exfalso; clear - J; unfold Rabs in J; repeat destruct Rcase_abs in J; lra); clear J
  | |- context [Rlt_dec ?a ?b] => let J := fresh in destruct (Rlt_dec a b) as [J|J]; try (exfalso; clear - J; unfold Rabs in J; repeat destruct Rcase_abs in J; lra); clear J
  | |- context [Req_EM_T ?a ?b] => let J := fresh in destruct (Req_EM_T a b) as [J|J]; try (exfalso; clear - J; lra); clear J
  end.

(** A problem without running nodes for Intro: x0 = 1, the terminal cost is x^2 / 2 and cannot be
    evaluated at 1, the first candidate is 0, the regularization starts at 0.  The full step throws and
    the half step is accepted, with the candidate still infeasible. *)
Record gst := GSt { xs : R; xt : R; fe : bool; wa : bool; preg : R; cost : R }.
Record gdir := GDir { gf : R; vx : R; vxx : R }.
Definition g_direction (_ : gdir) (s : gst) : gdir * gst * bool :=
  let f := if fe s then 0 else 1 - xs s in
  (GDir f (xs s + (1 + preg s) * f) (1 + preg s), s, false).
Definition g_e0 (g : gdir) := - (vx g * gf g).
Definition g_e1 (g : gdir) := gf g * (vxx g * gf g).
Definition g_gaps (g : gdir) (s : gst) := - (gf g * (vxx g * (xs s - xt s))).
Definition g_try (g : gdir) (s : gst) (a : R) : gst * bool :=
  let x := xs s + a * gf g in
  (GSt (xs s) x (fe s) (wa s) (preg s) (cost s), if Req_EM_T x 1 then false else true).
Definition g_accept (s : gst) (a : R) (d : R * R) : option gst :=
  let dV := cost s - xt s * xt s / 2 in
  let dVexp := a * (fst d + / 2 * a * snd d) in
  let yes := Some (GSt (xt s) (xt s) (fe s || if Req_EM_T a 1 then true else false) (fe s) (preg s) (xt s * xt s / 2)) in
  if Rle_dec 0 dVexp
  then if Rlt_dec (Rabs (fst d)) (/ 1000) then yes else if Rlt_dec (/ 10 * dVexp) dV then yes else None
  else if Rlt_dec (2 * dVexp) dV then yes else None.
Definition g_reg (s : gst) (small : bool) : gst * bool :=
  if small then (GSt (xs s) (xt s) (fe s) (wa s) (1 + 10 * preg s) (cost s), false) else (s, false).
Definition g_run k cs := solve g_direction g_e0 g_e1 g_gaps fe wa (fun _ => 0) (fun _ => 0) (fun _ s _ => s) [1; / 2] g_try g_accept
  (fun s => (s, false)) g_reg (/ 2) (/ 1000) k 1 0 cs (GDir 0 0 0) (GSt 0 0 false false 0 0) (0, 0).

Lemma g_search k d : k = FDDP \/ k = Intro -> exists s, 
  search g_e0 g_e1 g_gaps fe g_try g_accept k [1; / 2] (GDir (1 - 0) (0 + (1 + 0) * (1 - 0)) (1 + 0)) (GSt 0 0 false false 0 0) d
  = (s, (- / 2, 0), true) /\ preg s = 0 /\ fe s = false /\ wa s = false /\ xs s = xt s /\ xs s = / 2.
Proof.
  intro K. cbn [search g_try xs xt fe wa preg cost gf]. decide_tests. cbn [fst snd].
  assert (X : expected g_e0 g_e1 g_gaps fe k (GDir (1 - 0) (0 + (1 + 0) * (1 - 0)) (1 + 0)) (GSt 0 (0 + / 2 * (1 - 0)) false false 0 0) = (- / 2, 0)).
  { unfold expected, g_e0, g_e1, g_gaps; cbn [fe xs xt vx vxx gf].
    destruct K as [-> | ->]; f_equal; lra. }
  destruct K as [-> | ->]; rewrite X; unfold g_accept; cbn [fst snd xs xt fe wa preg cost]; decide_tests;
    (eexists; split; [reflexivity|]; cbn; decide_tests; cbn; repeat split; lra).
Qed.

(** With the logger Intro leaves the regularization alone, without it Intro increases it *)
Theorem C121_intro_refuted :
  preg (r_s (g_run Intro [])) = 1 /\ preg (r_s (g_run Intro [Logger])) = 0.
Proof.
  destruct (g_search Intro (expected g_e0 g_e1 g_gaps fe Intro (GDir (1 - 0) (0 + (1 + 0) * (1 - 0)) (1 + 0)) (GSt 0 0 false false 0 0)) (or_intror eq_refl))
    as (s & E & P & F & W & X & Y).
  unfold g_run; cbn [solve g_direction xs fe preg]; cbv zeta; rewrite E; cbn [calls call fst snd].
  split.
  - destruct (Rle_dec (Rabs 0) (/ 2)) as [J|J]; [clear J|exfalso; rewrite Rabs_R0 in J; lra].
    cbn [g_reg fe]. rewrite F. cbn. rewrite P; lra.
  - replace (snd (expected g_e0 g_e1 g_gaps fe Intro (GDir (1 - 0) (0 + (1 + 0) * (1 - 0)) (1 + 0)) s)) with 1.
    2:{ unfold expected, g_e0, g_e1, g_gaps; cbn [snd vx vxx gf]; rewrite F, X; lra. }
    destruct (Rle_dec (Rabs 1) (/ 2)) as [J|J]; [exfalso; rewrite Rabs_R1 in J; lra|clear J].
    cbn [g_reg]. rewrite F. cbn. exact P.
Qed.

(** FDDP: the gradient a logger records, and the one printed after it, is not the one the solver used
    and a callback before it prints *)
Theorem C121_gradient_refuted :
  exists o a b c, r_trace (g_run FDDP [Verbose; Logger; Verbose]) = [o] /\ o_calls o = [a; b; c] /\
    l_grad a = / 2 /\ l_grad c = 1 /\ l_grad b = -1.
Proof.
  destruct (g_search FDDP (0, 0) (or_introl eq_refl)) as (s & E & P & F & W & X & Y).
  unfold g_run; cbn [solve g_direction xs fe preg]; cbv zeta; rewrite E; cbn [calls call fst snd]. rewrite W. cbn [andb].
  do 4 eexists; split; [reflexivity|]. split; [reflexivity|]. cbn [l_grad].
  unfold expected, g_e0, g_e1, g_gaps; cbn [fst snd vx vxx gf]; rewrite F, X.
  repeat split; try (rewrite Rabs_left; lra); lra.
Qed.

(** FDDP when no trial step can be evaluated from the second iteration on.  The direction is that of
    one control with unit gradient and Hessian: dg = 1 / (1 + preg), dq = - dg; each failed search multiplies
    the regularization.  Without a logger the stopping value stays at that of the first iteration and the solver gives
    up; with one it reads the logger's and reports convergence. *)
Record fst_ := FSt { fp : R; fn : nat; fwas : bool }.
Definition f_run cs := solve (fun (_ : R) s => (/ (1 + fp s), s, false)) (fun g => g) (fun g => - g) (fun _ _ => 0) (fun _ => true) fwas
  (fun _ => 0) (fun _ => 0) (fun _ s _ => s) [tt]
  (fun _ s _ => match fn s with O => (FSt (fp s) 1 (fwas s), true) | Datatypes.S n => (FSt (10 * fp s + 1) (Datatypes.S (Datatypes.S n)) (fwas s), false) end)
  (fun s _ _ => Some (FSt (fp s) (fn s) true)) (fun s => (s, false)) (fun s _ => (s, false)) 0 (3 / 8) FDDP 4 0 cs 0 (FSt 0 0 false) (0, 0).
Theorem C121_fddp_refuted : r_ret (f_run []) = false /\ r_ret (f_run [Logger]) = true.
Proof.
  unfold f_run; cbn [solve search calls call criterion expected fn fp fwas fst snd andb cons_obs r_ret].
  split; repeat (decide_tests; cbn [andb r_ret cons_obs]); try reflexivity.
Qed.

(** The hypotheses of the theorems are met *)
Example C121_fddp_ex : Forall (fun o => o_eval o = true) (r_trace (g_run FDDP [])) /\ r_trace (g_run FDDP []) <> [].
Proof.
  destruct (g_search FDDP (0, 0) (or_introl eq_refl)) as (s & E & P & F & W & X & Y).
  unfold g_run; cbn [solve g_direction xs fe preg]; cbv zeta; rewrite E; cbn [calls call fst snd]. rewrite W. cbn [andb].
  cbn. split; [auto | discriminate].
Qed.
Example C121_intro_ex :
  (forall g s a, fe (fst (g_try g s a)) = fe s) /\
  (forall s a d s', g_accept s a d = Some s' -> fe s = true -> fe s' = true) /\
  let run cs := solve g_direction g_e0 g_e1 g_gaps fe wa (fun _ => 0) (fun _ => 0) (fun _ s _ => s) [1; / 2] g_try g_accept
    (fun s => (s, false)) g_reg (/ 2) (/ 1000) Intro 1 0 cs (GDir 0 0 0) (GSt 0 0 true false 0 0) (0, 0) in
  Forall (fun o => o_feas o = true) (r_trace (run [])) /\ r_trace (run []) <> [].
Proof.
  split; [reflexivity|]. split.
  { intros s a d s' H F. unfold g_accept in H. rewrite F in H. cbn in H.
    repeat match type of H with context [if ?b then _ else _] => destruct b end; try discriminate; injection H as <-; reflexivity. }
  set (d := expected g_e0 g_e1 g_gaps fe Intro (GDir 0 (0 + (1 + 0) * 0) (1 + 0)) (GSt 0 0 true false 0 0)).
  cbn [solve g_direction xs fe preg]; cbv zeta; cbn [calls]. fold d.
  destruct (search g_e0 g_e1 g_gaps fe g_try g_accept Intro [1; / 2] (GDir 0 (0 + (1 + 0) * 0) (1 + 0)) (GSt 0 0 true false 0 0) d) as [[s2 d2] ev].
  destruct (g_reg s2 _) as [s5 [|]]; [|destruct (_ && _)]; cbn; split; auto; discriminate.
Qed.

Print Assumptions C121_ddp.
Print Assumptions C121_evaluated.
Print Assumptions C121_fddp_partial.
Print Assumptions C121_intro_partial.
Print Assumptions C121_log.
Print Assumptions C121_fddp_refuted.
