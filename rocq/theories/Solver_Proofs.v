From Coq Require Import QArith List Bool Arith Lia.
From Verif Require Import Common XFloat XFloatFacts Params_Model Params_Spec Solver_Model Solver_Spec.
Import ListNotations.
Local Open Scope nat_scope.

(** * Forward passes *)
Section Forward.
Context {X U V G : Type}.
Variables (vscale : V -> xf -> V) (clamp : U -> U -> U -> U) (xnorm : X -> xf)
          (pol : G -> nat -> xf -> U -> V -> U).
Notation fwd_loop := (fwd_loop vscale clamp xnorm pol).

Definition evals (ns : list (node X U V)) (xs : list X) (us : list U) : list (X * xf) :=
  map (fun p : node X U V * (X * U) => node_eval (fst p) (fst (snd p)) (snd (snd p)))
      (combine ns (combine xs us)).

(** Unfolding of one node. *)
Definition place (gap : bool) (n : node X U V) (a : xf) (f : V) (xnext : X) : X :=
  if gap then n_int n xnext (vscale f (xsub a (Fin 1))) else xnext.
Definition ctrl (box : bool) (g : G) (a : xf) (t : nat) (n : node X U V) (x : X) (u u0 : U) (xt : X) : U :=
  if n_u n then
    let v := pol g t a u (n_diff n x xt) in
    if box && n_lim n then clamp (n_lb n) (n_ub n) v else v
  else u0.

Lemma fwd_loop_cons gap box g a t xnext cost n ns x xs u us u0 uo f fs d0 ds :
  fwd_loop gap box g a t xnext cost (n :: ns) (x :: xs) (u :: us) (u0 :: uo) (f :: fs) (d0 :: ds) =
  let xt := place gap n a f xnext in
  let ut := ctrl box g a t n x u u0 xt in
  let d := node_eval n xt ut in
  let cost' := xadd cost (snd d) in
  if bad cost' || bad (xnorm (fst d)) then ([xt], ut :: uo, d :: ds, fst d, cost', false)
  else
    let '(rx, ru, rd, xn, c, ok) :=
      fwd_loop gap box g a (S t) (fst d) cost' ns xs us uo fs ds in
    (xt :: rx, ut :: ru, d :: rd, xn, c, ok).
Proof. reflexivity. Qed.

Definition arrays (ns : list (node X U V)) (xs : list X) (us uo : list U) (fs : list V)
    (ds : list (X * xf)) : Prop :=
  length ns <= length xs /\ length us = length ns /\ length uo = length ns /\
  length ns <= length fs /\ length ds = length ns.

Ltac arrays_cons ns xs us uo fs ds :=
  match goal with H : arrays (_ :: _) _ _ _ _ _ |- _ =>
    let A1 := fresh "A" in let A2 := fresh "A" in let A3 := fresh "A" in let A4 := fresh "A" in
    let A5 := fresh "A" in
    destruct H as (A1 & A2 & A3 & A4 & A5);
    destruct xs; [simpl in A1; lia|]; destruct us; [simpl in A2; lia|]; destruct uo; [simpl in A3; lia|];
    destruct fs; [simpl in A4; lia|]; destruct ds; [simpl in A5; lia|];
    simpl in A1, A2, A3, A4, A5;
    assert (arrays ns xs us uo fs ds) as Harr by (unfold arrays; repeat split; lia)
  end.

(** Lengths, even when the pass throws. *)
Lemma fwd_loop_len gap box g a ns : forall t xnext cost xs us uo fs ds,
  arrays ns xs us uo fs ds ->
  let '(rx, ru, rd, xn, c, ok) := fwd_loop gap box g a t xnext cost ns xs us uo fs ds in
  length ru = length ns /\ length rd = length ns /\ (ok = true -> length rx = length ns).
Proof.
  induction ns as [|n ns IH]; intros t xnext cost xs us uo fs ds H.
  - simpl. destruct H as (_ & _ & ? & _ & ?). auto.
  - arrays_cons ns xs us uo fs ds. rewrite fwd_loop_cons. cbv zeta.
    set (xt := place gap n a v xnext). set (ut := ctrl box g a t n x u u0 xt).
    set (d := node_eval n xt ut).
    destruct (bad _ || bad _) eqn:B.
    + simpl. repeat split; try lia; discriminate.
    + specialize (IH (S t) (fst d) (xadd cost (snd d)) xs us uo fs ds).
      destruct (fwd_loop gap box g a (S t) (fst d) _ ns xs us uo fs ds) as [[[[[rx ru] rd] xn] c] ok].
      destruct (IH Harr) as (L1 & L2 & L3). simpl. repeat split; try lia. intro O. rewrite (L3 O). reflexivity.
Qed.

(** Datas and cost. *)
Lemma fwd_loop_cost gap box g a (tn : tnode X V) ns : forall t xnext cost xs us uo fs ds rx ru rd xn c,
  arrays ns xs us uo fs ds ->
  fwd_loop gap box g a t xnext cost ns xs us uo fs ds = (rx, ru, rd, xn, c, true) ->
  rd = evals ns rx ru /\
  c = fold_left (fun c d => xadd c (snd d)) rd cost /\
  (forall xT, total_cost tn cost ns (rx ++ [xT]) ru = xadd c (t_cost tn xT)).
Proof.
  induction ns as [|n ns IH]; intros t xnext cost xs us uo fs ds rx ru rd xn c H E.
  - simpl in E. injection E as <- <- <- <- <-. destruct H as (_ & _ & L & _ & L').
    destruct ds; [|simpl in L'; lia]. auto.
  - arrays_cons ns xs us uo fs ds. rewrite fwd_loop_cons in E. cbv zeta in E.
    set (xt := place gap n a v xnext) in *. set (ut := ctrl box g a t n x u u0 xt) in *.
    set (d := node_eval n xt ut) in *.
    destruct (bad _ || bad _) eqn:B; [discriminate|].
    destruct (fwd_loop gap box g a (S t) (fst d) _ ns xs us uo fs ds) as [[[[[rx' ru'] rd'] xn'] c'] ok] eqn:E'.
    injection E as <- <- <- <- <- ->.
    destruct (IH _ _ _ _ _ _ _ _ _ _ _ _ _ Harr E') as (D & C & T).
    split; [|split].
    + unfold evals. simpl. f_equal. exact D.
    + exact C.
    + intro xT. simpl. apply T.
Qed.

(** Without gap handling the pass is a rollout. *)
Lemma fwd_loop_follows box g a ns : forall t xnext cost xs us uo fs ds rx ru rd xn c,
  arrays ns xs us uo fs ds ->
  fwd_loop false box g a t xnext cost ns xs us uo fs ds = (rx, ru, rd, xn, c, true) ->
  follows xnext ns (rx ++ [xn]) ru.
Proof.
  induction ns as [|n ns IH]; intros t xnext cost xs us uo fs ds rx ru rd xn c H E.
  - simpl in E. injection E as <- <- <- <- <-. destruct H as (_ & _ & L & _ & _).
    destruct uo; [|simpl in L; lia]. simpl. reflexivity.
  - arrays_cons ns xs us uo fs ds. rewrite fwd_loop_cons in E. cbv zeta in E.
    set (xt := place false n a v xnext) in *. set (ut := ctrl box g a t n x u u0 xt) in *.
    set (d := node_eval n xt ut) in *.
    destruct (bad _ || bad _) eqn:B; [discriminate|].
    destruct (fwd_loop false box g a (S t) (fst d) _ ns xs us uo fs ds) as [[[[[rx' ru'] rd'] xn'] c'] ok] eqn:E'.
    injection E as <- <- <- <- <- ->. simpl. split; [reflexivity|].
    eapply IH; [exact Harr|exact E'].
Qed.

(** With gap handling, every gap is scaled. *)
Definition gap_law (ns : list (node X U V)) (tn : tnode X V) (a : xf) : Prop :=
  forall m x f, In m ns ->
    (forall n, In n ns ->
       n_diff m (n_int n x (vscale f (xsub a (Fin 1)))) x = vscale f (xsub (Fin 1) a)) /\
    n_diff m (t_int tn x (vscale f (xsub a (Fin 1)))) x = vscale f (xsub (Fin 1) a).

Lemma fwd_loop_gaps box g a all tn : forall ns t xnext cost xs us uo fs ds rx ru rd xn c fT,
  gap_law all tn a -> incl ns all -> arrays ns xs us uo fs ds ->
  fwd_loop true box g a t xnext cost ns xs us uo fs ds = (rx, ru, rd, xn, c, true) ->
  nth_error fs (length ns) = Some fT -> length fs = S (length ns) ->
  (forall m, In m all ->
     match rx ++ [t_int tn xn (vscale fT (xsub a (Fin 1)))], fs with
     | y :: _, f :: _ => n_diff m y xnext = vscale f (xsub (Fin 1) a)
     | _, _ => False
     end) /\
  gaps_from ns (rx ++ [t_int tn xn (vscale fT (xsub a (Fin 1)))]) ru =
    map (fun f => vscale f (xsub (Fin 1) a)) (tl fs).
Proof.
  induction ns as [|n ns IH]; intros t xnext cost xs us uo fs ds rx ru rd xn c fT L I H E Hf Lf.
  - simpl in E. injection E as <- <- <- <- <-. destruct fs as [|f [|? ?]]; try discriminate.
    simpl in Hf. injection Hf as ->. simpl. split; auto. intros m Hm. now apply (L m xnext fT Hm).
  - arrays_cons ns xs us uo fs ds. rewrite fwd_loop_cons in E. cbv zeta in E.
    set (xt := place true n a v xnext) in *. set (ut := ctrl box g a t n x u u0 xt) in *.
    set (d := node_eval n xt ut) in *.
    destruct (bad _ || bad _) eqn:B; [discriminate|].
    destruct (fwd_loop true box g a (S t) (fst d) _ ns xs us uo fs ds) as [[[[[rx' ru'] rd'] xn'] c'] ok] eqn:E'.
    injection E as <- <- <- <- <- ->. simpl in Hf, Lf.
    destruct (IH _ _ _ _ _ _ _ _ _ _ _ _ _ fT L (fun m Hm => I m (or_intror Hm))
                 Harr E' Hf ltac:(lia)) as [H1 H2].
    split.
    + intros m Hm. simpl. unfold xt, place. apply (L m xnext v Hm). apply I. now left.
    + cbn [app]. destruct (rx' ++ [t_int tn xn' (vscale fT (xsub a (Fin 1)))]) as [|z zs] eqn:Ez.
      { destruct rx'; discriminate. }
      cbn [gaps_from tl]. rewrite H2. fold d. destruct fs as [|f' fs']; [simpl in Lf; lia|].
      cbn [tl map]. f_equal. apply (H1 n). apply I. now left.
Qed.

(** Controls are clamped. *)
Lemma fwd_loop_box gap g a ns : forall t xnext cost xs us uo fs ds rx ru rd xn c,
  arrays ns xs us uo fs ds ->
  fwd_loop gap true g a t xnext cost ns xs us uo fs ds = (rx, ru, rd, xn, c, true) ->
  Forall2 (fun n u => n_u n = true -> n_lim n = true -> exists v, u = clamp (n_lb n) (n_ub n) v) ns ru.
Proof.
  induction ns as [|n ns IH]; intros t xnext cost xs us uo fs ds rx ru rd xn c H E.
  - simpl in E. injection E as <- <- <- <- <-. destruct H as (_ & _ & L & _ & _).
    destruct uo; [|simpl in L; lia]. constructor.
  - arrays_cons ns xs us uo fs ds. rewrite fwd_loop_cons in E. cbv zeta in E.
    set (xt := place gap n a v xnext) in *. set (ut := ctrl true g a t n x u u0 xt) in *.
    set (d := node_eval n xt ut) in *.
    destruct (bad _ || bad _) eqn:B; [discriminate|].
    destruct (fwd_loop gap true g a (S t) (fst d) _ ns xs us uo fs ds) as [[[[[rx' ru'] rd'] xn'] c'] ok] eqn:E'.
    injection E as <- <- <- <- <- ->. constructor.
    + intros Hu Hl. unfold ut, ctrl. rewrite Hu, Hl. simpl. eauto.
    + eapply IH; [exact Harr|exact E'].
Qed.

(** The policy: the controls before clamping. *)
Lemma fwd_loop_policy gap box g a ns : forall t xnext cost xs us uo fs ds rx ru rd xn c,
  arrays ns xs us uo fs ds ->
  fwd_loop gap box g a t xnext cost ns xs us uo fs ds = (rx, ru, rd, xn, c, true) ->
  forall i n x u u0 xt ut, nth_error ns i = Some n -> nth_error xs i = Some x -> nth_error us i = Some u ->
    nth_error uo i = Some u0 -> nth_error rx i = Some xt -> nth_error ru i = Some ut ->
    ut = ctrl box g a (t + i) n x u u0 xt.
Proof.
  induction ns as [|n ns IH]; intros t xnext cost xs us uo fs ds rx ru rd xn c H E.
  - intros [|i]; discriminate.
  - arrays_cons ns xs us uo fs ds. rewrite fwd_loop_cons in E. cbv zeta in E.
    set (xt := place gap n a v xnext) in *. set (ut := ctrl box g a t n x u u0 xt) in *.
    set (d := node_eval n xt ut) in *.
    destruct (bad _ || bad _) eqn:B; [discriminate|].
    destruct (fwd_loop gap box g a (S t) (fst d) _ ns xs us uo fs ds) as [[[[[rx' ru'] rd'] xn'] c'] ok] eqn:E'.
    injection E as <- <- <- <- <- ->. intros [|i] n1 x1 u1 u01 xt1 ut1; cbn [nth_error].
    + intros [= <-] [= <-] [= <-] [= <-] [= <-] [= <-]. rewrite Nat.add_0_r. reflexivity.
    + intros. replace (t + S i) with (S t + i) by lia. eapply IH; eauto.
Qed.

(** Zero step on a trajectory that follows the dynamics. *)
Lemma fwd_loop_zero g a ns : forall t xnext cost xs us uo fs ds rx ru rd xn c,
  arrays ns xs us uo fs ds ->
  (forall i n x u, nth_error ns i = Some n -> n_u n = true -> pol g (t + i) a u (n_diff n x x) = u) ->
  (forall i n u u0, nth_error ns i = Some n -> n_u n = false ->
     nth_error us i = Some u -> nth_error uo i = Some u0 -> u0 = u) ->
  follows xnext ns xs us ->
  fwd_loop false false g a t xnext cost ns xs us uo fs ds = (rx, ru, rd, xn, c, true) ->
  rx ++ [xn] = xs /\ ru = us.
Proof.
  induction ns as [|n ns IH]; intros t xnext cost xs us uo fs ds rx ru rd xn c H P Q F E.
  - simpl in E. injection E as <- <- <- <- <-. destruct H as (_ & L' & L & _ & _).
    destruct uo; [|simpl in L; lia]. destruct us; [|simpl in L'; lia].
    destruct xs as [|y [|? ?]]; try contradiction. simpl in F. subst. auto.
  - arrays_cons ns xs us uo fs ds. rewrite fwd_loop_cons in E. cbv zeta in E.
    cbn [follows] in F. destruct F as [-> F].
    set (xt := place false n a v xnext) in *. set (ut := ctrl false g a t n xnext u u0 xt) in *.
    assert (ut = u) as Eu.
    { unfold ut, ctrl, xt, place. destruct (n_u n) eqn:Hu.
      - simpl. rewrite <- (Nat.add_0_r t). apply (P 0); auto.
      - apply (Q 0 n); auto. }
    set (d := node_eval n xt ut) in *.
    destruct (bad _ || bad _) eqn:B; [discriminate|].
    destruct (fwd_loop false false g a (S t) (fst d) _ ns xs us uo fs ds) as [[[[[rx' ru'] rd'] xn'] c'] ok] eqn:E'.
    injection E as <- <- <- <- <- ->.
    assert (rx' ++ [xn'] = xs /\ ru' = us) as [E1 E2]; [eapply IH; [exact Harr| | | |exact E']|].
    + intros i m y w Hm. replace (S t + i) with (t + S i) by lia. now apply (P (S i)).
    + intros i m w w0 Hm. apply (Q (S i) m w w0 Hm).
    + unfold d, xt, place. rewrite Eu. exact F.
    + simpl. unfold xt, place. rewrite E1, E2, Eu. auto.
Qed.
End Forward.

Section ForwardTop.
Context {X U V G : Type}.
Variables (vscale : V -> xf -> V) (clamp : U -> U -> U -> U) (xnorm : X -> xf)
          (pol : G -> nat -> xf -> U -> V -> U) (pb : sproblem X U V).
Notation forward := (forward vscale clamp xnorm pol pb).

Lemma forward_len k g a feas xt0 xs us uo fs ds dT :
  arrays (q_run pb) xs us uo fs ds ->
  let r := forward k g a feas xt0 xs us uo fs ds dT in
  length (f_us r) = length (q_run pb) /\ length (f_ds r) = length (q_run pb) /\
  (f_ok r = true -> length (f_xs r) = S (length (q_run pb))).
Proof.
  intro H. unfold Solver_Model.forward. destruct (_ || _).
  { simpl. destruct H as (_ & _ & ? & _ & ?). repeat split; auto. discriminate. }
  match goal with |- context [fwd_loop ?A ?B ?C ?D ?gap ?box g a 0 ?st (Fin 0) ?N xs us uo fs ds] =>
    pose proof (fwd_loop_len A B C D gap box g a N 0 st (Fin 0) xs us uo fs ds H) as L;
    destruct (fwd_loop A B C D gap box g a 0 st (Fin 0) N xs us uo fs ds) as [[[[[rx ru] rd] xn] c] ok]
  end.
  destruct L as (L1 & L2 & L3). destruct ok.
  - destruct (nth_error fs _); simpl; repeat split; auto; try discriminate.
    intros _. rewrite app_length, (L3 eq_refl). simpl. lia.
  - simpl. repeat split; auto. discriminate.
Qed.

Lemma forward_cost k g a feas xt0 xs us uo fs ds dT :
  arrays (q_run pb) xs us uo fs ds ->
  let r := forward k g a feas xt0 xs us uo fs ds dT in
  f_ok r = true ->
  f_cost r = total_cost (q_term pb) (Fin 0) (q_run pb) (f_xs r) (f_us r) /\
  f_cost r = data_cost (f_ds r) (f_dT r) /\
  f_ds r = evals (q_run pb) (f_xs r) (f_us r) /\ bad (f_cost r) = false.
Proof.
  intro H. unfold Solver_Model.forward. destruct (_ || _); [discriminate|].
  match goal with |- context [fwd_loop ?A ?B ?C ?D ?gap ?box g a 0 ?st (Fin 0) ?N xs us uo fs ds] =>
    pose proof (fwd_loop_len A B C D gap box g a N 0 st (Fin 0) xs us uo fs ds H) as L;
    destruct (fwd_loop A B C D gap box g a 0 st (Fin 0) N xs us uo fs ds) as [[[[[rx ru] rd] xn] c] ok] eqn:E
  end.
  destruct L as (L1 & L2 & L3). destruct ok; [|discriminate].
  destruct (fwd_loop_cost _ _ _ _ _ _ _ _ (q_term pb) _ _ _ _ _ _ _ _ _ _ _ _ _ _ H E) as (C1 & C2 & C3).
  destruct (nth_error fs _); [|discriminate]. cbn [f_ok f_cost f_xs f_us f_ds f_dT].
  intro O. apply negb_true_iff in O. split; [|split; [|split]].
  - now rewrite C3.
  - unfold data_cost. now rewrite <- C2.
  - rewrite C1. unfold evals. f_equal.
    specialize (L3 eq_refl). rewrite C1 in L2. clear - L3 L1. revert L1 L3. generalize (q_run pb). intros ns. revert ns rx.
    induction ru as [|u ru IH]; intros [|n ns] [|x rx]; simpl; intros; try lia; auto.
    f_equal. apply IH; lia.
  - exact O.
Qed.

Lemma forward_full k g a feas xt0 xs us uo fs ds dT :
  arrays (q_run pb) xs us uo fs ds ->
  k = DDP \/ feas = true \/ xeq a (Fin 1) = true ->
  let r := forward k g a feas xt0 xs us uo fs ds dT in
  f_ok r = true ->
  follows (match k with DDP => xt0 | _ => q_x0 pb end) (q_run pb) (f_xs r) (f_us r).
Proof.
  intros H K. unfold Solver_Model.forward. destruct (_ || _); [discriminate|].
  assert (match k with DDP | BoxDDP => false | _ => negb (feas || xeq a (Fin 1)) end = false /\
          match k with DDP => false | _ => negb (feas || xeq a (Fin 1)) end = false) as [-> ->].
  { destruct K as [->|[->|E]]; auto.
    - destruct k; auto.
    - rewrite E, orb_true_r. destruct k; auto. }
  match goal with |- context [fwd_loop ?A ?B ?C ?D ?gap ?box g a 0 ?st (Fin 0) ?N xs us uo fs ds] =>
    destruct (fwd_loop A B C D gap box g a 0 st (Fin 0) N xs us uo fs ds) as [[[[[rx ru] rd] xn] c] ok] eqn:E
  end.
  destruct ok; [|discriminate].
  apply fwd_loop_follows in E; auto.
  destruct (nth_error fs _); [|discriminate]. cbn [f_xs f_us]. intros _. exact E.
Qed.

Lemma forward_gaps k g a feas xt0 xs us uo fs ds dT :
  k = FDDP \/ k = BoxFDDP ->
  arrays (q_run pb) xs us uo fs ds -> length fs = S (length (q_run pb)) -> q_run pb <> [] ->
  gap_law vscale (q_run pb) (q_term pb) a ->
  feas = false -> xeq a (Fin 1) = false ->
  let r := forward k g a feas xt0 xs us uo fs ds dT in
  f_ok r = true ->
  gaps (q_x0 pb) (q_run pb) (f_xs r) (f_us r) = map (fun f => vscale f (xsub (Fin 1) a)) fs.
Proof.
  intros K H Lf Ne L -> Ea. unfold Solver_Model.forward. destruct (_ || _); [discriminate|].
  rewrite Ea. cbn [orb negb].
  assert (match k with DDP | BoxDDP => false | _ => true end = true /\
          match k with DDP => false | _ => true end = true /\
          match k with DDP => xt0 | _ => q_x0 pb end = q_x0 pb) as (-> & -> & ->)
    by (destruct K as [->| ->]; auto).
  match goal with |- context [fwd_loop ?A ?B ?C ?D ?gap ?box g a 0 ?st (Fin 0) ?N xs us uo fs ds] =>
    destruct (fwd_loop A B C D gap box g a 0 st (Fin 0) N xs us uo fs ds) as [[[[[rx ru] rd] xn] c] ok] eqn:E
  end.
  destruct ok; [|discriminate].
  destruct (nth_error fs _) as [fT|] eqn:Hf; [|discriminate]. cbn [f_xs f_us]. intros _.
  destruct (fwd_loop_gaps _ _ _ _ _ _ _ _ _ _ _ _ _ _ _ _ _ _ _ _ _ _ _ fT L (incl_refl _) H E Hf Lf) as [H1 H2].
  unfold gaps. destruct (q_run pb) as [|n ns] eqn:En; [congruence|].
  destruct (rx ++ [t_int (q_term pb) xn (vscale fT (xsub a (Fin 1)))]) as [|y ys] eqn:Ey.
  { destruct rx; discriminate. }
  rewrite H2. destruct fs as [|f fs]; [discriminate|]. cbn [tl map]. f_equal.
  apply (H1 n). now left.
Qed.

Lemma forward_box k g a feas xt0 xs us uo fs ds dT :
  k = BoxDDP \/ k = BoxFDDP ->
  arrays (q_run pb) xs us uo fs ds ->
  let r := forward k g a feas xt0 xs us uo fs ds dT in
  f_ok r = true ->
  Forall2 (fun n u => n_u n = true -> n_lim n = true -> exists v, u = clamp (n_lb n) (n_ub n) v)
          (q_run pb) (f_us r).
Proof.
  intros K H. unfold Solver_Model.forward. destruct (_ || _); [discriminate|].
  assert (match k with BoxDDP | BoxFDDP => true | _ => false end = true) as ->
    by (destruct K as [->| ->]; auto).
  match goal with |- context [fwd_loop ?A ?B ?C ?D ?gap ?box g a 0 ?st (Fin 0) ?N xs us uo fs ds] =>
    destruct (fwd_loop A B C D gap box g a 0 st (Fin 0) N xs us uo fs ds) as [[[[[rx ru] rd] xn] c] ok] eqn:E
  end.
  destruct ok; [|discriminate].
  apply fwd_loop_box in E; auto.
  destruct (nth_error fs _); [|discriminate]. cbn [f_us]. intros _. exact E.
Qed.
End ForwardTop.
