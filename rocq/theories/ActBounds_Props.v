(** C39: ActivationBounds are ordered, inside the given bounds, and casting. *)
From Coq Require Import QArith List Bool Lia Lqa Qabs.
From Verif Require Import XFloat XFloatFacts ActBounds_Model.
Import ListNotations.
Open Scope Q_scope.

(** Representable: NaN, infinite, or at most the largest finite number. *)
Definition representable (mx : Q) (a : xf) : Prop :=
  match a with Fin p => - mx <= p /\ p <= mx | _ => True end.

(** The relation between given and stored bounds of one component. *)
Definition stored_ok (mx : Q) (beta lb ub l u : xf) : Prop :=
  exists p q, l = Fin p /\ u = Fin q /\ p <= q /\
    (is_nan lb = false -> xlt lb PInf = true -> xle lb l = true) /\
    (is_nan ub = false -> xlt NInf ub = true -> xle u ub = true) /\
    (forall p0 q0 b, lb = Fin p0 -> ub = Fin q0 -> beta = Fin b -> - mx < p0 -> q0 < mx ->
       p + q == p0 + q0 /\ q - p == b * (q0 - p0)) /\
    (forall p0, lb = Fin p0 -> is_fin ub = false -> p = p0 /\ q = mx) /\
    (forall q0, ub = Fin q0 -> is_fin lb = false -> p = - mx /\ q = q0).

Section P.
Variable mx : Q.
Hypothesis mx0 : 0 < mx.

Ltac qr := repeat match goal with
  | |- context [Qred ?x] => let H := fresh in let y := fresh in
      pose proof (Qred_correct x) as H; set (y := Qred x) in *; clearbody y
  | H0 : context [Qred ?x] |- _ => let H := fresh in let y := fresh in
      pose proof (Qred_correct x) as H; set (y := Qred x) in *; clearbody y
  end.

Lemma bound1_ok beta lb ub l u : representable mx lb -> representable mx ub ->
  xlt beta (Fin 0) = false -> xlt (Fin 1) beta = false ->
  bound1 mx beta lb ub = Some (l, u) -> stored_ok mx beta lb ub l u.
Proof.
  intros Rl Ru B0 B1. unfold bound1. destruct (badly lb ub) eqn:Bd; [discriminate|].
  intro E. injection E as E. revert E.
  assert (O : exists p q, cap_lb mx lb = Fin p /\ cap_ub mx ub = Fin q /\ p <= q).
  { unfold badly in Bd. destruct lb as [| | |p0], ub as [| | |q0]; cbn [cap_lb cap_ub is_fin andb representable] in *;
      try (do 2 eexists; split; [reflexivity|split; [reflexivity|lra]]).
    cbn [xsub xadd xopp] in Bd. xq. do 2 eexists; split; [reflexivity|split; [reflexivity|]].
    pose proof (Qred_correct (p0 + - q0)). lra. }
  destruct O as [p [q [El [Eu O]]]]. rewrite El, Eu.
  destruct (beta_ok beta) eqn:Bo.
  - unfold beta_ok in Bo. apply andb_true_iff in Bo as [Bo1 Bo2].
    destruct beta as [| | |b]; try discriminate. xq.
    unfold shrink. destruct (xeq (Fin p) (Fin (- mx))) eqn:Ep.
    + cbn [negb andb]. intro E; injection E as <- <-. exists p, q. repeat split; auto; xq.
      * intros _ H. destruct lb; try discriminate; auto. cbn in El. injection El as ->. xq. lra.
      * intros _ H. destruct ub; try discriminate; auto. cbn in Eu. injection Eu as ->. xq. lra.
      * subst. cbn in El. injection El as ->. lra.
      * subst. cbn in El. injection El as ->. lra.
      * subst. now injection El as ->.
      * destruct ub; try discriminate; now injection Eu as <-.
      * destruct lb; try discriminate; now injection El as <-.
      * subst. now injection Eu as ->.
    + destruct (xeq (Fin q) (Fin mx)) eqn:Eq.
      * cbn [negb andb]. intro E; injection E as <- <-. exists p, q. repeat split; auto; xq.
        -- intros _ H. destruct lb; try discriminate; auto. cbn in El. injection El as ->. xq. lra.
        -- intros _ H. destruct ub; try discriminate; auto. cbn in Eu. injection Eu as ->. xq. lra.
        -- subst. cbn in Eu. injection Eu as ->. lra.
        -- subst. cbn in Eu. injection Eu as ->. lra.
        -- subst. now injection El as ->.
        -- destruct ub; try discriminate; now injection Eu as <-.
        -- destruct lb; try discriminate; now injection El as <-.
        -- subst. now injection Eu as ->.
      * assert (Fl : lb = Fin p).
        { destruct lb as [| | |p0]; try exact El; cbn in El; injection El as <-;
            assert (xeq (Fin (- mx)) (Fin (- mx)) = true) by (xq; lra); congruence. }
        assert (Fu : ub = Fin q).
        { destruct ub as [| | |p0]; try exact Eu; cbn in Eu; injection Eu as <-;
            assert (xeq (Fin mx) (Fin mx) = true) by (xq; lra); congruence. }
        subst. cbn [negb andb].
        set (d := Qred ((1 # 2) * Qred (q + - p))).
        set (m := Qred ((1 # 2) * Qred (p + q))).
        cbn [xmul xsub xadd xopp].
        fold d. fold m. intro E.
        pose proof (f_equal fst E) as E'. pose proof (f_equal snd E) as E''. cbn [fst snd] in E', E''. clear E. subst l u.
        assert (Ed : d == (1 # 2) * (q - p)).
        { unfold d. rewrite (Qred_correct ((1 # 2) * _)), (Qred_correct (q + - p)). lra. }
        assert (Em : m == (1 # 2) * (p + q)).
        { unfold m. rewrite (Qred_correct ((1 # 2) * _)), (Qred_correct (p + q)). lra. }
        clearbody d m.
        pose proof (Qred_correct (m + - Qred (b * d))) as H1. pose proof (Qred_correct (m + Qred (b * d))) as H2.
        pose proof (Qred_correct (b * d)) as H3.
        set (l1 := Qred (m + - Qred (b * d))) in *. set (u1 := Qred (m + Qred (b * d))) in *.
        set (bd := Qred (b * d)) in *. clearbody l1 u1 bd.
        assert (0 <= b * d) by (apply Qmult_le_0_compat; lra).
        assert (b * d <= d). { setoid_replace d with (1 * d) at 2 by lra. apply Qmult_le_compat_r; lra. }
        exists l1, u1. split; auto. split; auto. split; [lra|].
        split; [intros; xq; lra|]. split; [intros; xq; lra|]. split; [|split; intros; discriminate].
        intros p0 q0 b0 E1 E2 E3 _ _. injection E1 as <-. injection E2 as <-. injection E3 as <-.
        split; [lra|]. assert (b * d == b * ((1 # 2) * (q - p))) by (now rewrite Ed). lra.
  - intro E; injection E as <- <-. exists p, q.
    assert (Hb : beta = NaN).
    { unfold beta_ok in Bo. destruct beta as [| | |b]; auto; try discriminate. xq.
      apply andb_false_iff in Bo as [Bo|Bo]; xq; lra. }
    repeat split; auto; try (subst; discriminate).
    + intros _ H. destruct lb; try discriminate; auto. cbn in El. injection El as ->. xq. lra.
    + intros _ H. destruct ub; try discriminate; auto. cbn in Eu. injection Eu as ->. xq. lra.
    + subst. now injection El as ->.
    + destruct ub; try discriminate; now injection Eu as <-.
    + destruct lb; try discriminate; now injection El as <-.
    + subst. now injection Eu as ->.
Qed.

Lemma loop_ok beta : xlt beta (Fin 0) = false -> xlt (Fin 1) beta = false ->
  forall lb ub l u, Forall (representable mx) lb -> Forall (representable mx) ub ->
  bounds_loop mx beta lb ub = Some (l, u) ->
  length l = length lb /\ length u = length lb /\ length ub = length lb /\
  forall i, (i < length lb)%nat ->
    stored_ok mx beta (nth i lb NaN) (nth i ub NaN) (nth i l NaN) (nth i u NaN).
Proof.
  intros B0 B1. induction lb as [|a lb IH]; intros [|c ub] l u Rl Ru E; cbn in E; try discriminate.
  - injection E as <- <-. cbn. repeat split; auto. intros; lia.
  - destruct (bound1 mx beta a c) as [[a' c']|] eqn:E1; [|discriminate].
    destruct (bounds_loop mx beta lb ub) as [[ls us]|] eqn:E2; [|discriminate].
    injection E as <- <-. inversion Rl; inversion Ru; subst.
    destruct (IH ub ls us) as [L1 [L2 [L3 L4]]]; auto. cbn [length].
    repeat split; auto; try lia. intros [|i] Hi; cbn [nth].
    + eapply bound1_ok; eauto.
    + apply L4. lia.
Qed.
End P.

(** C39: accepted bounds are ordered and inside the given ones; finite pairs are shrunk by
    [beta] around their midpoint; one-sided bounds keep the finite side. *)
Theorem C39_ordered_inside mx lb ub beta l u b : 0 < mx ->
  Forall (representable mx) lb -> Forall (representable mx) ub ->
  mk_bounds mx lb ub beta = Some (l, u, b) ->
  length l = length lb /\ length u = length lb /\ length ub = length lb /\
  forall i, (i < length lb)%nat ->
    stored_ok mx beta (nth i lb NaN) (nth i ub NaN) (nth i l NaN) (nth i u NaN).
Proof.
  intros M Rl Ru. unfold mk_bounds.
  destruct (xlt beta (Fin 0)) eqn:B0; [discriminate|].
  destruct (xlt (Fin 1) beta) eqn:B1; [discriminate|]. cbn [orb].
  destruct (bounds_loop mx beta lb ub) as [[l' u']|] eqn:E; [|discriminate].
  intro H. injection H as <- <- _. eapply loop_ok; eauto.
Qed.

(** C39: exactly the invalid arguments are rejected. *)
Definition invalid (lb ub : list xf) (beta : xf) : Prop :=
  length lb <> length ub \/ xlt beta (Fin 0) = true \/ xlt (Fin 1) beta = true \/
  exists i p q, nth_error lb i = Some (Fin p) /\ nth_error ub i = Some (Fin q) /\ q < p.

Lemma badly_iff a c : badly a c = true <-> exists p q, a = Fin p /\ c = Fin q /\ q < p.
Proof.
  unfold badly. split.
  - destruct a as [| | |p], c as [| | |q]; try discriminate. cbn [is_fin andb xsub xadd xopp]. intro H. xq.
    exists p, q. pose proof (Qred_correct (p + - q)). repeat split; auto. lra.
  - intros [p [q [-> [-> H]]]]. cbn [is_fin andb xsub xadd xopp]. xq. rewrite Qred_correct. lra.
Qed.

Lemma loop_none mx beta : forall lb ub, bounds_loop mx beta lb ub = None <->
  (length lb <> length ub \/ exists i p q, nth_error lb i = Some (Fin p) /\ nth_error ub i = Some (Fin q) /\ q < p).
Proof.
  induction lb as [|a lb IH]; intros [|c ub]; cbn.
  - split; [discriminate|]. intros [H|[i [p [q [H _]]]]]; [now elim H|]. destruct i; discriminate.
  - split; [intros _; left; lia|auto].
  - split; [intros _; left; lia|auto].
  - unfold bound1. destruct (badly a c) eqn:Bd.
    + split; auto. intros _. right. apply badly_iff in Bd as [p [q [-> [-> H]]]]. exists 0%nat, p, q. auto.
    + set (x := if beta_ok beta then _ else _). destruct x as [x1 x2].
      destruct (bounds_loop mx beta lb ub) as [[ls us]|] eqn:E.
      * split; [discriminate|]. intros [H|[i [p [q [H1 [H2 H3]]]]]].
        -- exfalso. assert (bounds_loop mx beta lb ub = None) by (apply (proj2 (IH ub)); left; lia). congruence.
        -- exfalso. destruct i as [|i]; cbn in H1, H2.
           ++ injection H1 as ->. injection H2 as ->. assert (badly (Fin p) (Fin q) = true) by (apply badly_iff; exists p, q; auto). congruence.
           ++ assert (bounds_loop mx beta lb ub = None) by (apply (proj2 (IH ub)); right; exists i, p, q; auto). congruence.
      * split; auto. intros _. apply (proj1 (IH ub)) in E as [H|[i [p [q H]]]]; [left; lia|].
        right. exists (S i), p, q. auto.
Qed.

Theorem C39_rejects mx lb ub beta : mk_bounds mx lb ub beta = None <-> invalid lb ub beta.
Proof.
  unfold mk_bounds, invalid. destruct (xlt beta (Fin 0)); [cbn; tauto|].
  destruct (xlt (Fin 1) beta); [cbn; tauto|]. cbn [orb].
  pose proof (loop_none mx beta lb ub) as H.
  destruct (bounds_loop mx beta lb ub) as [[l u]|].
  - split; [discriminate|]. intros [A|[A|[A|A]]]; try discriminate; exfalso.
    + assert (Some (l, u) = None) by tauto. discriminate.
    + assert (Some (l, u) = None) by tauto. discriminate.
  - split; auto. intros _. destruct H as [H _]. destruct (H eq_refl); tauto.
Qed.

(** C39: casting keeps the bounds when they were not shrunk (beta = 1). *)
Definition same (a b : xf) : Prop := xeq a b = true.
Theorem C39_cast_unit_partial mx lb ub l u b : 0 < mx ->
  Forall (representable mx) lb -> Forall (representable mx) ub ->
  mk_bounds mx lb ub (Fin 1) = Some (l, u, b) ->
  exists l' u', cast_bounds mx (l, u, b) = Some (l', u', b) /\
    length l' = length l /\ length u' = length u /\
    forall i, (i < length l)%nat -> same (nth i l' NaN) (nth i l NaN) /\ same (nth i u' NaN) (nth i u NaN).
Proof.
  intros M Rl Ru H. pose proof (C39_ordered_inside mx lb ub (Fin 1) l u b M Rl Ru H) as [L1 [L2 [L3 L4]]].
  assert (b = Fin 1).
  { unfold mk_bounds in H. destruct (_ || _); [discriminate|]. destruct (bounds_loop _ _ _ _) as [[]|]; [|discriminate].
    injection H as _ _ <-. destruct (beta_ok _); auto. }
  subst b. clear H. cbn [cast_bounds].
  assert (B0 : xlt (Fin 1) (Fin 0) = false) by (xq; lra).
  assert (B1 : xlt (Fin 1) (Fin 1) = false) by (xq; lra).
  assert (B2 : beta_ok (Fin 1) = true) by (unfold beta_ok; apply andb_true_iff; split; xq; lra).
  unfold mk_bounds. rewrite B0, B1, B2. cbn [orb].
  assert (A : exists l' u', bounds_loop mx (Fin 1) l u = Some (l', u') /\
    length l' = length l /\ length u' = length u /\
    forall i, (i < length l)%nat -> same (nth i l' NaN) (nth i l NaN) /\ same (nth i u' NaN) (nth i u NaN)).
  { assert (EL : length u = length l) by lia.
    assert (EF : forall i, (i < length l)%nat -> exists p q, nth i l NaN = Fin p /\ nth i u NaN = Fin q /\ p <= q).
    { intros i Hi. destruct (L4 i) as [p [q [E1 [E2 [E3 _]]]]]; [lia|]. eauto. }
    clear - EL EF B2. revert u EL EF. induction l as [|a l IH]; intros [|c u] EL EF; try discriminate.
    - exists [], []. cbn. repeat split; auto. lia. lia.
    - destruct (IH u) as [l' [u' [E [E1 [E2 E3]]]]]; [cbn in EL; lia| |].
      { intros i Hi. apply (EF (S i)). cbn. lia. }
      destruct (EF 0%nat) as [p [q [Ea [Ec Eo]]]]; [cbn; lia|]. cbn in Ea, Ec. subst.
      cbn [bounds_loop]. rewrite E. unfold bound1. destruct (badly (Fin p) (Fin q)) eqn:Bd.
      { apply badly_iff in Bd as [p' [q' [H1 [H2 H3]]]]. injection H1 as <-. injection H2 as <-. lra. }
      rewrite B2. cbn [cap_lb cap_ub is_fin]. unfold shrink.
      destruct (negb _ && negb _).
      + cbn [xmul xsub xadd xopp]. do 2 eexists. split; [reflexivity|]. cbn [length]. repeat split; auto.
        * destruct i as [|i]; cbn [nth]; [|apply E3; cbn in *; lia]. unfold same. xq. rewrite !Qred_correct. lra.
        * destruct i as [|i]; cbn [nth]; [|apply E3; cbn in *; lia]. unfold same. xq. rewrite !Qred_correct. lra.
      + do 2 eexists. split; [reflexivity|]. cbn [length]. repeat split; auto.
        * destruct i as [|i]; cbn [nth]; [|apply E3; cbn in *; lia]. unfold same. xq. lra.
        * destruct i as [|i]; cbn [nth]; [|apply E3; cbn in *; lia]. unfold same. xq. lra. }
  destruct A as [l' [u' [E A]]]. rewrite E. exists l', u'. auto.
Qed.

(** C39: with beta = 1/2, casting shrinks the bounds again. *)
Theorem C39_cast_refuted : exists mx lb ub beta b b',
  mk_bounds mx lb ub beta = Some b /\ cast_bounds mx b = Some b' /\
  ~ same (nth 0 (fst (fst b)) NaN) (nth 0 (fst (fst b')) NaN).
Proof.
  exists 1000, [Fin (-2 # 1)], [Fin 2], (Fin (1 # 2)).
  eexists; eexists. split; [vm_compute; reflexivity|]. split; [vm_compute; reflexivity|].
  unfold same. vm_compute. discriminate.
Qed.

Example C39_example : mk_bounds 1000 [Fin (-4 # 1); NInf; NaN] [Fin 4; Fin 3; PInf] (Fin (1 # 2)) =
  Some ([Fin (-2 # 1); Fin (-1000 # 1); Fin (-1000 # 1)], [Fin 2; Fin 3; Fin 1000], Fin (1 # 2)).
Proof. vm_compute. reflexivity. Qed.

Print Assumptions C39_ordered_inside.
Print Assumptions C39_rejects.
Print Assumptions C39_cast_unit_partial.
Print Assumptions C39_cast_refuted.
