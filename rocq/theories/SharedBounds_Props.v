(** C133: the inequality constraints of a node are compared with their own
    bounds.  Specification: [rows], the values of the selected constraints in
    name order, each beside its own bounds. *)
From Coq Require Import List Bool Arith Lia.
From Verif Require Import ContainersEval_Model ContainersEval_Proofs SharedBounds_Model.
Import ListNotations.

Section SharedBounds.
Context {S : Type}.
Notation item := (seg_item S).

Definition rows (sel : item -> bool) (l : list item) (vals : list (list S)) : list (S * (S * S)) :=
  flat_map (fun p => if sel (fst p) then combine (snd p) (combine (s_lb (fst p)) (s_ub (fst p))) else [])
           (combine l vals).
Definition running (m : item) : bool := s_active m.
Definition terminal (m : item) : bool := s_active m && s_T m.

(** Number of rows a selection of constraints has. *)
Fixpoint count (dim : item -> nat) (sel : item -> bool) (l : list item) : nat :=
  match l with [] => 0 | m :: r => (if sel m then dim m else 0) + count dim sel r end.

(** Sizes: of the constraints, of the values, of the memory. *)
Definition good_item (m : item) : Prop :=
  length (s_h m) = s_nh m /\ length (s_lb m) = s_ng m /\ length (s_ub m) = s_ng m.
Definition good_vals (l : list item) (vals : list (list S)) : Prop :=
  Forall2 (fun m v => length v = s_ng m) l vals.
Definition good_event (p : cproblem S) (e : event S) : Prop :=
  match e with
  | ERun t vals => exists m, nth_error (p_run p) t = Some m /\ good_vals (p_cons p m) vals
  | ETerm vals => good_vals (p_cons p (p_term p)) vals
  end.
Definition good_problem (p : cproblem S) : Prop := forall m, Forall good_item (p_cons p m).
Definition good_state (p : cproblem S) (st : cstate S) : Prop :=
  (forall m, length (fst (st_bnd st m)) = count s_ng running (p_cons p m) /\
             length (snd (st_bnd st m)) = count s_ng running (p_cons p m)) /\
  (forall t m, nth_error (p_run p) t = Some m ->
     length (fst (st_val st t)) = count s_ng running (p_cons p m) /\
     length (snd (st_val st t)) = count s_nh running (p_cons p m)) /\
  length (fst (st_tval st)) = count s_ng terminal (p_cons p (p_term p)) /\
  length (snd (st_tval st)) = count s_nh terminal (p_cons p (p_term p)).

(** All active constraints of a model also count at a terminal node. *)
Definition all_terminal (l : list item) : Prop :=
  forall m, In m l -> s_active m = true -> s_T m = true.
(** The model is not used at the terminal node, or that does not matter. *)
Definition separate (p : cproblem S) (m : nat) : Prop :=
  m <> p_term p \/ all_terminal (p_cons p m).

(* ---------------------------------------------------------------- *)

Definition cat {E} (sel : item -> bool) (part : item -> list E) l : list E :=
  concat (map part (filter sel l)).

Lemma count_total dim sel l : total sel dim l = count dim sel l.
Proof. unfold total. induction l as [|a l IH]; cbn; auto. destruct (sel a); cbn; unfold sum_nat in *; lia. Qed.

Lemma fill_cat sel (part : item -> list S) l vals : good_vals l vals ->
  (forall a T n n' g g' h lb ub, sel (SegItem a T n n' g h lb ub) = sel (SegItem a T n n' g' h lb ub)) ->
  (forall a T n n' g g' h lb ub, part (SegItem a T n n' g h lb ub) = part (SegItem a T n n' g' h lb ub)) ->
  cat sel part (fill l vals) = cat sel part l.
Proof.
  intros G Es Ep. unfold cat, fill. induction G as [|m v l vals hv G IH]; cbn; auto.
  destruct m as [a T n n' g h lb ub]; cbn [s_active s_T s_ng s_nh s_h s_lb s_ub].
  rewrite (Es a T n n' v g h lb ub). destruct (sel _); cbn; rewrite ?IH; auto.
  f_equal. apply Ep.
Qed.

Lemma fill_count dim sel l vals : good_vals l vals ->
  (forall a T n n' g g' h lb ub, sel (SegItem a T n n' g h lb ub) = sel (SegItem a T n n' g' h lb ub)) ->
  (forall a T n n' g g' h lb ub, dim (SegItem a T n n' g h lb ub) = dim (SegItem a T n n' g' h lb ub)) ->
  count dim sel (fill l vals) = count dim sel l.
Proof.
  intros G Es Ep. unfold fill. induction G as [|m v l vals hv G IH]; cbn; auto.
  destruct m as [a T n n' g h lb ub]; cbn [s_active s_T s_ng s_nh s_h s_lb s_ub].
  rewrite (Es a T n n' v g h lb ub), (Ep a T n n' v g h lb ub), IH. reflexivity.
Qed.

Lemma fill_sized l vals : Forall good_item l -> good_vals l vals -> Forall well_sized (fill l vals).
Proof.
  intros Gi G. unfold fill. induction G as [|m v l vals hv G IH]; cbn; constructor.
  - inversion Gi as [|? ? [A [B C]] ?]; subst. repeat split; auto.
  - apply IH. inversion Gi; auto.
Qed.

Lemma combine_app {A B} (a b : list A) (c d : list B) : length a = length c ->
  combine (a ++ b) (c ++ d) = combine a c ++ combine b d.
Proof. revert c. induction a; destruct c; cbn; intros E; try discriminate; auto. now rewrite IHa by lia. Qed.

Lemma combine_trunc {A B} (a : list A) (c d : list B) : length a = length c -> combine a (c ++ d) = combine a c.
Proof. intros E. rewrite <- (app_nil_r a) at 1. rewrite combine_app by auto. cbn. apply app_nil_r. Qed.

Lemma cat_length sel (part : item -> list S) dim l :
  (forall m, In m l -> length (part m) = dim m) -> length (cat sel part l) = count dim sel l.
Proof.
  unfold cat. induction l as [|m l IH]; cbn; auto. intros H.
  destruct (sel m); cbn; rewrite ?app_length, IH; auto.
Qed.

Lemma len_g l vals sel : good_vals l vals ->
  (forall a T n n' g g' h lb ub, sel (SegItem a T n n' g h lb ub) = sel (SegItem a T n n' g' h lb ub)) ->
  length (cat sel s_g (fill l vals)) = count s_ng sel l.
Proof.
  intros G Es. rewrite <- (fill_count s_ng sel l vals) by auto. apply cat_length.
  unfold fill. clear Es. induction G as [|m v l vals hv G IH]; cbn; [tauto|].
  intros x [<-|Hx]; cbn; auto.
Qed.

Lemma read_rows sel l vals : Forall good_item l -> good_vals l vals ->
  (forall a T n n' g g' h lb ub, sel (SegItem a T n n' g h lb ub) = sel (SegItem a T n n' g' h lb ub)) ->
  combine (cat sel s_g (fill l vals)) (combine (cat sel s_lb l) (cat sel s_ub l)) = rows sel l vals.
Proof.
  intros Gi G Es. unfold rows, cat, fill.
  induction G as [|m v l vals hv G IH]; cbn; auto.
  inversion Gi as [|? ? [A [B C]] Gi']; subst. specialize (IH Gi').
  destruct m as [a T n n' g h lb ub]; cbn [s_active s_T s_ng s_nh s_h s_lb s_ub] in *.
  rewrite (Es a T n n' v g h lb ub). destruct (sel _); cbn [map concat]; [|exact IH].
  cbn [s_g s_lb s_ub]. rewrite combine_app by congruence.
  rewrite combine_app by (rewrite combine_length; lia). now rewrite <- IH.
Qed.

Lemma sel_run : forall a T n n' (g g' h lb ub : list S),
  running (SegItem a T n n' g h lb ub) = running (SegItem a T n n' g' h lb ub).
Proof. reflexivity. Qed.
Lemma sel_term : forall a T n n' (g g' h lb ub : list S),
  terminal (SegItem a T n n' g h lb ub) = terminal (SegItem a T n n' g' h lb ub).
Proof. reflexivity. Qed.

Lemma all_terminal_sel {E} (part : item -> list E) l : all_terminal l ->
  cat terminal part l = cat running part l.
Proof.
  intros H. unfold cat. f_equal. f_equal. apply filter_ext_in. intros m Hm.
  unfold terminal, running. destruct (s_active m) eqn:A; cbn; auto.
Qed.

Lemma in_good l (m : item) : Forall good_item l -> In m l -> good_item m.
Proof. rewrite Forall_forall. auto. Qed.

(** Bounds in memory are those of the running constraints. *)
Definition right_bounds (p : cproblem S) (st : cstate S) (m : nat) : Prop :=
  st_bnd st m = (cat running s_lb (p_cons p m), cat running s_ub (p_cons p m)).

Lemma run_step p st t m vals : good_problem p -> good_state p st ->
  nth_error (p_run p) t = Some m -> good_vals (p_cons p m) vals ->
  let l := p_cons p m in
  estep p st (ERun t vals) =
  Some (CState (put (st_bnd st) m (cat running s_lb l, cat running s_ub l))
               (put (st_val st) t (cat running s_g (fill l vals), cat running s_h l)) (st_tval st)).
Proof.
  intros Gp [Gb [Gv Gt]] E G l. cbn [estep]. rewrite E.
  destruct (st_val st t) as [g h] eqn:Ev, (st_bnd st m) as [lb ub] eqn:Eb.
  destruct (Gv t m E) as [V1 V2]. destruct (Gb m) as [B1 B2].
  rewrite Ev in V1, V2. rewrite Eb in B1, B2. cbn in V1, V2, B1, B2.
  pose proof (@manager_calc_exact S (fill l vals) (Bufs g h lb ub) (fill_sized _ _ (Gp m) G)) as H.
  change sel_running with running in H.
  rewrite !count_total in H. cbn [b_g b_h b_lb b_ub] in H.
  rewrite (fill_count s_ng running l vals G sel_run), (fill_count s_nh running l vals G sel_run) in H
    by reflexivity.
  fold l. rewrite H by auto. cbn [b_g b_h b_lb b_ub].
  change (@stacked S S) with (@cat S).
  rewrite (fill_cat running s_lb l vals G sel_run), (fill_cat running s_ub l vals G sel_run),
    (fill_cat running s_h l vals G sel_run) by reflexivity. reflexivity.
Qed.

Lemma term_step p st vals : good_problem p -> good_state p st ->
  let l := p_cons p (p_term p) in
  good_vals l vals ->
  let k := count s_ng terminal l in
  estep p st (ETerm vals) =
  Some (CState (put (st_bnd st) (p_term p)
                  (cat terminal s_lb l ++ skipn k (fst (st_bnd st (p_term p))),
                   cat terminal s_ub l ++ skipn k (snd (st_bnd st (p_term p)))))
               (st_val st) (cat terminal s_g (fill l vals), cat terminal s_h l)).
Proof.
  intros Gp [Gb [_ [T1 T2]]] l G k. cbn [estep].
  destruct (st_tval st) as [g h] eqn:Ev, (st_bnd st (p_term p)) as [lb ub] eqn:Eb.
  destruct (Gb (p_term p)) as [B1 B2]. rewrite Eb in B1, B2. cbn in T1, T2, B1, B2.
  pose proof (@manager_calcT_exact S (fill l vals) (Bufs g h lb ub) (fill_sized _ _ (Gp (p_term p)) G)) as H.
  change sel_running with running in H. change sel_terminal with terminal in H.
  rewrite !count_total in H. cbn [b_g b_h b_lb b_ub] in H.
  rewrite (fill_count s_ng terminal l vals G sel_term), (fill_count s_nh terminal l vals G sel_term),
    (fill_count s_ng running l vals G sel_run) in H by reflexivity.
  fold l. destruct H as [_ H]; auto. rewrite H. cbn [b_g b_h b_lb b_ub fst snd].
  change (@stacked S S) with (@cat S).
  rewrite (fill_cat terminal s_lb l vals G sel_term), (fill_cat terminal s_ub l vals G sel_term),
    (fill_cat terminal s_h l vals G sel_term) by reflexivity. reflexivity.
Qed.

Lemma count_le (l : list item) : count s_ng terminal l <= count s_ng running l.
Proof. induction l as [|m l IH]; cbn; auto. unfold terminal, running in *. destruct (s_active m), (s_T m); cbn; lia. Qed.

Lemma step_good p st e : good_problem p -> good_state p st -> good_event p e ->
  exists st', estep p st e = Some st' /\ good_state p st' /\
    (forall m, separate p m -> right_bounds p st m -> right_bounds p st' m).
Proof.
  intros Gp G Ge. pose proof (fun m x => in_good _ x (Gp m)) as GI.
  assert (L : forall sel (part : item -> list S) dim m,
    (forall x, good_item x -> length (part x) = dim x) ->
    length (cat sel part (p_cons p m)) = count dim sel (p_cons p m)).
  { intros sel part dim m H. apply cat_length. intros x Hx. eauto. }
  destruct e as [t vals|vals].
  - destruct Ge as [m [E Gv]]. rewrite (run_step p st t m vals Gp G E Gv).
    eexists; split; [reflexivity|]. destruct G as [Gb [Gd Gt]]. split; [split; [|split]|]; cbn.
    + intros j. unfold put. destruct (Nat.eqb_spec j m) as [->|N]; [|apply Gb].
      cbn. split; apply L; intros x Hx; apply Hx.
    + intros t' m' E'. unfold put. destruct (Nat.eqb_spec t' t) as [->|N]; [|now apply Gd].
      rewrite E in E'. injection E' as <-. cbn. split; [now apply len_g|].
      apply L; intros x Hx; apply Hx.
    + exact Gt.
    + intros j _ Hj. unfold right_bounds, put in *. cbn. destruct (Nat.eqb_spec j m) as [->|N]; auto.
  - cbn in Ge. rewrite (term_step p st vals Gp G Ge).
    eexists; split; [reflexivity|]. pose proof G as [Gb [Gd Gt]]. split; [split; [|split]|]; cbn.
    + intros j. unfold put. destruct (Nat.eqb_spec j (p_term p)) as [->|N]; [|apply Gb].
      cbn. destruct (Gb (p_term p)) as [B1 B2]. pose proof (count_le (p_cons p (p_term p))).
      split; rewrite app_length, skipn_length, ?B1, ?B2, (L terminal _ s_ng); try lia;
        intros x Hx; apply Hx.
    + exact Gd.
    + split; [now apply len_g|apply L; intros x Hx; apply Hx].
    + intros j Hs Hj. unfold right_bounds, put in *. cbn.
      destruct (Nat.eqb_spec j (p_term p)) as [->|N]; auto.
      destruct Hs as [|Ha]; [congruence|]. rewrite Hj. cbn [fst snd].
      rewrite !all_terminal_sel by auto.
      assert (K : count s_ng terminal (p_cons p (p_term p)) = count s_ng running (p_cons p (p_term p))).
      { rewrite <- (L terminal s_lb s_ng), <- (L running s_lb s_ng) by (intros x Hx; apply Hx).
        now rewrite all_terminal_sel. }
      rewrite K. rewrite !skipn_all2, !app_nil_r; auto.
      * rewrite (L running s_ub s_ng); auto. intros x Hx; apply Hx.
      * rewrite (L running s_lb s_ng); auto. intros x Hx; apply Hx.
Qed.

Lemma runs_good p es : good_problem p -> forall st, good_state p st -> Forall (good_event p) es ->
  exists st', eruns p st es = Some st' /\ good_state p st' /\
    (forall m, separate p m -> right_bounds p st m -> right_bounds p st' m).
Proof.
  intros Gp. induction es as [|e es IH]; intros st G F; cbn.
  - exists st. auto.
  - inversion F as [|? ? Ge F']; subst.
    destruct (step_good p st e Gp G Ge) as [st1 [E1 [G1 R1]]]. rewrite E1.
    destruct (IH st1 G1 F') as [st2 [E2 [G2 R2]]]. exists st2. split; auto.
Qed.

Lemma eruns_app (p : cproblem S) st es1 es2 :
  eruns p st (es1 ++ es2) = match eruns p st es1 with Some s => eruns p s es2 | None => None end.
Proof. revert st. induction es1; intros st; cbn; auto. destruct (estep p st a); auto. Qed.

Definition not_run (t : nat) (e : event S) : Prop := match e with ERun t' _ => t' <> t | _ => True end.
Definition not_term (e : event S) : Prop := match e with ETerm _ => False | _ => True end.
(** Not an evaluation of a running node with the model of the terminal node. *)
Definition not_term_model (p : cproblem S) (e : event S) : Prop :=
  match e with ERun t _ => nth_error (p_run p) t <> Some (p_term p) | ETerm _ => True end.

Lemma frame_run p t es : forall st st', Forall (not_run t) es -> eruns p st es = Some st' ->
  st_val st' t = st_val st t.
Proof.
  induction es as [|e es IH]; intros st st' F E; cbn in E; [congruence|].
  inversion F as [|? ? He F']; subst. destruct (estep p st e) as [st1|] eqn:E1; [|discriminate].
  rewrite (IH st1 st' F' E). destruct e as [t' v|v]; cbn in E1, He.
  - destruct (nth_error _ _); [|discriminate]. destruct (st_val st t'), (st_bnd st _).
    destruct (manager_calc _ _); [|discriminate]. injection E1 as <-. cbn. unfold put.
    destruct (Nat.eqb_spec t t'); congruence.
  - destruct (st_tval st), (st_bnd st _). destruct (manager_calcT _ _); [|discriminate].
    now injection E1 as <-.
Qed.

Lemma frame_term p es : forall st st', Forall not_term es -> eruns p st es = Some st' ->
  st_tval st' = st_tval st /\ (Forall (not_term_model p) es -> st_bnd st' (p_term p) = st_bnd st (p_term p)).
Proof.
  induction es as [|e es IH]; intros st st' F E; cbn in E; [injection E as <-; auto|].
  inversion F as [|? ? He F']; subst. destruct (estep p st e) as [st1|] eqn:E1; [|discriminate].
  destruct (IH st1 st' F' E) as [A B]. destruct e as [t' v|v]; [|contradiction].
  cbn in E1. destruct (nth_error (p_run p) t') eqn:En; [|discriminate].
  destruct (st_val st t'), (st_bnd st _). destruct (manager_calc _ _); [|discriminate].
  injection E1 as <-. split; [exact A|]. intros Fm. inversion Fm as [|? ? Hm Fm']; subst.
  rewrite (B Fm'). cbn. unfold put. cbn in Hm. destruct (Nat.eqb_spec (p_term p) n); congruence.
Qed.

(** No evaluation writes outside the vectors, in any order of the nodes. *)
Theorem C133_safe p st es : good_problem p -> good_state p st -> Forall (good_event p) es ->
  exists st', eruns p st es = Some st' /\ good_state p st'.
Proof. intros Gp G F. destruct (runs_good p es Gp st G F) as [s [? [? _]]]; eauto. Qed.

(** A running node is compared with its own bounds, whatever was in the memory
    before and whichever nodes, sharing its model or not, are evaluated before
    and after it. *)
Theorem C133_running_partial p st es1 t m vals es2 st' :
  good_problem p -> good_state p st -> Forall (good_event p) (es1 ++ ERun t vals :: es2) ->
  nth_error (p_run p) t = Some m -> separate p m -> Forall (not_run t) es2 ->
  eruns p st (es1 ++ ERun t vals :: es2) = Some st' ->
  read_run p st' t = rows running (p_cons p m) vals.
Proof.
  intros Gp G F Em Hs Fn E. rewrite eruns_app in E. apply Forall_app in F as [F1 F2].
  inversion F2 as [|? ? Ge F3]; subst. destruct Ge as [m' [Em' Gv]]. rewrite Em in Em'. injection Em' as <-.
  destruct (runs_good p es1 Gp st G F1) as [s1 [E1 [G1 _]]]. rewrite E1 in E.
  destruct (step_good p s1 (ERun t vals) Gp G1) as [s2' [E2' [G2 _]]]; [exists m; auto|].
  pose proof (run_step p s1 t m vals Gp G1 Em Gv) as E2. cbv zeta in E2.
  cbn [eruns] in E. rewrite E2 in E. rewrite E2 in E2'. injection E2' as <-.
  set (s2 := CState _ _ _) in *.
  destruct (runs_good p es2 Gp s2 G2 F3) as [s3 [E3 [G3 R3]]].
  rewrite E in E3. injection E3 as <-.
  unfold read_run. rewrite Em, (frame_run p t es2 s2 st' Fn E), R3; auto.
  - cbn. unfold put. rewrite Nat.eqb_refl. cbn. apply read_rows; auto using sel_run.
  - unfold right_bounds, s2. cbn. unfold put. now rewrite Nat.eqb_refl.
Qed.

(** The terminal node, if afterwards its model is not evaluated at a running
    node, as in every sweep (the terminal node is the last). *)
Theorem C133_terminal p st es1 vals es2 st' :
  good_problem p -> good_state p st -> Forall (good_event p) (es1 ++ ETerm vals :: es2) ->
  Forall not_term es2 -> Forall (not_term_model p) es2 ->
  eruns p st (es1 ++ ETerm vals :: es2) = Some st' ->
  read_term p st' = rows terminal (p_cons p (p_term p)) vals.
Proof.
  intros Gp G F Fn Fm E. rewrite eruns_app in E. apply Forall_app in F as [F1 F2].
  inversion F2 as [|? ? Gv F3]; subst. cbn in Gv.
  destruct (runs_good p es1 Gp st G F1) as [s1 [E1 [G1 _]]]. rewrite E1 in E.
  pose proof (term_step p s1 vals Gp G1 Gv) as E2. cbv zeta in E2.
  cbn [eruns] in E. rewrite E2 in E.
  destruct (frame_term p es2 _ st' Fn E) as [A B]. specialize (B Fm).
  unfold read_term. rewrite A, B. cbn. unfold put. rewrite Nat.eqb_refl. cbn [fst snd].
  pose proof (fun x => in_good _ x (Gp (p_term p))) as GI.
  assert (L : length (cat terminal s_lb (p_cons p (p_term p))) = length (cat terminal s_ub (p_cons p (p_term p)))).
  { rewrite !(cat_length terminal _ s_ng); auto; intros x Hx; apply (GI x Hx). }
  rewrite combine_app by exact L. rewrite combine_trunc.
  - apply read_rows; auto using sel_term.
  - rewrite combine_length, <- L, Nat.min_id, len_g by auto using sel_term.
    symmetry. apply cat_length. intros x Hx. apply (GI x Hx).
Qed.
End SharedBounds.

Print Assumptions C133_safe.
Print Assumptions C133_running_partial.
Print Assumptions C133_terminal.
