From Coq Require Import List Arith Bool Lia.
From Verif Require Import Common SolverBase_Model SolverBase_Spec.
Import ListNotations.

Section Candidate.
Context {V : Type} (vsize : V -> nat) (vzero : nat -> V).
Notation sizes_ok := (sizes_ok vsize).
Notation dims_wf := (dims_wf vsize vzero).
Notation fits_x := (fits_x vsize).
Notation fits_u := (fits_u vsize).
Notation set_candidate := (set_candidate vsize vzero).
Notation cand_step := (cand_step vsize vzero).
Notation cand_run := (cand_run vsize vzero).

Lemma sizes_ok_iff ns : forall vs,
  (length vs = length ns /\ sizes_ok ns vs = true) <-> Forall2 (fun n v => vsize v = n) ns vs.
Proof.
  unfold SolverBase_Model.sizes_ok. induction ns as [|n ns IH]; intros [|v vs]; simpl.
  - split; auto.
  - split; [intros [H _]; discriminate|intro H; inversion H].
  - split; [intros [H _]; discriminate|intro H; inversion H].
  - rewrite andb_true_iff, Nat.eqb_eq. split.
    + intros (L & E & F). constructor; auto. apply IH. auto.
    + intro H. inversion H as [|? ? ? ? E F]; subst. apply IH in F as [L F]. auto.
Qed.

Lemma Forall2_len {A B} (R : A -> B -> Prop) l1 l2 : Forall2 R l1 l2 -> length l1 = length l2.
Proof. induction 1; simpl; auto. Qed.

Lemma check_iff ns vs n :
  length ns = n ->
  Nat.eqb (length vs) n && sizes_ok ns vs = true <-> Forall2 (fun n v => vsize v = n) ns vs.
Proof.
  intros <-. rewrite andb_true_iff, Nat.eqb_eq. apply sizes_ok_iff.
Qed.

Definition fits_c (d : dims V) (c : cand V) : Prop := fits_x d (c_xs c) /\ fits_u d (c_us c).

Lemma copy_full (src dst : list V) : length src = length dst -> copy_into src dst = Some src.
Proof.
  intro H. unfold copy_into. rewrite H, Nat.leb_refl, skipn_all, app_nil_r. reflexivity.
Qed.

Lemma valid_iff (d : dims V) vs ns :
  vs = [] \/ Forall2 (fun n v => vsize v = n) ns vs <->
  match vs with [] => True | _ => Nat.eqb (length vs) (length ns) && sizes_ok ns vs = true end.
Proof.
  destruct vs as [|v vs]; [tauto|]. rewrite check_iff by reflexivity. split; auto.
  intros [H|H]; [discriminate|auto].
Qed.

Lemma set_candidate_spec d xs us f c :
  dims_wf d -> fits_c d c ->
  (valid_guess vsize d xs us ->
   set_candidate d xs us f c = Ok (Cand (meant_x d xs) (meant_u vzero d us) f) tt) /\
  (~ valid_guess vsize d xs us ->
   exists xs', set_candidate d xs us f c = Throw (Cand xs' (c_us c) (c_feas c)) /\
     ((xs = [] \/ fits_x d xs) /\ xs' = meant_x d xs \/
      ~ (xs = [] \/ fits_x d xs) /\ xs' = c_xs c)).
Proof.
  intros (Lu & _) [Fx Fu]. pose proof (Forall2_len _ _ _ Fx) as Lx. pose proof (Forall2_len _ _ _ Fu) as Lu'.
  assert (length (d_nx d ++ [d_nxT d]) = length (d_nx d) + 1) as LT by (rewrite app_length; reflexivity).
  set (put := fun xs' : list V =>
    match us with
    | [] => Ok (Cand xs' (map vzero (d_nu d)) f) tt
    | _ => if Nat.eqb (length us) (length (d_nx d)) && sizes_ok (d_nu d) us then
             match copy_into us (c_us c) with Some us' => Ok (Cand xs' us' f) tt | None => UB end
           else Throw (Cand xs' (c_us c) (c_feas c))
    end).
  assert (forall xs', (us = [] \/ fits_u d us) -> put xs' = Ok (Cand xs' (meant_u vzero d us) f) tt) as Pok.
  { intros xs' H. unfold put. destruct us as [|u us]; auto.
    destruct H as [H|H]; [discriminate|]. pose proof H as H'.
    apply (check_iff _ _ (length (d_nx d)) Lu) in H. rewrite H.
    rewrite copy_full; auto. apply Forall2_len in H'. congruence. }
  assert (forall xs', ~ (us = [] \/ fits_u d us) -> put xs' = Throw (Cand xs' (c_us c) (c_feas c))) as Pbad.
  { intros xs' H. unfold put. destruct us as [|u us]; [exfalso; auto|].
    destruct (Nat.eqb _ _ && _) eqn:E; auto.
    exfalso. apply H. right. now apply (check_iff _ _ (length (d_nx d)) Lu). }
  assert ((xs = [] \/ fits_x d xs) -> set_candidate d xs us f c = put (meant_x d xs)) as X1.
  { intro H. unfold SolverBase_Model.set_candidate. fold put. destruct xs as [|x xs]; auto.
    destruct H as [H|H]; [discriminate|]. pose proof H as H'.
    apply (check_iff _ _ (length (d_nx d) + 1) LT) in H. rewrite H.
    rewrite copy_full; auto. apply Forall2_len in H'. congruence. }
  assert (~ (xs = [] \/ fits_x d xs) -> set_candidate d xs us f c = Throw c) as X2.
  { intro H. unfold SolverBase_Model.set_candidate. fold put. destruct xs as [|x xs]; [exfalso; auto|].
    destruct (Nat.eqb (length (x :: xs)) _ && _) eqn:E; auto.
    exfalso. apply H. right. exact (proj1 (check_iff (d_nx d ++ [d_nxT d]) _ (length (d_nx d) + 1) LT) E). }
  assert ((xs = [] \/ fits_x d xs) \/ ~ (xs = [] \/ fits_x d xs)) as Dx.
  { clear. pose proof (valid_iff d xs (d_nx d ++ [d_nxT d])) as VI. unfold SolverBase_Spec.fits_x.
    destruct xs as [|x xs]; auto. rewrite VI. destruct (_ && _); auto. }
  split.
  - intros [Hx Hu]. rewrite X1, Pok; auto.
  - intro H. destruct Dx as [Dx|Dx].
    + exists (meant_x d xs). split; [|left; auto]. rewrite X1, Pbad; auto.
      intro Hu. apply H. split; auto.
    + exists (c_xs c). split; [|right; auto]. rewrite X2 by auto. now destruct c.
Qed.

Lemma meant_x_fits d xs : dims_wf d -> (xs = [] \/ fits_x d xs) -> fits_x d (meant_x d xs).
Proof.
  intros (_ & Fz & Ez & _) H. destruct xs as [|x xs]; [|destruct H as [H|H]; [discriminate|exact H]].
  unfold SolverBase_Spec.fits_x. simpl. apply Forall2_app; auto.
Qed.

Lemma meant_u_fits d us : dims_wf d -> (us = [] \/ fits_u d us) -> fits_u d (meant_u vzero d us).
Proof.
  intros (_ & _ & _ & _ & _ & Hz) H. destruct us as [|x us]; [|destruct H as [H|H]; [discriminate|exact H]].
  unfold SolverBase_Spec.fits_u. simpl. induction (d_nu d); simpl; constructor; auto.
Qed.

Lemma new_cand_fits d : dims_wf d -> fits_c d (new_cand vzero d).
Proof.
  intro W. split; simpl.
  - apply (meant_x_fits d []); auto.
  - apply (meant_u_fits d []); auto.
Qed.

Lemma guess_dec ns vs :
  Forall2 (fun n v => vsize v = n) ns vs \/ ~ Forall2 (fun n v => vsize v = n) ns vs.
Proof.
  rewrite <- (check_iff ns vs _ eq_refl). destruct (_ && _); auto.
Qed.

Lemma valid_dec d xs us : valid_guess vsize d xs us \/ ~ valid_guess vsize d xs us.
Proof.
  unfold valid_guess.
  destruct (guess_dec (d_nx d ++ [d_nxT d]) xs), (guess_dec (d_nu d) us), xs, us;
    unfold SolverBase_Spec.fits_x, SolverBase_Spec.fits_u;
    try (left; split; now auto); right; intros [[|] [|]]; congruence || contradiction.
Qed.

Lemma all_n d : dims_wf d -> d_nx d ++ [d_nxT d] = repeat (d_n d) (length (d_nx d) + 1).
Proof.
  intros (_ & _ & _ & Fn & Et & _). rewrite Et. clear Et.
  induction Fn as [|n l -> _ IH]; simpl; auto. now rewrite IH.
Qed.

Lemma set_xs_spec d xs c :
  dims_wf d ->
  (fits_x d xs -> set_xs vsize d xs c = Ok (Cand xs (c_us c) (c_feas c)) tt) /\
  (~ fits_x d xs -> set_xs vsize d xs c = Throw c).
Proof.
  intro W. unfold SolverBase_Spec.fits_x. rewrite (all_n d W). unfold set_xs.
  pose proof (check_iff (repeat (d_n d) (length (d_nx d) + 1)) xs _ (repeat_length _ _)) as H.
  destruct (_ && _); split; intro F; auto.
  - exfalso. apply F. now apply H.
  - apply H in F. discriminate.
Qed.

Lemma set_us_spec d us c :
  dims_wf d ->
  (fits_u d us -> set_us vsize d us c = Ok (Cand (c_xs c) us (c_feas c)) tt) /\
  (~ fits_u d us -> set_us vsize d us c = Throw c).
Proof.
  intros (Lu & _). unfold SolverBase_Spec.fits_u. unfold set_us.
  pose proof (check_iff (d_nu d) us _ Lu) as H.
  destruct (_ && _); split; intro F; auto.
  - exfalso. apply F. now apply H.
  - apply H in F. discriminate.
Qed.

Lemma cand_step_fits d o c :
  dims_wf d -> fits_c d c -> exists c', out_state (cand_step d o c) = Some c' /\ fits_c d c'.
Proof.
  intros W F. destruct o as [xs us f|xs|us]; simpl.
  - destruct (set_candidate_spec d xs us f c W F) as [H1 H2].
    destruct (valid_dec d xs us) as [Hv|Hv].
    + rewrite H1 by auto. eexists. split; [reflexivity|]. destruct Hv. split; simpl.
      * now apply meant_x_fits.
      * now apply meant_u_fits.
    + destruct (H2 Hv) as (xs' & -> & Hx). eexists. split; [reflexivity|]. destruct F as [Fx Fu].
      split; simpl; auto. destruct Hx as [[Hx ->]|[_ ->]]; auto. now apply meant_x_fits.
  - destruct (set_xs_spec d xs c W) as [H1 H2].
    destruct (guess_dec (d_nx d ++ [d_nxT d]) xs) as [G|G].
    + rewrite H1 by auto. eexists; split; [reflexivity|]. destruct F. split; auto.
    + rewrite H2 by auto. eexists; split; [reflexivity|]. auto.
  - destruct (set_us_spec d us c W) as [H1 H2]. destruct (guess_dec (d_nu d) us) as [G|G].
    + rewrite H1 by auto. eexists; split; [reflexivity|]. destruct F. split; auto.
    + rewrite H2 by auto. eexists; split; [reflexivity|]. auto.
Qed.

Lemma cand_run_fits d os : forall c,
  dims_wf d -> fits_c d c -> exists c', cand_run d os c = Some c' /\ fits_c d c'.
Proof.
  induction os as [|o os IH]; intros c W F; cbn [SolverBase_Model.cand_run]; eauto.
  destruct (cand_step_fits d o c W F) as (c' & -> & F'). now apply IH.
Qed.

Lemma cand_reachable_fits d c : dims_wf d -> cand_reachable vsize vzero d c -> fits_c d c.
Proof.
  intros W [os H]. destruct (cand_run_fits d os (new_cand vzero d) W (new_cand_fits d W)) as (c' & E & F).
  congruence.
Qed.
End Candidate.
