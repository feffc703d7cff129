(** * C131: casting an activation model

    Specification: the documented values of [Activation_Spec.value], and what
    calc and calcDiff leave in a data created by the model ([fresh]). *)

From Coq Require Import Reals List Bool Lra Lia FunctionalExtensionality.
From Verif Require Import Deriv Activation_Model Activation_Spec ActCast_Model.
Import ListNotations.
Open Scope R_scope.

(** The threshold a user can change afterwards. *)
Definition alpha_of (a : activation) : option R :=
  match a with
  | Norm2Barrier x _ | FlatLog x | FlatExp x => Some x
  | _ => None
  end.

(** The bounds of a model. *)
Definition bounds_of (a : activation) : option (vec * vec) :=
  match a with
  | Barrier l u | WeightedBarrier l u _ => Some (l, u)
  | _ => None
  end.

(** ** Reachable models *)

Definition sane (n : nat) (m : model) : Prop :=
  match m_act m with
  | Barrier l u | WeightedBarrier l u _ => ordered n l u /\ 0 <= m_beta m <= 1
  | Smooth1Norm e | Smooth2Norm e => 0 <= e
  | _ => True
  end.

Lemma Rltb_false x y : Rltb x y = false <-> y <= x.
Proof. unfold Rltb. destruct (Rlt_dec x y); split; intros; try discriminate; try reflexivity; lra. Qed.

Lemma Rltb_true x y : Rltb x y = true <-> x < y.
Proof. unfold Rltb. destruct (Rlt_dec x y); split; intros; try discriminate; try reflexivity; lra. Qed.

Lemma Rleb_true x y : Rleb x y = true <-> x <= y.
Proof. unfold Rleb. destruct (Rle_dec x y); split; intros; try discriminate; try reflexivity; lra. Qed.

Lemma all_ordered n l u :
  forallb (fun i => Rleb (l i) (u i)) (seq 0 n) = true <-> ordered n l u.
Proof.
  rewrite forallb_forall. split.
  - intros h i hi. apply Rleb_true. apply h. apply in_seq. lia.
  - intros h i hi. apply Rleb_true. apply h. apply in_seq in hi. lia.
Qed.

Lemma mk_some n l u beta b : mk_bounds n l u beta = Some b ->
  0 <= beta <= 1 /\ ordered n l u /\ b_beta b = beta /\
  (forall i, b_lb b i = 1 / 2 * (l i + u i) - beta * (1 / 2 * (u i - l i))) /\
  (forall i, b_ub b i = 1 / 2 * (l i + u i) + beta * (1 / 2 * (u i - l i))).
Proof.
  unfold mk_bounds. intros e.
  destruct (Rltb beta 0) eqn:e1; [discriminate|].
  destruct (Rltb 1 beta) eqn:e2; [discriminate|]. cbn [orb] in e.
  apply Rltb_false in e1. apply Rltb_false in e2.
  destruct (forallb _ _) eqn:e3; [|discriminate]. apply all_ordered in e3.
  injection e as <-. cbn [b_beta b_lb b_ub].
  split; [lra|]. split; [exact e3|]. repeat split.
Qed.

Lemma mk_total n l u beta : 0 <= beta <= 1 -> ordered n l u -> mk_bounds n l u beta <> None.
Proof.
  intros h o. unfold mk_bounds.
  rewrite (proj2 (Rltb_false beta 0)) by lra. rewrite (proj2 (Rltb_false 1 beta)) by lra.
  cbn [orb]. rewrite (proj2 (all_ordered n l u) o). discriminate.
Qed.

Lemma mk_ordered n l u beta b : mk_bounds n l u beta = Some b ->
  ordered n (b_lb b) (b_ub b) /\ 0 <= b_beta b <= 1.
Proof.
  intros e. destruct (mk_some _ _ _ _ _ e) as (h & o & -> & hl & hu).
  split; [|exact h]. intros i hi. rewrite hl, hu. specialize (o i hi). nra.
Qed.

Lemma make_sane n a m : make n a = Some m -> sane n m.
Proof.
  destruct a; cbn [make]; unfold guarded; intros e.
  - injection e as <-. exact I.
  - injection e as <-. exact I.
  - destruct (mk_bounds n lb ub beta) as [b|] eqn:eb; [|discriminate].
    injection e as <-. exact (mk_ordered _ _ _ _ _ eb).
  - destruct (mk_bounds n lb ub beta) as [b|] eqn:eb; [|discriminate].
    injection e as <-. exact (mk_ordered _ _ _ _ _ eb).
  - destruct (Rltb eps 0) eqn:h; [discriminate|]. injection e as <-.
    apply Rltb_false in h. exact h.
  - destruct (Rltb eps 0) eqn:h; [discriminate|]. injection e as <-.
    apply Rltb_false in h. exact h.
  - destruct (Rltb alpha 0); [discriminate|]. injection e as <-. exact I.
  - destruct (Rltb alpha 0); [discriminate|]. injection e as <-. exact I.
  - destruct (Rltb alpha 0); [discriminate|]. injection e as <-. exact I.
Qed.

Lemma step_sane n m o : sane n m -> sane n (mstep n m o).
Proof.
  intros h. destruct m as [a be], o as [w|x|l u b|r d]; unfold sane in *;
    cbn [mstep m_act m_beta] in *.
  - destruct a; exact h.
  - unfold set_alpha. cbn [m_act]. destruct a; cbn [m_act m_beta]; exact h.
  - unfold set_bounds. destruct (mk_bounds n l u b) as [bb|] eqn:e; cbn [m_act m_beta]; [|exact h].
    destruct a; cbn [m_act m_beta]; try exact h; exact (mk_ordered _ _ _ _ _ e).
  - destruct d, a; cbn [calcDiff fst]; exact h.
Qed.

Lemma runs_sane n os : forall m, sane n m -> sane n (mruns n m os).
Proof.
  induction os as [|o os IH]; intros m h; [exact h|]. cbn. apply IH. apply step_sane. exact h.
Qed.

(** ** When the cast succeeds *)

(** After any use of a model, its cast throws exactly when a negative
    threshold was left by set_alpha. *)
Theorem C131_throws : forall n a m0 os,
  make n a = Some m0 ->
  let m := mruns n m0 os in
  act_cast n m = None <-> exists x, alpha_of (m_act m) = Some x /\ x < 0.
Proof.
  intros n a m0 os e m. pose proof (runs_sane n os m0 (make_sane n a m0 e)) as h.
  fold m in h. unfold act_cast. destruct m as [act be]; unfold sane in h; cbn [m_act m_beta] in *.
  destruct act; cbn [make alpha_of]; unfold guarded.
  - split; [discriminate|intros (x & c & _); discriminate].
  - split; [discriminate|intros (x & c & _); discriminate].
  - split; [|intros (x & c & _); discriminate].
    pose proof (mk_total n lb ub be (proj2 h) (proj1 h)) as t.
    destruct (mk_bounds n lb ub be); [discriminate|congruence].
  - split; [|intros (x & c & _); discriminate].
    pose proof (mk_total n lb ub be (proj2 h) (proj1 h)) as t.
    destruct (mk_bounds n lb ub be); [discriminate|congruence].
  - rewrite (proj2 (Rltb_false eps 0) h).
    split; [discriminate|intros (x & c & _); discriminate].
  - rewrite (proj2 (Rltb_false eps 0) h).
    split; [discriminate|intros (x & c & _); discriminate].
  - destruct (Rltb alpha 0) eqn:ha.
    + apply Rltb_true in ha. split; [intros _; exists alpha; split; [reflexivity|exact ha]|reflexivity].
    + apply Rltb_false in ha. split; [discriminate|intros (x & c & hx); injection c as <-; lra].
  - destruct (Rltb alpha 0) eqn:ha.
    + apply Rltb_true in ha. split; [intros _; exists alpha; split; [reflexivity|exact ha]|reflexivity].
    + apply Rltb_false in ha. split; [discriminate|intros (x & c & hx); injection c as <-; lra].
  - destruct (Rltb alpha 0) eqn:ha.
    + apply Rltb_true in ha. split; [intros _; exists alpha; split; [reflexivity|exact ha]|reflexivity].
    + apply Rltb_false in ha. split; [discriminate|intros (x & c & hx); injection c as <-; lra].
Qed.

(** ** What the cast computes *)

Lemma mk_unit n l u b : mk_bounds n l u 1 = Some b -> b_lb b = l /\ b_ub b = u.
Proof.
  intros e. destruct (mk_some _ _ _ _ _ e) as (_ & _ & _ & hl & hu).
  split; apply functional_extensionality; intros i; [rewrite hl|rewrite hu]; field.
Qed.

(** Value, gradient and Hessian of the copy are those of the original at every
    residual, after any use, for every model without bounds or with bounds of
    factor one. *)
Theorem C131_same_partial : forall n a m0 os c r,
  make n a = Some m0 ->
  let m := mruns n m0 os in
  act_cast n m = Some c ->
  (bounds_of (m_act m) <> None -> m_beta m = 1) ->
  a_value (fresh n c r) = a_value (fresh n m r) /\
  Ar (fresh n c r) = Ar (fresh n m r) /\ Arr (fresh n c r) = Arr (fresh n m r).
Proof.
  intros n a m0 os c r _ m e hb. unfold act_cast in e.
  destruct m as [act be]; cbn [m_act m_beta] in *.
  destruct act; cbn [make bounds_of] in *; unfold guarded in e.
  - injection e as <-. repeat split.
  - injection e as <-. unfold fresh. cbn. destruct new_weights; repeat split.
  - rewrite (hb ltac:(discriminate)) in e.
    destruct (mk_bounds n lb ub 1) as [b|] eqn:eb; [|discriminate]. injection e as <-.
    destruct (mk_unit _ _ _ _ eb) as [-> ->]. repeat split.
  - rewrite (hb ltac:(discriminate)) in e.
    destruct (mk_bounds n lb ub 1) as [b|] eqn:eb; [|discriminate]. injection e as <-.
    destruct (mk_unit _ _ _ _ eb) as [-> ->]. repeat split.
  - destruct (Rltb eps 0); [discriminate|]. injection e as <-. repeat split.
  - destruct (Rltb eps 0); [discriminate|]. injection e as <-. repeat split.
  - destruct (Rltb alpha 0); [discriminate|]. injection e as <-. repeat split.
  - destruct (Rltb alpha 0); [discriminate|]. injection e as <-. repeat split.
  - destruct (Rltb alpha 0); [discriminate|]. injection e as <-. repeat split.
Qed.

Lemma excess_tight l u l' u' x : l <= l' -> u' <= u -> l' <= u' ->
  0 <= excess l u x <= excess l' u' x.
Proof.
  intros h1 h2 h3. unfold excess, Rmax.
  repeat match goal with |- context [Rle_dec ?a ?b] => destruct (Rle_dec a b) end; lra.
Qed.

Lemma sq_tight a b : 0 <= a <= b -> sq a / 2 <= sq b / 2.
Proof. intros h. unfold sq. nra. Qed.

Lemma tight n l u beta b i : mk_bounds n l u beta = Some b -> (i < n)%nat ->
  l i <= b_lb b i /\ b_ub b i <= u i /\ b_lb b i <= b_ub b i.
Proof.
  intros e hi. destruct (mk_some _ _ _ _ _ e) as (h & o & _ & hl & hu).
  rewrite hl, hu. specialize (o i hi). nra.
Qed.

Lemma sum_le n f g : (forall i, (i < n)%nat -> f i <= g i) -> rsum n f <= rsum n g.
Proof.
  induction n as [|n IH]; intros h; cbn [rsum]; [lra|].
  specialize (IH (fun i hi => h i ltac:(lia))). specialize (h n ltac:(lia)). lra.
Qed.

(** With any factor, the copy is never more permissive: its value is at least
    the one of the original at every residual. *)
Theorem C131_tighter : forall n a m0 os c r,
  make n a = Some m0 ->
  let m := mruns n m0 os in
  act_cast n m = Some c -> value n (m_act m) r <= value n (m_act c) r.
Proof.
  intros n a m0 os c r _ m e. unfold act_cast in e.
  destruct m as [act be]; cbn [m_act m_beta] in *.
  destruct act; cbn [make] in *; unfold guarded in e.
  - injection e as <-. apply Rle_refl.
  - injection e as <-. apply Rle_refl.
  - destruct (mk_bounds n lb ub be) as [b|] eqn:eb; [|discriminate]. injection e as <-.
    cbn [m_act value]. apply sum_le. intros i hi.
    destruct (tight _ _ _ _ _ i eb hi) as (h1 & h2 & h3).
    apply sq_tight. apply excess_tight; assumption.
  - destruct (mk_bounds n lb ub be) as [b|] eqn:eb; [|discriminate]. injection e as <-.
    cbn [m_act value]. apply sum_le. intros i hi.
    destruct (tight _ _ _ _ _ i eb hi) as (h1 & h2 & h3).
    pose proof (excess_tight _ _ _ _ (r i) h1 h2 h3) as h.
    pose proof (sq_tight _ _ h) as hs. unfold sq in *. pose proof (Rle_0_sqr (w i)) as hw.
    unfold Rsqr in hw. nra.
  - destruct (Rltb eps 0); [discriminate|]. injection e as <-. apply Rle_refl.
  - destruct (Rltb eps 0); [discriminate|]. injection e as <-. apply Rle_refl.
  - destruct (Rltb alpha 0); [discriminate|]. injection e as <-. apply Rle_refl.
  - destruct (Rltb alpha 0); [discriminate|]. injection e as <-. apply Rle_refl.
  - destruct (Rltb alpha 0); [discriminate|]. injection e as <-. apply Rle_refl.
Qed.

Lemma excess_zero l u x : l <= x <= u -> excess l u x = 0.
Proof.
  intros h. unfold excess, Rmax.
  repeat match goal with |- context [Rle_dec ?a ?b] => destruct (Rle_dec a b) end; lra.
Qed.

Lemma sum_pos n f i : (forall j, (j < n)%nat -> 0 <= f j) -> (i < n)%nat -> 0 < f i -> 0 < rsum n f.
Proof.
  induction n as [|n IH]; intros h hi hf; [lia|]. cbn [rsum].
  assert (h0 : 0 <= rsum n f).
  { clear -h. induction n as [|n IH]; cbn [rsum]; [lra|].
    specialize (IH (fun j hj => h j ltac:(lia))). specialize (h n ltac:(lia)). lra. }
  destruct (PeanoNat.Nat.eq_dec i n) as [->|hn]; [lra|].
  specialize (IH (fun j hj => h j ltac:(lia)) ltac:(lia) hf). specialize (h n ltac:(lia)). lra.
Qed.

(** With a factor below one and some room between the bounds it is stricter:
    some admissible residual gets a positive cost from the copy. *)
Theorem C131_barrier_shrinks : forall n a m0 os c l u i,
  make n a = Some m0 ->
  let m := mruns n m0 os in
  m_act m = Barrier l u -> act_cast n m = Some c ->
  m_beta m < 1 -> (i < n)%nat -> l i < u i ->
  exists r, value n (m_act m) r = 0 /\ 0 < value n (m_act c) r.
Proof.
  intros n a m0 os c l u i e0 m hm e hb hi hlu.
  pose proof (runs_sane n os m0 (make_sane n a m0 e0)) as hs. fold m in hs.
  unfold act_cast in e. rewrite hm in e. cbn [make] in e.
  destruct (mk_bounds n l u (m_beta m)) as [b|] eqn:eb; [|discriminate]. injection e as <-.
  unfold sane in hs. rewrite hm in hs. destruct hs as [o hbb].
  exists u. rewrite hm. cbn [m_act value]. split.
  - assert (h : forall k, (k <= n)%nat -> rsum k (fun i => sq (excess (l i) (u i) (u i)) / 2) = 0).
    { induction k as [|k IH]; intros hk; cbn [rsum]; [reflexivity|].
      rewrite IH by lia. rewrite excess_zero by (specialize (o k ltac:(lia)); lra).
      unfold sq. lra. }
    apply h. lia.
  - apply (sum_pos n _ i); [|exact hi|].
    + intros j _. unfold sq.
      pose proof (Rle_0_sqr (excess (b_lb b j) (b_ub b j) (u j))) as h. unfold Rsqr in h. lra.
    + destruct (mk_some _ _ _ _ _ eb) as (_ & _ & _ & hl & hu).
      assert (h : b_ub b i < u i) by (rewrite hu; nra).
      assert (hx : 0 < excess (b_lb b i) (b_ub b i) (u i)).
      { unfold excess, Rmax.
        repeat match goal with |- context [Rle_dec ?a ?b] => destruct (Rle_dec a b) end; lra. }
      unfold sq. nra.
Qed.

(** ** Counterexamples *)

Theorem C131_alpha_refuted :
  exists m0, make 2 (AExp 1) = Some m0 /\ act_cast 2 m0 <> None /\
             act_cast 2 (mruns 2 m0 [OAlpha (-1)]) = None.
Proof.
  assert (h : Rltb 1 0 = false) by (apply Rltb_false; lra).
  assert (h' : Rltb (-1) 0 = true) by (apply Rltb_true; lra).
  exists (Model (FlatExp 1) 1). cbn. unfold guarded. rewrite h, h'.
  split; [reflexivity|]. split; [discriminate|reflexivity].
Qed.

Theorem C131_bounds_refuted :
  exists m0 c, make 1 (ABarrier (fun _ => -2) (fun _ => 2) (1 / 2)) = Some m0 /\
    act_cast 1 m0 = Some c /\
    value 1 (m_act m0) (fun _ => 1) = 0 /\ value 1 (m_act c) (fun _ => 1) = 1 / 8.
Proof.
  assert (hb : Rltb (1 / 2) 0 = false) by (apply Rltb_false; lra).
  assert (hb' : Rltb 1 (1 / 2) = false) by (apply Rltb_false; lra).
  assert (ho : Rleb (-2) 2 = true) by (apply Rleb_true; lra).
  eexists. eexists. split.
  - cbn [make]. unfold mk_bounds. rewrite hb, hb'. cbn [orb seq forallb].
    rewrite ho. cbn [andb]. reflexivity.
  - cbn [act_cast m_act m_beta b_lb b_ub b_beta]. split.
    + unfold act_cast. cbn [m_act m_beta make]. unfold mk_bounds. rewrite hb, hb'.
      cbn [orb seq forallb].
      assert (ho' : Rleb (1 / 2 * (-2 + 2) - 1 / 2 * (1 / 2 * (2 - -2)))
                         (1 / 2 * (-2 + 2) + 1 / 2 * (1 / 2 * (2 - -2))) = true)
        by (apply Rleb_true; lra).
      rewrite ho'. cbn [andb]. reflexivity.
    + cbn [value rsum m_act b_lb b_ub]. unfold sq, excess, Rmax. split;
        repeat match goal with |- context [Rle_dec ?a ?b] => destruct (Rle_dec a b) end; lra.
Qed.

(** Models meeting the hypotheses. *)
Example C131_ex :
  exists m0 c, make 2 (AWeighted (fun _ => 3)) = Some m0 /\
    act_cast 2 (mruns 2 m0 [OWeights (fun _ => 5)]) = Some c /\
    (bounds_of (m_act (mruns 2 m0 [OWeights (fun _ => 5)])) <> None -> m_beta m0 = 1) /\
    Arr (fresh 2 c (fun _ => 1)) 0%nat = 5.
Proof.
  eexists. eexists. split; [reflexivity|]. split; [reflexivity|].
  split; [intros h; reflexivity|]. reflexivity.
Qed.

Print Assumptions C131_throws.
Print Assumptions C131_same_partial.
Print Assumptions C131_tighter.
Print Assumptions C131_barrier_shrinks.
Print Assumptions C131_alpha_refuted.
Print Assumptions C131_bounds_refuted.
