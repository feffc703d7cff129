(** Derivatives of real functions of one real variable: the rules used in the proofs, with
    the carriers fixed to R. *)
From Coq Require Import Reals Lra Lia.
From Coquelicot Require Import Coquelicot.
Open Scope R_scope.

Lemma deq (f : R -> R) (x l l' : R) : is_derive f x l -> l = l' -> is_derive f x l'.
Proof. now intros H <-. Qed.
Lemma dext (f g : R -> R) (x l : R) : (forall t, f t = g t) -> is_derive f x l -> is_derive g x l.
Proof. intros H1 H2. exact (is_derive_ext f g x l H1 H2). Qed.
Lemma dext_near (f g : R -> R) (x l e : R) : 0 < e -> (forall t, Rabs (t - x) < e -> f t = g t) ->
  is_derive f x l -> is_derive g x l.
Proof.
  intros He H1 H2. apply (is_derive_ext_loc f g x l); auto. exists (mkposreal e He). intros y Hy. apply H1. exact Hy.
Qed.
Lemma dconst (c x : R) : is_derive (fun _ : R => c) x 0.
Proof. exact (is_derive_const c x). Qed.
Lemma did (x : R) : is_derive (fun t : R => t) x 1.
Proof. exact (is_derive_id x). Qed.
Lemma dplus (f g : R -> R) (x a b : R) : is_derive f x a -> is_derive g x b -> is_derive (fun t => f t + g t) x (a + b).
Proof. intros H1 H2. exact (is_derive_plus f g x a b H1 H2). Qed.
Lemma dminus (f g : R -> R) (x a b : R) : is_derive f x a -> is_derive g x b -> is_derive (fun t => f t - g t) x (a - b).
Proof. intros H1 H2. exact (is_derive_minus f g x a b H1 H2). Qed.
Lemma dopp (f : R -> R) (x a : R) : is_derive f x a -> is_derive (fun t => - f t) x (- a).
Proof. intros H1. exact (is_derive_opp f x a H1). Qed.
Lemma dmult (f g : R -> R) (x a b : R) : is_derive f x a -> is_derive g x b ->
  is_derive (fun t => f t * g t) x (a * g x + f x * b).
Proof. intros H1 H2. exact (is_derive_mult f g x a b H1 H2 Rmult_comm). Qed.
Lemma dscal (c : R) (f : R -> R) (x a : R) : is_derive f x a -> is_derive (fun t => c * f t) x (c * a).
Proof. intros H1. exact (is_derive_scal f x c a H1). Qed.
Lemma ddiv (f : R -> R) (c : R) (x a : R) : is_derive f x a -> is_derive (fun t => f t / c) x (a / c).
Proof.
  intros H1. apply (dext (fun t => / c * f t)); [intro; unfold Rdiv; ring|].
  apply (deq _ _ (/ c * a)); [now apply dscal|unfold Rdiv; ring].
Qed.
Lemma dcomp (f g : R -> R) (x a b : R) : is_derive f (g x) a -> is_derive g x b ->
  is_derive (fun t => f (g t)) x (a * b).
Proof.
  intros H1 H2. eapply deq. exact (is_derive_comp f g x a b H1 H2).
  unfold scal; simpl; unfold mult; simpl. ring.
Qed.
Lemma dderive (f : R -> R) x l : is_derive f x l -> Derive f x = l.
Proof. apply is_derive_unique. Qed.
Lemma duniq (f : R -> R) x l l' : is_derive f x l -> is_derive f x l' -> l = l'.
Proof. intros H H'. now rewrite <- (dderive _ _ _ H), (dderive _ _ _ H'). Qed.

(** Finite sums indexed by nat. *)
Fixpoint rsum (n : nat) (f : nat -> R) : R :=
  match n with O => 0 | S k => rsum k f + f k end.
Lemma rsum_ext n f g : (forall i, (i < n)%nat -> f i = g i) -> rsum n f = rsum n g.
Proof. induction n; simpl; intro H; auto. rewrite IHn, H; auto. Qed.
Lemma rsum_scal n c f : rsum n (fun i => c * f i) = c * rsum n f.
Proof. induction n; simpl; [ring|rewrite IHn; ring]. Qed.
Lemma rsum_plus n f g : rsum n (fun i => f i + g i) = rsum n f + rsum n g.
Proof. induction n; simpl; [ring|rewrite IHn; ring]. Qed.
Lemma rsum_minus n f g : rsum n (fun i => f i - g i) = rsum n f - rsum n g.
Proof. induction n; simpl; [ring|rewrite IHn; ring]. Qed.
Lemma rsum_ge0 n f : (forall i, (i < n)%nat -> 0 <= f i) -> 0 <= rsum n f.
Proof.
  induction n; simpl; intro H; [lra|].
  assert (0 <= rsum n f) by (apply IHn; auto). specialize (H n). assert (0 <= f n) by (apply H; lia). lra.
Qed.
Lemma rsum_0 n f : (forall i, (i < n)%nat -> f i = 0) -> rsum n f = 0.
Proof. induction n; simpl; intro H; auto. rewrite IHn, H; auto. ring. Qed.
Lemma rsum_single n i f : (i < n)%nat -> (forall j, (j < n)%nat -> j <> i -> f j = 0) -> rsum n f = f i.
Proof.
  induction n; intros Hi H; [lia|]. simpl. destruct (Nat.eq_dec n i) as [->|E].
  - rewrite rsum_0; [ring|]. intros j Hj. apply H; lia.
  - rewrite IHn; [|lia|intros; apply H; lia]. rewrite (H n); [ring|lia|auto].
Qed.
Lemma rsum_split n i f g : (i < n)%nat -> (forall j, (j < n)%nat -> j <> i -> f j = g j) ->
  rsum n f = rsum n g - g i + f i.
Proof.
  intros Hi H. assert (E : rsum n (fun j => f j + -1 * g j) = f i + -1 * g i).
  { rewrite (rsum_single n i); auto. intros j Hj Hn. rewrite (H j Hj Hn). ring. }
  rewrite rsum_plus, rsum_scal in E. lra.
Qed.
Lemma rsum_swap n m (f : nat -> nat -> R) :
  rsum n (fun i => rsum m (fun j => f i j)) = rsum m (fun j => rsum n (fun i => f i j)).
Proof.
  induction n; simpl.
  - symmetry. apply rsum_0. auto.
  - rewrite IHn. rewrite <- rsum_plus. reflexivity.
Qed.
Lemma drsum n (f : nat -> R -> R) (t : R) (f' : nat -> R) :
  (forall i, (i < n)%nat -> is_derive (f i) t (f' i)) ->
  is_derive (fun s => rsum n (fun i => f i s)) t (rsum n f').
Proof.
  induction n; simpl; intro H.
  - apply dconst.
  - apply (dplus (fun s => rsum n (fun i => f i s)) (f n)); auto.
Qed.
