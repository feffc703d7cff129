(** Order and arithmetic facts about [xf]. *)
From Coq Require Import QArith Qabs Qround Bool Lqa.
From Verif Require Import XFloat.
Local Open Scope Q_scope.

Lemma xle_fin p q : xle (Fin p) (Fin q) = true <-> p <= q.
Proof. apply Qle_bool_iff. Qed.
Lemma xlt_fin p q : xlt (Fin p) (Fin q) = true <-> p < q.
Proof.
  simpl. rewrite negb_true_iff. split; intro H.
  - apply Qnot_le_lt. intro L. apply Qle_bool_iff in L. congruence.
  - destruct (Qle_bool q p) eqn:E; auto. apply Qle_bool_iff in E. lra.
Qed.
Lemma xlt_fin_false p q : xlt (Fin p) (Fin q) = false <-> q <= p.
Proof. simpl. rewrite negb_false_iff. apply Qle_bool_iff. Qed.
Lemma xle_fin_false p q : xle (Fin p) (Fin q) = false <-> q < p.
Proof.
  split; intro H.
  - apply Qnot_le_lt. intro L. apply xle_fin in L. congruence.
  - destruct (xle (Fin p) (Fin q)) eqn:E; auto. apply xle_fin in E. lra.
Qed.
Lemma xeq_fin p q : xeq (Fin p) (Fin q) = true <-> p == q.
Proof. simpl. apply Qeq_bool_iff. Qed.
#[global] Opaque Qle_bool Qeq_bool.

Ltac xq :=
  repeat match goal with
  | H : xle (Fin _) (Fin _) = true |- _ => apply xle_fin in H
  | H : xlt (Fin _) (Fin _) = true |- _ => apply xlt_fin in H
  | H : xle (Fin _) (Fin _) = false |- _ => apply xle_fin_false in H
  | H : xlt (Fin _) (Fin _) = false |- _ => apply xlt_fin_false in H
  | H : xeq (Fin _) (Fin _) = true |- _ => apply xeq_fin in H
  | |- xle (Fin _) (Fin _) = true => apply xle_fin
  | |- xlt (Fin _) (Fin _) = true => apply xlt_fin
  | |- xle (Fin _) (Fin _) = false => apply xle_fin_false
  | |- xlt (Fin _) (Fin _) = false => apply xlt_fin_false
  | |- xeq (Fin _) (Fin _) = true => apply xeq_fin
  end.

Lemma xle_refl a : is_nan a = false -> xle a a = true.
Proof. destruct a; intro; try discriminate; auto. xq. lra. Qed.
Lemma xle_trans a b c : xle a b = true -> xle b c = true -> xle a c = true.
Proof.
  destruct a, b, c; intros H1 H2; try discriminate; auto. xq. lra.
Qed.
Lemma xlt_le_trans a b c : xlt a b = true -> xle b c = true -> xlt a c = true.
Proof. destruct a, b, c; intros H1 H2; try discriminate; auto. xq. lra. Qed.
Lemma xle_lt_trans a b c : xle a b = true -> xlt b c = true -> xlt a c = true.
Proof. destruct a, b, c; intros H1 H2; try discriminate; auto. xq. lra. Qed.
Lemma xle_nan_l a b : xle a b = true -> is_nan a = false /\ is_nan b = false.
Proof. destruct a, b; try discriminate; auto. Qed.

(** A difference above a nonnegative bound. *)
Lemma xsub_above y a b : xle (Fin 0) y = true -> xlt y (xsub a b) = true -> xlt b a = true.
Proof.
  destruct a as [| | |p], b as [| | |q], y as [| | |r]; intros H1 H2; try discriminate; auto.
  unfold xsub, xopp, xadd in H2. xq. pose proof (Qred_correct (p + - q)). lra.
Qed.

Lemma xmul_nonneg a b :
  xlt (Fin 0) a = true -> xle (Fin 0) b = true ->
  is_nan (xmul a b) = true \/ xle (Fin 0) (xmul a b) = true.
Proof.
  destruct a as [| | |p], b as [| | |q]; intros H1 H2; try discriminate; auto; xq; cbn [xmul].
  - unfold xsgn. destruct (q ?= 0) eqn:E; simpl; auto. apply Qlt_alt in E. lra.
  - unfold xsgn. destruct (p ?= 0) eqn:E; simpl; auto.
    apply Qlt_alt in E. lra.
  - right. apply xle_fin. assert (0 <= p * q) by (apply Qmult_le_0_compat; lra).
    pose proof (Qred_correct (p * q)). lra.
Qed.

Lemma xabs_below_zero a : xlt (xabs a) (Fin 0) = false.
Proof.
  destruct a as [| | |p]; auto. simpl xabs. xq. apply Qabs_nonneg.
Qed.

(** Powers. *)
Fixpoint qpow (q : Q) (n : nat) : Q := match n with O => 1 | S m => q * qpow q m end.
Lemma qpow_pos q n : 0 < q -> 0 < qpow q n.
Proof.
  intro H. induction n; simpl; [lra|]. setoid_replace 0 with (q * 0) by ring.
  apply Qmult_lt_l; auto.
Qed.
Lemma qpow_bernoulli h n : 0 <= h -> 1 + inject_Z (Z.of_nat n) * h <= qpow (1 + h) n.
Proof.
  intro H. induction n as [|n IH].
  - change (inject_Z (Z.of_nat 0)) with 0. cbn [qpow]. lra.
  - rewrite Nat2Z.inj_succ. unfold Z.succ. rewrite inject_Z_plus. cbn [qpow].
    assert (0 <= inject_Z (Z.of_nat n)) as N by (change 0 with (inject_Z 0); rewrite <- Zle_Qle; apply Nat2Z.is_nonneg).
    set (m := inject_Z (Z.of_nat n)) in *. change (inject_Z 1) with 1.
    apply Qle_trans with ((1 + h) * (1 + m * h)).
    + assert (0 <= m * h * h) by (repeat apply Qmult_le_0_compat; auto). lra.
    + apply Qmult_le_l; auto. lra.
Qed.
Lemma qpow_unbounded q M : 1 < q -> exists n, M < qpow q n.
Proof.
  intro H. set (h := q - 1).
  assert (0 < h) as Hh by (unfold h; lra).
  destruct (Qlt_le_dec M 1) as [L|L]; [exists O; simpl; lra|].
  exists (Z.to_nat (Z.succ (Qround.Qceiling (M / h)))).
  set (n := Z.to_nat _).
  assert (M / h < inject_Z (Z.of_nat n)) as B.
  { unfold n. assert (0 <= M / h) as P by (apply Qle_shift_div_l; lra).
    assert (0 <= Qround.Qceiling (M / h))%Z as Pz.
    { rewrite Zle_Qle. eapply Qle_trans; [exact P|apply Qround.Qle_ceiling]. }
    rewrite Z2Nat.id by (apply Z.le_trans with (Qround.Qceiling (M / h)); auto; apply Z.le_succ_diag_r).
    unfold Z.succ. rewrite inject_Z_plus. change (inject_Z 1) with 1.
    assert (M / h <= inject_Z (Qround.Qceiling (M / h))) by apply Qround.Qle_ceiling. lra. }
  assert (M < inject_Z (Z.of_nat n) * h) as B'.
  { apply (Qmult_lt_r _ _ h) in B; auto. rewrite Qmult_comm, Qmult_div_r in B; lra. }
  pose proof (qpow_bernoulli h n) as Be.
  assert (qpow q n == qpow (1 + h) n) as E.
  { assert (q == 1 + h) as Eq by (unfold h; lra). clear - Eq. induction n; simpl; [lra|].
    rewrite IHn, Eq. reflexivity. }
  rewrite E. lra.
Qed.
