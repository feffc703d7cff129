(** Derivative of the solution of a linear system whose matrix and right-hand side depend on a
    parameter. *)
From Coquelicot Require Import Coquelicot.
From Coq Require Import Reals Arith Lia Lra.
From Verif Require Import Deriv VecMat.
Open Scope R_scope.

Lemma rsum_le n f g : (forall i, (i < n)%nat -> f i <= g i) -> rsum n f <= rsum n g.
Proof.
  intro H. assert (0 <= rsum n (fun i => g i - f i)) as P by (apply rsum_ge0; intros i Hi; specialize (H i Hi); lra).
  rewrite rsum_minus in P. lra.
Qed.
Lemma rsum_abs n f : Rabs (rsum n f) <= rsum n (fun i => Rabs (f i)).
Proof.
  induction n as [|n IH]; cbn [rsum]; [rewrite Rabs_R0; lra|].
  eapply Rle_trans; [apply Rabs_triang|]. lra.
Qed.
Lemma rsum_term n i f : (i < n)%nat -> (forall j, (j < n)%nat -> 0 <= f j) -> f i <= rsum n f.
Proof.
  intros Hi H. rewrite (rsum_split n i f (fun j => if Nat.eqb j i then 0 else f j) Hi).
  - assert (0 <= rsum n (fun j => if Nat.eqb j i then 0 else f j)).
    { apply rsum_ge0. intros j Hj. destruct (Nat.eqb j i); [lra|auto]. }
    rewrite Nat.eqb_refl. lra.
  - intros j Hj ne. now rewrite (proj2 (Nat.eqb_neq j i) ne).
Qed.

(** Epsilon-delta forms. *)
Lemma d_eps f s l : is_derive f s l <->
  forall e, 0 < e -> exists d, 0 < d /\ forall t, Rabs (t - s) < d -> Rabs (f t - f s - l * (t - s)) <= e * Rabs (t - s).
Proof.
  split.
  - intros [_ H] e He. specialize (H s (fun P Q => Q) (mkposreal e He)). destruct H as [d Hd].
    exists d. split; [apply cond_pos|]. intros t Ht. specialize (Hd t Ht).
    unfold norm, minus, plus, opp, scal in Hd; cbn in Hd. unfold abs, mult in Hd; cbn in Hd.
    replace (f t - f s - l * (t - s)) with (f t + - f s + - ((t + - s) * l)) by ring.
    replace (t - s) with (t + - s) by ring. exact Hd.
  - intro H. split; [apply is_linear_scal_l|]. intros x Hx. assert (Ex : s = x) by (apply (@is_filter_lim_locally_unique R_AbsRing R_NormedModule); exact Hx). subst x.
    intro e. destruct (H e (cond_pos e)) as (d & Hd & K). exists (mkposreal d Hd). intros t Ht.
    specialize (K t Ht). unfold norm, minus, plus, opp, scal; cbn. unfold abs, mult; cbn.
    replace (f t + - f s + - ((t + - s) * l)) with (f t - f s - l * (t - s)) by ring.
    replace (t + - s) with (t - s) by ring. exact K.
Qed.
Lemma d_cont f s l : is_derive f s l ->
  forall e, 0 < e -> exists d, 0 < d /\ forall t, Rabs (t - s) < d -> Rabs (f t - f s) <= e.
Proof.
  intros H e He. destruct (proj1 (d_eps f s l) H 1 Rlt_0_1) as (d & Hd & K).
  assert (P : 0 < 1 + Rabs l) by (pose proof (Rabs_pos l); lra).
  exists (Rmin d (e / (1 + Rabs l))). split; [apply Rmin_pos; [assumption|now apply Rdiv_lt_0_compat]|].
  intros t Ht. assert (T1 : Rabs (t - s) < d) by (eapply Rlt_le_trans; [exact Ht|apply Rmin_l]).
  assert (T2 : Rabs (t - s) < e / (1 + Rabs l)) by (eapply Rlt_le_trans; [exact Ht|apply Rmin_r]).
  specialize (K t T1). replace (f t - f s) with (f t - f s - l * (t - s) + l * (t - s)) by ring.
  eapply Rle_trans; [apply Rabs_triang|]. rewrite Rabs_mult.
  apply Rle_trans with ((1 + Rabs l) * Rabs (t - s)); [lra|].
  apply Rmult_lt_compat_l with (r := 1 + Rabs l) in T2; [|assumption]. unfold Rdiv in T2.
  rewrite (Rmult_comm e), <- Rmult_assoc, Rinv_r, Rmult_1_l in T2 by lra. lra.
Qed.
(** A finite number of conditions near [s]. *)
Lemma near_all n (P : nat -> R -> Prop) s :
  (forall i, (i < n)%nat -> exists d, 0 < d /\ forall t, Rabs (t - s) < d -> P i t) ->
  exists d, 0 < d /\ forall t, Rabs (t - s) < d -> forall i, (i < n)%nat -> P i t.
Proof.
  induction n as [|n IH]; intro H; [exists 1; split; [lra|intros; lia]|].
  destruct IH as (d1 & p1 & H1); [intros; apply H; lia|]. destruct (H n) as (d2 & p2 & H2); [lia|].
  exists (Rmin d1 d2). split; [now apply Rmin_pos|]. intros t Ht i Hi.
  assert (Rabs (t - s) < d1) by (eapply Rlt_le_trans; [exact Ht|apply Rmin_l]).
  assert (Rabs (t - s) < d2) by (eapply Rlt_le_trans; [exact Ht|apply Rmin_r]).
  destruct (Nat.eq_dec i n) as [->|]; auto. apply H1; [assumption|lia].
Qed.

Section Implicit.
Variables (n : nat) (K : R -> mat) (K' : mat) (Kinv : mat) (b : R -> vec) (b' : vec) (z : R -> vec) (s d0 : R).
Hypothesis HK : forall i j, (i < n)%nat -> (j < n)%nat -> is_derive (fun t => K t i j) s (K' i j).
Hypothesis Hb : forall i, (i < n)%nat -> is_derive (fun t => b t i) s (b' i).
Hypothesis Hinv : forall i j, (i < n)%nat -> (j < n)%nat -> mulm n Kinv (K s) i j = idm i j.
Hypothesis d0pos : 0 < d0.
Hypothesis Hz : forall t, Rabs (t - s) < d0 -> forall i, (i < n)%nat -> mulv n (K t) (z t) i = b t i.

Let g (t : R) : vec := fun i => b t i - mulv n (K t) (z s) i.
Let g' : vec := fun i => b' i - mulv n K' (z s) i.
Let h (t : R) : vec := mulv n Kinv (g t).
Let E (t : R) : mat := mulm n Kinv (fun i j => K t i j - K s i j).
Let w (t : R) : vec := fun i => z t i - z s i.
Let nrm (x : vec) : R := rsum n (fun i => Rabs (x i)).

Lemma dg i : (i < n)%nat -> is_derive (fun t => g t i) s (g' i).
Proof.
  intro Hi. unfold g, g'. apply dminus; [auto|]. unfold mulv. apply drsum. intros j Hj.
  eapply deq; [apply (dmult (fun t => K t i j) (fun _ => z s j)); [apply HK; assumption|apply dconst]|cbv beta; ring].
Qed.
Lemma dh i : (i < n)%nat -> is_derive (fun t => h t i) s (mulv n Kinv g' i).
Proof. intro Hi. unfold h, mulv. apply drsum. intros j Hj. apply dscal. now apply dg. Qed.
Lemma hs i : h s i = 0.
Proof.
  unfold h, mulv. apply rsum_0. intros j Hj. unfold g. rewrite (Hz s); [ring| |assumption].
  rewrite Rminus_eq_0, Rabs_R0. assumption.
Qed.
Lemma w_eq t i : Rabs (t - s) < d0 -> (i < n)%nat -> w t i = h t i - mulv n (E t) (w t) i.
Proof.
  intros Ht Hi. unfold E. rewrite mulv_mulm. unfold h, mulv at 1 2.
  assert (X : w t i = mulv n Kinv (mulv n (K s) (w t)) i).
  { rewrite <- mulv_mulm. unfold mulv.
    rewrite (rsum_ext n _ (fun j => idm i j * w t j)) by (intros j Hj; now rewrite Hinv). now rewrite rsum_id_l. }
  rewrite X. unfold mulv at 1. rewrite <- rsum_minus. apply rsum_ext. intros j Hj.
  rewrite <- Rmult_minus_distr_l. f_equal. unfold g. rewrite <- (Hz t Ht j Hj). unfold mulv.
  rewrite <- !rsum_minus. apply rsum_ext. intros l Hl. unfold w. ring.
Qed.
Lemma E_small e : 0 < e -> exists d, 0 < d /\ forall t, Rabs (t - s) < d -> forall i j, (i < n)%nat -> (j < n)%nat -> Rabs (E t i j) <= e.
Proof.
  intro He.
  set (c := 1 + rsum n (fun i => rsum n (fun j => Rabs (Kinv i j)))).
  assert (cp : 0 < c).
  { assert (0 <= rsum n (fun i => rsum n (fun j => Rabs (Kinv i j)))); [|unfold c; lra].
    apply rsum_ge0. intros. apply rsum_ge0. intros. apply Rabs_pos. }
  destruct (near_all n (fun i t => forall j, (j < n)%nat -> Rabs (K t i j - K s i j) <= e / c) s) as (d & dp & H).
  { intros i Hi. destruct (near_all n (fun j t => Rabs (K t i j - K s i j) <= e / c) s) as (d & dp & H).
    - intros j Hj. apply (d_cont (fun t => K t i j) s (K' i j)); [auto|]. now apply Rdiv_lt_0_compat.
    - exists d. auto. }
  exists d. split; [assumption|]. intros t Ht i j Hi Hj. unfold E, mulm.
  eapply Rle_trans; [apply rsum_abs|].
  eapply Rle_trans; [apply (rsum_le n _ (fun l => e / c * Rabs (Kinv i l)))|].
  { intros l Hl. rewrite Rabs_mult, Rmult_comm. apply Rmult_le_compat_r; [apply Rabs_pos|]. now apply H. }
  rewrite rsum_scal. apply Rle_trans with (e / c * c).
  - apply Rmult_le_compat_l; [apply Rlt_le; now apply Rdiv_lt_0_compat|].
    assert (rsum n (fun l => Rabs (Kinv i l)) <= rsum n (fun i => rsum n (fun j => Rabs (Kinv i j)))).
    { apply (rsum_term n i (fun i => rsum n (fun j => Rabs (Kinv i j)))); [assumption|]. intros. apply rsum_ge0. intros. apply Rabs_pos. }
    unfold c. lra.
  - right. unfold Rdiv. rewrite Rmult_assoc, Rinv_l; lra.
Qed.
Lemma Ew_small t e i : 0 <= e -> (forall i j, (i < n)%nat -> (j < n)%nat -> Rabs (E t i j) <= e) -> (i < n)%nat ->
  Rabs (mulv n (E t) (w t) i) <= e * nrm (w t).
Proof.
  intros He H Hi. unfold mulv, nrm. eapply Rle_trans; [apply rsum_abs|]. rewrite <- rsum_scal. apply rsum_le. intros j Hj.
  rewrite Rabs_mult. apply Rmult_le_compat_r; [apply Rabs_pos|]. auto.
Qed.
Lemma w_small t e : Rabs (t - s) < d0 -> 0 <= e -> INR n * e <= / 2 ->
  (forall i j, (i < n)%nat -> (j < n)%nat -> Rabs (E t i j) <= e) -> nrm (w t) <= 2 * nrm (h t).
Proof.
  intros Ht He Hn H.
  assert (X : nrm (w t) <= nrm (h t) + INR n * e * nrm (w t)).
  { unfold nrm at 1. apply Rle_trans with (rsum n (fun i => Rabs (h t i) + e * nrm (w t))).
    - apply rsum_le. intros i Hi. rewrite (w_eq t i Ht Hi). unfold Rminus. eapply Rle_trans; [apply Rabs_triang|].
      rewrite Rabs_Ropp. apply Rplus_le_compat_l. now apply Ew_small.
    - rewrite rsum_plus. apply Rplus_le_compat_l. right. rewrite Rmult_assoc. generalize (e * nrm (w t)). intro r.
      clear. induction n as [|m IH]; [cbn; ring|]. rewrite S_INR. cbn [rsum]. rewrite IH. ring. }
  assert (P : 0 <= nrm (w t)) by (apply rsum_ge0; intros; apply Rabs_pos).
  assert (INR n * e * nrm (w t) <= / 2 * nrm (w t)) by (now apply Rmult_le_compat_r). lra.
Qed.

Theorem implicit_derivative i : (i < n)%nat -> is_derive (fun t => z t i) s (mulv n Kinv g' i).
Proof.
  intro Hi. apply d_eps. intros e He.
  set (hb := 1 + rsum n (fun i => Rabs (mulv n Kinv g' i))).
  assert (hbp : 0 < hb).
  { assert (0 <= rsum n (fun i => Rabs (mulv n Kinv g' i))); [|unfold hb; lra]. apply rsum_ge0. intros. apply Rabs_pos. }
  (* |h t| <= hb |t - s| *)
  assert (np : 0 <= INR n) by apply pos_INR.
  assert (H1 : exists d, 0 < d /\ forall t, Rabs (t - s) < d -> nrm (h t) <= hb * Rabs (t - s)).
  { destruct (near_all n (fun i t => Rabs (h t i) <= Rabs (mulv n Kinv g' i) * Rabs (t - s) + / (INR n + 1) * Rabs (t - s)) s) as (d & dp & H).
    - intros j Hj. destruct (proj1 (d_eps _ _ _) (dh j Hj) (/ (INR n + 1))) as (d & dp & H); [apply Rinv_0_lt_compat; lra|].
      exists d. split; [assumption|]. intros t Ht. specialize (H t Ht). rewrite hs in H.
      replace (h t j) with (h t j - 0 - mulv n Kinv g' j * (t - s) + mulv n Kinv g' j * (t - s)) by ring.
      eapply Rle_trans; [apply Rabs_triang|]. rewrite Rabs_mult. lra.
    - exists d. split; [assumption|]. intros t Ht. unfold nrm.
      eapply Rle_trans; [apply rsum_le; intros; apply H; assumption|]. rewrite rsum_plus.
      rewrite (rsum_ext n (fun i => Rabs (mulv n Kinv g' i) * Rabs (t - s)) (fun i => Rabs (t - s) * Rabs (mulv n Kinv g' i))) by (intros; ring).
      rewrite rsum_scal. unfold hb. rewrite Rmult_plus_distr_r, (Rmult_comm (rsum _ _)).
      rewrite Rplus_comm. apply Rplus_le_compat_r.
      assert (S : rsum n (fun _ => / (INR n + 1) * Rabs (t - s)) = INR n * (/ (INR n + 1) * Rabs (t - s))).
      { generalize (/ (INR n + 1) * Rabs (t - s)). intro r. clear. induction n as [|m IH]; [cbn; ring|].
        rewrite S_INR. cbn [rsum]. rewrite IH. ring. }
      rewrite S, <- Rmult_assoc. apply Rmult_le_compat_r; [apply Rabs_pos|].
      apply Rmult_le_reg_r with (INR n + 1); [lra|]. rewrite Rmult_assoc, Rinv_l; lra. }
  destruct H1 as (d1 & p1 & H1).
  destruct (proj1 (d_eps _ _ _) (dh i Hi) (e / 2)) as (d2 & p2 & H2); [lra|].
  set (e1 := Rmin (/ (2 * (INR n + 1))) (e / (4 * hb))).
  assert (e1p : 0 < e1).
  { apply Rmin_pos; [apply Rinv_0_lt_compat; lra|apply Rdiv_lt_0_compat; lra]. }
  destruct (E_small e1 e1p) as (d3 & p3 & H3).
  exists (Rmin (Rmin d0 d1) (Rmin d2 d3)). split; [now repeat apply Rmin_pos|]. intros t Ht.
  assert (T0 : Rabs (t - s) < d0) by (eapply Rlt_le_trans; [exact Ht|eapply Rle_trans; [apply Rmin_l|apply Rmin_l]]).
  assert (T1 : Rabs (t - s) < d1) by (eapply Rlt_le_trans; [exact Ht|eapply Rle_trans; [apply Rmin_l|apply Rmin_r]]).
  assert (T2 : Rabs (t - s) < d2) by (eapply Rlt_le_trans; [exact Ht|eapply Rle_trans; [apply Rmin_r|apply Rmin_l]]).
  assert (T3 : Rabs (t - s) < d3) by (eapply Rlt_le_trans; [exact Ht|eapply Rle_trans; [apply Rmin_r|apply Rmin_r]]).
  specialize (H1 t T1). specialize (H2 t T2). specialize (H3 t T3). rewrite hs in H2.
  assert (W : nrm (w t) <= 2 * nrm (h t)).
  { apply (w_small t e1); auto; [lra|]. apply Rle_trans with (INR n * / (2 * (INR n + 1))).
    - apply Rmult_le_compat_l; [assumption|apply Rmin_l].
    - apply Rmult_le_reg_r with (2 * (INR n + 1)); [lra|]. rewrite Rmult_assoc, Rinv_l; lra. }
  assert (Q : Rabs (mulv n (E t) (w t) i) <= e / 2 * Rabs (t - s)).
  { eapply Rle_trans; [apply (Ew_small t e1 i); [lra|assumption|assumption]|].
    apply Rle_trans with (e / (4 * hb) * (2 * (hb * Rabs (t - s)))).
    - apply Rmult_le_compat; [lra|apply rsum_ge0; intros; apply Rabs_pos|apply Rmin_r|lra].
    - right. field. lra. }
  change (z t i - z s i) with (w t i). rewrite (w_eq t i T0 Hi).
  replace (h t i - mulv n (E t) (w t) i - mulv n Kinv g' i * (t - s))
    with (h t i - 0 - mulv n Kinv g' i * (t - s) + - mulv n (E t) (w t) i) by ring.
  eapply Rle_trans; [apply Rabs_triang|]. rewrite Rabs_Ropp. lra.
Qed.
End Implicit.
