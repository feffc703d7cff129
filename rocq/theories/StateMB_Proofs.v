(** Lemmas for C97. *)
From Coquelicot Require Import Coquelicot.
From Coq Require Import Reals List Arith Bool Lia Lra.
From Verif Require Import Deriv VecMat XFloat State_Model StateMB_Model.
Import ListNotations.
Open Scope list_scope.
Open Scope R_scope.

Section P.
Variable sp : space.
Notation nv := (nv sp).
Notation ndx := (ndx sp).
(** zero between different joints *)
Definition blocky (D : mat) : Prop :=
  forall i j, (i < nv)%nat -> (j < nv)%nat -> joint_of (nvs sp) i <> joint_of (nvs sp) j -> D i j = 0.
(** zero outside of the written entries *)
Definition shape (J : mat) : Prop :=
  forall i j, (i < ndx)%nat -> (j < ndx)%nat -> in_joint sp i j = false -> on_diag sp i j = false -> J i j = 0.

Lemma in_joint_spec i j : in_joint sp i j = true <-> (i < nv)%nat /\ (j < nv)%nat /\ joint_of (nvs sp) i = joint_of (nvs sp) j.
Proof.
unfold in_joint. rewrite !andb_true_iff, Nat.eqb_eq, !Nat.ltb_lt. tauto.
Qed.
Lemma on_diag_spec i j : on_diag sp i j = true <-> (nv <= i)%nat /\ (i < ndx)%nat /\ i = j.
Proof.
unfold on_diag. rewrite !andb_true_iff, Nat.eqb_eq, Nat.ltb_lt, Nat.leb_le. tauto.
Qed.
Lemma on_diag_top i j : (i < nv)%nat -> on_diag sp i j = false.
Proof. intro H. destruct (on_diag sp i j) eqn:E; [|reflexivity]. apply on_diag_spec in E. lia. Qed.
Lemma in_joint_low i j : (nv <= i)%nat \/ (nv <= j)%nat -> in_joint sp i j = false.
Proof. intro H. destruct (in_joint sp i j) eqn:E; [|reflexivity]. apply in_joint_spec in E. lia. Qed.

Lemma shape_zeros : shape zeros.
Proof. intros i j _ _ _ _. reflexivity. Qed.
Lemma shape_write op D c J : shape J -> shape (write sp op D c J).
Proof. intros H i j Hi Hj A B. unfold write. rewrite A, B. now apply H. Qed.
Lemma shape_transport D J : blocky D -> shape J -> shape (transport sp D J).
Proof.
intros B H i j Hi Hj N1 N2. unfold transport. destruct (Nat.ltb_spec i nv) as [L|L]; [|now apply H].
unfold mulm. apply rsum_0. intros k Hk.
destruct (Nat.eq_dec (joint_of (nvs sp) i) (joint_of (nvs sp) k)) as [E|E].
- rewrite (H k j).
  + ring.
  + unfold StateMB_Model.ndx. lia.
  + exact Hj.
  + destruct (in_joint sp k j) eqn:X; [|reflexivity]. apply in_joint_spec in X. destruct X as (_ & Y & Z).
    assert (in_joint sp i j = true) by (apply in_joint_spec; repeat split; [lia|lia|congruence]). congruence.
  + now apply on_diag_top.
- rewrite B by auto. ring.
Qed.

Lemma mulv_write D c J w i : blocky D -> shape J -> (i < ndx)%nat ->
  mulv ndx (write sp setto D c J) w i = if (i <? nv)%nat then mulv nv D w i else c * w i.
Proof.
intros B H Hi. unfold mulv, StateMB_Model.ndx at 1. rewrite rsum_app. destruct (Nat.ltb_spec i nv) as [L|L].
- rewrite (rsum_0 nv (fun j => write sp setto D c J i (nv + j)%nat * w (nv + j)%nat)).
  + rewrite Rplus_0_r. apply rsum_ext. intros j Hj. unfold write.
    destruct (in_joint sp i j) eqn:E; [reflexivity|]. rewrite (on_diag_top i j L).
    rewrite (H i j); [|exact Hi|unfold StateMB_Model.ndx; lia|exact E|now apply on_diag_top].
    rewrite (B i j L Hj); [ring|]. intro X.
    assert (in_joint sp i j = true) by (apply in_joint_spec; auto). congruence.
  + intros j Hj. unfold write. rewrite (in_joint_low i (nv + j)) by lia. rewrite (on_diag_top i _ L).
    rewrite (H i (nv + j)%nat); [ring|exact Hi|unfold StateMB_Model.ndx; lia|apply in_joint_low; lia|now apply on_diag_top].
- rewrite (rsum_0 nv (fun j => write sp setto D c J i j * w j)).
  + rewrite Rplus_0_l. unfold StateMB_Model.ndx in Hi.
    rewrite (rsum_single nv (i - nv)%nat); [|lia|].
    * replace (nv + (i - nv))%nat with i by lia. unfold write. rewrite (in_joint_low i i) by lia.
      replace (on_diag sp i i) with true; [reflexivity|]. symmetry. apply on_diag_spec. unfold StateMB_Model.ndx. lia.
    * intros j Hj N. unfold write. rewrite (in_joint_low i (nv + j)) by lia.
      assert (O : on_diag sp i (nv + j)%nat = false).
      { destruct (on_diag sp i (nv + j)%nat) eqn:E; [|reflexivity]. apply on_diag_spec in E. lia. }
      rewrite O, (H i (nv + j)%nat); [ring|unfold StateMB_Model.ndx; lia|unfold StateMB_Model.ndx; lia|apply in_joint_low; lia|exact O].
  + intros j Hj. unfold write. rewrite (in_joint_low i j) by lia.
    assert (O : on_diag sp i j = false).
    { destruct (on_diag sp i j) eqn:E; [|reflexivity]. apply on_diag_spec in E. lia. }
    rewrite O, (H i j); [ring|exact Hi|unfold StateMB_Model.ndx; lia|apply in_joint_low; lia|exact O].
Qed.

Lemma mulm_write D J i j : blocky D -> (i < ndx)%nat ->
  mulm ndx (write sp setto D 1 zeros) J i j = transport sp D J i j.
Proof.
intros B Hi. change (mulm ndx (write sp setto D 1 zeros) J i j) with (mulv ndx (write sp setto D 1 zeros) (fun k => J k j) i).
rewrite mulv_write; auto using shape_zeros. unfold transport, mulm, mulv. destruct (i <? nv)%nat; [reflexivity|ring].
Qed.

Hypothesis B0 : forall a b, blocky (p_dD0 sp a b) /\ blocky (p_dD1 sp a b).
Hypothesis B1 : forall a b, blocky (p_dI0 sp a b) /\ blocky (p_dI1 sp a b).
Lemma shape_step k J : shape (fst J) -> shape (snd J) -> shape (fst (jstep sp J k)) /\ shape (snd (jstep sp J k)).
Proof.
intros Hf Hs. destruct k as [c x0 x1|c op x dx|c x dx]; cbn [jstep].
- unfold m_Jdiff. cbn [fst snd]. split; [destruct (wants_first c)|destruct (wants_second c)]; auto using shape_write.
- unfold m_Jint. cbn [fst snd]. split; [destruct (wants_first c)|destruct (wants_second c)]; auto using shape_write.
- destruct c; cbn [m_Jtransport fst snd]; auto; (split; [apply shape_transport; [apply B1|auto]|auto]).
Qed.
Lemma shape_run l : shape (fst (jrun sp l)) /\ shape (snd (jrun sp l)).
Proof.
unfold jrun. assert (H : shape (fst (zeros, zeros)) /\ shape (snd (zeros, zeros))) by (split; apply shape_zeros).
revert H. generalize ((zeros, zeros) : mat * mat). induction l as [|k l IH]; intros J [A B]; [now split|].
cbn [fold_left]. apply IH. now apply shape_step.
Qed.
End P.
