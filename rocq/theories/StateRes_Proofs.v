(** Lemmas for C96. *)
From Coquelicot Require Import Coquelicot.
From Coq Require Import Reals List Arith Bool Lia Lra.
From Verif Require Import Deriv VecMat State_Model StateMB_Model StateMB_Proofs Residual_Model StateRes_Model.
Import ListNotations.
Open Scope list_scope.
Open Scope R_scope.

Lemma inb_spec o n i : inb o n i = true <-> (o <= i < o + n)%nat.
Proof. unfold inb. rewrite andb_true_iff, Nat.leb_le, Nat.ltb_lt. lia. Qed.
Lemma inb_out o n i : ~ (o <= i < o + n)%nat -> inb o n i = false.
Proof. intro H. destruct (inb o n i) eqn:E; [|reflexivity]. apply inb_spec in E. contradiction. Qed.
Lemma joint_head n l i : (i < n)%nat -> joint_of (n :: l) i = 0%nat.
Proof. intro H. cbn [joint_of]. now replace (i <? n)%nat with true by (symmetry; now apply Nat.ltb_lt). Qed.
Lemma joint_tail n l i : joint_of (n :: l) (n + i) = S (joint_of l i).
Proof.
cbn [joint_of]. replace (n + i <? n)%nat with false by (symmetry; apply Nat.ltb_ge; lia).
now replace (n + i - n)%nat with i by lia.
Qed.

Lemma fold_seg Rx Ar l : forall o L,
  (forall k i, (k < total_nv l)%nat -> (i < total_nv l)%nat -> joint_of l k <> joint_of l i -> Rx (o + k)%nat (o + i)%nat = 0) ->
  forall i, fold_left (fun L b => seg Rx Ar b L) (blocks o l) L i =
    if inb o (total_nv l) i then rsum (total_nv l) (fun k => Rx (o + k)%nat i * Ar (o + k)%nat) else L i.
Proof.
induction l as [|n l IH]; intros o L H i; cbn [blocks fold_left].
- cbn [total_nv fold_right]. now rewrite inb_out by lia.
- rewrite IH.
  2:{ intros k j Hk Hj N. rewrite <- !Nat.add_assoc. apply H; cbn [total_nv fold_right]; fold (total_nv l); [lia|lia|].
      rewrite !joint_tail. congruence. }
  change (total_nv (n :: l)) with (n + total_nv l)%nat. rewrite rsum_app.
  destruct (inb (o + n) (total_nv l) i) eqn:E.
  + apply inb_spec in E. replace (inb o (n + total_nv l) i) with true by (symmetry; apply inb_spec; lia).
    rewrite (rsum_0 n).
    * rewrite Rplus_0_l. apply rsum_ext. intros k Hk. now rewrite Nat.add_assoc.
    * intros k Hk. replace i with (o + (i - o))%nat by lia. rewrite H; [ring|..].
      -- change (total_nv (n :: l)) with (n + total_nv l)%nat. lia.
      -- change (total_nv (n :: l)) with (n + total_nv l)%nat. lia.
      -- rewrite joint_head by exact Hk. replace (i - o)%nat with (n + (i - o - n))%nat by lia. rewrite joint_tail. discriminate.
  + unfold seg at 1. cbn [fst snd]. destruct (inb o n i) eqn:F.
    * apply inb_spec in F. replace (inb o (n + total_nv l) i) with true by (symmetry; apply inb_spec; lia).
      rewrite (rsum_0 (total_nv l)); [ring|]. intros k Hk. replace i with (o + (i - o))%nat by lia. rewrite H; [ring|..].
      -- change (total_nv (n :: l)) with (n + total_nv l)%nat. lia.
      -- change (total_nv (n :: l)) with (n + total_nv l)%nat. lia.
      -- rewrite joint_tail, joint_head by lia. discriminate.
    * rewrite inb_out; [reflexivity|]. intro X.
      assert (Y : inb o n i = true \/ inb (o + n) (total_nv l) i = true) by (rewrite !inb_spec; lia). destruct Y; congruence.
Qed.

Lemma fold_blk Rx Arr l : forall o L,
  (forall k i, (k < total_nv l)%nat -> (i < total_nv l)%nat -> joint_of l k <> joint_of l i -> Rx (o + k)%nat (o + i)%nat = 0) ->
  forall i j, fold_left (fun L b => blk Rx Arr b L) (blocks o l) L i j =
    if inb o (total_nv l) i && inb o (total_nv l) j && Nat.eqb (joint_of l (i - o)) (joint_of l (j - o))
    then rsum (total_nv l) (fun k => Rx (o + k)%nat i * Arr (o + k)%nat * Rx (o + k)%nat j) else L i j.
Proof.
induction l as [|n l IH]; intros o L H i j; cbn [blocks fold_left].
- cbn [total_nv fold_right]. now rewrite inb_out by lia.
- rewrite IH.
  2:{ intros k c Hk Hc N. rewrite <- !Nat.add_assoc. apply H; cbn [total_nv fold_right]; fold (total_nv l); [lia|lia|].
      rewrite !joint_tail. congruence. }
  change (total_nv (n :: l)) with (n + total_nv l)%nat. rewrite rsum_app.
  assert (T : forall m, inb o n m = true \/ inb (o + n) (total_nv l) m = true \/
     (inb o n m = false /\ inb (o + n) (total_nv l) m = false /\ inb o (n + total_nv l) m = false)).
  { intro m. destruct (inb o n m) eqn:E1; [auto|]. destruct (inb (o + n) (total_nv l) m) eqn:E2; [auto|].
    right. right. repeat split. apply inb_out. intro X.
    assert (Y : inb o n m = true \/ inb (o + n) (total_nv l) m = true) by (rewrite !inb_spec; lia). destruct Y; congruence. }
  assert (Ex : forall m, inb o n m = true -> inb (o + n) (total_nv l) m = false /\ inb o (n + total_nv l) m = true /\ joint_of (n :: l) (m - o) = 0%nat).
  { intros m E. apply inb_spec in E. split; [apply inb_out; lia|]. split; [apply inb_spec; lia|]. apply joint_head. lia. }
  assert (Ey : forall m, inb (o + n) (total_nv l) m = true -> inb o n m = false /\ inb o (n + total_nv l) m = true /\
     joint_of (n :: l) (m - o) = S (joint_of l (m - (o + n)))).
  { intros m E. apply inb_spec in E. split; [apply inb_out; lia|]. split; [apply inb_spec; lia|].
    replace (m - o)%nat with (n + (m - (o + n)))%nat by lia. apply joint_tail. }
  unfold blk at 1. cbn [fst snd].
  destruct (T i) as [Hi|[Hi|(Hi1 & Hi2 & Hi3)]].
  + destruct (Ex i Hi) as (Ai & Bi & Ci). rewrite Hi, Ai, Bi, Ci. cbn [andb].
    destruct (T j) as [Hj|[Hj|(Hj1 & Hj2 & Hj3)]].
    * destruct (Ex j Hj) as (Aj & Bj & Cj). rewrite Hj, Bj, Cj. cbn [andb Nat.eqb].
      rewrite (rsum_0 (total_nv l)); [ring|]. intros k Hk. apply inb_spec in Hi. replace i with (o + (i - o))%nat by lia.
      rewrite H; [ring|..].
      -- change (total_nv (n :: l)) with (n + total_nv l)%nat. lia.
      -- change (total_nv (n :: l)) with (n + total_nv l)%nat. lia.
      -- rewrite joint_tail, Ci. discriminate.
    * destruct (Ey j Hj) as (Aj & Bj & Cj). rewrite Aj, Bj, Cj. reflexivity.
    * now rewrite Hj1, Hj3.
  + destruct (Ey i Hi) as (Ai & Bi & Ci). rewrite Hi, Ai, Bi, Ci. cbn [andb].
    destruct (T j) as [Hj|[Hj|(Hj1 & Hj2 & Hj3)]].
    * destruct (Ex j Hj) as (Aj & Bj & Cj). rewrite Aj, Bj, Cj. reflexivity.
    * destruct (Ey j Hj) as (Aj & Bj & Cj). rewrite Hj, Bj, Cj. cbn [andb Nat.eqb].
      destruct (Nat.eqb (joint_of l (i - (o + n))) (joint_of l (j - (o + n)))); [|reflexivity].
      rewrite (rsum_0 n).
      -- rewrite Rplus_0_l. apply rsum_ext. intros k Hk. now rewrite Nat.add_assoc.
      -- intros k Hk. apply inb_spec in Hi. replace i with (o + (i - o))%nat by lia. rewrite H; [ring|..].
         ++ change (total_nv (n :: l)) with (n + total_nv l)%nat. lia.
         ++ change (total_nv (n :: l)) with (n + total_nv l)%nat. lia.
         ++ rewrite joint_head by exact Hk. rewrite Ci. discriminate.
    * now rewrite Hj2, Hj3.
  + now rewrite Hi1, Hi2, Hi3.
Qed.

(** ** Multibody states *)
Section MB.
Variables (sp : space) (a : amodel).
Let st := of_multibody sp.
Hypothesis B : forall p q, blocky sp (p_dD1 sp p q).

Definition gnv (N : nat) (J : mat) (g : vec) : vec := fun i => rsum N (fun k => J k i * g k).
Definition gnm (N : nat) (J : mat) (h : vec) : mat := fun i j => rsum N (fun k => J k i * h k * J k j).

Lemma half : (ndx sp / 2)%nat = nv sp.
Proof. unfold ndx. replace (nv sp + nv sp)%nat with (nv sp * 2)%nat by lia. now rewrite Nat.div_mul by lia. Qed.

Lemma col_write D J k i : blocky sp D -> shape sp J -> (k < ndx sp)%nat -> (i < ndx sp)%nat ->
  write sp setto D 1 J k i =
    if (k <? nv sp)%nat then (if (i <? nv sp)%nat then D k i else 0) else (if Nat.eqb k i then 1 else 0).
Proof.
intros HD HJ Hk Hi. unfold write. destruct (in_joint sp k i) eqn:E.
- pose proof E as E'. apply in_joint_spec in E'. destruct E' as (P1 & P2 & _).
  apply Nat.ltb_lt in P1, P2. now rewrite P1, P2.
- destruct (on_diag sp k i) eqn:O.
  + apply on_diag_spec in O. destruct O as (P1 & P2 & ->). rewrite Nat.eqb_refl.
    now replace (i <? nv sp)%nat with false by (symmetry; apply Nat.ltb_ge; lia).
  + rewrite (HJ k i) by auto. destruct (Nat.ltb_spec k (nv sp)) as [L|L].
    * destruct (Nat.ltb_spec i (nv sp)) as [L'|L']; [|reflexivity]. symmetry. apply HD; auto. intro X.
      assert (in_joint sp k i = true) by (apply in_joint_spec; auto). congruence.
    * destruct (Nat.eqb_spec k i) as [->|NE]; [|reflexivity].
      assert (on_diag sp i i = true) by (apply on_diag_spec; auto). congruence.
Qed.

(** The data stays zero outside of the blocks. *)
Definition sok (d : scdata) : Prop := shape sp (s_Rx d) /\ shape sp (s_Lxx d) /\ s_Lu d = z1 /\ s_Lxu d = z2 /\ s_Luu d = z2.

Section Diff.
Variables (xref x : mstate sp) (d : scdata).
Hypothesis OK : sok d.
Let d' := sc_diff st a xref x d.
Let Rx := s_Rx d'.
Lemma Rx_eq : Rx = write sp setto (p_dD1 sp (fst xref) (fst x)) 1 (s_Rx d).
Proof. reflexivity. Qed.
Lemma Rx_col k i : (k < ndx sp)%nat -> (i < ndx sp)%nat -> Rx k i =
    if (k <? nv sp)%nat then (if (i <? nv sp)%nat then p_dD1 sp (fst xref) (fst x) k i else 0) else (if Nat.eqb k i then 1 else 0).
Proof. rewrite Rx_eq. destruct OK as (A & _). intros. apply col_write; auto. Qed.
Lemma Rx_block k i : (k < nv sp)%nat -> (i < nv sp)%nat -> joint_of (nvs sp) k <> joint_of (nvs sp) i -> Rx k i = 0.
Proof.
intros Hk Hi N. rewrite Rx_col by (unfold ndx; lia).
replace (k <? nv sp)%nat with true by (symmetry; now apply Nat.ltb_lt). replace (i <? nv sp)%nat with true by (symmetry; now apply Nat.ltb_lt).
now apply B.
Qed.
Lemma sum_head i (f : nat -> R) : (i < nv sp)%nat ->
  rsum (ndx sp) (fun k => Rx k i * f k) = rsum (nv sp) (fun k => Rx k i * f k).
Proof.
intro Hi. unfold ndx. rewrite rsum_app. rewrite (rsum_0 _ (fun k => Rx (nv sp + k)%nat i * f (nv sp + k)%nat)); [ring|].
intros k Hk. rewrite Rx_col by (unfold ndx; lia). replace (nv sp + k <? nv sp)%nat with false by (symmetry; apply Nat.ltb_ge; lia).
replace (Nat.eqb (nv sp + k) i) with false by (symmetry; apply Nat.eqb_neq; lia). ring.
Qed.
Lemma sum_tail i (f : nat -> R) : (nv sp <= i < ndx sp)%nat ->
  rsum (ndx sp) (fun k => Rx k i * f k) = f i.
Proof.
intro Hi. rewrite (rsum_single _ i).
2: lia.
2:{ intros j Hj N. rewrite Rx_col by lia. destruct (j <? nv sp)%nat.
  - replace (i <? nv sp)%nat with false by (symmetry; apply Nat.ltb_ge; lia). ring.
  - replace (Nat.eqb j i) with false by (symmetry; now apply Nat.eqb_neq). ring. }
rewrite Rx_col by lia. replace (i <? nv sp)%nat with false by (symmetry; apply Nat.ltb_ge; lia). rewrite Nat.eqb_refl. ring.
Qed.

Lemma Lx_ok i : (i < ndx sp)%nat -> s_Lx d' i = gnv (ndx sp) Rx (a_grad a (s_r d)) i.
Proof.
intro Hi. unfold gnv. cbn [d' sc_diff st of_multibody a_pin s_Lx a_ndx]. rewrite half. unfold tail_v.
replace (ndx sp - nv sp)%nat with (nv sp) by (unfold ndx; lia).
fold st. fold d'. destruct (Nat.leb_spec (nv sp) i) as [L|L].
- now rewrite sum_tail by lia.
- rewrite sum_head by lia.
  change (a_Jdiff st xref x (s_Rx d)) with Rx.
  pose proof (fold_seg Rx (a_grad a (s_r d)) (nvs sp) 0 (s_Lx d)) as F. cbn [Nat.add] in F.
  specialize (F Rx_block i). fold (nv sp) in F. rewrite F.
  now replace (inb 0 (nv sp) i) with true by (symmetry; apply inb_spec; lia).
Qed.
Lemma Lxx_ok i j : (i < ndx sp)%nat -> (j < ndx sp)%nat -> s_Lxx d' i j = gnm (ndx sp) Rx (a_hess a (s_r d)) i j.
Proof.
intros Hi Hj. destruct OK as (_ & SL & _). unfold gnm. cbn [d' sc_diff st of_multibody a_pin s_Lxx a_ndx]. rewrite half. unfold tail_d.
replace (ndx sp - nv sp)%nat with (nv sp) by (unfold ndx; lia).
fold st. fold d'. change (a_Jdiff st xref x (s_Rx d)) with Rx.
pose proof (fold_blk Rx (a_hess a (s_r d)) (nvs sp) 0 (s_Lxx d)) as F. cbn [Nat.add] in F.
specialize (F Rx_block i j). fold (nv sp) in F. rewrite F. rewrite !Nat.sub_0_r. clear F.
rewrite (rsum_ext (ndx sp) _ (fun k => Rx k i * (a_hess a (s_r d) k * Rx k j))) by (intros; ring).
destruct (Nat.leb_spec (nv sp) i) as [L|L].
- cbn [andb]. rewrite (inb_out 0 (nv sp) i) by lia. cbn [andb]. rewrite (sum_tail i (fun k => a_hess a (s_r d) k * Rx k j)) by lia.
  rewrite Rx_col by lia. replace (i <? nv sp)%nat with false by (symmetry; apply Nat.ltb_ge; lia).
  destruct (Nat.eqb_spec i j) as [->|NE]; [ring|].
  rewrite (SL i j); auto; [ring|apply in_joint_low; lia|].
  destruct (on_diag sp i j) eqn:O; [|reflexivity]. apply on_diag_spec in O. lia.
- cbn [andb]. replace (inb 0 (nv sp) i) with true by (symmetry; apply inb_spec; lia). cbn [andb].
  rewrite (sum_head i (fun k => a_hess a (s_r d) k * Rx k j)) by lia.
  destruct (inb 0 (nv sp) j) eqn:Ej.
  + apply inb_spec in Ej. cbn [andb]. destruct (Nat.eqb_spec (joint_of (nvs sp) i) (joint_of (nvs sp) j)) as [E|E].
    * apply rsum_ext. intros; ring.
    * rewrite (SL i j); auto.
      -- symmetry. apply rsum_0. intros k Hk. destruct (Nat.eq_dec (joint_of (nvs sp) k) (joint_of (nvs sp) i)) as [E'|E'].
         ++ rewrite (Rx_block k j) by (try lia; congruence). ring.
         ++ rewrite (Rx_block k i) by (try lia; congruence). ring.
      -- destruct (in_joint sp i j) eqn:X; [|reflexivity]. apply in_joint_spec in X. tauto.
      -- now apply on_diag_top.
  + cbn [andb]. assert (nv sp <= j)%nat by (destruct (Nat.le_gt_cases (nv sp) j); [assumption|]; assert (inb 0 (nv sp) j = true) by (apply inb_spec; lia); congruence).
    rewrite (SL i j); auto; [|apply in_joint_low; lia|now apply on_diag_top].
    symmetry. apply rsum_0. intros k Hk. rewrite (Rx_col k j) by (unfold ndx in *; lia).
    replace (k <? nv sp)%nat with true by (symmetry; apply Nat.ltb_lt; lia).
    replace (j <? nv sp)%nat with false by (symmetry; apply Nat.ltb_ge; lia). ring.
Qed.
Lemma sok_diff : sok d'.
Proof.
destruct OK as (S1 & S2 & S3 & S4 & S5). split; [|split; [|split; [|split]]]; try assumption.
- exact (shape_write sp setto (p_dD1 sp (fst xref) (fst x)) 1 (s_Rx d) S1).
- intros i j Hi Hj A1 A2. rewrite Lxx_ok by auto. unfold gnm. apply rsum_0. intros k Hk.
  rewrite (Rx_col k i), (Rx_col k j) by auto.
  destruct (Nat.ltb_spec k (nv sp)) as [Lk|Lk].
  + destruct (Nat.ltb_spec i (nv sp)) as [Li|Li]; [|ring]. destruct (Nat.ltb_spec j (nv sp)) as [Lj|Lj]; [|ring].
    destruct (Nat.eq_dec (joint_of (nvs sp) k) (joint_of (nvs sp) i)) as [E'|E'].
    * rewrite (B _ _ k j); auto; [ring|]. intro E. assert (in_joint sp i j = true) by (apply in_joint_spec; repeat split; auto; congruence). congruence.
    * rewrite (B _ _ k i); auto. ring.
  + destruct (Nat.eqb_spec k i) as [->|N1]; [|ring]. destruct (Nat.eqb_spec i j) as [->|N2]; [|ring].
    assert (on_diag sp j j = true) by (apply on_diag_spec; auto). congruence.
Qed.
End Diff.
Lemma sok_step w o : sok (snd w) -> sok (snd (sc_step st a w o)).
Proof.
intro H. destruct o as [x|x|r]; cbn [sc_step snd]; [|now apply sok_diff|exact H].
destruct H as (S1 & S2 & S3 & S4 & S5). now repeat split.
Qed.
Lemma sok_run xref l : sok (snd (sc_run st a xref l)).
Proof.
unfold sc_run. assert (H : sok (snd (xref, sc_create))).
{ repeat split; intros i j _ _ _ _; reflexivity. }
revert H. generalize ((xref, sc_create) : pt st * scdata). induction l as [|o l IH]; intros w H; [exact H|].
cbn [fold_left]. apply IH. now apply sok_step.
Qed.
End MB.

(** ** States with the identity as Jdiff *)
Section Vec.
Variables (n : nat) (a : amodel).
Let st := of_vector n.
Definition vok (d : scdata) : Prop := (forall i j, i <> j -> s_Lxx d i j = 0) /\ s_Lu d = z1 /\ s_Lxu d = z2 /\ s_Luu d = z2.
Lemma vok_run xref l : vok (snd (sc_run st a xref l)).
Proof.
unfold sc_run. assert (H : vok (snd ((xref : pt st), sc_create))) by (repeat split; reflexivity).
revert H. generalize ((xref, sc_create) : pt st * scdata). induction l as [|o l IH]; intros w H; [exact H|].
cbn [fold_left]. apply IH. destruct H as (A & B & C & D). destruct o as [x|x|r]; cbn [sc_step snd]; [now repeat split| |now repeat split].
split; [|now repeat split]. intros i j N. cbn. destruct (Nat.eqb_spec i j); [contradiction|]. now apply A.
Qed.
End Vec.
