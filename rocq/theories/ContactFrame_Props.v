(** C135: the force of a contact acts at the contact's frame.  Specification: the
    generalised force is the transposed Jacobian calc computes for the frame of the
    model, times the force. *)
From Coquelicot Require Import Coquelicot.
From Coq Require Import Reals List Lra.
From Verif Require Import Deriv VecMat Spatial Spatial_Proofs Contact_Model Contact_Spec Contact_Proofs
  Contact_Props ContactFrame_Model.
Import ListNotations.
Open Scope R_scope.

(** Pinocchio's frame Jacobians are those of the parent joint, moved to the frame. *)
Definition consistent (rb : robot) (kf : nat -> kin) (Jj : nat -> nat -> v6) : Prop :=
  forall f j, fJf (kf f) j = actinv_motion (fr_place rb f) (Jj (fr_joint rb f) j).

Definition keeps_id (o : cfop) : Prop := match o with SetId _ => False | _ => True end.

Lemma run_fresh rb os : forall s, Forall keeps_id os -> snd s = create rb (fst s) ->
  let s' := cfruns rb s os in snd s' = create rb (fst s') /\ c_id (fst s') = c_id (fst s).
Proof.
  induction os as [|o os IH]; intros s F E; cbn; auto.
  inversion F as [|? ? Ho F']; subst. destruct o as [id|t|]; [contradiction| |]; cbn in *.
  - destruct (IH (Contact (c_id (fst s)) t, snd s) F') as [A B]; [exact E|]. auto.
  - destruct (IH (fst s, create rb (fst s)) F') as [A B]; [reflexivity|]. auto.
Qed.

Lemma fresh_data rb s0 os1 os2 : Forall keeps_id os2 ->
  let s := cfruns rb s0 (os1 ++ CreateData :: os2) in snd s = create rb (fst s).
Proof.
  intros F. unfold cfruns. rewrite fold_left_app. cbn [fold_left].
  apply (run_fresh rb os2); auto.
Qed.

(** The four contacts, for every history of the contact in which the frame is not
    changed after the data was created; the type may be changed at any time. *)
Theorem C135_force_partial rb kf Jj s0 os1 os2 : consistent rb kf Jj -> Forall keeps_id os2 ->
  let s := cfruns rb s0 (os1 ++ CreateData :: os2) in
  let k := kf (c_id (fst s)) in let type := c_type (fst s) in
  (forall Raxis f j, tau1 rb kf Jj Raxis s f j = f * Jc1 type Raxis k j) /\
  (forall f j, tau2 rb Jj s f j = fst f * fst (Jc2 k j) + snd f * snd (Jc2 k j)) /\
  (forall f j, tau3 rb kf Jj s f j = dot3 f (Jc3 type k j)) /\
  (forall f j, tau6 rb kf Jj s f j = dot6 f (Jc6 type k j)).
Proof.
  intros C F s k type. pose proof (fresh_data rb s0 os1 os2 F) as E. fold s in E. cbv zeta in E.
  assert (H : forall j, fJf k j = actinv_motion (d_jMf (snd s)) (Jj (fr_joint rb (d_frame (snd s))) j)).
  { intros j. rewrite E. apply C. }
  unfold tau1, tau2, tau3, tau6, at_joint.
  split; [|split; [|split]]; intros.
  - apply (C80_torque1 _ k (Jj (fr_joint rb (d_frame (snd s))))); exact H.
  - apply (C80_torque2 _ k (Jj (fr_joint rb (d_frame (snd s))))); exact H.
  - apply (C80_torque3 _ k (Jj (fr_joint rb (d_frame (snd s))))); exact H.
  - apply (C80_torque6 _ k (Jj (fr_joint rb (d_frame (snd s))))); exact H.
Qed.

Lemma run_jMf rb os : forall s, d_jMf (snd s) = fr_place rb (d_frame (snd s)) ->
  let s' := cfruns rb s os in d_jMf (snd s') = fr_place rb (d_frame (snd s')).
Proof.
  induction os as [|o os IH]; intros s E; cbn; auto.
  apply (IH (cfstep rb s o)). destruct o; cbn; auto.
Qed.

(** In general, after any history, the force acts at the frame the data was created
    for: a local 3d or 6d contact pushes there, whatever frame calc uses. *)
Theorem C135_stale rb kf Jj c os : consistent rb kf Jj ->
  let s := cfruns rb (c, create rb c) os in
  c_type (fst s) = LOCAL ->
  (forall f j, tau3 rb kf Jj s f j = dot3 f (Jc3 LOCAL (kf (d_frame (snd s))) j)) /\
  (forall f j, tau6 rb kf Jj s f j = dot6 f (Jc6 LOCAL (kf (d_frame (snd s))) j)).
Proof.
  intros C s T. pose proof (run_jMf rb os (c, create rb c) eq_refl) as E. fold s in E. cbv zeta in E.
  unfold tau3, tau6, at_joint. rewrite T, E. split; intros f j.
  - exact (C80_torque3 _ (kf (d_frame (snd s))) _ LOCAL f j (C (d_frame (snd s)))).
  - exact (C80_torque6 _ (kf (d_frame (snd s))) _ LOCAL f j (C (d_frame (snd s)))).
Qed.

(** A link turning about the vertical axis with frames at distances one and two. *)
Definition rod : robot :=
  Robot (fun _ => 0%nat) (fun f => SE3 I3 (V3 (match f with 0%nat => 1 | _ => 2 end) 0 0)).
Definition rod_J (_ _ : nat) : v6 := V6 z3 (V3 0 0 1).
Definition rod_k (f : nat) : kin :=
  Kin (fr_place rod f) (fun j => actinv_motion (fr_place rod f) (rod_J 0 j)) z6 z6
    (fun _ => z6) (fun _ => z6) (fun _ => z6) (fun _ => z6).
Lemma rod_ok : consistent rod rod_k rod_J.
Proof. intros f j. reflexivity. Qed.

(** The frame is changed after createData: the contact holds frame 1, whose Jacobian
    is 2, and its force enters the dynamics with lever arm 1. *)
Theorem C135_changed_refuted : exists rb kf Jj s f, consistent rb kf Jj /\
  s = cfruns rb (Contact 0 LOCAL, create rb (Contact 0 LOCAL)) [CreateData; SetId 1] /\
  c_id (fst s) = 1%nat /\
  tau3 rb kf Jj s f 0 = 1 /\ dot3 f (Jc3 (c_type (fst s)) (kf (c_id (fst s))) 0) = 2.
Proof.
  exists rod, rod_k, rod_J, (Contact 1 LOCAL, CData 0 (fr_place rod 0)), (V3 0 1 0).
  split; [exact rod_ok|]. split; [reflexivity|]. split; [reflexivity|].
  assert (E : forall f, dot3 (V3 0 1 0) (Jc3 LOCAL (rod_k f) 0) = match f with 0%nat => 1 | _ => 2 end).
  { intros f. unfold Jc3, rod_k, rod_J, rod. cbn [fJf fr_place]. destruct f; v3u; ring. }
  split; [|cbn [c_type c_id fst]; apply E].
  destruct (C135_stale rod rod_k rod_J (Contact 0 LOCAL) [CreateData; SetId 1] rod_ok eq_refl) as [A _].
  cbn in A. rewrite A. apply (E 0%nat).
Qed.

(** Creating the data again repairs it. *)
Example C135_ex :
  let s := cfruns rod (Contact 0 LOCAL, create rod (Contact 0 LOCAL))
             ([CreateData; SetId 1] ++ CreateData :: [SetType WORLD; SetType LOCAL]) in
  consistent rod rod_k rod_J /\ tau3 rod rod_k rod_J s (V3 0 1 0) 0 = 2.
Proof.
  intros s. split; [exact rod_ok|].
  destruct (C135_force_partial rod rod_k rod_J (Contact 0 LOCAL, create rod (Contact 0 LOCAL))
    [CreateData; SetId 1] [SetType WORLD; SetType LOCAL] rod_ok) as [_ [_ [A _]]].
  { repeat constructor. }
  fold s in A. rewrite A. unfold s. cbn [cfruns fold_left app cfstep fst snd c_id c_type create].
  unfold Jc3, rod_k, rod_J, rod. cbn [fJf fr_place]. v3u; ring.
Qed.

Print Assumptions C135_force_partial.
Print Assumptions C135_stale.
Print Assumptions C135_changed_refuted.
