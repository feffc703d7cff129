(** C79-C82: contact and impulse models. *)
From Coquelicot Require Import Coquelicot.
From Coq Require Import Reals Lra Lia.
From Verif Require Import Deriv VecMat Spatial Spatial_Proofs Contact_Model Contact_Spec Contact_Proofs.
Open Scope R_scope.

(** ** C79: da0_dx is the derivative of the contact acceleration *)
Theorem C79_contact3 : forall nv jMf k s dq dv type g0 g1 xref, moves nv jMf k s dq dv ->
  is_d3 (fun t => a03 type g0 g1 xref (k t)) s
    (add3 (comb3 nv (da03_dq type jMf g0 g1 xref (k s)) dq) (comb3 nv (da03_dv type jMf g1 (k s)) dv)).
Proof. intros. now apply d_a03. Qed.

Theorem C79_contact1 : forall nv jMf k s dq dv type g0 g1 xref Raxis, moves nv jMf k s dq dv -> rotation Raxis ->
  is_derive (fun t => a01 type g0 g1 xref Raxis (k t)) s
    (rsum nv (fun j => da01_dq type jMf g0 g1 xref Raxis (k s) j * dq j) +
     rsum nv (fun j => da01_dv type jMf g1 Raxis (k s) j * dv j)).
Proof. intros. now apply d_a01. Qed.

Theorem C79_contact6 : forall nv jMf k s dq dv log6 Jlog6 type g0 g1 pref, moves nv jMf k s dq dv ->
  (g0 <> 0 -> log6_contract log6 Jlog6 (rMf pref (k s))) ->
  is_d6 (fun t => a06 log6 type g0 g1 pref (k t)) s
    (add6 (comb6 nv (da06_dq log6 Jlog6 type jMf g0 g1 pref (k s)) dq) (comb6 nv (da06_dv type jMf g1 (k s)) dv)).
Proof. intros. now apply d_a06. Qed.

(** The 2d contact: exact without position gain, or when the frame's local y axis stays orthogonal to
    the world x and z axes, or when the frame does not move along its y axis.
    Missing: the general case, see below. *)
Theorem C79_contact2_partial : forall nv jMf k s dq dv g0 g1 xref, moves nv jMf k s dq dv ->
  g0 = 0 \/ (c2 (row1 (rot (oMf (k s)))) = 0 /\ c2 (row3 (rot (oMf (k s)))) = 0) \/
    (forall j, (j < nv)%nat -> c2 (lin (fJf (k s) j)) = 0) ->
  is_d2 (fun t => a02 g0 g1 xref (k t)) s
    (add2 (comb2 nv (da02_dq jMf g0 g1 (k s)) dq) (comb2 nv (da02_dv jMf g1 (k s)) dv)).
Proof.
  intros nv jMf k s dq dv g0 g1 xref M H. apply (d_a02 nv jMf k s dq dv M). intro ne.
  destruct H as [H|[[H1 H2]|H]]; [contradiction|rewrite H1, H2; lra|].
  cbn [comb6 lin comb3 c2]. rewrite rsum_0; [lra|]. intros j Hj. rewrite H by assumption. ring.
Qed.

(** A body turning about the vertical axis, with a frame at distance one. *)
Definition rz (t : R) : m3 := M3 (V3 (cos t) (- sin t) 0) (V3 (sin t) (cos t) 0) (V3 0 0 1).
Definition turn (v t : R) : kin :=
  Kin (SE3 (rz t) (V3 (cos t) (sin t) 0)) (fun _ => V6 (V3 0 1 0) (V3 0 0 1)) (V6 (V3 0 v 0) (V3 0 0 v)) z6
    (fun _ => z6) (fun _ => z6) (fun _ => z6) (fun _ => V6 z3 (V3 0 0 1)).
Definition turn_jMf : se3 := SE3 I3 (V3 1 0 0).
Lemma dcos t : is_derive cos t (- sin t).
Proof. auto_derive; auto. ring. Qed.
Lemma dsin t : is_derive sin t (cos t).
Proof. auto_derive; auto. ring. Qed.
Lemma rz_rot t : rotation (rz t).
Proof.
  pose proof (sin2_cos2 t) as H. unfold Rsqr in H.
  split; [|split]; [apply m3_ext; apply v3_ext; unfold rz; v3u; try ring; lra|
    apply m3_ext; apply v3_ext; unfold rz; v3u; try ring; lra|unfold rz; v3u; lra].
Qed.
Example C79_ex v t : moves 1 turn_jMf (turn v) t (fun _ => 1) (fun _ => 0).
Proof.
  constructor; unfold turn, turn_jMf; cbn [oMf fJf vel acc v_dq a_dq a_dv a_da rot trans].
  - apply rz_rot.
  - split; [|split]; (split; [|split]); unfold rz, comb6, comb3; v3u; cbn [rsum];
      (eapply deq; [first [exact (dcos t)|exact (dsin t)|exact (dopp sin t _ (dsin t))|apply dconst]|v3u; ring]).
  - split; [|split]; unfold rz, comb6, comb3; v3u; cbn [rsum];
      (eapply deq; [first [exact (dcos t)|exact (dsin t)|apply dconst]|v3u; ring]).
  - split; (split; [|split]); unfold comb6, comb3; v3u; cbn [rsum]; (eapply deq; [apply dconst|ring]).
  - split; (split; [|split]); unfold comb6, comb3; v3u; cbn [rsum]; (eapply deq; [apply dconst|ring]).
  - intros. apply v6_ext; v3r.
Qed.
(** The 3d contact on it sees the centripetal acceleration, which turns with the body. *)
Example C79_ex_value v t : a03 LOCAL_WORLD_ALIGNED 0 0 z3 (turn v t) = V3 (- v * v * cos t) (- v * v * sin t) 0.
Proof.
  unfold a03, a0_local, when, classical, oRf, turn. cbn [oMf vel acc rot].
  destruct (Req_EM_T 0 0); [|contradiction]. unfold rz. v3r.
Qed.

(** The 2d contact's derivative misses the motion along the frame's y axis. *)
Theorem C79_contact2_refuted : exists nv jMf k s dq dv g0 g1 xref, moves nv jMf k s dq dv /\
  ~ is_d2 (fun t => a02 g0 g1 xref (k t)) s
    (add2 (comb2 nv (da02_dq jMf g0 g1 (k s)) dq) (comb2 nv (da02_dv jMf g1 (k s)) dv)).
Proof.
  exists 1%nat, turn_jMf, (turn 0), (PI / 2), (fun _ => 1), (fun _ => 0), 1, 0, (0, 0).
  split; [apply C79_ex|]. intros [H _].
  assert (H' : is_derive (fun t => fst (a02 1 0 (0, 0) (turn 0 t))) (PI / 2) (-1)).
  { apply (dext cos).
    - intro t. unfold a02, when2, classical, turn, xz, add2. cbn [oMf vel acc trans fst snd].
      destruct (Req_EM_T 0 0); [|contradiction]. destruct (Req_EM_T 1 0); [lra|]. v3u. cbn [fst]. ring.
    - eapply deq; [apply dcos|]. rewrite sin_PI2. ring. }
  pose proof (duniq _ _ _ _ H H') as E. clear H H'.
  unfold comb2, add2, da02_dq, da02_dv, when2, Jc2, xz, turn in E.
  cbn [oMf vel acc trans fst snd fJf v_dq a_dq a_dv a_da rsum] in E.
  destruct (Req_EM_T 0 0); [|contradiction]. destruct (Req_EM_T 1 0); [lra|].
  revert E. unfold add2, turn_jMf, rz. v3u. cbn [fst snd]. v3u. rewrite cos_PI2. lra.
Qed.

(** ** C80: forces *)
(** The force at the parent joint produces the generalised force Jc^T f. *)
Theorem C80_torque3 : forall jMf k Jj type force j, (forall j, fJf k j = actinv_motion jMf (Jj j)) ->
  dot6 (fext3 type jMf k force) (Jj j) = dot3 force (Jc3 type k j).
Proof. intros. now apply torque3. Qed.
Theorem C80_torque1 : forall jMf k Jj type Raxis force j, (forall j, fJf k j = actinv_motion jMf (Jj j)) ->
  dot6 (fext1 type jMf Raxis k force) (Jj j) = force * Jc1 type Raxis k j.
Proof. intros. now apply torque1. Qed.
Theorem C80_torque2 : forall jMf k Jj force j, (forall j, fJf k j = actinv_motion jMf (Jj j)) ->
  dot6 (fext2 jMf force) (Jj j) = fst force * fst (Jc2 k j) + snd force * snd (Jc2 k j).
Proof. intros. now apply torque2. Qed.
Theorem C80_torque6 : forall jMf k Jj type force j, (forall j, fJf k j = actinv_motion jMf (Jj j)) ->
  dot6 (fext6 type jMf k force) (Jj j) = dot6 force (Jc6 type k j).
Proof. intros. now apply torque6. Qed.
(** dtau_dq is what the inverse dynamics derivatives with the joint force frozen leave out. *)
Theorem C80_dtau3 : forall nv jMf k s dq dv Jj type force i, moves nv jMf k s dq dv ->
  (forall j, fJf (k s) j = actinv_motion jMf (Jj j)) ->
  is_derive (fun t => - dot6 (fext3 type jMf (k t) force) (Jj i)) s (rsum nv (fun j => dtau3 type (k s) force i j * dq j)).
Proof. intros. eapply dtau3_ok; eauto. Qed.
Theorem C80_dtau1 : forall nv jMf k s dq dv Jj type Raxis force i, moves nv jMf k s dq dv ->
  (forall j, fJf (k s) j = actinv_motion jMf (Jj j)) ->
  is_derive (fun t => - dot6 (fext1 type jMf Raxis (k t) force) (Jj i)) s
    (rsum nv (fun j => dtau1 type Raxis (k s) force i j * dq j)).
Proof. intros. eapply dtau1_ok; eauto. Qed.
Theorem C80_dtau6 : forall nv jMf k s dq dv Jj type force i, moves nv jMf k s dq dv ->
  (forall j, fJf (k s) j = actinv_motion jMf (Jj j)) ->
  is_derive (fun t => - dot6 (fext6 type jMf (k t) force) (Jj i)) s (rsum nv (fun j => dtau6 type (k s) force i j * dq j)).
Proof. intros. eapply dtau6_ok; eauto. Qed.
Example C80_ex v t : (forall j, fJf (turn v t) j = actinv_motion turn_jMf (V6 z3 (V3 0 0 1))) /\
  Jc3 LOCAL_WORLD_ALIGNED (turn v t) 0 = V3 (- sin t) (cos t) 0.
Proof. split; [intro j; unfold turn, turn_jMf; cbn [fJf]; v6r|unfold Jc3, oRf, turn; cbn [oMf fJf rot]; unfold rz; v3r]. Qed.

(** The published contact force, read in the contact frame, must be the force applied: this fails for
    the 2d contact, whose components are those of the parent joint's frame. *)
Theorem C80_force2_refuted : exists jMf force, rotation (rot jMf) /\
  lin (f2 jMf force) <> V3 (fst force) 0 (snd force) /\
  lin (fext2 jMf force) = mv (rot jMf) (V3 (fst force) 0 (snd force)).
Proof.
  exists (SE3 (M3 (V3 0 1 0) (V3 (-1) 0 0) (V3 0 0 1)) z3), (1, 0). split; [|split].
  - split; [|split]; cbn [rot]; [apply m3_ext; v3r|apply m3_ext; v3r|v3u; ring].
  - intro E. apply (f_equal c1) in E. unfold f2 in E. v3u. cbn [fst snd lin c1 c2 c3 row1 row2 row3 rot trans] in E. lra.
  - unfold fext2. cbn [fst snd rot]. v3r.
Qed.

(** ** C81: reference of the 1d contact *)
(** World direction of a unit contact force. *)
Definition contact_axis (Raxis : m3) (k : kin) : v3 := mv (oRf k) (lin (f1_local Raxis k 1)).
Lemma contact_axis_eq Raxis k : rotation (rot (oMf k)) -> contact_axis Raxis k = mv (mt Raxis) ez.
Proof. intro HR. unfold contact_axis, f1_local. cbn [lin]. rewrite col3_ez, mv_mm, mv_scal, rot_inv_r by exact HR. v3r. Qed.
Definition at_rest (k : kin) : Prop := vel k = z6 /\ acc k = z6.
Lemma a01_rest Raxis k g0 g1 xref : rotation (rot (oMf k)) -> at_rest k -> g0 <> 0 ->
  a01 LOCAL_WORLD_ALIGNED g0 g1 xref Raxis k =
  g0 * (dot3 (contact_axis Raxis k) (trans (oMf k)) - xref * dot3 (contact_axis Raxis k) (mv Raxis ez)).
Proof.
  intros HR [Hv Ha] ne. rewrite (contact_axis_eq Raxis k HR).
  cbn [a01]. unfold a0_local, classical, when, dp_local, pref1. rewrite Hv, Ha.
  assert (X : forall a, mv (mm Raxis (oRf k)) (mv (mt (oRf k)) a) = mv Raxis a).
  { intro a. rewrite mv_mm. f_equal. apply rot_inv_r. exact HR. }
  assert (Y : forall a b, c3 (mv a b) = dot3 (mv (mt a) ez) b) by (intros; v3u; ring).
  destruct (Req_EM_T g0 0); [contradiction|].
  replace (if Req_EM_T g1 0 then _ else _) with (scal3 g0 (mv (mt (oRf k)) (sub3 (trans (oMf k)) (scal3 xref (mv Raxis ez))))).
  2:{ generalize (mv (mt (oRf k)) (sub3 (trans (oMf k)) (scal3 xref (mv Raxis ez)))). intros [].
      destruct (Req_EM_T g1 0); v3r. }
  rewrite mv_scal, X. generalize (trans (oMf k)) Y. intros p Y'. 
  replace (c3 (scal3 g0 (mv Raxis (sub3 p (scal3 xref (mv Raxis ez)))))) with (g0 * c3 (mv Raxis (sub3 p (scal3 xref (mv Raxis ez)))))
    by reflexivity.
  rewrite Y'. f_equal. generalize (mv (mt Raxis) ez) (mv Raxis ez). intros [] []. destruct p. v3u. ring.
Qed.
(** At rest the contact is satisfied exactly when the frame's position along the axis of the contact
    force is the reference, if the rotation given by the user maps z to the same direction as its
    inverse.  Missing: other rotations, see below. *)
Theorem C81_reference_partial : forall Raxis k g0 g1 xref,
  rotation Raxis -> rotation (rot (oMf k)) -> at_rest k -> g0 <> 0 -> mv Raxis ez = mv (mt Raxis) ez ->
  (a01 LOCAL_WORLD_ALIGNED g0 g1 xref Raxis k = 0 <-> dot3 (contact_axis Raxis k) (trans (oMf k)) = xref).
Proof.
  intros Raxis k g0 g1 xref HA HR Hr ne Hs. rewrite a01_rest by assumption.
  assert (X := contact_axis_eq Raxis k HR).
  rewrite X at 2. rewrite Hs. rewrite dot3_mt.
  assert (E : mv Raxis (mv (mt Raxis) ez) = ez) by (apply rot_inv_r; exact HA).
  rewrite E. replace (dot3 ez ez) with 1 by (v3u; ring). split; intro H.
  - apply Rmult_integral in H. destruct H as [H|H]; [contradiction|lra].
  - rewrite H. ring.
Qed.
(** A rotation about x by the angle of the 3-4-5 triangle: the frame is at the reference along the axis
    of the force, yet the contact pulls it away. *)
Theorem C81_reference_refuted : exists Raxis k g0 g1 xref,
  rotation Raxis /\ rotation (rot (oMf k)) /\ at_rest k /\ g0 <> 0 /\
  dot3 (contact_axis Raxis k) (trans (oMf k)) = xref /\ a01 LOCAL_WORLD_ALIGNED g0 g1 xref Raxis k <> 0.
Proof.
  set (A := M3 (V3 1 0 0) (V3 0 (3 / 5) (-4 / 5)) (V3 0 (4 / 5) (3 / 5))).
  set (k := Kin (SE3 I3 (V3 0 (4 / 5) (3 / 5))) (fun _ => z6) z6 z6 (fun _ => z6) (fun _ => z6) (fun _ => z6) (fun _ => z6)).
  assert (HA : rotation A).
  { split; [|split]; [apply m3_ext; apply v3_ext; unfold A; v3u; field|apply m3_ext; apply v3_ext; unfold A; v3u; field|unfold A; v3u; field]. }
  exists A, k, 1, 0, 1. split; [exact HA|]. split; [apply rot_I|]. split; [split; reflexivity|]. split; [lra|].
  assert (X : contact_axis A k = V3 0 (4 / 5) (3 / 5)).
  { rewrite contact_axis_eq by apply rot_I. unfold A. apply v3_ext; v3u; ring. }
  split; [rewrite X; unfold k; cbn [oMf trans]; v3u; field|].
  rewrite a01_rest; [|apply rot_I|split; reflexivity|lra]. rewrite X. unfold k, A. cbn [oMf trans]. v3u. lra.
Qed.
Example C81_ex : exists k, at_rest k /\ rotation (rot (oMf k)) /\ mv I3 ez = mv (mt I3) ez /\
  dot3 (contact_axis I3 k) (trans (oMf k)) = 2.
Proof.
  exists (Kin (SE3 (rz (PI / 2)) (V3 5 0 2)) (fun _ => z6) z6 z6 (fun _ => z6) (fun _ => z6) (fun _ => z6) (fun _ => z6)).
  split; [split; reflexivity|]. split; [apply rz_rot|]. split; [v3r|].
  rewrite contact_axis_eq by apply rz_rot. cbn [oMf trans]. v3u. ring.
Qed.

(** ** C82: impulses *)
(** dv0_dq is the derivative of the contact velocity with respect to the configuration. *)
Theorem C82_impulse3 : forall nv jMf k s dq dv type, moves nv jMf k s dq dv -> (forall j, (j < nv)%nat -> dv j = 0) ->
  is_d3 (fun t => v03 type (k t)) s (comb3 nv (dv03_dq type jMf (k s)) dq).
Proof. intros. eapply d_v03; eauto. Qed.
(** Missing: the WORLD type, see below. *)
Theorem C82_impulse6_partial : forall nv jMf k s dq dv type, moves nv jMf k s dq dv -> type <> WORLD ->
  (forall j, (j < nv)%nat -> dv j = 0) ->
  is_d6 (fun t => v06 type (k t)) s (comb6 nv (dv06_dq type jMf (k s)) dq).
Proof. intros. eapply d_v06; eauto. Qed.
(** With the WORLD type the Jacobian is that of LOCAL_WORLD_ALIGNED but the derivative uses the velocity
    of the point at the origin. *)
Theorem C82_impulse6_refuted : exists nv jMf k s dq dv, moves nv jMf k s dq dv /\ (forall j, (j < nv)%nat -> dv j = 0) /\
  ~ is_d6 (fun t => v06 WORLD (k t)) s (comb6 nv (dv06_dq WORLD jMf (k s)) dq).
Proof.
  exists 1%nat, turn_jMf, (turn 1), 0, (fun _ => 1), (fun _ => 0).
  split; [apply C79_ex|]. split; [reflexivity|]. intros [(H & _ & _) _].
  assert (H' : is_derive (fun t => c1 (lin (v06 WORLD (turn 1 t)))) 0 (-1)).
  { apply (dext (fun t => - sin t)).
    - intro t. unfold v06, oRf, turn. cbn [oMf vel rot]. unfold rz. v3u. ring.
    - eapply deq; [exact (dopp sin 0 _ (dsin 0))|]. rewrite cos_0. ring. }
  pose proof (duniq _ _ _ _ H H') as E. clear H H'. revert E.
  assert (Z : rz 0 = I3) by (unfold rz, I3; rewrite cos_0, sin_0; f_equal; f_equal; ring).
  assert (O : oRf (turn 1 0) = I3) by exact Z.
  assert (V : frame_velocity WORLD (turn 1 0) = V6 z3 ez).
  { unfold frame_velocity. rewrite O, !mv_I. unfold turn. cbn [oMf vel trans lin ang]. rewrite cos_0, sin_0. v6r. }
  cbn [comb6 lin comb3 c1 rsum dv06_dq]. rewrite V, O. cbn [lin ang].
  unfold turn. cbn [v_dq fJf ang]. replace (mm (skew z3) I3) with (M3 z3 z3 z3) by (apply m3_ext; v3r).
  replace (actinv_motion turn_jMf z6) with z6 by (unfold turn_jMf; v6r).
  v3u. lra.
Qed.

Print Assumptions C79_contact6.
Print Assumptions C79_contact1.
Print Assumptions C79_contact2_refuted.
Print Assumptions C80_dtau6.
Print Assumptions C81_reference_refuted.
Print Assumptions C82_impulse6_refuted.
