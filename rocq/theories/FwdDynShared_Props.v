(** C85 for two contacts on the same joint: the published derivative is wrong. *)
From Coquelicot Require Import Coquelicot.
From Coq Require Import Reals List Arith Bool Lia Lra.
From Verif Require Import Deriv VecMat Implicit Spatial Spatial_Proofs Contact_Model Contact_Spec Contact_Proofs Contact_Props
  MultiContact_Model MultiContact_Proofs FwdDyn_Model FwdDyn_Spec FwdDyn_Proofs FwdDyn_Contacts FwdDyn_Props.
Import ListNotations.
Open Scope R_scope.

(** A cart sliding along the world's x axis (joint 1) carries a turntable with a vertical axis (joint
    2); unit inertias, no gravity along the motion.  Two equal damped 1d contacts of type LOCAL hold the
    turntable's frame along its own y axis, the cart is pushed with a unit force, and the turntable is
    turned: the state moves along q = (0, t), v = 0. *)
Definition cart_J (t : R) (j : nat) : v6 :=
  match j with O => V6 (V3 (cos t) (- sin t) 0) z3 | S O => V6 z3 (V3 0 0 1) | _ => z6 end.
Definition cart_dJ (t : R) (j : nat) : v6 :=
  match j with S O => V6 (V3 (- sin t) (- cos t) 0) z3 | _ => z6 end.
Definition cart_kin (a t : R) : kin :=
  Kin (SE3 (rz t) z3) (cart_J t) z6 (V6 (V3 (a * cos t) (- (a * sin t)) 0) z3)
    (fun _ => z6) (fun j => V6 (scal3 a (lin (cart_dJ t j))) z3) (fun _ => z6) (cart_J t).
Definition cart_rb : robot :=
  Robot (fun _ i j => if Nat.eqb i j then 1 else 0) (fun _ _ => 0) (fun t j i => if Nat.eqb j 2 then cart_J t i else z6).
Definition cart_contact : cmodel := CModel (K1 0 ex_axis) LOCAL 0 0 (SE3 I3 z3) 2 true.
(** forwardDynamics for the unit mass matrix and two contacts that do not act on the turntable *)
Definition cart_fd (M J : mat) (b g : vec) (mu : R) : vec * vec :=
  let a := b 0%nat / (1 + J 0%nat 0%nat * J 0%nat 0%nat + J 1%nat 0%nat * J 1%nat 0%nat) in
  (fun i => if Nat.eqb i 0 then a else b i, fun r => - (J r 0%nat * a)).
Definition cart_D (t : R) : R := 1 + 2 * (sin t * sin t).
Definition cart_cs (s : R) : list scontact := [(cart_contact, (cart_kin 0, cart_kin (/ cart_D s))); (cart_contact, (cart_kin 0, cart_kin (/ cart_D s)))].
Definition cart_tau (t : R) : vec := fun i => if Nat.eqb i 0 then 1 else 0.
Definition cart_Kinv (s : R) : mat := fun i j =>
  let D := cart_D s in let g := - sin s in
  match i, j with
  | O, O => / D | O, S (S _) => g / D
  | S O, S O => 1
  | S (S _), O => g / D
  | S (S _), S (S _) => g * g / D - (if Nat.eqb i j then 1 else 0)
  | _, _ => 0
  end.

Ltac dtrig s := lazymatch goal with
  | |- is_derive cos _ _ => exact (dcos s)
  | |- is_derive sin _ _ => exact (dsin s)
  | |- is_derive (fun t => cos t) _ _ => exact (dcos s)
  | |- is_derive (fun t => sin t) _ _ => exact (dsin s)
  | |- is_derive (fun t => - sin t) _ _ => exact (dopp sin s _ (dsin s))
  | |- is_derive (fun t => ?c * cos t) _ _ => exact (dscal c cos s _ (dcos s))
  | |- is_derive (fun t => - (?c * sin t)) _ _ => exact (dopp _ s _ (dscal c sin s _ (dsin s)))
  | |- is_derive (fun t => ?c) _ _ => exact (dconst c s)
  end.
Lemma cart_D_pos t : 0 < cart_D t. Proof. unfold cart_D. nra. Qed.
Lemma two2 i : (i < 2)%nat -> i = 0%nat \/ i = 1%nat. Proof. lia. Qed.
Lemma four4 i : (i < 4)%nat -> i = 0%nat \/ i = 1%nat \/ i = 2%nat \/ i = 3%nat. Proof. lia. Qed.

Definition cart_Jst (s t : R) : mat := stack zv false (row_list (contacts 2 s (cart_cs s)) t) 0 (fun _ _ => 0).
Definition cart_a0 (s t : R) : vec := stack 0 false (acc_list (contacts 2 s (cart_cs s)) t) 0 (fun _ => 0).
Lemma cart_Jst_eq s t r i : (r < 2)%nat -> cart_Jst s t r i = match i with O => - sin t | _ => 0 end.
Proof.
  intro Hr. destruct (two2 r Hr) as [-> | ->];
  unfold cart_Jst, cart_cs, contacts, row_list; cbn [map fst snd curve cart_contact cc_item cc_J item_of cm_active cm_kind stack c_active];
  change (c_nc (item_of cart_contact)) with 1%nat; unfold setseg; cbn [Nat.leb Nat.ltb andb Nat.add Nat.sub]; unfold Jc1, cart_kin; cbn [fJf];
  destruct i as [|[|i]]; unfold cart_J, ex_axis; v3u; cbn [lin ang]; v3u; ring.
Qed.
Lemma cart_a0_eq s t r : (r < 2)%nat -> cart_a0 s t r = 0.
Proof.
  intro Hr. destruct (two2 r Hr) as [-> | ->];
  unfold cart_a0, cart_cs, contacts, acc_list; cbn [map fst snd curve cart_contact cc_item cc_a0 item_of cm_active cm_kind stack c_active];
  change (c_nc (item_of cart_contact)) with 1%nat; unfold setseg; cbn [Nat.leb Nat.ltb andb Nat.add Nat.sub]; unfold a01, a0_local, when, classical, cart_kin; cbn [oMf rot vel acc lin ang];
  destruct (Req_EM_T 0 0); try contradiction; unfold ex_axis; v3u; ring.
Qed.
Definition cart_sol (s t : R) : vec * vec := contact_calc cart_fd None 1 (r_M cart_rb t) (r_nle cart_rb t) (cart_tau t) (cart_Jst s t) (cart_a0 s t).
Lemma cart_acc s t i : (i < 2)%nat -> fst (cart_sol s t) i = match i with O => / cart_D t | _ => 0 end.
Proof.
  intro Hi. unfold cart_sol, contact_calc, cart_fd. cbn [fst]. rewrite !cart_Jst_eq by lia. pose proof (cart_D_pos t).
  destruct (two2 i Hi) as [-> | ->]; unfold cart_tau, cart_rb; cbn [Nat.eqb r_nle]; [|ring].
  unfold cart_D in *. replace (1 + - sin t * - sin t + - sin t * - sin t) with (1 + 2 * (sin t * sin t)) by ring. field. lra.
Qed.
Lemma cart_force s t r : (r < 2)%nat -> snd (cart_sol s t) r = sin t / cart_D t.
Proof.
  intro Hr. unfold cart_sol, contact_calc, cart_fd. cbn [snd]. rewrite !cart_Jst_eq by lia. pose proof (cart_D_pos t).
  unfold cart_tau, cart_rb; cbn [Nat.eqb r_nle].
  unfold cart_D in *. replace (1 + - sin t * - sin t + - sin t * - sin t) with (1 + 2 * (sin t * sin t)) by ring. field. lra.
Qed.
Lemma cart_solves s t : solves_contact 2 2 cart_fd (add_armature None (r_M cart_rb t)) (cart_Jst s t) (fun i => cart_tau t i - r_nle cart_rb t i) (cart_a0 s t) 1.
Proof.
  unfold solves_contact.
  change (constrained_motion 2 2 (add_armature None (r_M cart_rb t)) (fun _ => 0) (fun i => cart_tau t i - r_nle cart_rb t i) (cart_Jst s t) (cart_a0 s t) 1
    (fst (cart_sol s t)) (snd (cart_sol s t))).
  pose proof (cart_D_pos t) as D.
  split; intros i Hi; cbn [rsum]; rewrite ?(cart_force s t 0), ?(cart_force s t 1), ?(cart_acc s t 0), ?(cart_acc s t 1), ?(cart_Jst_eq s t 0), ?(cart_Jst_eq s t 1) by lia.
  - destruct (two2 i Hi) as [-> | ->]; unfold cart_rb, cart_tau; cbn [add_armature r_M r_nle Nat.eqb]; unfold cart_D in *; field; lra.
  - rewrite cart_a0_eq, cart_force, !cart_Jst_eq by assumption. field. lra.
Qed.
Definition cart_dx : vec := fun j => if Nat.eqb j 1 then 1 else 0.
Lemma cart_good s : good_contact 2 (r_G cart_rb) s cart_dx (fst (cart_sol s s)) cart_contact (cart_kin 0) (cart_kin (/ cart_D s)).
Proof.
  split; [|split; [|split]].
  - constructor; intro t; try reflexivity. unfold comb6, comb3. cbn [rsum]. rewrite !cart_acc by lia.
    unfold cart_kin, cart_J. cbn [acc fJf lin ang]. v6r.
  - intros t j. unfold cart_kin, cart_contact, cart_rb. cbn [fJf cm_jMf r_G cm_joint Nat.eqb]. destruct (cart_J t j) as [[? ? ?] [? ? ?]]. v6r.
  - assert (E1 : comb6 2 (cart_J s) cart_dx = V6 z3 (V3 0 0 1)) by (unfold comb6, comb3, cart_J, cart_dx; cbn [rsum Nat.eqb lin ang]; v6r).
    assert (E2 : comb6 2 (cart_J s) (right 2 cart_dx) = z6) by (unfold comb6, comb3, cart_J, cart_dx, right; cbn [rsum Nat.eqb Nat.add lin ang]; v6r).
    assert (E3 : forall w, comb6 2 (fun _ => z6) w = z6) by (intro; unfold comb6, comb3; cbn [rsum lin ang]; v6r).
    assert (E4 : comb6 2 (fun j => V6 (scal3 (/ cart_D s) (lin (cart_dJ s j))) z3) cart_dx = V6 (scal3 (/ cart_D s) (V3 (- sin s) (- cos s) 0)) z3).
    { generalize (/ cart_D s). intro g. unfold comb6, comb3, cart_dJ, cart_dx; cbn [rsum Nat.eqb lin ang]; v6r. }
    assert (E5 : forall x, actinv_motion (SE3 I3 z3) x = x) by (intros [[? ? ?] [? ? ?]]; v6r).
    assert (E6 : forall x, add6 x z6 = x) by (intros [[? ? ?] [? ? ?]]; v6r).
    constructor; unfold cart_kin, cart_contact; cbn [oMf fJf vel acc v_dq a_dq a_dv a_da rot trans cm_jMf];
      rewrite ?E1, ?E2, ?E3, ?E4, ?E5, ?E6; cbn [lin ang].
    + apply rz_rot.
    + split; [|split]; (split; [|split]); unfold rz; v3u; (eapply deq; [dtrig s|ring]).
    + split; [|split]; unfold rz; v3u; (eapply deq; [dtrig s|ring]).
    + split; (split; [|split]); v3u; dtrig s.
    + generalize (/ cart_D s). intro g. split; (split; [|split]); v3u; (eapply deq; [dtrig s|ring]).
    + intros j Hj. now rewrite E5.
  - exact ex_rot.
Qed.
(** What remains of the joint forces after updateForce: those of the second contact. *)
Definition cart_fext (s : R) : nat -> v6 := snd (update false (force_list (contacts 2 s (cart_cs s)) s) 0 (snd (cart_sol s s)) (fun _ => z6)).
Lemma cart_fext_eq s j : cart_fext s j = if Nat.eqb j 2 then V6 (V3 0 (sin s / cart_D s) 0) z3 else z6.
Proof.
  unfold cart_fext, cart_cs, contacts, force_list.
  cbn [map fst snd curve cart_contact cc_item cc_fx item_of cm_active cm_kind update c_active cm_joint c_joint c_nc Nat.add].
  destruct (Nat.eqb j 2); [|reflexivity]. rewrite (cart_force s s 1) by lia. generalize (sin s / cart_D s). intro g. unfold fext1. cbn [rot trans].
  assert (E : col3 (mm I3 (mt ex_axis)) = V3 0 1 0) by (unfold ex_axis; v3r). rewrite E. v6r.
Qed.
Definition cart_rq (s : R) : mat := fun i j => if Nat.eqb i 0 && Nat.eqb j 1 then sin s * cos s / cart_D s else 0.
Lemma cart_rnea s : rnea_contract 2 3 cart_rb s cart_dx (fst (cart_sol s s)) (cart_fext s) (cart_rq s) (fun _ _ => 0).
Proof.
  intros i Hi. cbn [rsum]. rewrite !cart_acc by lia.
  destruct (two2 i Hi) as [-> | ->].
  - apply (dext (fun t => / cart_D s + sin s / cart_D s * sin t)).
    + intro t. rewrite !cart_fext_eq. unfold cart_rb. cbn [r_M r_nle r_G Nat.eqb]. unfold cart_J, dot6. v3u. ring.
    + eapply deq; [apply dplus; [apply dconst|apply dscal; exact (dsin s)]|].
      unfold cart_rq, cart_dx. cbn [Nat.eqb andb Nat.add]. pose proof (cart_D_pos s). field. lra.
  - apply (dext (fun _ => 0)).
    + intro t. rewrite !cart_fext_eq. unfold cart_rb. cbn [r_M r_nle r_G Nat.eqb]. unfold cart_J, dot6. v3u. ring.
    + eapply deq; [apply dconst|]. unfold cart_rq, cart_dx. cbn [Nat.eqb andb Nat.add]. ring.
Qed.
Lemma cart_Kinv_ok s : left_inverse 4 (cart_Kinv s) (kkt 2 (inertia None (r_M cart_rb s)) (cart_Jst s s) 1).
Proof.
  intros i j Hi Hj. unfold mulm. cbn [rsum]. pose proof (cart_D_pos s) as D.
  destruct (four4 i Hi) as [-> |[-> |[-> | ->]]]; destruct (four4 j Hj) as [-> |[-> |[-> | ->]]];
  unfold kkt; cbn [Nat.ltb Nat.leb Nat.sub Nat.eqb]; rewrite ?(cart_Jst_eq s s 0), ?(cart_Jst_eq s s 1) by lia;
  unfold cart_Kinv, idm, cart_rb; cbn [inertia r_M Nat.eqb]; unfold cart_D in *; field; lra.
Qed.
Lemma cart_dq g s j : (j < 2)%nat -> da01_dq LOCAL (SE3 I3 z3) 0 0 0 ex_axis (cart_kin g s) j = if Nat.eqb j 1 then - (g * cos s) else 0.
Proof.
  intro Hj. assert (E5 : forall x, actinv_motion (SE3 I3 z3) x = x) by (intros [[? ? ?] [? ? ?]]; v6r).
  assert (EA : forall x, c3 (mv ex_axis x) = c2 x) by (intros [? ? ?]; unfold ex_axis; v3u; ring).
  unfold da01_dq. rewrite EA. unfold da0_local_dq, fXj, when. rewrite !E5. destruct (Req_EM_T 0 0); [|contradiction].
  unfold cart_kin. cbn [vel acc v_dq a_dq lin ang].
  destruct (two2 j Hj) as [-> | ->]; unfold cart_dJ; cbn [lin ang Nat.eqb]; v3u; ring.
Qed.
Lemma cart_dv g s j : (j < 2)%nat -> da01_dv LOCAL (SE3 I3 z3) 0 ex_axis (cart_kin g s) j = 0.
Proof.
  intro Hj. assert (E5 : forall x, actinv_motion (SE3 I3 z3) x = x) by (intros [[? ? ?] [? ? ?]]; v6r).
  assert (EA : forall x, c3 (mv ex_axis x) = c2 x) by (intros [? ? ?]; unfold ex_axis; v3u; ring).
  unfold da01_dv. rewrite EA. unfold da0_local_dv, fXj, when. rewrite !E5. destruct (Req_EM_T 0 0); [|contradiction].
  unfold cart_kin. cbn [vel acc a_dv fJf lin ang].
  destruct (two2 j Hj) as [-> | ->]; unfold cart_J; cbn [lin ang Nat.eqb]; v3u; ring.
Qed.
Lemma cart_da0 s r j : (r < 2)%nat -> (j < 4)%nat ->
  stack zv false (da0_of (spread false (contacts 2 s (cart_cs s)) 0 (snd (cart_sol s s)))) 0 (fun _ _ => 0) r j =
  if Nat.eqb j 1 then - (/ cart_D s * cos s) else 0.
Proof.
  intros Hr Hj.
  destruct (two2 r Hr) as [-> | ->];
  unfold cart_cs, contacts, da0_of; cbn [map fst snd curve spread cart_contact published cc_item item_of cm_active cm_kind stack c_active];
  change (c_nc (item_of cart_contact)) with 1%nat; unfold setseg; cbn [Nat.leb Nat.ltb andb Nat.add Nat.sub];
  (destruct (four4 j Hj) as [-> |[-> |[-> | ->]]]); unfold hcat; cbn [Nat.ltb Nat.leb Nat.sub Nat.eqb];
  rewrite ?cart_dq, ?cart_dv by lia; reflexivity.
Qed.

Lemma cart_smooth s : smooth 2 cart_rb s.
Proof.
  split; [|split].
  - intros i j _ _. exists 0. exact (dconst (if Nat.eqb i j then 1 else 0) s).
  - intros i _. exists 0. exact (dconst 0 s).
  - intros j i Hi. unfold cart_rb. cbn [r_G]. destruct (Nat.eqb j 2).
    + destruct (two2 i Hi) as [-> | ->]; unfold cart_J.
      * exists (V6 (V3 (- sin s) (- cos s) 0) z3). split; (split; [|split]); v3u; dtrig s.
      * exists z6. split; (split; [|split]); v3u; dtrig s.
    + exists z6. split; (split; [|split]); v3u; dtrig s.
Qed.
Lemma cart_jac s : jac 4 0 2 cart_tau s cart_dx (fun _ => 0) (fun _ _ => 0) (fun _ _ => 0).
Proof.
  intros i Hi. eapply deq; [exact (dconst (if Nat.eqb i 0 then 1 else 0) s)|]. cbn [rsum]. ring.
Qed.
Lemma cart_dacc s : is_derive (fun t => fst (cart_sol s t) 0%nat) s (- (4 * (sin s * cos s)) / (cart_D s * cart_D s)).
Proof.
  apply (dext (fun t => / cart_D t)); [intro t; symmetry; exact (cart_acc s t 0 ltac:(lia))|]. pose proof (cart_D_pos s) as D.
  unfold cart_D in *. auto_derive; [lra|]. field. lra.
Qed.
Lemma cart_dforce s : is_derive (fun t => snd (cart_sol s t) 0%nat) s (cos s / cart_D s - 4 * (sin s * sin s * cos s) / (cart_D s * cart_D s)).
Proof.
  apply (dext (fun t => sin t / cart_D t)); [intro t; symmetry; exact (cart_force s t 0 ltac:(lia))|]. pose proof (cart_D_pos s) as D.
  unfold cart_D in *. auto_derive; [lra|]. field. lra.
Qed.

(** Every hypothesis of C85_derivative_partial but the one that the joints are distinct. *)
Theorem C85_shared_joint_refuted : exists nv nu nj fd arm mu rb tau cs bufJ bufa bufd s d dx du Kinv rq rv adx adu,
  let pcs := contacts nv s cs in
  let nc := nc_active (item_list pcs) in
  let J t := stack zv false (row_list pcs t) 0 (bufJ t) in
  let a0 t := stack 0 false (acc_list pcs t) 0 (bufa t) in
  let sol t := contact_calc fd arm mu (r_M rb t) (r_nle rb t) (tau t) (J t) (a0 t) in
  let a := fst (sol s) in let f := snd (sol s) in
  let pub := spread false pcs 0 f in
  0 < d /\ smooth nv rb s /\ jac (nv + nv) nu nv tau s dx du adx adu /\
  (forall t, near s d t -> solves_contact nv nc fd (add_armature arm (r_M rb t)) (J t) (fun i => tau t i - r_nle rb t i) (a0 t) mu) /\
  (forall m k0 ka, In (m, (k0, ka)) cs -> cm_active m = true -> good_contact nv (r_G rb) s dx a m k0 ka) /\
  (forall j, In j (joints (item_list pcs)) -> (j < nj)%nat) /\
  rnea_contract nv nj rb s dx a (snd (update false (force_list pcs s) 0 f (fun _ => z6))) rq rv /\
  left_inverse (nv + nc) Kinv (kkt nv (inertia arm (r_M rb s)) (J s) mu) /\
  let rq' := rnea_diff (dtau_of pub) rq in
  let da0 := stack zv false (da0_of pub) 0 bufd in
  ~ jac (nv + nv) nu nv (fun t => fst (sol t)) s dx du (contact_Fx nv nc Kinv rq' rv da0 adx) (contact_Fu nv Kinv adu) /\
  ~ jac (nv + nv) nu nc (fun t => snd (sol t)) s dx du (contact_df_dx nv nc Kinv rq' rv da0 adx) (contact_df_du nv Kinv adu).
Proof.
  set (s := PI / 4).
  assert (SC : 0 < sin s * cos s).
  { apply Rmult_lt_0_compat; [apply sin_gt_0|apply cos_gt_0]; unfold s; pose proof PI_RGT_0; lra. }
  pose proof (cart_D_pos s) as D.
  exists 2%nat, 0%nat, 3%nat, cart_fd, None, 1, cart_rb, cart_tau, (cart_cs s), (fun _ _ _ => 0), (fun _ _ => 0), (fun _ _ => 0), s, 1,
    cart_dx, (fun _ => 0), (cart_Kinv s), (cart_rq s), (fun _ _ => 0), (fun _ _ => 0), (fun _ _ => 0).
  intros pcs nc J a0 sol a f pub.
  assert (E : forall rq, rnea_diff (dtau_of pub) rq = rq) by reflexivity.
  split; [lra|split; [|split; [|split; [|split; [|split; [|split; [|split]]]]]]].
  - exact (cart_smooth s).
  - exact (cart_jac s).
  - intros t _. exact (cart_solves s t).
  - intros m k0 ka [H|[H|[]]] _; injection H as <- <- <-; exact (cart_good s).
  - intros j [<- |[<- |[]]]; cbn; lia.
  - exact (cart_rnea s).
  - exact (cart_Kinv_ok s).
  - intros rq' da0. split; intro H.
    + specialize (H 0%nat ltac:(lia)).
      pose proof (duniq _ _ _ _ H (cart_dacc s)) as X. clear H.
      unfold contact_Fx, contact_Fu, rq', da0 in X. rewrite E in X. change nc with 2%nat in X.
      cbn [rsum Nat.add Nat.ltb Nat.leb Nat.sub] in X. change pub with (spread false (contacts 2 s (cart_cs s)) 0 (snd (cart_sol s s))) in X.
      rewrite !(cart_da0 s) in X by lia.
      unfold cart_rq, cart_dx, cart_Kinv in X. cbn [Nat.eqb andb] in X.
      assert (Y : / cart_D s * / cart_D s * (sin s * cos s) = 0).
      { clear - X D. revert X. 
        unfold Rdiv. replace (/ (cart_D s * cart_D s)) with (/ cart_D s * / cart_D s) by (field; lra). generalize (/ cart_D s) (sin s) (cos s). intros; lra. }
      pose proof (Rinv_0_lt_compat _ D) as P. pose proof (Rmult_lt_0_compat _ _ (Rmult_lt_0_compat _ _ P P) SC). lra.
    + specialize (H 0%nat ltac:(cbn; lia)).
      pose proof (duniq _ _ _ _ H (cart_dforce s)) as X. clear H.
      unfold contact_df_dx, contact_df_du, rq', da0 in X. rewrite E in X. change nc with 2%nat in X.
      cbn [rsum Nat.add Nat.ltb Nat.leb Nat.sub] in X. change pub with (spread false (contacts 2 s (cart_cs s)) 0 (snd (cart_sol s s))) in X.
      rewrite !(cart_da0 s) in X by lia.
      unfold cart_rq, cart_dx, cart_Kinv in X. cbn [Nat.eqb andb] in X.
      assert (Y : / cart_D s * / cart_D s * (sin s * (sin s * cos s)) = 0).
      { clear - X D. revert X.
        unfold Rdiv. replace (/ (cart_D s * cart_D s)) with (/ cart_D s * / cart_D s) by (field; lra). generalize (/ cart_D s) (sin s) (cos s). intros; lra. }
      assert (S0 : 0 < sin s) by (apply sin_gt_0; unfold s; pose proof PI_RGT_0; lra).
      pose proof (Rinv_0_lt_compat _ D) as P. pose proof (Rmult_lt_0_compat _ _ (Rmult_lt_0_compat _ _ P P) (Rmult_lt_0_compat _ _ S0 SC)). lra.
Qed.
Print Assumptions C85_shared_joint_refuted.
