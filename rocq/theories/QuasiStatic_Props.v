(** C91: quasiStatic returns a control that keeps the state at rest. *)
From Coquelicot Require Import Coquelicot.
From Coq Require Import Reals List Arith Bool Lia Lra.
From Verif Require Import Deriv VecMat Spatial MultiContact_Model MultiContact_Proofs Actuation_Model Actuation_Proofs Actuation_Props
  ControlParam_Model ControlParam_Spec ControlParam_Props Integrator_Model Integrator_Spec Integrator_Props
  FwdDyn_Model FwdDyn_Spec FwdDyn_Proofs FwdDyn_Props InvDyn_Spec InvDyn_Proofs InvDyn_Props QuasiStatic_Model.
Import ListNotations.
Open Scope R_scope.

(** *** Specification *)
(** What the pseudo-inverse [P] of an m x n matrix promises: A P A = A. *)
Definition pseudo (m n : nat) (A P : mat) : Prop := forall i j, (i < m)%nat -> (j < n)%nat -> mulm n A (mulm m P A) i j = A i j.
(** The torque is linear in the control, with the Jacobian the actuation publishes. *)
Definition linear_torque (nv na : nat) (tau : vec -> vec) (B : mat) : Prop :=
  forall u i, (i < nv)%nat -> tau u i = rsum na (fun j => B i j * u j).

Lemma mulm_ext n A B B' i j : (forall k, (k < n)%nat -> B k j = B' k j) -> mulm n A B i j = mulm n A B' i j.
Proof. intro H. unfold mulm. apply rsum_ext. intros k Hk. now rewrite H. Qed.
Lemma pinv_solves m n A P g z : pseudo m n A P -> (forall i, (i < m)%nat -> mulv n A z i = g i) ->
  forall i, (i < m)%nat -> mulv n A (mulv m P g) i = g i.
Proof.
  intros HP HG i Hi.
  assert (E : forall k, mulv m P g k = mulv n (mulm m P A) z k).
  { intro k. rewrite mulv_mulm. unfold mulv at 1 2. apply rsum_ext. intros j Hj. now rewrite HG. }
  unfold mulv at 1. rewrite (rsum_ext n _ (fun j => A i j * mulv n (mulm m P A) z j)) by (intros; now rewrite E).
  change (mulv n A (mulv n (mulm m P A) z) i = g i). rewrite <- mulv_mulm. rewrite <- (HG i Hi).
  unfold mulv. apply rsum_ext. intros j Hj. now rewrite HP.
Qed.

(** *** The default implementation *)
(** On a model that is affine in the control, one iteration is enough: whatever the initial control, the
    tolerance and the number of iterations, an equilibrium is found if there is one. *)
Theorem C91_affine : forall m nu nx pinv r Fu B c maxiter tol u0 u,
  (forall u i, (i < m)%nat -> r u i = c i + rsum nu (fun j => B i j * u j)) -> (forall u, Fu u = B) -> pseudo m nu B (pinv B) ->
  (exists u, forall i, (i < m)%nat -> r u i = 0) -> (1 <= maxiter)%nat ->
  quasi_static m nu pinv r Fu nx nu nx maxiter tol u0 = Some u -> forall i, (i < m)%nat -> r u i = 0.
Proof.
  intros m nu nx pinv r Fu B c maxiter tol u0 u HR HF HP [us HU] HM H.
  assert (ST : forall v i, (i < m)%nat -> r (fun j => v j + qs_du m pinv r Fu v j) i = 0).
  { intros v i Hi. rewrite HR by assumption. unfold qs_du. rewrite HF.
    assert (X := pinv_solves m nu B (pinv B) (r v) (fun j => v j - us j) HP).
    assert (Y : mulv nu B (mulv m (pinv B) (r v)) i = r v i).
    { apply X; [|exact Hi]. intros k Hk. rewrite HR by assumption. assert (Z := HU k Hk). rewrite HR in Z by assumption.
      unfold mulv. rewrite (rsum_ext nu _ (fun j => B k j * v j - B k j * us j)) by (intros; ring). rewrite rsum_minus. lra. }
    rewrite (rsum_ext nu _ (fun j => B i j * v j - B i j * mulv m (pinv B) (r v) j)) by (intros; ring). rewrite rsum_minus.
    change (rsum nu (fun j => B i j * mulv m (pinv B) (r v) j)) with (mulv nu B (mulv m (pinv B) (r v)) i). rewrite Y, (HR v i Hi). ring. }
  assert (LP : forall k v, (1 <= k)%nat -> forall i, (i < m)%nat -> r (qs_loop m nu pinv r Fu k tol v) i = 0).
  { induction k as [|k IH]; intros v Hk i Hi; [lia|]. cbn [qs_loop]. cbv zeta. destruct (Rle_dec _ _); [now apply ST|].
    destruct k as [|k]; [now apply ST|]. apply IH; [lia|exact Hi]. }
  unfold quasi_static in H. rewrite !Nat.eqb_refl in H. cbn [negb] in H.
  assert (Y : forall x y : vec, Some x = Some y -> x = y) by congruence. apply Y in H. subst u.
  destruct (Nat.eqb_spec nu 0) as [E|E]; [|now apply LP]. intros i Hi. rewrite HR by assumption. rewrite <- (HU i Hi), HR by assumption. subst nu. reflexivity.
Qed.
(** The sizes are checked, nothing else can fail. *)
Theorem C91_sizes : forall m nu pinv r Fu nx us xs maxiter tol u,
  (exists u', quasi_static m nu pinv r Fu nx us xs maxiter tol u = Some u') <-> us = nu /\ xs = nx.
Proof.
  intros. unfold quasi_static. destruct (Nat.eqb_spec us nu), (Nat.eqb_spec xs nx); cbn [negb]; split; try (intros [? ?]; discriminate); try tauto; eauto; intros [? ?]; congruence.
Qed.
(** Newton's method may cycle: r(u) = u^3 - 2 u + 2 has a zero, its Jacobian is exact, and for every
    number of iterations and tolerance below 1 the control returned from 0 is 0 or 1. *)
Definition cyc_r (u : vec) : vec := fun _ => u 0%nat ^ 3 - 2 * u 0%nat + 2.
Definition cyc_F (u : vec) : mat := fun _ _ => 3 * u 0%nat ^ 2 - 2.
Definition sc_pinv (A : mat) : mat := fun _ _ => / A 0%nat 0%nat.
Theorem C91_newton_refuted :
  (forall u : vec, is_derive (fun t => cyc_r (fun _ => t) 0%nat) (u 0%nat) (cyc_F u 0%nat 0%nat)) /\
  (exists u, cyc_r u 0%nat = 0) /\
  (forall u, cyc_F u 0%nat 0%nat <> 0 -> pseudo 1 1 (cyc_F u) (sc_pinv (cyc_F u))) /\
  forall maxiter tol u, tol < 1 -> quasi_static 1 1 sc_pinv cyc_r cyc_F 2 1 2 maxiter tol (fun _ => 0) = Some u -> 1 <= cyc_r u 0%nat.
Proof.
  split; [|split; [|split]].
  - intro u. unfold cyc_r, cyc_F. auto_derive; [exact I|ring].
  - destruct (IVT_cor (fun t => t ^ 3 - 2 * t + 2) (-2) 0) as (z & _ & E).
    + reg.
    + lra.
    + cbn. lra.
    + exists (fun _ => z). exact E.
  - intros u H i j Hi Hj. assert (i = 0%nat) by lia. assert (j = 0%nat) by lia. subst. unfold mulm, sc_pinv. cbn [rsum]. unfold cyc_F in *. field. exact H.
  - intros maxiter tol u HT H.
    assert (A0 : forall v : vec, v 0%nat = 0 -> qs_du 1 sc_pinv cyc_r cyc_F v 0%nat = 1).
    { intros v V. unfold qs_du, mulv, sc_pinv. cbn [rsum]. unfold cyc_r, cyc_F. rewrite V. field; lra. }
    assert (A1 : forall v : vec, v 0%nat = 1 -> qs_du 1 sc_pinv cyc_r cyc_F v 0%nat = -1).
    { intros v V. unfold qs_du, mulv, sc_pinv. cbn [rsum]. unfold cyc_r, cyc_F. rewrite V. field; lra. }
    assert (N : forall v : vec, v 0%nat = 1 \/ v 0%nat = -1 -> norm 1 v = 1).
    { intros v V. unfold norm. cbn [rsum]. replace (0 + v 0%nat * v 0%nat) with 1 by (destruct V as [V|V]; rewrite V; ring). apply sqrt_1. }
    assert (L : forall k v, v 0%nat = 0 \/ v 0%nat = 1 -> qs_loop 1 1 sc_pinv cyc_r cyc_F k tol v 0%nat = 0 \/ qs_loop 1 1 sc_pinv cyc_r cyc_F k tol v 0%nat = 1).
    { induction k as [|k IH]; intros v V; [exact V|]. cbn [qs_loop]. cbv zeta. destruct (Rle_dec _ _) as [LE|_].
      - rewrite N in LE; [lra|]. destruct V as [V|V]; [left; now apply A0|right; now apply A1].
      - apply IH. destruct V as [V|V]; [right; rewrite (A0 v V), V; ring|left; rewrite (A1 v V), V; ring]. }
    assert (G : forall v : vec, v 0%nat = 0 \/ v 0%nat = 1 -> 1 <= cyc_r v 0%nat) by (intros v [E|E]; unfold cyc_r; rewrite E; lra).
    unfold quasi_static in H. cbn [Nat.eqb negb] in H. assert (Y : forall x y : vec, Some x = Some y -> x = y) by congruence. apply Y in H. rewrite <- H.
    apply G, L. now left.
Qed.

(** *** Free forward dynamics *)
(** At zero velocity, when the actuation can balance the gravity at all, calc with the control returned
    gives the acceleration 0, with or without armature. *)
Theorem C91_free : forall nv na pinv aba minv arm M g tau B,
  aba_solves nv M g aba -> inverts nv minv (add_armature arm M) -> linear_torque nv na tau B -> pseudo nv na B (pinv B) ->
  (exists u, forall i, (i < nv)%nat -> tau u i = g i) ->
  forall i, (i < nv)%nat -> free_xout nv aba minv arm M g (tau (free_qs nv pinv B g)) i = 0.
Proof.
  intros nv na pinv aba minv arm M g tau B HA HI HL HP [us HU] i Hi. set (u := free_qs nv pinv B g).
  assert (TU : forall k, (k < nv)%nat -> tau u k = g k).
  { intros k Hk. rewrite HL by assumption. apply (pinv_solves nv na B (pinv B) g us HP); [|exact Hk]. intros l Hl. unfold mulv. rewrite <- HL by assumption. now apply HU. }
  assert (X := C84_motion nv aba minv arm M g (tau u) HA HI). set (a := free_xout nv aba minv arm M g (tau u)) in *.
  assert (Z : forall k, (k < nv)%nat -> mulv nv (add_armature arm M) a k = 0).
  { intros k Hk. specialize (X k Hk). rewrite TU in X by assumption. unfold mulv.
    rewrite (rsum_ext nv _ (fun j => inertia arm M k j * a j)) by (intros; now rewrite add_armature_inertia). lra. }
  rewrite <- (rsum_id_l nv i a Hi). destruct HI as [LI _].
  rewrite (rsum_ext nv _ (fun j => mulm nv (minv (add_armature arm M)) (add_armature arm M) i j * a j)) by (intros j Hj; now rewrite LI).
  change (mulv nv (mulm nv (minv (add_armature arm M)) (add_armature arm M)) a i = 0). rewrite mulv_mulm.
  unfold mulv at 1. apply rsum_0. intros j Hj. rewrite Z by assumption. ring.
Qed.
(** The full and floating-base actuations are linear in the control, after any calls. *)
Theorem C91_actuations : forall nfb nu nv cs cs',
  linear_torque (nfb + nu) nu (fun u => t_tau (fb_calc nfb u (fb_run nfb cs))) (t_du (fb_run nfb cs)) /\
  linear_torque nv nv (fun u => t_tau (full_calc u (full_run cs'))) (t_du (full_run cs')).
Proof.
  intros nfb nu nv cs cs'. split; intros u i Hi.
  - destruct (fb_run_inv nfb cs) as (A & B & _). cbn [fb_calc with_tau t_tau] in *. rewrite B. cbn [fb_create t_du].
    destruct (Nat.ltb_spec i nfb) as [L|L].
    + rewrite A by assumption. symmetry. apply rsum_0. intros j Hj. replace (i =? j + nfb)%nat with false by (symmetry; apply Nat.eqb_neq; lia). ring.
    + rewrite (rsum_single nu (i - nfb)%nat); [|lia|].
      * replace (i =? i - nfb + nfb)%nat with true by (symmetry; apply Nat.eqb_eq; lia). ring.
      * intros j Hj ne. replace (i =? j + nfb)%nat with false by (symmetry; apply Nat.eqb_neq; lia). ring.
  - destruct (full_run_inv cs') as (A & _). cbn [full_calc with_tau t_tau]. rewrite A. symmetry. now apply rsum_id_l.
Qed.

(** *** Contact forward dynamics *)
Lemma jstatic_mul na nc B J z i : mulv (na + nc) (jstatic na B J) z i = rsum na (fun j => B i j * z j) + rsum nc (fun r => J r i * z (na + r)%nat).
Proof.
  unfold mulv. rewrite rsum_app. f_equal; apply rsum_ext; intros j Hj; unfold jstatic.
  - now rewrite (proj2 (Nat.ltb_lt _ _) Hj).
  - rewrite (proj2 (Nat.ltb_ge _ _)) by lia. now replace (na + j - na)%nat with j by lia.
Qed.
(** Torques and contact forces of the decomposition balance the gravity whenever some do. *)
Lemma static_balance nv na nc pinv B J g : pseudo nv (na + nc) (jstatic na B J) (pinv (jstatic na B J)) ->
  (exists u f, forall i, (i < nv)%nat -> rsum na (fun j => B i j * u j) + rsum nc (fun r => J r i * f r) = g i) ->
  let z := contact_qs nv na pinv B J g in
  forall i, (i < nv)%nat -> rsum na (fun j => B i j * z j) + rsum nc (fun r => J r i * z (na + r)%nat) = g i.
Proof.
  intros HP (us & fs & HU) z i Hi. rewrite <- jstatic_mul.
  apply (pinv_solves nv (na + nc) _ _ g (fun k => if k <? na then us k else fs (k - na)%nat) HP); [|exact Hi].
  intros k Hk. rewrite jstatic_mul, <- (HU k Hk). f_equal; apply rsum_ext; intros j Hj.
  - now rewrite (proj2 (Nat.ltb_lt _ _) Hj).
  - rewrite (proj2 (Nat.ltb_ge _ _)) by lia. now replace (na + j - na)%nat with j by lia.
Qed.
(** At zero velocity, for contacts that hold their references (a0 = 0) and no damping: when torques and
    contact forces can balance the gravity, calc with the control returned gives the acceleration 0 and
    forces that do. *)
Theorem C91_contact_partial : forall nv na nc pinv fd arm M g tau B J a0 Kinv,
  solves_contact nv nc fd (add_armature arm M) J (fun i => tau (contact_qs nv na pinv B J g) i - g i) a0 0 ->
  left_inverse (nv + nc) Kinv (kkt nv (inertia arm M) J 0) -> (forall r, (r < nc)%nat -> a0 r = 0) ->
  linear_torque nv na tau B -> pseudo nv (na + nc) (jstatic na B J) (pinv (jstatic na B J)) ->
  (exists u f, forall i, (i < nv)%nat -> tau u i + rsum nc (fun r => J r i * f r) = g i) ->
  let u := contact_qs nv na pinv B J g in
  let (a, f) := contact_calc fd arm 0 M g (tau u) J a0 in
  (forall i, (i < nv)%nat -> a i = 0) /\ (forall i, (i < nv)%nat -> tau u i + rsum nc (fun r => J r i * f r) = g i).
Proof.
  intros nv na nc pinv fd arm M g tau B J a0 Kinv SC LI A0 HL HP (us & fs & HU) u.
  assert (X := C85_motion nv nc fd arm 0 M g (tau u) J a0 SC). destruct (contact_calc fd arm 0 M g (tau u) J a0) as [a f].
  assert (Y : constrained_motion nv nc (inertia arm M) g (tau u) J a0 0 (fun _ => 0) (fun r => u (na + r)%nat)).
  { split.
    - intros i Hi. rewrite rsum_0 by (intros; ring). rewrite Rplus_0_l, HL by assumption. symmetry.
      apply (static_balance nv na nc pinv B J g HP); [|exact Hi]. exists us, fs. intros k Hk. rewrite <- HL by assumption. now apply HU.
    - intros r Hr. rewrite rsum_0 by (intros; ring). rewrite A0 by assumption. ring. }
  destruct (motion_unique _ _ _ _ _ _ _ _ _ _ _ _ _ LI X Y) as [H1 H2]. split; [exact H1|].
  intros i Hi. destruct Y as [Y _]. specialize (Y i Hi). rewrite rsum_0 in Y by (intros; ring).
  rewrite (rsum_ext nc _ (fun r => J r i * u (na + r)%nat)) by (intros; now rewrite H2). lra.
Qed.
(** With a damping in the contact dynamics the state is not kept: the contact gives way under its own
    force.  A mass of 1 on a damped floor. *)
Definition dm_fd (M J : mat) (b a0 : vec) (mu : R) : vec * vec := (fun _ => b 0%nat * mu / (1 + mu), fun _ => - b 0%nat / (1 + mu)).
Theorem C91_damping_refuted : forall mu, 0 < mu ->
  let M := fun _ _ => 1 in let J := fun _ _ => 1 in let B := fun _ _ => 0 in let g := fun _ => 1 in let tau := fun _ _ => 0 in
  exists P, pseudo 1 (0 + 1) (jstatic 0 B J) P /\ linear_torque 1 0 tau B /\
  (exists u f, forall i, (i < 1)%nat -> tau u i + rsum 1 (fun r => J r i * f r) = g i) /\
  let u := contact_qs 1 0 (fun _ => P) B J g in
  solves_contact 1 1 dm_fd M J (fun i => tau u i - g i) (fun _ => 0) mu /\
  fst (contact_calc dm_fd None mu M g (tau u) J (fun _ => 0)) 0%nat < 0.
Proof.
  intros mu Hmu M J B g tau. exists (fun _ _ => 1). split; [|split; [|split; [|split]]].
  - intros i j Hi Hj. unfold mulm, jstatic, J. cbn [rsum Nat.ltb Nat.leb Nat.add]. ring.
  - intros u i Hi. reflexivity.
  - exists (fun _ => 0), (fun _ => 1). intros i Hi. unfold tau, J, g. cbn [rsum]. ring.
  - split; intros i Hi; unfold dm_fd, tau, g, M, J; cbn [rsum fst snd]; field; lra.
  - unfold contact_calc, dm_fd, tau, g. cbn [fst]. apply Rmult_lt_reg_r with (1 + mu); [lra|]. field_simplify; lra.
Qed.

(** *** Contact inverse dynamics *)
Lemma scatter_before na nv cs : forall nc nr z u i, (i < nv + nc)%nat -> qs_scatter na nv cs nc nr z u i = u i.
Proof.
  induction cs as [|c cs IH]; intros nc nr z u i H; [reflexivity|]. cbn [qs_scatter]. destruct (c_active c); rewrite IH by lia; apply setseg_out; lia.
Qed.
Lemma scatter_active na nv cs : forall nc nr z u r, (r < nc_active cs)%nat ->
  qs_scatter na nv cs nc nr z u (nv + nth r (active_rows cs nc) 0)%nat = z (na + nr + r)%nat.
Proof.
  induction cs as [|c cs IH]; intros nc nr z u r H; [cbn in H; lia|]. cbn [qs_scatter active_rows]. unfold nc_active in H. cbn [fold_right] in H. fold (nc_active cs) in H.
  destruct (c_active c).
  - destruct (Nat.lt_ge_cases r (c_nc c)) as [L|L].
    + rewrite app_nth1 by (now rewrite seq_length). rewrite seq_nth by assumption. rewrite scatter_before by lia.
      rewrite Nat.add_assoc, setseg_in by assumption. reflexivity.
    + rewrite app_nth2 by (now rewrite seq_length). rewrite seq_length, IH by lia. f_equal. lia.
  - cbn [app]. now rewrite IH.
Qed.
(** The rows of inactive contacts. *)
Fixpoint inactive_row (cs : list citem) (nc k : nat) : Prop :=
  match cs with
  | [] => False
  | c :: cs' => (c_active c = false /\ (nc <= k < nc + c_nc c)%nat) \/ inactive_row cs' (nc + c_nc c) k
  end.
Lemma inactive_row_ge cs : forall nc k, inactive_row cs nc k -> (nc <= k)%nat.
Proof. induction cs as [|c cs IH]; intros nc k; cbn; [tauto|]. intros [[_ H]|H]; [lia|]. apply IH in H. lia. Qed.
Lemma scatter_inactive na nv cs : forall nc nr z u k, inactive_row cs nc k -> qs_scatter na nv cs nc nr z u (nv + k)%nat = 0.
Proof.
  induction cs as [|c cs IH]; intros nc nr z u k H; [destruct H|]. cbn [qs_scatter inactive_row] in *. destruct H as [[E H]|H].
  - rewrite E. rewrite scatter_before by lia. replace (nv + k)%nat with (nv + nc + (k - nc))%nat by lia. now rewrite setseg_in by lia.
  - destruct (c_active c); now apply IH.
Qed.
Lemma nc_active_total cs : (nc_active cs <= nc_total cs)%nat.
Proof. induction cs as [|c cs IH]; [cbn; lia|]. unfold nc_active, nc_total in *. cbn [fold_right]. destruct (c_active c); lia. Qed.
(** When the rows of the Jacobian behind those of the active contacts are zero (in particular when all
    contacts are active, or the data are new), the control returned is the acceleration 0, no force at the
    inactive contacts, and forces at the active ones that balance the gravity together with torques. *)
Theorem C91_inverse_partial : forall nv na pinv B g rows bufJ,
  let cs := map fst rows in
  let nc := nc_active cs in
  let J := stack (fun _ => 0) false rows 0 bufJ in
  (forall k i, (nc <= k < nc_total cs)%nat -> (i < nv)%nat -> bufJ k i = 0) ->
  pseudo nv (na + nc_total cs) (jstatic na B J) (pinv (jstatic na B J)) ->
  (exists u f, forall i, (i < nv)%nat -> rsum na (fun j => B i j * u j) + rsum nc (fun r => J r i * f r) = g i) ->
  let u := inv_qs nv na pinv B g rows bufJ in
  (forall i, (i < nv)%nat -> u i = 0) /\
  (forall k, inactive_row cs 0 k -> u (nv + k)%nat = 0) /\
  exists w, forall i, (i < nv)%nat ->
    rsum na (fun j => B i j * w j) + rsum nc (fun r => J r i * active_part cs (fun k => u (nv + k)%nat) r) = g i.
Proof.
  intros nv na pinv B g rows bufJ cs nc J ZB HP (us & fs & HU) u. unfold u, inv_qs. cbv zeta. fold cs. fold J.
  set (z := mulv nv (pinv (jstatic na B J)) g). split; [|split].
  - intros i Hi. apply scatter_before. lia.
  - intros k Hk. now apply scatter_inactive.
  - exists z. intros i Hi.
    assert (ZJ : forall k i, (nc <= k < nc_total cs)%nat -> (i < nv)%nat -> J k i = 0).
    { intros k j Hk Hj. unfold J. assert (X : stack (fun _ : nat => 0) false rows 0 bufJ k = bufJ k).
      { assert (Y : forall l n b m, (n + nc_active (map fst l) <= m)%nat -> stack (fun _ : nat => 0) false l n b m = b m).
        { induction l as [|[c r] l IH]; intros n b m H; [reflexivity|]. cbn [map fst] in H. unfold nc_active in H. cbn [fold_right] in H. fold (nc_active (map fst l)) in H.
          cbn [stack]. destruct (c_active c); [|now apply IH]. rewrite IH by lia. apply setseg_out. lia. }
        apply Y. fold cs. unfold nc in Hk. lia. }
      rewrite X. now apply ZB. }
    assert (NL : (nc <= nc_total cs)%nat) by apply nc_active_total.
    assert (CUT : forall (f : vec) k, (k < nv)%nat -> rsum (nc_total cs) (fun r => J r k * f r) = rsum nc (fun r => J r k * f r)).
    { intros f k Hk. replace (nc_total cs) with (nc + (nc_total cs - nc))%nat by lia. rewrite rsum_app. rewrite (rsum_0 (nc_total cs - nc)); [ring|].
      intros r Hr. rewrite ZJ by lia. ring. }
    rewrite (rsum_ext nc _ (fun r => J r i * z (na + r)%nat)).
    + rewrite <- (CUT (fun r => z (na + r)%nat) i Hi). apply (static_balance nv na (nc_total cs) pinv B J g HP); [|exact Hi].
      exists us, fs. intros k Hk. rewrite CUT by assumption. now apply HU.
    + intros r Hr. f_equal. unfold active_part. rewrite scatter_active by assumption. f_equal. lia.
Qed.
(** Otherwise old rows count as contacts.  A mass of 1 on the second of two contacts: with new data the
    force is 1; after a calc (which leaves the rows of the two contacts in the Jacobian) it is 1/2, which
    does not carry the mass. *)
Definition st_item (active : bool) : citem := CItem 1 active 1 false.
Definition st_rows : list (citem * (nat -> vec)) := [(st_item false, fun _ _ => 1); (st_item true, fun _ _ => 1)].
(** Moore-Penrose inverse of the row [x y] *)
Definition row_pinv (A : mat) : mat := fun i _ => A 0%nat i / (A 0%nat 0%nat ^ 2 + A 0%nat 1%nat ^ 2).
Theorem C91_stale_refuted :
  let new := fun _ _ => 0 in
  let old := stack (fun _ => 0) true st_rows 0 new in
  (forall A, A 0%nat 0%nat <> 0 -> pseudo 1 2 A (row_pinv A)) /\
  inv_qs 1 0 row_pinv (fun _ _ => 0) (fun _ => 1) st_rows new 2%nat = 1 /\
  inv_qs 1 0 row_pinv (fun _ _ => 0) (fun _ => 1) st_rows old 2%nat = 1 / 2.
Proof.
  intros new old. split; [|split].
  - intros A HA i j Hi Hj. assert (i = 0%nat) by lia. subst i. unfold mulm, row_pinv. cbn [rsum].
    assert (0 < A 0%nat 0%nat ^ 2 + A 0%nat 1%nat ^ 2) by (assert (0 < A 0%nat 0%nat ^ 2) by (apply pow2_gt_0; exact HA); assert (0 <= A 0%nat 1%nat ^ 2) by apply pow2_ge_0; lra).
    field. lra.
  - unfold inv_qs, st_rows, st_item. cbn [map fst qs_scatter c_active c_nc stack]. unfold setseg, mulv, row_pinv, jstatic, new. cbn [Nat.leb Nat.ltb Nat.add Nat.sub andb rsum]. field.
  - unfold inv_qs, old, st_rows, st_item. cbn [map fst qs_scatter c_active c_nc stack]. unfold setseg, mulv, row_pinv, jstatic, new. cbn [Nat.leb Nat.ltb Nat.add Nat.sub andb rsum]. field.
Qed.

(** *** Integrated models *)
(** A control found by the differential model for a state at rest keeps it at rest under Euler and all
    Runge-Kutta rules, for every parametrization of the control, time step and content of the data. *)
Theorem C91_euler : forall nv nw p dm ts qs x d d', supported p -> local_model nv nw dm ->
  (forall i, (i < nv)%nat -> x (nv + i)%nat = 0) -> (forall i, (i < nv)%nat -> acc dm x (qs (fun _ => 0)) i = 0) ->
  let u := fst (euler_qs p nw qs d) in
  forall i, (i < 2 * nv)%nat -> xnext (e_act (euler_calc nv nw p dm ts x u d')) i = x i.
Proof.
  intros nv nw p dm ts qs x d d' SP LM V A u i Hi. unfold euler_calc. cbn [e_act xnext]. set (w := cp_w (cp_calc p nw 0 u (e_cp d'))).
  assert (W : forall k, (k < nw)%nat -> w k = qs (fun _ => 0) k).
  { intros k Hk. unfold w, u, euler_qs. cbn [fst]. now apply C34_round_trip. }
  destruct (LM x x w (qs (fun _ => 0)) (fun _ _ => eq_refl) W) as [E _]. rewrite E.
  destruct (Nat.ltb_spec i nv) as [L|L].
  - rewrite V, A by assumption. ring.
  - rewrite A by lia. ring.
Qed.
Theorem C91_rk : forall nv nw p dm ts rk qs x d d', supported p -> local_model nv nw dm ->
  (forall i, (i < nv)%nat -> x (nv + i)%nat = 0) -> (forall i, (i < nv)%nat -> acc dm x (qs (fun _ => 0)) i = 0) ->
  (forall w w', (forall i, w i = w' i) -> qs w = qs w') ->
  let u := fst (rk_qs p nw qs d) in
  forall i, (i < 2 * nv)%nat -> xnext (r_act (rk_calc nv nw p dm ts rk x u d')) i = x i.
Proof.
  intros nv nw p dm ts rk qs x d d' SP LM V A QE u i Hi. unfold rk_calc. cbn [r_act xnext].
  set (w := fun k => cp_w (cp_calc p nw (rk_c rk k) u (r_cp d' k))).
  assert (W : forall n k, (k < nw)%nat -> w n k = qs (fun _ => 0) k).
  { intros n k Hk. unfold w, u, rk_qs. cbn [fst]. rewrite C34_round_trip by assumption. rewrite (QE _ (fun _ => 0)); [reflexivity|]. intro; ring. }
  assert (K : forall n y, (forall k, (k < 2 * nv)%nat -> y k = x k) -> forall k, (k < 2 * nv)%nat -> rk_k_of nv dm w n y k = 0).
  { intros n y Y k Hk. unfold rk_k_of. destruct (LM y x (w n) (qs (fun _ => 0)) Y (W n)) as [E _].
    destruct (Nat.ltb_spec k nv) as [L|L]; [rewrite Y by lia; apply V; lia|]. rewrite E. apply A. lia. }
  assert (Y : forall n k, (k < 2 * nv)%nat -> rk_y nv dm ts rk x w n k = x k).
  { induction n as [|n IH]; intros k Hk; [reflexivity|]. cbn [rk_y]. rewrite K by auto. ring. }
  assert (Z : forall n, rk_k nv dm ts rk x w n i = 0) by (intro n; unfold rk_k; apply K; [apply Y|exact Hi]).
  unfold combo. destruct rk; rewrite !Z; field.
Qed.

(** *** Squashed actuations *)
(** The torque is not linear in the control: the result does not balance the gravity although some
    control does.  Bounds -1 and 1, smoothness 3/4, gravity 1/2. *)
Definition id_map : amap := AMap (fun _ s => s) (fun _ _ _ _ => 0) (fun _ _ => idm) (fun _ => true).
Lemma sq_ex_tau (u : vec) : t_tau (q_out (sa_calc id_map sq_ex (fun _ => 0) u sa_create)) 0%nat
  = / 2 * (sqrt ((u 0%nat + 1) ^ 2 + 9 / 4) - sqrt ((u 0%nat - 1) ^ 2 + 9 / 4)).
Proof.
  unfold sa_calc, sq_calc. cbn [q_out t_tau am_tau id_map sq_ex s_ulb s_uub s_a]. unfold sq_d.
  replace ((u 0%nat - -1) ^ 2 + (1 - -1) * (3 / 4) * ((1 - -1) * (3 / 4))) with ((u 0%nat + 1) ^ 2 + 9 / 4) by field.
  replace ((u 0%nat - 1) ^ 2 + (1 - -1) * (3 / 4) * ((1 - -1) * (3 / 4))) with ((u 0%nat - 1) ^ 2 + 9 / 4) by field. field.
Qed.
Lemma sq_ex_half (x : R) : 0 <= x -> / 2 * (sqrt ((x + 1) ^ 2 + 9 / 4) - sqrt ((x - 1) ^ 2 + 9 / 4)) = 1 / 2 -> x = 1.
Proof.
  intros P H. set (A := sqrt ((x + 1) ^ 2 + 9 / 4)) in *. set (B := sqrt ((x - 1) ^ 2 + 9 / 4)) in *.
  assert (PA : 0 <= (x + 1) ^ 2 + 9 / 4) by (pose proof (pow2_ge_0 (x + 1)); lra).
  assert (PB : 0 <= (x - 1) ^ 2 + 9 / 4) by (pose proof (pow2_ge_0 (x - 1)); lra).
  assert (EA : A * A = (x + 1) ^ 2 + 9 / 4) by (apply sqrt_sqrt; exact PA).
  assert (EB : B * B = (x - 1) ^ 2 + 9 / 4) by (apply sqrt_sqrt; exact PB).
  assert (AB : A = B + 1) by lra. rewrite AB in EA.
  assert (E2 : 2 * B = 4 * x - 1) by nra.
  assert (E3 : x * x = 1) by nra. nra.
Qed.
Theorem C91_squashing_refuted : exists am m g, sq_run (fun _ => -1) (fun _ => 1) [3 / 4] = Some m /\
  (exists u, t_tau (q_out (sa_calc am m (fun _ => 0) u sa_create)) 0%nat = g 0%nat) /\
  exists d, sa_calcDiff 1 am m (fun _ => 0) (fun _ => 0) (sa_calc am m (fun _ => 0) (fun _ => 0) sa_create) = Some d /\
  pseudo 1 1 (t_du (q_out d)) (sc_pinv (t_du (q_out d))) /\
  t_tau (q_out (sa_calc am m (fun _ => 0) (free_qs 1 sc_pinv (t_du (q_out d)) g) sa_create)) 0%nat <> g 0%nat.
Proof.
  exists id_map, sq_ex, (fun _ => 1 / 2). split; [exact sq_ex_run|]. split.
  - exists (fun _ => 1). rewrite sq_ex_tau. cbv beta.
    replace ((1 + 1) ^ 2 + 9 / 4) with (5 / 2 * (5 / 2)) by field. replace ((1 - 1) ^ 2 + 9 / 4) with (3 / 2 * (3 / 2)) by field.
    rewrite !sqrt_square by lra. field.
  - assert (DS : sq_calcDiff sq_ex (fun _ => 0) 0%nat = Some (/ sqrt (13 / 4))).
    { unfold sq_calcDiff, inv_sqrt_times. cbn [sq_ex s_ulb s_uub s_a]. unfold sq_d.
      replace ((1 - -1) * (3 / 4) * ((1 - -1) * (3 / 4)) + (0 - -1) ^ 2) with (13 / 4) by field.
      replace ((1 - -1) * (3 / 4) * ((1 - -1) * (3 / 4)) + (0 - 1) ^ 2) with (13 / 4) by field.
      destruct (Req_EM_T (13 / 4) 0); [lra|]. f_equal. field. assert (0 < sqrt (13 / 4)) by (apply sqrt_lt_R0; lra). lra. }
    unfold sa_calcDiff. cbn [all_some]. rewrite DS. cbn [andb]. eexists. split; [reflexivity|]. cbn [q_out t_du am_du id_map].
    assert (P : 0 < sqrt (13 / 4)) by (apply sqrt_lt_R0; lra). assert (SQ : sqrt (13 / 4) * sqrt (13 / 4) = 13 / 4) by (apply sqrt_sqrt; lra). set (s := sqrt (13 / 4)) in *.
    split.
    + intros i j Hi Hj. assert (i = 0%nat) by lia. assert (j = 0%nat) by lia. subst. unfold mulm, sc_pinv, idm. cbn [rsum Nat.eqb]. rewrite DS. cbn [valopt]. field. lra.
    + rewrite sq_ex_tau. unfold free_qs, mulv, sc_pinv, idm. cbn [rsum Nat.eqb]. rewrite DS. cbn [valopt].
      replace (0 + / (1 * / s) * (1 / 2)) with (s / 2) by (field; lra). intro H. apply sq_ex_half in H; [|lra]. nra.
Qed.

(** *** Concrete cases *)
(** r(u) = 6 - 2 u from any control, in one step: 3. *)
Example C91_affine_case : exists u, quasi_static 1 1 sc_pinv (fun u _ => 6 - 2 * u 0%nat) (fun _ _ _ => -2) 2 1 2 5 1 (fun _ => 10) = Some u /\ u 0%nat = 3.
Proof.
  destruct (proj2 (C91_sizes 1 1 sc_pinv (fun u _ => 6 - 2 * u 0%nat) (fun _ _ _ => -2) 2 1 2 5 1 (fun _ => 10))) as [u U]; [now split|]. exists u. split; [exact U|].
  enough (H : 6 - 2 * u 0%nat = 0) by lra.
  apply (C91_affine 1 1 2 sc_pinv (fun u _ => 6 - 2 * u 0%nat) (fun _ _ _ => -2) (fun _ _ => -2) (fun _ => 6) 5 1 (fun _ => 10) u) with (i := 0%nat); try lia; [| | | |exact U].
  - intros v i Hi. cbn [rsum]. ring.
  - reflexivity.
  - intros i j Hi Hj. assert (i = 0%nat) by lia. assert (j = 0%nat) by lia. subst. unfold mulm, sc_pinv. cbn [rsum]. field; lra.
  - exists (fun _ => 3). intros i Hi. cbv beta. lra.
Qed.
(** A mass of 2 under the load 3, carried by a motor and a contact: half each. *)
Definition cq_fd (M J : mat) (b a0 : vec) (mu : R) : vec * vec := (fun _ => - a0 0%nat, fun _ => - (2 * a0 0%nat) - b 0%nat).
Example C91_contact_case :
  let B := fun _ _ => 1 in let J := fun _ _ => 1 in let M := fun _ _ => 2 in let g := fun _ => 3 in let tau := fun (u : vec) _ => u 0%nat in
  let u := contact_qs 1 1 row_pinv B J g in
  u 0%nat = 3 / 2 /\ u 1%nat = 3 / 2 /\
  solves_contact 1 1 cq_fd M J (fun i => tau u i - g i) (fun _ => 0) 0 /\
  left_inverse 2 (fun i j => if (i =? 0)%nat then (if (j =? 0)%nat then 0 else 1) else if (j =? 0)%nat then 1 else -2) (kkt 1 (inertia None M) J 0) /\
  linear_torque 1 1 tau B /\ pseudo 1 2 (jstatic 1 B J) (row_pinv (jstatic 1 B J)).
Proof.
  intros B J M g tau u.
  assert (U : forall k, (k < 2)%nat -> u k = 3 / 2).
  { intros k Hk. unfold u, contact_qs, mulv, row_pinv, jstatic, B, J, g. destruct k as [|[|k]]; [| |lia]; cbn [Nat.ltb Nat.leb Nat.sub rsum]; field. }
  split; [apply U; lia|]. split; [apply U; lia|]. split; [|split; [|split]].
  - split; intros i Hi; unfold cq_fd, M, J, tau, g; cbn [rsum fst snd]; rewrite ?U by lia; field.
  - intros i j Hi Hj. unfold mulm, kkt, inertia, M, J, idm. destruct i as [|[|i]], j as [|[|j]]; try lia; cbn; ring.
  - intros v i Hi. unfold tau, B. cbn [rsum]. ring.
  - apply (proj1 C91_stale_refuted). unfold jstatic, B. cbn. lra.
Qed.
(** The contacts of [C91_stale_refuted] with new data: force 0 and 1, and acceleration 0. *)
Example C91_inverse_case : let u := inv_qs 1 0 row_pinv (fun _ _ => 0) (fun _ => 1) st_rows (fun _ _ => 0) in
  u 0%nat = 0 /\ u 1%nat = 0 /\ u 2%nat = 1 /\ inactive_row (map fst st_rows) 0 0 /\ nc_active (map fst st_rows) = 1%nat.
Proof.
  intro u. split; [|split; [|split]].
  - apply scatter_before. cbn. lia.
  - apply (scatter_inactive 0 1 (map fst st_rows) 0 0 _ _ 0). cbn. left. split; [reflexivity|lia].
  - exact (proj1 (proj2 C91_stale_refuted)).
  - split; [cbn; left; split; [reflexivity|lia]|reflexivity].
Qed.
(** A spring at q = 2 held by the control. *)
Example C91_euler_case : exists (qs : vec -> vec) (x : vec), (forall i, (i < 1)%nat -> x (1 + i)%nat = 0) /\ (forall i, (i < 1)%nat -> acc (spring 3) x (qs (fun _ => 0)) i = 0) /\ local_model 1 1 (spring 3) /\
  (forall w w', (forall i, w i = w' i) -> qs w = qs w') /\ x 0%nat = 2.
Proof.
  exists (fun _ _ => -6), (fun i => if (i =? 0)%nat then 2 else 0). split; [intros i Hi; reflexivity|]. split; [intros i Hi; cbn [spring acc Nat.eqb]; lra|].
  split; [apply spring_local|]. split; [reflexivity|reflexivity].
Qed.

Print Assumptions C91_affine.
Print Assumptions C91_sizes.
Print Assumptions C91_newton_refuted.
Print Assumptions C91_free.
Print Assumptions C91_actuations.
Print Assumptions C91_contact_partial.
Print Assumptions C91_damping_refuted.
Print Assumptions C91_inverse_partial.
Print Assumptions C91_stale_refuted.
Print Assumptions C91_euler.
Print Assumptions C91_rk.
Print Assumptions C91_squashing_refuted.
