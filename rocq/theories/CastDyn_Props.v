(** C128: cast of the forward dynamics and of the impulse dynamics. *)
From Coquelicot Require Import Coquelicot.
From Coq Require Import Reals List Arith Bool Lia Lra.
From Verif Require Import Deriv VecMat Spatial MultiContact_Model FwdDyn_Model FwdDyn_Spec FwdDyn_Proofs FwdDyn_Props CastDyn_Model.
Import ListNotations.
Open Scope R_scope.

(** ** Specification *)
(** An armature was given: some call of set_armature had the right size. *)
Definition armature_set (nv : nat) (l : list dop) : Prop := exists v, In (SetArmature nv v) l.

Section P.
Variables (nv nu : nat) (lim : vec).
Lemma run_arm k l : forall m, ~ armature_set nv l -> y_arm (d_run nv nu k m l) = y_arm m.
Proof.
  induction l as [|o l IH]; intros m H; auto. change (y_arm (d_run nv nu k (d_step nv nu k m o) l) = y_arm m). rewrite IH.
  2:{ intros [v Hv]. apply H. exists v. now right. }
  destruct o as [n v|e|mu|n v|n v]; cbn [d_step].
  - destruct (Nat.eqb_spec n nv) as [->|]; auto. exfalso. apply H. exists v. now left.
  - destruct k; auto. now destruct (Rlt_dec e 0).
  - destruct k; auto; now destruct (Rlt_dec mu 0).
  - now destruct (Nat.eqb n nu).
  - now destruct (Nat.eqb n nu).
Qed.
Definition good (k : kind) (m : dset) : Prop :=
  0 <= y_e m /\ 0 <= y_mu m /\ (k = Free -> y_e m = 0 /\ y_mu m = 0 /\ y_force m = false) /\ (k = Contact -> y_e m = 0).
Lemma good_step k m o : good k m -> good k (d_step nv nu k m o).
Proof.
  intros H. pose proof H as [H1 [H2 [H3 H4]]]. destruct o as [n v|e|mu|n v|n v]; cbn [d_step].
  - destruct (Nat.eqb n nv); auto.
  - destruct k; auto. destruct (Rlt_dec e 0); auto. split; cbn; [lra|]. split; auto. split; discriminate.
  - destruct k; auto; destruct (Rlt_dec mu 0); auto; (split; cbn; [auto|]; split; [lra|]; split; [discriminate|]); [intros _; apply H4; reflexivity|discriminate].
  - destruct (Nat.eqb n nu); auto.
  - destruct (Nat.eqb n nu); auto.
Qed.
Lemma good_run k l : forall m, good k m -> good k (d_run nv nu k m l).
Proof. induction l as [|o l IH]; intros m H; auto. exact (IH _ (good_step k m o H)). Qed.
Lemma good_new k e mu f m : d_new lim k e mu f = Some m -> good k m.
Proof.
  destruct k; cbn [d_new].
  - intros [= <-]. repeat split; cbn; auto; lra.
  - intros [= <-]. split; cbn; [lra|]. split; [apply Rabs_pos|]. split; [discriminate|auto].
  - destruct (Rlt_dec e 0); [discriminate|]. destruct (Rlt_dec mu 0); [discriminate|]. intros [= <-]. split; cbn; [lra|]. split; [lra|]. split; discriminate.
Qed.

(** ** C128 *)
(** After any calls of the setters cast succeeds; restitution, damping and force flag are kept, the limits of the
    control are those of the robot and there is no armature.  Missing: armature and limits given by the user. *)
Theorem C128_settings_partial k e mu f m l : d_new lim k e mu f = Some m ->
  exists m', d_cast lim k (d_run nv nu k m l) = Some m' /\
    y_e m' = y_e (d_run nv nu k m l) /\ y_mu m' = y_mu (d_run nv nu k m l) /\ y_force m' = y_force (d_run nv nu k m l) /\
    y_arm m' = None /\ y_lb m' = y_lb m /\ y_ub m' = y_ub m.
Proof.
  intro H. pose proof (good_run k l m (good_new k e mu f m H)) as [G1 [G2 [G3 G4]]]. set (s := d_run nv nu k m l) in *. unfold d_cast.
  destruct k; cbn [d_new] in H |- *.
  - injection H as <-. destruct (G3 eq_refl) as [-> [-> ->]]. eexists. repeat split.
  - injection H as <-. rewrite (G4 eq_refl). eexists. split; [reflexivity|]. cbn. rewrite (Rabs_pos_eq _ G2). repeat split.
  - destruct (Rlt_dec e 0); [discriminate|]. destruct (Rlt_dec mu 0); [discriminate|]. injection H as <-.
    destruct (Rlt_dec (y_e s) 0); [lra|]. destruct (Rlt_dec (y_mu s) 0); [lra|]. eexists. repeat split.
Qed.
(** Without an armature the copy computes the same motion for every robot, force and contact. *)
Theorem C128_same_partial k e mu f m l m' : d_new lim k e mu f = Some m -> ~ armature_set nv l ->
  d_cast lim k (d_run nv nu k m l) = Some m' ->
  (forall aba minv M nle tau, free_motion nv aba minv m' M nle tau = free_motion nv aba minv (d_run nv nu k m l) M nle tau) /\
  (forall fd M nle tau J a0, contact_motion fd m' M nle tau J a0 = contact_motion fd (d_run nv nu k m l) M nle tau J a0) /\
  (forall imp M J v, impulse_motion imp m' M J v = impulse_motion imp (d_run nv nu k m l) M J v).
Proof.
  intros H HA HC. destruct (C128_settings_partial k e mu f m l H) as (m2 & E & E1 & E2 & E3 & E4 & _). rewrite E in HC. injection HC as ->.
  assert (A : y_arm (d_run nv nu k m l) = None).
  { rewrite (run_arm k l m HA). destruct k; cbn [d_new] in H; [now injection H as <-|now injection H as <-|].
    destruct (Rlt_dec e 0); [discriminate|]. destruct (Rlt_dec mu 0); [discriminate|]. now injection H as <-. }
  unfold free_motion, contact_motion, impulse_motion. rewrite E1, E2, E4, A. auto.
Qed.
(** The copy of a free model with an armature moves like the model under every torque if and only if the armature is zero. *)
Theorem C128_free m l ar m' aba minv M nle : d_new lim Free 0 0 false = Some m ->
  y_arm (d_run nv nu Free m l) = Some ar -> d_cast lim Free (d_run nv nu Free m l) = Some m' ->
  aba_solves nv M nle aba -> inverts nv minv (add_armature (Some ar) M) ->
  ((forall tau i, (i < nv)%nat -> free_motion nv aba minv m' M nle tau i = free_motion nv aba minv (d_run nv nu Free m l) M nle tau i) <->
   (forall i, (i < nv)%nat -> ar i = 0)).
Proof.
  intros _ Har HC HA HI. cbn [d_cast d_new] in HC. injection HC as <-. unfold free_motion. rewrite Har. cbn [y_arm].
  set (X := add_armature (Some ar) M) in *.
  assert (SX : forall a i, (i < nv)%nat -> rsum nv (fun j => X i j * a j) = rsum nv (fun j => M i j * a j) + ar i * a i).
  { intros a i Hi. rewrite <- (inertia_sum nv (Some ar) M a i Hi). apply rsum_ext. intros j Hj. unfold X. now rewrite add_armature_inertia. }
  cbn [free_xout]. fold X. destruct HI as [HL HR]. split.
  - intros H i Hi. pose (tau := fun k => rsum nv (fun j => X k j * 1) + nle k). specialize (H tau).
    assert (Ha : forall j, (j < nv)%nat -> aba tau j = 1).
    { intros j Hj. rewrite H by auto. unfold mulv. rewrite (rsum_ext nv _ (fun k => minv X j k * mulv nv X (fun _ => 1) k)).
      2:{ intros k Hk. unfold tau, mulv. ring. }
      change (mulv nv (minv X) (mulv nv X (fun _ => 1)) j = 1).
      transitivity (rsum nv (fun k => mulm nv (minv X) X j k * 1)); [symmetry; exact (mulv_mulm nv nv (minv X) X (fun _ => 1) j)|].
      rewrite (rsum_ext nv _ (fun k => idm j k * 1)) by (intros k Hk; now rewrite HL). rewrite rsum_id_l by assumption; reflexivity. }
    pose proof (HA tau i Hi) as E. rewrite (rsum_ext nv _ (fun j => M i j * 1)) in E by (intros j Hj; now rewrite Ha).
    unfold tau in E. rewrite (SX (fun _ => 1) i Hi) in E. lra.
  - intros Z tau i Hi.
    assert (E : forall k, (k < nv)%nat -> tau k - nle k = mulv nv X (aba tau) k).
    { intros k Hk. unfold mulv. rewrite (SX (aba tau) k Hk), (Z k Hk). pose proof (HA tau k Hk). lra. }
    unfold mulv at 1. rewrite (rsum_ext nv _ (fun k => minv X i k * mulv nv X (aba tau) k)) by (intros k Hk; now rewrite E).
    change (aba tau i = mulv nv (minv X) (mulv nv X (aba tau)) i).
    transitivity (rsum nv (fun k => mulm nv (minv X) X i k * aba tau k)); [|exact (mulv_mulm nv nv (minv X) X (aba tau) i)].
    rewrite (rsum_ext nv _ (fun k => idm i k * aba tau k)) by (intros k Hk; now rewrite HL). now rewrite rsum_id_l by assumption.
Qed.
End P.

(** ** What is lost: one joint of inertia 1, armature 1 *)
Definition w_M : mat := fun _ _ => 1.
Definition w_h : list dop := [SetArmature 1 (fun _ => 1)].
Definition w_minv (X : mat) : mat := fun _ _ => / X 0%nat 0%nat.
(** Under the torque 1 the copy accelerates by 1, the model by 1/2. *)
Theorem C128_free_refuted : exists m m' aba minv, d_new (fun _ => 5) Free 0 0 false = Some m /\
  d_cast (fun _ => 5) Free (d_run 1 1 Free m w_h) = Some m' /\
  aba_solves 1 w_M (fun _ => 0) aba /\ inverts 1 minv (inertia (Some (fun _ => 1)) w_M) /\
  free_motion 1 aba minv m' w_M (fun _ => 0) (fun _ => 1) 0%nat <> free_motion 1 aba minv (d_run 1 1 Free m w_h) w_M (fun _ => 0) (fun _ => 1) 0%nat.
Proof.
  do 2 eexists. exists (fun tau => tau), w_minv. split; [reflexivity|]. split; [reflexivity|]. split; [|split].
  - intros tau i Hi. replace i with 0%nat by lia. cbn [rsum]. unfold w_M. ring.
  - split; intros i j Hi Hj; replace i with 0%nat by lia; replace j with 0%nat by lia;
      unfold mulm, w_minv, inertia, w_M, idm; cbn [rsum Nat.eqb]; field; lra.
  - unfold free_motion, d_run, w_h. cbn [fold_left d_step Nat.eqb y_arm free_xout]. unfold mulv, w_minv, add_armature, w_M. cbn [rsum Nat.eqb]. lra.
Qed.
(** A joint that must accelerate by 1 along its contact: the copy needs the force 1, the model the force 2. *)
Definition w_fd (M J : mat) (b a0 : vec) (mu : R) : vec * vec := (fun i => - a0 i, fun r => M r r * (- a0 r) - b r).
Theorem C128_contact_refuted : exists m m', d_new (fun _ => 5) Contact 0 0 false = Some m /\
  d_cast (fun _ => 5) Contact (d_run 1 1 Contact m w_h) = Some m' /\
  (forall M b a0, constrained_motion 1 1 M (fun _ => 0) b (fun _ _ => 1) a0 0 (fst (w_fd M (fun _ _ => 1) b a0 0)) (snd (w_fd M (fun _ _ => 1) b a0 0))) /\
  snd (contact_motion w_fd m' w_M (fun _ => 0) (fun _ => 0) (fun _ _ => 1) (fun _ => -1)) 0%nat <>
  snd (contact_motion w_fd (d_run 1 1 Contact m w_h) w_M (fun _ => 0) (fun _ => 0) (fun _ _ => 1) (fun _ => -1)) 0%nat.
Proof.
  do 2 eexists. split; [reflexivity|]. split; [reflexivity|]. split.
  - intros M b a0. split; intros i Hi; replace i with 0%nat by lia; unfold w_fd; cbn [rsum fst snd]; ring.
  - unfold contact_motion, contact_calc, d_run, w_h. cbn [fold_left d_step Nat.eqb y_arm y_mu]. unfold w_fd, add_armature, w_M. cbn [snd Nat.eqb]. lra.
Qed.
(** A joint that hits a wall with velocity -1 and stops: the copy needs the impulse 1, the model the impulse 2. *)
Definition w_imp (M J : mat) (v : vec) (e mu : R) : vec * vec := (fun i => - e * v i, fun r => M r r * (- e * v r - v r)).
Theorem C128_impulse_refuted : exists m m', d_new (fun _ => 5) Impulse 0 0 false = Some m /\
  d_cast (fun _ => 5) Impulse (d_run 1 0 Impulse m w_h) = Some m' /\
  (forall M v e, impact 1 1 M (fun _ _ => 1) e 0 v (fst (w_imp M (fun _ _ => 1) v e 0)) (snd (w_imp M (fun _ _ => 1) v e 0))) /\
  snd (impulse_motion w_imp m' w_M (fun _ _ => 1) (fun _ => -1)) 0%nat <>
  snd (impulse_motion w_imp (d_run 1 0 Impulse m w_h) w_M (fun _ _ => 1) (fun _ => -1)) 0%nat.
Proof.
  assert (E : d_new (fun _ => 5) Impulse 0 0 false = Some (DSet None 0 0 false (fun _ => 0) (fun _ => 0))).
  { cbn [d_new]. destruct (Rlt_dec 0 0); [lra|]. destruct (Rlt_dec 0 0); [lra|reflexivity]. }
  do 2 eexists. split; [exact E|]. split; [exact E|]. split.
  - intros M v e. split; intros i Hi; replace i with 0%nat by lia; unfold w_imp; cbn [rsum fst snd]; ring.
  - unfold impulse_motion, impulse_calc, d_run, w_h. cbn [fold_left d_step Nat.eqb y_arm y_mu y_e]. unfold w_imp, add_armature, w_M. cbn [snd Nat.eqb]. lra.
Qed.
(** A tighter limit of the control is lost: the copy admits controls the model does not. *)
Theorem C128_limits_refuted : exists m m', d_new (fun _ => 5) Free 0 0 false = Some m /\
  d_cast (fun _ => 5) Free (d_run 1 1 Free m [SetUpper 1 (fun _ => 2)]) = Some m' /\
  y_ub (d_run 1 1 Free m [SetUpper 1 (fun _ => 2)]) 0%nat < 3 < y_ub m' 0%nat.
Proof. do 2 eexists. split; [reflexivity|]. split; [reflexivity|]. cbn. lra. Qed.

(** An impulse model with another damping and restitution, then rejected values *)
Example C128_ex : exists m m' , let l := [SetDamping 1; SetRestitution 2; SetDamping (-1); SetArmature 2 (fun _ => 1)] in
  d_new (fun _ => 5) Impulse 0 0 true = Some m /\ d_cast (fun _ => 5) Impulse (d_run 1 0 Impulse m l) = Some m' /\
  ~ armature_set 1 l /\ y_mu m' = 1 /\ y_e m' = 2 /\ y_force m' = true.
Proof.
  assert (E : d_new (fun _ => 5) Impulse 0 0 true = Some (DSet None 0 0 true (fun _ => 0) (fun _ => 0))).
  { cbn [d_new]. destruct (Rlt_dec 0 0); [lra|]. destruct (Rlt_dec 0 0); [lra|reflexivity]. }
  eexists. destruct (C128_settings_partial 1 0 (fun _ => 5) Impulse 0 0 true _ [SetDamping 1; SetRestitution 2; SetDamping (-1); SetArmature 2 (fun _ => 1)] E)
    as (m' & H & H1 & H2 & H3 & _).
  exists m'. cbv zeta. split; [exact E|]. split; [exact H|].
  split; [intros [v [Hv|[Hv|[Hv|[Hv|[]]]]]]; discriminate|].
  rewrite H1, H2, H3. unfold d_run. cbn [fold_left d_step Nat.eqb].
  destruct (Rlt_dec 1 0); [lra|]. destruct (Rlt_dec 2 0); [lra|]. destruct (Rlt_dec (-1) 0); [|lra]. cbn. auto.
Qed.

Print Assumptions C128_settings_partial.
Print Assumptions C128_same_partial.
Print Assumptions C128_free.
Print Assumptions C128_free_refuted.
Print Assumptions C128_contact_refuted.
Print Assumptions C128_impulse_refuted.
Print Assumptions C128_limits_refuted.
