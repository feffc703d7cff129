(** C88-C89: inverse dynamics. *)
From Coquelicot Require Import Coquelicot.
From Coq Require Import Reals List Arith Bool Lia Lra.
From Verif Require Import Deriv VecMat Implicit Spatial Spatial_Proofs Contact_Model Contact_Spec Contact_Proofs Contact_Props Actuation_Model Actuation_Proofs
  MultiContact_Model MultiContact_Proofs FwdDyn_Model FwdDyn_Spec FwdDyn_Proofs FwdDyn_Contacts FwdDyn_Props InvDyn_Model InvDyn_Spec InvDyn_Proofs.
Import ListNotations.
Open Scope R_scope.

(** ** C88: points that satisfy the constraints are motions *)
(** What the theorems use of the actuation: [faithful], as many unactuated coordinates as rows of the
    constraint, and that commands inverts calc. *)
Definition outside (set : nat -> bool) (nv : nat) : list nat := filter (fun k => negb (set k)) (seq 0 nv).
Record regular (nv : nat) (ac : actuator) (d : actdata) : Prop := {
  rg_na : (a_na ac <= nv)%nat;
  rg_faithful : faithful nv ac d;
  rg_rows : forall tau, length (outside (t_set (snd (inv_calc ac tau d))) nv) = (nv - a_na ac)%nat;
  rg_image : forall u tau, (forall i, (i < nv)%nat -> tau i = t_tau (a_calc ac u d) i) ->
    (forall k, (k < nv)%nat -> t_set (snd (inv_calc ac tau d)) k = false -> tau k = 0) /\
    (forall i, (i < a_na ac)%nat -> fst (inv_calc ac tau d) i = u i);
  rg_set : forall tau k, t_set (snd (inv_calc ac tau d)) k = t_set d k;
  rg_M : forall tau i k, t_M (snd (inv_calc ac tau d)) i k = t_M d i k;
  rg_dx : forall tau i j, t_dx (snd (inv_calc ac tau d)) i j = 0;
  rg_linear : forall tau i, (i < a_na ac)%nat ->
    fst (inv_calc ac tau d) i = rsum nv (fun k => t_M (snd (inv_calc ac tau d)) i k * tau k) }.
(** The full and the floating-base actuation, after any calls on the data. *)
Lemma outside_fb nfb nu : outside (fun i => negb (i <? nfb)) (nfb + nu) = seq 0 nfb.
Proof.
  unfold outside. rewrite seq_app, filter_app. cbn [Nat.add].
  rewrite (filter_ext_in (fun k => negb (negb (k <? nfb))) (fun _ => true) (seq 0 nfb)).
  - rewrite (filter_ext_in (fun k => negb (negb (k <? nfb))) (fun _ => false) (seq nfb nu)).
    + assert (A : forall l : list nat, filter (fun _ => true) l = l) by (induction l; cbn; congruence).
      assert (B : forall l : list nat, filter (fun _ => false) l = []) by (induction l; cbn; auto).
      rewrite A, B. apply app_nil_r.
    + intros k H. apply in_seq in H. destruct (Nat.ltb_spec k nfb); [lia|reflexivity].
  - intros k H. apply in_seq in H. destruct (Nat.ltb_spec k nfb); [reflexivity|lia].
Qed.
Theorem C88_floating_base : forall nfb nu h, regular (nfb + nu) (fb_actuator nfb nu) (fb_run nfb h).
Proof.
  intros nfb nu h. destruct (fb_run_inv nfb h) as [H1 [H2 [H3 [H4 H5]]]].
  assert (Hlt : forall i, (i < nfb)%nat -> (i <? nfb)%nat = true) by (intros; now apply Nat.ltb_lt).
  assert (Hge : forall i, (nfb <= i)%nat -> (i <? nfb)%nat = false) by (intros; apply Nat.ltb_ge; lia).
  constructor; unfold inv_calc, fb_actuator, fb_calc, fb_commands, with_tau, with_u; cbn [a_na a_calc a_commands fst snd t_tau t_u t_set t_dx t_M].
  - lia.
  - intros tau Z i Hi. unfold inv_calc, fb_actuator, fb_calc, fb_commands, with_tau, with_u in *. cbn [a_na a_calc a_commands fst snd t_tau t_u t_set t_dx t_M] in *.
    destruct (Nat.ltb_spec i nfb) as [L|L].
    + rewrite H1 by assumption. symmetry. apply Z; [assumption|]. rewrite H4. unfold fb_create. cbn [t_set]. now rewrite Hlt.
    + f_equal. lia.
  - intros _. rewrite H4. unfold fb_create. cbn [t_set]. rewrite outside_fb, seq_length. lia.
  - intros u tau E. split.
    + intros k Hk S. rewrite H4 in S. unfold fb_create in S. cbn [t_set] in S. rewrite E by assumption.
      destruct (Nat.ltb_spec k nfb); [auto|discriminate].
    + intros i Hi. rewrite E by lia. rewrite Hge by lia. f_equal. lia.
  - reflexivity.
  - reflexivity.
  - intros _ i j. rewrite H5. reflexivity.
  - intros tau i Hi. rewrite H3. unfold fb_create. cbn [t_M]. rewrite (rsum_single (nfb + nu) (nfb + i)%nat); [|lia|].
    + replace (nfb + i =? i + nfb)%nat with true by (symmetry; apply Nat.eqb_eq; lia). ring.
    + intros j Hj ne. replace (j =? i + nfb)%nat with false by (symmetry; apply Nat.eqb_neq; lia). ring.
Qed.
Theorem C88_full : forall nv h, regular nv (full_actuator nv) (full_run h).
Proof.
  intros nv h. destruct (full_run_inv h) as [H1 [H2 [H3 H4]]].
  constructor; unfold inv_calc, full_actuator, full_calc, full_commands, with_tau, with_u; cbn [a_na a_calc a_commands fst snd t_tau t_u t_set t_dx t_M].
  - lia.
  - intros tau _ i _. reflexivity.
  - intros _. unfold outside. rewrite (filter_ext _ (fun _ => false)) by (intro k; now rewrite H3).
    assert (B : forall l : list nat, filter (fun _ => false) l = []) by (induction l; cbn; auto). rewrite B. cbn [length]. lia.
  - intros u tau E. split; [|exact E]. intros k _ S. rewrite H3 in S. discriminate.
  - reflexivity.
  - reflexivity.
  - intros _ i j. apply H4.
  - intros tau i Hi. rewrite H2. symmetry. now apply rsum_id_l.
Qed.

(** What the contacts must satisfy at a point: the contract of the kinematics, frames fixed to their
    joints, one contact per frame, one active contact per joint. *)
Definition placed (nv nj : nat) (G : nat -> nat -> v6) (cs : list icontact) (t : R) : Prop :=
  (forall c, In c cs -> kinematic nv c) /\
  (forall c, In c cs -> cm_active (ic_m c) = true -> forall j, fJf (ic_k c t) j = actinv_motion (cm_jMf (ic_m c)) (G (cm_joint (ic_m c)) j)) /\
  NoDup (map ic_frame cs) /\ NoDup (joints (map ic_item cs)) /\ (forall j, In j (joints (map ic_item cs)) -> (j < nj)%nat).

Theorem C88_motion : forall nv nj ac d M nle G cs t a force tau rq rv Mp Jc br bRx bRu bs bufJ bufa,
  regular nv ac d -> placed nv nj G cs t ->
  rnea_value nv nj M nle G a (snd (iupdate nv cs t a force)) tau ->
  let d' := snd (inv_calc ac tau d) in
  inv_constraints nv (a_na ac) d' tau rq rv Mp Jc br bRx bRu (idatas nv cs t a force) = Some bs -> satisfied bs ->
  let pcs := ipcs nv cs t a in
  constrained_motion nv (nc_active (map ic_item cs)) M nle (t_tau d')
    (stack zv false (row_list pcs t) 0 bufJ) (stack 0 false (acc_list pcs t) 0 bufa) 0 a (active_part (map ic_item cs) force).
Proof.
  intros nv nj ac d M nle G cs t a force tau rq rv Mp Jc br bRx bRu bs bufJ bufa RG (KC & AT & NF & NJ & LJ) RV d' E SAT pcs. split.
  - intros i Hi. rewrite (tau_rows nv nj M nle G cs t a force tau AT NJ LJ RV bufJ i Hi). f_equal. symmetry.
    apply (rg_faithful _ _ _ RG); [|assumption]. fold d'. intros k Hk S.
    assert (L : (0 < nv - a_na ac)%nat).
    { rewrite <- (rg_rows _ _ _ RG tau). fold d'. unfold outside. assert (I : In k (filter (fun k => negb (t_set d' k)) (seq 0 nv))).
      { apply filter_In. split; [apply in_seq; lia|]. now rewrite S. }
      destruct (filter (fun k => negb (t_set d' k)) (seq 0 nv)); [destruct I|cbn [length]; lia]. }
    unfold inv_constraints in E. rewrite (proj2 (Nat.ltb_lt _ _) L) in E.
    destruct (collect_in _ _ E _ (or_introl eq_refl)) as (b & Eb & Ib). unfold tau_block in Eb.
    destruct (tau_r nv (nv - a_na ac) d' tau br) as [r|] eqn:ER; [|discriminate].
    destruct (tau_Rx _ _ _ _ _ _); [|discriminate]. destruct (tau_Ru _ _ _ _ _ _); [|discriminate]. injection Eb as <-.
    apply (under_zero _ _ _ _ _ _ ER (SAT _ Ib) k Hk S).
  - intros r Hr. rewrite Rmult_0_l, Rplus_0_r. apply (acc_rows nv cs t a KC bufJ bufa r Hr).
    intros c I A k Hk. destruct (acc_block_in nv cs t a force c (a_na ac) d' tau rq rv Mp Jc br bRx bRu bs NF I A E) as [f Ib].
    exact (SAT _ Ib k Hk).
Qed.

(** So the forward dynamics under joint.tau returns the same acceleration and forces, whenever it has
    only one solution. *)
Lemma motion_unique nv nc M J mu Kinv nle tau a0 a f a' f' : left_inverse (nv + nc) Kinv (kkt nv M J mu) ->
  constrained_motion nv nc M nle tau J a0 mu a f -> constrained_motion nv nc M nle tau J a0 mu a' f' ->
  (forall i, (i < nv)%nat -> a i = a' i) /\ (forall r, (r < nc)%nat -> f r = f' r).
Proof.
  intros LI [A1 A2] [B1 B2]. set (z := fun i => if i <? nv then a i - a' i else - (f (i - nv)%nat - f' (i - nv)%nat)).
  assert (KZ : forall i, (i < nv + nc)%nat -> mulv (nv + nc) (kkt nv M J mu) z i = 0).
  { intros i Hi. unfold mulv. rewrite rsum_app. unfold z, kkt. destruct (Nat.ltb_spec i nv) as [L|L].
    - rewrite (rsum_ext nv _ (fun j => M i j * a j - M i j * a' j)) by (intros j Hj; rewrite !ltb_t by assumption; ring).
      rewrite (rsum_ext nc _ (fun r => J r i * f' r - J r i * f r)) by (intros r Hr; rewrite !ltb_f by lia; rewrite !sub_add; ring).
      rewrite !rsum_minus. specialize (A1 i L). specialize (B1 i L). lra.
    - assert (R' : (i - nv < nc)%nat) by lia.
      rewrite (rsum_ext nv _ (fun j => J (i - nv)%nat j * a j - J (i - nv)%nat j * a' j)) by (intros j Hj; rewrite !ltb_t by assumption; ring).
      rewrite (rsum_single nc (i - nv)%nat); [|assumption|].
      + rewrite !ltb_f by lia. rewrite sub_add. replace (i =? nv + (i - nv))%nat with true by (symmetry; apply Nat.eqb_eq; lia).
        rewrite rsum_minus. specialize (A2 _ R'). specialize (B2 _ R'). lra.
      + intros r Hr ne. rewrite !ltb_f by lia. replace (i =? nv + r)%nat with false by (symmetry; apply Nat.eqb_neq; lia). ring. }
  assert (Z : forall i, (i < nv + nc)%nat -> z i = 0).
  { intros i Hi. rewrite <- (rsum_id_l (nv + nc) i z Hi). rewrite (rsum_ext _ _ (fun j => mulm (nv + nc) Kinv (kkt nv M J mu) i j * z j)) by (intros j Hj; now rewrite LI).
    change (mulv (nv + nc) (mulm (nv + nc) Kinv (kkt nv M J mu)) z i = 0).
    rewrite (mulv_mulm (nv + nc) (nv + nc) Kinv (kkt nv M J mu) z i). unfold mulv at 1. apply rsum_0. intros j Hj. rewrite KZ by assumption. ring. }
  split.
  - intros i Hi. assert (X := Z i ltac:(lia)). unfold z in X. rewrite ltb_t in X by assumption. lra.
  - intros r Hr. assert (X := Z (nv + r)%nat ltac:(lia)). unfold z in X. rewrite ltb_f in X by lia. rewrite sub_add in X. lra.
Qed.
Theorem C88_forward : forall nv nj ac d M nle G cs t a force tau rq rv Mp Jc br bRx bRu bs bufJ bufa fd Kinv,
  regular nv ac d -> placed nv nj G cs t ->
  rnea_value nv nj M nle G a (snd (iupdate nv cs t a force)) tau ->
  let d' := snd (inv_calc ac tau d) in
  inv_constraints nv (a_na ac) d' tau rq rv Mp Jc br bRx bRu (idatas nv cs t a force) = Some bs -> satisfied bs ->
  let pcs := ipcs nv cs t a in
  let nc := nc_active (map ic_item cs) in
  let J := stack zv false (row_list pcs t) 0 bufJ in
  let a0 := stack 0 false (acc_list pcs t) 0 bufa in
  solves_contact nv nc fd M J (fun i => t_tau d' i - nle i) a0 0 -> left_inverse (nv + nc) Kinv (kkt nv M J 0) ->
  let (a', f') := contact_calc fd None 0 M nle (t_tau d') J a0 in
  (forall i, (i < nv)%nat -> a' i = a i) /\ (forall r, (r < nc)%nat -> f' r = active_part (map ic_item cs) force r).
Proof.
  intros nv nj ac d M nle G cs t a force tau rq rv Mp Jc br bRx bRu bs bufJ bufa fd Kinv RG PL RV d' E SAT pcs nc J a0 SC LI.
  assert (X := C88_motion nv nj ac d M nle G cs t a force tau rq rv Mp Jc br bRx bRu bs bufJ bufa RG PL RV E SAT).
  assert (Y := C85_motion nv nc fd None 0 M nle (t_tau d') J a0 SC).
  destruct (contact_calc fd None 0 M nle (t_tau d') J a0) as [a' f']. cbn [inertia] in Y.
  destruct (motion_unique nv nc M J 0 Kinv nle (t_tau d') a0 a' f' a (active_part (map ic_item cs) force) LI Y X) as [H1 H2]. split; assumption.
Qed.

(** Conversely, every motion under a torque the actuation can produce satisfies the constraints, and
    joint.tau is the control that produces it. *)
Theorem C88_complete : forall nv nj ac d M nle G cs t a force tau u rq rv Mp Jc br bRx bRu bufJ bufa,
  regular nv ac d -> placed nv nj G cs t ->
  rnea_value nv nj M nle G a (snd (iupdate nv cs t a force)) tau ->
  let pcs := ipcs nv cs t a in
  constrained_motion nv (nc_active (map ic_item cs)) M nle (t_tau (a_calc ac u d))
    (stack zv false (row_list pcs t) 0 bufJ) (stack 0 false (acc_list pcs t) 0 bufa) 0 a (active_part (map ic_item cs) force) ->
  let d' := snd (inv_calc ac tau d) in
  (forall i, (i < a_na ac)%nat -> fst (inv_calc ac tau d) i = u i) /\
  exists bs, inv_constraints nv (a_na ac) d' tau rq rv Mp Jc br bRx bRu (idatas nv cs t a force) = Some bs /\
    forall b, In b bs -> forall i, (i < b_n b)%nat -> b_r b i = 0.
Proof.
  intros nv nj ac d M nle G cs t a force tau u rq rv Mp Jc br bRx bRu bufJ bufa RG (KC & AT & NF & NJ & LJ) RV pcs [C1 C2] d'.
  assert (ET : forall i, (i < nv)%nat -> tau i = t_tau (a_calc ac u d) i).
  { intros i Hi. specialize (C1 i Hi). assert (X := tau_rows nv nj M nle G cs t a force tau AT NJ LJ RV bufJ i Hi). fold pcs in X. lra. }
  destruct (rg_image _ _ _ RG u tau ET) as [IZ IU]. split; [exact IU|]. fold d' in IZ.
  assert (LEN : length (unset (t_set d') 0 nv) = (nv - a_na ac)%nat) by exact (rg_rows _ _ _ RG tau).
  assert (CB : forall o, In o (contact_constraints nv (idatas nv cs t a force)) -> exists b, o = Some b /\ forall i, (i < b_n b)%nat -> b_r b i = 0).
  { intros o I. apply In_nth_error in I. destruct I as [p Hp].
    assert (Lp : (p < length cs)%nat).
    { assert (Q : nth_error (contact_constraints nv (idatas nv cs t a force)) p <> None) by congruence.
      apply nth_error_Some in Q. unfold contact_constraints in Q. rewrite blocks_length in Q. unfold idatas in Q. rewrite zip_length in Q by apply len_update. exact Q. }
    destruct (nth_error cs p) as [c|] eqn:Ec; [|apply nth_error_None in Ec; lia].
    rewrite (constraint_nth nv cs t a force p c Ec NF) in Hp. injection Hp as <-. eexists. split; [reflexivity|].
    destruct (cm_active (ic_m c)) eqn:A; cbn [b_n b_r]; [|reflexivity]. intros k Hk.
    rewrite (a0_affine nv (ic_m c) (ic_k c) _ a t k (KC c (nth_error_In _ _ Ec) a) Hk).
    destruct (nth_error_split _ _ Ec) as (pre & post & Es & Lpre).
    specialize (C2 (nc_active (map ic_item pre) + k)%nat). unfold pcs in C2.
    assert (RL := row_list_ipcs nv cs t a t). assert (AL := acc_list_ipcs nv cs t a t). rewrite RL, AL, Es, !map_app in C2. cbn [map] in C2.
    assert (S1 := stack_row zv false (map (fun c => (ic_item c, cc_J (curve (ic_m c) (ic_k c)) t)) pre) (ic_item c) (cc_J (curve (ic_m c) (ic_k c)) t)
      (map (fun c => (ic_item c, cc_J (curve (ic_m c) (ic_k c)) t)) post) 0 bufJ k Hk).
    assert (S2 := stack_row 0 false (map (fun c => (ic_item c, cc_a0 (curve (ic_m c) (ic_k c)) t)) pre) (ic_item c) (cc_a0 (curve (ic_m c) (ic_k c)) t)
      (map (fun c => (ic_item c, cc_a0 (curve (ic_m c) (ic_k c)) t)) post) 0 bufa k Hk).
    rewrite map_map in S1, S2. cbn [fst nc_used Nat.add] in S1, S2. change (map (fun x => ic_item x) pre) with (map ic_item pre) in S1, S2.
    assert (AA : c_active (ic_item c) || false = true) by (rewrite orb_false_r; exact A).
    assert (AC : c_active (ic_item c) = true) by exact A. specialize (S1 AA). specialize (S2 AA). rewrite AC in S1, S2. rewrite S1 in C2.
    lazymatch type of C2 with context [@stack R ?z ?b ?l 0%nat bufa ?r] =>
      replace (@stack R z b l 0%nat bufa r) with (cc_a0 (curve (ic_m c) (ic_k c)) t k) in C2 by (symmetry; exact S2) end.
    enough (Q : rsum nv (fun j => cc_J (curve (ic_m c) (ic_k c)) t k j * a j) + cc_a0 (curve (ic_m c) (ic_k c)) t k + 0 * active_part (map ic_item pre ++ ic_item c :: map ic_item post) force (nc_active (map ic_item pre) + k)%nat = 0). { rewrite Rmult_0_l, Rplus_0_r in Q. rewrite Rplus_comm. exact Q. }
    apply C2. change (nc_active ?x) with (nc_used false x). rewrite nc_used_app, nc_used_cons, AA. cbn [nc_used]. apply Nat.add_lt_mono_l, (Nat.lt_le_trans _ _ _ Hk), Nat.le_add_r. }
  assert (TB : (0 < nv - a_na ac)%nat -> exists b, tau_block nv (nv - a_na ac) d' tau rq rv Mp Jc br bRx bRu = Some b /\ forall i, (i < b_n b)%nat -> b_r b i = 0).
  { intros _. unfold tau_block, tau_r, tau_Rx, tau_Ru.
    destruct (under_some (t_set d') tau (nv - a_na ac) nv 0 0 br) as [r Er]; [cbn [Nat.add]; lia|].
    destruct (under_some (t_set d') (fun k j => hcat nv rq rv k j - t_dx d' k j) (nv - a_na ac) nv 0 0 bRx) as [Rx ERx]; [cbn [Nat.add]; lia|].
    destruct (under_some (t_set d') (hcat nv Mp (fun k r => - Jc r k)) (nv - a_na ac) nv 0 0 bRu) as [Ru ERu]; [cbn [Nat.add]; lia|].
    rewrite Er, ERx, ERu. eexists. split; [reflexivity|]. cbn [b_n b_r]. intros i Hi.
    destruct (under_eq _ _ _ _ _ _ _ _ Er) as [U _]. destruct (U i) as [_ U2]; [lia|]. cbn [Nat.add] in U2. rewrite U2.
    assert (In (nth i (unset (t_set d') 0 nv) 0%nat) (unset (t_set d') 0 nv)) as IN by (apply nth_In; lia).
    apply unset_in in IN. apply IZ; [lia|tauto]. }
  unfold inv_constraints.
  match goal with |- context [collect ?l] => set (L := l) end.
  assert (AL : forall o, In o L -> exists b, o = Some b /\ forall i, (i < b_n b)%nat -> b_r b i = 0).
  { intros o I. unfold L in I. apply in_app_or in I. destruct I as [I|I]; [|auto].
    destruct (Nat.ltb_spec 0 (nv - a_na ac)) as [Q|]; [|destruct I]. destruct I as [<-|[]]. auto. }
  destruct (collect_some L) as (bs & E & _ & IB). { intros o I. destruct (AL o I) as (b & -> & _). discriminate. }
  exists bs. split; [exact E|]. intros b I i Hi. destruct (AL _ (IB b I)) as (b' & Eb & Z). injection Eb as ->. auto.
Qed.

(** ** C89: derivatives *)
(** A robot and its contacts along a curve of states (tangent [dx]) and controls (a, f) (tangent [du]), and
    what calc and calcDiff get from Pinocchio. *)
Record inv_setting (nv nj : nat) (rb : robot) (cs : list icontact) (s : R) (dx du : vec) (a f tau : R -> vec) (rq rv : mat) : Prop := {
  iv_smooth : smooth nv rb s;
  iv_good : forall c, In c cs -> cm_active (ic_m c) = true -> good_contact nv (r_G rb) s dx (a s) (ic_m c) (ic_k c) (fun t => ic_ka c t (a s));
  iv_kin : forall c, In c cs -> kinematic nv c;
  iv_frames : NoDup (map ic_frame cs);
  iv_joints : NoDup (joints (map ic_item cs));
  iv_lt : forall j, In j (joints (map ic_item cs)) -> (j < nj)%nat;
  iv_value : forall t, rnea_value nv nj (r_M rb t) (r_nle rb t) (r_G rb t) (a t) (snd (iupdate nv cs t (a t) (f t))) (tau t);
  iv_rnea : rnea_contract nv nj rb s dx (a s) (snd (iupdate nv cs s (a s) (f s))) rq rv;
  iv_a : forall j, (j < nv)%nat -> is_derive (fun t => a t j) s (du j);
  iv_f : forall r, (r < nc_total (map ic_item cs))%nat -> is_derive (fun t => f t r) s (du (nv + r)%nat) }.
(** The derivative of rnea with the forces that move with the state, as calcDiff corrects it. *)
Definition rq_all (nv : nat) (cs : list icontact) (s : R) (a f : vec) (rq : mat) : mat :=
  rnea_diff (dtau_of (spread true (ipcs nv cs s a) 0 f)) rq.

Lemma unset_ext set set' k n : (forall i, set i = set' i) -> unset set k n = unset set' k n.
Proof. intro E. unfold unset. apply filter_ext. intro i. now rewrite E. Qed.

(** The constraint "tau": it never fails, and its derivatives are right. *)
Theorem C89_tau : forall nv nj ac d rb cs s dx du a f tau rq rv bufJ br bRx bRu,
  regular nv ac d -> inv_setting nv nj rb cs s dx du a f tau rq rv ->
  let nc := nc_total (map ic_item cs) in
  let nr := (nv - a_na ac)%nat in
  let d' := fun t => snd (inv_calc ac (tau t) d) in
  exists r Rx Ru,
    (forall t, tau_r nv nr (d' t) (tau t) (br t) = Some (r t)) /\
    tau_Rx nv nr (d' s) (rq_all nv cs s (a s) (f s) rq) rv bRx = Some Rx /\
    tau_Ru nv nr (d' s) (r_M rb s) (iJc nv cs (bufJ s) s (a s)) bRu = Some Ru /\
    jac (nv + nv) (nv + nc) nr r s dx du Rx Ru.
Proof.
  intros nv nj ac d rb cs s dx du a f tau rq rv bufJ br bRx bRu RG IV nc nr d'.
  assert (SE : forall t k, t_set (d' t) k = t_set d k) by (intros; apply (rg_set _ _ _ RG)).
  assert (LEN : length (unset (t_set d) 0 nv) = nr).
  { rewrite <- (unset_ext _ _ 0 nv (SE s)). exact (rg_rows _ _ _ RG (tau s)). }
  assert (LT : forall t, length (unset (t_set (d' t)) 0 nv) = nr) by (intro t; now rewrite (unset_ext _ _ 0 nv (SE t))).
  destruct (under_some (t_set (d' s)) (fun k j => hcat nv (rq_all nv cs s (a s) (f s) rq) rv k j - t_dx (d' s) k j) nr nv 0 0 bRx) as [Rx ERx]; [rewrite LT; cbn [Nat.add]; lia|].
  destruct (under_some (t_set (d' s)) (hcat nv (r_M rb s) (fun k r => - iJc nv cs (bufJ s) s (a s) r k)) nr nv 0 0 bRu) as [Ru ERu]; [rewrite LT; cbn [Nat.add]; lia|].
  set (r := fun t => match tau_r nv nr (d' t) (tau t) (br t) with Some r => r | None => fun _ => 0 end).
  assert (ER : forall t, tau_r nv nr (d' t) (tau t) (br t) = Some (r t)).
  { intro t. unfold r. destruct (under_some (t_set (d' t)) (tau t) nr nv 0 0 (br t)) as [x Ex]; [rewrite LT; cbn [Nat.add]; lia|].
    unfold tau_r. now rewrite Ex. }
  exists r, Rx, Ru. split; [exact ER|]. split; [exact ERx|]. split; [exact ERu|].
  intros i Hi. set (k := nth i (unset (t_set d) 0 nv) 0%nat).
  assert (Hk : (k < nv)%nat).
  { assert (I : In k (unset (t_set d) 0 nv)) by (apply nth_In; lia). apply unset_in in I. lia. }
  apply (dext (fun t => tau t k)).
  - intro t. destruct (under_eq _ _ _ _ _ _ _ _ (ER t)) as [U _]. destruct (U i) as [_ U2]; [rewrite LT; lia|]. cbn [Nat.add] in U2. rewrite U2.
    rewrite (unset_ext _ _ 0 nv (SE t)). reflexivity.
  - destruct (under_eq _ _ _ _ _ _ _ _ ERx) as [U1 _]. destruct (U1 i) as [_ U2]; [rewrite LT; lia|]. cbn [Nat.add] in U2.
    destruct (under_eq _ _ _ _ _ _ _ _ ERu) as [V1 _]. destruct (V1 i) as [_ V2]; [rewrite LT; lia|]. cbn [Nat.add] in V2.
    rewrite (unset_ext _ _ 0 nv (SE s)) in U2, V2. fold k in U2, V2. rewrite U2, V2.
    rewrite (rsum_ext (nv + nv) _ (fun j => hcat nv (rq_all nv cs s (a s) (f s) rq) rv k j * dx j)) by (intros j _; unfold d'; rewrite (rg_dx _ _ _ RG); ring).
    destruct IV. eapply d_tau; eassumption.
Qed.

(** joint.tau *)
Theorem C89_joint : forall nv nj ac d rb cs s dx du a f tau rq rv bufJ,
  regular nv ac d -> inv_setting nv nj rb cs s dx du a f tau rq rv ->
  let nc := nc_total (map ic_item cs) in
  let d' := snd (inv_calc ac (tau s) d) in
  jac (nv + nv) (nv + nc) (a_na ac) (fun t => fst (inv_calc ac (tau t) d)) s dx du
    (joint_dtau_dx nv d' (rq_all nv cs s (a s) (f s) rq) rv) (joint_dtau_du nv d' (r_M rb s) (iJc nv cs (bufJ s) s (a s))).
Proof.
  intros nv nj ac d rb cs s dx du a f tau rq rv bufJ RG IV nc d' i Hi.
  apply (dext (fun t => rsum nv (fun k => t_M d i k * tau t k))).
  - intro t. rewrite (rg_linear _ _ _ RG _ _ Hi). apply rsum_ext. intros k _. now rewrite (rg_M _ _ _ RG).
  - set (A := hcat nv (rq_all nv cs s (a s) (f s) rq) rv). set (B := hcat nv (r_M rb s) (fun k r => - iJc nv cs (bufJ s) s (a s) r k)).
    apply (deq _ _ (rsum nv (fun k => t_M d i k * (rsum (nv + nv) (fun j => A k j * dx j) + rsum (nv + nc) (fun j => B k j * du j))))).
    + apply drsum. intros k Hk. apply dscal. destruct IV. eapply d_tau; eassumption.
    + assert (EM : forall k, t_M d' i k = t_M d i k) by (intro; apply (rg_M _ _ _ RG)).
      transitivity (rsum (nv + nv) (fun j => mulm nv (t_M d) A i j * dx j) + rsum (nv + nc) (fun j => mulm nv (t_M d) B i j * du j)).
      * rewrite (rsum_ext nv _ (fun k => t_M d i k * rsum (nv + nv) (fun j => A k j * dx j) + t_M d i k * rsum (nv + nc) (fun j => B k j * du j))) by (intros; ring).
        rewrite rsum_plus. f_equal; rewrite (fun m X y => eq_sym (mulv_mulm nv m (t_M d) X y i)) || idtac.
        -- symmetry. apply (mulv_mulm nv (nv + nv) (t_M d) A dx i).
        -- symmetry. apply (mulv_mulm nv (nv + nc) (t_M d) B du i).
      * f_equal; apply rsum_ext; intros j _; f_equal; unfold joint_dtau_dx, joint_dtau_du, A, B, mulm, hcat, tr; destruct (j <? nv).
        -- apply rsum_ext. intros k _. now rewrite EM.
        -- apply rsum_ext. intros k _. now rewrite EM.
        -- apply rsum_ext. intros k _. now rewrite EM.
        -- match goal with |- _ = - rsum nv ?g => replace (- rsum nv g) with (-1 * rsum nv g) by ring; rewrite <- (rsum_scal nv (-1) g) end. apply rsum_ext. intros k _. rewrite EM. ring.
Qed.

(** The constraint of an active contact. *)
Theorem C89_contact : forall nv nj rb cs s dx du a f tau rq rv p c,
  inv_setting nv nj rb cs s dx du a f tau rq rv -> nth_error cs p = Some c -> cm_active (ic_m c) = true ->
  exists b : R -> block,
    (forall t, nth_error (contact_constraints nv (idatas nv cs t (a t) (f t))) p = Some (Some (b t)) /\ b_n (b t) = c_nc (ic_item c)) /\
    jac (nv + nv) (nv + nc_total (map ic_item cs)) (c_nc (ic_item c)) (fun t => b_r (b t)) s dx du (b_Rx (b s)) (b_Ru (b s)).
Proof.
  intros nv nj rb cs s dx du a f tau rq rv p c IV E A.
  eexists. split.
  - intro t. rewrite (constraint_nth nv cs t (a t) (f t) p c E (iv_frames _ _ _ _ _ _ _ _ _ _ _ _ IV)), A. split; reflexivity.
  - cbn [b_r b_Rx b_Ru b_n]. intros k Hk. destruct IV. eapply d_acc; try eassumption; [now apply nth_error_In in E|].
    apply iv_kin0. now apply nth_error_In in E.
Qed.

(** A rod hinged at the origin, its tip in contact along the y axis, without motor: the contact force
    that keeps the tip at constant height. *)
Definition rod (v : R) : icontact := IContact 7 ex_model (turn v) (fun t a => turn_a v (a 0%nat) t) (fun _ => 0, (fun _ _ => 0, fun _ _ => 0)).
Lemma rod_kin v : kinematic 1 (rod v).
Proof. intro a. split; intro u; unfold rod, turn, turn_a; cbn [ic_k ic_ka oMf fJf vel acc]; try reflexivity. unfold comb6, comb3. cbn [rsum]. v6r. Qed.
Lemma rod_placed v t : placed 1 2 (fun _ _ => V6 z3 (V3 0 0 1)) [rod v] t.
Proof.
  split; [|split; [|split; [|split]]].
  - intros c [<-|[]]. apply rod_kin.
  - intros c [<-|[]] _ j. unfold rod, turn, ex_model, turn_jMf. cbn [ic_k ic_m fJf cm_jMf cm_joint]. v6r.
  - constructor; [easy|constructor].
  - cbn. constructor; [easy|constructor].
  - cbn. intros j [<-|[]]. lia.
Qed.
Lemma rod_row v t a r j : stack zv false (row_list (ipcs 1 [rod v] t a) t) 0 (fun _ _ => 0) r j = if (r =? 0)%nat then cos t else 0.
Proof.
  rewrite row_list_ipcs. cbn [map rod ic_m ic_k ic_item item_of ex_model cm_active cm_kind stack c_active c_nc curve cc_J]. unfold setseg.
  destruct r as [|r]; cbn [Nat.leb Nat.ltb andb Nat.add Nat.sub Nat.eqb]; [|destruct r; reflexivity].
  unfold Jc1, oRf, turn. cbn [oMf rot fJf lin]. unfold ex_axis, rz. v3u. ring.
Qed.
Lemma rod_fext v t a force : rsum 2 (fun j => dot6 (snd (iupdate 1 [rod v] t a force) j) (V6 z3 (V3 0 0 1))) = cos t * force 0%nat.
Proof.
  destruct (rod_placed v t) as (_ & AT & _ & NJ & LJ).
  assert (X := fext_rows 1 2 (fun _ _ => V6 z3 (V3 0 0 1)) [rod v] t a force AT NJ LJ (fun _ _ => 0) 0%nat ltac:(lia)). cbv beta in X. rewrite X.
  change (nc_active (map ic_item [rod v])) with 1%nat. cbn [rsum]. rewrite rod_row. cbn [Nat.eqb]. unfold active_part.
  change (nth 0 (active_rows (map ic_item [rod v]) 0) 0%nat) with 0%nat. ring.
Qed.
Lemma rod_acc v t (a : vec) : cc_a0 (curve ex_model (fun t => turn_a v (a 0%nat) t)) t 0%nat = cos t * a 0%nat - v * v * sin t.
Proof.
  assert (X := a0_affine 1 ex_model (turn v) _ a t 0%nat (rod_kin v a) ltac:(cbn; lia)). cbn [rod ic_ka] in X. rewrite X. cbn [rsum].
  assert (E1 := ex_J_eq v t (a 0%nat) t). assert (E2 := ex_a0_eq v t (a 0%nat) t).
  change (cc_J (curve ex_model (turn v)) t 0%nat 0%nat) with (ex_J v t (a 0%nat) t 0%nat 0%nat).
  change (cc_a0 (curve ex_model (turn v)) t 0%nat) with (ex_a0 v t (a 0%nat) t 0%nat). rewrite E1, E2. ring.
Qed.
Lemma rod_block v t a force : contact_constraints 1 (idatas 1 [rod v] t a force) =
  [Some (Block 1 (cc_a0 (curve ex_model (fun t => turn_a v (a 0%nat) t)) t)
     (fst (published 1 ex_model (turn_a v (a 0%nat) t) (fd_f (ifd [rod v] 0 (rod v) (cc_fx (curve ex_model (turn v)) t) force))))
     (hcat 1 (cc_J (curve ex_model (fun t => turn_a v (a 0%nat) t)) t) (fun _ _ => 0)))].
Proof.
  assert (X := constraint_nth 1 [rod v] t a force 0 (rod v) eq_refl (NoDup_cons _ (@in_nil _ _) (NoDup_nil _))).
  assert (L : length (contact_constraints 1 (idatas 1 [rod v] t a force)) = 1%nat) by (unfold contact_constraints; rewrite blocks_length; unfold idatas; rewrite zip_length; [reflexivity|apply len_update]).
  destruct (contact_constraints 1 (idatas 1 [rod v] t a force)) as [|b [|b' l]]; cbn [length] in L; try lia.
  cbn [nth_error] in X. cbv zeta in X. change (cm_active (ic_m (rod v))) with true in X. cbn [rod ic_m ic_k ic_ka] in X |- *.
  assert (Y : forall x y : option block, Some x = Some y -> x = y) by congruence. apply Y in X. rewrite X. reflexivity.
Qed.
Example C88_ex v t (a force : vec) : cos t <> 0 -> a 0%nat = v * v * sin t / cos t -> force 0%nat = a 0%nat / cos t ->
  regular 1 (fb_actuator 1 0) (fb_run 1 []) /\ placed 1 2 (r_G turn_rb t) [rod v] t /\
  exists tau bs, rnea_value 1 2 (r_M turn_rb t) (r_nle turn_rb t) (r_G turn_rb t) a (snd (iupdate 1 [rod v] t a force)) tau /\
    inv_constraints 1 0 (snd (inv_calc (fb_actuator 1 0) tau (fb_run 1 []))) tau (fun _ _ => 0) (fun _ _ => 0) (fun _ _ => 1)
      (iJc 1 [rod v] (fun _ _ => 0) t a) (fun _ => 0) (fun _ _ => 0) (fun _ _ => 0) (idatas 1 [rod v] t a force) = Some bs /\
    length bs = 2%nat /\ satisfied bs.
Proof.
  intros HC Ea Ef. split; [exact (C88_floating_base 1 0 [])|]. split; [apply rod_placed|].
  exists (fun _ => 0). eexists. split; [|split; [|split]].
  - intros i Hi. rewrite (one1 i Hi). cbn [r_M r_nle r_G turn_rb]. rewrite rod_fext, Ef. cbn [rsum]. field. assumption.
  - unfold inv_constraints. rewrite rod_block. cbn [Nat.sub Nat.ltb Nat.leb app collect]. unfold tau_block, tau_r, tau_Rx, tau_Ru.
    cbn [under t_set inv_calc fb_actuator a_calc a_commands fb_calc fb_commands with_tau with_u fb_run fold_left fb_create snd negb Nat.ltb Nat.leb]. reflexivity.
  - reflexivity.
  - intros b [<-|[<-|[]]] i Hi; cbn [b_n b_r] in *; [unfold setseg; now destruct (_ && _)|]. rewrite (one1 i Hi), rod_acc, Ea. field. assumption.
Qed.

(** *** What fails *)
(** The force of a contact that is switched off is not constrained: its block is zero whatever the
    control says, while the derivative it publishes is that of the force.  So solutions keep arbitrary
    forces in the control and the published derivative is always wrong. *)
Definition off (c : icontact) : icontact :=
  let m := ic_m c in IContact (ic_frame c) (CModel (cm_kind m) (cm_type m) (cm_g0 m) (cm_g1 m) (cm_jMf m) (cm_joint m) false) (ic_k c) (ic_ka c) (ic_old c).
Theorem C89_force_refuted : forall nv nj rb cs s dx du a f tau rq rv p c k,
  inv_setting nv nj rb cs s dx du a f tau rq rv -> nth_error cs p = Some c -> cm_active (ic_m c) = false ->
  (k < c_nc (ic_item c))%nat -> du (nv + nc_total (map ic_item (firstn p cs)) + k)%nat <> 0 ->
  forall b : R -> block, (forall t, nth_error (contact_constraints nv (idatas nv cs t (a t) (f t))) p = Some (Some (b t))) ->
  (forall t i, b_r (b t) i = 0) /\
  ~ jac (nv + nv) (nv + nc_total (map ic_item cs)) (c_nc (ic_item c)) (fun t => b_r (b t)) s dx du (b_Rx (b s)) (b_Ru (b s)).
Proof.
  intros nv nj rb cs s dx du a f tau rq rv p c k IV E A Hk ND b Hb.
  assert (B : forall t, b t = Block (c_nc (ic_item c)) (fun _ => 0) (fun _ _ => 0)
      (fun i j => if (j =? nv + nc_total (map ic_item (firstn p cs)) + i)%nat then 1 else 0)).
  { intro t. assert (X := constraint_nth nv cs t (a t) (f t) p c E (iv_frames _ _ _ _ _ _ _ _ _ _ _ _ IV)). cbv zeta in X. rewrite A in X. specialize (Hb t). congruence. }
  split; [intros t i; now rewrite B|]. intro J. specialize (J k Hk). cbv beta in J. rewrite B in J. cbn [b_Rx b_Ru] in J.
  assert (D0 : is_derive (fun t => b_r (b t) k) s 0) by (apply (dext (fun _ => 0)); [intro t; now rewrite B|apply dconst]).
  assert (U := duniq _ _ _ _ J D0). rewrite rsum_0 in U by (intros; ring). rewrite Rplus_0_l in U.
  rewrite (rsum_single _ (nv + nc_total (map ic_item (firstn p cs)) + k)%nat) in U.
  - rewrite Nat.eqb_refl in U. lra.
  - destruct (nth_error_split _ _ E) as (pre & post & -> & <-). rewrite firstn_app, Nat.sub_diag, firstn_all. cbn [firstn]. rewrite app_nil_r, map_app.
    assert (T : forall l1 l2, nc_total (l1 ++ l2) = (nc_total l1 + nc_total l2)%nat) by (intros; apply (nc_used_app true)).
    rewrite T. cbn [map]. change (nc_total (ic_item c :: ?l)) with (c_nc (ic_item c) + nc_total l)%nat. lia.
  - intros j Hj ne. replace (j =? _)%nat with false by (symmetry; now apply Nat.eqb_neq). ring.
Qed.

(** The rod, turning at the speed [v], with its acceleration and the force of the contact changing: the
    contact switched on and off. *)
Definition rod_dx : vec := fun j => if Nat.eqb j 0 then 1 else 0.
Definition rod_du : vec := fun j => if Nat.eqb j 0 then 2 else 3.
Definition rod_a (s t : R) : vec := fun _ => 4 + 2 * (t - s).
Definition rod_f (s t : R) : vec := fun _ => 5 + 3 * (t - s).
Definition rod_tau (on : bool) (s t : R) : vec := fun _ => rod_a s t 0%nat - (if on then cos t * rod_f s t 0%nat else 0).
Definition rod_cs (on : bool) (v : R) : list icontact := [if on then rod v else off (rod v)].
Example C89_ex on v s : inv_setting 1 2 turn_rb (rod_cs on v) s rod_dx rod_du (rod_a s) (rod_f s) (rod_tau on s) (fun _ _ => 0) (fun _ _ => 0).
Proof.
  assert (D : forall k e : R, is_derive (fun t => k + e * (t - s)) s e).
  { intros k e. eapply deq; [apply dplus; [apply dconst|apply dscal, dminus; [apply did|apply dconst]]|]. ring. }
  constructor.
  - split; [|split].
    + intros i j _ _. exists 0. exact (dconst 1 s).
    + intros i _. exists 0. exact (dconst 0 s).
    + intros joint i _. exists z6. split; (split; [|split]); cbn [r_G turn_rb]; v3u; apply dconst.
  - intros c I A. destruct on; destruct I as [<-|[]]; [|discriminate].
    destruct (C85_ex v (4 + 2 * (s - s)) s s) as (_ & G & _). exact G.
  - intros c I. destruct on; destruct I as [<-|[]]; exact (rod_kin v).
  - destruct on; (constructor; [easy|constructor]).
  - destruct on; cbn; [constructor; [easy|constructor]|constructor].
  - destruct on; cbn; [intros j [<-|[]]; lia|easy].
  - intros t i Hi. rewrite (one1 i Hi). destruct on; cbn [r_M r_nle r_G turn_rb]; unfold rod_cs, rod_tau.
    + rewrite rod_fext. cbn [rsum]. ring.
    + rewrite (rsum_0 2); [cbn [rsum]; ring|]. intros j _. apply dot6_z.
  - intros i Hi. rewrite (one1 i Hi). cbn [rsum r_M r_nle turn_rb r_G]. eapply deq; [apply dconst|]. ring.
  - intros j Hj. rewrite (one1 j Hj). apply D.
  - intros r Hr. assert (r = 0%nat) as -> by (destruct on; cbn in Hr; lia). apply D.
Qed.
Example C89_ex_off v s : nth_error (rod_cs false v) 0 = Some (off (rod v)) /\ cm_active (ic_m (off (rod v))) = false /\
  (0 < c_nc (ic_item (off (rod v))))%nat /\ rod_du (1 + nc_total (map ic_item (firstn 0 (rod_cs false v))) + 0)%nat <> 0 /\
  exists b : R -> block, forall t, nth_error (contact_constraints 1 (idatas 1 (rod_cs false v) t (rod_a s t) (rod_f s t))) 0 = Some (Some (b t)).
Proof.
  split; [reflexivity|]. split; [reflexivity|]. split; [cbn; lia|]. split; [cbn; lra|]. eexists. intro t. reflexivity.
Qed.
(** So the control of a feasible point is not determined: every force is allowed for a contact that is
    switched off. *)
Theorem C88_inactive_refuted : exists nv nj ac d M nle G cs t a tau rq rv Mp Jc br bRx bRu,
  regular nv ac d /\ placed nv nj G cs t /\
  forall force, exists bs, rnea_value nv nj M nle G a (snd (iupdate nv cs t a force)) tau /\
    inv_constraints nv (a_na ac) (snd (inv_calc ac tau d)) tau rq rv Mp Jc br bRx bRu (idatas nv cs t a force) = Some bs /\ satisfied bs /\
    (0 < nc_total (map ic_item cs))%nat.
Proof.
  exists 1%nat, 2%nat, (full_actuator 1), (full_run []), (fun _ _ => 1), (fun _ => 0), (fun _ _ => V6 z3 (V3 0 0 1)), (rod_cs false 0), 0, (fun _ => 0), (fun _ => 0),
    (fun _ _ => 0), (fun _ _ => 0), (fun _ _ => 1), (fun _ _ => 0), (fun _ => 0), (fun _ _ => 0), (fun _ _ => 0).
  split; [apply C88_full|]. split.
  { split; [|split; [|split; [|split]]].
    - intros c [<-|[]]. exact (rod_kin 0).
    - intros c [<-|[]]; discriminate.
    - constructor; [easy|constructor].
    - cbn. constructor.
    - cbn. easy. }
  intro force. eexists. split; [|split; [|split]].
  - intros i Hi. rewrite (rsum_0 2); [cbn [rsum]; ring|]. intros j _. apply dot6_z.
  - reflexivity.
  - intros b [<-|[]] i Hi. reflexivity.
  - cbn. lia.
Qed.
(** Two contacts of one frame, the first switched off with a zero acceleration in its data: the
    constraint of the second one reads the data of the first. *)
Theorem C88_frame_refuted : exists nv nj ac d M nle G cs t a force tau rq rv Mp Jc br bRx bRu bs bufJ bufa,
  regular nv ac d /\
  (forall c, In c cs -> kinematic nv c) /\
  (forall c, In c cs -> cm_active (ic_m c) = true -> forall j, fJf (ic_k c t) j = actinv_motion (cm_jMf (ic_m c)) (G (cm_joint (ic_m c)) j)) /\
  NoDup (joints (map ic_item cs)) /\ (forall j, In j (joints (map ic_item cs)) -> (j < nj)%nat) /\
  rnea_value nv nj M nle G a (snd (iupdate nv cs t a force)) tau /\
  inv_constraints nv (a_na ac) (snd (inv_calc ac tau d)) tau rq rv Mp Jc br bRx bRu (idatas nv cs t a force) = Some bs /\ satisfied bs /\
  let pcs := ipcs nv cs t a in
  ~ constrained_motion nv (nc_active (map ic_item cs)) M nle (t_tau (snd (inv_calc ac tau d)))
      (stack zv false (row_list pcs t) 0 bufJ) (stack 0 false (acc_list pcs t) 0 bufa) 0 a (active_part (map ic_item cs) force).
Proof.
  exists 1%nat, 2%nat, (full_actuator 1), (full_run []), (fun _ _ => 1), (fun _ => 0), (fun _ _ => V6 z3 (V3 0 0 1)), [off (rod 0); rod 0], 0, (fun _ => 1), (fun _ => 0), (fun _ => 1),
    (fun _ _ => 0), (fun _ _ => 0), (fun _ _ => 1), (fun _ _ => 0), (fun _ => 0), (fun _ _ => 0), (fun _ _ => 0). eexists. exists (fun _ _ => 0), (fun _ => 0).
  split; [apply C88_full|]. split; [|split; [|split; [|split; [|split; [|split; [|split]]]]]].
  - intros c [<-|[<-|[]]]; exact (rod_kin 0).
  - intros c [<-|[<-|[]]]; [discriminate|]. intros _ j. destruct (rod_placed 0 0) as (_ & AT & _). apply AT; [now left|reflexivity].
  - cbn. constructor; [easy|constructor].
  - cbn. intros j [<-|[]]. lia.
  - intros i Hi.
    change (snd (iupdate 1 [off (rod 0); rod 0] 0 (fun _ => 1) (fun _ => 0))) with (snd (iupdate 1 [rod 0] 0 (fun _ => 1) (fun _ => 0))).
    rewrite rod_fext. cbn [rsum]. ring.
  - reflexivity.
  - intros b [<-|[<-|[]]] i Hi; reflexivity.
  - cbv zeta. intros [_ C]. specialize (C 0%nat). change (nc_active (map ic_item [off (rod 0); rod 0])) with 1%nat in C. specialize (C ltac:(lia)).
    change (stack zv false (row_list (ipcs 1 [off (rod 0); rod 0] 0 (fun _ => 1)) 0) 0 (fun _ _ => 0)) with
      (stack zv false (row_list (ipcs 1 [rod 0] 0 (fun _ => 1)) 0) 0 (fun _ _ => 0)) in C.
    change (stack 0 false (acc_list (ipcs 1 [off (rod 0); rod 0] 0 (fun _ => 1)) 0) 0 (fun _ => 0) 0%nat) with (ex_a0 0 0 1 0 0%nat) in C.
    cbn [rsum] in C. rewrite rod_row, ex_a0_eq, cos_0, sin_0 in C. cbn [Nat.eqb] in C. lra.
Qed.

Print Assumptions C88_floating_base.
Print Assumptions C88_full.
Print Assumptions C88_motion.
Print Assumptions C88_forward.
Print Assumptions C88_complete.
Print Assumptions C88_inactive_refuted.
Print Assumptions C88_frame_refuted.
Print Assumptions C89_tau.
Print Assumptions C89_joint.
Print Assumptions C89_contact.
Print Assumptions C89_force_refuted.
