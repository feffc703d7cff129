(** C93: residuals of the contact forces; C94: gravity-compensation residuals. *)
From Coquelicot Require Import Coquelicot.
From Coq Require Import QArith Reals List Arith Bool Lra Lia.
From Verif Require Import XFloat Deriv VecMat Spatial Contact_Model Cones_Model ForceRes_Model ForceRes_Proofs.
Import ListNotations.
Open Scope R_scope.

(** ** C93.  Specification: the residual as documented, component by component. *)
Definition component (f : v6) (i : nat) : R :=
  match i with
  | 0%nat => c1 (lin f) | 1%nat => c2 (lin f) | 2%nat => c3 (lin f)
  | 3%nat => c1 (ang f) | 4%nat => c2 (ang f) | _ => c3 (ang f)
  end.
Definition documented (k : rkind) (c : fkind) (f : v6) (i : nat) : R :=
  match k with
  | RForce ref => let i := match c with F1 => 2%nat | _ => i end in component f i - component ref i
  | RFriction A => A i 0%nat * c1 (lin f) + A i 1%nat * c2 (lin f) + A i 2%nat * c3 (lin f)
  | RWrench A | RCoP A =>
      A i 0%nat * c1 (lin f) + A i 1%nat * c2 (lin f) + A i 2%nat * c3 (lin f)
      + A i 3%nat * c1 (ang f) + A i 4%nat * c2 (ang f) + A i 5%nat * c3 (ang f)
  end.
Lemma value_documented k c f i : f_value k c f i = documented k c f i.
Proof.
destruct k; cbn [f_value documented]; unfold mulv.
- destruct c; [reflexivity|..]; destruct i as [|[|[|[|[|i]]]]]; reflexivity.
- cbn [rsum tov]. ring.
- cbn [rsum tov]. ring.
- cbn [rsum tov]. ring.
Qed.
(** The rows of the residual: those of the force, or of the matrix of the cone. *)
Definition is_row (k : rkind) (c : fkind) (i : nat) : Prop := match k with RForce _ => (i < fdim c)%nat | _ => True end.
(** The data holds the residual of the contact's force, and its Jacobians are the derivatives of the
    residual with respect to the state and the control, through the multipliers [l] whose derivatives the
    contact publishes. *)
Definition correct (ndx nu : nat) (k : rkind) (c : fcontact) (d : fdata) : Prop :=
  (forall i, is_row k (fc_kind c) i -> fd_r d i = documented k (fc_kind c) (fc_f c) i) /\
  forall (l : R -> vec) s vx vu,
    (forall n, (n < fdim (fc_kind c))%nat -> is_derive (fun t => l t n) s
       (rsum ndx (fun j => fc_dx c n j * vx j) + rsum nu (fun j => fc_du c n j * vu j))) ->
    forall i, is_row k (fc_kind c) i ->
    is_derive (fun t => documented k (fc_kind c) (published (fc_kind c) (fc_jMf c) (l t)) i) s
      (rsum ndx (fun j => fd_Rx d i j * vx j) + rsum nu (fun j => fd_Ru d i j * vu j)).

Lemma correct_intro ndx nu k c d : accepts k (fc_kind c) = true -> flat (fc_kind c) (fc_jMf c) ->
  fd_r d = f_value k (fc_kind c) (fc_f c) -> (forall i j, fd_Rx d i j = f_jac k (fc_kind c) (fc_dx c) i j) ->
  fd_Ru d = f_jac k (fc_kind c) (fc_du c) -> correct ndx nu k c d.
Proof.
intros Ac Fl Er Ex Eu. split.
- intros i _. rewrite Er. apply value_documented.
- intros l s vx vu D i Hi. eapply deq.
  + apply (dext (fun t => f_value k (fc_kind c) (published (fc_kind c) (fc_jMf c) (l t)) i)); [intro t; apply value_documented|].
    exact (d_value k (fc_kind c) (fc_jMf c) ndx nu (fc_dx c) (fc_du c) vx vu l s i Ac Fl D Hi).
  + unfold total. rewrite Eu. f_equal. apply rsum_ext. intros j _. now rewrite Ex.
Qed.

(** Forward dynamics: after calc and calcDiff every data is correct for the current reference, whatever
    was called before on it or on the other datas, which are left alone.  The planar contact has to be
    aligned with its joint (see C93_planar_refuted). *)
Theorem C93_forward_partial : forall ops k0 ndx nu n c d,
  let w := frun ops (FWorld (f_new k0 true) []) in
  nth_error (w_datas w) n = Some (c, d) -> flat (fc_kind c) (fc_jMf c) ->
  let w' := frun [Calc n; Diff n] w in
  (exists d', nth_error (w_datas w') n = Some (c, d') /\ correct ndx nu (fm_kind (w_model w)) c d') /\
  (forall j, j <> n -> nth_error (w_datas w') j = nth_error (w_datas w) j) /\
  fm_kind (w_model w') = fm_kind (w_model w).
Proof.
intros ops k0 ndx nu n c d w H Fl w'.
assert (Fw : fm_fwd (w_model w) = true) by (unfold w; rewrite fwd_run; reflexivity).
pose proof (acc_run ops k0 true n c d H) as Ac. fold w in Ac.
assert (H1 : nth_error (w_datas (fstep w (Calc n))) n = Some (c, f_calc (w_model w) c d)).
{ cbn [fstep w_datas]. now rewrite nth_upd, Nat.eqb_refl, H. }
assert (E : w' = FWorld (fst (f_diff (w_model w) c (f_calc (w_model w) c d)))
   (upd (w_datas (fstep w (Calc n))) n (fun cd => (fst cd, snd (f_diff (w_model w) c (f_calc (w_model w) c d)))))).
{ unfold w', frun. cbn [fold_left]. remember (fstep w (Calc n)) as w1. cbn [fstep]. rewrite H1. subst w1. reflexivity. }
rewrite E. cbn [w_datas w_model]. split; [|split].
- eexists. split; [rewrite nth_upd, Nat.eqb_refl, H1; reflexivity|].
  unfold f_diff. rewrite Fw. apply correct_intro; auto.
- intros j Hj. rewrite upd_other by congruence. cbn [fstep w_datas]. now rewrite upd_other by congruence.
- apply kind_diff.
Qed.

(** Inverse dynamics: the contact publishes constant derivatives, zero with respect to the state.  The
    data is correct if the residual is the plain force, or the model has only this data, or the reference
    was not changed after the data was created. *)
Definition fresh (k0 : rkind) (ops : list fop) (n : nat) : Prop :=
  (exists ref, k0 = RForce ref) \/
  (length (w_datas (frun ops (FWorld (f_new k0 false) []))) = 1)%nat \/
  (exists before after, ops = before ++ after /\ List.Forall no_set after /\
    (length (w_datas (frun before (FWorld (f_new k0 false) []))) <= n)%nat).
Theorem C93_inverse_partial : forall ops k0 ndx nu n c d,
  List.Forall inverse_op ops -> fresh k0 ops n ->
  let w := frun ops (FWorld (f_new k0 false) []) in
  nth_error (w_datas w) n = Some (c, d) -> flat (fc_kind c) (fc_jMf c) ->
  exists d', nth_error (w_datas (frun [Calc n; Diff n] w)) n = Some (c, d') /\ correct ndx nu (fm_kind (w_model w)) c d'.
Proof.
intros ops k0 ndx nu n c d Fi Fr w H Fl.
assert (Fw : fm_fwd (w_model w) = false) by (unfold w; rewrite fwd_run; reflexivity).
pose proof (acc_run ops k0 false n c d H) as Ac. fold w in Ac.
assert (L : (n < length (w_datas w))%nat) by (apply nth_error_Some; congruence).
assert (FX : flatx w) by (apply flatx_run; auto; intros [|i] ? ? X; discriminate).
destruct (FX n c d H) as [Zx ZR].
assert (S : fm_upd (w_model w) = true \/ synced w n).
{ destruct Fr as [[ref ->]|[L1|(before & after & E & NS & Lb)]].
  - right. apply force_run; [exact Fi|now exists ref|reflexivity|left; cbn; lia|exact L].
  - fold w in L1. assert (n = 0%nat) by lia. subst n. apply single_run; auto; [unfold w in L1; lia|]. now left.
  - right. unfold w. rewrite E, frun_app. rewrite E in Fi. apply Forall_app in Fi. destruct Fi as [_ Fi].
    apply synced_run; auto; [now rewrite fwd_run|].
    unfold w in L. rewrite E, frun_app in L. exact L. }
assert (H1 : nth_error (w_datas (fstep w (Calc n))) n = Some (c, f_calc (w_model w) c d)).
{ cbn [fstep w_datas]. now rewrite nth_upd, Nat.eqb_refl, H. }
exists (snd (f_diff (w_model w) c (f_calc (w_model w) c d))). split.
{ unfold frun. cbn [fold_left]. remember (fstep w (Calc n)) as w1. cbn [fstep]. rewrite H1.
  cbn [w_datas]. rewrite nth_upd, Nat.eqb_refl, H1. subst w1. reflexivity. }
unfold f_diff. rewrite Fw. cbn [orb]. destruct (fm_upd (w_model w)) eqn:U.
- apply correct_intro; auto.
- destruct S as [S|S]; [congruence|]. apply correct_intro; auto.
  + intros i j. cbn. rewrite ZR, Zx. symmetry. apply jac_zm.
  + cbn. exact (S c d H).
Qed.

(** Terminal nodes: no residual, no dependence on the state. *)
Theorem C93_terminal : forall ops k0 fwd n c d,
  let w := frun ops (FWorld (f_new k0 fwd) []) in
  nth_error (w_datas w) n = Some (c, d) ->
  exists d', nth_error (w_datas (frun [CalcT n; DiffT n] w)) n = Some (c, d') /\
    (forall i, fd_r d' i = 0) /\ (forall i j, fd_Rx d' i j = 0) /\ fd_Ru d' = fd_Ru d.
Proof.
intros ops k0 fwd n c d w H. unfold frun. cbn [fold_left fstep w_datas].
eexists. split; [rewrite !nth_upd, Nat.eqb_refl, H; reflexivity|]. now repeat split.
Qed.

(** False in inverse dynamics when a model with several datas gets a new reference: calcDiff on the first
    data clears the flag, and the other datas report the new residual with the old Jacobian. *)
Lemma shared_stale A A' ca cb : accepts (RFriction A) (fc_kind ca) = true -> accepts (RFriction A) (fc_kind cb) = true ->
  exists d, nth_error (w_datas (frun [Create ca; Create cb; SetRef (RFriction A'); Calc 0; Diff 0; Calc 1; Diff 1]
      (FWorld (f_new (RFriction A) false) []))) 1 = Some (cb, d) /\
    fd_r d = f_value (RFriction A') (fc_kind cb) (fc_f cb) /\ fd_Ru d = f_jac (RFriction A) (fc_kind cb) (fc_du cb).
Proof.
intros Ha Hb. unfold frun. cbn [fold_left].
assert (E0 : fstep (FWorld (f_new (RFriction A) false) []) (Create ca) =
  FWorld (FModel (RFriction A) false false) [(ca, FData zv (f_jac (RFriction A) (fc_kind ca) (fc_dx ca)) (f_jac (RFriction A) (fc_kind ca) (fc_du ca)))]).
{ cbn [fstep]. unfold f_create. cbn [w_model f_new fm_kind]. rewrite Ha. reflexivity. }
rewrite E0. clear E0.
match goal with |- context [fstep (FWorld ?m ?l) (Create cb)] =>
  replace (fstep (FWorld m l) (Create cb)) with
    (FWorld m (l ++ [(cb, FData zv (f_jac (RFriction A) (fc_kind cb) (fc_dx cb)) (f_jac (RFriction A) (fc_kind cb) (fc_du cb)))])) end.
2:{ cbn [fstep]. unfold f_create. cbn [w_model f_new fm_kind]. rewrite Hb. reflexivity. }
eexists. split; [reflexivity|]. split; reflexivity.
Qed.
Lemma cone_row mu j : c_A (fc_create idm mu 2 false 0 p_infty) 0%nat j =
  if (j <? 3)%nat then (if ltb0 mu then vec3 1 0 (- (1)) j else vec3 1 0 (- mu) j) else 0.
Proof.
unfold fc_create, fc_update. cbn [c_nf c_R c_mu c_inner c_min c_max c_A]. change (negb (2 mod 2 =? 0)%nat) with false. cbv iota.
change (2 / 2)%nat with 1%nat. cbn [facets]. unfold set_head. cbn [Nat.eqb andb].
destruct (j <? 3)%nat eqn:E; [|reflexivity]. apply Nat.ltb_lt in E.
unfold row_Rt, cone_mu, cone_theta, tr, idm, vec3. rewrite Rmult_0_r, cos_0, sin_0.
destruct j as [|[|[|j]]]; [..|lia]; cbn [rsum Nat.eqb]; destruct (ltb0 mu); ring.
Qed.
Definition ex_c : fcontact := FContact F3 (SE3 I3 z3) (V6 (V3 0 0 1) z3) zm idm.
Theorem C93_shared_refuted : exists (a b : fcone) ca cb ndx nu, c_nf a = c_nf b /\
  let ops := [Create ca; Create cb; SetRef (RFriction (c_A b)); Calc 0; Diff 0] in
  let w := frun ops (FWorld (f_new (RFriction (c_A a)) false) []) in
  List.Forall inverse_op ops /\ flat (fc_kind cb) (fc_jMf cb) /\
  exists d, nth_error (w_datas (frun [Calc 1; Diff 1] w)) 1 = Some (cb, d) /\ ~ correct ndx nu (RFriction (c_A b)) cb d.
Proof.
exists (fc_create idm 1 2 false 0 p_infty), (fc_create idm (1 / 2) 2 false 0 p_infty), ex_c, ex_c, 0%nat, 3%nat.
split; [reflexivity|]. intros ops w. split; [repeat constructor|]. split; [discriminate|].
destruct (shared_stale (c_A (fc_create idm 1 2 false 0 p_infty)) (c_A (fc_create idm (1 / 2) 2 false 0 p_infty)) ex_c ex_c eq_refl eq_refl) as (d & H & _ & Hu).
exists d. split; [exact H|]. intros [_ C].
specialize (C (fun t => vec3 0 0 t) 0 zv (vec3 0 0 1)).
assert (D : forall n, (n < fdim (fc_kind ex_c))%nat -> is_derive (fun t => vec3 0 0 t n) 0
   (rsum 0 (fun j => fc_dx ex_c n j * zv j) + rsum 3 (fun j => fc_du ex_c n j * vec3 0 0 1 j))).
{ intros n Hn. cbn [fdim fc_kind ex_c] in Hn. destruct n as [|[|[|n]]]; [..|lia].
  - eapply deq; [apply (dconst 0)|]. cbn [rsum fc_du ex_c]. unfold idm, vec3. cbn [Nat.eqb]. ring.
  - eapply deq; [apply (dconst 0)|]. cbn [rsum fc_du ex_c]. unfold idm, vec3. cbn [Nat.eqb]. ring.
  - eapply deq; [apply did|]. cbn [rsum fc_du ex_c]. unfold idm, vec3. cbn [Nat.eqb]. ring. }
specialize (C D 0%nat I).
assert (T : is_derive (fun t => documented (RFriction (c_A (fc_create idm (1 / 2) 2 false 0 p_infty))) (fc_kind ex_c) (published (fc_kind ex_c) (fc_jMf ex_c) (vec3 0 0 t)) 0%nat) 0 (- (1 / 2))).
{ apply (dext (fun t => - (1 / 2) * t)).
  - intro t. cbn [documented]. rewrite !cone_row. cbn [Nat.ltb Nat.leb]. unfold ltb0. destruct (Rlt_dec (1 / 2) 0); [lra|].
    cbn [ex_c fc_kind fc_jMf published f3 lin c1 c2 c3 vec3]. ring.
  - eapply deq; [apply dscal, did|ring]. }
pose proof (duniq _ _ _ _ C T) as Y. rewrite Hu in Y. cbn [f_jac ex_c fc_kind fc_du] in Y. unfold mulm in Y.
rewrite (rsum_ext 3 _ (fun j => c_A (fc_create idm 1 2 false 0 p_infty) 0%nat j * vec3 0 0 1 j)) in Y.
- cbn [rsum] in Y. rewrite !cone_row in Y. cbn [Nat.ltb Nat.leb] in Y. unfold ltb0, vec3 in Y. destruct (Rlt_dec 1 0); lra.
- intros j Hj. f_equal. rewrite rsum_id_r by assumption. reflexivity.
Qed.

(** False in forward dynamics for a planar contact that is turned with respect to its joint: the force is
    published in the axes of the joint, the Jacobian is formed in those of the contact. *)
Definition turned : se3 := SE3 (M3 (V3 0 0 1) (V3 0 1 0) (V3 (- (1)) 0 0)) z3.
Definition ex_c2 : fcontact := FContact F2 turned (V6 z3 z3) zm idm.
Theorem C93_planar_refuted : rotation (rot turned) /\ exists (a : fcone) ca ndx nu,
  let w := frun [Create ca] (FWorld (f_new (RFriction (c_A a)) true) []) in
  fc_jMf ca = turned /\
  exists d, nth_error (w_datas (frun [Calc 0; Diff 0] w)) 0 = Some (ca, d) /\ ~ correct ndx nu (RFriction (c_A a)) ca d.
Proof.
split.
{ unfold rotation, turned, mm, mt, mv, col1, col2, col3, dot3, I3, det3, cross, dot3. cbn.
  split; [|split]; [..|ring]; f_equal; f_equal; ring. }
exists (fc_create idm 1 2 false 0 p_infty), ex_c2, 0%nat, 2%nat. intro w. split; [reflexivity|].
eexists. split; [reflexivity|]. intros [_ C].
specialize (C (fun t => vec3 0 t 0) 0 zv (vec3 0 1 0)).
assert (D : forall n, (n < fdim (fc_kind ex_c2))%nat -> is_derive (fun t => vec3 0 t 0 n) 0
   (rsum 0 (fun j => fc_dx ex_c2 n j * zv j) + rsum 2 (fun j => fc_du ex_c2 n j * vec3 0 1 0 j))).
{ intros n Hn. cbn [fdim fc_kind ex_c2] in Hn. destruct n as [|[|n]]; [..|lia].
  - eapply deq; [apply (dconst 0)|]. cbn [rsum fc_du ex_c2]. unfold idm, vec3. cbn [Nat.eqb]. ring.
  - eapply deq; [apply did|]. cbn [rsum fc_du ex_c2]. unfold idm, vec3. cbn [Nat.eqb]. ring. }
specialize (C D 0%nat I).
assert (T : is_derive (fun t => documented (RFriction (c_A (fc_create idm 1 2 false 0 p_infty))) (fc_kind ex_c2) (published (fc_kind ex_c2) (fc_jMf ex_c2) (vec3 0 t 0)) 0%nat) 0 1).
{ apply (dext (fun t => t)); [|apply did].
  intro t. cbn [documented]. rewrite !cone_row. cbn [Nat.ltb Nat.leb]. unfold ltb0. destruct (Rlt_dec 1 0); [lra|].
  cbn [ex_c2 fc_kind fc_jMf published]. unfold f2, turned, col1, col3, add3, scal3. cbn [lin c1 c2 c3 vec3 rot row1 row2 row3 fst snd]. ring. }
pose proof (duniq _ _ _ _ C T) as Y. cbn [fd_Ru fd_Rx f_diff snd] in Y.
change (rsum 0 (fun j => f_jac (RFriction (c_A (fc_create idm 1 2 false 0 p_infty))) F2 zm 0%nat j * zv j) +
  rsum 2 (fun j => f_jac (RFriction (c_A (fc_create idm 1 2 false 0 p_infty))) F2 idm 0%nat j * vec3 0 1 0 j) = 1) in Y.
cbn [rsum f_jac] in Y. rewrite !cone_row in Y. cbn [Nat.ltb Nat.leb] in Y. unfold idm, ltb0, vec3 in Y. cbn [Nat.eqb] in Y. destruct (Rlt_dec 1 0); lra.
Qed.

(** Cases meeting the hypotheses.  A 6D contact whose reference changes twice, evaluated at a terminal node in
    between; a force residual in inverse dynamics with two datas and a new reference; a wrench cone with one data. *)
Definition ex_c6 : fcontact := FContact F6 (SE3 I3 z3) (V6 (V3 1 2 3) (V3 4 5 6)) zm idm.
Definition ex_ops : list fop :=
  [Create ex_c6; Create ex_c; SetForce 0 (V6 (V3 1 0 2) z3); SetDiff 0 idm idm; Calc 0; Diff 0; SetRef (RFriction idm);
   CalcT 0; DiffT 0; SetDiff 1 idm zm; Diff 1; SetRef (RFriction (fun i j => 2 * idm i j))].
Example C93_ex_forward : exists d',
  nth_error (w_datas (frun [Calc 0; Diff 0] (frun ex_ops (FWorld (f_new (RFriction zm) true) [])))) 0
    = Some (FContact F6 (SE3 I3 z3) (V6 (V3 1 0 2) z3) idm idm, d') /\
  correct 4 3 (RFriction (fun i j => 2 * idm i j)) (FContact F6 (SE3 I3 z3) (V6 (V3 1 0 2) z3) idm idm) d' /\
  fd_r d' 2%nat = 4 /\ fd_Rx d' 2%nat 2%nat = 2.
Proof.
destruct (C93_forward_partial ex_ops (RFriction zm) 4 3 0 (FContact F6 (SE3 I3 z3) (V6 (V3 1 0 2) z3) idm idm)
  (snd (nth 0 (w_datas (frun ex_ops (FWorld (f_new (RFriction zm) true) []))) (ex_c6, FData zv zm zm))) eq_refl ltac:(discriminate)) as [(d' & H & C) _].
exists d'. split; [exact H|]. split; [exact C|]. destruct C as [C _]. split.
- rewrite (C 2%nat I). change (2 * idm 2%nat 0%nat * 1 + 2 * idm 2%nat 1%nat * 0 + 2 * idm 2%nat 2%nat * 2 = 4). unfold idm. cbn [Nat.eqb]. ring.
- assert (E : Some (FContact F6 (SE3 I3 z3) (V6 (V3 1 0 2) z3) idm idm, d') =
    Some (FContact F6 (SE3 I3 z3) (V6 (V3 1 0 2) z3) idm idm, FData (f_value (RFriction (fun i j => 2 * idm i j)) F6 (V6 (V3 1 0 2) z3))
      (f_jac (RFriction (fun i j => 2 * idm i j)) F6 idm) (f_jac (RFriction (fun i j => 2 * idm i j)) F6 idm))).
  { rewrite <- H. reflexivity. }
  assert (E' : d' = FData (f_value (RFriction (fun i j => 2 * idm i j)) F6 (V6 (V3 1 0 2) z3))
      (f_jac (RFriction (fun i j => 2 * idm i j)) F6 idm) (f_jac (RFriction (fun i j => 2 * idm i j)) F6 idm)) by congruence.
  rewrite E'. cbn [fd_Rx f_jac]. unfold mulm, idm. cbn [rsum Nat.eqb]. ring.
Qed.
Example C93_ex_inverse : exists d',
  nth_error (w_datas (frun [Calc 1; Diff 1] (frun [Create ex_c6; Create ex_c; Diff 0; SetRef (RForce (V6 (V3 0 0 5) z3)); Diff 0; DiffT 1]
    (FWorld (f_new (RForce z6) false) [])))) 1 = Some (ex_c, d') /\
  correct 4 3 (RForce (V6 (V3 0 0 5) z3)) ex_c d'.
Proof.
refine (C93_inverse_partial [Create ex_c6; Create ex_c; Diff 0; SetRef (RForce (V6 (V3 0 0 5) z3)); Diff 0; DiffT 1] (RForce z6) 4 3 1 ex_c _ _ _ eq_refl _).
- repeat constructor.
- left. now exists z6.
- discriminate.
Qed.
Example C93_ex_single : exists d',
  nth_error (w_datas (frun [Calc 0; Diff 0] (frun [SetRef (RWrench zm); Create ex_c6; Diff 0; SetRef (RWrench idm)]
    (FWorld (f_new (RWrench zm) false) [])))) 0 = Some (ex_c6, d') /\
  correct 4 6 (RWrench idm) ex_c6 d'.
Proof.
refine (C93_inverse_partial [SetRef (RWrench zm); Create ex_c6; Diff 0; SetRef (RWrench idm)] (RWrench zm) 4 6 0 ex_c6 _ _ _ eq_refl _).
- repeat constructor.
- right. now left.
- discriminate.
Qed.

(** ** C94 *)
Section C94.
Variables (Q : Type) (nv : nat) (static_torque : Q -> (nat -> v6) -> vec) (gravity : Q -> vec).
Variables (dstatic : Q -> (nat -> v6) -> mat) (dgravity : Q -> mat).
(** Pinocchio: [dgravity] is the derivative of [gravity] along the motion of velocity [vq] at time [s]. *)
Definition gravity_contract (q : R -> Q) (s : R) (vq : vec) : Prop :=
  forall k, (k < nv)%nat -> is_derive (fun t => gravity (q t) k) s (rsum nv (fun j => dgravity (q s) k j * vq j)).

Lemma right_zero ops d : (forall i j, (nv <= j)%nat -> gd_Rx d i j = 0) ->
  forall i j, (nv <= j)%nat -> gd_Rx (prun Q nv gravity dgravity ops d) i j = 0.
Proof.
revert d. induction ops as [|o ops IH]; intros d H; cbn; auto. apply IH. intros i j Hj.
assert (E : (j <? nv)%nat = false) by (apply Nat.ltb_ge; exact Hj).
destruct o; cbn; auto; unfold left_neg; rewrite E; auto.
Qed.
Lemma left_sum D Rx dx i : (forall j, (nv <= j)%nat -> Rx i j = 0) ->
  rsum (nv + nv) (fun j => left_neg nv D Rx i j * dx j) = - rsum nv (fun j => D i j * dx j).
Proof.
intro H. rewrite rsum_app. rewrite (rsum_0 nv (fun i0 => left_neg nv D Rx i (nv + i0)%nat * dx (nv + i0)%nat)).
- rewrite Rplus_0_r. replace (- rsum nv (fun j => D i j * dx j)) with (-1 * rsum nv (fun j => D i j * dx j)) by ring.
  rewrite <- rsum_scal. apply rsum_ext. intros j Hj. unfold left_neg. apply Nat.ltb_lt in Hj. rewrite Hj. ring.
- intros j _. unfold left_neg. replace (nv + j <? nv)%nat with false by (symmetry; apply Nat.ltb_ge; lia). rewrite H by lia. ring.
Qed.

(** Without contacts: after any history, calc and calcDiff give the torque minus the gravity torque and its
    derivatives along every motion, for an actuation whose torque depends on the control only. *)
Theorem C94_control_partial : forall ops fext nu q s (tau : R -> vec) dtau_du dx vu,
  gravity_contract q s dx ->
  (forall k, (k < nv)%nat -> is_derive (fun t => tau t k) s (rsum nu (fun j => dtau_du k j * vu j))) ->
  let d := prun Q nv gravity dgravity (ops ++ [GCalc Q (q s) (tau s) fext; GDiff Q (q s) dtau_du]) (g_create (fun _ => z6)) in
  (forall k, gd_r d k = tau s k - gravity (q s) k) /\
  (forall k, (k < nv)%nat -> is_derive (fun t => tau t k - gravity (q t) k) s
     (rsum (nv + nv) (fun j => gd_Rx d k j * dx j) + rsum nu (fun j => gd_Ru d k j * vu j))).
Proof.
intros ops fext nu q s tau dtau_du dx vu G T d. unfold d, prun. rewrite fold_left_app. cbn [fold_left pstep].
set (d0 := fold_left (pstep Q nv gravity dgravity) ops (g_create (fun _ => z6))). split; [reflexivity|].
intros k Hk. cbn [gd_Rx gd_Ru p_diff p_calc]. rewrite left_sum.
- eapply deq; [apply dminus; [apply (T k Hk)|apply (G k Hk)]|ring].
- intros j Hj. apply (right_zero ops); auto.
Qed.
(** Terminal nodes: minus the gravity torque. *)
Theorem C94_terminal : forall ops q s dx, gravity_contract q s dx ->
  let d := prun Q nv gravity dgravity (ops ++ [GCalcT Q (q s); GDiffT Q (q s)]) (g_create (fun _ => z6)) in
  (forall k, gd_r d k = - gravity (q s) k) /\
  (forall k, (k < nv)%nat -> is_derive (fun t => - gravity (q t) k) s (rsum (nv + nv) (fun j => gd_Rx d k j * dx j))).
Proof.
intros ops q s dx G d. unfold d, prun. rewrite fold_left_app. cbn [fold_left pstep].
set (d0 := fold_left (pstep Q nv gravity dgravity) ops (g_create (fun _ => z6))). split; [reflexivity|].
intros k Hk. cbn [gd_Rx g_diffT g_calcT]. rewrite left_sum.
- apply dopp. apply (G k Hk).
- intros j Hj. apply (right_zero ops); auto.
Qed.

(** With contacts: the residual uses the joint forces that were there when the data was created, after any history. *)
Lemma kept_fext ops d : gd_fext (grun Q nv static_torque gravity dstatic dgravity ops d) = gd_fext d.
Proof. revert d. induction ops as [|o ops IH]; intro d; cbn; auto. unfold grun in IH. rewrite IH. now destruct o. Qed.
Lemma contact_value ops fext0 q tau fext k :
  gd_r (grun Q nv static_torque gravity dstatic dgravity (ops ++ [GCalc Q q tau fext]) (g_create fext0)) k = tau k - static_torque q fext0 k.
Proof.
unfold grun. rewrite fold_left_app. cbn [fold_left gstep g_calc gd_r].
pose proof (kept_fext ops (g_create fext0)) as E. unfold grun in E. now rewrite E.
Qed.
(** So it is the documented torque minus static torque only for forces with the static torque of those initial ones. *)
Theorem C94_contact_partial : forall ops fext0 q tau fext,
  let d := grun Q nv static_torque gravity dstatic dgravity (ops ++ [GCalc Q q tau fext]) (g_create fext0) in
  (forall k, (k < nv)%nat -> gd_r d k = tau k - static_torque q fext k) <->
  (forall k, (k < nv)%nat -> static_torque q fext k = static_torque q fext0 k).
Proof.
intros ops fext0 q tau fext d. split; intros H k Hk; specialize (H k Hk); unfold d in *; rewrite contact_value in *; lra.
Qed.
End C94.

(** A body on a vertical slider: gravity 10, static torque 10 minus the vertical contact force. *)
Definition slider (_ : R) (f : nat -> v6) : vec := fun _ => 10 - c3 (lin (f 1%nat)).
Theorem C94_contact_refuted : forall ops, exists (q : R) tau fext,
  slider q (fun _ => z6) 0%nat = 10 /\
  (** the contact carries the weight and no torque is needed: the documented residual vanishes *)
  tau 0%nat - slider q fext 0%nat = 0 /\
  gd_r (grun R 1 slider (fun _ _ => 10) (fun _ _ => zm) (fun _ => zm) (ops ++ [GCalc R q tau fext]) (g_create (fun _ => z6))) 0%nat = - 10.
Proof.
intro ops. exists 0, zv, (fun _ => V6 (V3 0 0 10) z3). rewrite contact_value. unfold slider, zv. cbn [z6 z3 lin c3].
split; [|split]; ring.
Qed.
(** A torque that depends on the state (here a spring) is missing in Rx. *)
Theorem C94_state_refuted : exists (q : R -> R) s (tau : R -> vec) dtau_du (dx : vec),
  let d := prun R 1 (fun _ _ => 0) (fun _ => zm) [GCalc R (q s) (tau s) (fun _ => z6); GDiff R (q s) dtau_du] (g_create (fun _ => z6)) in
  is_derive q s (dx 0%nat) /\ gravity_contract R 1 (fun _ _ => 0) (fun _ => zm) q s dx /\
  (forall t, tau t 0%nat = - q t) /\
  is_derive (fun t => tau t 0%nat - 0) s (- (1)) /\
  rsum (1 + 1) (fun j => gd_Rx d 0%nat j * dx j) = 0.
Proof.
exists (fun t => t), 0, (fun t _ => - t), zm, (fun _ => 1). intro d. split; [apply did|]. split.
{ intros k _. eapply deq; [apply (dconst 0)|]. cbn [rsum]. unfold zm. ring. }
split; [reflexivity|]. split.
- eapply deq; [apply dminus; [apply dopp, did|apply dconst]|ring].
- cbn [rsum Nat.add]. unfold d. cbn. unfold left_neg, zm. cbn. ring.
Qed.
(** A pendulum meets the hypotheses, after a terminal evaluation of the same data. *)
Example C94_ex : let d := prun R 1 (fun q _ => sin q) (fun q _ _ => cos q)
    ([GCalcT R 2; GDiffT R 2] ++ [GCalc R (PI / 2) (fun _ => 3) (fun _ => z6); GDiff R (PI / 2) idm]) (g_create (fun _ => z6)) in
  gravity_contract R 1 (fun q _ => sin q) (fun q _ _ => cos q) (fun t => t) (PI / 2) (fun _ => 1) /\
  gd_r d 0%nat = 2 /\
  is_derive (fun t => (3 + (t - PI / 2)) - sin t) (PI / 2) (rsum (1 + 1) (fun j => gd_Rx d 0%nat j * 1) + rsum 1 (fun j => gd_Ru d 0%nat j * 1)).
Proof.
intro d.
assert (G : gravity_contract R 1 (fun q _ => sin q) (fun q _ _ => cos q) (fun t => t) (PI / 2) (fun _ => 1)).
{ intros k _. eapply deq; [apply is_derive_Reals, derivable_pt_lim_sin|cbn [rsum]; ring]. }
destruct (C94_control_partial R 1 (fun q _ => sin q) (fun q _ _ => cos q) [GCalcT R 2; GDiffT R 2] (fun _ => z6) 1 (fun t => t) (PI / 2)
  (fun t _ => 3 + (t - PI / 2)) idm (fun _ => 1) (fun _ => 1) G) as [A B].
- intros k Hk. assert (k = 0%nat) by lia. subst k. eapply deq; [apply dplus; [apply dconst|apply dminus; [apply did|apply dconst]]|].
  cbn [rsum]. rewrite idm_same. ring.
- split; [exact G|]. split.
  + change (3 - sin (PI / 2) = 2). rewrite sin_PI2. ring.
  + exact (B 0%nat Nat.lt_0_1).
Qed.

Print Assumptions C93_forward_partial.
Print Assumptions C93_inverse_partial.
Print Assumptions C93_terminal.
Print Assumptions C93_shared_refuted.
Print Assumptions C93_planar_refuted.
Print Assumptions C94_control_partial.
Print Assumptions C94_terminal.
Print Assumptions C94_contact_partial.
Print Assumptions C94_contact_refuted.
Print Assumptions C94_state_refuted.
