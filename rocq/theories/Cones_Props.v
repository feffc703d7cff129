(** C48-C51: friction cone, wrench cone and CoP support. *)
From Coquelicot Require Import Coquelicot.
From Coq Require Import QArith Reals Lra Lia List Arith Bool.
From Verif Require Import XFloat Deriv VecMat Cones_Model Cones_Proofs.
Import ListNotations.
Open Scope R_scope.

(** ** Specification *)
(** A f lies between the bounds, row by row. *)
Definition accepts (rows cols : nat) (A : mat) (lb ub : nat -> Rbar) (f : vec) : Prop :=
  forall r, (r < rows)%nat -> Rbar_le (lb r) (Finite (mulv cols A f r)) /\ Rbar_le (Finite (mulv cols A f r)) (ub r).
Definition orthonormal (rot : mat) : Prop :=
  forall i j, (i < 3)%nat -> (j < 3)%nat -> mulm 3 (tr rot) rot i j = idm i j /\ mulm 3 rot (tr rot) i j = idm i j.
(** The surface normal of a contact frame is its z axis. *)
Definition zaxis (rot : mat) : vec := fun j => rot j 2%nat.
Definition tangential (n f : vec) : vec := fun j => f j - dot 3 n f * n j.
Definition coulomb (mu : R) (n f : vec) : Prop := sqrt (dot 3 (tangential n f) (tangential n f)) <= mu * dot 3 n f.
Definition in_limits (lo : R) (hi : Rbar) (x : R) : Prop := lo <= x /\ Rbar_le (Finite x) hi.

Lemma tangential_loc rot f : orthonormal rot ->
  dot 3 (zaxis rot) f = loc rot f 2%nat /\
  dot 3 (tangential (zaxis rot) f) (tangential (zaxis rot) f) = loc rot f 0%nat ^ 2 + loc rot f 1%nat ^ 2.
Proof.
  intro H. assert (E2 : dot 3 (zaxis rot) f = loc rot f 2%nat) by (rewrite loc_eq; unfold dot, zaxis; cbn [rsum]; ring).
  split; auto. unfold tangential. rewrite E2. unfold dot. cbn [rsum].
  assert (Hrec : forall j, (j < 3)%nat -> f j = rot j 0%nat * loc rot f 0%nat + rot j 1%nat * loc rot f 1%nat + rot j 2%nat * loc rot f 2%nat).
  { intros j Hj. rewrite !loc_eq.
    destruct (H j 0%nat Hj ltac:(lia)) as [_ H0]. destruct (H j 1%nat Hj ltac:(lia)) as [_ H1]. destruct (H j 2%nat Hj ltac:(lia)) as [_ H2].
    unfold mulm, tr in H0, H1, H2. cbn [rsum] in H0, H1, H2.
    transitivity (idm j 0%nat * f 0%nat + idm j 1%nat * f 1%nat + idm j 2%nat * f 2%nat); [|rewrite <- H0, <- H1, <- H2; ring].
    destruct j as [|[|[|j]]]; try lia; unfold idm; cbn; ring. }
  destruct (H 0%nat 0%nat) as [H00 _]; try lia. destruct (H 0%nat 1%nat) as [H01 _]; try lia. destruct (H 1%nat 1%nat) as [H11 _]; try lia.
  unfold mulm, tr in H00, H01, H11. cbn [rsum] in H00, H01, H11. unfold idm in H00, H01, H11. cbn [Nat.eqb] in H00, H01, H11.
  pose proof (Hrec 0%nat ltac:(lia)) as F0. pose proof (Hrec 1%nat ltac:(lia)) as F1. pose proof (Hrec 2%nat ltac:(lia)) as F2. clear Hrec E2.
  unfold zaxis. set (g0 := loc rot f 0%nat) in *. set (g1 := loc rot f 1%nat) in *. set (g2 := loc rot f 2%nat) in *. clearbody g0 g1 g2.
  rewrite F0, F1, F2.
  transitivity ((0 + rot 0%nat 0%nat * rot 0%nat 0%nat + rot 1%nat 0%nat * rot 1%nat 0%nat + rot 2%nat 0%nat * rot 2%nat 0%nat) * g0 ^ 2
    + 2 * (0 + rot 0%nat 0%nat * rot 0%nat 1%nat + rot 1%nat 0%nat * rot 1%nat 1%nat + rot 2%nat 0%nat * rot 2%nat 1%nat) * g0 * g1
    + (0 + rot 0%nat 1%nat * rot 0%nat 1%nat + rot 1%nat 1%nat * rot 1%nat 1%nat + rot 2%nat 1%nat * rot 2%nat 1%nat) * g1 ^ 2); [ring|].
  rewrite H00, H01, H11. ring.
Qed.
Lemma fc_accepts_iff c m f : c_nf c = (2 * m)%nat -> (0 < m)%nat -> let c' := fc_update c in
  (accepts (c_nf c' + 1) 3 (c_A c') (c_lb c') (c_ub c') f <->
   facet_ok (c_nf c) (cone_mu (c_nf c) (c_inner c) (c_mu c)) (loc (c_R c) f) /\ in_limits (c_min c) (c_max c) (loc (c_R c) f 2%nat)).
Proof.
  intros E Hm c'. destruct (fc_rows c m E) as [HR HN].
  assert (Hn : mulv 3 (c_A c') f (c_nf c) = loc (c_R c) f 2%nat).
  { unfold mulv. fold c' in HN. cbn [rsum]. rewrite !HN by lia. rewrite loc_eq. ring. }
  rewrite <- (facets_iff (c_nf c) m _ (c_R c) (c_A c') f ltac:(lia) E HR).
  assert (Enf : c_nf c' = c_nf c) by reflexivity. rewrite Enf.
  assert (Elb : c_lb c' = fun r => if (r =? c_nf c)%nat then Finite (c_min c) else m_infty) by reflexivity.
  assert (Eub : c_ub c' = fun r => if (r =? c_nf c)%nat then c_max c else Finite 0) by reflexivity. rewrite Elb, Eub.
  clearbody c'. unfold accepts, in_limits. split.
  - intro H. split.
    + intros r Hr. destruct (H r ltac:(lia)) as [_ H2]. destruct (Nat.eqb_spec r (c_nf c)); [lia|]. exact H2.
    + destruct (H (c_nf c) ltac:(lia)) as [H1 H2]. rewrite Nat.eqb_refl in *. rewrite Hn in *. split; auto.
  - intros [H1 [H2 H3]] r Hr. destruct (Nat.eqb_spec r (c_nf c)) as [->|N].
    + rewrite Hn. split; auto.
    + split; [exact I|]. apply (H1 r). lia.
Qed.
(** a cone after any history of calls, brought up to date *)
Definition reached (c : fcone) : Prop := exists rot mu nf inner lo hi ks, c = fc_update (fc_run (fc_create rot mu nf inner lo hi) ks).
Lemma reached_even c : reached c -> exists c0 m, c = fc_update c0 /\ c_nf c0 = (2 * m)%nat.
Proof.
  intros [rot [mu [nf [inner [lo [hi [ks ->]]]]]]]. eexists. destruct (nf_even nf) as [m E]. exists m. split; [reflexivity|].
  rewrite fc_run_nf. exact E.
Qed.

(** ** C48 *)
(** Inner approximation, 4 facets or more: an accepted force satisfies Coulomb's law and the
    limits on the normal force, and every force within the cone shrunk by cos(pi/nf) is
    accepted.  Missing: nf = 0 and nf = 2 (below). *)
Theorem C48_inner_partial c f : reached c -> (4 <= c_nf c)%nat -> c_inner c = true -> orthonormal (c_R c) ->
  (accepts (c_nf c + 1) 3 (c_A c) (c_lb c) (c_ub c) f ->
     coulomb (c_mu c) (zaxis (c_R c)) f /\ in_limits (c_min c) (c_max c) (dot 3 (zaxis (c_R c)) f)) /\
  (coulomb (c_mu c * cos (PI / INR (c_nf c))) (zaxis (c_R c)) f -> in_limits (c_min c) (c_max c) (dot 3 (zaxis (c_R c)) f) ->
     accepts (c_nf c + 1) 3 (c_A c) (c_lb c) (c_ub c) f).
Proof.
  intros Hr Hn Hi HO. destruct (reached_even c Hr) as [c0 [m [-> E]]]. change (c_nf (fc_update c0)) with (c_nf c0) in *.
  change (c_inner (fc_update c0)) with (c_inner c0) in *. change (c_R (fc_update c0)) with (c_R c0) in *. change (c_mu (fc_update c0)) with (c_mu c0).
  change (c_min (fc_update c0)) with (c_min c0). change (c_max (fc_update c0)) with (c_max c0).
  pose proof (fc_accepts_iff c0 m f E ltac:(lia)) as HA. cbv zeta in HA. change (c_nf (fc_update c0)) with (c_nf c0) in HA. rewrite HA. clear HA Hr.
  destruct (tangential_loc (c_R c0) f HO) as [En Et]. unfold coulomb. rewrite En, Et, Hi. unfold cone_mu. rewrite theta_half by lia.
  pose proof (cos_half_pos (c_nf c0) Hn) as Hc. split.
  - intros [H1 H2]. split; auto. apply facet_ok_sound in H1; [|lia].
    apply (Rmult_le_reg_l (cos (PI / INR (c_nf c0)))); auto. lra.
  - intros H1 H2. split; auto. now apply facet_ok_complete.
Qed.
(** Outer approximation: every force that satisfies Coulomb's law and the limits is accepted
    (2 facets or more), and an accepted force satisfies Coulomb's law with mu / cos(pi/nf). *)
Theorem C48_outer c f : reached c -> (2 <= c_nf c)%nat -> c_inner c = false -> orthonormal (c_R c) ->
  (coulomb (c_mu c) (zaxis (c_R c)) f -> in_limits (c_min c) (c_max c) (dot 3 (zaxis (c_R c)) f) ->
     accepts (c_nf c + 1) 3 (c_A c) (c_lb c) (c_ub c) f) /\
  ((4 <= c_nf c)%nat -> accepts (c_nf c + 1) 3 (c_A c) (c_lb c) (c_ub c) f ->
     coulomb (c_mu c / cos (PI / INR (c_nf c))) (zaxis (c_R c)) f /\ in_limits (c_min c) (c_max c) (dot 3 (zaxis (c_R c)) f)).
Proof.
  intros Hr Hn Hi HO. destruct (reached_even c Hr) as [c0 [m [-> E]]]. change (c_nf (fc_update c0)) with (c_nf c0) in *.
  change (c_inner (fc_update c0)) with (c_inner c0) in *. change (c_R (fc_update c0)) with (c_R c0) in *. change (c_mu (fc_update c0)) with (c_mu c0).
  change (c_min (fc_update c0)) with (c_min c0). change (c_max (fc_update c0)) with (c_max c0).
  pose proof (fc_accepts_iff c0 m f E ltac:(lia)) as HA. cbv zeta in HA. change (c_nf (fc_update c0)) with (c_nf c0) in HA. rewrite HA. clear HA Hr.
  destruct (tangential_loc (c_R c0) f HO) as [En Et]. unfold coulomb. rewrite En, Et, Hi. unfold cone_mu. split.
  - intros H1 H2. split; auto. now apply facet_ok_complete.
  - intros H4 [H1 H2]. split; auto. apply facet_ok_sound in H1; [|lia]. pose proof (cos_half_pos (c_nf c0) H4) as Hc.
    apply (Rmult_le_reg_l (cos (PI / INR (c_nf c0)))); auto.
    replace (cos (PI / INR (c_nf c0)) * (c_mu c0 / cos (PI / INR (c_nf c0)) * loc (c_R c0) f 2%nat)) with (c_mu c0 * loc (c_R c0) f 2%nat) by (field; lra). lra.
Qed.
(** With 2 facets, accepted by the constructor, the inner approximation contains forces with
    any tangential component; so does a cone with 0 facets. *)
Theorem C48_facets_refuted : forall nf mu t, nf = 0%nat \/ nf = 2%nat -> exists f,
  let c := fc_create idm mu nf true 0 p_infty in
  c_nf c = nf /\ accepts (nf + 1) 3 (c_A c) (c_lb c) (c_ub c) f /\ f 2%nat = 1 /\ f 1%nat = t /\ dot 3 (zaxis (c_R c)) f = 1.
Proof.
  intros nf mu t Hnf. exists (vec3 0 t 1). cbv zeta. destruct Hnf as [->| ->].
  - split; [reflexivity|]. split; [|repeat split; unfold dot, zaxis; cbn; unfold idm; cbn; ring].
    intros r Hr. replace r with 0%nat by lia. cbn. unfold mulv. cbn. unfold set_head. cbn. unfold tr, idm. cbn.
    unfold ltb0. destruct (Rlt_dec 0 0); (split; [cbn; lra|exact I]).
  - split; [reflexivity|]. split; [|repeat split; unfold dot, zaxis; cbn; unfold idm; cbn; ring].
    assert (E0 : cos (cone_theta 2 * (1 / 2)) = 0) by (unfold cone_theta; replace (2 * PI / INR 2 * (1 / 2)) with (PI / 2) by (simpl; field); apply cos_PI2).
    assert (C0 : cos (cone_theta 2 * INR 0) = 1) by (simpl; rewrite Rmult_0_r; apply cos_0).
    assert (S0 : sin (cone_theta 2 * INR 0) = 0) by (simpl; rewrite Rmult_0_r; apply sin_0).
    set (c0 := FCone 2 idm (if ltb0 mu then 1 else mu) true (if ltb0 0 then 0 else 0) p_infty (fun _ _ => 0) (fun _ => Finite 0) (fun _ => Finite 0)).
    change (fc_create idm mu 2 true 0 p_infty) with (fc_update c0).
    apply (fc_accepts_iff c0 1 (vec3 0 t 1) eq_refl ltac:(lia)).
    assert (L0 : loc (c_R c0) (vec3 0 t 1) 0%nat = 0) by (rewrite loc_eq; cbn; unfold idm; cbn; ring).
    assert (L1 : loc (c_R c0) (vec3 0 t 1) 1%nat = t) by (rewrite loc_eq; cbn; unfold idm; cbn; ring).
    assert (L2 : loc (c_R c0) (vec3 0 t 1) 2%nat = 1) by (rewrite loc_eq; cbn; unfold idm; cbn; ring).
    split.
    + intros k Hk. rewrite L0, L1, L2. cbn [c_nf c_inner c0 cone_mu]. unfold cone_mu. rewrite E0.
      cbn [c_nf c0] in Hk.
      assert (Es : sin (cone_theta 2 * INR k) = 0).
      { unfold cone_theta. destruct k as [|[|[|k]]]; try lia.
        - exact S0.
        - replace (2 * PI / INR 2 * INR 1) with PI by (simpl; field). apply sin_PI.
        - replace (2 * PI / INR 2 * INR 2) with (2 * PI) by (simpl; field). apply sin_2PI. }
      rewrite Es. lra.
    + rewrite L2. split; [|exact I]. cbn [c_min c0]. unfold ltb0. destruct (Rlt_dec 0 0); lra.
Qed.
(** a concrete case: 4 facets, mu = 1, identity frame, f = (1/2, 0, 1) *)
Example C48_case : let c := fc_update (fc_run (fc_create idm 1 4 true 0 p_infty) []) in
  reached c /\ (4 <= c_nf c)%nat /\ c_inner c = true /\ orthonormal (c_R c) /\ coulomb (1 * cos (PI / INR 4)) (zaxis (c_R c)) (vec3 (1 / 2) 0 1).
Proof.
  cbv zeta. split; [repeat eexists|]. split; [cbn; lia|]. split; [reflexivity|].
  assert (HO : orthonormal idm).
  { intros i j Hi Hj. unfold mulm, tr. rewrite (rsum_ext 3 (fun j0 => idm j0 i * idm j0 j) (fun k => idm i k * idm k j)).
    - split.
      + apply (rsum_id_l 3 i (fun k => idm k j)). auto.
      + rewrite (rsum_ext 3 _ (fun k => idm i k * idm k j)); [apply (rsum_id_l 3 i (fun k => idm k j)); auto|].
        intros k _. unfold idm. now rewrite (Nat.eqb_sym j k).
    - intros k _. unfold idm. now rewrite (Nat.eqb_sym k i). }
  split; [exact HO|].
  unfold coulomb. destruct (tangential_loc idm (vec3 (1 / 2) 0 1) HO) as [En Et]. change (c_R (fc_update (fc_run (fc_create idm 1 4 true 0 p_infty) []))) with idm.
  rewrite En, Et. rewrite !loc_eq. unfold idm. cbn [Nat.eqb vec3].
  replace (INR 4) with 4 by (simpl; ring). rewrite cos_PI4.
  replace ((1 * (1 / 2) + 0 * 0 + 0 * 1) ^ 2 + (0 * (1 / 2) + 1 * 0 + 0 * 1) ^ 2) with (1 / 2 * (1 / 2)) by ring. rewrite sqrt_square by lra.
  assert (H2 : sqrt 2 <= 2) by (rewrite <- (sqrt_square 2) at 2 by lra; apply sqrt_le_1_alt; lra). assert (0 < sqrt 2) by (apply sqrt_lt_R0; lra).
  assert (1 / 2 <= 1 / sqrt 2) by (apply (proj1 (Rle_div_r (1 / 2) 1 (sqrt 2) ltac:(lra))); lra). lra.
Qed.

(** ** C49 *)
Definition Rbar_ge0 (x : Rbar) : Prop := Rbar_le (Finite 0) x.
Lemma ltb0_spec x : (if ltb0 x then x < 0 else 0 <= x).
Proof. unfold ltb0. destruct (Rlt_dec x 0); lra. Qed.
Lemma Rbar_ltb0_spec x : if Rbar_ltb0 x then True else Rbar_ge0 x.
Proof. destruct x; cbn; auto; try exact I. pose proof (ltb0_spec r). destruct (ltb0 r); auto. Qed.
(** The wrench cone replaces negative values in the constructor and in every setter. *)
Theorem C49_wrench rot mu l w nf inner lo hi ks :
  let c := wc_run (wc_create rot mu l w nf inner lo hi) ks in 0 <= w_mu c /\ 0 <= w_min c /\ Rbar_ge0 (w_max c).
Proof.
  cbv zeta.
  assert (H0 : let c := wc_create rot mu l w nf inner lo hi in 0 <= w_mu c /\ 0 <= w_min c /\ Rbar_ge0 (w_max c)).
  { cbn. pose proof (ltb0_spec mu). pose proof (ltb0_spec lo). pose proof (Rbar_ltb0_spec hi).
    destruct (ltb0 mu), (ltb0 lo), (Rbar_ltb0 hi); repeat split; try lra; auto; exact I. }
  cbv zeta in H0. revert H0. generalize (wc_create rot mu l w nf inner lo hi). induction ks as [|k ks IH]; intros c H; auto.
  unfold wc_run in *. cbn [fold_left]. apply IH. destruct H as [H1 [H2 H3]].
  assert (Hmu : forall m c, 0 <= w_min c /\ Rbar_ge0 (w_max c) -> 0 <= w_mu (wc_set_mu m c) /\ 0 <= w_min (wc_set_mu m c) /\ Rbar_ge0 (w_max (wc_set_mu m c))).
  { intros m c1 [G1 G2]. unfold wc_set_mu. cbv zeta. pose proof (ltb0_spec m). destruct (ltb0 m); cbn; repeat split; auto; lra. }
  assert (Hmin : forall m c, 0 <= w_mu c /\ Rbar_ge0 (w_max c) -> 0 <= w_mu (wc_set_min m c) /\ 0 <= w_min (wc_set_min m c) /\ Rbar_ge0 (w_max (wc_set_min m c))).
  { intros m c1 [G1 G2]. unfold wc_set_min. cbv zeta. pose proof (ltb0_spec m). destruct (ltb0 m); cbn; repeat split; auto; lra. }
  assert (Hmax : forall m c, 0 <= w_mu c /\ 0 <= w_min c -> 0 <= w_mu (wc_set_max m c) /\ 0 <= w_min (wc_set_max m c) /\ Rbar_ge0 (w_max (wc_set_max m c))).
  { intros m c1 [G1 G2]. unfold wc_set_max. cbv zeta. pose proof (Rbar_ltb0_spec m). destruct (Rbar_ltb0 m); cbn; repeat split; auto. }
  destruct k; cbn [wc_step]; auto.
  change (0 <= w_mu (wc_set_max fmax (wc_set_min fmin (wc_set_box l2 w2 (wc_set_inner (w_inner c) (wc_set_mu mu0 (wc_set_R rot0 c)))))) /\
    0 <= w_min (wc_set_max fmax (wc_set_min fmin (wc_set_box l2 w2 (wc_set_inner (w_inner c) (wc_set_mu mu0 (wc_set_R rot0 c)))))) /\
    Rbar_ge0 (w_max (wc_set_max fmax (wc_set_min fmin (wc_set_box l2 w2 (wc_set_inner (w_inner c) (wc_set_mu mu0 (wc_set_R rot0 c)))))))).
  destruct (Hmu mu0 (wc_set_R rot0 c)) as [K1 [K2 K3]]; [split; auto|]. 
  destruct (Hmin fmin (wc_set_box l2 w2 (wc_set_inner (w_inner c) (wc_set_mu mu0 (wc_set_R rot0 c))))) as [K4 [K5 K6]]; [split; auto|].
  apply Hmax. auto.
Qed.
(** The friction cone does so in the constructor, and setters with non-negative arguments keep
    it.  Missing: setters with negative arguments, for which it is false (below). *)
Definition nonneg_call (k : fccall) : Prop :=
  match k with FMu m => 0 <= m | FMin m => 0 <= m | FMax m => Rbar_ge0 m | FUpdateN _ mu _ lo hi => 0 <= mu /\ 0 <= lo /\ Rbar_ge0 hi | _ => True end.
Theorem C49_friction_partial rot mu nf inner lo hi ks : List.Forall nonneg_call ks ->
  let c := fc_run (fc_create rot mu nf inner lo hi) ks in 0 <= c_mu c /\ 0 <= c_min c /\ Rbar_ge0 (c_max c).
Proof.
  intro Hks. cbv zeta.
  assert (H0 : let c := fc_create rot mu nf inner lo hi in 0 <= c_mu c /\ 0 <= c_min c /\ Rbar_ge0 (c_max c)).
  { cbn. pose proof (ltb0_spec mu). pose proof (ltb0_spec lo). pose proof (Rbar_ltb0_spec hi).
    destruct (ltb0 mu), (ltb0 lo), (Rbar_ltb0 hi); repeat split; try lra; auto; exact I. }
  cbv zeta in H0. revert H0. generalize (fc_create rot mu nf inner lo hi). induction Hks as [|k ks Hk Hks IH]; intros c H; auto.
  unfold fc_run in *. cbn [fold_left]. apply IH. destruct H as [H1 [H2 H3]].
  destruct k; cbn [fc_step nonneg_call] in *; auto.
  - unfold fc_set_mu. cbv zeta. destruct (ltb0 mu0); cbn; auto.
  - unfold fc_set_min. cbv zeta. destruct (ltb0 m); cbn; auto.
  - unfold fc_set_max. cbv zeta. destruct (Rbar_ltb0 m); cbn; auto.
  - destruct Hk as [K1 [K2 K3]]. unfold fc_update_normal, fc_set_mu, fc_set_min, fc_set_max. cbv zeta.
    destruct (ltb0 mu0), (ltb0 fmin), (Rbar_ltb0 fmax); cbn; auto.
Qed.
(** Its setters store every negative value they are given. *)
Theorem C49_friction_refuted : forall rot mu nf inner lo hi m, m < 0 ->
  c_mu (fc_run (fc_create rot mu nf inner lo hi) [FMu m]) < 0 /\
  c_min (fc_run (fc_create rot mu nf inner lo hi) [FMin m]) < 0 /\
  ~ Rbar_ge0 (c_max (fc_run (fc_create rot mu nf inner lo hi) [FMax (Finite m)])).
Proof.
  intros rot mu nf inner lo hi m H. unfold fc_run. cbn [fold_left fc_step]. unfold fc_set_mu, fc_set_min, fc_set_max. cbv zeta.
  cbn [Rbar_ltb0]. destruct (ltb0 m); cbn; repeat split; auto; lra.
Qed.

(** A setter stores its argument, or the value announced when it is negative, and touches nothing
    else: in particular the inequalities stay as they are until the next update. *)
Definition or_else (m d : R) : R := if Rlt_dec m 0 then d else m.
Definition or_inf (m : Rbar) : Rbar := match m with Finite r => if Rlt_dec r 0 then p_infty else m | p_infty => m | m_infty => p_infty end.
Definition w_updates (k : wccall) : bool := match k with WUpdate | WUpdateAll _ _ _ _ _ _ => true | _ => false end.
Theorem C49_wrench_setters c k : let c' := wc_step c k in
  w_nf c' = w_nf c /\
  w_R c' = match k with WR rot | WUpdateAll rot _ _ _ _ _ => rot | _ => w_R c end /\
  w_mu c' = match k with WMu m | WUpdateAll _ m _ _ _ _ => or_else m 1 | _ => w_mu c end /\
  w_L2 c' = match k with WBox l _ | WUpdateAll _ _ l _ _ _ => l | _ => w_L2 c end /\
  w_W2 c' = match k with WBox _ w | WUpdateAll _ _ _ w _ _ => w | _ => w_W2 c end /\
  w_inner c' = match k with WInner b => b | _ => w_inner c end /\
  w_min c' = match k with WMin m | WUpdateAll _ _ _ _ m _ => or_else m 0 | _ => w_min c end /\
  w_max c' = match k with WMax m | WUpdateAll _ _ _ _ _ m => or_inf m | _ => w_max c end /\
  (w_updates k = false -> w_A c' = w_A c /\ w_lb c' = w_lb c /\ w_ub c' = w_ub c).
Proof.
  cbv zeta. destruct k; cbn [wc_step w_updates]; unfold wc_update_all, wc_set_mu, wc_set_min, wc_set_max, or_else, or_inf, Rbar_ltb0, ltb0; cbv zeta;
    repeat match goal with
           | |- context [Rlt_dec ?a 0] => destruct (Rlt_dec a 0)
           | |- context [match ?m with Finite _ => _ | p_infty => _ | m_infty => _ end] => is_var m; destruct m
           end;
    repeat (split; [reflexivity|]); try discriminate; now repeat split.
Qed.
Definition f_updates (k : fccall) : bool := match k with FUpdate | FUpdateN _ _ _ _ _ => true | _ => false end.
(** The friction cone's setters store any argument, and touch nothing else either. *)
Theorem C49_friction_setters c k : let c' := fc_step c k in
  c_nf c' = c_nf c /\
  (match k with FR rot => c_R c' = rot | FNsurf _ | FUpdateN _ _ _ _ _ => True | _ => c_R c' = c_R c end) /\
  c_mu c' = match k with FMu m | FUpdateN _ m _ _ _ => m | _ => c_mu c end /\
  c_inner c' = match k with FInner b | FUpdateN _ _ b _ _ => b | _ => c_inner c end /\
  c_min c' = match k with FMin m | FUpdateN _ _ _ m _ => m | _ => c_min c end /\
  c_max c' = match k with FMax m | FUpdateN _ _ _ _ m => m | _ => c_max c end /\
  (f_updates k = false -> c_A c' = c_A c /\ c_lb c' = c_lb c /\ c_ub c' = c_ub c).
Proof.
  cbv zeta. destruct k; cbn [fc_step f_updates]; unfold fc_update_normal, fc_set_nsurf, fc_set_mu, fc_set_min, fc_set_max; cbv zeta;
    repeat match goal with |- context [if ?b then _ else _] => destruct b end;
    repeat (split; [reflexivity || exact I|]); try discriminate; now repeat split.
Qed.

(** ** C50 *)
Lemma rot_to_z_values n : n 0%nat * n 0%nat + n 1%nat * n 1%nat + n 2%nat * n 2%nat = 1 -> -1 < n 2%nat ->
  (forall j, (j < 3)%nat -> rot_to_z n 2%nat j = n j) /\ rot_to_z n 0%nat 2%nat = - n 0%nat /\ rot_to_z n 1%nat 2%nat = - n 1%nat.
Proof.
  intros H Hc. unfold rot_to_z. cbv zeta. set (s := sqrt ((1 + n 2%nat) * 2)).
  assert (Hs : s * s = (1 + n 2%nat) * 2) by (apply sqrt_sqrt; lra). assert (Hp : 0 < s) by (apply sqrt_lt_R0; lra). clearbody s.
  split; [|split].
  - intros j Hj. destruct j as [|[|[|j]]]; try lia; cbn [quat_matrix].
    + field. lra.
    + field. lra.
    + replace (1 - 2 * (n 1%nat / s * (n 1%nat / s) + - n 0%nat / s * (- n 0%nat / s))) with (1 - 2 * ((n 0%nat * n 0%nat + n 1%nat * n 1%nat) / (s * s))) by (field; lra).
      rewrite Hs. replace (n 0%nat * n 0%nat + n 1%nat * n 1%nat) with ((1 - n 2%nat) * (1 + n 2%nat)) by lra. field. lra.
  - cbn [quat_matrix]. field. lra.
  - cbn [quat_matrix]. field. lra.
Qed.
Lemma norm3_sq n : norm3 n * norm3 n = n 0%nat * n 0%nat + n 1%nat * n 1%nat + n 2%nat * n 2%nat.
Proof. apply sqrt_sqrt. nra. Qed.
Lemma unitary_spec n : 0 < norm3 n -> (forall j, unitary n j = n j / norm3 n) /\
  unitary n 0%nat * unitary n 0%nat + unitary n 1%nat * unitary n 1%nat + unitary n 2%nat * unitary n 2%nat = 1.
Proof.
  intro H. assert (E : forall j, unitary n j = n j / norm3 n).
  { intro j. unfold unitary. destruct (Req_EM_T (norm3 n) 1) as [E|]; auto. rewrite E. field. }
  split; auto. rewrite !E. pose proof (norm3_sq n) as Q.
  transitivity ((n 0%nat * n 0%nat + n 1%nat * n 1%nat + n 2%nat * n 2%nat) / (norm3 n * norm3 n)); [field; lra|]. rewrite <- Q. field. lra.
Qed.
(** After update(normal, ...), get_nsurf is the normalised normal.  Missing: the inequality,
    which uses another axis (below). *)
Theorem C50_nsurf_partial c n mu inner lo hi : 0 < norm3 n -> -1 < n 2%nat / norm3 n ->
  forall j, (j < 3)%nat -> fc_get_nsurf (fc_update_normal n mu inner lo hi c) j = n j / norm3 n /\ fc_get_nsurf (fc_set_nsurf n c) j = n j / norm3 n.
Proof.
  intros H H2 j Hj. destruct (unitary_spec n H) as [E1 E2]. rewrite <- E1 in H2.
  destruct (rot_to_z_values (unitary n) E2 H2) as [R1 _]. rewrite <- E1.
  assert (Er : c_R (fc_update_normal n mu inner lo hi c) = rot_to_z (unitary n)).
  { unfold fc_update_normal, fc_set_mu, fc_set_min, fc_set_max. cbv zeta. destruct (ltb0 mu), (ltb0 lo), (Rbar_ltb0 hi); reflexivity. }
  unfold fc_get_nsurf. rewrite Er. split; [now apply R1|]. cbn. now apply R1.
Qed.
(** For a vertical normal the inequality is right; the row that limits the normal force is the
    mirror image of the normal with respect to the z axis. *)
Theorem C50_mirror_partial c n mu inner lo hi m : 0 < norm3 n -> -1 < n 2%nat / norm3 n -> c_nf c = (2 * m)%nat ->
  let c' := fc_update_normal n mu inner lo hi c in
  c_A c' (c_nf c') 0%nat = - (n 0%nat / norm3 n) /\ c_A c' (c_nf c') 1%nat = - (n 1%nat / norm3 n) /\ c_A c' (c_nf c') 2%nat = n 2%nat / norm3 n /\
  ((forall j, (j < 3)%nat -> c_A c' (c_nf c') j = n j / norm3 n) <-> n 0%nat = 0 /\ n 1%nat = 0).
Proof.
  intros H H2 Em c'. destruct (unitary_spec n H) as [E1 E2]. rewrite <- E1 in H2.
  destruct (rot_to_z_values (unitary n) E2 H2) as [R1 [R2 R3]].
  set (c0 := fc_set_max hi (fc_set_min lo (fc_set_inner inner (fc_set_mu mu (fc_set_R (rot_to_z (unitary n)) c))))).
  assert (E0 : c_R c0 = rot_to_z (unitary n) /\ c_nf c0 = c_nf c).
  { unfold c0, fc_set_mu, fc_set_min, fc_set_max. cbv zeta. destruct (ltb0 mu), (ltb0 lo), (Rbar_ltb0 hi); split; reflexivity. }
  destruct E0 as [E0 E0n]. change c' with (fc_update c0). clear c'.
  destruct (fc_rows c0 m ltac:(congruence)) as [_ HN]. change (c_nf (fc_update c0)) with (c_nf c0).
  pose proof (HN 0%nat ltac:(lia)) as N0. pose proof (HN 1%nat ltac:(lia)) as N1. pose proof (HN 2%nat ltac:(lia)) as N2.
  rewrite E0 in N0, N1, N2. rewrite R2 in N0. rewrite R3 in N1. rewrite (R1 2%nat) in N2 by lia. rewrite E1 in N0, N1, N2. 
  split; [exact N0|]. split; [exact N1|]. split; [exact N2|]. split.
  - intro K. pose proof (K 0%nat ltac:(lia)) as K0. pose proof (K 1%nat ltac:(lia)) as K1. rewrite N0 in K0. rewrite N1 in K1.
    assert (Z0 : n 0%nat / norm3 n = 0) by lra. assert (Z1 : n 1%nat / norm3 n = 0) by lra.
    split; [transitivity (n 0%nat / norm3 n * norm3 n); [field; lra|rewrite Z0; ring]|transitivity (n 1%nat / norm3 n * norm3 n); [field; lra|rewrite Z1; ring]].
  - intros [Z0 Z1] j Hj. destruct j as [|[|[|j]]]; try lia; [rewrite N0, Z0|rewrite N1, Z1|rewrite N2]; field; lra.
Qed.
(** On an inclined surface a unit force along the normal is rejected although the minimum normal
    force is 1/2. *)
Theorem C50_normal_refuted : exists n c, norm3 n = 1 /\ c = fc_update_normal n 1 false (1 / 2) p_infty fc_default /\
  (forall j, (j < 3)%nat -> fc_get_nsurf c j = n j) /\ c_min c = 1 / 2 /\ ~ accepts (c_nf c + 1) 3 (c_A c) (c_lb c) (c_ub c) n.
Proof.
  assert (N1 : norm3 (vec3 (3 / 5) 0 (4 / 5)) = 1).
  { unfold norm3, vec3. replace (3 / 5 * (3 / 5) + 0 * 0 + 4 / 5 * (4 / 5)) with (1 * 1) by field. apply sqrt_square. lra. }
  exists (vec3 (3 / 5) 0 (4 / 5)). eexists. split; [exact N1|]. split; [reflexivity|].
  assert (Hpos : 0 < norm3 (vec3 (3 / 5) 0 (4 / 5))) by lra.
  assert (Hz : -1 < vec3 (3 / 5) 0 (4 / 5) 2%nat / norm3 (vec3 (3 / 5) 0 (4 / 5))) by (rewrite N1; cbn [vec3]; lra).
  split.
  - intros j Hj. destruct (C50_nsurf_partial fc_default (vec3 (3 / 5) 0 (4 / 5)) 1 false (1 / 2) p_infty Hpos Hz j Hj) as [E _].
    rewrite E, N1. field.
  - destruct (C50_mirror_partial fc_default (vec3 (3 / 5) 0 (4 / 5)) 1 false (1 / 2) p_infty 2 Hpos Hz eq_refl) as [A0 [A1 [A2 _]]].
    rewrite N1 in A0, A1, A2. cbn [vec3] in A0, A1, A2.
    assert (Em : c_min (fc_update_normal (vec3 (3 / 5) 0 (4 / 5)) 1 false (1 / 2) p_infty fc_default) = 1 / 2).
    { unfold fc_update_normal, fc_set_mu, fc_set_min, fc_set_max. cbv zeta. destruct (ltb0 1), (ltb0 (1 / 2)); reflexivity. }
    split; [exact Em|]. intro H.
    set (c := fc_update_normal (vec3 (3 / 5) 0 (4 / 5)) 1 false (1 / 2) p_infty fc_default) in *.
    destruct (H (c_nf c) ltac:(lia)) as [H1 _].
    assert (El : c_lb c (c_nf c) = Finite (1 / 2)).
    { rewrite <- Em. unfold c, fc_update_normal. unfold fc_update at 1. cbn [c_lb]. rewrite Nat.eqb_refl. reflexivity. }
    rewrite El in H1. unfold mulv in H1. cbn [rsum vec3] in H1. rewrite A0, A2 in H1. cbn [Rbar_le] in H1. lra.
Qed.

Example C50_case : let n := vec3 (3 / 5) 0 (4 / 5) in 0 < norm3 n /\ -1 < n 2%nat / norm3 n /\ c_nf fc_default = (2 * 2)%nat.
Proof.
  assert (N1 : norm3 (vec3 (3 / 5) 0 (4 / 5)) = 1).
  { unfold norm3, vec3. replace (3 / 5 * (3 / 5) + 0 * 0 + 4 / 5 * (4 / 5)) with (1 * 1) by field. apply sqrt_square. lra. }
  cbv zeta. rewrite N1. cbn [vec3]. repeat split; try lra.
Qed.
Example C49_case : List.Forall nonneg_call [FMu (1 / 2); FMin 1; FUpdate].
Proof. repeat constructor; cbn; lra. Qed.

(** ** C51 *)
Definition wreached (c : wcone) : Prop := exists rot mu l w nf inner lo hi ks, c = wc_update (wc_run (wc_create rot mu l w nf inner lo hi) ks).
Lemma wc_run_nf c ks : w_nf (wc_run c ks) = w_nf c.
Proof.
  revert c. induction ks as [|k ks IH]; intro c; auto. unfold wc_run in *. cbn [fold_left]. rewrite IH.
  destruct k; cbn; auto; unfold wc_set_mu, wc_set_min, wc_set_max; cbv zeta;
    repeat match goal with |- context [if ?b then _ else _] => destruct b end; reflexivity.
Qed.
Lemma wreached_even c : wreached c -> exists c0 m, c = wc_update c0 /\ w_nf c0 = (2 * m)%nat.
Proof.
  intros [rot [mu [l [w [nf [inner [lo [hi [ks ->]]]]]]]]]. eexists. destruct (nf_even nf) as [m E]. exists m. split; [reflexivity|].
  rewrite wc_run_nf. exact E.
Qed.
Lemma wc_accepts_iff c m w : w_nf c = (2 * m)%nat -> (0 < m)%nat -> let c' := wc_update c in
  (accepts (w_nf c' + 13) 6 (w_A c') (w_lb c') (w_ub c') w <->
   facet_ok (w_nf c) (w_mu_used c) (loc (w_R c) w) /\ in_limits (w_min c) (w_max c) (loc (w_R c) w 2%nat) /\
   forall r, (1 <= r < 13)%nat -> wrow (w_mu_used c) (w_L2 c / 2) (w_W2 c / 2) (loc (w_R c) w) (wloc (w_R c) w) r <= 0).
Proof.
  intros E Hm c'. rewrite <- (wc_facets c m w E Hm).
  assert (Enf : w_nf c' = w_nf c) by reflexivity. rewrite Enf.
  assert (Elb : w_lb c' = fun r => if (r =? w_nf c)%nat then Finite (w_min c) else m_infty) by reflexivity.
  assert (Eub : w_ub c' = fun r => if (r =? w_nf c)%nat then w_max c else Finite 0) by reflexivity. rewrite Elb, Eub.
  pose proof (fun r => wrow_eval c w r) as HW. unfold accepts, in_limits. fold c' in HW. fold c'. clearbody c'. split.
  - intro H. split; [|split].
    + intros r Hr. destruct (H r ltac:(lia)) as [_ H2]. destruct (Nat.eqb_spec r (w_nf c)); [lia|]. exact H2.
    + destruct (H (w_nf c) ltac:(lia)) as [H1 H2]. rewrite Nat.eqb_refl in *. specialize (HW 0%nat ltac:(lia)). rewrite Nat.add_0_r in HW. rewrite HW in *. split; auto.
    + intros r Hr. destruct (H (w_nf c + r)%nat ltac:(lia)) as [_ H2]. rewrite HW in H2 by lia. destruct (Nat.eqb_spec (w_nf c + r) (w_nf c)); [lia|]. exact H2.
  - intros [H1 [[H2 H3] H4]] r Hr. destruct (Nat.eqb_spec r (w_nf c)) as [->|N].
    + specialize (HW 0%nat ltac:(lia)). rewrite Nat.add_0_r in HW. rewrite HW. split; auto.
    + split; [exact I|]. destruct (lt_dec r (w_nf c)) as [L|L]; [exact (H1 r L)|].
      specialize (H4 (r - w_nf c)%nat ltac:(lia)). rewrite <- HW in H4 by lia. replace (w_nf c + (r - w_nf c))%nat with r in H4 by lia. exact H4.
Qed.
(** The CoP rows are those of CoPSupport for the same frame and box, and a wrench that satisfies
    them with a positive normal force has its centre of pressure inside the box. *)
Theorem C51_cop c w : wreached c -> (0 < w_nf c)%nat ->
  (forall r j, (r < 4)%nat -> (j < 6)%nat -> w_A c (w_nf c + 1 + r)%nat j = cop_A (w_R c) (w_L2 c) (w_W2 c) r j /\
     w_lb c (w_nf c + 1 + r)%nat = cop_lb r /\ w_ub c (w_nf c + 1 + r)%nat = cop_ub r) /\
  (accepts 4 6 (cop_A (w_R c) (w_L2 c) (w_W2 c)) cop_lb cop_ub w -> 0 < loc (w_R c) w 2%nat ->
     let cop_x := - wloc (w_R c) w 1%nat / loc (w_R c) w 2%nat in let cop_y := wloc (w_R c) w 0%nat / loc (w_R c) w 2%nat in
     Rabs cop_x <= w_L2 c / 2 /\ Rabs cop_y <= w_W2 c / 2).
Proof.
  intros Hr Hn. destruct (wreached_even c Hr) as [c0 [m [-> E]]]. change (w_nf (wc_update c0)) with (w_nf c0) in *.
  change (w_R (wc_update c0)) with (w_R c0). change (w_L2 (wc_update c0)) with (w_L2 c0). change (w_W2 (wc_update c0)) with (w_W2 c0).
  split.
  - intros r j Hr' Hj. split; [now apply cop_rows|]. cbn [wc_update w_lb w_ub]. replace (w_nf c0 + 1 + r =? w_nf c0)%nat with false by (symmetry; apply Nat.eqb_neq; lia).
    split; reflexivity.
  - intros HA Hf. cbv zeta.
    assert (HR : forall r, (r < 4)%nat -> wrow (w_mu_used c0) (w_L2 c0 / 2) (w_W2 c0 / 2) (loc (w_R c0) w) (wloc (w_R c0) w) (1 + r) <= 0).
    { intros r Hr'. rewrite <- wrow_eval by lia. destruct (HA r Hr') as [_ H]. cbn [Rbar_le cop_ub] in H.
      replace (mulv 6 (w_A (wc_update c0)) w (w_nf c0 + (1 + r))%nat) with (mulv 6 (cop_A (w_R c0) (w_L2 c0) (w_W2 c0)) w r); auto.
      unfold mulv. apply rsum_ext. intros j Hj. rewrite <- cop_rows by auto. now rewrite Nat.add_assoc. }
    pose proof (HR 0%nat ltac:(lia)) as R1. pose proof (HR 1%nat ltac:(lia)) as R2. pose proof (HR 2%nat ltac:(lia)) as R3. pose proof (HR 3%nat ltac:(lia)) as R4.
    cbn [wrow Nat.add] in R1, R2, R3, R4. split; apply Rabs_le; (split; [apply Rle_div_r|apply Rle_div_l]; lra).
Qed.
(** Contact forces, in the contact frame, at points of the box. *)
Record contact := Contact { k_x : R; k_y : R; k_f : vec }.
Fixpoint sumc (F : contact -> R) (ks : list contact) : R := match ks with [] => 0 | k :: ks => F k + sumc F ks end.
Definition generated (rot : mat) (w : vec) (ks : list contact) : Prop :=
  loc rot w 0%nat = sumc (fun k => k_f k 0%nat) ks /\ loc rot w 1%nat = sumc (fun k => k_f k 1%nat) ks /\ loc rot w 2%nat = sumc (fun k => k_f k 2%nat) ks /\
  wloc rot w 0%nat = sumc (fun k => k_y k * k_f k 2%nat) ks /\ wloc rot w 1%nat = sumc (fun k => - k_x k * k_f k 2%nat) ks /\
  wloc rot w 2%nat = sumc (fun k => k_x k * k_f k 1%nat - k_y k * k_f k 0%nat) ks.
Definition in_box (L W : R) (k : contact) : Prop := Rabs (k_x k) <= L /\ Rabs (k_y k) <= W.
Lemma sumc_ge F G ks : List.Forall (fun k => F k <= G k) ks -> sumc F ks <= sumc G ks.
Proof. induction 1; cbn [sumc]; lra. Qed.
Lemma sumc_lin a F b G ks : a * sumc F ks + b * sumc G ks = sumc (fun k => a * F k + b * G k) ks.
Proof. induction ks; cbn [sumc]; [ring|rewrite <- IHks; ring]. Qed.
Definition k_w (k : contact) : vec := fun i => match i with 0%nat => k_y k * k_f k 2%nat | 1%nat => - k_x k * k_f k 2%nat | _ => k_x k * k_f k 1%nat - k_y k * k_f k 0%nat end.
Lemma wrow_sum rot w ks mu L W r : generated rot w ks -> wrow mu L W (loc rot w) (wloc rot w) r = sumc (fun k => wrow mu L W (k_f k) (k_w k) r) ks.
Proof.
  intros [G0 [G1 [G2 [T0 [T1 T2]]]]].
  do 13 (destruct r as [|r]; [cbn [wrow]; rewrite ?G0, ?G1, ?G2, ?T0, ?T1, ?T2; clear; induction ks as [|k ks IH]; cbn [sumc k_w] in *; [ring|first [rewrite <- IH; cbn [k_w]; ring|ring]]|]).
  cbn [wrow]; rewrite ?G0, ?G1, ?G2, ?T0, ?T1, ?T2; clear; induction ks as [|k ks IH]; cbn [sumc k_w] in *; [ring|first [rewrite <- IH; cbn [k_w]; ring|ring]].
Qed.
Lemma wrow_contact mu L W k r : in_box L W k -> 0 <= k_f k 2%nat -> square_ok mu (k_f k) -> (1 <= r < 13)%nat -> wrow mu L W (k_f k) (k_w k) r <= 0.
Proof.
  intros [B1 B2] Hz [S1 S2] Hr. apply Rabs_le_between in B1, B2, S1, S2.
  assert (P1 : 0 <= (W - k_y k) * (mu * k_f k 2%nat - k_f k 0%nat)) by (apply Rmult_le_pos; lra).
  assert (P2 : 0 <= (W - k_y k) * (mu * k_f k 2%nat + k_f k 0%nat)) by (apply Rmult_le_pos; lra).
  assert (P3 : 0 <= (W + k_y k) * (mu * k_f k 2%nat - k_f k 0%nat)) by (apply Rmult_le_pos; lra).
  assert (P4 : 0 <= (W + k_y k) * (mu * k_f k 2%nat + k_f k 0%nat)) by (apply Rmult_le_pos; lra).
  assert (Q1 : 0 <= (L - k_x k) * (mu * k_f k 2%nat - k_f k 1%nat)) by (apply Rmult_le_pos; lra).
  assert (Q2 : 0 <= (L - k_x k) * (mu * k_f k 2%nat + k_f k 1%nat)) by (apply Rmult_le_pos; lra).
  assert (Q3 : 0 <= (L + k_x k) * (mu * k_f k 2%nat - k_f k 1%nat)) by (apply Rmult_le_pos; lra).
  assert (Q4 : 0 <= (L + k_x k) * (mu * k_f k 2%nat + k_f k 1%nat)) by (apply Rmult_le_pos; lra).
  assert (N1 : 0 <= (W - k_y k) * k_f k 2%nat) by (apply Rmult_le_pos; lra). assert (N2 : 0 <= (W + k_y k) * k_f k 2%nat) by (apply Rmult_le_pos; lra).
  assert (N3 : 0 <= (L - k_x k) * k_f k 2%nat) by (apply Rmult_le_pos; lra). assert (N4 : 0 <= (L + k_x k) * k_f k 2%nat) by (apply Rmult_le_pos; lra).
  do 13 (destruct r as [|r]; [try lia; cbn [wrow k_w]; lra|]). lia.
Qed.
(** Every wrench generated by forces at points of the box, each within the facets and pushing,
    is accepted when the number of facets is a multiple of 4 and the total normal force is
    within its limits.  Missing: other numbers of facets (below). *)
Theorem C51_contacts_partial c w ks q : wreached c -> (0 < q)%nat -> w_nf c = (4 * q)%nat ->
  generated (w_R c) w ks ->
  List.Forall (fun k => in_box (w_L2 c / 2) (w_W2 c / 2) k /\ 0 <= k_f k 2%nat /\ facet_ok (w_nf c) (w_mu_used c) (k_f k)) ks ->
  in_limits (w_min c) (w_max c) (loc (w_R c) w 2%nat) ->
  accepts (w_nf c + 13) 6 (w_A c) (w_lb c) (w_ub c) w.
Proof.
  intros Hr Hq Hn Hg Hks Hlim. destruct (wreached_even c Hr) as [c0 [m [-> E]]]. change (w_nf (wc_update c0)) with (w_nf c0) in *.
  apply (wc_accepts_iff c0 m w E ltac:(lia)). change (w_R (wc_update c0)) with (w_R c0) in *.
  change (w_mu_used (wc_update c0)) with (w_mu_used c0) in *. change (w_L2 (wc_update c0)) with (w_L2 c0) in *. change (w_W2 (wc_update c0)) with (w_W2 c0) in *.
  change (w_min (wc_update c0)) with (w_min c0) in *. change (w_max (wc_update c0)) with (w_max c0) in *.
  split; [|split; auto].
  - intros k Hk. destruct Hg as [G0 [G1 [G2 _]]]. rewrite G0, G1, G2.
    rewrite sumc_lin. replace (w_mu_used c0 * sumc (fun k0 => k_f k0 2%nat) ks) with (w_mu_used c0 * sumc (fun k0 => k_f k0 2%nat) ks + 0 * sumc (fun k0 => k_f k0 2%nat) ks) by ring.
    rewrite sumc_lin. apply sumc_ge. rewrite List.Forall_forall in *. intros kk Hkk. destruct (Hks kk Hkk) as [_ [_ H]]. specialize (H k Hk). lra.
  - intros r Hr'. rewrite (wrow_sum _ _ ks _ _ _ _ Hg).
    replace 0 with (sumc (fun _ => 0) ks) by (clear; induction ks; cbn [sumc]; lra).
    apply sumc_ge. rewrite List.Forall_forall in *. intros k Hk. destruct (Hks k Hk) as [B [P F]].
    apply wrow_contact; auto. apply (facet_square (w_nf c0) q); auto.
Qed.
(** The same for every number of facets when each force satisfies Coulomb's law, with mu for an
    outer approximation and mu cos(pi/nf) for an inner one. *)
Theorem C51_coulomb c w ks : wreached c -> (0 < w_nf c)%nat -> generated (w_R c) w ks ->
  let mu := if w_inner c then w_mu c * cos (PI / INR (w_nf c)) else w_mu c in
  List.Forall (fun k => in_box (w_L2 c / 2) (w_W2 c / 2) k /\ 0 <= k_f k 2%nat /\ sqrt (k_f k 0%nat ^ 2 + k_f k 1%nat ^ 2) <= mu * k_f k 2%nat) ks ->
  in_limits (w_min c) (w_max c) (loc (w_R c) w 2%nat) ->
  accepts (w_nf c + 13) 6 (w_A c) (w_lb c) (w_ub c) w.
Proof.
  intros Hr Hn Hg mu Hks Hlim. destruct (wreached_even c Hr) as [c0 [m [-> E]]]. change (w_nf (wc_update c0)) with (w_nf c0) in *.
  assert (Emu : mu = w_mu_used c0).
  { unfold mu, w_mu_used, cone_mu. cbn [wc_update w_inner w_mu]. destruct (w_inner c0); auto. now rewrite theta_half by lia. }
  clearbody mu. subst mu.
  apply (wc_accepts_iff c0 m w E ltac:(lia)). change (w_R (wc_update c0)) with (w_R c0) in *.
  change (w_L2 (wc_update c0)) with (w_L2 c0) in *. change (w_W2 (wc_update c0)) with (w_W2 c0) in *.
  change (w_min (wc_update c0)) with (w_min c0) in *. change (w_max (wc_update c0)) with (w_max c0) in *.
  split; [|split; auto].
  - intros k Hk. destruct Hg as [G0 [G1 [G2 _]]]. rewrite G0, G1, G2.
    rewrite sumc_lin. replace (w_mu_used c0 * sumc (fun k0 => k_f k0 2%nat) ks) with (w_mu_used c0 * sumc (fun k0 => k_f k0 2%nat) ks + 0 * sumc (fun k0 => k_f k0 2%nat) ks) by ring.
    rewrite sumc_lin. apply sumc_ge. rewrite List.Forall_forall in *. intros kk Hkk. destruct (Hks kk Hkk) as [_ [_ H]].
    apply (facet_ok_complete (w_nf c0)) in H. specialize (H k Hk). lra.
  - intros r Hr'. rewrite (wrow_sum _ _ ks _ _ _ _ Hg).
    replace 0 with (sumc (fun _ => 0) ks) by (clear; induction ks; cbn [sumc]; lra).
    apply sumc_ge. rewrite List.Forall_forall in *. intros k Hk. destruct (Hks k Hk) as [B [P F]].
    apply wrow_contact; auto. split; apply (Rle_trans _ (sqrt (k_f k 0%nat ^ 2 + k_f k 1%nat ^ 2))); auto.
    + rewrite <- sqrt_Rsqr_abs. apply sqrt_le_1_alt. unfold Rsqr. nra.
    + rewrite <- sqrt_Rsqr_abs. apply sqrt_le_1_alt. unfold Rsqr. nra.
Qed.
(** a concrete case for both: two unit forces at opposite corners of a 2x2 box *)
Example C51_case : let c := wc_update (wc_run (wc_create idm 1 2 2 4 false 0 p_infty) []) in
  let w := fun j => match j with 2%nat => 2 | _ => 0 end in let ks := [Contact 1 1 (vec3 0 0 1); Contact (-1) (-1) (vec3 0 0 1)] in
  wreached c /\ (0 < w_nf c)%nat /\ w_nf c = (4 * 1)%nat /\ generated (w_R c) w ks /\
  List.Forall (fun k => in_box (w_L2 c / 2) (w_W2 c / 2) k /\ 0 <= k_f k 2%nat /\ sqrt (k_f k 0%nat ^ 2 + k_f k 1%nat ^ 2) <= w_mu c * k_f k 2%nat) ks /\
  in_limits (w_min c) (w_max c) (loc (w_R c) w 2%nat).
Proof.
  cbv zeta. split; [repeat eexists|]. split; [cbn; lia|]. split; [reflexivity|]. split; [|split].
  - unfold generated, wloc. rewrite !loc_eq. change (w_R (wc_update (wc_run (wc_create idm 1 2 2 4 false 0 p_infty) []))) with idm.
    unfold idm. cbn. repeat split; ring.
  - assert (Em : w_mu (wc_update (wc_run (wc_create idm 1 2 2 4 false 0 p_infty) [])) = 1) by (cbn; unfold ltb0; destruct (Rlt_dec 1 0); lra).
    rewrite Em. change (w_L2 (wc_update (wc_run (wc_create idm 1 2 2 4 false 0 p_infty) []))) with 2. change (w_W2 (wc_update (wc_run (wc_create idm 1 2 2 4 false 0 p_infty) []))) with 2.
    assert (S : sqrt (0 ^ 2 + 0 ^ 2) = 0) by (replace (0 ^ 2 + 0 ^ 2) with 0 by ring; apply sqrt_0).
    unfold in_box. repeat (apply List.Forall_cons; [cbn [k_x k_y k_f vec3]; rewrite S; unfold Rabs; repeat split; try lra; destruct (Rcase_abs _); lra|]). apply List.Forall_nil.
  - rewrite loc_eq. change (w_R (wc_update (wc_run (wc_create idm 1 2 2 4 false 0 p_infty) []))) with idm. unfold idm. cbn. split; [|exact I].
    unfold ltb0. destruct (Rlt_dec 0 0); lra.
Qed.
(** Conversely, with 4 facets every accepted wrench is generated by forces at the four vertices
    of the box, each within the facets: the rows lose nothing. *)
Theorem C51_realisable c w : wreached c -> w_nf c = 4%nat -> 0 < w_L2 c -> 0 < w_W2 c -> 0 <= w_min c -> 0 <= w_mu_used c ->
  accepts (w_nf c + 13) 6 (w_A c) (w_lb c) (w_ub c) w ->
  exists f1 f2 f3 f4 : vec,
    let L := w_L2 c / 2 in let W := w_W2 c / 2 in
    let ks := [Contact L W f1; Contact L (- W) f2; Contact (- L) W f3; Contact (- L) (- W) f4] in
    generated (w_R c) w ks /\ List.Forall (fun k => 0 <= k_f k 2%nat /\ facet_ok 4 (w_mu_used c) (k_f k)) ks.
Proof.
  intros Hr Hn HL HW Hmin Hmu HA. destruct (wreached_even c Hr) as [c0 [m [-> E]]]. change (w_nf (wc_update c0)) with (w_nf c0) in *.
  change (w_R (wc_update c0)) with (w_R c0) in *.
  change (w_mu_used (wc_update c0)) with (w_mu_used c0) in *. change (w_L2 (wc_update c0)) with (w_L2 c0) in *. change (w_W2 (wc_update c0)) with (w_W2 c0) in *.
  change (w_min (wc_update c0)) with (w_min c0) in *.
  apply (wc_accepts_iff c0 m w E ltac:(lia)) in HA. destruct HA as [HF [[Hz _] HR]].
  rewrite Hn in HF. apply (facet_square 4 1) in HF; [|lia|lia]. destruct HF as [S1 S2].
  set (L := w_L2 c0 / 2) in *. set (W := w_W2 c0 / 2) in *. set (mu := w_mu_used c0) in *.
  assert (PL : 0 < L) by (unfold L; lra). assert (PW : 0 < W) by (unfold W; lra). clearbody L W mu.
  pose proof (HR 1%nat ltac:(lia)) as R1. pose proof (HR 2%nat ltac:(lia)) as R2. pose proof (HR 3%nat ltac:(lia)) as R3. pose proof (HR 4%nat ltac:(lia)) as R4.
  pose proof (HR 5%nat ltac:(lia)) as R5. pose proof (HR 6%nat ltac:(lia)) as R6. pose proof (HR 7%nat ltac:(lia)) as R7. pose proof (HR 8%nat ltac:(lia)) as R8.
  pose proof (HR 9%nat ltac:(lia)) as R9. pose proof (HR 10%nat ltac:(lia)) as R10. pose proof (HR 11%nat ltac:(lia)) as R11. pose proof (HR 12%nat ltac:(lia)) as R12.
  cbn [wrow] in *. clear HR. unfold generated. 
  set (fx := loc (w_R c0) w 0%nat) in *. set (fy := loc (w_R c0) w 1%nat) in *. set (fz := loc (w_R c0) w 2%nat) in *.
  set (tx := wloc (w_R c0) w 0%nat) in *. set (ty := wloc (w_R c0) w 1%nat) in *. set (tz := wloc (w_R c0) w 2%nat) in *.
  assert (Pz : 0 <= fz) by lra. clearbody fx fy fz tx ty tz. clear Hr Hn HL HW Hmin E Hz.
  apply Rabs_le_between in S1, S2.
  destruct (Req_dec fz 0) as [Z|NZ].
  { rewrite Z in *. rewrite !Rmult_0_r in *.
    assert (fx = 0) by lra. assert (fy = 0) by lra. assert (tx = 0) by lra. assert (ty = 0) by lra. subst fx fy tx ty.
    assert (tz = 0) by lra. subst tz. exists (fun _ => 0), (fun _ => 0), (fun _ => 0), (fun _ => 0). cbv zeta. cbn [sumc k_x k_y k_f].
    split; [repeat split; ring|].
    assert (F0 : facet_ok 4 mu (fun _ => 0)) by (intros k _; lra).
    repeat constructor; cbn [k_f]; auto; lra. }
  assert (P : 0 < fz) by lra. clear NZ Pz.
  (* W*alpha in [la, ua] and L*beta in [lb, ub] with b - a = tz *)
  set (la := - mu * W * fz + Rabs (W * fx + mu * tx)). set (ua := mu * W * fz - Rabs (W * fx - mu * tx)).
  set (lb := - mu * L * fz + Rabs (L * fy - mu * ty)). set (ub := mu * L * fz - Rabs (L * fy + mu * ty)).
  assert (M1 : W * fx <= W * (mu * fz)) by (apply Rmult_le_compat_l; lra). assert (M2 : W * - (mu * fz) <= W * fx) by (apply Rmult_le_compat_l; lra).
  assert (M3 : L * fy <= L * (mu * fz)) by (apply Rmult_le_compat_l; lra). assert (M4 : L * - (mu * fz) <= L * fy) by (apply Rmult_le_compat_l; lra).
  assert (M5 : mu * tx <= mu * (W * fz)) by (apply Rmult_le_compat_l; lra). assert (M6 : mu * - (W * fz) <= mu * tx) by (apply Rmult_le_compat_l; lra).
  assert (M7 : mu * ty <= mu * (L * fz)) by (apply Rmult_le_compat_l; lra). assert (M8 : mu * - (L * fz) <= mu * ty) by (apply Rmult_le_compat_l; lra).
  assert (Ia : la <= ua) by (unfold la, ua, Rabs; destruct (Rcase_abs (W * fx + mu * tx)), (Rcase_abs (W * fx - mu * tx)); lra).
  assert (Ib : lb <= ub) by (unfold lb, ub, Rabs; destruct (Rcase_abs (L * fy - mu * ty)), (Rcase_abs (L * fy + mu * ty)); lra).
  assert (Iz1 : lb - ua <= tz) by (unfold lb, ua, Rabs; destruct (Rcase_abs (L * fy - mu * ty)), (Rcase_abs (W * fx - mu * tx)); lra).
  assert (Iz2 : tz <= ub - la) by (unfold ub, la, Rabs; destruct (Rcase_abs (L * fy + mu * ty)), (Rcase_abs (W * fx + mu * tx)); lra).
  assert (Hab : exists a b, la <= a <= ua /\ lb <= b <= ub /\ b - a = tz).
  { exists (Rmax lb (tz + la) - tz), (Rmax lb (tz + la)). unfold Rmax. destruct (Rle_dec lb (tz + la)); repeat split; lra. }
  destruct Hab as [a [b [Ha [Hb Hab]]]].
  assert (A1 : Rabs (W * fx + a) <= mu * (W * fz + tx)) by (apply Rabs_le; revert Ha; unfold la, ua, Rabs; destruct (Rcase_abs (W * fx + mu * tx)), (Rcase_abs (W * fx - mu * tx)); lra).
  assert (A2 : Rabs (W * fx - a) <= mu * (W * fz - tx)) by (apply Rabs_le; revert Ha; unfold la, ua, Rabs; destruct (Rcase_abs (W * fx + mu * tx)), (Rcase_abs (W * fx - mu * tx)); lra).
  assert (B1 : Rabs (L * fy + b) <= mu * (L * fz - ty)) by (apply Rabs_le; revert Hb; unfold lb, ub, Rabs; destruct (Rcase_abs (L * fy + mu * ty)), (Rcase_abs (L * fy - mu * ty)); lra).
  assert (B2 : Rabs (L * fy - b) <= mu * (L * fz + ty)) by (apply Rabs_le; revert Hb; unfold lb, ub, Rabs; destruct (Rcase_abs (L * fy + mu * ty)), (Rcase_abs (L * fy - mu * ty)); lra).
  clear R5 R6 R7 R8 R9 R10 R11 R12 M1 M2 M3 M4 M5 M6 M7 M8 Ia Ib Iz1 Iz2. clearbody la ua lb ub.
  (* edge sums, scaled: Y+ = 2 W Ny+ etc. *)
  set (Yp := W * fz + tx) in *. set (Ym := W * fz - tx) in *. set (Xp := L * fz - ty) in *. set (Xm := L * fz + ty) in *.
  assert (Y1 : 0 <= Yp) by (unfold Yp; lra). assert (Y2 : 0 <= Ym) by (unfold Ym; lra). assert (X1 : 0 <= Xp) by (unfold Xp; lra). assert (X2 : 0 <= Xm) by (unfold Xm; lra).
  assert (D : 0 < 4 * L * W * fz) by (repeat apply Rmult_lt_0_compat; lra). set (dd := 4 * L * W * fz) in *.
  exists (vec3 ((W * fx + a) * Xp / dd) ((L * fy + b) * Yp / dd) (Xp * Yp / dd)).
  exists (vec3 ((W * fx - a) * Xp / dd) ((L * fy + b) * Ym / dd) (Xp * Ym / dd)).
  exists (vec3 ((W * fx + a) * Xm / dd) ((L * fy - b) * Yp / dd) (Xm * Yp / dd)).
  exists (vec3 ((W * fx - a) * Xm / dd) ((L * fy - b) * Ym / dd) (Xm * Ym / dd)).
  cbv zeta. cbn [sumc k_x k_y k_f vec3]. split.
  - unfold dd, Xp, Xm, Yp, Ym. rewrite <- Hab. repeat split; field; lra.
  - assert (Hf : forall p q X Y, 0 <= X -> 0 <= Y -> Rabs p <= mu * Y -> Rabs q <= mu * X ->
      0 <= X * Y / dd /\ facet_ok 4 mu (vec3 (p * X / dd) (q * Y / dd) (X * Y / dd))).
    { intros p q X Y HX HY Hp Hq. assert (Hdi : 0 < / dd) by (now apply Rinv_0_lt_compat).
      split; [unfold Rdiv; apply Rmult_le_pos; [now apply Rmult_le_pos|lra]|].
      apply square_facet4. split; cbn [vec3]; unfold Rdiv; rewrite !Rabs_mult, (Rabs_pos_eq (/ dd)) by lra.
      - rewrite (Rabs_pos_eq X) by auto. rewrite <- Rmult_assoc. apply Rmult_le_compat_r; [lra|]. replace (mu * (X * Y)) with (mu * Y * X) by ring. now apply Rmult_le_compat_r.
      - rewrite (Rabs_pos_eq Y) by auto. rewrite <- Rmult_assoc. apply Rmult_le_compat_r; [lra|]. replace (mu * (X * Y)) with (mu * X * Y) by ring. now apply Rmult_le_compat_r. }
    repeat (apply List.Forall_cons; [cbn [k_f]; apply Hf; auto|]). apply List.Forall_nil.
Qed.
(** With 6 facets the rows reject wrenches that forces within the facets generate. *)
Theorem C51_six_facets_refuted : exists c w ks, wreached c /\ w_nf c = 6%nat /\ w_inner c = false /\ generated (w_R c) w ks /\
  List.Forall (fun k => in_box (w_L2 c / 2) (w_W2 c / 2) k /\ 0 <= k_f k 2%nat /\ facet_ok (w_nf c) (w_mu_used c) (k_f k)) ks /\
  in_limits (w_min c) (w_max c) (loc (w_R c) w 2%nat) /\ ~ accepts (w_nf c + 13) 6 (w_A c) (w_lb c) (w_ub c) w.
Proof.
  set (c0 := wc_create idm 1 2 2 6 false 0 p_infty).
  pose (w := fun j => match j with 0%nat => 0 | 1%nat => 8 / 7 | 2%nat => 1 | 3%nat => 1 | 4%nat => -1 | _ => 8 / 7 end).
  exists (wc_update (wc_run c0 [])), w, [Contact 1 1 (vec3 0 (8 / 7) 1)].
  assert (Rr : wreached (wc_update (wc_run c0 []))) by (repeat eexists).
  split; [exact Rr|]. split; [reflexivity|]. split; [reflexivity|]. change (wc_run c0 []) with c0.
  assert (ER : w_R (wc_update c0) = idm) by reflexivity. rewrite ER.
  assert (EL : w_L2 (wc_update c0) = 2) by reflexivity. assert (EW : w_W2 (wc_update c0) = 2) by reflexivity. rewrite EL, EW.
  assert (Emu : w_mu_used c0 = 1) by (unfold c0, w_mu_used, cone_mu; cbn; unfold ltb0; destruct (Rlt_dec 1 0); lra).
  assert (L0 : loc idm w 0%nat = 0) by (rewrite loc_eq; unfold w, idm; cbn; ring). assert (L1 : loc idm w 1%nat = 8 / 7) by (rewrite loc_eq; unfold w, idm; cbn; ring).
  assert (L2 : loc idm w 2%nat = 1) by (rewrite loc_eq; unfold w, idm; cbn; ring).
  assert (T0 : wloc idm w 0%nat = 1) by (unfold wloc; rewrite loc_eq; unfold w, idm; cbn; ring). assert (T1 : wloc idm w 1%nat = -1) by (unfold wloc; rewrite loc_eq; unfold w, idm; cbn; ring).
  assert (T2 : wloc idm w 2%nat = 8 / 7) by (unfold wloc; rewrite loc_eq; unfold w, idm; cbn; ring).
  split; [|split; [|split]].
  - unfold generated. rewrite L0, L1, L2, T0, T1, T2. cbn [sumc k_x k_y k_f vec3]. repeat split; field.
  - constructor; [|constructor]. cbn [k_x k_y k_f vec3]. unfold in_box. cbn [k_x k_y].
    rewrite !Rabs_pos_eq by lra. split; [lra|]. split; [lra|].
    change (w_nf (wc_update c0)) with 6%nat. change (w_mu_used (wc_update c0)) with (w_mu_used c0). rewrite Emu.
    intros k Hk. cbn [vec3].
    assert (HS : sqrt 3 <= 7 / 4) by (rewrite <- (sqrt_square (7 / 4)) by lra; apply sqrt_le_1_alt; lra).
    assert (HS0 : 0 <= sqrt 3) by apply sqrt_pos.
    enough (Hsin : sin (cone_theta 6 * INR k) <= sqrt 3 / 2) by nra.
    unfold cone_theta. destruct k as [|[|[|[|[|[|[|k]]]]]]]; try lia.
    + replace (2 * PI / INR 6 * INR 0) with 0 by (simpl; field). rewrite sin_0. lra.
    + replace (2 * PI / INR 6 * INR 1) with (PI / 3) by (simpl; field). rewrite sin_PI3. lra.
    + replace (2 * PI / INR 6 * INR 2) with (PI - PI / 3) by (simpl; field). rewrite sin_PI_x, sin_PI3. lra.
    + replace (2 * PI / INR 6 * INR 3) with PI by (simpl; field). rewrite sin_PI. lra.
    + replace (2 * PI / INR 6 * INR 4) with (PI / 3 + PI) by (simpl; field). rewrite neg_sin, sin_PI3. lra.
    + replace (2 * PI / INR 6 * INR 5) with ((PI - PI / 3) + PI) by (simpl; field). rewrite neg_sin, sin_PI_x, sin_PI3. lra.
    + replace (2 * PI / INR 6 * INR 6) with (2 * PI) by (simpl; field). rewrite sin_2PI. lra.
  - rewrite L2. split; [|exact I]. cbn. unfold ltb0. destruct (Rlt_dec 0 0); lra.
  - intro H. destruct (H (6 + 9)%nat ltac:(cbn; lia)) as [_ H9].
    change (Rbar_le (Finite (mulv 6 (w_A (wc_update c0)) w (w_nf c0 + 9)%nat)) (Finite 0)) in H9.
    cbn [Rbar_le] in H9. rewrite wrow_eval in H9 by lia.
    change (w_R c0) with idm in H9. cbn [wrow] in H9. rewrite Emu, L0, L1, L2, T0, T1, T2 in H9. change (w_L2 c0) with 2 in H9. change (w_W2 c0) with 2 in H9. lra.
Qed.
(** An infinite box, the default of both classes, puts NaN in the rows of any frame whose z axis
    has a zero coordinate. *)
Theorem C51_infinite_box_refuted : forall Rz j, (Rz j == 0)%Q -> cop_force_x PInf Rz j = NaN.
Proof.
  intros Rz j H. unfold cop_force_x. cbn [xmul xopp]. unfold xsgn, xinf. cbn.
  destruct (Rz j) as [p q]. unfold Qeq in H. cbn in *. destruct p; try lia; reflexivity.
Qed.
(** A CoP support cannot be built from a wrench cone: the sizes never agree. *)
Theorem C51_from_wrench_refuted : forall c, cop_of_wrench c = None.
Proof. intro c. unfold cop_of_wrench. destruct (Nat.eqb_spec (w_nf c + 13) 4); [lia|reflexivity]. Qed.

Print Assumptions C48_inner_partial.
Print Assumptions C48_outer.
Print Assumptions C48_facets_refuted.
Print Assumptions C49_wrench.
Print Assumptions C49_wrench_setters.
Print Assumptions C49_friction_setters.
Print Assumptions C49_friction_partial.
Print Assumptions C49_friction_refuted.
Print Assumptions C50_nsurf_partial.
Print Assumptions C50_mirror_partial.
Print Assumptions C50_normal_refuted.
Print Assumptions C51_cop.
Print Assumptions C51_contacts_partial.
Print Assumptions C51_coulomb.
Print Assumptions C51_realisable.
Print Assumptions C51_six_facets_refuted.
Print Assumptions C51_infinite_box_refuted.
Print Assumptions C51_from_wrench_refuted.
