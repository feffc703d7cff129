(** Lemmas for the actuation models. *)
From Coquelicot Require Import Coquelicot.
From Coq Require Import Reals Lra Lia List Arith Bool.
From Verif Require Import Deriv VecMat Actuation_Model.
Import ListNotations.
Open Scope R_scope.

(** ** Square roots *)
Ltac sqp := match goal with |- 0 <= ?x ^ 2 + _ => pose proof (pow2_ge_0 x); lra end.
Lemma sqrt_shift_le a p h : 0 <= a -> 0 <= h -> sqrt ((p + h) ^ 2 + a) <= sqrt (p ^ 2 + a) + h.
Proof.
  intros Ha Hh. pose proof (sqrt_pos (p ^ 2 + a)) as Hs.
  assert (Hq : sqrt (p ^ 2 + a) * sqrt (p ^ 2 + a) = p ^ 2 + a) by (apply sqrt_sqrt; sqp).
  assert (Hp : p <= sqrt (p ^ 2 + a)).
  { destruct (Rle_dec p 0); [lra|]. rewrite <- (sqrt_square p) at 1 by lra. apply sqrt_le_1_alt. nra. }
  rewrite <- (sqrt_square (sqrt (p ^ 2 + a) + h)) by lra. apply sqrt_le_1_alt. nra.
Qed.
Lemma sqrt_shift_ge a p h : 0 <= a -> 0 <= h -> sqrt (p ^ 2 + a) <= sqrt ((p + h) ^ 2 + a) + h.
Proof.
  intros Ha Hh. pose proof (sqrt_shift_le a (- (p + h)) h Ha Hh) as H.
  replace ((- (p + h) + h) ^ 2) with (p ^ 2) in H by ring. replace ((- (p + h)) ^ 2) with ((p + h) ^ 2) in H by ring. exact H.
Qed.
(** p -> sqrt(p^2+a) is convex: its increments over h are non-decreasing *)
Lemma sqrt_incr a p q h : 0 <= a -> 0 <= h -> p <= q -> sqrt ((p + h) ^ 2 + a) - sqrt (p ^ 2 + a) <= sqrt ((q + h) ^ 2 + a) - sqrt (q ^ 2 + a).
Proof.
  intros Ha Hh Hpq.
  set (A := sqrt (p ^ 2 + a)). set (B := sqrt ((p + h) ^ 2 + a)). set (C := sqrt (q ^ 2 + a)). set (D := sqrt ((q + h) ^ 2 + a)).
  assert (HA : A * A = p ^ 2 + a) by (apply sqrt_sqrt; sqp).
  assert (HB : B * B = (p + h) ^ 2 + a) by (apply sqrt_sqrt; sqp).
  assert (HC : C * C = q ^ 2 + a) by (apply sqrt_sqrt; sqp).
  assert (HD : D * D = (q + h) ^ 2 + a) by (apply sqrt_sqrt; sqp).
  assert (A0 : 0 <= A) by apply sqrt_pos. assert (B0 : 0 <= B) by apply sqrt_pos.
  assert (C0 : 0 <= C) by apply sqrt_pos. assert (D0 : 0 <= D) by apply sqrt_pos.
  assert (H1 : B <= A + h) by (apply sqrt_shift_le; auto).
  assert (H2 : A <= B + h) by (apply sqrt_shift_ge; auto).
  assert (H3 : D <= C + h) by (apply sqrt_shift_le; auto).
  assert (H4 : C <= D + h) by (apply sqrt_shift_ge; auto).
  clearbody A B C D.
  (* compare B + C with A + D through their squares, then the products *)
  destruct (Rle_dec (B + C) (A + D)); [lra|exfalso]. assert (Hgt : A + D < B + C) by lra.
  assert (AD : 0 <= A * D) by nra. assert (BC : 0 <= B * C) by nra.
  assert (Hsq : (A + D) * (A + D) < (B + C) * (B + C)) by nra.
  assert (Hpr : A * D < B * C - h * (q - p)) by nra.
  set (P := A * D) in *. set (Q := B * C) in *.
  assert (HP : P * P = (p ^ 2 + a) * ((q + h) ^ 2 + a)) by (unfold P; rewrite <- HA, <- HD; ring).
  assert (HQ : Q * Q = ((p + h) ^ 2 + a) * (q ^ 2 + a)) by (unfold Q; rewrite <- HB, <- HC; ring).
  set (k := h * (q - p)) in *. assert (Hk : 0 <= k) by (unfold k; nra).
  assert (Hdiff : Q * Q - P * P = k * (2 * p * q + h * p + h * q - 2 * a)) by (rewrite HP, HQ; unfold k; ring).
  destruct (Req_dec k 0) as [K0|K0].
  { rewrite K0 in *. assert (P * P = Q * Q) by lra. nra. }
  assert (Kp : 0 < k) by lra.
  (* P + k < Q with P >= 0: (P+k)^2 < Q^2 *)
  assert (H5 : (P + k) * (P + k) < Q * Q) by nra.
  assert (H6 : 2 * P + k < 2 * p * q + h * p + h * q - 2 * a) by nra.
  assert (H7 : a + p * (q + h) <= P).
  { destruct (Rle_dec (a + p * (q + h)) 0); [lra|].
    apply Rsqr_incr_0_var; [|exact AD]. unfold Rsqr. rewrite HP.
    pose proof (pow2_ge_0 (p - (q + h))) as Hc. pose proof (Rmult_le_pos _ _ Ha Hc) as Hd. lra. }
  unfold k in H6. nra.
Qed.

(** ** Squashing *)
Definition sq_steps (l : list R) (o : option squash) : option squash :=
  fold_left (fun o sm => match o with None => None | Some m => sq_set_smooth sm m end) l o.
Definition sq_run (lb ub : vec) (l : list R) : option squash := sq_steps l (Some (sq_create lb ub)).
Lemma sq_steps_none l : sq_steps l None = None.
Proof. induction l; auto. Qed.
Definition sq_inv (lb ub : vec) (sm : R) (m : squash) : Prop :=
  s_ulb m = lb /\ s_uub m = ub /\ s_smooth m = sm /\ forall i, s_a m i = ((ub i - lb i) * sm) ^ 2.
Lemma sq_set_inv lb ub sm sm' m m' : sq_inv lb ub sm m -> sq_set_smooth sm' m = Some m' -> sq_inv lb ub sm' m' /\ 0 <= sm'.
Proof.
  intros [H1 [H2 [H3 H4]]]. unfold sq_set_smooth. destruct (Rlt_dec sm' 0); [discriminate|]. intros [= <-].
  split; [|lra]. repeat split; auto; cbn [s_ulb s_uub s_smooth s_a]. intro i. unfold sq_d. rewrite H1, H2. ring.
Qed.
Lemma sq_steps_inv lb ub l : forall sm m m', sq_inv lb ub sm m -> sq_steps l (Some m) = Some m' -> sq_inv lb ub (last l sm) m'.
Proof.
  induction l as [|s l IH]; intros sm m m' Hi H.
  - cbn in H. now injection H as <-.
  - unfold sq_steps in H. cbn [fold_left] in H. fold (sq_steps l (sq_set_smooth s m)) in H.
    destruct (sq_set_smooth s m) as [m1|] eqn:E; [|rewrite sq_steps_none in H; discriminate].
    destruct (sq_set_inv _ _ _ _ _ _ Hi E) as [Hi1 _]. specialize (IH _ _ _ Hi1 H).
    replace (last (s :: l) sm) with (last l s); auto. clear. destruct l; auto. revert r. induction l; intros; auto. cbn. apply IHl.
Qed.
Lemma sq_run_inv lb ub l m : sq_run lb ub l = Some m -> sq_inv lb ub (last l (1 / 10)) m.
Proof.
  apply sq_steps_inv. repeat split. intro i. cbn. unfold sq_d. ring.
Qed.

Lemma sq_calc_eq lb ub sm m s i : sq_inv lb ub sm m ->
  sq_calc m s i = (sqrt ((s i - ub i + (ub i - lb i)) ^ 2 + s_a m i) - sqrt ((s i - ub i) ^ 2 + s_a m i) + lb i + ub i) / 2.
Proof.
  intros [H1 [H2 _]]. unfold sq_calc. rewrite H1, H2. replace (s i - ub i + (ub i - lb i)) with (s i - lb i) by ring. field.
Qed.
Lemma sq_a_nonneg lb ub sm m i : sq_inv lb ub sm m -> 0 <= s_a m i.
Proof. intros [_ [_ [_ H]]]. rewrite H. apply pow2_ge_0. Qed.

Lemma d_sqrt (c a x : R) : 0 < (x - c) ^ 2 + a -> is_derive (fun t => sqrt ((t - c) ^ 2 + a)) x (/ sqrt ((x - c) ^ 2 + a) * (x - c)).
Proof.
  intro H. assert (Hs : sqrt ((x - c) ^ 2 + a) <> 0) by (apply Rgt_not_eq, sqrt_lt_R0; auto).
  eapply deq.
  - apply (dcomp sqrt (fun t => (t - c) ^ 2 + a)).
    + apply is_derive_Reals. apply derivable_pt_lim_sqrt. exact H.
    + apply dplus; [|apply dconst]. apply (dext (fun t => (t - c) * (t - c))); [intro; ring|].
      apply dmult; (apply dminus; [apply did|apply dconst]).
  - cbv beta. field. exact Hs.
Qed.
Lemma sq_calcDiff_ok lb ub sm m s i : sq_inv lb ub sm m ->
  s_a m i + (s i - lb i) ^ 2 <> 0 -> s_a m i + (s i - ub i) ^ 2 <> 0 ->
  exists l, sq_calcDiff m s i = Some l /\ is_derive (fun t => sq_calc m (fun _ => t) i) (s i) l.
Proof.
  intros Hi Hl Hu. pose proof (sq_a_nonneg _ _ _ _ i Hi) as Ha. destruct Hi as [H1 [H2 _]].
  unfold sq_calcDiff, inv_sqrt_times. rewrite H1, H2.
  destruct (Req_EM_T (s_a m i + (s i - lb i) ^ 2) 0); [contradiction|].
  destruct (Req_EM_T (s_a m i + (s i - ub i) ^ 2) 0); [contradiction|].
  eexists. split; [reflexivity|]. unfold sq_calc. rewrite H1, H2.
  pose proof (pow2_ge_0 (s i - lb i)). pose proof (pow2_ge_0 (s i - ub i)).
  eapply deq.
  - apply dscal. apply dplus; [apply dplus; [apply dminus; apply d_sqrt; lra|apply dconst]|apply dconst].
  - rewrite (Rplus_comm (s_a m i)), (Rplus_comm (s_a m i)). ring.
Qed.
Lemma sq_calc_local m s s' i : s i = s' i -> sq_calc m s i = sq_calc m s' i.
Proof. intro H. unfold sq_calc. now rewrite H. Qed.
Lemma sq_curve m (cs : R -> vec) t (vs : vec) i l :
  is_derive (fun t => sq_calc m (fun _ => t) i) (cs t i) l -> is_derive (fun t => cs t i) t (vs i) ->
  is_derive (fun t => sq_calc m (cs t) i) t (l * vs i).
Proof.
  intros H1 H2. apply (dext (fun t => sq_calc m (fun _ => cs t i) i)); [intro; apply sq_calc_local; auto|].
  exact (dcomp (fun z => sq_calc m (fun _ => z) i) (fun t => cs t i) t l (vs i) H1 H2).
Qed.
Lemma all_some_spec n f : all_some n f = true <-> forall i, (i < n)%nat -> exists v, f i = Some v.
Proof.
  induction n; cbn [all_some].
  - split; [intros _ i Hi; lia|auto].
  - rewrite andb_true_iff, IHn. split.
    + intros [H1 H2] i Hi. destruct (Nat.eq_dec i n) as [->|]; [destruct (f n); eauto; discriminate|apply H1; lia].
    + intros H. split; [intros; apply H; lia|]. destruct (H n) as [v ->]; auto.
Qed.

(** ** Floating base *)
Lemma fb_run_inv nfb cs : let d := fb_run nfb cs in
  (forall i, (i < nfb)%nat -> t_tau d i = 0) /\ t_du d = t_du (fb_create nfb) /\ t_M d = t_M (fb_create nfb) /\
  t_set d = t_set (fb_create nfb) /\ t_dx d = t_dx (fb_create nfb).
Proof.
  unfold fb_run. cbv zeta.
  enough (G : forall d, (forall i, (i < nfb)%nat -> t_tau d i = 0) /\ t_du d = t_du (fb_create nfb) /\ t_M d = t_M (fb_create nfb) /\
    t_set d = t_set (fb_create nfb) /\ t_dx d = t_dx (fb_create nfb) ->
    let d := fold_left (fb_step nfb) cs d in (forall i, (i < nfb)%nat -> t_tau d i = 0) /\ t_du d = t_du (fb_create nfb) /\ t_M d = t_M (fb_create nfb) /\
    t_set d = t_set (fb_create nfb) /\ t_dx d = t_dx (fb_create nfb)).
  { apply (G (fb_create nfb)). repeat split; auto. }
  induction cs as [|c cs IH]; intros d H; auto. cbn [fold_left].
  apply IH. destruct H as [H1 [H2 [H3 [H4 H5]]]]. destruct c; cbn [fb_step fb_calc fb_calcDiff fb_commands with_tau with_u t_tau t_u t_du t_M t_set t_dx]; repeat split; auto.
  intros i Hi. rewrite (proj2 (Nat.ltb_lt _ _) Hi). auto.
Qed.
Lemma full_run_inv cs : let d := full_run cs in t_du d = idm /\ t_M d = idm /\ (forall i, t_set d i = true) /\ (forall i j, t_dx d i j = 0).
Proof.
  unfold full_run. cbv zeta.
  assert (H : let d := full_create in t_du d = idm /\ t_M d = idm /\ (forall i, t_set d i = true) /\ (forall i j, t_dx d i j = 0)) by (repeat split; auto).
  cbv zeta in H. revert H. generalize full_create.
  induction cs as [|c cs IH]; intros d H; auto. cbn [fold_left]. apply IH. destruct H as [H1 [H2 [H3 H4]]]. destruct c; cbn; repeat split; auto.
Qed.

(** ** Thrusters *)
Lemma add_thruster_other i p W r c : c <> i -> add_thruster i p W r c = W r c.
Proof. intro H. unfold add_thruster. apply Nat.eqb_neq in H. now rewrite H. Qed.
Lemma add_thrusters_before ps : forall i W r c, (c < i)%nat -> add_thrusters i ps W r c = W r c.
Proof. induction ps as [|p ps IH]; intros; cbn [add_thrusters]; auto. rewrite IH by lia. apply add_thruster_other. lia. Qed.
Lemma add_thrusters_nth ps : forall i W r c p, nth_error ps c = Some p -> add_thrusters i ps W r (i + c)%nat = add_thruster (i + c) p W r (i + c)%nat.
Proof.
  induction ps as [|q ps IH]; intros i W r c p H; [destruct c; discriminate|].
  cbn [add_thrusters]. destruct c.
  - cbn in H. injection H as <-. rewrite Nat.add_0_r. rewrite add_thrusters_before by lia. reflexivity.
  - cbn in H. replace (i + S c)%nat with (S i + c)%nat by lia. rewrite (IH _ _ _ _ _ H).
    unfold add_thruster. rewrite Nat.eqb_refl. replace (S i + c =? i)%nat with false by (symmetry; apply Nat.eqb_neq; lia). reflexivity.
Qed.
Lemma add_thrusters_beyond ps : forall i W r c, (i + length ps <= c)%nat -> add_thrusters i ps W r c = W r c.
Proof.
  induction ps as [|p ps IH]; intros i W r c H; cbn [add_thrusters length] in *; auto.
  rewrite IH by lia. apply add_thruster_other. lia.
Qed.
Lemma nth_error_upd_th {A} (l : list A) k (a : A) j : nth_error (upd k a l) j = if (j =? k)%nat then (match nth_error l j with Some _ => Some a | None => None end) else nth_error l j.
Proof.
  revert k j; induction l as [|b l IH]; intros k j; destruct k, j; cbn; auto.
  destruct (j =? k)%nat; auto.
Qed.
