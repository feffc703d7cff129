(** Lemmas for C32, C33 and C63: Runge-Kutta. *)
From Coquelicot Require Import Coquelicot.
From Coq Require Import Reals List Arith Bool Lia Lra.
From Verif Require Import Deriv VecMat ControlParam_Model ControlParam_Spec ControlParam_Proofs Integrator_Model Integrator_Spec Integrator_Proofs.
Import ListNotations.
Open Scope R_scope.

Section RK.
Variables (nv nw nc : nat) (p : param) (dm : diffmodel) (ts : tstep) (rk : rktype).
Let nu := np p nw.

(** Linearity of the weighted sums. *)
Lemma combo_dcombo f : combo ts rk f = dcombo ts rk f.
Proof. unfold combo, dcombo. destruct rk; field. Qed.
Lemma dcombo_ext f g : (forall i, (i < rk_n rk)%nat -> f i = g i) -> dcombo ts rk f = dcombo ts rk g.
Proof. unfold dcombo, rk_n. destruct rk; intro H; rewrite !H by lia; reflexivity. Qed.
Lemma dcombo_plus f g : dcombo ts rk (fun i => f i + g i) = dcombo ts rk f + dcombo ts rk g.
Proof. unfold dcombo. destruct rk; ring. Qed.
Lemma dcombo_scal c f : dcombo ts rk (fun i => c * f i) = c * dcombo ts rk f.
Proof. unfold dcombo. destruct rk; ring. Qed.
Lemma dcombo_rsum n f : dcombo ts rk (fun i => rsum n (f i)) = rsum n (fun b => dcombo ts rk (fun i => f i b)).
Proof.
  induction n; cbn [rsum]. { unfold dcombo. destruct rk; ring. }
  now rewrite dcombo_plus, IHn.
Qed.
Lemma dcombo_derive (f : nat -> R -> R) f' s :
  (forall i, (i < rk_n rk)%nat -> is_derive (f i) s (f' i)) ->
  is_derive (fun t => combo ts rk (fun i => f i t)) s (dcombo ts rk f').
Proof.
  intro H. unfold rk_n in H.
  apply (dext (fun t => dcombo ts rk (fun i => f i t))); [intro; now rewrite combo_dcombo|].
  unfold dcombo. destruct rk.
  - apply dscal, H. lia.
  - apply dscal. apply dplus; [apply H; lia|]. apply dscal, H; lia.
  - apply dscal.
    apply (dplus (fun t => f 0%nat t + 2 * f 1%nat t + 2 * f 2%nat t)); [|apply H; lia].
    apply (dplus (fun t => f 0%nat t + 2 * f 1%nat t)); [|apply dscal, H; lia].
    apply dplus; [apply H; lia|apply dscal, H; lia].
Qed.
Lemma plus_id_eq M a b : plus_id M a b = M a b + idm a b.
Proof. unfold plus_id, idm. destruct (Nat.eqb a b); ring. Qed.

Section At.
Variables (x u : vec) (cpd : nat -> cpdata).
(** The stage data after calc. *)
Let cp i := cp_calc p nw (rk_c rk i) u (cpd i).
Let w i := cp_w (cp i).
Let y := rk_y nv dm ts rk x w.

(** Where the shortcut dq/dv = dt/2 at the second stage is right. *)
Definition half_ok : Prop :=
  rk <> three \/ dt ts = 0 \/ (forall r k, (r < nv)%nat -> (k < nv)%nat -> dFx dm (y 1%nat) (w 1%nat) r k = 0).

Lemma dk_dx_top i a b : (a < nv)%nat -> dk_dx nv dm ts rk y w i a b = dy_dx nv dm ts rk y w i (nv + a)%nat b.
Proof.
  intro Ha. destruct i; cbn [dk_dx dy_dx].
  - unfold dkdx0. rewrite (ltb_t a nv Ha). unfold idm. now rewrite Nat.eqb_sym.
  - unfold dkdx_of. now rewrite (ltb_t a nv Ha).
Qed.
Lemma dk_dx_bot i a b : half_ok -> (nv <= a < 2 * nv)%nat -> (b < 2 * nv)%nat ->
  dk_dx nv dm ts rk y w i a b = rsum (2 * nv) (fun k => dFx dm (y i) (w i) (a - nv)%nat k * dy_dx nv dm ts rk y w i k b).
Proof.
  intros Hh Ha Hb. destruct i; cbn [dk_dx dy_dx].
  - unfold dkdx0. rewrite (ltb_f a nv) by lia. symmetry.
    exact (rsum_id_r (2 * nv) b (fun k => dFx dm (y 0%nat) (w 0%nat) (a - nv)%nat k) Hb).
  - unfold dkdx_of. rewrite (ltb_f a nv) by lia. rewrite rsum_2. f_equal.
    destruct (Nat.lt_ge_cases b nv) as [L|L]; [now rewrite (ltb_t b nv L)|]. rewrite (ltb_f b nv L).
    destruct (Nat.eqb_spec (S i) 1) as [E|E]; auto. assert (i = 0)%nat by lia. subst i. cbn [dk_dx].
    (* dq/dv at the second stage is c dt times the identity *)
    rewrite (rsum_ext nv _ (fun k => dFx dm (y 1%nat) (w 1%nat) (a - nv)%nat k * (rk_c rk 1 * dt ts) * idm k (b - nv)%nat)).
    + rewrite (rsum_id_r nv (b - nv) (fun k => dFx dm (y 1%nat) (w 1%nat) (a - nv)%nat k * (rk_c rk 1 * dt ts))) by lia.
      destruct Hh as [Hh|[Hh|Hh]].
      * unfold rk_c. destruct rk; [field|now destruct Hh|field].
      * rewrite Hh. field.
      * rewrite Hh by lia. ring.
    + intros k Hk. rewrite plus_id_eq. rewrite (idm_other k b) by lia. unfold dy_of, dkdx0. rewrite (ltb_t k nv Hk).
      unfold idm. destruct (Nat.eqb_spec b (nv + k)), (Nat.eqb_spec k (b - nv)); try lia; ring.
Qed.
Lemma dk_du_top i a b : (a < nv)%nat -> dk_du nv nw p dm ts rk y w cp i a b = dy_du nv nw p dm ts rk y w cp i (nv + a)%nat b.
Proof.
  intro Ha. destruct i; cbn [dk_du dy_du].
  - unfold dkdu0. now rewrite (ltb_t a nv Ha).
  - unfold dkdu_of. now rewrite (ltb_t a nv Ha).
Qed.
Lemma dk_du_bot i a b : (nv <= a < 2 * nv)%nat -> (b < nu)%nat ->
  dk_du nv nw p dm ts rk y w cp i a b =
  rsum (2 * nv) (fun k => dFx dm (y i) (w i) (a - nv)%nat k * dy_du nv nw p dm ts rk y w cp i k b) +
  rsum nw (fun k => dFu dm (y i) (w i) (a - nv)%nat k * jac_entry p nw (cc (cp i)) k b).
Proof.
  intros Ha Hb. destruct i; cbn [dk_du dy_du].
  - unfold dkdu0. rewrite (ltb_f a nv) by lia. rewrite mulJ_entry by auto. cbn [assign].
    rewrite (rsum_0 (2 * nv)) by (intros; ring). ring.
  - unfold dkdu_of. rewrite (ltb_f a nv) by lia. rewrite mulJ_entry by auto. cbn [assign]. now rewrite rsum_2.
Qed.

(** Velocity of the stage states along a curve. *)
Definition vel (A B : mat) (vx vu : vec) (j : nat) : R :=
  rsum (2 * nv) (fun b => A j b * vx b) + rsum nu (fun b => B j b * vu b).

Section Curve.
Variables (cx cu : R -> vec) (s : R) (vx vu : vec).
Hypothesis Ex : forall j, (j < 2 * nv)%nat -> cx s j = x j.
Hypothesis Eu : forall j, (j < nu)%nat -> cu s j = u j.
Hypothesis Dx : forall j, (j < 2 * nv)%nat -> is_derive (fun t => cx t j) s (vx j).
Hypothesis Du : forall j, (j < nu)%nat -> is_derive (fun t => cu t j) s (vu j).
Hypothesis Hok : half_ok \/ forall b, (b < 2 * nv)%nat -> vx b = 0.
Let cw t i := cp_w (cp_calc p nw (rk_c rk i) (cu t) (cpd i)).
Let vy i := vel (dy_dx nv dm ts rk y w i) (dy_du nv nw p dm ts rk y w cp i) vx vu.
Let vk i := vel (dk_dx nv dm ts rk y w i) (dk_du nv nw p dm ts rk y w cp i) vx vu.
Let cy t i := rk_y nv dm ts rk (cx t) (cw t) i.

Lemma vk_top i j : (j < nv)%nat -> vk i j = vy i (nv + j)%nat.
Proof.
  intro Hj. unfold vk, vy, vel. f_equal; apply rsum_ext; intros b _; [now rewrite dk_dx_top|now rewrite dk_du_top].
Qed.
Lemma vk_bot i j : (nv <= j < 2 * nv)%nat ->
  vk i j = rsum (2 * nv) (fun k => dFx dm (y i) (w i) (j - nv)%nat k * vy i k) +
           rsum nw (fun k => dFu dm (y i) (w i) (j - nv)%nat k * rsum nu (fun b => jac_entry p nw (cc (cp i)) k b * vu b)).
Proof.
  intro Hj. unfold vk, vel.
  assert (E1 : rsum (2 * nv) (fun b => dk_dx nv dm ts rk y w i j b * vx b) =
    rsum (2 * nv) (fun k => dFx dm (y i) (w i) (j - nv)%nat k * rsum (2 * nv) (fun b => dy_dx nv dm ts rk y w i k b * vx b))).
  { destruct Hok as [Hh|Hz].
    - rewrite (rsum_ext _ _ (fun b => mulm (2 * nv) (dFx dm (y i) (w i)) (dy_dx nv dm ts rk y w i) (j - nv)%nat b * vx b)).
      + apply (mulv_mulm (2 * nv) (2 * nv)).
      + intros b Hb. rewrite dk_dx_bot by auto. reflexivity.
    - rewrite !rsum_0; auto.
      + intros k _. rewrite rsum_0; [ring|]. intros b Hb. rewrite Hz by auto. ring.
      + intros b Hb. rewrite Hz by auto. ring. }
  assert (E2 : rsum nu (fun b => dk_du nv nw p dm ts rk y w cp i j b * vu b) =
    rsum (2 * nv) (fun k => dFx dm (y i) (w i) (j - nv)%nat k * rsum nu (fun b => dy_du nv nw p dm ts rk y w cp i k b * vu b)) +
    rsum nw (fun k => dFu dm (y i) (w i) (j - nv)%nat k * rsum nu (fun b => jac_entry p nw (cc (cp i)) k b * vu b))).
  { rewrite (rsum_ext _ _ (fun b => mulm (2 * nv) (dFx dm (y i) (w i)) (dy_du nv nw p dm ts rk y w cp i) (j - nv)%nat b * vu b +
       mulm nw (dFu dm (y i) (w i)) (jac_entry p nw (cc (cp i))) (j - nv)%nat b * vu b)).
    - rewrite rsum_plus. f_equal; apply mulv_mulm.
    - intros b Hb. rewrite dk_du_bot by auto. unfold mulm. ring. }
  rewrite E1, E2, <- Rplus_assoc, <- rsum_plus. f_equal.
  apply rsum_ext. intros k _. unfold vy, vel. ring.
Qed.

Lemma cw_at i k : (k < nw)%nat -> cw s i k = w i k.
Proof. intro Hk. unfold cw, w, cp. now apply w_ext. Qed.

(** The stage states at the base point of the curve agree with those of calc. *)
Hypothesis Hloc : local_model nv nw dm.
Lemma cy_at i : forall j, (j < 2 * nv)%nat -> cy s i j = y i j.
Proof.
  induction i; intros j Hj; unfold cy, y; cbn [rk_y].
  - now apply Ex.
  - rewrite Ex by auto. f_equal. f_equal. unfold rk_k_of.
    fold (cy s i). fold (y i). destruct (Nat.lt_ge_cases j nv) as [L|L].
    + rewrite (ltb_t j nv L). apply IHi. lia.
    + rewrite (ltb_f j nv L). destruct (Hloc (cy s i) (y i) (cw s i) (w i)) as [E _]; auto.
      * intros k Hk. now apply cw_at.
      * now rewrite E.
Qed.

Lemma stage_derive i : (forall i', (i' < i)%nat -> exact_at nv nw nc dm (y i') (w i')) ->
  forall j, (j < 2 * nv)%nat -> is_derive (fun t => cy t i j) s (vy i j).
Proof.
  induction i; intros He j Hj.
  - eapply deq; [now apply Dx|]. unfold vy, vel. cbn [dy_dx dy_du]. rewrite rsum_id_l by auto.
    rewrite rsum_0 by (intros; ring). ring.
  - assert (IH : forall k, (k < 2 * nv)%nat -> is_derive (fun t => cy t i k) s (vy i k)) by (apply IHi; auto).
    clear IHi.
    assert (DK : is_derive (fun t => rk_k_of nv dm (cw t) i (cy t i) j) s (vk i j)).
    { unfold rk_k_of. destruct (Nat.lt_ge_cases j nv) as [L|L].
      - rewrite (ltb_t j nv L). rewrite vk_top by auto. apply IH. lia.
      - rewrite (ltb_f j nv L). rewrite vk_bot by lia.
        apply (through_control nv nw p nv (acc dm) (rk_c rk i) (cpd i) (fun t => cy t i) cu s u (y i) (vy i) vu
          (dFx dm (y i) (w i)) (dFu dm (y i) (w i)) (j - nv)%nat); auto.
        + intros k Hk. now apply cy_at.
        + apply (He i). lia.
        + lia. }
    eapply deq.
    { unfold cy. cbn [rk_y]. apply dplus; [now apply Dx|]. apply dscal. exact DK. }
    unfold vy, vk, vel. cbn [dy_dx dy_du].
    rewrite (rsum_ext (2 * nv) (fun b => plus_id _ j b * vx b)
      (fun b => (dt ts * rk_c rk (S i)) * (dk_dx nv dm ts rk y w i j b * vx b) + idm j b * vx b)).
    2:{ intros b _. rewrite plus_id_eq. unfold dy_of. ring. }
    rewrite (rsum_ext nu (fun b => dy_of ts rk (S i) _ j b * vu b)
      (fun b => (dt ts * rk_c rk (S i)) * (dk_du nv nw p dm ts rk y w cp i j b * vu b))).
    2:{ intros b _. unfold dy_of. ring. }
    rewrite rsum_plus, !rsum_scal, rsum_id_l by auto. ring.
Qed.
Lemma k_derive i : (forall i', (i' <= i)%nat -> exact_at nv nw nc dm (y i') (w i')) ->
  forall j, (j < 2 * nv)%nat -> is_derive (fun t => rk_k nv dm ts rk (cx t) (cw t) i j) s (vk i j).
Proof.
  intros He j Hj.
  assert (IH : forall k, (k < 2 * nv)%nat -> is_derive (fun t => cy t i k) s (vy i k))
    by (apply stage_derive; intros; apply He; lia).
  unfold rk_k. fold (cy s i). unfold rk_k_of. destruct (Nat.lt_ge_cases j nv) as [L|L].
  - rewrite (ltb_t j nv L). rewrite vk_top by auto. apply (IH (nv + j)%nat). lia.
  - rewrite (ltb_f j nv L). rewrite vk_bot by lia.
    apply (through_control nv nw p nv (acc dm) (rk_c rk i) (cpd i) (fun t => cy t i) cu s u (y i) (vy i) vu
          (dFx dm (y i) (w i)) (dFu dm (y i) (w i)) (j - nv)%nat); auto.
    + intros k Hk. now apply cy_at.
    + apply (He i). lia.
    + lia.
Qed.
Lemma l_derive i : (forall i', (i' <= i)%nat -> exact_at nv nw nc dm (y i') (w i')) ->
  is_derive (fun t => lcost dm (cy t i) (cw t i)) s
    (rsum (2 * nv) (fun b => dl_dx nv dm ts rk y w i b * vx b) + rsum nu (fun b => dl_du nv nw p dm ts rk y w cp i b * vu b)).
Proof.
  intros He.
  assert (IH : forall k, (k < 2 * nv)%nat -> is_derive (fun t => cy t i k) s (vy i k))
    by (apply stage_derive; intros; apply He; lia).
  eapply deq.
  { apply (through_control nv nw p 1 (fun x w _ => lcost dm x w) (rk_c rk i) (cpd i) (fun t => cy t i) cu s u (y i) (vy i) vu
          (fun _ => dLx dm (y i) (w i)) (fun _ => dLu dm (y i) (w i)) 0%nat); auto.
    - intros k Hk. now apply cy_at.
    - apply (He i). lia. }
  cbn beta. fold nu. fold (cp i).
  assert (EJ : rsum nu (fun b => mulJT p nw (cp i) (col (dLu dm (y i) (w i))) (fun _ _ => 0) setto b 0%nat * vu b) =
     rsum nw (fun k => dLu dm (y i) (w i) k * rsum nu (fun j => jac_entry p nw (cc (cp i)) k j * vu j)))
     by apply mulJT_col_apply.
  rewrite <- EJ. destruct i as [|i]; cbn [dl_dx dl_du].
  - f_equal. apply rsum_ext. intros b Hb. unfold vy, vel. cbn [dy_dx dy_du]. rewrite rsum_id_l by auto.
    rewrite rsum_0 by (intros; ring). ring.
  - rewrite (rsum_ext nu (fun b => (_ + _) * vu b) (fun b => mulJT p nw (cp (S i)) (col (dLu dm (y (S i)) (w (S i)))) (fun _ _ => 0) setto b 0%nat * vu b
      + mulm (2 * nv) (fun _ k => dLx dm (y (S i)) (w (S i)) k) (dy_du nv nw p dm ts rk y w cp (S i)) 0%nat b * vu b)).
    2:{ intros b _. unfold mulm. ring. }
    rewrite (rsum_ext (2 * nv) (fun b => rsum (2 * nv) _ * vx b)
      (fun b => mulm (2 * nv) (fun _ k => dLx dm (y (S i)) (w (S i)) k) (dy_dx nv dm ts rk y w (S i)) 0%nat b * vx b)) by reflexivity.
    rewrite rsum_plus.
    pose proof (mulv_mulm (2 * nv) (2 * nv) (fun _ k => dLx dm (y (S i)) (w (S i)) k) (dy_dx nv dm ts rk y w (S i)) vx 0%nat) as M1.
    pose proof (mulv_mulm (2 * nv) nu (fun _ k => dLx dm (y (S i)) (w (S i)) k) (dy_du nv nw p dm ts rk y w cp (S i)) vu 0%nat) as M2.
    unfold mulv in M1, M2. rewrite M1, M2.
    rewrite (rsum_ext (2 * nv) (fun j => dLx dm (y (S i)) (w (S i)) j * vy (S i) j)
      (fun j => dLx dm (y (S i)) (w (S i)) j * rsum (2 * nv) (fun b => dy_dx nv dm ts rk y w (S i) j b * vx b) +
                dLx dm (y (S i)) (w (S i)) j * rsum nu (fun b => dy_du nv nw p dm ts rk y w cp (S i) j b * vu b)))
      by (intros; unfold vy, vel; ring).
    rewrite rsum_plus. ring.
Qed.
End Curve.
End At.
End RK.
