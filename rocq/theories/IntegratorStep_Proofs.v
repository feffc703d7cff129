(** Assembled lemmas on the integrators: derivatives of the Runge-Kutta step, the step as an
    explicit Runge-Kutta method, linear systems. *)
From Coquelicot Require Import Coquelicot.
From Coq Require Import Reals List Arith Bool Lia Lra FunctionalExtensionality.
From Verif Require Import Deriv VecMat ControlParam_Model ControlParam_Spec ControlParam_Proofs Integrator_Model Integrator_Spec Integrator_Proofs IntegratorRK_Proofs.
Import ListNotations.
Open Scope R_scope.

Section S.
Variables (nv nw nc : nat) (p : param) (dm : diffmodel) (ts : tstep) (rk : rktype).
Let nu := np p nw.

Section D.
Variables (x u : vec) (d : rkdata).
Let d1 := rk_calc nv nw p dm ts rk x u d.
Let o := r_act (rk_calcDiff nv nw p dm ts rk d1).
Hypothesis Hloc : local_model nv nw dm.
Hypothesis He : forall i, (i < rk_n rk)%nat -> exact_at nv nw nc dm (r_y d1 i) (r_w d1 i).
Variables (cx cu : R -> vec) (s : R) (vx vu : vec).
Hypothesis Ex : forall j, (j < 2 * nv)%nat -> cx s j = x j.
Hypothesis Eu : forall j, (j < nu)%nat -> cu s j = u j.
Hypothesis Dx : forall j, (j < 2 * nv)%nat -> is_derive (fun t => cx t j) s (vx j).
Hypothesis Du : forall j, (j < nu)%nat -> is_derive (fun t => cu t j) s (vu j).
Hypothesis Hok : half_ok nv nw p dm ts rk x u (r_cp d) \/ forall b, (b < 2 * nv)%nat -> vx b = 0.

Lemma rk_dnext j : (j < 2 * nv)%nat ->
  is_derive (fun t => xnext (r_act (rk_calc nv nw p dm ts rk (cx t) (cu t) d)) j) s
    (rsum (2 * nv) (fun b => Fx o j b * vx b) + rsum nu (fun b => Fu o j b * vu b)).
Proof.
  intro Hj. unfold rk_calc. cbn [r_act xnext].
  eapply deq.
  - apply dplus; [apply (Dx j Hj)|].
    apply (dcombo_derive nw p ts rk (fun i t => rk_k nv dm ts rk (cx t) (fun i0 => cp_w (cp_calc p nw (rk_c rk i0) (cu t) (r_cp d i0))) i j)).
    intros i Hi.
    apply (k_derive nv nw nc p dm ts rk x u (r_cp d) cx cu s vx vu); auto.
    intros i' Hi'. apply (He i'). lia.
  - unfold o, rk_calcDiff. cbn [r_act Fx Fu].
    rewrite (rsum_ext (2 * nv) (fun b => plus_id _ j b * vx b)
      (fun b => dcombo ts rk (fun i => vx b * dk_dx nv dm ts rk (r_y d1) (r_w d1) i j b) + idm j b * vx b))
      by (intros b _; rewrite plus_id_eq, dcombo_scal; ring).
    rewrite rsum_plus, rsum_id_l by auto. rewrite <- dcombo_rsum.
    rewrite (rsum_ext nu _ (fun b => dcombo ts rk (fun i => vu b * dk_du nv nw p dm ts rk (r_y d1) (r_w d1) (r_cp d1) i j b)))
      by (intros b _; rewrite dcombo_scal; ring).
    rewrite <- dcombo_rsum.
    match goal with |- _ = ?B + _ + ?C => transitivity (vx j + (B + C)); [|ring] end.
    rewrite <- dcombo_plus. f_equal.
    apply (dcombo_ext nw p). intros i Hi. unfold vel. f_equal; apply rsum_ext; intros; unfold d1, rk_calc; cbn [r_y r_w r_cp]; ring.
Qed.
Lemma rk_dcost :
  is_derive (fun t => cost (r_act (rk_calc nv nw p dm ts rk (cx t) (cu t) d))) s
    (rsum (2 * nv) (fun b => Lx o b * vx b) + rsum nu (fun b => Lu o b * vu b)).
Proof.
  unfold rk_calc. cbn [r_act cost].
  eapply deq.
  - apply (dcombo_derive nw p ts rk (fun i t => lcost dm (rk_y nv dm ts rk (cx t) (fun i0 => cp_w (cp_calc p nw (rk_c rk i0) (cu t) (r_cp d i0))) i)
              (cp_w (cp_calc p nw (rk_c rk i) (cu t) (r_cp d i))))).
    intros i Hi.
    apply (l_derive nv nw nc p dm ts rk x u (r_cp d) cx cu s vx vu); auto.
    intros i' Hi'. apply (He i'). lia.
  - unfold o, rk_calcDiff. cbn [r_act Lx Lu].
    rewrite (rsum_ext (2 * nv) _ (fun b => dcombo ts rk (fun i => vx b * dl_dx nv dm ts rk (r_y d1) (r_w d1) i b)))
      by (intros b _; rewrite dcombo_scal; ring).
    rewrite (rsum_ext nu _ (fun b => dcombo ts rk (fun i => vu b * dl_du nv nw p dm ts rk (r_y d1) (r_w d1) (r_cp d1) i b)))
      by (intros b _; rewrite dcombo_scal; ring).
    rewrite <- !dcombo_rsum, <- dcombo_plus.
    apply (dcombo_ext nw p). intros i Hi. f_equal; apply rsum_ext; intros; unfold d1, rk_calc; cbn [r_y r_w r_cp]; ring.
Qed.
Lemma rk_dcons j : (j < nc)%nat ->
  is_derive (fun t => cons (r_act (rk_calc nv nw p dm ts rk (cx t) (cu t) d)) j) s
    (rsum (2 * nv) (fun b => Gx o j b * vx b) + rsum nu (fun b => Gu o j b * vu b)).
Proof.
  clear Hok. intro Hj. unfold rk_calc. cbn [r_act cons rk_y].
  assert (H0 : (0 < rk_n rk)%nat) by (destruct rk; cbn; lia).
  destruct (He 0%nat H0) as [_ [_ Hg]].
  eapply deq.
  - apply (through_control nv nw p nc (con dm) (rk_c rk 0) (r_cp d 0%nat) cx cu s u x vx vu
      (dGx dm (r_y d1 0%nat) (r_w d1 0%nat)) (dGu dm (r_y d1 0%nat) (r_w d1 0%nat)) j); auto.
  - unfold o, rk_calcDiff. cbn [r_act Gx Gu]. f_equal. symmetry.
    apply (mulJ_apply nw p (r_cp d1 0%nat)).
Qed.
End D.

(** The step as an explicit Runge-Kutta method. *)
Definition rhs (c : vec -> vec -> vec) (wc : R -> vec) (t : R) (y : vec) : vec :=
  fun j => if j <? nv then y (nv + j)%nat else c y (wc t) (j - nv)%nat.
Lemma erk_ext T f g h x : (forall c y, In c (tc T) -> f c y = g c y) -> erk_step T f h x = erk_step T g h x.
Proof.
  intro H. unfold erk_step.
  assert (E : forall rows cs ks, incl cs (tc T) -> erk_stages f h x rows cs ks = erk_stages g h x rows cs ks).
  { induction rows as [|r rows IH]; intros [|c cs] ks Hc; auto. cbn [erk_stages].
    rewrite H by (apply Hc; now left). apply IH. intros z Hz. apply Hc. now right. }
  now rewrite E by apply incl_refl.
Qed.
Lemma rk_is_erk x u d j : supported p ->
  let o := r_act (rk_calc nv nw p dm ts rk x u d) in
  xnext o j = erk_step (tab rk) (rhs (acc dm) (fun c => control_of p nw c u)) (dt ts) x j /\
  cost o = erk_cost (tab rk) (rhs (acc dm) (fun c => control_of p nw c u)) (fun c y => lcost dm y (control_of p nw c u)) (dt ts) x.
Proof.
  intros Hs o. unfold o, rk_calc. cbn [r_act xnext cost].
  assert (Ew : (fun i => cp_w (cp_calc p nw (rk_c rk i) u (r_cp d i))) = (fun i => control_of p nw (rk_c rk i) u)).
  { extensionality i. extensionality k. now apply calc_control. }
  rewrite Ew.
  assert (Ecost : forall i, lcost dm (rk_y nv dm ts rk x (fun i => control_of p nw (rk_c rk i) u) i) (cp_w (cp_calc p nw (rk_c rk i) u (r_cp d i)))
     = lcost dm (rk_y nv dm ts rk x (fun i => control_of p nw (rk_c rk i) u) i) (control_of p nw (rk_c rk i) u)).
  { intro i. f_equal. extensionality k. now apply calc_control. }
  rewrite combo_dcombo.
  assert (EF : forall i y, rk_k_of nv dm (fun i => control_of p nw (rk_c rk i) u) i y = rhs (acc dm) (fun c => control_of p nw c u) (rk_c rk i) y)
    by reflexivity.
  set (F := rhs (acc dm) (fun c => control_of p nw c u)) in *.
  set (W := fun i => control_of p nw (rk_c rk i) u) in *.
  assert (EY : forall i, rk_y nv dm ts rk x W (S i) = fun j => x j + dt ts * (rk_c rk (S i) * F (rk_c rk i) (rk_y nv dm ts rk x W i) j)).
  { intro i. cbn [rk_y]. extensionality k. rewrite EF. ring. }
  assert (E0 : rk_y nv dm ts rk x W 0 = x) by reflexivity.
  set (Y := rk_y nv dm ts rk x W) in *. set (h := dt ts) in *.
  assert (H0 : (fun j => x j + h * 0) = x) by (extensionality k; ring).
  assert (H1 : forall a (k : vec), (fun j => x j + h * (a * k j + 0)) = fun j => x j + h * (a * k j)).
  { intros. extensionality q. ring. }
  assert (H2 : forall a (k k' : vec), (fun j => x j + h * (0 * k j + (a * k' j + 0))) = fun j => x j + h * (a * k' j)).
  { intros. extensionality q. ring. }
  assert (H3 : forall a (k k' k2 : vec), (fun j => x j + h * (0 * k j + (0 * k' j + (a * k2 j + 0)))) = fun j => x j + h * (a * k2 j)).
  { intros. extensionality q. ring. }
  rewrite (dcombo_ext nw p ts rk _ (fun i => F (rk_c rk i) (Y i) j)) by reflexivity.
  rewrite combo_dcombo, (dcombo_ext nw p ts rk (fun i => lcost dm (Y i) _) (fun i => lcost dm (Y i) (W i)))
    by (intros i _; f_equal; extensionality k; now apply calc_control).
  clearbody F Y. unfold W, dcombo, erk_step, erk_cost. fold h. clear W Ew EF.
  destruct rk; cbn [tab ta tb tc erk_stages erk_points app wsum combine map fst snd ldot];
    rewrite ?H0, ?H1, ?H2, ?H3; rewrite !EY, E0; cbn [rk_c];
    replace (5 / 10) with (1 / 2) by field; split; field.
Qed.

Lemma erk_taylor F h x j : linear_map F -> erk_step (tab rk) (fun _ => F) h x j = taylor F h (order_of rk) x j.
Proof.
  intro HF.
  assert (H0 : (fun j => x j + h * 0) = x) by (extensionality k; ring).
  assert (H1 : forall a (k : vec), (fun j => x j + h * (a * k j + 0)) = fun j => x j + (h * a) * k j).
  { intros. extensionality q. ring. }
  assert (H2 : forall a (k k' : vec), (fun j => x j + h * (0 * k j + (a * k' j + 0))) = fun j => x j + (h * a) * k' j).
  { intros. extensionality q. ring. }
  assert (H3 : forall a (k k' k2 : vec), (fun j => x j + h * (0 * k j + (0 * k' j + (a * k2 j + 0)))) = fun j => x j + (h * a) * k2 j).
  { intros. extensionality q. ring. }
  unfold erk_step, taylor. destruct rk; cbn [tab ta tb tc erk_stages app wsum order_of rsum Nat.iter nat_rect];
    rewrite ?H0, ?H1, ?H2, ?H3; rewrite !HF; cbn [fact Nat.add Nat.mul INR pow Nat.iter nat_rect]; simpl Nat.iter; cbn [INR]; try field.
Qed.
End S.
