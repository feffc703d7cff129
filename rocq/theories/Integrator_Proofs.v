(** Lemmas for C31-C33 and C63. *)
From Coquelicot Require Import Coquelicot.
From Coq Require Import Reals List Arith Bool Lia Lra.
From Verif Require Import Deriv VecMat ControlParam_Model ControlParam_Spec ControlParam_Proofs Integrator_Model Integrator_Spec.
Import ListNotations.
Open Scope R_scope.

Lemma rsum_2 n f : rsum (2 * n) f = rsum n f + rsum n (fun i => f (n + i)%nat).
Proof. replace (2 * n)%nat with (n + n)%nat by lia. apply rsum_app. Qed.
Lemma ltb_t a b : (a < b)%nat -> (a <? b) = true.
Proof. apply Nat.ltb_lt. Qed.
Lemma ltb_f a b : (b <= a)%nat -> (a <? b) = false.
Proof. apply Nat.ltb_ge. Qed.

Section P.
Variables (nv nw nc : nat) (p : param) (dm : diffmodel).
Let nu := np p nw.

(** The time steps reachable by construction and set_dt. *)
Definition good_step (s : tstep) : Prop := 0 <= dt s /\ dt2 s = dt s * dt s.
Lemma mk_step_good h : good_step (mk_step h).
Proof. unfold mk_step, good_step. cbn [dt]. destruct (Rlt_dec h 0); cbn [dt dt2]; lra. Qed.
Lemma set_dt_good h s s' : set_dt h s = Some s' -> good_step s'.
Proof. unfold set_dt, good_step. destruct (Rlt_dec h 0); [discriminate|]. intro E. injection E as <-. cbn [dt dt2]. lra. Qed.

(** A generic chain rule: the composed matrices. *)
Lemma mulJ_apply cp A out r (v : vec) :
  rsum nu (fun b => mulJ p nw cp A out setto r b * v b) =
  rsum nw (fun k => A r k * rsum nu (fun b => jac_entry p nw (cc cp) k b * v b)).
Proof.
  rewrite (rsum_ext nu _ (fun b => mulm nw A (jac_entry p nw (cc cp)) r b * v b)).
  - exact (mulv_mulm nw nu A (jac_entry p nw (cc cp)) v r).
  - intros b Hb. rewrite mulJ_entry by auto. reflexivity.
Qed.
Lemma mulJT_col_apply cp (l : vec) out (v : vec) :
  rsum nu (fun b => mulJT p nw cp (col l) out setto b 0%nat * v b) =
  rsum nw (fun k => l k * rsum nu (fun b => jac_entry p nw (cc cp) k b * v b)).
Proof.
  rewrite (rsum_ext nu _ (fun b => mulm nw (fun _ k => l k) (jac_entry p nw (cc cp)) 0%nat b * v b)).
  - exact (mulv_mulm nw nu (fun _ k => l k) (jac_entry p nw (cc cp)) v 0%nat).
  - intros b Hb. rewrite mulJT_entry, mulJ_entry by auto. reflexivity.
Qed.


(** Coefficients and controls do not depend on the previous content of the control data. *)
Lemma jac_any t u u' d d' i j : supported p ->
  jac_entry p nw (cc (cp_calc p nw t u d)) i j = jac_entry p nw (cc (cp_calc p nw t u' d')) i j.
Proof. intro H. destruct d, d', p as [| |[]]; try (now destruct H); reflexivity. Qed.
Lemma w_any t u d d' : supported p -> cp_w (cp_calc p nw t u d) = cp_w (cp_calc p nw t u d').
Proof. intro H. destruct d, d', p as [| |[]]; try (now destruct H); reflexivity. Qed.
Lemma w_ext t u u' d i : (i < nw)%nat -> (forall j, (j < nu)%nat -> u j = u' j) ->
  cp_w (cp_calc p nw t u d) i = cp_w (cp_calc p nw t u' d) i.
Proof.
  intros Hi H. rewrite !calc_affine. unfold nu in H. destruct p; cbn [np] in H; rewrite !H by lia; reflexivity.
Qed.

(** Composition of the model's derivatives with a curve of states and the control curve. *)
Lemma through_control q (f : vec -> vec -> vec) t cpd (cy : R -> vec) (cu : R -> vec) s u y vy vu Jx Jw i :
  (forall j, (j < 2 * nv)%nat -> cy s j = y j) ->
  (forall j, (j < nu)%nat -> cu s j = u j) ->
  (forall j, (j < 2 * nv)%nat -> is_derive (fun x => cy x j) s (vy j)) ->
  (forall j, (j < nu)%nat -> is_derive (fun x => cu x j) s (vu j)) ->
  deriv2 (2 * nv) nw q f y (cp_w (cp_calc p nw t u cpd)) Jx Jw -> (i < q)%nat ->
  is_derive (fun x => f (cy x) (cp_w (cp_calc p nw t (cu x) cpd)) i) s
    (rsum (2 * nv) (fun j => Jx i j * vy j) +
     rsum nw (fun k => Jw i k * rsum nu (fun j => jac_entry p nw (cc (cp_calc p nw t u cpd)) k j * vu j))).
Proof.
  intros Hy Hu Dy Du H Hi.
  apply (H cy (fun x => cp_w (cp_calc p nw t (cu x) cpd)) s vy
    (fun k => rsum nu (fun j => jac_entry p nw (cc (cp_calc p nw t u cpd)) k j * vu j))); auto.
  - intros k Hk. now apply w_ext.
  - intros k Hk. now apply w_derive.
Qed.

(** ** Euler *)
Section Euler.
Variable ts : tstep.
Hypothesis Hts : good_step ts.

Lemma euler_derivs x u d d1 : supported p ->
  let f := fun x u => e_act (euler_calc nv nw p dm ts x u d) in
  exact_at nv nw nc dm x (cp_w (cp_calc p nw 0 u (e_cp d))) ->
  let o := e_act (euler_calcDiff nv nw p dm ts x u d1) in
  deriv2 (2 * nv) nu (2 * nv) (fun x u => xnext (f x u)) x u (Fx o) (Fu o) /\
  deriv2 (2 * nv) nu 1 (fun x u _ => cost (f x u)) x u (fun _ => Lx o) (fun _ => Lu o) /\
  deriv2 (2 * nv) nu nc (fun x u => cons (f x u)) x u (Gx o) (Gu o).
Proof.
  intros Hs f [Ha [Hl Hg]]. destruct Hts as [_ H2].
  pose proof (w_any 0 u (e_cp d1) (e_cp d) Hs) as Ew.
  assert (Ej : forall k j, jac_entry p nw (cc (cp_calc p nw 0 u (e_cp d1))) k j =
                           jac_entry p nw (cc (cp_calc p nw 0 u (e_cp d))) k j) by (intros; now apply jac_any).
  unfold euler_calcDiff. rewrite Ew. cbn [e_act Fx Fu Lx Lu Gx Gu].
  set (w := cp_w (cp_calc p nw 0 u (e_cp d))) in *.
  set (cp1 := cp_calc p nw 0 u (e_cp d1)) in *.
  split; [|split]; intros cx cu s vx vu Ex Eu Dx Du i Hi.
  - (* next state *)
    set (J := fun (r : nat) => rsum (2 * nv) (fun j => dFx dm x w r j * vx j) +
        rsum nw (fun k => dFu dm x w r k * rsum nu (fun b => jac_entry p nw (cc cp1) k b * vu b))).
    assert (Da : forall r, (r < nv)%nat ->
      is_derive (fun t => acc dm (cx t) (cp_w (cp_calc p nw 0 (cu t) (e_cp d))) r) s (J r)).
    { intros r Hr. eapply deq. apply (through_control nv (acc dm) 0 (e_cp d) cx cu s u x vx vu (dFx dm x w) (dFu dm x w) r); eauto.
      unfold J. f_equal. apply rsum_ext. intros k Hk. f_equal. apply rsum_ext. intros j Hj. now rewrite Ej. }
    assert (EA : forall r (c : R), rsum nu (fun b => c * mulJ p nw cp1 (dFu dm x w) (e_da_du d1) setto r b * vu b) =
       c * rsum nw (fun k => dFu dm x w r k * rsum nu (fun b => jac_entry p nw (cc cp1) k b * vu b))).
    { intros r c. rewrite <- (mulJ_apply cp1 (dFu dm x w) (e_da_du d1) r vu), <- rsum_scal. apply rsum_ext. intros; ring. }
    destruct (Nat.lt_ge_cases i nv) as [L|L].
    + apply (dext (fun t => cx t i + (cx t (nv + i)%nat * dt ts + acc dm (cx t) (cp_w (cp_calc p nw 0 (cu t) (e_cp d))) i * dt2 ts))).
      { intro t. cbn [f e_act euler_calc xnext]. now rewrite (ltb_t i nv L). }
      eapply deq.
      { apply dplus; [apply Dx; lia|]. apply (dplus (fun t => cx t (nv + i)%nat * dt ts)).
        - apply (dext (fun t => dt ts * cx t (nv + i)%nat)); [intro; ring|]. apply dscal, Dx. lia.
        - apply (dext (fun t => dt2 ts * acc dm (cx t) (cp_w (cp_calc p nw 0 (cu t) (e_cp d))) i)); [intro; ring|].
          apply dscal, Da, L. }
      rewrite (ltb_t i nv L). cbn [andb].
      rewrite (rsum_ext _ (fun j => (if (i =? j)%nat then _ else _) * vx j)
        (fun j => dt2 ts * (dFx dm x w i j * vx j) + dt ts * (idm (nv + i)%nat j * vx j) + idm i j * vx j)).
      2:{ intros j Hj. unfold idm. rewrite (Nat.eqb_sym j (nv + i)). destruct (Nat.eqb_spec (nv + i) j), (Nat.eqb_spec i j); try ring. }
      rewrite !rsum_plus, !rsum_scal, !rsum_id_l by lia. rewrite EA. unfold J. ring.
    + apply (dext (fun t => cx t i + acc dm (cx t) (cp_w (cp_calc p nw 0 (cu t) (e_cp d))) (i - nv)%nat * dt ts)).
      { intro t. cbn [f e_act euler_calc xnext]. now rewrite (ltb_f i nv L). }
      eapply deq.
      { apply dplus; [apply Dx; lia|].
        apply (dext (fun t => dt ts * acc dm (cx t) (cp_w (cp_calc p nw 0 (cu t) (e_cp d))) (i - nv)%nat)); [intro; ring|].
        apply dscal, Da. lia. }
      rewrite (ltb_f i nv L). cbn [andb].
      rewrite (rsum_ext _ (fun j => (if (i =? j)%nat then _ else _) * vx j)
        (fun j => dt ts * (dFx dm x w (i - nv)%nat j * vx j) + idm i j * vx j)).
      2:{ intros j Hj. unfold idm. destruct (Nat.eqb_spec i j); ring. }
      rewrite !rsum_plus, !rsum_scal, !rsum_id_l by lia. rewrite EA. unfold J. ring.
  - (* cost *)
    apply (dext (fun t => dt ts * lcost dm (cx t) (cp_w (cp_calc p nw 0 (cu t) (e_cp d))))); [reflexivity|].
    eapply deq.
    { apply dscal. apply (through_control 1 (fun x w _ => lcost dm x w) 0 (e_cp d) cx cu s u x vx vu (fun _ => dLx dm x w) (fun _ => dLu dm x w) 0%nat); eauto. }
    cbn beta.
    rewrite (rsum_ext (2 * nv) (fun j => dt ts * dLx dm x w j * vx j) (fun j => dt ts * (dLx dm x w j * vx j))) by (intros; ring).
    rewrite (rsum_ext nu (fun j => mulJT p nw cp1 _ _ setto j 0%nat * dt ts * vu j)
      (fun j => dt ts * (mulJT p nw cp1 (col (dLu dm x w)) (col (Lu (e_act d1))) setto j 0%nat * vu j))) by (intros; ring).
    rewrite !rsum_scal, mulJT_col_apply. rewrite <- Rmult_plus_distr_l. f_equal. f_equal.
    apply rsum_ext. intros k Hk. f_equal. apply rsum_ext. intros j Hj. now rewrite Ej.
  - (* constraints *)
    eapply deq. apply (through_control nc (con dm) 0 (e_cp d) cx cu s u x vx vu (dGx dm x w) (dGu dm x w) i); eauto.
    f_equal. rewrite mulJ_apply. apply rsum_ext. intros k Hk. f_equal. apply rsum_ext. intros j Hj. now rewrite Ej.
Qed.
End Euler.
End P.
