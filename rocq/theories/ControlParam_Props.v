(** C34, C35: control parametrizations. *)
From Coquelicot Require Import Coquelicot.
From Coq Require Import Reals List Arith Bool Lia Lra.
From Verif Require Import Deriv VecMat ControlParam_Model ControlParam_Spec ControlParam_Proofs.
Import ListNotations.
Open Scope R_scope.

(** ** C34 *)
(** After any calls on the data, calc evaluates the interpolating polynomial ... *)
Theorem C34_interpolates p nw ops t u i : supported p ->
  cp_w (cp_calc p nw t u (cp_run p nw ops)) i = control_of p nw t u i.
Proof. apply calc_control. Qed.

(** ... which returns the parameters of node [k] at that node (PolyZero: everywhere) ... *)
Theorem C34_at_nodes p nw ops t u i k : supported p -> nth_error (nodes p) k = Some t ->
  cp_w (cp_calc p nw t u (cp_run p nw ops)) i = u (k * nw + i)%nat.
Proof.
  intros H Hk. rewrite calc_affine. generalize (cc (cp_run p nw ops)). intro c.
  destruct p as [| |[]]; try (now destruct H); cbn [nodes] in Hk; cbn [coeffs];
    repeat (destruct k as [|k]; cbn [nth_error] in Hk; [injection Hk as <-; rewrite ?Nat.mul_0_l, ?Nat.mul_1_l, ?Nat.add_0_l; field; fail|]);
    try (destruct k; discriminate).
Qed.
Theorem C34_poly_zero_constant nw ops t u : cp_w (cp_calc PolyZero nw t u (cp_run PolyZero nw ops)) = u.
Proof. now destruct (cp_run PolyZero nw ops). Qed.

(** ... params then calc gives back the control at every time ... *)
Theorem C34_round_trip p nw t w d d' i : supported p -> (i < nw)%nat ->
  cp_w (cp_calc p nw t (cp_u (cp_params p nw w d)) d') i = w i.
Proof.
  intros H Hi. rewrite calc_affine. generalize (cc d'). intro c. destruct d as [dw du dJ dc], p as [| |[]]; try (now destruct H);
    cbn [cp_params cp_u coeffs]; auto;
    pose proof (proj2 (Nat.ltb_lt i nw) Hi) as E0; rewrite E0;
    assert (E1 : (nw + i <? nw) = false) by (apply Nat.ltb_ge; lia); rewrite E1;
    replace (nw + i - nw)%nat with i by lia; [field|..];
    assert (E2 : (nw + i <? 2 * nw) = true) by (apply Nat.ltb_lt; lia);
    assert (E3 : (2 * nw + i <? nw) = false) by (apply Nat.ltb_ge; lia);
    assert (E4 : (2 * nw + i <? 2 * nw) = false) by (apply Nat.ltb_ge; lia);
    rewrite E2, E3, E4; replace (2 * nw + i - 2 * nw)%nat with i by lia; field.
Qed.

(** ... and calcDiff yields its exact Jacobian, on any data after any calls; the products are
    products with that Jacobian in the three assignment modes. *)
Theorem C34_jacobian p nw ops t u :
  let d := cp_calc p nw t u (cp_run p nw ops) in
  let J := dw_du (cp_calcDiff p nw d) in
  (supported p -> jacobian_at (np p nw) nw (control_of p nw t) u J) /\
  (forall A out op i j, (j < np p nw)%nat ->
     mulJ p nw d A out op i j = assign op (out i j) (mulm nw A J i j)) /\
  (forall A out op i j, (i < np p nw)%nat ->
     mulJT p nw d A out op i j = assign op (out i j) (mulm nw (tr J) A i j)).
Proof.
  intros d J.
  assert (C : clean p nw d) by (apply (step_clean p nw _ (CCalc t u)), run_clean).
  assert (E : forall i j, (i < nw)%nat -> (j < np p nw)%nat -> J i j = jac_entry p nw (cc d) i j)
    by (intros; now apply calcDiff_entry).
  assert (Ec : cc d = match p with PolyZero => cc (cp_run p nw ops) | _ => coeffs p t (cc (cp_run p nw ops)) end).
  { unfold d. destruct (cp_run p nw ops), p; reflexivity. }
  split; [|split].
  - intros Hs c s v Hc Hv i Hi.
    rewrite (rsum_ext _ _ (fun j => jac_entry p nw (cc d) i j * v j)) by (intros; now rewrite E).
    rewrite jac_apply by auto.
    destruct p as [| |rk]; cbn [np] in *.
    + apply (dext (fun x => c x i)); [intro; now rewrite <- (calc_control _ _ _ _ (cp_run PolyZero nw ops)), calc_affine|auto].
    + apply (dext (fun x => cc d 0%nat * c x i + cc d 1%nat * c x (nw + i)%nat)).
      { intro x. now rewrite <- (calc_control _ _ _ _ (cp_run PolyOne nw ops)), calc_affine, Ec. }
      apply dplus; apply dscal; apply Hv; lia.
    + apply (dext (fun x => cc d 0%nat * c x i + cc d 1%nat * c x (nw + i)%nat + cc d 2%nat * c x (2 * nw + i)%nat)).
      { intro x. now rewrite <- (calc_control _ _ _ _ (cp_run (PolyTwoRK rk) nw ops)), calc_affine, Ec. }
      apply (dplus (fun x => cc d 0%nat * c x i + cc d 1%nat * c x (nw + i)%nat)); [apply dplus|]; apply dscal; apply Hv; lia.
  - intros A out op i j Hj. rewrite mulJ_entry by auto. f_equal. apply rsum_ext. intros k Hk. now rewrite E.
  - intros A out op i j Hi. rewrite mulJT_entry, mulJ_entry by auto. unfold tr. f_equal. apply rsum_ext.
    intros k Hk. rewrite E by auto. ring.
Qed.

(** ** C35 *)
Definition within (n : nat) (lb ub x : vec) : Prop := forall i, (i < n)%nat -> lb i <= x i <= ub i.
Definition basis_nonneg (p : param) (t : R) : Prop :=
  forall k, (k < length (nodes p))%nat -> 0 <= lag (nodes p) (nth k (nodes p) 0) t.

(** False as stated: PolyOne at t = 1 (used by RK4) returns 2 with bounds [0, 1] ... *)
Theorem C35_poly_one_refuted : exists nw lb ub u t, 0 <= t <= 1 /\
  within (np PolyOne nw) (cp_convert PolyOne nw lb) (cp_convert PolyOne nw ub) u /\
  ~ within nw lb ub (cp_w (cp_calc PolyOne nw t u (cp_create PolyOne))).
Proof.
  exists 1%nat, (fun _ => 0), (fun _ => 1), (fun j => INR j), 1. split; [lra|]. split.
  - intros i Hi. cbn [np] in Hi. cbn [cp_convert]. destruct i as [|[|i]]; [cbn; lra|cbn; lra|cbn in Hi; lia].
  - intro H. specialize (H 0%nat ltac:(lia)). cbn in H. lra.
Qed.
(** ... and the quadratic parametrizations overshoot between their nodes. *)
Theorem C35_poly_two_refuted : forall rk, rk <> two -> exists nw lb ub u t, 0 <= t <= 1 /\
  within (np (PolyTwoRK rk) nw) (cp_convert (PolyTwoRK rk) nw lb) (cp_convert (PolyTwoRK rk) nw ub) u /\
  ~ within nw lb ub (cp_w (cp_calc (PolyTwoRK rk) nw t u (cp_create (PolyTwoRK rk)))).
Proof.
  intros rk Hr. exists 1%nat, (fun _ => 0), (fun _ => 1), (fun j => match j with 2%nat => 1 | _ => 0 end), (1 / 4).
  split; [lra|]. split.
  - intros i Hi. cbn [np] in Hi. cbn [cp_convert]. destruct i as [|[|[|i]]]; [cbn; lra|cbn; lra|cbn; lra|cbn in Hi; lia].
  - intro H. specialize (H 0%nat ltac:(lia)). destruct rk; [now destruct Hr|cbn in H; lra|cbn in H; lra].
Qed.

Lemma lag_sum p t : supported p -> rsum (length (nodes p)) (fun k => lag (nodes p) (nth k (nodes p) 0) t) = 1.
Proof.
  intro H. destruct p as [| |[]]; try (now destruct H); cbn [nodes length nth rsum lag]; nodes_case; field.
Qed.
Lemma np_length p nw : supported p -> np p nw = (length (nodes p) * nw)%nat.
Proof. intro H. destruct p as [| |[]]; try (now destruct H); cbn [np nodes length]; lia. Qed.
Lemma convert_entry p nw b k i : supported p -> (k < length (nodes p))%nat -> (i < nw)%nat ->
  cp_convert p nw b (k * nw + i)%nat = b i.
Proof.
  intros H Hk Hi. destruct p as [| |[]]; try (now destruct H); cbn [nodes length] in Hk; cbn [cp_convert].
  - f_equal. destruct k; lia.
  - destruct (Nat.ltb_spec (k * nw + i) nw) as [L|L].
    + assert (k = 0)%nat by nia. subst. f_equal; lia.
    + assert (k = 1)%nat by (destruct k as [|[|k]]; lia). subst. f_equal; lia.
  - destruct (Nat.ltb_spec (k * nw + i) nw) as [L|L]; [|destruct (Nat.ltb_spec (k * nw + i) (2 * nw)) as [L2|L2]].
    + assert (k = 0)%nat by nia. subst. f_equal; lia.
    + assert (k = 1)%nat by (destruct k as [|[|k]]; nia). subst. f_equal; lia.
    + assert (k = 2)%nat by (destruct k as [|[|[|k]]]; lia). subst. f_equal; lia.
  - destruct (Nat.ltb_spec (k * nw + i) nw) as [L|L]; [|destruct (Nat.ltb_spec (k * nw + i) (2 * nw)) as [L2|L2]].
    + assert (k = 0)%nat by nia. subst. f_equal; lia.
    + assert (k = 1)%nat by (destruct k as [|[|k]]; nia). subst. f_equal; lia.
    + assert (k = 2)%nat by (destruct k as [|[|[|k]]]; lia). subst. f_equal; lia.
Qed.
Lemma rsum_le n f g : (forall i, (i < n)%nat -> f i <= g i) -> rsum n f <= rsum n g.
Proof. induction n; cbn; intro H; [lra|]. apply Rplus_le_compat; auto. Qed.

(** The exact times at which the converted bounds imply the original ones: those where every
    basis polynomial is non-negative. *)
Theorem C35_bounds_partial p nw lb ub u t ops : supported p -> basis_nonneg p t ->
  within (np p nw) (cp_convert p nw lb) (cp_convert p nw ub) u ->
  within nw lb ub (cp_w (cp_calc p nw t u (cp_run p nw ops))).
Proof.
  intros Hs Hb Hu i Hi. rewrite calc_control by auto. unfold control_of.
  assert (S : forall b : vec, b i = rsum (length (nodes p)) (fun k => lag (nodes p) (nth k (nodes p) 0) t * b i)).
  { intro b. rewrite (rsum_ext _ _ (fun k => b i * lag (nodes p) (nth k (nodes p) 0) t)) by (intros; ring).
    rewrite rsum_scal, lag_sum by auto. ring. }
  assert (B : forall k, (k < length (nodes p))%nat -> lb i <= u (k * nw + i)%nat <= ub i).
  { intros k Hk. rewrite <- (convert_entry p nw lb k i), <- (convert_entry p nw ub k i) by auto. apply Hu.
    rewrite np_length by auto. nia. }
  rewrite (S lb), (S ub). split; apply rsum_le; intros k Hk; specialize (Hb k Hk); specialize (B k Hk);
    apply Rmult_le_compat_l; lra.
Qed.
Theorem C35_needs_nonneg_partial p t : supported p -> ~ basis_nonneg p t ->
  exists lb ub u, within (np p 1) (cp_convert p 1 lb) (cp_convert p 1 ub) u /\
  ~ within 1 lb ub (cp_w (cp_calc p 1 t u (cp_create p))).
Proof.
  intros Hs Hn.
  (* take the worst parameters: 0 where the basis is non-negative, 1 elsewhere *)
  set (L := fun k => lag (nodes p) (nth k (nodes p) 0) t).
  exists (fun _ => 0), (fun _ => 1), (fun k => if Rle_dec 0 (L k) then 0 else 1). split.
  - intros j Hj. assert (E : forall x : R, cp_convert p 1 (fun _ => x) j = x).
    { intro x. destruct p; cbn [cp_convert]; repeat (destruct (_ <? _)%nat); auto. }
    rewrite !E. destruct (Rle_dec 0 (L j)); lra.
  - intro H. apply Hn. specialize (H 0%nat ltac:(lia)). rewrite calc_control in H by auto. destruct H as [H _].
    unfold control_of in H.
    assert (Z : forall k, (k < length (nodes p))%nat -> 0 <= L k).
    { revert H. generalize (length (nodes p)). intro n.
      assert (T : forall m, rsum m (fun k => L k * (if Rle_dec 0 (L (k * 1 + 0)%nat) then 0 else 1)) <= 0 /\
        (0 <= rsum m (fun k => L k * (if Rle_dec 0 (L (k * 1 + 0)%nat) then 0 else 1)) -> forall k, (k < m)%nat -> 0 <= L k)).
      { induction m as [|m [IH1 IH2]]; cbn [rsum]; [split; [lra|intros; lia]|].
        replace (m * 1 + 0)%nat with m by lia. destruct (Rle_dec 0 (L m)) as [Q|Q].
        - split; [lra|]. intros G k Hk. destruct (Nat.eq_dec k m) as [->|]; auto. apply IH2; [lra|lia].
        - split; [lra|]. intros G. lra. }
      intros H. apply (proj2 (T n)). exact H. }
    exact Z.
Qed.
(** In particular: PolyZero always, PolyOne on [0, 1/2], PolyTwoRK at its nodes. *)
Theorem C35_times_partial : (forall t, basis_nonneg PolyZero t) /\
  (forall t, 0 <= t <= 1 / 2 <-> basis_nonneg PolyOne t) /\
  (forall rk t, rk <> two -> In t (nodes (PolyTwoRK rk)) -> basis_nonneg (PolyTwoRK rk) t).
Proof.
  split; [|split].
  - intros t k Hk. cbn [nodes length] in Hk. destruct k; [|lia]. cbn. nodes_case.
  - intro t. split.
    + intros Ht k Hk. cbn [nodes length] in Hk. destruct k as [|[|k]]; [| |lia]; cbn [nodes nth lag]; nodes_case;
        match goal with |- 0 <= ?x => let y := eval cbv in 1 in idtac end; unfold Rdiv; nra || lra.
    + intro H. pose proof (H 0%nat ltac:(cbn; lia)) as A. pose proof (H 1%nat ltac:(cbn; lia)) as B.
      cbn [nodes nth lag] in A, B.
      repeat match goal with H : context [Req_EM_T ?a ?b] |- _ => destruct (Req_EM_T a b); try lra end.
  - intros rk t Hr Ht k Hk. destruct rk; [now destruct Hr| |]; cbn [nodes In length] in Ht, Hk;
      destruct Ht as [<-|[<-|[<-|[]]]]; destruct k as [|[|[|k]]]; try lia; cbn [nodes nth lag]; nodes_case.
Qed.

(** Non-trivial cases. *)
Example C34_example : supported (PolyTwoRK three) /\ nth_error (nodes (PolyTwoRK three)) 2 = Some (2 / 3) /\
  cp_w (cp_calc (PolyTwoRK three) 2 (2 / 3) (fun j => INR j) (cp_create (PolyTwoRK three))) 1%nat = 5.
Proof. split; [discriminate|]. split; [reflexivity|]. cbn. lra. Qed.
Example C35_example : basis_nonneg PolyOne (1 / 4) /\
  within (np PolyOne 1) (cp_convert PolyOne 1 (fun _ => -1)) (cp_convert PolyOne 1 (fun _ => 1)) (fun j => 1 - INR j).
Proof.
  split. apply C35_times_partial; lra.
  intros i Hi. cbn [np] in Hi. cbn [cp_convert]. destruct i as [|[|i]]; [cbn; lra|cbn; lra|cbn in Hi; lia].
Qed.

Print Assumptions C34_interpolates.
Print Assumptions C34_at_nodes.
Print Assumptions C34_poly_zero_constant.
Print Assumptions C34_round_trip.
Print Assumptions C34_jacobian.
Print Assumptions C35_poly_one_refuted.
Print Assumptions C35_poly_two_refuted.
Print Assumptions C35_bounds_partial.
Print Assumptions C35_needs_nonneg_partial.
Print Assumptions C35_times_partial.
