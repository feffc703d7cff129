(** Lemmas on the control parametrizations. *)
From Coquelicot Require Import Coquelicot.
From Coq Require Import Reals List Arith Bool Lia Lra.
From Verif Require Import Deriv VecMat ControlParam_Model ControlParam_Spec.
Import ListNotations.
Open Scope R_scope.

Lemma lag_cons n l tk t : lag (n :: l) tk t = (if Req_EM_T n tk then 1 else (t - n) / (tk - n)) * lag l tk t.
Proof. reflexivity. Qed.

Ltac nodes_case :=
  repeat match goal with |- context [Req_EM_T ?a ?b] => destruct (Req_EM_T a b); try lra end.

Lemma calc_control p nw t u d i : supported p ->
  cp_w (cp_calc p nw t u d) i = control_of p nw t u i.
Proof.
  intro H. unfold control_of. destruct d as [dw du dJ dc], p as [| |[]]; try (now destruct H);
    cbn [nodes length nth rsum lag cp_calc coeffs cp_w np]; nodes_case.
  - rewrite Nat.mul_0_l, Nat.add_0_l. ring.
  - replace (2 * nw - nw)%nat with nw by lia. rewrite Nat.mul_0_l, Nat.add_0_l, Nat.mul_1_l. field.
  - replace (3 * nw - nw)%nat with (2 * nw)%nat by lia. rewrite Nat.mul_0_l, Nat.add_0_l, Nat.mul_1_l. field.
  - replace (3 * nw - nw)%nat with (2 * nw)%nat by lia. rewrite Nat.mul_0_l, Nat.add_0_l, Nat.mul_1_l. field.
Qed.

(** Outside the written diagonals the Jacobian buffer is zero after every history. *)
Definition clean (p : param) (nw : nat) (d : cpdata) : Prop :=
  match p with
  | PolyZero => dw_du d = idm
  | PolyOne => forall i j, (i < nw)%nat -> j <> i -> j <> (nw + i)%nat -> dw_du d i j = 0
  | PolyTwoRK _ => forall i j, (i < nw)%nat -> j <> i -> j <> (nw + i)%nat -> j <> (2 * nw + i)%nat -> dw_du d i j = 0
  end.
Lemma set_diag_other nw off x J i j : j <> (off + i)%nat -> set_diag nw off x J i j = J i j.
Proof. intro H. unfold set_diag. apply Nat.eqb_neq in H. now rewrite H, andb_false_r. Qed.
Lemma set_diag_same nw off x J i : (i < nw)%nat -> set_diag nw off x J i (off + i)%nat = x.
Proof. intro H. unfold set_diag. apply Nat.ltb_lt in H. now rewrite H, Nat.eqb_refl. Qed.

Lemma step_clean p nw d o : clean p nw d -> clean p nw (cp_step p nw d o).
Proof.
  unfold clean. destruct d as [w u J c], o as [t u1| |w1], p as [| |rk]; cbn [cp_step cp_calc cp_calcDiff cp_params dw_du np]; auto;
    intros H i j Hi H1 H2; [|intro H3]; replace (2 * nw - nw)%nat with nw by lia || replace (3 * nw - nw)%nat with (2 * nw)%nat by lia;
    rewrite !set_diag_other by lia; auto.
Qed.
Lemma run_clean p nw ops : clean p nw (cp_run p nw ops).
Proof.
  unfold cp_run. assert (H : clean p nw (cp_create p)) by (destruct p; cbn; auto).
  revert H. generalize (cp_create p). induction ops as [|o ops IH]; intros d H; cbn [fold_left]; auto.
  apply IH. now apply step_clean.
Qed.

(** The Jacobian buffer after calc and calcDiff. *)
Definition jac_entry (p : param) (nw : nat) (c : vec) (i j : nat) : R :=
  match p with
  | PolyZero => idm i j
  | PolyOne => if j <? nw then c 0%nat * idm i j else c 1%nat * idm i (j - nw)%nat
  | PolyTwoRK _ => if j <? nw then c 0%nat * idm i j else if j <? 2 * nw then c 1%nat * idm i (j - nw)%nat else c 2%nat * idm i (j - 2 * nw)%nat
  end.
Lemma calcDiff_entry p nw d i j : clean p nw d -> (i < nw)%nat -> (j < np p nw)%nat ->
  dw_du (cp_calcDiff p nw d) i j = jac_entry p nw (cc d) i j.
Proof.
  destruct d as [w u J c], p as [| |rk]; unfold clean; cbn [cp_calcDiff dw_du cc np jac_entry]; intros H Hi Hj.
  - now rewrite H.
  - replace (2 * nw - nw)%nat with nw by lia. destruct (Nat.ltb_spec j nw) as [L|L].
    + rewrite set_diag_other by lia. destruct (Nat.eq_dec j i) as [->|E].
      * rewrite (set_diag_same nw 0) by lia. rewrite idm_same. ring.
      * rewrite set_diag_other by (cbn; lia). rewrite H, idm_other by lia. ring.
    + destruct (Nat.eq_dec j (nw + i)) as [->|E].
      * rewrite set_diag_same by lia. replace (nw + i - nw)%nat with i by lia. rewrite idm_same. ring.
      * rewrite !set_diag_other by lia. rewrite H, idm_other by lia. ring.
  - replace (3 * nw - nw)%nat with (2 * nw)%nat by lia.
    destruct (Nat.ltb_spec j nw) as [L|L]; [|destruct (Nat.ltb_spec j (2 * nw)) as [L2|L2]].
    + rewrite !(set_diag_other nw (2 * nw)), (set_diag_other nw nw) by lia. destruct (Nat.eq_dec j i) as [->|E].
      * rewrite (set_diag_same nw 0) by lia. rewrite idm_same. ring.
      * rewrite set_diag_other by (cbn; lia). rewrite H, idm_other by lia. ring.
    + rewrite (set_diag_other nw (2 * nw)) by lia. destruct (Nat.eq_dec j (nw + i)) as [->|E].
      * rewrite set_diag_same by lia. replace (nw + i - nw)%nat with i by lia. rewrite idm_same. ring.
      * rewrite !set_diag_other by lia. rewrite H, idm_other by lia. ring.
    + destruct (Nat.eq_dec j (2 * nw + i)) as [->|E].
      * rewrite set_diag_same by lia. replace (2 * nw + i - 2 * nw)%nat with i by lia. rewrite idm_same. ring.
      * rewrite !set_diag_other by lia. rewrite H, idm_other by lia. ring.
Qed.

(** Product with the Jacobian rows: entries of [A] times one coefficient. *)
Lemma mulJ_entry p nw d A out op i j : (j < np p nw)%nat ->
  mulJ p nw d A out op i j = assign op (out i j) (rsum nw (fun k => A i k * jac_entry p nw (cc d) k j)).
Proof.
  intro Hj. destruct p as [| |rk]; cbn [mulJ jac_entry np] in *.
  - f_equal. symmetry. now apply rsum_id_r.
  - destruct (Nat.ltb_spec j nw) as [L|L]; f_equal; symmetry.
    + rewrite (rsum_ext nw _ (fun k => cc d 0%nat * A i k * idm k j)) by (intros; ring).
      now rewrite (rsum_id_r nw j (fun k => cc d 0%nat * A i k)).
    + rewrite (rsum_ext nw _ (fun k => cc d 1%nat * A i k * idm k (j - nw)%nat)) by (intros; ring).
      rewrite (rsum_id_r nw (j - nw) (fun k => cc d 1%nat * A i k)); auto; lia.
  - destruct (Nat.ltb_spec j nw) as [L|L]; [|destruct (Nat.ltb_spec j (2 * nw)) as [L2|L2]]; f_equal; symmetry.
    + rewrite (rsum_ext nw _ (fun k => cc d 0%nat * A i k * idm k j)) by (intros; ring).
      now rewrite (rsum_id_r nw j (fun k => cc d 0%nat * A i k)).
    + rewrite (rsum_ext nw _ (fun k => cc d 1%nat * A i k * idm k (j - nw)%nat)) by (intros; ring).
      rewrite (rsum_id_r nw (j - nw) (fun k => cc d 1%nat * A i k)); auto; lia.
    + rewrite (rsum_ext nw _ (fun k => cc d 2%nat * A i k * idm k (j - 2 * nw)%nat)) by (intros; ring).
      rewrite (rsum_id_r nw (j - 2 * nw) (fun k => cc d 2%nat * A i k)); auto; lia.
Qed.
Lemma mulJT_entry p nw d A out op i j : 
  mulJT p nw d A out op i j = mulJ p nw d (tr A) (tr out) op j i.
Proof. destruct p as [| |rk]; cbn [mulJ mulJT]; unfold tr; auto. Qed.

(** Applying the Jacobian to a vector of parameter velocities. *)
Lemma jac_apply p nw c v i : (i < nw)%nat ->
  rsum (np p nw) (fun j => jac_entry p nw c i j * v j) =
  match p with
  | PolyZero => v i
  | PolyOne => c 0%nat * v i + c 1%nat * v (nw + i)%nat
  | PolyTwoRK _ => c 0%nat * v i + c 1%nat * v (nw + i)%nat + c 2%nat * v (2 * nw + i)%nat
  end.
Proof.
  intro Hi. destruct p as [| |rk]; cbn [np jac_entry].
  - now apply rsum_id_l.
  - replace (2 * nw)%nat with (nw + nw)%nat by lia. rewrite rsum_app. f_equal.
    + rewrite (rsum_ext nw _ (fun j => c 0%nat * (idm i j * v j))).
      * rewrite rsum_scal. now rewrite rsum_id_l.
      * intros j Hj. apply Nat.ltb_lt in Hj. rewrite Hj. ring.
    + rewrite (rsum_ext nw _ (fun j => c 1%nat * (idm i j * v (nw + j)%nat))).
      * rewrite rsum_scal. now rewrite (rsum_id_l nw i (fun j => v (nw + j)%nat)).
      * intros j Hj. assert (E : (nw + j <? nw) = false) by (apply Nat.ltb_ge; lia). rewrite E.
        replace (nw + j - nw)%nat with j by lia. ring.
  - replace (3 * nw)%nat with (nw + (nw + nw))%nat by lia. rewrite !rsum_app, <- Rplus_assoc. f_equal; [f_equal|].
    + rewrite (rsum_ext nw _ (fun j => c 0%nat * (idm i j * v j))).
      * rewrite rsum_scal. now rewrite rsum_id_l.
      * intros j Hj. apply Nat.ltb_lt in Hj. rewrite Hj. ring.
    + rewrite (rsum_ext nw _ (fun j => c 1%nat * (idm i j * v (nw + j)%nat))).
      * rewrite rsum_scal. now rewrite (rsum_id_l nw i (fun j => v (nw + j)%nat)).
      * intros j Hj. assert (E : (nw + j <? nw) = false) by (apply Nat.ltb_ge; lia). rewrite E.
        assert (E2 : (nw + j <? 2 * nw) = true) by (apply Nat.ltb_lt; lia). rewrite E2.
        replace (nw + j - nw)%nat with j by lia. ring.
    + rewrite (rsum_ext nw _ (fun j => c 2%nat * (idm i j * v (2 * nw + j)%nat))).
      * rewrite rsum_scal. now rewrite (rsum_id_l nw i (fun j => v (2 * nw + j)%nat)).
      * intros j Hj. assert (E : (nw + (nw + j) <? nw) = false) by (apply Nat.ltb_ge; lia). rewrite E.
        assert (E2 : (nw + (nw + j) <? 2 * nw) = false) by (apply Nat.ltb_ge; lia). rewrite E2.
        replace (nw + (nw + j))%nat with (2 * nw + j)%nat by lia.
        replace (2 * nw + j - 2 * nw)%nat with j by lia. ring.
Qed.
Lemma calc_affine p nw t u d i :
  cp_w (cp_calc p nw t u d) i =
  match p with
  | PolyZero => u i
  | PolyOne => coeffs p t (cc d) 0%nat * u i + coeffs p t (cc d) 1%nat * u (nw + i)%nat
  | PolyTwoRK _ => coeffs p t (cc d) 0%nat * u i + coeffs p t (cc d) 1%nat * u (nw + i)%nat + coeffs p t (cc d) 2%nat * u (2 * nw + i)%nat
  end.
Proof.
  destruct d as [dw du dJ dc], p as [| |rk]; cbn [cp_calc cp_w np cc]; auto.
  - now replace (2 * nw - nw)%nat with nw by lia.
  - replace (3 * nw - nw)%nat with (2 * nw)%nat by lia. ring.
Qed.


(** Along a curve of parameters the control moves with the Jacobian entries. *)
Lemma cc_calc p nw t u u' d : cc (cp_calc p nw t u d) = cc (cp_calc p nw t u' d).
Proof. destruct d, p; reflexivity. Qed.
Lemma w_derive p nw t d (c : R -> vec) s v u i :
  (forall j, (j < np p nw)%nat -> is_derive (fun x => c x j) s (v j)) -> (i < nw)%nat ->
  is_derive (fun x => cp_w (cp_calc p nw t (c x) d) i) s
    (rsum (np p nw) (fun j => jac_entry p nw (cc (cp_calc p nw t u d)) i j * v j)).
Proof.
  intros Hv Hi. rewrite jac_apply by auto.
  assert (Ec : cc (cp_calc p nw t u d) = match p with PolyZero => cc d | _ => coeffs p t (cc d) end)
    by (destruct d, p; reflexivity).
  rewrite Ec. destruct p as [| |rk]; cbn [np] in *.
  - apply (dext (fun x => c x i)); [intro; now rewrite calc_affine|auto].
  - set (k := coeffs _ _ _) in *.
    apply (dext (fun x => k 0%nat * c x i + k 1%nat * c x (nw + i)%nat)).
    { intro x. now rewrite calc_affine. }
    apply dplus; apply dscal; apply Hv; lia.
  - set (k := coeffs _ _ _) in *.
    apply (dext (fun x => k 0%nat * c x i + k 1%nat * c x (nw + i)%nat + k 2%nat * c x (2 * nw + i)%nat)).
    { intro x. now rewrite calc_affine. }
    apply (dplus (fun x => k 0%nat * c x i + k 1%nat * c x (nw + i)%nat)); [apply dplus|]; apply dscal; apply Hv; lia.
Qed.
