(** C46: the unicycle. *)
From Coquelicot Require Import Coquelicot.
From Coq Require Import Reals List Arith Bool Lia Lra.
From Verif Require Import Deriv VecMat Integrator_Spec Unicycle_Model.
Import ListNotations.
Open Scope R_scope.

(** ** Specification: rolling with speed u0 and turning with rate u1 during [h]; weighted norms. *)
Definition roll (h : R) (x u : vec) : vec := fun i =>
  match i with
  | 0%nat => x 0%nat + h * (cos (x 2%nat) * u 0%nat)
  | 1%nat => x 1%nat + h * (sin (x 2%nat) * u 0%nat)
  | _ => x 2%nat + h * u 1%nat
  end.
Definition uni_cost (w0 w1 : R) (x u : vec) : R :=
  (w0 * w0 * rsum 3 (fun i => x i * x i) + w1 * w1 * rsum 2 (fun i => u i * u i)) / 2.

(** *** What no call changes: the constant entries of the matrices. *)
Definition clean (d : udata) : Prop :=
  (forall i j, (i, j) <> (0, 2)%nat -> (i, j) <> (1, 2)%nat -> uFx d i j = if Nat.eqb i j then 1 else 0) /\
  (forall i j, (i, j) <> (0, 0)%nat -> (i, j) <> (1, 0)%nat -> (i, j) <> (2, 1)%nat -> uFu d i j = 0) /\
  (forall i j, uLxu d i j = 0) /\ (forall i j, i <> j -> uLxx d i j = 0 /\ uLuu d i j = 0).
Lemma put_same i j a M : put i j a M i j = a.
Proof. unfold put. now rewrite !Nat.eqb_refl. Qed.
Lemma put_other i j a M i' j' : (i', j') <> (i, j) -> put i j a M i' j' = M i' j'.
Proof.
  intro H. unfold put. destruct (Nat.eqb_spec i' i), (Nat.eqb_spec j' j); cbn [andb]; auto. subst. congruence.
Qed.
Lemma diag_other a M i j : i <> j -> diag a M i j = M i j.
Proof. intro H. unfold diag. now rewrite (proj2 (Nat.eqb_neq i j) H). Qed.
Lemma step_clean c m d : clean d -> clean (snd (u_step c (m, d))).
Proof.
  intro H. destruct c; cbn [u_step snd u_calc u_calc_x]; auto.
  - destruct H as (H1 & H2 & H3 & H4). repeat split; cbn [u_calcDiff uFx uFu uLxu uLxx uLuu]; intros.
    + rewrite !put_other by auto. auto.
    + rewrite !put_other by auto. auto.
    + auto.
    + rewrite diag_other by auto. now apply H4.
    + rewrite diag_other by auto. now apply H4.
  - destruct H as (H1 & H2 & H3 & H4). repeat split; cbn [u_calcDiff_x uFx uFu uLxu uLxx uLuu]; intros; auto.
    + rewrite diag_other by auto. now apply H4.
    + now apply H4.
Qed.
Lemma run_clean cs m d : clean d -> clean (snd (u_run cs (m, d))).
Proof.
  unfold u_run. revert m d. induction cs as [|c cs IH]; cbn [fold_left]; auto. intros m d H.
  pose proof (step_clean c m d H) as Hc. destruct (u_step c (m, d)) as [m' d']. now apply IH.
Qed.
Lemma create_clean : clean u_createData.
Proof. repeat split. Qed.

(** *** C46 *)
(** calc evaluates the unicycle with the parameters last set, after any history. *)
Theorem C46_calc cs x u :
  let m := fst (u_run cs (u_create, u_createData)) in
  let d := u_calc m x u (snd (u_run cs (u_create, u_createData))) in
  (forall i, (i < 3)%nat -> uxnext d i = roll (u_dt m) x u i) /\ ucost d = uni_cost (u_w0 m) (u_w1 m) x u /\
  ucost d = / 2 * rsum 5 (fun i => ur d i * ur d i).
Proof.
  intros m d. split; [|split].
  - intros i Hi. destruct i as [|[|[|i]]]; [..|lia]; cbn [d u_calc uxnext v3 roll]; ring.
  - cbn [d u_calc ucost]. unfold dot, uni_cost. cbn [rsum Nat.ltb Nat.leb Nat.sub]. field.
  - cbn [d u_calc ucost ur]. unfold dot. lra.
Qed.

(** calcDiff gives the exact derivatives at (x, u), after any history of calls and settings on
    any data. *)
Theorem C46_derivatives cs x u :
  let m := fst (u_run cs (u_create, u_createData)) in
  let d := u_calcDiff m x u (snd (u_run cs (u_create, u_createData))) in
  deriv2 3 2 3 (roll (u_dt m)) x u (uFx d) (uFu d) /\
  deriv2 3 2 1 (fun x u _ => uni_cost (u_w0 m) (u_w1 m) x u) x u (fun _ => uLx d) (fun _ => uLu d) /\
  (exists gx gu, (forall x u, deriv2 3 2 1 (fun x u _ => uni_cost (u_w0 m) (u_w1 m) x u) x u (fun _ => gx x u) (fun _ => gu x u)) /\
    deriv2 3 2 3 gx x u (uLxx d) (uLxu d) /\ deriv2 3 2 2 gu x u (tr (uLxu d)) (uLuu d)).
Proof.
  intros m d.
  assert (C : clean (snd (u_run cs (u_create, u_createData)))) by apply run_clean, create_clean.
  set (d0 := snd (u_run cs (u_create, u_createData))) in *. fold m in d. clearbody d0 m.
  destruct C as (C1 & C2 & C3 & C4).
  assert (G : forall x u, deriv2 3 2 1 (fun x u _ => uni_cost (u_w0 m) (u_w1 m) x u) x u
     (fun _ i => x i * (u_w0 m * u_w0 m)) (fun _ i => u i * (u_w1 m * u_w1 m))).
  { intros x' u' cx cu s vx vu Ex Eu Dx Du i _. unfold uni_cost. eapply deq.
    - apply (dext (fun t => (u_w0 m * u_w0 m / 2) * rsum 3 (fun i => cx t i * cx t i) + (u_w1 m * u_w1 m / 2) * rsum 2 (fun i => cu t i * cu t i))).
      { intro t. field. }
      apply dplus; apply dscal; [apply (drsum 3 (fun i t => cx t i * cx t i) s (fun i => vx i * cx s i + cx s i * vx i))|apply (drsum 2 (fun i t => cu t i * cu t i) s (fun i => vu i * cu s i + cu s i * vu i))];
        intros j Hj; apply (dmult (fun t => _ t j) (fun t => _ t j)); auto.
    - cbn [rsum]. rewrite !Ex, !Eu by lia. field. }
  split; [|split].
  - intros cx cu s vx vu Ex Eu Dx Du i Hi.
    assert (Dc : is_derive (fun t => cos (cx t 2%nat)) s (- sin (x 2%nat) * vx 2%nat)).
    { rewrite <- (Ex 2%nat) by lia. eapply deq; [apply (dcomp cos (fun t => cx t 2%nat)); [apply is_derive_cos|apply Dx; lia]|]. cbv beta. ring. }
    assert (Ds : is_derive (fun t => sin (cx t 2%nat)) s (cos (x 2%nat) * vx 2%nat)).
    { rewrite <- (Ex 2%nat) by lia. eapply deq; [apply (dcomp sin (fun t => cx t 2%nat)); [apply is_derive_sin|apply Dx; lia]|]. cbv beta. ring. }
    assert (F00 : uFx d 0%nat 0%nat = 1) by (cbn [d u_calcDiff uFx]; now rewrite !put_other, C1 by discriminate).
    assert (F01 : uFx d 0%nat 1%nat = 0) by (cbn [d u_calcDiff uFx]; now rewrite !put_other, C1 by discriminate).
    assert (F10 : uFx d 1%nat 0%nat = 0) by (cbn [d u_calcDiff uFx]; now rewrite !put_other, C1 by discriminate).
    assert (F11 : uFx d 1%nat 1%nat = 1) by (cbn [d u_calcDiff uFx]; now rewrite !put_other, C1 by discriminate).
    assert (F20 : uFx d 2%nat 0%nat = 0) by (cbn [d u_calcDiff uFx]; now rewrite !put_other, C1 by discriminate).
    assert (F21 : uFx d 2%nat 1%nat = 0) by (cbn [d u_calcDiff uFx]; now rewrite !put_other, C1 by discriminate).
    assert (F22 : uFx d 2%nat 2%nat = 1) by (cbn [d u_calcDiff uFx]; now rewrite !put_other, C1 by discriminate).
    assert (F02 : uFx d 0%nat 2%nat = - sin (x 2%nat) * u 0%nat * u_dt m) by reflexivity.
    assert (F12 : uFx d 1%nat 2%nat = cos (x 2%nat) * u 0%nat * u_dt m) by reflexivity.
    assert (B00 : uFu d 0%nat 0%nat = cos (x 2%nat) * u_dt m) by reflexivity.
    assert (B10 : uFu d 1%nat 0%nat = sin (x 2%nat) * u_dt m) by reflexivity.
    assert (B21 : uFu d 2%nat 1%nat = u_dt m) by reflexivity.
    assert (B01 : uFu d 0%nat 1%nat = 0) by (cbn [d u_calcDiff uFu]; now rewrite !put_other, C2 by discriminate).
    assert (B11 : uFu d 1%nat 1%nat = 0) by (cbn [d u_calcDiff uFu]; now rewrite !put_other, C2 by discriminate).
    assert (B20 : uFu d 2%nat 0%nat = 0) by (cbn [d u_calcDiff uFu]; now rewrite !put_other, C2 by discriminate).
    clearbody d.
    destruct i as [|[|[|i]]]; [..|lia]; cbn [rsum roll].
    + rewrite F00, F01, F02, B00, B01. eapply deq.
      { apply dplus; [apply (Dx 0%nat); lia|]. apply dscal. apply dmult; [exact Dc|apply (Du 0%nat); lia]. }
      cbv beta. rewrite Ex, Eu by lia. ring.
    + rewrite F10, F11, F12, B10, B11. eapply deq.
      { apply dplus; [apply (Dx 1%nat); lia|]. apply dscal. apply dmult; [exact Ds|apply (Du 0%nat); lia]. }
      cbv beta. rewrite Ex, Eu by lia. ring.
    + rewrite F20, F21, F22, B20, B21. eapply deq.
      { apply dplus; [apply (Dx 2%nat); lia|]. apply dscal. apply (Du 1%nat); lia. }
      ring.
  - apply G.
  - exists (fun x u i => x i * (u_w0 m * u_w0 m)), (fun x u i => u i * (u_w1 m * u_w1 m)). split; [exact G|].
    split; intros cx cu s vx vu Ex Eu Dx Du i Hi.
    + eapply deq. { apply (dext (fun t => (u_w0 m * u_w0 m) * cx t i)); [intro; ring|]. apply dscal, Dx; auto. }
      cbn [d u_calcDiff uLxx uLxu]. rewrite (rsum_single 3 i) by (auto; intros j _ Hj; rewrite diag_other by auto; rewrite (proj1 (C4 i j (not_eq_sym Hj))); ring).
      rewrite (rsum_0 2) by (intros; rewrite C3; ring). unfold diag. rewrite Nat.eqb_refl. ring.
    + eapply deq. { apply (dext (fun t => (u_w1 m * u_w1 m) * cu t i)); [intro; ring|]. apply dscal, Du; auto. }
      cbn [d u_calcDiff uLuu uLxu]. rewrite (rsum_0 3) by (intros; unfold tr; rewrite C3; ring).
      rewrite (rsum_single 2 i) by (auto; intros j _ Hj; rewrite diag_other by auto; rewrite (proj2 (C4 i j (not_eq_sym Hj))); ring).
      unfold diag. rewrite Nat.eqb_refl. ring.
Qed.

(** Without a control: the state stays, the cost is the one of a zero control and its derivatives
    are exact. *)
Theorem C46_terminal cs x :
  let m := fst (u_run cs (u_create, u_createData)) in
  let d := u_calcDiff_x m x (u_calc_x m x (snd (u_run cs (u_create, u_createData)))) in
  uxnext d = x /\ ucost d = uni_cost (u_w0 m) (u_w1 m) x (fun _ => 0) /\
  deriv2 3 2 1 (fun x _ _ => uni_cost (u_w0 m) (u_w1 m) x (fun _ => 0)) x (fun _ => 0) (fun _ => uLx d) (fun _ _ => 0) /\
  (forall i j, uLxx d i j = if Nat.eqb i j then u_w0 m * u_w0 m else 0).
Proof.
  intros m d. split; [reflexivity|]. split; [|split].
  - cbn [d u_calcDiff_x u_calc_x ucost]. unfold dot, uni_cost. cbn [rsum Nat.ltb Nat.leb]. field.
  - intros cx cu s vx vu Ex _ Dx _ i _. unfold uni_cost. eapply deq.
    + apply (dext (fun t => (u_w0 m * u_w0 m / 2) * rsum 3 (fun i => cx t i * cx t i))). { intro t. cbn [rsum]. field. }
      apply dscal. apply (drsum 3 (fun i t => cx t i * cx t i) s (fun i => vx i * cx s i + cx s i * vx i)).
      intros j Hj; apply (dmult (fun t => _ t j) (fun t => _ t j)); auto.
    + cbn [d u_calcDiff_x uLx rsum]. rewrite !Ex by lia. field.
  - intros i j. cbn [d u_calcDiff_x u_calc_x uLxx]. unfold diag. destruct (Nat.eqb_spec i j); auto.
    apply (run_clean cs u_create u_createData create_clean). auto.
Qed.
(** ... but Fx is not reset to the identity, the derivative of x -> xnext = x. *)
Theorem C46_terminal_Fx_refuted : exists cs x,
  let m := fst (u_run cs (u_create, u_createData)) in
  let d := u_calcDiff_x m x (u_calc_x m x (snd (u_run cs (u_create, u_createData)))) in
  uFx d 1%nat 2%nat <> 0.
Proof. exists [UDiff (fun _ => 0) (fun _ => 1)], (fun _ => 0). cbn. rewrite cos_0. lra. Qed.

(** set_dt accepts exactly the positive values; a rejected call changes nothing. *)
Theorem C46_dt cs : 0 < u_dt (fst (u_run cs (u_create, u_createData))) /\
  forall h m, (0 < h -> u_set_dt h m = Some (UModel h (u_w0 m) (u_w1 m))) /\ (h <= 0 -> u_set_dt h m = None).
Proof.
  split.
  - assert (H : 0 < u_dt u_create) by (cbn; lra). revert H. unfold u_run. generalize u_create, u_createData.
    induction cs as [|c cs IH]; cbn [fold_left]; auto. intros m d H.
    assert (Hc : 0 < u_dt (fst (u_step c (m, d)))).
    { destruct c; cbn [u_step fst]; auto. unfold u_set_dt. destruct (Rle_dec h 0); cbn [u_dt]; auto. lra. }
    destruct (u_step c (m, d)). now apply IH.
  - intros h m. unfold u_set_dt. destruct (Rle_dec h 0); split; intro; auto; lra.
Qed.

(** A history that changes the parameters and dirties the data. *)
Example C46_example :
  let md := u_run [UCalc (fun _ => 1) (fun _ => 2); UDiff (fun _ => 1) (fun _ => 2); UDt 3; UDt (-1); UWeights 2 5; UDiffT (fun _ => 7)] (u_create, u_createData) in
  u_dt (fst md) = 3 /\ u_w0 (fst md) = 2 /\ u_w1 (fst md) = 5 /\ uLxx (snd md) 0%nat 0%nat = 4 /\ uLx (snd md) 1%nat = 28.
Proof.
  cbn. unfold u_set_dt at 1. destruct (Rle_dec (-1) 0); [|lra]. unfold u_set_dt. destruct (Rle_dec 3 0); [lra|]. cbn. repeat split; lra.
Qed.

Print Assumptions C46_calc.
Print Assumptions C46_derivatives.
Print Assumptions C46_terminal.
Print Assumptions C46_terminal_Fx_refuted.
Print Assumptions C46_dt.
