(** Invariant of the data of a residual cost. *)
From Coq Require Import Reals List Arith Bool Lia Lra.
From Verif Require Import Deriv VecMat Residual_Model.
Import ListNotations.
Open Scope R_scope.

(** The declared dependences are right, and a q-only residual has an even number of tangent
    coordinates (otherwise the first nv columns are not the configuration). *)
Definition sound (m : rmodel) : Prop :=
  (forall x u k i, (i < r_ndx m)%nat -> dep_col m i = false -> r_Rx m x u k i = 0) /\
  (u_dep m = false -> forall x u k j, r_Ru m x u k j = 0).
Definition even_q (m : rmodel) : Prop := q_dep m = true -> v_dep m = false -> r_ndx m = (2 * r_nv m)%nat.

Section Inv.
Variables (m : rmodel) (a : amodel).
Hypothesis Hs : sound m.
Hypothesis He : even_q m.

Definition inv (d : cdata) : Prop :=
  (forall k i, (i < r_ndx m)%nat -> dep_col m i = false -> d_Rx d k i = 0) /\
  (u_dep m = false -> forall k j, d_Ru d k j = 0) /\
  (forall i, (i < r_ndx m)%nat -> dep_col m i = false -> d_Lx d i = 0) /\
  (forall i j, (i < r_ndx m)%nat -> (j < r_ndx m)%nat -> dep_col m i = false \/ dep_col m j = false -> d_Lxx d i j = 0) /\
  (forall i j, (i < r_ndx m)%nat -> dep_col m i = false \/ u_dep m = false -> d_Lxu d i j = 0) /\
  (u_dep m = false -> (forall j, d_Lu d j = 0) /\ forall j k, d_Luu d j k = 0).

(** the block written by calcCostDiff *)
Definition lo : nat := if q_dep m then 0%nat else (r_ndx m - r_nv m)%nat.
Definition hi : nat := if v_dep m then r_ndx m else if q_dep m then r_nv m else 0%nat.
Lemma block i : (i < r_ndx m)%nat -> q_dep m || v_dep m = true -> inb lo hi i = dep_col m i.
Proof.
intros Hi Hd. unfold lo, hi, dep_col, is_q, inb. unfold even_q in He.
assert (Hn : (r_nv m <= r_ndx m)%nat) by (unfold r_nv; apply Nat.div_le_upper_bound; lia).
destruct (q_dep m), (v_dep m); try discriminate Hd; cbn [negb];
  repeat match goal with |- context [Nat.leb ?x ?y] => destruct (Nat.leb_spec x y) | |- context [Nat.ltb ?x ?y] => destruct (Nat.ltb_spec x y) end;
  cbn [andb]; try reflexivity; try lia; pose proof (He eq_refl eq_refl); lia.
Qed.
Lemma calcCostDiff_eq up d :
  calcCostDiff m up d =
  let ru := u_dep m && negb (r_nu m =? 0) && up in
  let d := if ru then cost_u m d else d in
  if q_dep m || v_dep m then cost_x m ru lo hi d else d.
Proof. unfold calcCostDiff, lo, hi. destruct (q_dep m), (v_dep m); reflexivity. Qed.

Lemma mulm_zero n A B i j : (forall k, A i k = 0) -> mulm n A B i j = 0.
Proof. intro H. unfold mulm. apply rsum_0. intros k _. rewrite H. ring. Qed.

Lemma inv_create : inv c_create.
Proof. unfold inv, c_create. cbn. repeat split; reflexivity. Qed.

Lemma inv_cost up d : inv d -> inv (calcCostDiff m up d).
Proof.
intro I. rewrite calcCostDiff_eq. cbv zeta.
assert (I1 : inv (if u_dep m && negb (r_nu m =? 0) && up then cost_u m d else d)).
{ destruct (u_dep m) eqn:Eu; cbn [andb]; [|exact I]. destruct (negb (r_nu m =? 0) && up); [|exact I].
  destruct I as (A & B & C & D & E & F). unfold cost_u, inv. cbn [d_Rx d_Ru d_Lx d_Lxx d_Lxu d_Lu d_Luu].
  split; [exact A|]. split; [intro; congruence|]. split; [exact C|]. split; [exact D|]. split; [|intro; congruence].
  intros i j Hi [H|H]; [apply E; auto|congruence]. }
set (d1 := if u_dep m && negb (r_nu m =? 0) && up then cost_u m d else d) in *. clearbody d1.
destruct (q_dep m || v_dep m) eqn:Eqv; [|exact I1].
destruct I1 as (A & B & C & D & E & F). unfold cost_x, inv. cbn [d_Rx d_Ru d_Lx d_Lxx d_Lxu d_Lu d_Luu].
split; [exact A|]. split; [exact B|]. split; [|split; [|split; [|exact F]]].
- intros i Hi H. unfold blkv. rewrite block by assumption. rewrite H. now apply C.
- intros i j Hi Hj H. unfold blk2. rewrite !block by assumption. destruct (dep_col m i) eqn:E1, (dep_col m j) eqn:E2; cbn [andb]; try (apply D; auto; rewrite E1, E2; auto).
  destruct H; congruence.
- intros i j Hi H. destruct (u_dep m) eqn:Eu; cbn [andb]; [|apply E; auto].
  destruct (negb (r_nu m =? 0) && up); [|apply E; auto].
  unfold blkr. rewrite block by assumption. destruct (dep_col m i) eqn:E1; [|apply E; auto]. destruct H; congruence.
Qed.
Lemma inv_res x u d : inv d -> inv (act_calcDiff a (res_calcDiff m x u d)).
Proof.
intros (A & B & C). destruct Hs as [S1 S2]. unfold inv, act_calcDiff, res_calcDiff. cbn [d_Rx d_Ru d_Lx d_Lxx d_Lxu d_Lu d_Luu].
split; [|split; [|exact C]].
- intros k i Hi H. rewrite H. now apply A.
- intro H. rewrite H. now apply B.
Qed.
Lemma inv_step d c : inv d -> inv (c_step m a d c).
Proof.
intro I. destruct c as [x u|x|x u|x]; cbn [c_step].
- exact I.
- unfold c_calcT. destruct (negb (q_dep m) && negb (v_dep m)); exact I.
- unfold c_calcDiff. apply inv_cost, inv_res, I.
- unfold c_calcDiffT. destruct (negb (q_dep m) && negb (v_dep m)); [|apply inv_cost, inv_res, I].
  destruct I as (A & B & C & D & E & F). unfold inv. cbn [d_Rx d_Ru d_Lx d_Lxx d_Lxu d_Lu d_Luu].
  split; [exact A|]. split; [exact B|]. split; [reflexivity|]. split; [reflexivity|]. now split.
Qed.
Lemma inv_run cs : forall d, inv d -> inv (c_run m a cs d).
Proof. induction cs as [|c cs IH]; intros d I; [exact I|]. apply IH, inv_step, I. Qed.

(** Rx of the data after calcDiff is the Jacobian *)
Lemma Rx_now x u d k i : inv d -> (i < r_ndx m)%nat -> d_Rx (act_calcDiff a (res_calcDiff m x u d)) k i = r_Rx m x u k i.
Proof.
intros (A & _) Hi. destruct Hs as [S1 _]. unfold act_calcDiff, res_calcDiff. cbn [d_Rx]. destruct (dep_col m i) eqn:E; [reflexivity|].
rewrite A, S1; auto.
Qed.
Lemma Ru_now x u d k j : inv d -> d_Ru (act_calcDiff a (res_calcDiff m x u d)) k j = r_Ru m x u k j.
Proof.
intros (_ & B & _). destruct Hs as [_ S2]. unfold act_calcDiff, res_calcDiff. cbn [d_Ru]. destruct (u_dep m) eqn:E; [reflexivity|].
now rewrite B, S2.
Qed.

Lemma cost_x_out ru d i j : q_dep m || v_dep m = true -> (i < r_ndx m)%nat ->
  let o := cost_x m ru lo hi d in
  (dep_col m i = true -> d_Lx o i = rsum (r_nr m) (fun k => d_Rx d k i * d_Ar d k)) /\
  (dep_col m i = true -> (j < r_ndx m)%nat -> dep_col m j = true ->
     d_Lxx o i j = rsum (r_nr m) (fun k => d_Rx d k i * (d_Arr d k * d_Rx d k j))) /\
  (ru = true -> dep_col m i = true -> d_Lxu o i j = rsum (r_nr m) (fun k => d_Rx d k i * d_ArrRu d k j)).
Proof.
intros Hd Hi o. unfold o, cost_x. cbn [d_Lx d_Lxx d_Lxu]. unfold blkv, blk2, blkr. split; [|split].
- intro H. rewrite block, H by assumption. reflexivity.
- intros H Hj H'. rewrite !block, H, H' by assumption. cbn [andb]. unfold mulm, tr. apply rsum_ext. intros k _.
  unfold blkc. rewrite block, H' by assumption. reflexivity.
- intros -> H. rewrite block, H by assumption. reflexivity.
Qed.
End Inv.

Section Out.
Variables (m : rmodel) (a : amodel).
Hypothesis Hs : sound m.
Hypothesis He : even_q m.
Let nr := r_nr m.

Lemma nodep i : q_dep m || v_dep m = false -> dep_col m i = false.
Proof. unfold dep_col. destruct (q_dep m), (v_dep m); try discriminate. intros _. now destruct (is_q m i). Qed.

(** Everything calcCostDiff leaves in the data, with update_u = [up]. *)
Lemma diff_out up x u d : inv m d ->
  let o := calcCostDiff m up (act_calcDiff a (res_calcDiff m x u d)) in
  let J := r_Rx m x u in let Ju := r_Ru m x u in let g := a_grad a (d_r d) in let h := a_hess a (d_r d) in
  (forall i, (i < r_ndx m)%nat -> d_Lx o i = rsum nr (fun k => J k i * g k)) /\
  (forall i j, (i < r_ndx m)%nat -> (j < r_ndx m)%nat -> d_Lxx o i j = rsum nr (fun k => J k i * (h k * J k j))) /\
  (up = true -> (forall j, (j < r_nu m)%nat -> d_Lu o j = rsum nr (fun k => Ju k j * g k)) /\
     (forall i j, (i < r_ndx m)%nat -> (j < r_nu m)%nat -> d_Lxu o i j = rsum nr (fun k => J k i * (h k * Ju k j))) /\
     (forall i j, (i < r_nu m)%nat -> (j < r_nu m)%nat -> d_Luu o i j = rsum nr (fun k => Ju k i * (h k * Ju k j)))) /\
  (up = false -> d_Lu o = d_Lu d /\ d_Lxu o = d_Lxu d /\ d_Luu o = d_Luu d) /\
  d_cost o = d_cost d /\ d_r o = d_r d.
Proof.
intros I o J Ju g h.
assert (Io : inv m o) by (apply inv_cost; [exact He|]; now apply inv_res).
pose proof (fun k i => Rx_now m a Hs x u d k i I) as RX. pose proof (fun k j => Ru_now m a Hs x u d k j I) as RU.
assert (Z : forall i k, (i < r_ndx m)%nat -> dep_col m i = false -> J k i = 0) by (intros; now apply Hs).
assert (ZU : u_dep m = false -> forall k j, Ju k j = 0) by (intros; now apply Hs).
set (d1 := act_calcDiff a (res_calcDiff m x u d)) in *.
assert (G : d_Ar d1 = g /\ d_Arr d1 = h /\ d_Lu d1 = d_Lu d /\ d_Lxu d1 = d_Lxu d /\ d_Luu d1 = d_Luu d /\ d_cost d1 = d_cost d /\ d_r d1 = d_r d) by (now repeat split).
destruct G as (G1 & G2 & G3 & G4 & G5 & G6 & G7). clearbody d1.
assert (E : o = (let ru := u_dep m && negb (r_nu m =? 0) && up in
  let d := if ru then cost_u m d1 else d1 in if q_dep m || v_dep m then cost_x m ru (lo m) (hi m) d else d)) by apply calcCostDiff_eq.
cbv zeta in E.
set (ru := u_dep m && negb (r_nu m =? 0) && up) in *.
set (d2 := if ru then cost_u m d1 else d1) in *.
assert (H2 : d_Rx d2 = d_Rx d1 /\ d_Ar d2 = g /\ d_Arr d2 = h /\ d_cost d2 = d_cost d /\ d_r d2 = d_r d /\ d_Lxu d2 = d_Lxu d) by (unfold d2; destruct ru; cbn [cost_u d_Rx d_Ar d_Arr d_cost d_r d_Lxu]; repeat split; auto).
destruct H2 as (R2 & A2 & B2 & C2 & D2 & X2).
destruct Io as (_ & _ & I3 & I4 & I5 & I6).
(* the control part does not depend on the second block *)
assert (U : d_Lu o = d_Lu d2 /\ d_Luu o = d_Luu d2 /\ d_cost o = d_cost d2 /\ d_r o = d_r d2)
  by (rewrite E; destruct (q_dep m || v_dep m); cbn [cost_x d_Lu d_Luu d_cost d_r]; auto).
destruct U as (U1 & U2 & U3 & U4).
assert (HX : forall i j, (i < r_ndx m)%nat -> dep_col m i = true ->
  d_Lx o i = rsum nr (fun k => J k i * g k) /\
  ((j < r_ndx m)%nat -> dep_col m j = true -> d_Lxx o i j = rsum nr (fun k => J k i * (h k * J k j))) /\
  (ru = true -> d_Lxu o i j = rsum nr (fun k => J k i * d_ArrRu d2 k j))).
{ intros i j Hi Hd. destruct (q_dep m || v_dep m) eqn:Eqv; [|rewrite nodep in Hd by exact Eqv; discriminate].
  destruct (cost_x_out m He ru d2 i j Eqv Hi) as (P1 & P2 & P3). rewrite E. split; [|split].
  - rewrite P1 by exact Hd. apply rsum_ext. intros k _. now rewrite R2, A2, RX.
  - intros Hj Hdj. rewrite P2 by assumption. apply rsum_ext. intros k _. now rewrite R2, B2, !RX.
  - intro Hr. rewrite P3 by assumption. apply rsum_ext. intros k _. now rewrite R2, RX. }
split; [|split; [|split; [|split]]].
- intros i Hi. destruct (dep_col m i) eqn:Ed; [apply (HX i 0%nat Hi Ed)|]. rewrite I3 by assumption. symmetry. apply rsum_0.
  intros k _. rewrite Z by assumption. ring.
- intros i j Hi Hj. destruct (dep_col m i) eqn:Ed; [destruct (dep_col m j) eqn:Ed'|].
  + now apply HX.
  + rewrite I4 by auto. symmetry. apply rsum_0. intros k _. rewrite (Z j) by assumption. ring.
  + rewrite I4 by auto. symmetry. apply rsum_0. intros k _. rewrite (Z i) by assumption. ring.
- intros ->. destruct (u_dep m) eqn:Eu.
  + assert (Hru : (0 < r_nu m)%nat -> ru = true).
    { intro H. unfold ru. destruct (Nat.eqb_spec (r_nu m) 0); [lia|reflexivity]. }
    split; [|split].
    * intros j Hj. rewrite U1. unfold d2. rewrite Hru by lia. cbn [cost_u d_Lu]. unfold mulTv. apply rsum_ext. intros k _. now rewrite RU, G1.
    * intros i j Hi Hj. destruct (dep_col m i) eqn:Ed.
      -- destruct (HX i j Hi Ed) as (_ & _ & P). rewrite P by (apply Hru; lia). apply rsum_ext. intros k _. unfold d2. rewrite Hru by lia.
         cbn [cost_u d_ArrRu]. unfold diagm. now rewrite RU, G2.
      -- rewrite I5 by auto. symmetry. apply rsum_0. intros k _. rewrite Z by assumption. ring.
    * intros i j Hi Hj. rewrite U2. unfold d2. rewrite Hru by lia. cbn [cost_u d_Luu]. unfold mulm, tr, diagm. apply rsum_ext. intros k _. now rewrite !RU, G2.
  + destruct (I6 eq_refl) as [L1 L2]. split; [|split].
    * intros j _. rewrite L1. symmetry. apply rsum_0. intros k _. rewrite ZU by reflexivity. ring.
    * intros i j Hi _. rewrite I5 by auto. symmetry. apply rsum_0. intros k _. rewrite ZU by reflexivity. ring.
    * intros i j _ _. rewrite L2. symmetry. apply rsum_0. intros k _. rewrite ZU by reflexivity. ring.
- intros ->. assert (Hru : ru = false) by (unfold ru; now rewrite andb_false_r). 
  rewrite U1, U2. unfold d2. rewrite Hru. rewrite G3, G5. split; [reflexivity|]. split; [|reflexivity].
  rewrite E. unfold d2. rewrite Hru. destruct (q_dep m || v_dep m); cbn [cost_x d_Lxu]; exact G4.
- rewrite U3, U4, C2, D2. now split.
Qed.
End Out.
