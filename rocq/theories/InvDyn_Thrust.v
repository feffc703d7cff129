(** C88 for the thrusters: when the inverse dynamics can use them. *)
From Coquelicot Require Import Coquelicot.
From Coq Require Import Reals List Arith Bool Lia Lra.
From Verif Require Import Deriv VecMat Implicit Spatial Actuation_Model MultiContact_Model FwdDyn_Model FwdDyn_Spec InvDyn_Model InvDyn_Spec InvDyn_Proofs InvDyn_Props.
Import ListNotations.
Open Scope R_scope.

(** [P] is the pseudo-inverse of [W] (nv rows, na columns). *)
Record pseudo_inverse (nv na : nat) (W P : mat) : Prop := {
  pi_1 : forall i j, (i < nv)%nat -> (j < na)%nat -> mulm nv (mulm na W P) W i j = W i j;
  pi_2 : forall i j, (i < na)%nat -> (j < nv)%nat -> mulm na (mulm nv P W) P i j = P i j;
  pi_3 : forall i j, (i < nv)%nat -> (j < nv)%nat -> mulm na W P i j = mulm na W P j i;
  pi_4 : forall i j, (i < na)%nat -> (j < na)%nat -> mulm nv P W i j = mulm nv P W j i }.
Definition independent (nv na : nat) (W : mat) : Prop :=
  forall u, (forall i, (i < nv)%nat -> mulv na W u i = 0) -> forall j, (j < na)%nat -> u j = 0.
(** The wrenches the thrusters produce fill a set of coordinates. *)
Definition aligned (nv na : nat) (W P : mat) : Prop :=
  forall k, (k < nv)%nat -> mulm na W P k k = 0 \/ mulm na W P k k = 1.

Lemma squares0 n f : rsum n (fun i => f i * f i) = 0 -> forall i, (i < n)%nat -> f i = 0.
Proof.
  induction n as [|n IH]; intros E i Hi; [lia|]. cbn [rsum] in E.
  assert (0 <= rsum n (fun i => f i * f i)) by (apply rsum_ge0; intros; nra).
  assert (rsum n (fun i => f i * f i) = 0) by nra. assert (f n = 0) by nra.
  destruct (Nat.eq_dec i n) as [->|ne]; [assumption|]. apply IH; [assumption|lia].
Qed.
Lemma count_set (set : nat -> bool) n : rsum n (fun k => if set k then 1 else 0) = INR (n - length (outside set n)).
Proof.
  assert (L : forall m, (length (outside set m) <= m)%nat).
  { intro m. unfold outside. induction m as [|m IH]; [apply Nat.le_refl|]. rewrite seq_S, filter_app, app_length. cbn [Nat.add filter]. destruct (negb (set m)); cbn [length]; lia. }
  induction n as [|n IH]; [reflexivity|]. cbn [rsum]. rewrite IH. specialize (L n). revert L.
  unfold outside. rewrite seq_S, filter_app, app_length. cbn [Nat.add filter]. intro L. destruct (set n); cbn [negb length].
  - replace (S n - (length (filter (fun k => negb (set k)) (seq 0 n)) + 0))%nat with (S (n - length (filter (fun k => negb (set k)) (seq 0 n)))) by lia.
    rewrite S_INR. reflexivity.
  - replace (S n - (length (filter (fun k => negb (set k)) (seq 0 n)) + 1))%nat with (n - length (filter (fun k => negb (set k)) (seq 0 n)))%nat by lia. ring.
Qed.
Section Proj.
Variables (nv na : nat) (W P : mat).
Hypothesis PI : pseudo_inverse nv na W P.
Hypothesis IN : independent nv na W.
Let S := mulm na W P.
Lemma PW i j : (i < na)%nat -> (j < na)%nat -> mulm nv P W i j = idm i j.
Proof.
  intros Hi Hj. assert (Z := IN (fun k => mulm nv P W k j - idm k j)). cut (mulm nv P W i j - idm i j = 0); [lra|]. apply Z; [|assumption].
  intros k Hk. unfold mulv. rewrite (rsum_ext na _ (fun l => W k l * mulm nv P W l j - W k l * idm l j)) by (intros; ring).
  rewrite rsum_minus, rsum_id_r by assumption. assert (X := pi_1 _ _ _ _ PI k j Hk Hj).
  cut (rsum na (fun l => W k l * mulm nv P W l j) = W k j); [lra|]. etransitivity; [|exact X].
  exact (eq_sym (mulv_mulm na nv W P (fun l => W l j) k)).
Qed.
Lemma SS i j : (i < nv)%nat -> (j < nv)%nat -> mulm nv S S i j = S i j.
Proof.
  intros Hi Hj. unfold S at 1. change (mulv nv (mulm na W P) (fun l => S l j) i = S i j). rewrite (mulv_mulm na nv W P).
  unfold mulv at 1, S, mulm at 2. apply rsum_ext. intros k Hk. f_equal. unfold S.
  assert (X := pi_2 _ _ _ _ PI k j Hk Hj). etransitivity; [|exact X].
  exact (eq_sym (mulv_mulm nv na P W (fun l => P l j) k)).
Qed.
Lemma Srow k : (k < nv)%nat -> S k k = rsum nv (fun l => S k l * S k l).
Proof.
  intro Hk. rewrite <- (SS k k Hk Hk) at 1. unfold mulm at 1. apply rsum_ext. intros l Hl. f_equal. now apply (pi_3 _ _ _ _ PI).
Qed.
Lemma Srow0 k l : (k < nv)%nat -> (l < nv)%nat -> S k k = 0 -> S k l = 0.
Proof. intros Hk Hl E. rewrite (Srow k Hk) in E. exact (squares0 nv (S k) E l Hl). Qed.
Lemma Srow1 k l : (k < nv)%nat -> (l < nv)%nat -> S k k = 1 -> S k l = idm k l.
Proof.
  intros Hk Hl E. assert (X := Srow k Hk). cut (S k l - idm k l = 0); [lra|].
  apply (squares0 nv (fun l => S k l - idm k l)); [|assumption].
  rewrite (rsum_ext nv _ (fun i => S k i * S k i - (2 * (idm k i * S k i) - idm k i * idm k i))) by (intros; ring).
  rewrite !rsum_minus, rsum_scal, rsum_id_l, rsum_id_l by assumption. rewrite idm_same. lra.
Qed.
Lemma trace : rsum nv (fun k => S k k) = INR na.
Proof.
  unfold S, mulm. rewrite rsum_swap. rewrite (rsum_ext na _ (fun _ => 1)).
  - clear. induction na as [|n IH]; [reflexivity|]. cbn [rsum]. rewrite IH, S_INR. reflexivity.
  - intros j Hj. rewrite <- (idm_same j), <- (PW j j Hj Hj). unfold mulm. apply rsum_ext. intros; ring.
Qed.
End Proj.

(** Thrusters (and joints) with independent wrenches that fill a set of coordinates can be used with the
    inverse dynamics, after any calls on the data ([tau0], [u0]). *)
Theorem C88_thrusters_partial : forall nv na eps m tau0 u0, 0 < eps <= 1 ->
  pseudo_inverse nv na (m_W m) (m_Mtau m) -> independent nv na (m_W m) -> aligned nv na (m_W m) (m_Mtau m) ->
  regular nv (th_actuator nv na) (with_tau tau0 (with_u u0 (th_data na eps m))).
Proof.
  intros nv na eps m tau0 u0 EP PI IN AL. set (W := m_W m) in *. set (P := m_Mtau m) in *. set (d := with_tau _ _).
  assert (T0 : forall k, (k < nv)%nat -> t_set d k = false -> mulm na W P k k = 0).
  { intros k Hk. unfold d, th_data. cbn [t_set with_tau with_u]. fold W P. intro H. destruct (AL k Hk) as [->| E]; [reflexivity|]. rewrite E in H.
    rewrite Rabs_R1 in H. destruct (Rlt_dec 1 eps); [lra|discriminate]. }
  assert (T1 : forall k, (k < nv)%nat -> t_set d k = true -> mulm na W P k k = 1).
  { intros k Hk. unfold d, th_data. cbn [t_set with_tau with_u]. fold W P. intro H. destruct (AL k Hk) as [E| ->]; [|reflexivity]. rewrite E in H.
    rewrite Rabs_R0 in H. destruct (Rlt_dec 0 eps); [discriminate|lra]. }
  assert (CNT : (nv - length (outside (t_set d) nv))%nat = na).
  { apply INR_eq. rewrite <- count_set, <- (trace nv na W P PI IN). apply rsum_ext. intros k Hk.
    destruct (t_set d k) eqn:E; symmetry; auto. }
  assert (LEN : (length (outside (t_set d) nv) <= nv)%nat).
  { unfold outside. rewrite <- (seq_length nv 0) at 2. generalize (seq 0 nv). induction l as [|x l IH]; cbn [filter length]; [lia|]. destruct (negb (t_set d x)); cbn [length]; lia. }
  constructor; unfold inv_calc, th_actuator, with_tau, with_u; cbn [a_na a_calc a_commands fst snd t_tau t_u t_set t_dx t_M t_du].
  - lia.
  - intros tau Z i Hi. unfold inv_calc, th_actuator, with_tau, with_u in *. cbn [a_na a_calc a_commands fst snd t_tau t_u t_set t_dx t_M t_du] in *.
    change (mulv na W (mulv nv P tau) i = tau i). rewrite <- (mulv_mulm na nv W P). unfold mulv. destruct (t_set d i) eqn:E.
    + rewrite (rsum_ext nv _ (fun l => idm i l * tau l)) by (intros l Hl; now rewrite (Srow1 nv na W P PI i l Hi Hl (T1 i Hi E))). now apply rsum_id_l.
    + rewrite (Z i Hi E). apply rsum_0. intros l Hl. rewrite (Srow0 nv na W P PI i l Hi Hl (T0 i Hi E)). ring.
  - intros _. lia.
  - intros u tau E. change (forall i, (i < nv)%nat -> tau i = mulv na W u i) in E. split.
    + intros k Hk S0. rewrite (E k Hk). unfold mulv. apply rsum_0. intros j Hj. rewrite <- (pi_1 _ _ _ _ PI k j Hk Hj). unfold mulm at 1.
      rewrite (rsum_0 nv); [ring|]. intros l Hl. rewrite (Srow0 nv na W P PI k l Hk Hl (T0 k Hk S0)). ring.
    + intros i Hi. change (mulv nv P tau i = u i). unfold mulv. rewrite (rsum_ext nv _ (fun l => P i l * mulv na W u l)) by (intros l Hl; now rewrite (E l Hl)).
      change (mulv nv P (mulv na W u) i = u i). rewrite <- (mulv_mulm nv na P W). unfold mulv.
      rewrite (rsum_ext na _ (fun j => idm i j * u j)) by (intros j Hj; now rewrite (PW nv na W P PI IN i j Hi Hj)). now apply rsum_id_l.
  - reflexivity.
  - reflexivity.
  - reflexivity.
  - reflexivity.
Qed.
(** One thruster along the z axis at the centre, without reaction torque, and one joint. *)
Definition up : thruster := Thruster (fun i => if (i =? 2)%nat then 1 else 0) (fun _ => 0) 0 true.
Lemma lt6 i : (i < 6)%nat -> i = 0%nat \/ i = 1%nat \/ i = 2%nat \/ i = 3%nat \/ i = 4%nat \/ i = 5%nat. Proof. lia. Qed.
Lemma lt7 i : (i < 7)%nat -> i = 0%nat \/ i = 1%nat \/ i = 2%nat \/ i = 3%nat \/ i = 4%nat \/ i = 5%nat \/ i = 6%nat. Proof. lia. Qed.
Lemma lt2 i : (i < 2)%nat -> i = 0%nat \/ i = 1%nat. Proof. lia. Qed.
Definition up_W : mat := fun r c => if ((r =? 2) && (c =? 0)) || ((r =? 6) && (c =? 1)) then 1 else 0.
Lemma up_model : exists m, th_create 1 tr [up] = Some m /\ (forall r c, (r < 7)%nat -> (c < 2)%nat -> m_W m r c = up_W r c) /\
  (forall r c, (r < 2)%nat -> (c < 7)%nat -> m_Mtau m r c = tr up_W r c).
Proof.
  eexists. split; [reflexivity|]. cbn [m_W m_Mtau]. unfold tr, up_W, add_thrusters, add_thruster, th_W0, up, cross. cbn [th_fz th_p th_c th_cw m_W].
  split; intros r c Hr Hc.
  - destruct (lt7 r Hr) as [->|[->|[->|[->|[->|[->| ->]]]]]]; destruct (lt2 c Hc) as [->| ->]; cbn [Nat.eqb Nat.leb Nat.ltb Nat.sub andb orb]; ring.
  - destruct (lt7 c Hc) as [->|[->|[->|[->|[->|[->| ->]]]]]]; destruct (lt2 r Hr) as [->| ->]; cbn [Nat.eqb Nat.leb Nat.ltb Nat.sub andb orb]; ring.
Qed.
Example C88_thrusters_ex : exists m, th_create 1 tr [up] = Some m /\
  pseudo_inverse 7 2 (m_W m) (m_Mtau m) /\ independent 7 2 (m_W m) /\ aligned 7 2 (m_W m) (m_Mtau m).
Proof.
  destruct up_model as (m & E & HW & HP). exists m. split; [exact E|].
  assert (S1 : forall i j, (i < 7)%nat -> (j < 7)%nat -> mulm 2 (m_W m) (m_Mtau m) i j = if (i =? j) && ((i =? 2) || (i =? 6)) then 1 else 0).
  { intros i j Hi Hj. unfold mulm. cbn [rsum]. rewrite !HW, !HP by lia. unfold tr, up_W.
    destruct (lt7 i Hi) as [->|[->|[->|[->|[->|[->| ->]]]]]]; destruct (lt7 j Hj) as [->|[->|[->|[->|[->|[->| ->]]]]]]; cbn [Nat.eqb andb orb]; ring. }
  assert (S2 : forall i j, (i < 2)%nat -> (j < 2)%nat -> mulm 7 (m_Mtau m) (m_W m) i j = if (i =? j) then 1 else 0).
  { intros i j Hi Hj. unfold mulm. cbn [rsum]. rewrite !HW, !HP by lia. unfold tr, up_W.
    destruct (lt2 i Hi) as [->| ->]; destruct (lt2 j Hj) as [->| ->]; cbn [Nat.eqb andb orb]; ring. }
  split; [constructor|split].
  - intros i j Hi Hj. unfold mulm at 1. rewrite (rsum_ext 7 _ (fun k => (if (i =? k) && ((i =? 2) || (i =? 6)) then 1 else 0) * m_W m k j)) by (intros k Hk; now rewrite S1).
    cbn [rsum]. rewrite !HW by lia. unfold up_W.
    destruct (lt7 i Hi) as [->|[->|[->|[->|[->|[->| ->]]]]]]; destruct (lt2 j Hj) as [->| ->]; cbn [Nat.eqb andb orb]; ring.
  - intros i j Hi Hj. unfold mulm at 1. rewrite (rsum_ext 2 _ (fun k => (if (i =? k)%nat then 1 else 0) * m_Mtau m k j)) by (intros k Hk; now rewrite S2).
    cbn [rsum]. rewrite !HP by lia. unfold tr, up_W.
    destruct (lt7 j Hj) as [->|[->|[->|[->|[->|[->| ->]]]]]]; destruct (lt2 i Hi) as [->| ->]; cbn [Nat.eqb andb orb]; ring.
  - intros i j Hi Hj. rewrite !S1 by assumption. rewrite (Nat.eqb_sym j i). destruct (Nat.eqb_spec i j) as [->|]; reflexivity.
  - intros i j Hi Hj. rewrite !S2 by assumption. now rewrite (Nat.eqb_sym j i).
  - intros u Z j Hj. assert (A := Z 2%nat ltac:(lia)). assert (B := Z 6%nat ltac:(lia)). unfold mulv in A, B. cbn [rsum] in A, B. rewrite !HW in A, B by lia.
    unfold up_W in A, B. cbn [Nat.eqb andb orb] in A, B. destruct (lt2 j Hj) as [->| ->]; lra.
  - intros k Hk. rewrite S1 by assumption. destruct (_ && _); auto.
Qed.

(** A tilted thruster: the constraint "tau" leaves two coordinates free, and joint.tau does not produce
    the torque the motion needs.  The pseudo-inverse of a unit column is its transpose. *)
Definition tilt : thruster := Thruster (fun i => match i with 0%nat => 3 / 5 | 2%nat => 4 / 5 | _ => 0 end) (fun _ => 0) 0 true.
Definition tilt_W : vec := fun r => match r with 0%nat => 3 / 5 | 2%nat => 4 / 5 | _ => 0 end.
Lemma tilt_model : exists m, th_create 1 tr [tilt] = Some m /\ (forall r c, (r < 6)%nat -> (c < 1)%nat -> m_W m r c = tilt_W r) /\
  (forall r c, (r < 1)%nat -> (c < 6)%nat -> m_Mtau m r c = tilt_W c).
Proof.
  eexists. split; [reflexivity|]. cbn [m_W m_Mtau]. unfold tr, add_thrusters, add_thruster, th_W0, tilt, cross, tilt_W. cbn [th_fz th_p th_c th_cw m_W].
  split; intros r c Hr Hc.
  - assert (c = 0%nat) as -> by lia. destruct (lt6 r Hr) as [->|[->|[->|[->|[->| ->]]]]]; cbn [Nat.eqb Nat.leb Nat.ltb Nat.sub andb orb]; ring.
  - assert (r = 0%nat) as -> by lia. destruct (lt6 c Hc) as [->|[->|[->|[->|[->| ->]]]]]; cbn [Nat.eqb Nat.leb Nat.ltb Nat.sub andb orb]; ring.
Qed.
Theorem C88_thruster_refuted : exists m, th_create 1 tr [tilt] = Some m /\
  pseudo_inverse 6 1 (m_W m) (m_Mtau m) /\ independent 6 1 (m_W m) /\
  forall eps, 0 < eps < 9 / 25 -> exists a tau bs,
    rnea_value 6 0 idm (fun _ => 0) (fun _ _ => z6) a (fun _ => z6) tau /\
    inv_constraints 6 1 (snd (inv_calc (th_actuator 6 1) tau (th_data 1 eps m))) tau (fun _ _ => 0) (fun _ _ => 0) idm (fun _ _ => 0)
      (fun _ => 0) (fun _ _ => 0) (fun _ _ => 0) [] = Some bs /\ satisfied bs /\
    t_tau (snd (inv_calc (th_actuator 6 1) tau (th_data 1 eps m))) 0%nat <> rsum 6 (fun j => idm 0%nat j * a j).
Proof.
  destruct tilt_model as (m & E & HW & HP). exists m. split; [exact E|].
  assert (S1 : forall i j, (i < 6)%nat -> (j < 6)%nat -> mulm 1 (m_W m) (m_Mtau m) i j = tilt_W i * tilt_W j).
  { intros i j Hi Hj. unfold mulm. cbn [rsum]. rewrite HW, HP by lia. ring. }
  assert (S2 : mulm 6 (m_Mtau m) (m_W m) 0%nat 0%nat = 1).
  { unfold mulm. cbn [rsum]. rewrite !HW, !HP by lia. unfold tilt_W. field. }
  split; [constructor|split].
  - intros i j Hi Hj. unfold mulm at 1. rewrite (rsum_ext 6 _ (fun k => tilt_W i * tilt_W k * tilt_W k)) by (intros k Hk; rewrite S1, HW by assumption; reflexivity).
    rewrite HW by assumption. generalize (tilt_W i). intro w. cbn [rsum]. unfold tilt_W. field.
  - intros i j Hi Hj. assert (i = 0%nat) as -> by lia. unfold mulm at 1. cbn [rsum]. rewrite S2. ring.
  - intros i j Hi Hj. rewrite !S1 by assumption. ring.
  - intros i j Hi Hj. assert (i = 0%nat) as -> by lia. assert (j = 0%nat) as -> by lia. reflexivity.
  - intros u Z j Hj. assert (j = 0%nat) as -> by lia. assert (A := Z 0%nat ltac:(lia)). unfold mulv in A. cbn [rsum] in A. rewrite HW in A by lia. unfold tilt_W in A. lra.
  - intros eps EP. set (tau := fun i => if (i =? 0)%nat then 1 else 0).
    assert (TS : forall k, (k < 6)%nat -> t_set (snd (inv_calc (th_actuator 6 1) tau (th_data 1 eps m))) k = (k =? 0)%nat || (k =? 2)%nat).
    { intros k Hk. unfold inv_calc, th_actuator, th_data. cbn [a_commands a_calc snd t_set with_tau with_u]. rewrite S1 by assumption.
      destruct (lt6 k Hk) as [->|[->|[->|[->|[->| ->]]]]]; unfold tilt_W; cbn [Nat.eqb orb]; destruct (Rlt_dec _ _) as [L|L]; try reflexivity; exfalso; revert L;
        rewrite ?Rmult_0_l, ?Rabs_R0; rewrite ?(Rabs_right (3 / 5 * (3 / 5))), ?(Rabs_right (4 / 5 * (4 / 5))) by lra; lra. }
    exists tau, tau. set (d := snd (inv_calc (th_actuator 6 1) tau (th_data 1 eps m))) in *. eexists. split; [|split; [|split]].
    + intros i Hi. rewrite rsum_id_l by assumption. cbn [rsum]. ring.
    + unfold inv_constraints, tau_block, tau_r, tau_Rx, tau_Ru. cbn [Nat.sub Nat.ltb Nat.leb].
      cbn [under]. rewrite !TS by lia. cbn [Nat.eqb orb Nat.ltb Nat.leb]. reflexivity.
    + intros b [<-|[]] i Hi. cbn [b_r b_n] in *. unfold setseg, tau. assert (Hc : i = 0%nat \/ i = 1%nat \/ i = 2%nat \/ i = 3%nat \/ i = 4%nat) by lia.
      destruct Hc as [->|[->|[->|[->| ->]]]]; reflexivity.
    + rewrite rsum_id_l by lia. unfold d, inv_calc, th_actuator, th_data. cbn [a_commands a_calc snd t_tau t_u t_du t_M with_tau with_u].
      unfold mulv. cbn [rsum]. rewrite !HW, !HP by lia. unfold tilt_W, tau. cbn [Nat.eqb]. lra.
Qed.

Print Assumptions C88_thrusters_partial.
Print Assumptions C88_thruster_refuted.
