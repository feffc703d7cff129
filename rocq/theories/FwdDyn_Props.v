(** C84-C86: forward dynamics. *)
From Coquelicot Require Import Coquelicot.
From Coq Require Import Reals List Arith Bool Lia Lra.
From Verif Require Import Deriv VecMat Implicit Spatial Spatial_Proofs Contact_Model Contact_Spec Contact_Proofs Contact_Props
  MultiContact_Model MultiContact_Proofs FwdDyn_Model FwdDyn_Spec FwdDyn_Proofs FwdDyn_Contacts.
Import ListNotations.
Open Scope R_scope.

Definition near (s d t : R) : Prop := Rabs (t - s) < d.

(** Helpers. *)
Lemma inertia_diff arm (M : R -> mat) s i j : differentiable (fun t => M t i j) s -> differentiable (fun t => inertia arm (M t) i j) s.
Proof.
  intros [l H]. destruct arm as [ar|]; [|now exists l]. cbn [inertia]. exists (l + 0). apply dplus; [exact H|apply dconst].
Qed.
Lemma inertia_sum nv arm M a i : (i < nv)%nat -> rsum nv (fun j => inertia arm M i j * a j) =
  rsum nv (fun j => M i j * a j) + match arm with Some ar => ar i * a i | None => 0 end.
Proof.
  intro Hi. destruct arm as [ar|]; cbn [inertia]; [|ring].
  rewrite (rsum_ext nv _ (fun j => M i j * a j + (if Nat.eqb i j then ar i else 0) * a j)) by (intros; ring).
  rewrite rsum_plus. f_equal. rewrite (rsum_single nv i); [now rewrite Nat.eqb_refl|assumption|].
  intros j Hj ne. rewrite (proj2 (Nat.eqb_neq i j)) by lia. ring.
Qed.
Lemma two_sums nv (K : vec) (A : mat) (dx : vec) n :
  rsum nv (fun k => K k * rsum n (fun j => A k j * dx j)) = rsum n (fun j => rsum nv (fun k => K k * A k j) * dx j).
Proof.
  rewrite (rsum_ext nv _ (fun k => rsum n (fun j => K k * A k j * dx j))).
  - rewrite rsum_swap. apply rsum_ext. intros j _. rewrite Rmult_comm, <- rsum_scal. apply rsum_ext. intros; ring.
  - intros k _. rewrite <- rsum_scal. apply rsum_ext. intros; ring.
Qed.
Lemma split_cols nv (F : nat -> R) (A B : nat -> R) (dx : vec) : (forall j, (j < nv)%nat -> F j = A j) -> (forall j, (j < nv)%nat -> F (nv + j)%nat = B j) ->
  rsum (nv + nv) (fun j => F j * dx j) = rsum nv (fun j => A j * dx j) + rsum nv (fun j => B j * dx (nv + j)%nat).
Proof. intros HA HB. rewrite rsum_app. f_equal; apply rsum_ext; intros j Hj; [rewrite HA|rewrite HB]; auto. Qed.

(** ** C84: free forward dynamics *)
(** What aba and the inverse of the Cholesky decomposition promise. *)
Definition aba_solves (nv : nat) (M : mat) (nle : vec) (aba : vec -> vec) : Prop :=
  forall tau i, (i < nv)%nat -> rsum nv (fun j => M i j * aba tau j) + nle i = tau i.
Definition inverts (nv : nat) (minv : mat -> mat) (X : mat) : Prop :=
  left_inverse nv (minv X) X /\ left_inverse nv X (minv X).

(** The acceleration of calc satisfies the equations of motion with the armature on the diagonal. *)
Theorem C84_motion : forall nv aba minv arm M nle tau,
  aba_solves nv M nle aba -> inverts nv minv (add_armature arm M) ->
  forall i, (i < nv)%nat ->
  rsum nv (fun j => inertia arm M i j * free_xout nv aba minv arm M nle tau j) + nle i = tau i.
Proof.
  intros nv aba minv arm M nle tau HA [_ HI] i Hi. destruct arm as [ar|].
  - cbn [free_xout]. rewrite (rsum_ext nv _ (fun j => add_armature (Some ar) M i j * mulv nv (minv (add_armature (Some ar) M)) (fun k => tau k - nle k) j))
      by (intros; now rewrite add_armature_inertia).
    transitivity (rsum nv (fun k => mulm nv (add_armature (Some ar) M) (minv (add_armature (Some ar) M)) i k * (tau k - nle k)) + nle i).
    + f_equal. symmetry. exact (mulv_mulm nv nv (add_armature (Some ar) M) (minv (add_armature (Some ar) M)) (fun k => tau k - nle k) i).
    + rewrite (rsum_ext nv _ (fun k => idm i k * (tau k - nle k))) by (intros k Hk; now rewrite HI).
      rewrite rsum_id_l by assumption. ring.
  - cbn [free_xout]. apply (HA tau i Hi).
Qed.

Lemma combine nv nc nu (Ki Kr : vec) (rq rv da0 adx adu : mat) (dx du : vec) :
  rsum nv (fun k => Ki k * (rsum (nv + nv) (fun j => adx k j * dx j) + rsum nu (fun j => adu k j * du j)
                            - (rsum nv (fun j => rq k j * dx j) + rsum nv (fun j => rv k j * dx (nv + j)%nat))))
  + rsum nc (fun r => Kr r * (- rsum (nv + nv) (fun j => da0 r j * dx j)))
  = rsum (nv + nv) (fun j => ((if j <? nv then - rsum nv (fun k => Ki k * rq k j) else - rsum nv (fun k => Ki k * rv k (j - nv)%nat))
                              - rsum nc (fun r => Kr r * da0 r j) + rsum nv (fun k => Ki k * adx k j)) * dx j)
  + rsum nu (fun j => rsum nv (fun k => Ki k * adu k j) * du j).
Proof.
  rewrite (rsum_ext nv _ (fun k => Ki k * rsum (nv + nv) (fun j => adx k j * dx j) + (Ki k * rsum nu (fun j => adu k j * du j)
     - (Ki k * rsum nv (fun j => rq k j * dx j) + Ki k * rsum nv (fun j => rv k j * dx (nv + j)%nat))))) by (intros; ring).
  rewrite rsum_plus, rsum_minus, rsum_plus.
  rewrite (two_sums nv Ki adx dx), (two_sums nv Ki adu du), (two_sums nv Ki rq dx).
  rewrite (two_sums nv Ki rv (fun j => dx (nv + j)%nat) nv).
  rewrite (rsum_ext nc _ (fun r => (-1) * (Kr r * rsum (nv + nv) (fun j => da0 r j * dx j)))) by (intros; ring).
  rewrite rsum_scal, (two_sums nc Kr da0 dx).
  rewrite (rsum_ext (nv + nv) (fun j => (_ - _ + _) * dx j)
     (fun j => (if j <? nv then - rsum nv (fun k => Ki k * rq k j) else - rsum nv (fun k => Ki k * rv k (j - nv)%nat)) * dx j
        + ((-1) * (rsum nc (fun r => Kr r * da0 r j) * dx j) + rsum nv (fun k => Ki k * adx k j) * dx j))) by (intros; ring).
  rewrite rsum_plus, rsum_plus, rsum_scal.
  rewrite (split_cols nv (fun j => if j <? nv then - rsum nv (fun k => Ki k * rq k j) else - rsum nv (fun k => Ki k * rv k (j - nv)%nat))
     (fun j => (-1) * rsum nv (fun k => Ki k * rq k j)) (fun j => (-1) * rsum nv (fun k => Ki k * rv k j))).
  - rewrite (rsum_ext nv (fun j => -1 * _ * dx j) (fun j => (-1) * (rsum nv (fun k => Ki k * rq k j) * dx j))) by (intros; ring).
    rewrite (rsum_ext nv (fun j => -1 * _ * dx (nv + j)%nat) (fun j => (-1) * (rsum nv (fun k => Ki k * rv k j) * dx (nv + j)%nat))) by (intros; ring).
    rewrite !rsum_scal. ring.
  - intros j Hj. rewrite ltb_t by assumption. ring.
  - intros j Hj. rewrite ltb_f by lia. rewrite sub_add. ring.
Qed.

(** computeABADerivatives: derivatives of the acceleration, for every torque. *)
Definition aba_derivative (nv : nat) (aba : R -> vec -> vec) (s : R) (dx : vec) (aba_dx aba_dtau : mat) : Prop :=
  forall w w', (forall j, (j < nv)%nat -> is_derive (fun t => w t j) s (w' j)) ->
  forall i, (i < nv)%nat ->
    is_derive (fun t => aba t (w t) i) s (rsum (nv + nv) (fun j => aba_dx i j * dx j) + rsum nv (fun k => aba_dtau i k * w' k)).

(** Fx and Fu are the derivatives of xout along every curve of states and controls. *)
Theorem C84_derivative : forall nv nu aba minv arm rb tau s d dx du aba_dx aba_dtau rq rv adx adu,
  0 < d -> smooth nv rb s -> jac (nv + nv) nu nv tau s dx du adx adu ->
  (forall t, near s d t ->
     aba_solves nv (r_M rb t) (r_nle rb t) (aba t) /\ inverts nv minv (add_armature arm (r_M rb t))) ->
  let xout t := free_xout nv (aba t) minv arm (r_M rb t) (r_nle rb t) (tau t) in
  aba_derivative nv aba s dx aba_dx aba_dtau ->
  rnea_contract nv 0 rb s dx (xout s) (fun _ => z6) rq rv ->
  jac (nv + nv) nu nv xout s dx du
    (free_Fx nv minv arm (r_M rb s) aba_dx aba_dtau rq rv adx) (free_Fu nv minv arm (r_M rb s) aba_dtau adu).
Proof.
  intros nv nu aba minv arm rb tau s d dx du aba_dx aba_dtau rq rv adx adu d0 SM HT HC xout HD RC i Hi.
  destruct arm as [ar|].
  - assert (Z : near s d s) by (unfold near; rewrite Rminus_eq_0, Rabs_R0; exact d0).
    destruct SM as (SM & SN & _).
    eapply deq.
    + apply (core_a nv 0 0 (fun t => inertia (Some ar) (r_M rb t)) (fun _ _ _ => 0) (fun t i => tau t i - r_nle rb t i) (fun _ _ => 0) xout (fun _ _ => 0)
        (fun k => rsum (nv + nv) (fun j => adx k j * dx j) + rsum nu (fun j => adu k j * du j)
                  - (rsum nv (fun j => rq k j * dx j) + rsum nv (fun j => rv k j * dx (nv + j)%nat)))
        (fun r => - rsum (nv + nv) (fun j => 0 * dx j)) (minv (add_armature (Some ar) (r_M rb s))) s d); try assumption.
      * intros t Ht k Hk. destruct (HC t Ht) as [H1 H2].
        pose proof (C84_motion nv (aba t) minv (Some ar) (r_M rb t) (r_nle rb t) (tau t) H1 H2 k Hk) as E. unfold xout. cbn [rsum]. lra.
      * intros t Ht r Hr. lia.
      * intros k j Hk Hj. apply (inertia_diff (Some ar) (r_M rb)). now apply SM.
      * intros r k Hr. lia.
      * intros k Hk. specialize (RC k Hk). cbn [rsum] in RC.
        apply (dext (fun t => tau t k - (rsum nv (fun j => r_M rb t k j * xout s j) + r_nle rb t k - 0) - ar k * xout s k)).
        -- intro t. cbn [rsum]. rewrite inertia_sum by assumption. ring.
        -- eapply deq; [apply dminus; [apply dminus; [exact (HT k Hk)|exact RC]|apply dconst]|]. ring.
      * intros r Hr. lia.
      * intros k j Hk Hj. rewrite Nat.add_0_r in *. rewrite <- (proj1 (proj2 (HC s Z)) k j Hk Hj).
        apply rsum_ext. intros m Hm. f_equal. unfold kkt. rewrite (ltb_t m nv), (ltb_t j nv) by assumption. symmetry. apply add_armature_inertia.
    + cbn [rsum]. pose proof (combine nv 0 nu (fun k => minv (add_armature (Some ar) (r_M rb s)) i k) (fun _ => 0) rq rv (fun _ _ => 0) adx adu dx du) as E.
      cbn [rsum] in E. etransitivity; [exact E|]. cbn [free_Fx free_Fu]. f_equal.
      apply rsum_ext. intros j Hj. f_equal. unfold mulm, hcat. destruct (Nat.ltb_spec j nv) as [L|L].
      * rewrite (rsum_ext nv (fun k => minv (add_armature (Some ar) (r_M rb s)) i k * (adx k j - rq k j))
          (fun k => minv (add_armature (Some ar) (r_M rb s)) i k * adx k j - minv (add_armature (Some ar) (r_M rb s)) i k * rq k j)) by (intros; ring).
        rewrite rsum_minus. ring.
      * replace (nv + (j - nv))%nat with j by lia.
        rewrite (rsum_ext nv (fun k => minv (add_armature (Some ar) (r_M rb s)) i k * (adx k j - rv k (j - nv)%nat))
          (fun k => minv (add_armature (Some ar) (r_M rb s)) i k * adx k j - minv (add_armature (Some ar) (r_M rb s)) i k * rv k (j - nv)%nat)) by (intros; ring).
        rewrite rsum_minus. ring.
  - unfold xout. cbn [free_xout free_Fx free_Fu].
    eapply deq; [apply (HD tau (fun k => rsum (nv + nv) (fun j => adx k j * dx j) + rsum nu (fun j => adu k j * du j)) HT i Hi)|].
    rewrite (rsum_ext nv _ (fun k => aba_dtau i k * rsum (nv + nv) (fun j => adx k j * dx j) + aba_dtau i k * rsum nu (fun j => adu k j * du j))) by (intros; ring).
    rewrite rsum_plus, (two_sums nv (fun k => aba_dtau i k) adx dx), (two_sums nv (fun k => aba_dtau i k) adu du).
    unfold mulm. rewrite (rsum_ext (nv + nv) (fun j => (_ + _) * dx j) (fun j => aba_dx i j * dx j + rsum nv (fun k => aba_dtau i k * adx k j) * dx j)) by (intros; ring).
    rewrite rsum_plus. ring.
Qed.

(** A one-joint body with inertia 2 + cos q, armature 1 and torque u, along q = t, v = 1, u = 3 t. *)
Definition ex_rb : robot := Robot (fun t _ _ => 2 + cos t) (fun t _ => - sin t / 2) (fun _ _ _ => z6).
Definition ex_minv (X : mat) : mat := fun _ _ => / X 0%nat 0%nat.
Definition ex_aba (t : R) (tau : vec) : vec := fun _ => (tau 0%nat + sin t / 2) / (2 + cos t).
Lemma ex_pos t : 0 < 2 + cos t.
Proof. pose proof (COS_bound t). lra. Qed.
Example C84_ex t : aba_solves 1 (r_M ex_rb t) (r_nle ex_rb t) (ex_aba t) /\
  inverts 1 ex_minv (add_armature (Some (fun _ => 1)) (r_M ex_rb t)) /\
  free_xout 1 (ex_aba t) ex_minv (Some (fun _ => 1)) (r_M ex_rb t) (r_nle ex_rb t) (fun _ => 3 * t) 0%nat = (3 * t + sin t / 2) / (3 + cos t).
Proof.
  pose proof (ex_pos t) as P. split; [|split].
  - intros tau i Hi. replace i with 0%nat by lia. unfold ex_aba. cbn [rsum r_M r_nle ex_rb]. field. lra.
  - assert (X : forall i j, (i < 1)%nat -> (j < 1)%nat -> i = 0%nat /\ j = 0%nat) by (intros; lia).
    split; intros i j Hi Hj; destruct (X i j Hi Hj) as [-> ->]; unfold mulm, ex_minv, idm; cbn [rsum r_M ex_rb add_armature Nat.eqb]; field; lra.
  - unfold free_xout, mulv, ex_minv. cbn [rsum r_M r_nle ex_rb add_armature Nat.eqb]. field. lra.
Qed.
Example C84_ex_rnea s a : smooth 1 ex_rb s /\
  rnea_contract 1 0 ex_rb s (fun j => if Nat.eqb j 0 then 1 else 0) a (fun _ => z6) (fun _ _ => - sin s * a 0%nat - cos s / 2) (fun _ _ => 0).
Proof.
  assert (D : is_derive (fun t => 2 + cos t) s (- sin s)).
  { eapply deq; [apply dplus; [apply dconst|apply dcos]|]. ring. }
  assert (D2 : is_derive (fun t => - sin t / 2) s (- cos s / 2)).
  { apply (dext (fun t => (- / 2) * sin t)); [intro; field|]. eapply deq; [apply dscal; apply dsin|]. field. }
  split; [split; [|split]|].
  - intros i j _ _. exists (- sin s). exact D.
  - intros i _. exists (- cos s / 2). exact D2.
  - intros joint i _. exists z6. split; exact (d3const z3 s).
  - intros i Hi. cbn [rsum r_M r_nle ex_rb Nat.eqb Nat.add].
    apply (dext (fun t => a 0%nat * (2 + cos t) + - sin t / 2)); [intro; ring|].
    eapply deq; [apply dplus; [apply dscal; exact D|exact D2]|]. field.
Qed.

(** ** C85: contact forward dynamics *)
(** What pinocchio::forwardDynamics promises for the matrices it is given. *)
Definition solves_contact (nv nc : nat) (fd : mat -> mat -> vec -> vec -> R -> vec * vec) (M J : mat) (b g : vec) (mu : R) : Prop :=
  constrained_motion nv nc M (fun _ => 0) b J g mu (fst (fd M J b g mu)) (snd (fd M J b g mu)).

(** Acceleration and forces of calc satisfy the equations of motion under the contact constraint. *)
Theorem C85_motion : forall nv nc fd arm mu M nle tau J a0,
  solves_contact nv nc fd (add_armature arm M) J (fun i => tau i - nle i) a0 mu ->
  let (a, f) := contact_calc fd arm mu M nle tau J a0 in
  constrained_motion nv nc (inertia arm M) nle tau J a0 mu a f.
Proof.
  intros nv nc fd arm mu M nle tau J a0 [H1 H2]. unfold contact_calc.
  destruct (fd (add_armature arm M) J (fun i => tau i - nle i) a0 mu) as [a f]. cbn [fst snd] in *. split; [|exact H2].
  intros i Hi. specialize (H1 i Hi). cbv beta in H1.
  rewrite (rsum_ext nv (fun j => inertia arm M i j * a j) (fun j => add_armature arm M i j * a j)) by (intros; now rewrite add_armature_inertia).
  lra.
Qed.

(** Fx, Fu and the derivatives of the forces are exact along every curve of states and controls.
    Missing: two active contacts on the same joint (C83: their joint forces overwrite each other), and
    2d contacts outside the condition of [side] (C79). *)
Theorem C85_derivative_partial : forall nv nu nj fd arm mu rb tau cs bufJ bufa bufd s d dx du Kinv rq rv adx adu,
  let pcs := contacts nv s cs in
  let nc := nc_active (item_list pcs) in
  let J t := stack zv false (row_list pcs t) 0 (bufJ t) in
  let a0 t := stack 0 false (acc_list pcs t) 0 (bufa t) in
  let sol t := contact_calc fd arm mu (r_M rb t) (r_nle rb t) (tau t) (J t) (a0 t) in
  let a := fst (sol s) in let f := snd (sol s) in
  let pub := spread false pcs 0 f in
  0 < d -> smooth nv rb s -> jac (nv + nv) nu nv tau s dx du adx adu ->
  (forall t, near s d t -> solves_contact nv nc fd (add_armature arm (r_M rb t)) (J t) (fun i => tau t i - r_nle rb t i) (a0 t) mu) ->
  (forall m k0 ka, In (m, (k0, ka)) cs -> cm_active m = true -> good_contact nv (r_G rb) s dx a m k0 ka) ->
  NoDup (joints (item_list pcs)) -> (forall j, In j (joints (item_list pcs)) -> (j < nj)%nat) ->
  rnea_contract nv nj rb s dx a (snd (update false (force_list pcs s) 0 f (fun _ => z6))) rq rv ->
  left_inverse (nv + nc) Kinv (kkt nv (inertia arm (r_M rb s)) (J s) mu) ->
  let rq' := rnea_diff (dtau_of pub) rq in
  let da0 := stack zv false (da0_of pub) 0 bufd in
  jac (nv + nv) nu nv (fun t => fst (sol t)) s dx du (contact_Fx nv nc Kinv rq' rv da0 adx) (contact_Fu nv Kinv adu) /\
  jac (nv + nv) nu nc (fun t => snd (sol t)) s dx du (contact_df_dx nv nc Kinv rq' rv da0 adx) (contact_df_du nv Kinv adu).
Proof.
  intros nv nu nj fd arm mu rb tau cs bufJ bufa bufd s d dx du Kinv rq rv adx adu pcs nc J a0 sol a f pub d0 SM HT HC AG ND LJ RC HK rq' da0.
  assert (OK : all_ok nv rb s dx false pub 0 f a) by (apply spread_ok; apply contacts_good; assumption).
  assert (NC : nc_of false pub = nc) by apply (nc_of_eq false).
  assert (JE : forall t, Jst false pub bufJ t = J t) by (intro t; unfold Jst, J, pub; now rewrite row_list_eq).
  assert (AE : forall t, a0st false pub bufa t = a0 t) by (intro t; unfold a0st, a0, pub; now rewrite acc_list_eq).
  assert (EQ : forall t, near s d t -> constrained_motion nv nc (inertia arm (r_M rb t)) (r_nle rb t) (tau t) (J t) (a0 t) mu (fst (sol t)) (snd (sol t))).
  { intros t Ht. pose proof (C85_motion nv nc fd arm mu (r_M rb t) (r_nle rb t) (tau t) (J t) (a0 t) (HC t Ht)) as X.
    fold (sol t) in X. destruct (sol t); exact X. }
  set (A := fun k => rsum (nv + nv) (fun j => adx k j * dx j) + rsum nu (fun j => adu k j * du j)
                     - (rsum nv (fun j => rq' k j * dx j) + rsum nv (fun j => rv k j * dx (nv + j)%nat))).
  set (B := fun r => - rsum (nv + nv) (fun j => da0 r j * dx j)).
  assert (E1 : forall t, Rabs (t - s) < d -> forall i, (i < nv)%nat ->
    rsum nv (fun j => inertia arm (r_M rb t) i j * fst (sol t) j) - rsum nc (fun r => J t r i * snd (sol t) r) = tau t i - r_nle rb t i).
  { intros t Ht i Hi. destruct (EQ t Ht) as [X _]. specialize (X i Hi). lra. }
  assert (E2 : forall t, Rabs (t - s) < d -> forall r, (r < nc)%nat -> rsum nv (fun j => J t r j * fst (sol t) j) + a0 t r + mu * snd (sol t) r = 0).
  { intros t Ht. exact (proj2 (EQ t Ht)). }
  assert (DM : forall i j, (i < nv)%nat -> (j < nv)%nat -> differentiable (fun t => inertia arm (r_M rb t) i j) s).
  { intros i j Hi Hj. apply inertia_diff. now apply (proj1 SM). }
  assert (DJ : forall r i, (r < nc)%nat -> (i < nv)%nat -> differentiable (fun t => J t r i) s).
  { intros r i Hr Hi. rewrite <- NC in Hr. destruct (Jst_diff nv rb s dx false pub f a bufJ OK r i eq_refl Hr Hi) as [l Hl].
    exists l. eapply dext; [|exact Hl]. intro t. cbv beta. now rewrite JE. }
  assert (DA : forall i, (i < nv)%nat -> is_derive (fun t => (tau t i - r_nle rb t i) - rsum nv (fun j => inertia arm (r_M rb t) i j * fst (sol s) j)
      + rsum nc (fun r => J t r i * snd (sol s) r)) s (A i)).
  { intros i Hi.
    assert (RR : is_derive (fun t => rsum nv (fun j => r_M rb t i j * a j) + r_nle rb t i - rsum nc (fun r => J t r i * f r)) s
       (rsum nv (fun j => rq' i j * dx j) + rsum nv (fun j => rv i j * dx (nv + j)%nat))).
    { eapply dext; [|apply (res_rnea nv nj rb s dx false pub f a bufJ OK SM a (snd (update false (force_list pcs s) 0 f (fun _ => z6))) rq rv i Hi)].
      - intro t. cbv beta. rewrite JE, NC. reflexivity.
      - unfold pub. rewrite spread_items. exact ND.
      - unfold pub. rewrite spread_items. exact LJ.
      - unfold pub. now rewrite force_list_eq.
      - exact RC. }
    apply (dext (fun t => tau t i - (rsum nv (fun j => r_M rb t i j * a j) + r_nle rb t i - rsum nc (fun r => J t r i * f r))
        - match arm with Some ar => ar i * a i | None => 0 end)).
    - intro t. rewrite inertia_sum by assumption. unfold a, f. ring.
    - eapply deq; [apply dminus; [apply dminus; [exact (HT i Hi)|exact RR]|apply dconst]|]. unfold A. ring. }
  assert (DB : forall r, (r < nc)%nat -> is_derive (fun t => - a0 t r - rsum nv (fun j => J t r j * fst (sol s) j)) s (B r)).
  { intros r Hr. rewrite <- NC in Hr. eapply dext; [|exact (res_a0 nv rb s dx false pub f a bufJ bufa bufd OK r eq_refl Hr)].
    intro t. cbv beta. now rewrite JE, AE. }
  split; intros i Hi.
  - eapply deq; [exact (core_a nv nc mu (fun t => inertia arm (r_M rb t)) J (fun t i => tau t i - r_nle rb t i) a0 (fun t => fst (sol t)) (fun t => snd (sol t))
      A B Kinv s d d0 E1 E2 DM DJ DA DB HK i Hi)|].
    exact (combine nv nc nu (fun k => Kinv i k) (fun r => Kinv i (nv + r)%nat) rq' rv da0 adx adu dx du).
  - eapply deq; [exact (core_f nv nc mu (fun t => inertia arm (r_M rb t)) J (fun t i => tau t i - r_nle rb t i) a0 (fun t => fst (sol t)) (fun t => snd (sol t))
      A B Kinv s d d0 E1 E2 DM DJ DA DB HK i Hi)|].
    etransitivity; [exact (f_equal Ropp (combine nv nc nu (fun k => Kinv (nv + i)%nat k) (fun r => Kinv (nv + i)%nat (nv + r)%nat) rq' rv da0 adx adu dx du))|].
    unfold contact_df_dx, contact_df_du.
    rewrite Ropp_plus_distr. f_equal.
    + replace (- rsum (nv + nv) _) with ((-1) * rsum (nv + nv) (fun j => ((if j <? nv then - rsum nv (fun k => Kinv (nv + i)%nat k * rq' k j)
          else - rsum nv (fun k => Kinv (nv + i)%nat k * rv k (j - nv)%nat)) - rsum nc (fun r => Kinv (nv + i)%nat (nv + r)%nat * da0 r j)
          + rsum nv (fun k => Kinv (nv + i)%nat k * adx k j)) * dx j)) by ring.
      rewrite <- rsum_scal. apply rsum_ext. intros j Hj. destruct (j <? nv); ring.
    + replace (- rsum nu _) with ((-1) * rsum nu (fun j => rsum nv (fun k => Kinv (nv + i)%nat k * adu k j) * du j)) by ring.
      rewrite <- rsum_scal. apply rsum_ext. intros; ring.
Qed.

(** The turning body of C79, held along the world's y axis by a damped 1d contact, driven by the torque
    3 t: every hypothesis holds at every configuration and velocity. *)
Definition ex_axis : m3 := M3 (V3 1 0 0) (V3 0 0 (-1)) (V3 0 1 0).
Definition ex_model : cmodel := CModel (K1 0 ex_axis) LOCAL_WORLD_ALIGNED 0 0 turn_jMf 1 true.
Definition turn_a (v a t : R) : kin :=
  Kin (SE3 (rz t) (V3 (cos t) (sin t) 0)) (fun _ => V6 (V3 0 1 0) (V3 0 0 1)) (V6 (V3 0 v 0) (V3 0 0 v)) (V6 (V3 0 a 0) (V3 0 0 a))
    (fun _ => z6) (fun _ => z6) (fun _ => z6) (fun _ => V6 z3 (V3 0 0 1)).
Definition turn_rb : robot := Robot (fun _ _ _ => 1) (fun _ _ => 0) (fun _ _ _ => V6 z3 (V3 0 0 1)).
Definition ex_fd (M J : mat) (b g : vec) (mu : R) : vec * vec :=
  let a := (mu * b 0%nat - J 0%nat 0%nat * g 0%nat) / (mu * M 0%nat 0%nat + J 0%nat 0%nat * J 0%nat 0%nat) in
  (fun _ => a, fun _ => - (J 0%nat 0%nat * a + g 0%nat) / mu).
Definition ex_pcs (v s a : R) : list pcontact := contacts 1 s [(ex_model, (turn v, turn_a v a))].
Definition ex_J (v s a t : R) : mat := stack zv false (row_list (ex_pcs v s a) t) 0 (fun _ _ => 0).
Definition ex_a0 (v s a t : R) : vec := stack 0 false (acc_list (ex_pcs v s a) t) 0 (fun _ => 0).
Lemma one1 i : (i < 1)%nat -> i = 0%nat. Proof. lia. Qed.
Lemma ex_rot : rotation ex_axis.
Proof. split; [|split]; [apply m3_ext; unfold ex_axis; v3r|apply m3_ext; unfold ex_axis; v3r|unfold ex_axis; v3u; ring]. Qed.
Lemma ex_J_eq v s a t : ex_J v s a t 0%nat 0%nat = cos t.
Proof.
  unfold ex_J, ex_pcs, contacts, row_list. cbn [map fst snd curve ex_model cc_item cc_J item_of cm_active cm_kind stack c_active].
  change (c_nc (item_of ex_model)) with 1%nat. unfold setseg. cbn [Nat.leb Nat.ltb andb Nat.add Nat.sub]. unfold Jc1, oRf, turn. cbn [oMf rot fJf lin]. unfold ex_axis, rz. v3u. ring.
Qed.
Lemma ex_a0_eq v s a t : ex_a0 v s a t 0%nat = - v * v * sin t.
Proof.
  unfold ex_a0, ex_pcs, contacts, acc_list. cbn [map fst snd curve ex_model cc_item cc_a0 item_of cm_active cm_kind stack c_active].
  change (c_nc (item_of ex_model)) with 1%nat. unfold setseg. cbn [Nat.leb Nat.ltb andb Nat.add Nat.sub]. unfold a01, a0_local, when, classical, oRf, turn. cbn [oMf rot vel acc lin ang].
  destruct (Req_EM_T 0 0); [|contradiction]. unfold ex_axis, rz. v3u. ring.
Qed.
Example C85_ex v a s t :
  solves_contact 1 1 ex_fd (add_armature None (r_M turn_rb t)) (ex_J v s a t) (fun i => 3 * t - r_nle turn_rb t i) (ex_a0 v s a t) 1 /\
  good_contact 1 (r_G turn_rb) s (fun j => if Nat.eqb j 0 then 1 else 0) (fun _ => a) ex_model (turn v) (turn_a v a) /\
  rnea_contract 1 2 turn_rb s (fun j => if Nat.eqb j 0 then 1 else 0) (fun _ => a)
    (snd (update false (force_list (ex_pcs v s a) s) 0 (fun _ => 5) (fun _ => z6))) (fun _ _ => 0) (fun _ _ => 0) /\
  fst (contact_calc ex_fd None 1 (r_M turn_rb t) (r_nle turn_rb t) (fun _ => 3 * t) (ex_J v s a t) (ex_a0 v s a t)) 0%nat
    = (3 * t + v * v * sin t * cos t) / (1 + cos t * cos t).
Proof.
  assert (P : 0 < 1 + cos t * cos t) by nra.
  split; [|split; [|split]].
  - split; intros i Hi; rewrite (one1 i Hi); unfold ex_fd; cbn [fst snd rsum r_M r_nle turn_rb add_armature]; rewrite !ex_J_eq, ?ex_a0_eq; field; lra.
  - split; [|split; [|split]].
    + split; intro u; unfold turn, turn_a; cbn [oMf fJf vel acc]; try reflexivity. unfold comb6, comb3. cbn [rsum]. v6r.
    + intros u j. unfold turn, turn_rb, ex_model, turn_jMf. cbn [fJf cm_jMf r_G cm_joint]. v6r.
    + pose proof (C79_ex v s) as [H1 H2 H3 H4 H5 H6]. unfold turn in *. cbn [oMf fJf vel acc v_dq a_dq a_dv a_da] in *.
      assert (E : right 1 (fun j => if Nat.eqb j 0 then 1 else 0) 0%nat = 0) by reflexivity.
      constructor; unfold turn_a; cbn [oMf fJf vel acc v_dq a_dq a_dv a_da cm_jMf ex_model]; assumption ||
        (split; (split; [|split]); unfold comb6, comb3; v3u; cbn [rsum Nat.eqb right Nat.add]; (eapply deq; [apply dconst|unfold turn_jMf; v3u; cbn [rsum]; ring])).
    + exact ex_rot.
  - intros i Hi. rewrite (one1 i Hi). cbn [rsum r_M r_nle turn_rb r_G]. eapply deq; [apply dconst|]. ring.
  - unfold contact_calc, ex_fd. cbn [fst r_M r_nle turn_rb add_armature]. rewrite !ex_J_eq, ex_a0_eq. field. lra.
Qed.

(** ** C86: impulse dynamics *)
(** What pinocchio::impulseDynamics promises for the matrices it is given. *)
Definition solves_impact (nv nc : nat) (imp : mat -> mat -> vec -> R -> R -> vec * vec) (M J : mat) (v : vec) (e mu : R) : Prop :=
  impact nv nc M J e mu v (fst (imp M J v e mu)) (snd (imp M J v e mu)).

Theorem C86_impact : forall nv nc imp arm e mu M J v,
  solves_impact nv nc imp (add_armature arm M) J v e mu ->
  let (v', f) := impulse_calc imp arm e mu M J v in impact nv nc (inertia arm M) J e mu v v' f.
Proof.
  intros nv nc imp arm e mu M J v [H1 H2]. unfold impulse_calc.
  destruct (imp (add_armature arm M) J v e mu) as [v' f]. cbn [fst snd] in *. split; [|exact H2].
  intros i Hi. rewrite <- (H1 i Hi). apply rsum_ext. intros j Hj. now rewrite add_armature_inertia.
Qed.

(** The impulse leaves the configuration where it is: the first rows of Fx give its tangent back. *)
Theorem C86_configuration : forall nv dx i, (i < nv)%nat -> rsum (nv + nv) (fun j => impulse_Fx_top nv i j * dx j) = dx i.
Proof.
  intros nv dx i Hi. rewrite (rsum_single _ i); [|lia|].
  - unfold impulse_Fx_top. rewrite (proj2 (Nat.ltb_lt i nv) Hi), Nat.eqb_refl. ring.
  - intros j _ ne. unfold impulse_Fx_top. destruct (j <? nv); [|ring]. rewrite (proj2 (Nat.eqb_neq i j)) by congruence. ring.
Qed.

(** A robot along a curve of states (tangent [dx]), its impulses, and what calcDiff gets from Pinocchio:
    here [r_nle] is the gravity, since the inverse dynamics are evaluated at zero velocity. *)
Section Imp.
Variables (nv nj : nat) (imp : mat -> mat -> vec -> R -> R -> vec * vec) (arm : option vec) (e mu : R) (rb : robot) (v : R -> vec).
Variables (cs : list (cmodel * (R -> kin))) (bufJ : R -> nat -> vec) (s d : R) (dx : vec) (Kinv rq dg : mat).
Definition i_pcs := impulses nv s cs.
Definition i_nc := nc_active (item_list i_pcs).
Definition i_J (t : R) : mat := stack zv false (row_list i_pcs t) 0 (bufJ t).
Definition i_sol (t : R) : vec * vec := impulse_calc imp arm e mu (r_M rb t) (i_J t) (v t).
Definition i_pub := spread false i_pcs 0 (snd (i_sol s)).
Record impulse_setting : Prop := {
  is_d : 0 < d;
  is_smooth : smooth nv rb s;
  is_v : forall j, (j < nv)%nat -> is_derive (fun t => v t j) s (dx (nv + j)%nat);
  is_imp : forall t, near s d t -> solves_impact nv i_nc imp (add_armature arm (r_M rb t)) (i_J t) (v t) e mu;
  is_good : forall m k, In (m, k) cs -> cm_active m = true -> good_impulse nv (r_G rb) s dx (fst (i_sol s)) m k;
  is_nodup : NoDup (joints (item_list i_pcs));
  is_lt : forall j, In j (joints (item_list i_pcs)) -> (j < nj)%nat;
  is_rnea : rnea_contract nv nj rb s dx (fun j => fst (i_sol s) j - v s j)
              (snd (update false (force_list i_pcs s) 0 (snd (i_sol s)) (fun _ => z6))) rq (fun _ _ => 0);
  is_grav : forall i, (i < nv)%nat -> is_derive (fun t => r_nle rb t i) s (rsum nv (fun j => dg i j * dx j));
  is_inv : left_inverse (nv + i_nc) Kinv (kkt nv (inertia arm (r_M rb s)) (i_J s) mu) }.
(** The published derivatives are those of the velocity after the impact and of the impulses. *)
Definition impulse_exact (bufd : mat) : Prop :=
  let rq' := rnea_diff (dtau_of i_pub) rq in
  let dv0 := stack zv false (da0_of i_pub) 0 bufd in
  jac (nv + nv) 0 nv (fun t => fst (i_sol t)) s dx (fun _ => 0) (impulse_Fx nv i_nc Kinv rq' dg dv0 (r_M rb s)) (fun _ _ => 0) /\
  jac (nv + nv) 0 i_nc (fun t => snd (i_sol t)) s dx (fun _ => 0) (impulse_df_dx nv i_nc Kinv rq' dg dv0 (i_J s)) (fun _ _ => 0).
End Imp.

Lemma stack_zero (cs : list (citem * (nat -> R))) nc buf : (forall c x, In (c, x) cs -> forall k, x k = 0) -> (forall r, buf r = 0) ->
  forall r, stack 0 false cs nc buf r = 0.
Proof.
  revert nc buf. induction cs as [|[c x] cs IH]; intros nc buf H Hb r; [apply Hb|]. cbn [stack].
  assert (H' : forall c x, In (c, x) cs -> forall k, x k = 0) by (intros c' x' I; apply (H c' x'); now right).
  destruct (c_active c); [|now apply IH]. apply IH; [assumption|]. intro k. unfold setseg.
  destruct ((nc <=? k) && (k <? nc + c_nc c)); [apply (H c x); now left|apply Hb].
Qed.
Lemma pub_right nv s cs f c p1 p2 k j : (nv <= j)%nat -> forall n, In (c, (p1, p2)) (spread false (impulses nv s cs) n f) -> p1 k j = 0.
Proof.
  intro Hj. induction cs as [|[m kk] cs' IH]; intros n I; [destruct I|].
  unfold impulses in I. cbn [map fst snd spread impulse_of] in I. destruct I as [I|I]; [|exact (IH _ I)].
  injection I as _ <- _. unfold hcat. now rewrite ltb_f.
Qed.
Lemma dv0_right nv s cs f bufd r j : (r < nc_active (item_list (impulses nv s cs)))%nat -> (nv <= j)%nat ->
  stack zv false (da0_of (spread false (impulses nv s cs) 0 f)) 0 bufd r j = 0.
Proof.
  assert (X : forall l nc buf r, (forall c x, In (c, x) l -> forall k, x k j = 0) -> (nc <= r < nc + nc_active (map fst l))%nat ->
    stack zv false l nc buf r j = 0).
  { induction l as [|[c x] l IH]; intros nc buf q H L; [cbn in L; lia|]. cbn [stack map fst nc_active fold_right] in *.
    assert (H' : forall c x, In (c, x) l -> forall k, x k j = 0) by (intros c' x' I; apply (H c' x'); now right).
    fold (nc_active (map fst l)) in L. destruct (c_active c).
    - destruct (Nat.lt_ge_cases q (nc + c_nc c)) as [Q|Q].
      + rewrite stack_before by assumption. replace q with (nc + (q - nc))%nat by lia. rewrite setseg_in by lia. apply (H c x). now left.
      + apply IH; [assumption|lia].
    - apply IH; assumption. }
  intros Hr Hj. apply X.
  - intros c x I k. unfold da0_of in I. apply in_map_iff in I. destruct I as ([c' [p1 p2]] & E & I). injection E as <- <-. cbn [fst snd].
    exact (pub_right nv s cs f c' p1 p2 k j Hj _ I).
  - rewrite map_items_d, spread_items. lia.
Qed.
Lemma i_acc_zero nv s cs f t r : a0st false (spread false (impulses nv s cs) 0 f) (fun _ _ => 0) t r = 0.
Proof.
  unfold a0st. apply stack_zero; [|reflexivity]. intros c x I k. unfold a0_at in I. apply in_map_iff in I.
  destruct I as ([c' q] & E & I). injection E as _ <-. cbn [fst]. revert I. generalize 0%nat.
  induction cs as [|[m kk] cs' IH]; intros n I; [destruct I|]. unfold impulses in I. cbn [map fst snd spread impulse_of] in I.
  destruct I as [I|I]; [injection I as <- _; reflexivity|exact (IH _ I)].
Qed.

(** Exact without restitution and without armature.
    Missing: both, see below; two active impulses on the same joint (C83); 6d impulses of type WORLD
    (C82). *)
Theorem C86_derivative_partial : forall nv nj imp mu rb v cs bufJ s d dx Kinv rq dg bufd,
  impulse_setting nv nj imp None 0 mu rb v cs bufJ s d dx Kinv rq dg ->
  impulse_exact nv imp None 0 mu rb v cs bufJ s dx Kinv rq dg bufd.
Proof.
  intros nv nj imp mu rb v cs bufJ s d dx Kinv rq dg bufd [d0 SM DV HC AG ND LJ RC DG HK].
  unfold impulse_exact. set (pcs := i_pcs nv cs s) in *. set (nc := i_nc nv cs s) in *. set (J := i_J nv cs bufJ s) in *.
  set (sol := i_sol nv imp None 0 mu rb v cs bufJ s) in *. set (pub := i_pub nv imp None 0 mu rb v cs bufJ s) in *.
  cbv zeta. set (rq' := rnea_diff (dtau_of pub) rq). set (dv0 := stack zv false (da0_of pub) 0 bufd).
  set (v' := fst (sol s)) in *. set (f := snd (sol s)) in *.
  assert (OK : all_ok nv rb s dx false pub 0 f v') by (apply spread_ok; apply impulses_good; assumption).
  assert (NC : nc_of false pub = nc) by apply (nc_of_eq false).
  assert (JE : forall t, Jst false pub bufJ t = J t) by (intro t; unfold Jst, J, i_J, pub, i_pub; now rewrite row_list_eq).
  assert (EQ : forall t, near s d t -> impact nv nc (r_M rb t) (J t) 0 mu (v t) (fst (sol t)) (snd (sol t))).
  { intros t Ht. pose proof (C86_impact nv nc imp None 0 mu (r_M rb t) (J t) (v t) (HC t Ht)) as X.
    change (impulse_calc imp None 0 mu (r_M rb t) (J t) (v t)) with (sol t) in X. destruct (sol t); exact X. }
  set (ad := hcat nv dg (r_M rb s)).
  set (A := fun k => rsum (nv + nv) (fun j => ad k j * dx j) + rsum 0 (fun j => 0 * 0)
                     - (rsum nv (fun j => rq' k j * dx j) + rsum nv (fun j => 0 * dx (nv + j)%nat))).
  set (B := fun r => - rsum (nv + nv) (fun j => dv0 r j * dx j)).
  assert (E1 : forall t, Rabs (t - s) < d -> forall i, (i < nv)%nat ->
    rsum nv (fun j => r_M rb t i j * fst (sol t) j) - rsum nc (fun r => J t r i * snd (sol t) r) = rsum nv (fun j => r_M rb t i j * v t j)).
  { intros t Ht i Hi. destruct (EQ t Ht) as [X _]. specialize (X i Hi).
    rewrite (rsum_ext nv _ (fun j => r_M rb t i j * fst (sol t) j - r_M rb t i j * v t j)) in X by (intros; ring). rewrite rsum_minus in X. lra. }
  assert (E2 : forall t, Rabs (t - s) < d -> forall r, (r < nc)%nat -> rsum nv (fun j => J t r j * fst (sol t) j) + 0 + mu * snd (sol t) r = 0).
  { intros t Ht r Hr. pose proof (proj2 (EQ t Ht) r Hr). lra. }
  assert (DJ : forall r i, (r < nc)%nat -> (i < nv)%nat -> differentiable (fun t => J t r i) s).
  { intros r i Hr Hi. rewrite <- NC in Hr. destruct (Jst_diff nv rb s dx false pub f v' bufJ OK r i eq_refl Hr Hi) as [l Hl].
    exists l. eapply dext; [|exact Hl]. intro t. cbv beta. now rewrite JE. }
  assert (DA : forall i, (i < nv)%nat -> is_derive (fun t => rsum nv (fun j => r_M rb t i j * v t j) - rsum nv (fun j => r_M rb t i j * fst (sol s) j)
      + rsum nc (fun r => J t r i * snd (sol s) r)) s (A i)).
  { intros i Hi.
    assert (RR : is_derive (fun t => rsum nv (fun j => r_M rb t i j * (v' j - v s j)) + r_nle rb t i - rsum nc (fun r => J t r i * f r)) s
       (rsum nv (fun j => rq' i j * dx j) + rsum nv (fun j => 0 * dx (nv + j)%nat))).
    { eapply dext; [|apply (res_rnea nv nj rb s dx false pub f v' bufJ OK SM (fun j => v' j - v s j) (snd (update false (force_list pcs s) 0 f (fun _ => z6))) rq (fun _ _ => 0) i Hi)].
      - intro t. cbv beta. rewrite JE, NC. reflexivity.
      - unfold pub, i_pub. rewrite spread_items. exact ND.
      - unfold pub, i_pub. rewrite spread_items. exact LJ.
      - unfold pub, i_pub. now rewrite force_list_eq.
      - exact RC. }
    assert (MV : is_derive (fun t => rsum nv (fun j => r_M rb t i j * (v t j - v s j))) s (rsum nv (fun j => r_M rb s i j * dx (nv + j)%nat))).
    { apply drsum. intros j Hj. destruct (proj1 SM i j Hi Hj) as [l Hl].
      eapply deq; [apply (dmult (fun t => r_M rb t i j) (fun t => v t j - v s j)); [exact Hl|apply dminus; [exact (DV j Hj)|apply dconst]]|].
      cbv beta. ring. }
    apply (dext (fun t => rsum nv (fun j => r_M rb t i j * (v t j - v s j)) + (r_nle rb t i
        - (rsum nv (fun j => r_M rb t i j * (v' j - v s j)) + r_nle rb t i - rsum nc (fun r => J t r i * f r))))).
    - intro t. rewrite (rsum_ext nv (fun j => r_M rb t i j * (v t j - v s j)) (fun j => r_M rb t i j * v t j - r_M rb t i j * v s j)) by (intros; ring).
      rewrite (rsum_ext nv (fun j => r_M rb t i j * (v' j - v s j)) (fun j => r_M rb t i j * v' j - r_M rb t i j * v s j)) by (intros; ring).
      rewrite !rsum_minus. unfold v', f. ring.
    - eapply deq; [apply dplus; [exact MV|apply dminus; [exact (DG i Hi)|exact RR]]|]. unfold A, ad. rewrite hcat_sum. cbn [rsum]. ring. }
  assert (DB : forall r, (r < nc)%nat -> is_derive (fun t => - 0 - rsum nv (fun j => J t r j * fst (sol s) j)) s (B r)).
  { intros r Hr. rewrite <- NC in Hr. eapply dext; [|exact (res_a0 nv rb s dx false pub f v' bufJ (fun _ _ => 0) bufd OK r eq_refl Hr)].
    intro t. cbv beta. rewrite (i_acc_zero nv s cs f t r : a0st false pub (fun _ _ => 0) t r = 0). now rewrite JE. }
  assert (DZ : forall r j, (r < nc)%nat -> (nv <= j)%nat -> dv0 r j = 0) by (intros r j Hr Hj; now apply dv0_right).
  split; intros i Hi; cbn [rsum]; rewrite Rplus_0_r.
  - eapply deq; [exact (core_a nv nc mu (r_M rb) J (fun t i => rsum nv (fun j => r_M rb t i j * v t j)) (fun _ _ => 0) (fun t => fst (sol t)) (fun t => snd (sol t))
      A B Kinv s d d0 E1 E2 (proj1 SM) DJ DA DB HK i Hi)|].
    etransitivity; [exact (combine nv nc 0 (fun k => Kinv i k) (fun r => Kinv i (nv + r)%nat) rq' (fun _ _ => 0) dv0 ad (fun _ _ => 0) dx (fun _ => 0))|].
    cbn [rsum]. rewrite Rplus_0_r. apply rsum_ext. intros j Hj. f_equal. unfold impulse_Fx, ad, hcat. destruct (Nat.ltb_spec j nv) as [L|L].
    + rewrite (rsum_ext nv (fun k => Kinv i k * (rq' k j - dg k j)) (fun k => Kinv i k * rq' k j - Kinv i k * dg k j)) by (intros; ring).
      rewrite rsum_minus. ring.
    + rewrite (rsum_0 nv (fun k => Kinv i k * 0)) by (intros; ring). rewrite (rsum_0 nc) by (intros r Hr; rewrite DZ by assumption; ring). ring.
  - eapply deq; [exact (core_f nv nc mu (r_M rb) J (fun t i => rsum nv (fun j => r_M rb t i j * v t j)) (fun _ _ => 0) (fun t => fst (sol t)) (fun t => snd (sol t))
      A B Kinv s d d0 E1 E2 (proj1 SM) DJ DA DB HK i Hi)|].
    etransitivity; [exact (f_equal Ropp (combine nv nc 0 (fun k => Kinv (nv + i)%nat k) (fun r => Kinv (nv + i)%nat (nv + r)%nat) rq' (fun _ _ => 0) dv0 ad (fun _ _ => 0) dx (fun _ => 0)))|].
    cbn [rsum]. rewrite Rplus_0_r.
    match goal with |- - ?x = _ => replace (- x) with ((-1) * x) by ring end.
    rewrite <- rsum_scal. apply rsum_ext. intros j Hj. rewrite <- Rmult_assoc. f_equal. unfold impulse_df_dx, ad, hcat. destruct (Nat.ltb_spec j nv) as [L|L].
    + rewrite (rsum_ext nv (fun k => Kinv (nv + i)%nat k * (rq' k j - dg k j)) (fun k => Kinv (nv + i)%nat k * rq' k j - Kinv (nv + i)%nat k * dg k j)) by (intros; ring).
      rewrite rsum_minus. ring.
    + rewrite (rsum_0 nv (fun k => Kinv (nv + i)%nat k * 0)) by (intros; ring).
      rewrite (rsum_0 nc (fun r => Kinv (nv + i)%nat (nv + r)%nat * dv0 r j)) by (intros r Hr; rewrite DZ by assumption; ring).
      assert (X := HK (nv + i)%nat (j - nv)%nat). unfold mulm in X. rewrite rsum_app in X. unfold idm in X.
      specialize (X ltac:(lia) ltac:(lia)). rewrite (proj2 (Nat.eqb_neq (nv + i) (j - nv))) in X by lia.
      rewrite (rsum_ext nv (fun k => Kinv (nv + i)%nat k * kkt nv (inertia None (r_M rb s)) (J s) mu k (j - nv)%nat) (fun k => Kinv (nv + i)%nat k * r_M rb s k (j - nv)%nat)) in X
        by (intros k Hk; unfold kkt; rewrite !ltb_t by lia; reflexivity).
      rewrite (rsum_ext nc (fun r => Kinv (nv + i)%nat (nv + r)%nat * kkt nv (inertia None (r_M rb s)) (J s) mu (nv + r)%nat (j - nv)%nat)
        (fun r => Kinv (nv + i)%nat (nv + r)%nat * J s r (j - nv)%nat)) in X
        by (intros r Hr; unfold kkt; rewrite (ltb_f (nv + r)%nat) by lia; rewrite (ltb_t (j - nv)%nat) by lia; now rewrite sub_add).
      lra.
Qed.

(** A unit mass sliding along y that hits a damped 3d contact with restitution [e], at speed 1 + t. *)
Definition sl_v' (e : R) : R := (1 - e) / 2.
Definition sl_kin (e : R) (_ : R) : kin :=
  Kin (SE3 I3 z3) (fun _ => V6 (V3 0 1 0) z3) (V6 (V3 0 (sl_v' e) 0) z3) z6 (fun _ => z6) (fun _ => z6) (fun _ => z6) (fun _ => V6 (V3 0 1 0) z3).
Definition sl_model : cmodel := CModel (K3 z3) LOCAL 0 0 (SE3 I3 z3) 1 true.
Definition sl_rb : robot := Robot (fun _ _ _ => 1) (fun _ _ => 0) (fun _ _ _ => V6 (V3 0 1 0) z3).
Definition sl_imp (_ _ : mat) (v : vec) (e _ : R) : vec * vec :=
  (fun _ => (1 - e) / 2 * v 0%nat, fun r => if Nat.eqb r 1 then - ((1 + e) / 2 * v 0%nat) else 0).
Definition sl_vel (t : R) : vec := fun _ => 1 + t.
Definition sl_dx : vec := fun j => if Nat.eqb j 1 then 1 else 0.
Definition sl_Kinv : mat := fun i j =>
  match i, j with
  | O, O => / 2 | O, S (S O) => / 2 | S (S O), O => / 2 | S (S O), S (S O) => - / 2
  | S O, S O => -1 | S (S (S O)), S (S (S O)) => -1 | _, _ => 0
  end.
Definition sl_cs (e : R) := [(sl_model, sl_kin e)].
Lemma sl_J e t r j : (r < 3)%nat -> i_J 1 (sl_cs e) (fun _ _ _ => 0) 0 t r j = if Nat.eqb r 1 then 1 else 0.
Proof.
  intro Hr. unfold i_J, i_pcs, sl_cs, impulses, impulse_of, row_list. cbn [map fst snd cc_item cc_J stack].
  change (c_active (item_of sl_model)) with true. change (c_nc (item_of sl_model)) with 3%nat. cbv iota. unfold setseg.
  cbn [Nat.leb andb Nat.add]. rewrite ltb_t by assumption. cbn [curve sl_model cc_J]. unfold Jc3, sl_kin. cbn [fJf lin].
  rewrite Nat.sub_0_r. assert (X : r = 0%nat \/ r = 1%nat \/ r = 2%nat) by lia. destruct X as [-> |[-> | ->]]; reflexivity.
Qed.
Example C86_ex e : impulse_setting 1 2 sl_imp None e 1 sl_rb sl_vel (sl_cs e) (fun _ _ _ => 0) 0 1 sl_dx sl_Kinv (fun _ _ => 0) (fun _ _ => 0).
Proof.
  assert (NC : i_nc 1 (sl_cs e) 0 = 3%nat) by reflexivity.
  constructor.
  - lra.
  - split; [|split].
    + intros i j _ _. exists 0. exact (dconst 1 0).
    + intros i _. exists 0. exact (dconst 0 0).
    + intros joint i _. exists z6. split; [exact (d3const (V3 0 1 0) 0)|exact (d3const z3 0)].
  - intros j Hj. unfold sl_vel. eapply deq; [apply dplus; [apply dconst|apply did]|]. rewrite (one1 j Hj). unfold sl_dx. cbn [Nat.add Nat.eqb]. ring.
  - intros t _. split.
    + intros i Hi. rewrite NC. cbn [rsum sl_imp fst snd r_M sl_rb add_armature]. rewrite !sl_J by lia. cbn [Nat.eqb]. unfold sl_vel. field.
    + intros r Hr. rewrite NC in Hr. cbn [rsum sl_imp fst snd]. rewrite sl_J by assumption. unfold sl_vel.
      destruct (Nat.eqb r 1); field.
  - intros m k [E|[]] _. injection E as <- <-. unfold good_impulse. cbn [cm_kind sl_model cm_jMf]. split; [exact I|]. split; [|split].
    + intros t j. unfold sl_kin, sl_rb. cbn [fJf r_G cm_jMf sl_model]. v6r.
    + constructor; unfold sl_kin, sl_dx; cbn [oMf fJf vel acc v_dq a_dq a_dv a_da rot trans].
      * apply rot_I.
      * split; [|split]; (split; [|split]); unfold comb6, comb3; v3u; cbn [rsum Nat.eqb]; (eapply deq; [apply dconst|v3u; ring]).
      * split; [|split]; unfold comb6, comb3; v3u; cbn [rsum Nat.eqb]; (eapply deq; [apply dconst|v3u; ring]).
      * split; (split; [|split]); unfold comb6, comb3; v3u; cbn [rsum Nat.eqb]; (eapply deq; [apply dconst|ring]).
      * split; (split; [|split]); unfold comb6, comb3; v3u; cbn [rsum Nat.eqb]; (eapply deq; [apply dconst|ring]).
      * intros. v6r.
    + intro t. unfold sl_kin, i_sol, impulse_calc, sl_imp, sl_vel, sl_v'. cbn [vel fJf fst]. unfold comb6, comb3. cbn [rsum]. v6r.
  - cbn. constructor; [intros []|constructor].
  - intros j [<-|[]]. change (1 < 2)%nat. lia.
  - intros i Hi. cbn [sl_rb r_M r_nle r_G]. eapply deq; [apply dconst|]. cbn [rsum]. ring.
  - intros i Hi. cbn [sl_rb r_nle]. eapply deq; [apply dconst|]. cbn [rsum]. ring.
  - rewrite NC. intros i j Hi Hj. unfold mulm. cbn [rsum Nat.add]. unfold kkt, idm. cbn [inertia sl_rb r_M].
    assert (X : i = 0%nat \/ i = 1%nat \/ i = 2%nat \/ i = 3%nat) by lia. assert (Y : j = 0%nat \/ j = 1%nat \/ j = 2%nat \/ j = 3%nat) by lia.
    destruct X as [-> |[-> |[-> | ->]]], Y as [-> |[-> |[-> | ->]]]; cbn [Nat.ltb Nat.leb Nat.sub Nat.eqb]; rewrite ?sl_J by lia; cbn [Nat.eqb sl_Kinv]; field.
Qed.
(** With restitution the velocity after the impact is (1 - e) / 2 times that before; Fx says one half. *)
Theorem C86_restitution_refuted : exists nv nj imp e mu rb v cs bufJ s d dx Kinv rq dg,
  impulse_setting nv nj imp None e mu rb v cs bufJ s d dx Kinv rq dg /\
  forall bufd, ~ impulse_exact nv imp None e mu rb v cs bufJ s dx Kinv rq dg bufd.
Proof.
  exists 1%nat, 2%nat, sl_imp, 1, 1, sl_rb, sl_vel, (sl_cs 1), (fun _ _ _ => 0), 0, 1, sl_dx, sl_Kinv, (fun _ _ => 0), (fun _ _ => 0).
  split; [apply C86_ex|]. intros bufd [H _]. specialize (H 0%nat ltac:(lia)).
  assert (H' : is_derive (fun t => fst (i_sol 1 sl_imp None 1 1 sl_rb sl_vel (sl_cs 1) (fun _ _ _ => 0) 0 t) 0%nat) 0 0).
  { apply (dext (fun _ => 0)); [|apply dconst]. intro t. unfold i_sol, impulse_calc, sl_imp. cbn [fst]. field. }
  pose proof (duniq _ _ _ _ H H') as E. revert E. cbn [rsum Nat.add]. unfold impulse_Fx, sl_dx. cbn [Nat.ltb Nat.leb Nat.sub rsum Nat.eqb sl_Kinv sl_rb r_M]. lra.
Qed.
(** With an armature and nothing to hit the velocity does not change; Fx says M / (M + armature). *)
Theorem C86_armature_refuted : exists nv nj imp ar mu rb v cs bufJ s d dx Kinv rq dg,
  (forall i, (i < nv)%nat -> 0 < ar i) /\
  impulse_setting nv nj imp (Some ar) 0 mu rb v cs bufJ s d dx Kinv rq dg /\
  forall bufd, ~ impulse_exact nv imp (Some ar) 0 mu rb v cs bufJ s dx Kinv rq dg bufd.
Proof.
  exists 1%nat, 2%nat, (fun _ _ v _ _ => (v, fun _ => 0)), (fun _ => 1), 1, sl_rb, sl_vel, [], (fun _ _ _ => 0), 0, 1, sl_dx, (fun _ _ => / 2), (fun _ _ => 0), (fun _ _ => 0).
  split; [intros; lra|]. split.
  - constructor.
    + lra.
    + apply (is_smooth _ _ _ _ _ _ _ _ _ _ _ _ _ _ _ _ (C86_ex 0)).
    + apply (is_v _ _ _ _ _ _ _ _ _ _ _ _ _ _ _ _ (C86_ex 0)).
    + intros t _. split; [|intros r Hr; inversion Hr]. intros i Hi. cbn [rsum fst snd i_nc i_pcs impulses item_list map nc_active fold_right]. ring.
    + intros m k [].
    + constructor.
    + intros j [].
    + intros i Hi. cbn [sl_rb r_M r_nle r_G]. eapply deq; [apply dconst|]. cbn [rsum]. ring.
    + intros i Hi. cbn [sl_rb r_nle]. eapply deq; [apply dconst|]. cbn [rsum]. ring.
    + intros i j Hi Hj. cbn in Hi, Hj. rewrite (one1 i Hi), (one1 j Hj). unfold mulm.
      change (1 + i_nc 1 [] 0)%nat with 1%nat. cbn [rsum]. unfold kkt, idm. cbn [Nat.ltb Nat.leb inertia sl_rb r_M Nat.eqb]. field.
  - intros bufd [H _]. specialize (H 0%nat ltac:(lia)).
    assert (H' := is_v _ _ _ _ _ _ _ _ _ _ _ _ _ _ _ _ (C86_ex 0) 0%nat ltac:(lia)).
    pose proof (duniq _ _ _ _ H H') as E. revert E. cbn [rsum Nat.add]. unfold impulse_Fx, sl_dx. cbn [Nat.ltb Nat.leb Nat.sub rsum Nat.eqb sl_rb r_M]. lra.
Qed.

Print Assumptions C84_motion.
Print Assumptions C84_derivative.
Print Assumptions C85_motion.
Print Assumptions C85_derivative_partial.
Print Assumptions C86_impact.
Print Assumptions C86_configuration.
Print Assumptions C86_derivative_partial.
Print Assumptions C86_restitution_refuted.
Print Assumptions C86_armature_refuted.
