(** C96: costs of the state and of the control. *)
From Coquelicot Require Import Coquelicot.
From Coq Require Import Reals List Arith Bool Lia Lra.
From Verif Require Import Deriv VecMat State_Model StateMB_Model StateMB_Proofs StateMB_Props Residual_Model Residual_Props StateRes_Model StateRes_Proofs.
Import ListNotations.
Open Scope list_scope.
Open Scope R_scope.

(** ** Specification: the cost, its gradient and its Gauss-Newton Hessian from the Jacobian J of the
    residual.  [r] is the residual along a curve with tangent [w] that passes the point at time s. *)
Definition gauss_newton (N : nat) (a : amodel) (J : mat) (r : vec) (Lx : vec) (Lxx : mat) : Prop :=
  (forall i, (i < N)%nat -> Lx i = rsum N (fun k => J k i * a_grad a r k)) /\
  (forall i j, (i < N)%nat -> (j < N)%nat -> Lxx i j = rsum N (fun k => J k i * a_hess a r k * J k j)).
Lemma gn_gradient N a J (r : R -> vec) s w Lx Lxx : gauss_newton N a J (r s) Lx Lxx -> act_exact N a (r s) ->
  (forall k, (k < N)%nat -> is_derive (fun t => r t k) s (mulv N J w k)) ->
  is_derive (fun t => a_val a (r t)) s (rsum N (fun i => Lx i * w i)).
Proof.
intros [G _] Ex D. eapply deq; [apply (Ex r s (mulv N J w)); [reflexivity|exact D]|].
unfold mulv. rewrite (rsum_ext N (fun i => Lx i * w i) (fun i => rsum N (fun k => a_grad a (r s) k * (J k i * w i)))).
- rewrite rsum_swap. apply rsum_ext. intros k Hk. now rewrite rsum_scal.
- intros i Hi. rewrite (G i Hi). rewrite (Rmult_comm _ (w i)), <- rsum_scal. apply rsum_ext. intros; ring.
Qed.

(** The reference set last. *)
Fixpoint last_ref (st : astate) (xref : pt st) (ops : list (scop st)) : pt st :=
  match ops with [] => xref | SCRef y :: l => last_ref st y l | _ :: l => last_ref st xref l end.
Lemma last_ref_ok st a xref ops : fst (sc_run st a xref ops) = last_ref st xref ops.
Proof.
unfold sc_run. generalize sc_create. revert xref. induction ops as [|o l IH]; intros xref d; [reflexivity|].
destruct o; cbn [fold_left sc_step fst snd last_ref]; apply IH.
Qed.
Fixpoint last_uref (uref : vec) (ops : list ccop) : vec :=
  match ops with [] => uref | CCRef y :: l => last_uref y l | _ :: l => last_uref uref l end.
Lemma last_uref_ok a uref ops : fst (cc_run a uref ops) = last_uref uref ops.
Proof.
unfold cc_run. generalize sc_create. revert uref. induction ops as [|o l IH]; intros uref d; [reflexivity|].
destruct o; cbn [fold_left cc_step fst snd last_uref]; apply IH.
Qed.

(** Robots: after any calls on the cost and its data, calc and calcDiff (with or without a control) give
    the value, the exact gradient and the Gauss-Newton Hessian of the activation of diff(xref, x) for the
    reference set last; the blocks of the control are zero. *)
Theorem C96_multibody : forall sp moves near small, lie sp moves near small ->
  forall a xref0 ops (x : R -> mstate sp) s w,
  let st := of_multibody sp in
  let W := sc_run st a xref0 ops in
  let xref : mstate sp := last_ref st xref0 ops in
  let d := snd (fold_left (sc_step st a) [SCCalc st (x s); SCDiff st (x s)] W) in
  smoves moves x s w -> near (fst xref) (fst (x s)) ->
  s_cost d = a_val a (m_diff sp xref (x s)) /\
  (act_exact (ndx sp) a (m_diff sp xref (x s)) ->
   is_derive (fun t => a_val a (m_diff sp xref (x t))) s (rsum (ndx sp) (fun i => s_Lx d i * w i))) /\
  (exists J, gauss_newton (ndx sp) a J (m_diff sp xref (x s)) (s_Lx d) (s_Lxx d) /\
     forall (y : R -> mstate sp) s' v, smoves moves y s' v -> y s' = x s -> forall k, (k < ndx sp)%nat ->
       is_derive (fun t => m_diff sp xref (y t) k) s' (mulv (ndx sp) J v k)) /\
  (forall i j, s_Lu d i = 0 /\ s_Luu d i j = 0 /\ s_Lxu d i j = 0).
Proof.
intros sp moves near small Hl a xref0 ops x s w st W xref d M Nr.
pose proof (last_ref_ok st a xref0 ops) as EX. change (fst W = xref) in EX. clearbody xref. subst xref. set (xref := fst W) in *.
assert (B : forall p q, blocky sp (p_dD1 sp p q)) by (intros; apply (blocks_D sp moves near small Hl)).
pose proof (sok_run sp a B xref0 ops) as OK0. fold st in OK0. fold W in OK0.
pose proof (sok_step sp a B W (SCCalc st (x s)) OK0) as OK.
set (d1 := snd (sc_step st a W (SCCalc st (x s)))) in *.
assert (Ed : d = sc_diff st a xref (x s) d1) by reflexivity.
assert (Er : s_r d1 = m_diff sp xref (x s)) by reflexivity.
destruct (sok_diff sp a B xref (x s) d1 OK) as (_ & _ & Z1 & Z2 & Z3). fold st in Z1, Z2, Z3. rewrite <- Ed in Z1, Z2, Z3.
assert (G : gauss_newton (ndx sp) a (s_Rx d) (m_diff sp xref (x s)) (s_Lx d) (s_Lxx d)).
{ split.
  - intros i Hi. rewrite Ed, <- Er. exact (Lx_ok sp a B xref (x s) d1 OK i Hi).
  - intros i j Hi Hj. rewrite Ed, <- Er. exact (Lxx_ok sp a B xref (x s) d1 OK i j Hi Hj). }
assert (DJ : forall (y : R -> mstate sp) s' v, smoves moves y s' v -> y s' = x s -> forall k, (k < ndx sp)%nat ->
       is_derive (fun t => m_diff sp xref (y t) k) s' (mulv (ndx sp) (s_Rx d) v k)).
{ intros y s' v My Ey k Hk.
  destruct OK as (S1 & _). rewrite Ed.
  change (s_Rx (sc_diff st a xref (x s) d1)) with (write sp setto (p_dD1 sp (fst xref) (fst (x s))) 1 (s_Rx d1)).
  rewrite <- Ey in *.
  pose proof (diff_both sp moves near small Hl (fun _ => xref) y s' (fun _ => 0) v (s_Rx d1) (s_Rx d1)
    (still sp moves near small Hl xref s') My Nr S1 S1 k Hk) as D.
  eapply deq; [exact D|]. rewrite mulv_0. ring. }
split; [reflexivity|]. split; [|split].
- intro Ex. apply (gn_gradient (ndx sp) a (s_Rx d) (fun t => m_diff sp xref (x t)) s w (s_Lx d) (s_Lxx d)); [exact G|exact Ex|].
  intros k Hk. now apply DJ.
- exists (s_Rx d). now split.
- intros i j. now rewrite Z1, Z2, Z3.
Qed.

(** Vector states, likewise. *)
Theorem C96_vector : forall n a xref0 ops (x : R -> vec) s w,
  let st := of_vector n in
  let W := sc_run st a xref0 ops in
  let xref : vec := last_ref st xref0 ops in
  let d := snd (fold_left (sc_step st a) [SCCalc st (x s); SCDiff st (x s)] W) in
  let r : R -> vec := fun t i => x t i - xref i in
  (forall i, (i < n)%nat -> is_derive (fun t => x t i) s (w i)) ->
  s_cost d = a_val a (r s) /\
  (act_exact n a (r s) -> is_derive (fun t => a_val a (r t)) s (rsum n (fun i => s_Lx d i * w i))) /\
  gauss_newton n a idm (r s) (s_Lx d) (s_Lxx d) /\
  (forall i j, s_Lu d i = 0 /\ s_Luu d i j = 0 /\ s_Lxu d i j = 0).
Proof.
intros n a xref0 ops x s w st W xref d.
pose proof (last_ref_ok st a xref0 ops) as EX. change (fst W = xref) in EX. clearbody xref. subst xref. set (xref := fst W) in *.
intros r D.
pose proof (vok_run n a xref0 ops) as OK. fold st in OK. fold W in OK. destruct OK as (V1 & V2 & V3 & V4).
assert (G : gauss_newton n a idm (r s) (s_Lx d) (s_Lxx d)).
{ split.
  - intros i Hi. rewrite (rsum_ext n _ (fun k => a_grad a (r s) k * idm k i)) by (intros; ring). rewrite rsum_id_r by exact Hi. reflexivity.
  - intros i j Hi Hj. rewrite (rsum_ext n _ (fun k => (idm k j * a_hess a (r s) k) * idm k i)) by (intros; ring). rewrite rsum_id_r by exact Hi.
    cbn [d fold_left sc_step sc_diff st of_vector a_pin s_Lxx snd fst sc_calc s_r]. unfold idm. destruct (Nat.eqb_spec i j) as [->|NE].
    + rewrite Rmult_1_l. reflexivity.
    + rewrite Rmult_0_l. now apply V1. }
split; [reflexivity|]. split; [|split].
- intro Ex. apply (gn_gradient n a idm r s w (s_Lx d) (s_Lxx d)); [exact G|exact Ex|].
  intros k Hk. unfold mulv. rewrite rsum_id_l by exact Hk. eapply deq; [apply dminus; [apply D, Hk|apply dconst]|]. ring.
- exact G.
- intros i j. cbn [d fold_left sc_step sc_diff st of_vector a_pin s_Lu s_Luu s_Lxu snd fst sc_calc]. fold st. now rewrite V2, V3, V4.
Qed.

(** Controls: gradient and Hessian of the activation of u - uref; the blocks of the state are zero.
    Without a control the cost is zero and does not depend on the state. *)
Theorem C96_control : forall nu a uref0 ops (u : R -> vec) s w,
  let W := cc_run a uref0 ops in
  let uref := last_uref uref0 ops in
  let d := snd (fold_left (cc_step a) [CCCalc (u s); CCDiff (u s)] W) in
  let t := snd (fold_left (cc_step a) [CCCalcT; CCDiffT] W) in
  let r : R -> vec := fun t i => u t i - uref i in
  (forall i, (i < nu)%nat -> is_derive (fun t => u t i) s (w i)) ->
  s_cost d = a_val a (r s) /\
  (act_exact nu a (r s) -> is_derive (fun t => a_val a (r t)) s (rsum nu (fun i => s_Lu d i * w i))) /\
  gauss_newton nu a idm (r s) (s_Lu d) (s_Luu d) /\
  (forall i j, s_Lx d i = 0 /\ s_Lxx d i j = 0 /\ s_Lxu d i j = 0) /\
  s_cost t = 0 /\ (forall i j, s_Lx t i = 0 /\ s_Lxx t i j = 0).
Proof.
intros nu a uref0 ops u s w W uref d t.
pose proof (last_uref_ok a uref0 ops) as EX. change (fst W = uref) in EX. clearbody uref. subst uref. set (uref := fst W) in *.
intros r D.
assert (Z : s_Lx (snd W) = z1 /\ s_Lxx (snd W) = z2 /\ s_Lxu (snd W) = z2).
{ unfold W, cc_run. assert (H : s_Lx (snd (uref0, sc_create)) = z1 /\ s_Lxx (snd (uref0, sc_create)) = z2 /\ s_Lxu (snd (uref0, sc_create)) = z2) by now repeat split.
  revert H. generalize ((uref0, sc_create) : vec * scdata). induction ops as [|o l IH]; intros w0 H; [exact H|].
  cbn [fold_left]. apply IH. destruct H as (A & B & C). destruct o; cbn; now rewrite ?A, ?B, ?C. }
destruct Z as (ZA & ZB & ZC).
assert (G : gauss_newton nu a idm (r s) (s_Lu d) (s_Luu d)).
{ split.
  - intros i Hi. rewrite (rsum_ext nu _ (fun k => a_grad a (r s) k * idm k i)) by (intros; ring). rewrite rsum_id_r by exact Hi. reflexivity.
  - intros i j Hi Hj. rewrite (rsum_ext nu _ (fun k => (idm k j * a_hess a (r s) k) * idm k i)) by (intros; ring). rewrite rsum_id_r by exact Hi.
    cbn [d fold_left cc_step cc_diff s_Luu snd fst cc_calc s_r]. unfold idm. destruct (Nat.eqb i j).
    + rewrite Rmult_1_l. reflexivity.
    + now rewrite Rmult_0_l. }
split; [reflexivity|]. split; [|split; [exact G|split; [|split; [reflexivity|]]]].
- intro Ex. apply (gn_gradient nu a idm r s w (s_Lu d) (s_Luu d)); [exact G|exact Ex|].
  intros k Hk. unfold mulv. rewrite rsum_id_l by exact Hk. eapply deq; [apply dminus; [apply D, Hk|apply dconst]|]. ring.
- intros i j. cbn [d fold_left cc_step cc_diff s_Lx s_Lxx s_Lxu snd fst cc_calc]. now rewrite ZA, ZB, ZC.
- intros i j. split; reflexivity.
Qed.

(** ** Any other state *)
(** Half the square of the residual. *)
Definition sq (N : nat) : amodel := AModel (fun r => rsum N (fun k => r k * r k) / 2) (fun r => r) (fun _ _ => 1).
Lemma sq_exact N r : act_exact N (sq N) r.
Proof.
intros c s v E D. cbn [sq a_val a_grad]. eapply deq; [apply ddiv, (drsum N (fun k t => c t k * c t k) s (fun k => v k * c s k + c s k * v k))|].
- intros k Hk. eapply deq; [apply dmult; apply D, Hk|]. cbv beta. ring.
- rewrite (rsum_ext N (fun k => v k * c s k + c s k * v k) (fun k => 2 * (r k * v k))).
  + rewrite rsum_scal. field.
  + intros k Hk. rewrite E by exact Hk. ring.
Qed.
(** A state of another class (here a vector measured in other units) whose Jdiff is exact but not the
    identity: the published gradient is not the gradient, already for the quadratic activation. *)
Definition exact_state (st : astate) (moves : (R -> pt st) -> R -> vec -> Prop) : Prop :=
  forall xref (x : R -> pt st) s w J, moves x s w -> forall k, (k < a_ndx st)%nat ->
    is_derive (fun t => a_diff st xref (x t) k) s (mulv (a_ndx st) (a_Jdiff st xref (x s) J) w k).
Theorem C96_other_refuted : exists st moves a xref (x : R -> pt st) s w, exact_state st moves /\ moves x s w /\
  (forall r, act_exact (a_ndx st) a r) /\
  let d := snd (sc_run st a xref [SCCalc st (x s); SCDiff st (x s)]) in
  ~ is_derive (fun t => a_val a (a_diff st xref (x t))) s (rsum (a_ndx st) (fun i => s_Lx d i * w i)).
Proof.
exists (AState vec 2 (fun p q i => 2 * (q i - p i)) (fun _ _ _ i j => 2 * idm i j) None).
exists (fun x s w => forall i, (i < 2)%nat -> is_derive (fun t => x t i) s (w i)), (sq 2), (fun _ => 0), (fun t _ => t), 1, (fun _ => 1).
split; [|split; [|split]].
- intros xref x s w J M k Hk. cbn [a_ndx a_diff a_Jdiff] in *. eapply deq; [apply dscal, dminus; [apply M, Hk|apply dconst]|].
  unfold mulv. rewrite (rsum_ext 2 _ (fun j => 2 * (idm k j * w j))) by (intros; ring). rewrite rsum_scal, rsum_id_l by exact Hk. ring.
- intros i _. apply did.
- intro r. apply sq_exact.
- intros d D. cbn in D.
  assert (D' : is_derive (fun t : R => (0 + 2 * (t - 0) * (2 * (t - 0)) + 2 * (t - 0) * (2 * (t - 0))) / 2) 1 8).
  { eapply deq; [apply ddiv, dplus; [apply dplus; [apply dconst|apply dmult; apply dscal, dminus; [apply did|apply dconst|apply did|apply dconst]]|
      apply dmult; apply dscal, dminus; [apply did|apply dconst|apply did|apply dconst]]|]. cbv beta. lra. }
  pose proof (duniq _ _ _ _ D D') as X. lra.
Qed.

(** The hypotheses are met by the robot of C95 away from the reference. *)
Example C96_ex : let x : R -> mstate rob := fun t => (((t, 2), 1), fun _ => 0) in
  let w : vec := fun i => match i with 0%nat => 1 | _ => 0 end in
  let st := of_multibody rob in
  let xref : mstate rob := (((0, 0), 0), fun _ => 0) in
  let d := snd (sc_run st (sq 6) xref [SCCalc st (x 3); SCDiff st (x 3); SCRef st (((5, 5), 5), fun _ => 1); SCRef st xref; SCCalc st (x 1); SCDiff st (x 1)]) in
  is_derive (fun t => a_val (sq 6) (m_diff rob xref (x t))) 1 (rsum 6 (fun i => s_Lx d i * w i)).
Proof.
intros x w st xref d.
assert (M : smoves (sp := rob) rob_moves x 1 w).
{ split; [split; [|split]|].
  - exact (did 1).
  - eapply deq; [exact (dconst 2 1)|]. unfold w. ring.
  - exact (dconst 1 1).
  - intros i Hi. cbn in Hi. change (nv rob) with 3%nat. unfold w. cbn [Nat.add]. exact (dconst 0 1). }
destruct (C96_multibody rob rob_moves _ _ rob_lie (sq 6) xref
  [SCCalc st (x 3); SCDiff st (x 3); SCRef st (((5, 5), 5), fun _ => 1); SCRef st xref] x 1 w M I) as (_ & H & _).
exact (H (sq_exact 6 _)).
Qed.
Example C96_ex_control : rsum 2 (fun i => s_Lu (snd (cc_run (sq 2) (fun _ => 1) [CCCalc (fun _ => 4); CCDiff (fun _ => 4)])) i * 1) = 6.
Proof. cbn. ring. Qed.
Print Assumptions C96_multibody.
Print Assumptions C96_vector.
Print Assumptions C96_control.
Print Assumptions C96_other_refuted.
