(** C83: the stacked contact Jacobian and the joint forces. *)
From Coq Require Import Reals List Arith Bool Lia Lra.
From Verif Require Import Deriv VecMat Spatial Spatial_Proofs Contact_Model Contact_Proofs MultiContact_Model MultiContact_Proofs.
Import ListNotations.
Open Scope R_scope.

(** The offset of a contact: the dimensions of the contacts before it that have rows. *)
Fixpoint offset (all : bool) (cs : list citem) : nat :=
  match cs with [] => O | c :: cs' => if c_active c || all then (c_nc c + offset all cs')%nat else offset all cs' end.
Lemma offset_used all cs : offset all cs = nc_used all cs.
Proof.
  induction cs as [|c cs IH]; [destruct all; reflexivity|]. rewrite nc_used_cons. cbn [offset].
  destruct (c_active c || all); rewrite IH; reflexivity.
Qed.

(** Every active contact owns the rows at its offset; when all contacts are computed an inactive one
    owns zero rows; the rows after the last keep their content. *)
Theorem C83_rows : forall (T : Type) (zero : T) all cs (buf : nat -> T),
  (forall pre c r post k, cs = pre ++ (c, r) :: post -> (k < c_nc c)%nat ->
     (c_active c = true -> stack zero all cs 0 buf (offset all (map fst pre) + k)%nat = r k) /\
     (c_active c = false -> all = true -> stack zero all cs 0 buf (offset all (map fst pre) + k)%nat = zero)) /\
  (forall i, (offset all (map fst cs) <= i)%nat -> stack zero all cs 0 buf i = buf i).
Proof.
  intros T zero all cs buf. split.
  - intros pre c r post k -> Hk. rewrite offset_used. split.
    + intro A. assert (X := stack_row zero all pre c r post 0 buf k Hk). rewrite A in X. cbn [orb] in X. now apply X.
    + intros A ->. assert (X := stack_row zero true pre c r post 0 buf k Hk). rewrite A in X. cbn [orb] in X. now apply X.
  - intros i Hi. rewrite offset_used in Hi. now apply stack_after.
Qed.

(** updateForce is accepted exactly for forces of the size of the rows in use; every active contact is
    given the components of its rows, the others none. *)
Theorem C83_forces : forall all cs size force,
  (update_force all cs size force <> None <-> size = offset all (map fst cs)) /\
  (forall ds fext, update_force all cs size force = Some (ds, fext) ->
     length ds = length cs /\
     forall pre c fx post, cs = pre ++ (c, fx) :: post ->
       exists d, nth_error ds (length pre) = Some d /\
         (c_active c = true -> (forall k, fd_f d k = force (offset all (map fst pre) + k)%nat) /\ fd_fext d = fx (fd_f d)) /\
         (c_active c = false -> (forall k, fd_f d k = 0) /\ fd_fext d = z6)).
Proof.
  intros all cs size force. unfold update_force. rewrite <- offset_used. split.
  - destruct (Nat.eqb size (offset all (map fst cs))) eqn:E; [apply Nat.eqb_eq in E|apply Nat.eqb_neq in E]; split; try congruence; tauto.
  - intros ds fext H. destruct (Nat.eqb size _); [|discriminate]. assert (E : update all cs 0 force (fun _ => z6) = (ds, fext)) by congruence.
    split; [rewrite <- (update_datas all cs 0 force (fun _ => z6)), E; reflexivity|].
    intros pre c fx post ->. assert (X := update_data all pre c fx post 0 force (fun _ => z6)). rewrite E in X. cbn [fst] in X.
    eexists. split; [exact X|]. rewrite offset_used. destruct (c_active c); split; intro A; try discriminate; split; reflexivity.
Qed.

(** A contact whose joint force is dual to its Jacobian rows, for joint motions [G joint dof]. *)
Definition dual (nv : nat) (G : nat -> nat -> v6) (x : citem * ((nat -> vec) * (vec -> v6))) : Prop :=
  forall f i, (i < nv)%nat ->
    dot6 (snd (snd x) f) (G (c_joint (fst x)) i) = rsum (c_nc (fst x)) (fun k => f k * fst (snd x) k i).
Definition Jrows (cs : list (citem * ((nat -> vec) * (vec -> v6)))) := map (fun x => (fst x, fst (snd x))) cs.
Definition Fmaps (cs : list (citem * ((nat -> vec) * (vec -> v6)))) := map (fun x => (fst x, snd (snd x))) cs.
Definition zerov : vec := fun _ => 0.

Lemma dual_sum nv G all cs nc force i : Forall (dual nv G) cs -> (i < nv)%nat ->
  sum_contacts all (fun j => G j i) (Fmaps cs) nc force = by_contact all (fun r row => force r * row i) (Jrows cs) nc.
Proof.
  intros H Hi. revert nc. induction H as [|[c [r fx]] cs D _ IH]; intro nc; [reflexivity|].
  cbn [Fmaps Jrows map fst snd sum_contacts by_contact]. f_equal; [|apply IH].
  destruct (c_active c); [|reflexivity]. exact (D (fun i => force (nc + i)%nat) i Hi).
Qed.

(** The joint forces produce the generalised force Jc^T f, when no two active contacts share a joint.
    Missing: shared joints, see below. *)
Theorem C83_dual_partial : forall nv nj G all cs force buf ds fext i,
  Forall (dual nv G) cs -> NoDup (joints (map fst cs)) -> (forall j, In j (joints (map fst cs)) -> (j < nj)%nat) ->
  update_force all (Fmaps cs) (offset all (map fst cs)) force = Some (ds, fext) -> (i < nv)%nat ->
  rsum nj (fun j => dot6 (fext j) (G j i)) =
  rsum (offset all (map fst cs)) (fun r => force r * stack zerov all (Jrows cs) 0 buf r i).
Proof.
  intros nv nj G all cs force buf ds fext i D N L H Hi. unfold update_force in H. destruct (Nat.eqb _ _); [|discriminate].
  assert (E : update all (Fmaps cs) 0 force (fun _ => z6) = (ds, fext)) by congruence.
  assert (M1 : map fst (Fmaps cs) = map fst cs) by (unfold Fmaps; rewrite map_map; reflexivity).
  assert (M2 : map fst (Jrows cs) = map fst cs) by (unfold Jrows; rewrite map_map; reflexivity).
  assert (X := update_sum all nj (fun j => G j i) (Fmaps cs) 0 force (fun _ => z6)). rewrite M1, E in X. cbn [snd] in X.
  rewrite X by auto. rewrite rsum_0 by (intros; apply dot6_z). rewrite Rplus_0_l, (dual_sum nv G) by assumption.
  symmetry. etransitivity; [|apply (stack_sum zerov all (fun r row => force r * row i) (Jrows cs) 0 buf); intros; unfold zerov; ring].
  rewrite M2, offset_used. reflexivity.
Qed.

(** Every kind of contact is dual to its Jacobian (C80): here the 3d contact. *)
Lemma dual3 nv G active joint type jMf k :
  (forall j, fJf k j = actinv_motion jMf (G joint j)) ->
  dual nv G (CItem 3 active joint (match type with LOCAL => true | _ => false end),
             ((fun r j => match r with O => c1 | 1%nat => c2 | _ => c3 end (Jc3 type k j)),
              (fun f => fext3 type jMf k (V3 (f 0%nat) (f 1%nat) (f 2%nat))))).
Proof.
  intros H f i Hi. cbn [fst snd c_joint c_nc]. rewrite (torque3 jMf k _ H). cbn [rsum]. v3u. ring.
Qed.
Definition ex_kin : kin := Kin (SE3 I3 (V3 0 0 1)) (fun _ => V6 (V3 1 0 0) z3) z6 z6 (fun _ => z6) (fun _ => z6) (fun _ => z6) (fun _ => z6).
(** Two active feet on two joints and an inactive one. *)
Definition feet (j1 j2 : nat) : list (citem * ((nat -> vec) * (vec -> v6))) :=
  let foot a j := (CItem 3 a j false,
     ((fun r i => match r with O => c1 | 1%nat => c2 | _ => c3 end (Jc3 WORLD ex_kin i)),
      (fun f => fext3 WORLD (SE3 I3 z3) ex_kin (V3 (f 0%nat) (f 1%nat) (f 2%nat))))) in
  [foot true j1; foot false 7%nat; foot true j2].
Lemma feet_dual j1 j2 : Forall (dual 1 (fun _ _ => V6 (V3 1 0 0) z3)) (feet j1 j2).
Proof.
  assert (H : forall j, fJf ex_kin j = actinv_motion (SE3 I3 z3) (V6 (V3 1 0 0) z3)) by (intro; unfold ex_kin; cbn [fJf]; v6r).
  repeat constructor; apply (dual3 1 (fun _ _ => V6 (V3 1 0 0) z3) _ _ WORLD (SE3 I3 z3) ex_kin H).
Qed.
Example C83_ex : Forall (dual 1 (fun _ _ => V6 (V3 1 0 0) z3)) (feet 2 5) /\ NoDup (joints (map fst (feet 2 5))) /\
  offset false (map fst (feet 2 5)) = 6%nat /\ offset true (map fst (feet 2 5)) = 9%nat /\
  update_force false (Fmaps (feet 2 5)) 6 (fun r => INR r) <> None.
Proof.
  split; [apply feet_dual|]. split; [|split; [reflexivity|split; [reflexivity|discriminate]]].
  unfold joints; cbn. repeat constructor; cbn; intuition discriminate.
Qed.

(** Two feet on the same joint: only the last force acts. *)
Theorem C83_dual_refuted : exists nv nj G all cs force buf ds fext i,
  Forall (dual nv G) cs /\ (forall j, In j (joints (map fst cs)) -> (j < nj)%nat) /\
  update_force all (Fmaps cs) (offset all (map fst cs)) force = Some (ds, fext) /\ (i < nv)%nat /\
  rsum nj (fun j => dot6 (fext j) (G j i)) <>
  rsum (offset all (map fst cs)) (fun r => force r * stack zerov all (Jrows cs) 0 buf r i).
Proof.
  exists 1%nat, 1%nat, (fun _ _ => V6 (V3 1 0 0) z3), false, (feet 0 0), (fun r => if Nat.eqb r 0 then 1 else 0), (fun _ => zerov).
  eexists. eexists. exists 0%nat. split; [apply feet_dual|]. split; [unfold joints; cbn; lia|].
  split; [reflexivity|]. split; [lia|].
  match goal with |- ?L <> ?R => assert (EL : L = 0); [|assert (ER : R = 1)] end.
  - cbn [rsum fst snd Nat.eqb c_joint c_nc Nat.add]. unfold fext3, f3_local, oRf, ex_kin. cbn [Nat.eqb oMf rot]. v3u. ring.
  - cbn [offset map fst feet c_active orb c_nc Nat.add rsum Jrows snd stack]. cbn [Nat.eqb].
    unfold setseg. cbn [Nat.leb Nat.ltb andb Nat.add Nat.sub]. unfold Jc3, oRf, ex_kin, zerov. cbn [oMf rot fJf]. v3u. ring.
  - rewrite EL, ER. lra.
Qed.

Print Assumptions C83_rows.
Print Assumptions C83_forces.
Print Assumptions C83_dual_partial.
Print Assumptions C83_dual_refuted.
