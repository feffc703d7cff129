(** Stacking lemmas. *)
From Coq Require Import Reals List Arith Bool Lia Lra FunctionalExtensionality.
From Verif Require Import Deriv VecMat Spatial Spatial_Proofs MultiContact_Model.
Import ListNotations.
Open Scope R_scope.

Lemma setseg_in {T} o n (r buf : nat -> T) i : (i < n)%nat -> setseg o n r buf (o + i)%nat = r i.
Proof.
  intro H. unfold setseg. replace (o <=? o + i) with true by (symmetry; apply Nat.leb_le; lia).
  replace (o + i <? o + n) with true by (symmetry; apply Nat.ltb_lt; lia). cbn [andb]. f_equal. lia.
Qed.
Lemma setseg_out {T} o n (r buf : nat -> T) i : (i < o \/ o + n <= i)%nat -> setseg o n r buf i = buf i.
Proof.
  intro H. unfold setseg. destruct (o <=? i) eqn:A; [|reflexivity]. destruct (i <? o + n) eqn:B; [|reflexivity].
  apply Nat.leb_le in A. apply Nat.ltb_lt in B. lia.
Qed.
Lemma nc_used_cons all c cs : nc_used all (c :: cs) = ((if c_active c || all then c_nc c else 0) + nc_used all cs)%nat.
Proof. unfold nc_used, nc_total, nc_active. cbn [fold_right]. destruct all, (c_active c); reflexivity. Qed.

Section Stack.
Context {T : Type} (zero : T) (all : bool).
(** One step of the loop. *)
Lemma stack_cons c r cs nc (buf : nat -> T) : stack zero all ((c, r) :: cs) nc buf =
  if c_active c || all
  then stack zero all cs (nc + c_nc c) (setseg nc (c_nc c) (if c_active c then r else fun _ => zero) buf)
  else stack zero all cs nc buf.
Proof. cbn [stack]. destruct (c_active c), all; reflexivity. Qed.
Lemma stack_before cs nc (buf : nat -> T) i : (i < nc)%nat -> stack zero all cs nc buf i = buf i.
Proof.
  revert nc buf. induction cs as [|[c r] cs IH]; intros nc buf H; [reflexivity|]. rewrite stack_cons.
  destruct (c_active c || all); [|now apply IH]. rewrite IH by lia. apply setseg_out. lia.
Qed.
Lemma stack_after cs nc (buf : nat -> T) i : (nc + nc_used all (map fst cs) <= i)%nat -> stack zero all cs nc buf i = buf i.
Proof.
  revert nc buf. induction cs as [|[c r] cs IH]; intros nc buf H; [reflexivity|]. rewrite stack_cons.
  cbn [map fst] in H. rewrite nc_used_cons in H.
  destruct (c_active c || all); [|apply IH; lia]. rewrite IH by lia. apply setseg_out. lia.
Qed.
Lemma stack_row pre c r post nc (buf : nat -> T) k : (k < c_nc c)%nat -> c_active c || all = true ->
  stack zero all (pre ++ (c, r) :: post) nc buf (nc + nc_used all (map fst pre) + k)%nat = if c_active c then r k else zero.
Proof.
  intros Hk Ha. revert nc buf. induction pre as [|[c' r'] pre IH]; intros nc buf.
  - cbn [app map]. rewrite stack_cons, Ha. rewrite stack_before by (unfold nc_used, nc_total, nc_active; cbn; destruct all; lia).
    replace (nc_used all []) with 0%nat by (destruct all; reflexivity). rewrite Nat.add_0_r, setseg_in by assumption.
    now destruct (c_active c).
  - cbn [app]. rewrite stack_cons. cbn [map fst]. rewrite nc_used_cons. destruct (c_active c' || all).
    + replace (nc + (c_nc c' + nc_used all (map fst pre)) + k)%nat with (nc + c_nc c' + nc_used all (map fst pre) + k)%nat by lia.
      apply IH.
    + apply IH.
Qed.
(** Nothing but the previous content of the rows beyond depends on the buffer. *)
Lemma stack_buf cs nc (buf buf' : nat -> T) i : (nc <= i < nc + nc_used all (map fst cs))%nat ->
  stack zero all cs nc buf i = stack zero all cs nc buf' i.
Proof.
  revert nc buf buf'. induction cs as [|[c r] cs IH]; intros nc buf buf' H.
  - cbn [map] in H. assert (nc_used all [] = 0)%nat by (destruct all; reflexivity). lia.
  - rewrite !stack_cons. cbn [map fst] in H. rewrite nc_used_cons in H. destruct (c_active c || all); [|apply IH; lia].
    destruct (Nat.lt_ge_cases i (nc + c_nc c)) as [L|L]; [|apply IH; lia].
    rewrite !stack_before by assumption. replace i with (nc + (i - nc))%nat by lia. rewrite !setseg_in by lia. reflexivity.
Qed.
End Stack.

(** The sum of f over the rows, contact by contact. *)
Fixpoint by_contact {T} (all : bool) (g : nat -> T -> R) (cs : list (citem * (nat -> T))) (nc : nat) : R :=
  match cs with
  | [] => 0
  | (c, r) :: cs' =>
      (if c_active c then rsum (c_nc c) (fun k => g (nc + k)%nat (r k)) else 0) +
      by_contact all g cs' (if c_active c || all then nc + c_nc c else nc)%nat
  end.
Lemma stack_sum {T} (zero : T) all (g : nat -> T -> R) cs nc (buf : nat -> T) : (forall i, g i zero = 0) ->
  rsum (nc_used all (map fst cs)) (fun i => g (nc + i)%nat (stack zero all cs nc buf (nc + i)%nat)) = by_contact all g cs nc.
Proof.
  intro Z. revert nc buf. induction cs as [|[c r] cs IH]; intros nc buf.
  - cbn [map]. replace (nc_used all []) with 0%nat by (destruct all; reflexivity). reflexivity.
  - cbn [map fst by_contact]. rewrite nc_used_cons, stack_cons. destruct (c_active c) eqn:A; cbn [orb].
    + rewrite rsum_app. f_equal.
      * apply rsum_ext. intros i Hi. f_equal. rewrite stack_before by lia. now apply setseg_in.
      * rewrite <- (IH (nc + c_nc c)%nat (setseg nc (c_nc c) r buf)). apply rsum_ext. intros i Hi.
        now replace (nc + (c_nc c + i))%nat with (nc + c_nc c + i)%nat by lia.
    + rewrite Rplus_0_l. destruct all; [|apply IH]. rewrite rsum_app, rsum_0.
      * rewrite Rplus_0_l, <- (IH (nc + c_nc c)%nat (setseg nc (c_nc c) (fun _ => zero) buf)). apply rsum_ext. intros i Hi.
        now replace (nc + (c_nc c + i))%nat with (nc + c_nc c + i)%nat by lia.
      * intros i Hi. cbv beta. rewrite stack_before by lia. rewrite setseg_in by assumption. apply Z.
Qed.

(** Joint forces. *)
Section Force.
Variable all : bool.
Definition joints (cs : list citem) : list nat := map c_joint (filter c_active cs).
Lemma update_other cs nc force fext j : ~ In j (joints (map fst cs)) -> snd (update all cs nc force fext) j = fext j.
Proof.
  revert nc fext. induction cs as [|[c fx] cs IH]; intros nc fext H; [reflexivity|].
  cbn [update map fst] in *. unfold joints in *. cbn [filter] in H. destruct (c_active c).
  - cbn [map In] in H. destruct (update all cs (nc + c_nc c) force _) as [ds e] eqn:E. cbn [snd].
    replace e with (snd (ds, e)) by reflexivity. rewrite <- E, IH by tauto.
    destruct (Nat.eqb j (c_joint c)) eqn:J; [|reflexivity]. apply Nat.eqb_eq in J. subst. tauto.
  - destruct (update all cs (if all then nc + c_nc c else nc)%nat force fext) as [ds e] eqn:E. cbn [snd].
    replace e with (snd (ds, e)) by reflexivity. rewrite <- E. now apply IH.
Qed.
Lemma dot6_z w : dot6 z6 w = 0.
Proof. v3u. ring. Qed.

(** The joint forces, paired with vectors [G joint], are the sum over the contacts. *)
Fixpoint sum_contacts (G : nat -> v6) (cs : list (citem * (vec -> v6))) (nc : nat) (force : vec) : R :=
  match cs with
  | [] => 0
  | (c, fx) :: cs' =>
      (if c_active c then dot6 (fx (fun i => force (nc + i)%nat)) (G (c_joint c)) else 0) +
      sum_contacts G cs' (if c_active c || all then nc + c_nc c else nc)%nat force
  end.
Lemma update_sum nj G cs nc force fext : NoDup (joints (map fst cs)) ->
  (forall j, In j (joints (map fst cs)) -> (j < nj)%nat) ->
  (forall j, In j (joints (map fst cs)) -> fext j = z6) ->
  rsum nj (fun j => dot6 (snd (update all cs nc force fext) j) (G j)) =
  rsum nj (fun j => dot6 (fext j) (G j)) + sum_contacts G cs nc force.
Proof.
  revert nc fext. induction cs as [|[c fx] cs IH]; intros nc fext Hd Hj Hz; [cbn [update snd sum_contacts]; ring|].
  cbn [update map fst sum_contacts] in *. unfold joints in *. cbn [filter] in *. destruct (c_active c); cbn [orb].
  - cbn [map In] in *. inversion Hd as [|? ? N D]; subst.
    destruct (update all cs (nc + c_nc c) force _) as [ds e] eqn:E. cbn [snd].
    replace e with (snd (ds, e)) by reflexivity. rewrite <- E. rewrite IH; [|assumption|auto|].
    + rewrite <- Rplus_assoc. f_equal.
      rewrite (rsum_split nj (c_joint c) _ (fun j => dot6 (fext j) (G j))); [|auto|].
      * rewrite Nat.eqb_refl, (Hz (c_joint c)) by auto. rewrite dot6_z. ring.
      * intros j Hj' ne. now rewrite (proj2 (Nat.eqb_neq j (c_joint c)) ne).
    + intros j Hin. destruct (Nat.eqb j (c_joint c)) eqn:J; [apply Nat.eqb_eq in J; subst; contradiction|auto].
  - rewrite Rplus_0_l. destruct (update all cs (if all then nc + c_nc c else nc)%nat force fext) as [ds e] eqn:E. cbn [snd].
    replace e with (snd (ds, e)) by reflexivity. rewrite <- E. now rewrite IH.
Qed.
Lemma update_datas cs nc force fext : length (fst (update all cs nc force fext)) = length cs.
Proof.
  revert nc fext. induction cs as [|[c fx] cs IH]; intros nc fext; [reflexivity|]. cbn [update].
  destruct (c_active c).
  - specialize (IH (nc + c_nc c)%nat (fun j => if Nat.eqb j (c_joint c) then fx (fun i => force (nc + i)%nat) else fext j)).
    destruct (update _ _ _ _ _) as [ds e]. cbn [fst length] in *. now f_equal.
  - specialize (IH (if all then nc + c_nc c else nc)%nat fext). destruct (update _ _ _ _ _) as [ds e]. cbn [fst length] in *. now f_equal.
Qed.
Lemma update_data pre c fx post nc force fext :
  nth_error (fst (update all (pre ++ (c, fx) :: post) nc force fext)) (length pre) =
  Some (if c_active c then let f := fun i => force (nc + nc_used all (map fst pre) + i)%nat in FData f (fx f) else zero_force).
Proof.
  revert nc fext. induction pre as [|[c' fx'] pre IH]; intros nc fext.
  - cbn [app update length map]. replace (nc_used all []) with 0%nat by (destruct all; reflexivity). rewrite Nat.add_0_r.
    destruct (c_active c); destruct (update _ _ _ _ _) as [ds e]; reflexivity.
  - cbn [app update length map fst]. rewrite nc_used_cons. destruct (c_active c'); cbn [orb].
    + specialize (IH (nc + c_nc c')%nat (fun j => if Nat.eqb j (c_joint c') then fx' (fun i => force (nc + i)%nat) else fext j)).
      destruct (update _ _ _ _ _) as [ds e]. cbn [fst nth_error] in *. rewrite IH.
      now replace (nc + c_nc c' + nc_used all (map fst pre))%nat with (nc + (c_nc c' + nc_used all (map fst pre)))%nat by lia.
    + specialize (IH (if all then nc + c_nc c' else nc)%nat fext). destruct (update _ _ _ _ _) as [ds e]. cbn [fst nth_error] in *.
      rewrite IH. destruct all; [|reflexivity].
      now replace (nc + c_nc c' + nc_used true (map fst pre))%nat with (nc + (c_nc c' + nc_used true (map fst pre)))%nat by lia.
Qed.
End Force.

Lemma rnea_diff_sum cs D i j :
  rnea_diff cs D i j = D i j + fold_right (fun cd n => (if c_active (fst cd) && negb (c_local (fst cd)) then snd cd i j else 0) + n) 0 cs.
Proof.
  revert D. induction cs as [|[c d] cs IH]; intro D; cbn [rnea_diff fold_right fst snd]; [ring|]. rewrite IH.
  destruct (c_active c && negb (c_local c)); ring.
Qed.
