(** Lemmas about the inverse dynamics. *)
From Coquelicot Require Import Coquelicot.
From Coq Require Import Reals List Arith Bool Lia Lra.
From Verif Require Import Deriv VecMat Implicit Spatial Spatial_Proofs Contact_Model Contact_Spec Contact_Proofs Actuation_Model Actuation_Proofs
  MultiContact_Model MultiContact_Proofs FwdDyn_Model FwdDyn_Spec FwdDyn_Proofs FwdDyn_Contacts InvDyn_Model InvDyn_Spec.
Import ListNotations.
Open Scope R_scope.

(** *** The rows outside tau_set *)
Definition unset (set : nat -> bool) (k n : nat) : list nat := filter (fun i => negb (set i)) (seq k n).
Lemma under_eq {T} set (src : nat -> T) nr n k nrow buf r : under set src nr n k nrow buf = Some r ->
  (forall i, (i < length (unset set k n))%nat -> (nrow + i < nr)%nat /\ r (nrow + i)%nat = src (nth i (unset set k n) 0%nat)) /\
  (forall j, (j < nrow \/ nrow + length (unset set k n) <= j)%nat -> r j = buf j).
Proof.
  revert k nrow buf. induction n as [|n IH]; intros k nrow buf H; cbn [under] in H.
  - injection H as <-. split; [intros i Hi; cbn in Hi; lia|reflexivity].
  - unfold unset in *. cbn [seq filter]. destruct (set k) eqn:SK; cbn [negb].
    + apply IH. exact H.
    + destruct (Nat.ltb_spec nrow nr) as [L|]; [|discriminate]. destruct (IH _ _ _ H) as [A B]. cbn [length nth]. split.
      * intros [|i] Hi.
        -- split; [lia|]. rewrite Nat.add_0_r, B by lia. replace nrow with (nrow + 0)%nat at 2 by lia. now rewrite setseg_in by lia.
        -- destruct (A i) as [A1 A2]; [lia|]. replace (nrow + S i)%nat with (S nrow + i)%nat by lia. auto.
      * intros j Hj. rewrite B by lia. apply setseg_out. lia.
Qed.
Lemma under_some {T} set (src : nat -> T) nr n k nrow buf : (nrow + length (unset set k n) <= nr)%nat ->
  exists r, under set src nr n k nrow buf = Some r.
Proof.
  revert k nrow buf. induction n as [|n IH]; intros k nrow buf H; cbn [under]; [eauto|].
  unfold unset in *. cbn [seq filter] in H. destruct (set k); cbn [negb length] in H; [now apply IH|].
  destruct (Nat.ltb_spec nrow nr); [apply IH; lia|lia].
Qed.
Lemma unset_in set k n m : In m (unset set k n) <-> (k <= m < k + n)%nat /\ set m = false.
Proof. unfold unset. rewrite filter_In, in_seq. destruct (set m); cbn [negb]; intuition congruence. Qed.
Lemma under_zero set (tau : vec) nr n buf r : under set tau nr n 0 0 buf = Some r -> (forall i, (i < nr)%nat -> r i = 0) ->
  forall k, (k < n)%nat -> set k = false -> tau k = 0.
Proof.
  intros H Z k Hk S. destruct (under_eq _ _ _ _ _ _ _ _ H) as [A _].
  assert (I : In k (unset set 0 n)) by (apply unset_in; lia || (split; [lia|assumption])).
  destruct (In_nth _ _ 0%nat I) as (i & Li & E). destruct (A i Li) as [A1 A2]. rewrite E in A2. rewrite <- A2. apply Z. lia.
Qed.

(** *** Constraints *)
Lemma collect_in bs l : collect bs = Some l -> forall o, In o bs -> exists b, o = Some b /\ In b l.
Proof.
  revert l. induction bs as [|[b|] bs IH]; intros l H o I; cbn [collect] in H; [destruct I| |discriminate].
  destruct (collect bs) as [l'|]; [|discriminate]. injection H as <-. destruct I as [<-|I]; [exists b; split; [reflexivity|now left]|].
  destruct (IH l' eq_refl o I) as (b' & E & I'). exists b'. split; [assumption|now right].
Qed.
Lemma collect_some bs : (forall o, In o bs -> o <> None) -> exists l, collect bs = Some l /\ length l = length bs /\ forall b, In b l -> In (Some b) bs.
Proof.
  induction bs as [|[b|] bs IH]; intro H.
  - exists []. split; [reflexivity|]. split; [reflexivity|]. intros x [].
  - destruct IH as (l & E & L & I). { intros o Ho. apply H. now right. }
    cbn [collect]. rewrite E. exists (b :: l). split; [reflexivity|]. split; [cbn [length]; lia|].
    intros b' [<-|I']; [now left|right; auto].
  - exfalso. now apply (H None (or_introl eq_refl)).
Qed.
Lemma of_frame_in ds d : In d ds -> NoDup (map cd_frame ds) -> of_frame ds (cd_frame d) = Some d.
Proof.
  intros I ND. unfold of_frame. induction ds as [|e0 ds IH]; [destruct I|]. cbn [map find] in *. inversion ND as [|? ? N D]; subst.
  destruct I as [-> |I]; [now rewrite Nat.eqb_refl|]. destruct (Nat.eqb_spec (cd_frame e0) (cd_frame d)) as [E|]; [|auto].
  exfalso. apply N. rewrite E. now apply in_map.
Qed.
Lemma blocks_in nv ds rest o (act : bool) d : In (act, d) rest -> exists o' : nat, In (if act then acc_block nv ds d else force_block nv ds d o') (contact_blocks nv ds rest o).
Proof.
  revert o. induction rest as [|[b e] rest IH]; intros o I; [destruct I|]. cbn [contact_blocks]. destruct I as [E|I].
  - injection E as -> ->. exists o. now left.
  - destruct (IH (o + cd_nc e)%nat I) as [o' H]. exists o'. now right.
Qed.

(** *** One contact at one point *)
Lemma a0_affine nv m k0 ka a t r : accelerated nv k0 ka a -> (r < c_nc (item_of m))%nat ->
  cc_a0 (curve m ka) t r = cc_a0 (curve m k0) t r + rsum nv (fun j => cc_J (curve m k0) t r j * a j).
Proof.
  intros AC Hr. destruct m as [kind ty g0 g1 jMf joint act]. destruct kind; cbn [curve cc_a0 cc_J item_of c_nc cm_kind] in *.
  - exact (a01_a nv a k0 ka AC ty g0 g1 xref Raxis t).
  - rewrite (a02_a nv a k0 ka AC), v2i_add, v2i_comb by assumption. reflexivity.
  - rewrite (a03_a nv a k0 ka AC), v3i_add, v3i_comb by assumption. reflexivity.
  - rewrite (a06_a nv a k0 ka AC), v6i_add, v6i_comb by assumption. reflexivity.
Qed.
Lemma J_same nv m k0 ka a t : accelerated nv k0 ka a -> cc_J (curve m ka) t = cc_J (curve m k0) t.
Proof.
  intros [AM AJ _ _]. destruct m as [[] ty g0 g1 jMf joint act]; cbn [curve cc_J]; unfold Jc1, Jc2, Jc3, Jc6, oRf; rewrite ?(AM t), (AJ t); reflexivity.
Qed.
Lemma curve_at m (k : R -> kin) t : cc_a0 (curve m (fun _ => k t)) t = cc_a0 (curve m k) t /\ cc_J (curve m (fun _ => k t)) t = cc_J (curve m k) t.
Proof. destruct m as [[] ty g0 g1 jMf joint act]; split; reflexivity. Qed.
Lemma dual_at nv (G : nat -> nat -> v6) m (k : R -> kin) t g i : (forall j, fJf (k t) j = actinv_motion (cm_jMf m) (G (cm_joint m) j)) -> (i < nv)%nat ->
  dot6 (cc_fx (curve m k) t g) (G (c_joint (item_of m)) i) = rsum (c_nc (item_of m)) (fun r => g r * cc_J (curve m k) t r i).
Proof.
  intros AT Hi. destruct m as [kind ty g0 g1 jMf joint act]. cbn [cm_jMf cm_joint] in AT.
  destruct kind; cbn [curve cc_fx cc_J item_of c_nc c_joint cm_kind cm_joint].
  - rewrite (torque1 jMf (k t) (G joint)) by apply AT. cbn [rsum]. ring.
  - rewrite (torque2 jMf (k t) (G joint)) by apply AT. cbn [rsum of2 fst snd v2i]. ring.
  - rewrite (torque3 jMf (k t) (G joint)) by apply AT. now rewrite sum3.
  - rewrite (torque6 jMf (k t) (G joint)) by apply AT. now rewrite sum6.
Qed.

(** *** Active rows *)
Lemma active_rows_len cs nc : length (active_rows cs nc) = nc_active cs.
Proof.
  revert nc. induction cs as [|c cs IH]; intro nc; [reflexivity|]. cbn [active_rows]. rewrite app_length, IH.
  change (nc_active (c :: cs)) with (nc_used false (c :: cs)). rewrite nc_used_cons, orb_false_r. destruct (c_active c); [rewrite seq_length|]; reflexivity.
Qed.
Section Sums.
Variables (G : nat -> v6) (i : nat) (J : pcontact -> nat -> vec) (fx : pcontact -> vec -> v6).
Lemma sum_active cs nc nc' (f f' : vec) :
  (forall c, In c cs -> c_active (cc_item (fst c)) = true -> forall g,
     dot6 (fx c g) (G (c_joint (cc_item (fst c)))) = rsum (c_nc (cc_item (fst c))) (fun r => g r * J c r i)) ->
  (forall r, (r < nc_active (item_list cs))%nat -> f' (nc' + r)%nat = f (nth r (active_rows (item_list cs) nc) 0%nat)) ->
  sum_contacts true G (map (fun x => (cc_item (fst x), fx x)) cs) nc f =
  by_contact false (fun r (row : vec) => row i * f' r) (map (fun x => (cc_item (fst x), J x)) cs) nc'.
Proof.
  revert nc nc'. induction cs as [|c cs IH]; intros nc nc' D E; [reflexivity|].
  change (nc_active (item_list (c :: cs))) with (nc_used false (cc_item (fst c) :: item_list cs)) in E.
  rewrite nc_used_cons in E. cbn [item_list map sum_contacts by_contact active_rows] in *. fold (item_list cs) in *.
  assert (D' : forall c', In c' cs -> c_active (cc_item (fst c')) = true -> forall g,
     dot6 (fx c' g) (G (c_joint (cc_item (fst c')))) = rsum (c_nc (cc_item (fst c'))) (fun r => g r * J c' r i)) by (intros c' H; apply D; now right).
  rewrite orb_true_r, orb_false_r in *. destruct (c_active (cc_item (fst c))) eqn:A.
  - f_equal.
    + rewrite D; [|now left|assumption]. apply rsum_ext. intros r Hr. rewrite E by lia.
      rewrite app_nth1 by (rewrite seq_length; lia). rewrite seq_nth by lia. ring.
    + apply IH; [assumption|]. intros r Hr. replace (nc' + c_nc (cc_item (fst c)) + r)%nat with (nc' + (c_nc (cc_item (fst c)) + r))%nat by lia.
      rewrite E by (cbn [nc_used]; lia). rewrite app_nth2 by (rewrite seq_length; lia). rewrite seq_length. f_equal. f_equal. lia.
  - f_equal. apply IH; [assumption|]. intros r Hr. now rewrite E.
Qed.
End Sums.
(** A property of all rows of two stacks. *)
Lemma stack_forall {T U} (zT : T) (zU : U) (P : T -> U -> Prop) (cs : list (citem * ((nat -> T) * (nat -> U)))) nc bufT bufU r :
  (forall c x y, In (c, (x, y)) cs -> c_active c = true -> forall k, (k < c_nc c)%nat -> P (x k) (y k)) ->
  (nc <= r < nc + nc_active (map fst cs))%nat ->
  P (stack zT false (map (fun e => (fst e, fst (snd e))) cs) nc bufT r) (stack zU false (map (fun e => (fst e, snd (snd e))) cs) nc bufU r).
Proof.
  revert nc bufT bufU. induction cs as [|[c [x y]] cs IH]; intros nc bT bU H L; [cbn in L; lia|].
  change (nc_active (map fst ((c, (x, y)) :: cs))) with (nc_used false (c :: map fst cs)) in L. rewrite nc_used_cons in L.
  cbn [map fst snd stack]. destruct (c_active c) eqn:A; cbn [orb] in L.
  - destruct (Nat.lt_ge_cases r (nc + c_nc c)) as [Q|Q].
    + rewrite !stack_before by assumption. replace r with (nc + (r - nc))%nat by lia. rewrite !setseg_in by lia.
      apply (H c x y); [now left|assumption|lia].
    + apply IH; [|cbn [nc_used] in L; lia]. intros c' x' y' I. apply H. now right.
  - apply IH; [|exact L]. intros c' x' y' I. apply H. now right.
Qed.

(** *** The data of the contacts *)
Section Datas.
Variables (nv : nat) (cs : list icontact).
Lemma item_list_ipcs s a : item_list (ipcs nv cs s a) = map ic_item cs.
Proof. unfold item_list, ipcs, contacts, frozen. rewrite !map_map. apply map_ext. intro c. cbn [fst]. apply curve_item. Qed.
Lemma len_update t a force : length (fst (iupdate nv cs t a force)) = length cs.
Proof. unfold iupdate. rewrite update_datas. unfold force_list, ipcs, contacts, frozen. now rewrite !map_length. Qed.
Lemma zip_in t a (l : list icontact) fs c : length fs = length l -> In c l -> exists f, In (cm_active (ic_m c), cdata_of nv t a c f) (zip_data nv t a l fs).
Proof.
  revert fs. induction l as [|e l IH]; intros [|f fs] L I; cbn [length zip_data] in *; try lia; [destruct I|].
  destruct I as [-> |I]; [exists f; now left|]. destruct (IH fs) as [g H]; [lia|assumption|]. exists g. now right.
Qed.
Lemma cd_frame_of t a c f : cd_frame (cdata_of nv t a c f) = ic_frame c.
Proof. unfold cdata_of. destruct (cm_active (ic_m c)); reflexivity. Qed.
Lemma cd_nc_of t a c f : cd_nc (cdata_of nv t a c f) = c_nc (ic_item c).
Proof. unfold cdata_of. destruct (cm_active (ic_m c)); reflexivity. Qed.
Lemma zip_frames t a (l : list icontact) fs : length fs = length l -> map cd_frame (map snd (zip_data nv t a l fs)) = map ic_frame l.
Proof.
  revert fs. induction l as [|e l IH]; intros [|f fs] L; cbn [length zip_data map snd] in *; try lia; [reflexivity|].
  rewrite cd_frame_of, IH by lia. reflexivity.
Qed.
Lemma acc_block_in t a force c na d tau rq rv M Jc br bRx bRu bs : NoDup (map ic_frame cs) -> In c cs -> cm_active (ic_m c) = true ->
  inv_constraints nv na d tau rq rv M Jc br bRx bRu (idatas nv cs t a force) = Some bs ->
  exists f, In (Block (c_nc (ic_item c)) (cc_a0 (curve (ic_m c) (fun t => ic_ka c t a)) t) (fst (published nv (ic_m c) (ic_ka c t a) (fd_f f)))
        (hcat nv (cc_J (curve (ic_m c) (fun t => ic_ka c t a)) t) (fun _ _ => 0))) bs.
Proof.
  intros ND I A E. destruct (zip_in t a cs (fst (iupdate nv cs t a force)) c (len_update t a force) I) as [f H].
  fold (idatas nv cs t a force) in H. rewrite A in H. destruct (blocks_in nv (map snd (idatas nv cs t a force)) _ 0 _ _ H) as [_ H'].
  unfold inv_constraints in E. destruct (collect_in _ _ E _ (in_or_app _ _ _ (or_intror H'))) as (b & Eb & Ib).
  exists f. unfold acc_block in Eb. rewrite of_frame_in in Eb.
  - unfold with_nc in Eb. rewrite Nat.eqb_refl in Eb. injection Eb as <-. unfold cdata_of in Ib. rewrite A in Ib.
    cbn [cd_nc cd_a0 cd_da0 cd_J] in Ib. destruct (curve_at (ic_m c) (fun t => ic_ka c t a) t) as [E1 E2]. cbv beta in E1, E2.
    rewrite E1, E2 in Ib. exact Ib.
  - apply (in_map snd) in H. exact H.
  - unfold idatas. rewrite zip_frames by apply len_update. assumption.
Qed.
End Datas.

Section Motion.
Variables (nv nj : nat) (M : mat) (nle : vec) (G : nat -> nat -> v6) (cs : list icontact) (t : R) (a force tau : vec).
Hypothesis KC : forall c, In c cs -> kinematic nv c.
Hypothesis AT : forall c, In c cs -> cm_active (ic_m c) = true -> forall j, fJf (ic_k c t) j = actinv_motion (cm_jMf (ic_m c)) (G (cm_joint (ic_m c)) j).
Hypothesis NJ : NoDup (joints (map ic_item cs)).
Hypothesis LJ : forall j, In j (joints (map ic_item cs)) -> (j < nj)%nat.
Hypothesis RV : rnea_value nv nj M nle G a (snd (iupdate nv cs t a force)) tau.
Let pcs := ipcs nv cs t a.
Lemma ipcs_in c : In c pcs -> exists e, In e cs /\ c = (curve (ic_m e) (ic_k e), published nv (ic_m e) (ic_ka e t a)).
Proof.
  unfold pcs, ipcs, contacts, frozen. rewrite map_map. intro I. apply in_map_iff in I. destruct I as (e & E & I). exists e. split; [assumption|]. now rewrite <- E.
Qed.
(** The joint forces of rnea, in terms of the rows in use by the forward dynamics. *)
Lemma fext_rows bufJ i : (i < nv)%nat ->
  rsum nj (fun j => dot6 (snd (iupdate nv cs t a force) j) (G j i)) =
  rsum (nc_active (map ic_item cs)) (fun r => stack zv false (row_list pcs t) 0 bufJ r i * active_part (map ic_item cs) force r).
Proof.
  intro Hi. assert (X := update_sum true nj (fun j => G j i) (force_list pcs t) 0 force (fun _ => z6)).
  assert (EI : map fst (force_list pcs t) = map ic_item cs).
  { unfold force_list. rewrite map_map. cbn [fst]. exact (item_list_ipcs nv cs t a). }
  rewrite EI in X. unfold iupdate. fold pcs. rewrite X by auto. rewrite rsum_0 by (intros; apply dot6_z). rewrite Rplus_0_l.
  unfold force_list. rewrite (sum_active (fun j => G j i) i (fun x => cc_J (fst x) t) (fun x => cc_fx (fst x) t) pcs 0 0 force (active_part (map ic_item cs) force)).
  - symmetry. assert (S := stack_sum zv false (fun r (row : vec) => row i * active_part (map ic_item cs) force r) (row_list pcs t) 0 bufJ).
    assert (ER : map fst (row_list pcs t) = map ic_item cs).
    { unfold row_list. rewrite map_map. cbn [fst]. exact (item_list_ipcs nv cs t a). }
    rewrite ER in S. cbn [Nat.add nc_used] in S. apply S. intros r. unfold zv. ring.
  - intros c I A g. destruct (ipcs_in c I) as (e & Ie & ->). cbn [fst] in *. rewrite curve_item in *. rewrite (dual_at nv G (ic_m e)); auto.
  - intros r Hr. unfold active_part. cbn [Nat.add]. unfold pcs. now rewrite item_list_ipcs.
Qed.
Lemma tau_rows bufJ i : (i < nv)%nat -> rsum nv (fun j => M i j * a j) + nle i =
  tau i + rsum (nc_active (map ic_item cs)) (fun r => stack zv false (row_list pcs t) 0 bufJ r i * active_part (map ic_item cs) force r).
Proof. intro Hi. rewrite (RV i Hi), (fext_rows bufJ i Hi). ring. Qed.
(** The accelerations the residuals see are those of the motion. *)
Lemma acc_rows bufJ bufa r : (r < nc_active (map ic_item cs))%nat ->
  (forall c, In c cs -> cm_active (ic_m c) = true -> forall k, (k < c_nc (ic_item c))%nat -> cc_a0 (curve (ic_m c) (fun t => ic_ka c t a)) t k = 0) ->
  rsum nv (fun j => stack zv false (row_list pcs t) 0 bufJ r j * a j) + stack 0 false (acc_list pcs t) 0 bufa r = 0.
Proof.
  intros Hr Z.
  assert (X := stack_forall zv 0 (fun (x : vec) y => rsum nv (fun j => x j * a j) + y = 0)
     (map (fun x : pcontact => (cc_item (fst x), (cc_J (fst x) t, cc_a0 (fst x) t))) pcs) 0 bufJ bufa r).
  rewrite !map_map in X. cbn [fst snd] in X. apply X; clear X.
  - intros c x y I A k Hk. apply in_map_iff in I. destruct I as (p & E & I). destruct (ipcs_in p I) as (e & Ie & ->). cbn [fst] in E.
    injection E as <- <- <-. rewrite curve_item in *. specialize (Z e Ie A k Hk). rewrite (a0_affine nv (ic_m e) (ic_k e) _ a t k (KC e Ie a) Hk) in Z. lra.
  - split; [lia|]. cbn [Nat.add]. replace (map (fun x : pcontact => cc_item (fst x)) pcs) with (map ic_item cs); [exact Hr|]. symmetry. apply item_list_ipcs.
Qed.
End Motion.

(** *** Positions of the constraints *)
Lemma zip_nth nv t a cs fs p c f : nth_error cs p = Some c -> nth_error fs p = Some f ->
  nth_error (zip_data nv t a cs fs) p = Some (cm_active (ic_m c), cdata_of nv t a c f).
Proof.
  revert fs p. induction cs as [|e cs IH]; intros [|g fs] [|p] H F; try discriminate; cbn [nth_error zip_data] in *; [|now apply IH].
  injection H as ->. injection F as ->. reflexivity.
Qed.
Lemma blocks_nth nv ds rest o p act d : nth_error rest p = Some (act, d) ->
  nth_error (contact_blocks nv ds rest o) p =
    Some (if act then acc_block nv ds d else force_block nv ds d (o + fold_right (fun x n => (cd_nc (snd x) + n)%nat) 0%nat (firstn p rest))).
Proof.
  revert o p. induction rest as [|[b e] rest IH]; intros o [|p] H; try discriminate; cbn [nth_error contact_blocks firstn fold_right snd] in *.
  - injection H as -> ->. now rewrite Nat.add_0_r.
  - rewrite (IH _ _ H). now rewrite Nat.add_assoc.
Qed.
Lemma zip_sizes nv t a cs fs p : length fs = length cs ->
  fold_right (fun (x : bool * cdata) n => (cd_nc (snd x) + n)%nat) 0%nat (firstn p (zip_data nv t a cs fs)) = nc_total (map ic_item (firstn p cs)).
Proof.
  revert fs p. induction cs as [|e cs IH]; intros [|g fs] [|p] L; cbn [length] in L; try lia; try reflexivity.
  cbn [zip_data firstn fold_right snd map]. rewrite IH by lia. rewrite cd_nc_of. reflexivity.
Qed.
Definition ifd (cs : list icontact) (p : nat) (c : icontact) (fx : vec -> v6) (force : vec) : fdata :=
  if cm_active (ic_m c) then let f := fun i => force (nc_total (map ic_item (firstn p cs)) + i)%nat in FData f (fx f) else zero_force.
Lemma force_list_ipcs nv cs s a t : force_list (ipcs nv cs s a) t = map (fun c => (ic_item c, cc_fx (curve (ic_m c) (ic_k c)) t)) cs.
Proof. unfold force_list, ipcs, contacts, frozen. rewrite !map_map. apply map_ext. intro c. cbn [fst]. now rewrite curve_item. Qed.
Lemma row_list_ipcs nv cs s a t : row_list (ipcs nv cs s a) t = map (fun c => (ic_item c, cc_J (curve (ic_m c) (ic_k c)) t)) cs.
Proof. unfold row_list, ipcs, contacts, frozen. rewrite !map_map. apply map_ext. intro c. cbn [fst]. now rewrite curve_item. Qed.
Lemma acc_list_ipcs nv cs s a t : acc_list (ipcs nv cs s a) t = map (fun c => (ic_item c, cc_a0 (curve (ic_m c) (ic_k c)) t)) cs.
Proof. unfold acc_list, ipcs, contacts, frozen. rewrite !map_map. apply map_ext. intro c. cbn [fst]. now rewrite curve_item. Qed.
Lemma blocks_length nv ds rest o : length (contact_blocks nv ds rest o) = length rest.
Proof. revert o. induction rest as [|[b e] rest IH]; intro o; [reflexivity|]. cbn [contact_blocks length]. now rewrite IH. Qed.
Lemma zip_length nv t a cs fs : length fs = length cs -> length (zip_data nv t a cs fs) = length cs.
Proof. revert fs. induction cs as [|e cs IH]; intros [|g fs] L; cbn [length zip_data] in *; try lia. rewrite IH by lia. reflexivity. Qed.
Lemma nc_used_app all l1 l2 : nc_used all (l1 ++ l2) = (nc_used all l1 + nc_used all l2)%nat.
Proof.
  induction l1 as [|c l1 IH]; cbn [app]; [destruct all; reflexivity|]. rewrite !nc_used_cons, IH. lia.
Qed.
Lemma update_nth nv cs t a force p c : nth_error cs p = Some c ->
  nth_error (fst (iupdate nv cs t a force)) p = Some (ifd cs p c (cc_fx (curve (ic_m c) (ic_k c)) t) force).
Proof.
  intro H. unfold iupdate. rewrite force_list_ipcs. destruct (nth_error_split _ _ H) as (pre & post & E & <-). subst cs.
  rewrite map_app. cbn [map]. rewrite <- (map_length (fun c => (ic_item c, cc_fx (curve (ic_m c) (ic_k c)) t)) pre).
  rewrite update_data. unfold ifd. rewrite map_length, firstn_app, Nat.sub_diag, firstn_all. cbn [firstn]. rewrite app_nil_r.
  rewrite map_map. cbn [fst]. reflexivity.
Qed.
Lemma constraint_nth nv cs t a force p c : nth_error cs p = Some c -> NoDup (map ic_frame cs) ->
  let f := ifd cs p c (cc_fx (curve (ic_m c) (ic_k c)) t) force in
  nth_error (contact_constraints nv (idatas nv cs t a force)) p =
    Some (Some (if cm_active (ic_m c)
      then Block (c_nc (ic_item c)) (cc_a0 (curve (ic_m c) (fun t => ic_ka c t a)) t) (fst (published nv (ic_m c) (ic_ka c t a) (fd_f f)))
            (hcat nv (cc_J (curve (ic_m c) (fun t => ic_ka c t a)) t) (fun _ _ => 0))
      else Block (c_nc (ic_item c)) (fun _ => 0) (fun _ _ => 0)
            (fun i j => if (j =? nv + nc_total (map ic_item (firstn p cs)) + i)%nat then 1 else 0))).
Proof.
  intros H ND f. unfold contact_constraints.
  assert (Z : nth_error (idatas nv cs t a force) p = Some (cm_active (ic_m c), cdata_of nv t a c f)) by (apply zip_nth; [assumption|now apply update_nth]).
  rewrite (blocks_nth nv _ _ 0 p _ _ Z). cbn [Nat.add]. f_equal.
  assert (F : of_frame (map snd (idatas nv cs t a force)) (cd_frame (cdata_of nv t a c f)) = Some (cdata_of nv t a c f)).
  { apply of_frame_in.
    - apply nth_error_In in Z. apply (in_map snd) in Z. exact Z.
    - unfold idatas. rewrite zip_frames by apply len_update. assumption. }
  unfold acc_block, force_block. rewrite F. unfold with_nc. rewrite Nat.eqb_refl. unfold idatas. rewrite zip_sizes by apply len_update.
  unfold cdata_of. destruct (cm_active (ic_m c)) eqn:A; cbn [cd_nc cd_a0 cd_da0 cd_J cd_f].
  - destruct (curve_at (ic_m c) (fun t => ic_ka c t a) t) as [E1 E2]. cbv beta in E1, E2. now rewrite E1, E2.
  - unfold f, ifd. rewrite A. reflexivity.
Qed.

(** *** Derivatives *)
Lemma rows_diff nv G s dx a (pcs : list pcontact) nc buf r i : all_good nv G s dx a pcs -> (i < nv)%nat ->
  (nc <= r < nc + nc_total (item_list pcs))%nat -> differentiable (fun t => stack zv true (row_list pcs t) nc (buf t) r i) s.
Proof.
  intros AG Hi. revert nc buf AG. induction pcs as [|[c p] pcs IH]; intros nc buf AG L; [cbn in L; lia|].
  change (nc_total (item_list ((c, p) :: pcs))) with (c_nc (cc_item c) + nc_total (item_list pcs))%nat in L.
  assert (AG' : all_good nv G s dx a pcs) by (intros x y H; apply AG; now right).
  cbn [row_list map fst stack]. destruct (c_active (cc_item c)) eqn:A.
  - destruct (Nat.lt_ge_cases r (nc + c_nc (cc_item c))) as [Q|Q].
    + destruct (ok_J _ _ _ _ _ _ _ _ _ (AG c p (or_introl eq_refl) A (fun _ => 0)) (r - nc)%nat i) as [l Hl]; [lia|assumption|].
      exists l. eapply dext; [|exact Hl]. intro t. cbv beta. fold (row_list pcs t). rewrite stack_before by assumption.
      replace r with (nc + (r - nc))%nat at 2 by lia. now rewrite setseg_in by lia.
    + apply (IH _ (fun t => setseg nc (c_nc (cc_item c)) (cc_J c t) (buf t)) AG'). lia.
  - destruct (Nat.lt_ge_cases r (nc + c_nc (cc_item c))) as [Q|Q].
    + exists 0. apply (dext (fun _ => 0)); [|apply dconst]. intro t. cbv beta. fold (row_list pcs t). rewrite stack_before by assumption.
      replace r with (nc + (r - nc))%nat by lia. now rewrite setseg_in by lia.
    + apply (IH _ (fun t => setseg nc (c_nc (cc_item c)) (fun _ => zv) (buf t)) AG'). lia.
Qed.

Section Derivative.
Variables (nv nj : nat) (rb : robot) (cs : list icontact) (s : R) (dx du : vec) (a f tau : R -> vec) (bufJ : R -> nat -> vec) (rq rv : mat).
Let nc := nc_total (map ic_item cs).
Let pcs := ipcs nv cs s (a s).
Let pub := spread true pcs 0 (f s).
Hypothesis SM : smooth nv rb s.
Hypothesis GOOD : forall c, In c cs -> cm_active (ic_m c) = true -> good_contact nv (r_G rb) s dx (a s) (ic_m c) (ic_k c) (fun t => ic_ka c t (a s)).
Hypothesis NJ : NoDup (joints (map ic_item cs)).
Hypothesis LJ : forall j, In j (joints (map ic_item cs)) -> (j < nj)%nat.
Hypothesis RV : forall t, rnea_value nv nj (r_M rb t) (r_nle rb t) (r_G rb t) (a t) (snd (iupdate nv cs t (a t) (f t))) (tau t).
Hypothesis RC : rnea_contract nv nj rb s dx (a s) (snd (iupdate nv cs s (a s) (f s))) rq rv.
Hypothesis DA : forall j, (j < nv)%nat -> is_derive (fun t => a t j) s (du j).
Hypothesis DF : forall r, (r < nc)%nat -> is_derive (fun t => f t r) s (du (nv + r)%nat).

Lemma good_all : all_good nv (r_G rb) s dx (a s) pcs.
Proof.
  apply contacts_good; [assumption|]. intros m k0 ka I A. unfold frozen in I. apply in_map_iff in I. destruct I as (c & E & I).
  injection E as <- <- <-. now apply GOOD.
Qed.
Lemma items_pub g : items (spread true pcs 0 g) = map ic_item cs.
Proof. rewrite spread_items. apply item_list_ipcs. Qed.
Lemma nc_pub g : nc_of true (spread true pcs 0 g) = nc.
Proof. rewrite nc_of_eq. unfold pcs. now rewrite item_list_ipcs. Qed.
Lemma Jst_iJc g t : Jst true (spread true pcs 0 g) bufJ t = iJc nv cs (bufJ t) t (a t).
Proof. unfold Jst, iJc. rewrite row_list_eq. unfold pcs. now rewrite !row_list_ipcs. Qed.
Lemma tau_curve t i : (i < nv)%nat -> tau t i = rsum nv (fun j => r_M rb t i j * a t j) + r_nle rb t i
  - rsum nc (fun r => iJc nv cs (bufJ t) t (a t) r i * f t r).
Proof.
  intro Hi. rewrite (RV t i Hi). f_equal.
  assert (OK : all_ok nv rb s dx true (spread true pcs 0 (f t)) 0 (f t) (a s)) by (apply spread_ok; exact good_all).
  assert (X := update_sum true nj (fun j => r_G rb t j i) (force_list pcs t) 0 (f t) (fun _ => z6)).
  assert (EI : map fst (force_list pcs t) = map ic_item cs).
  { unfold force_list. rewrite map_map. cbn [fst]. exact (item_list_ipcs nv cs s (a s)). }
  rewrite EI in X. unfold iupdate. replace (force_list (ipcs nv cs t (a t)) t) with (force_list pcs t) by (unfold pcs; now rewrite !force_list_ipcs).
  rewrite X by auto. rewrite rsum_0 by (intros; apply dot6_z). rewrite Rplus_0_l.
  rewrite <- (force_list_eq true pcs 0 (f t) t).
  rewrite <- (power2_fx rb true (spread true pcs 0 (f t)) 0 (f t) i t t), (power2_J nv rb s dx true _ 0 (f t) (a s) i t OK Hi).
  symmetry. rewrite <- (Jst_iJc (f t) t), <- (nc_pub (f t)). unfold nc_of. fold (items (spread true pcs 0 (f t))).
  rewrite <- (map_items_J (spread true pcs 0 (f t)) t).
  etransitivity; [|apply (stack_sum zv true (fun r row => row i * f t r) (Jrows_at (spread true pcs 0 (f t)) t) 0 (bufJ t)); intros; unfold zv; ring].
  reflexivity.
Qed.
Lemma d_tau i : (i < nv)%nat -> is_derive (fun t => tau t i) s
  (rsum (nv + nv) (fun j => hcat nv (rnea_diff (dtau_of pub) rq) rv i j * dx j) +
   rsum (nv + nc) (fun j => hcat nv (r_M rb s) (fun k r => - iJc nv cs (bufJ s) s (a s) r k) i j * du j)).
Proof.
  intro Hi. assert (OK : all_ok nv rb s dx true pub 0 (f s) (a s)) by (apply spread_ok; exact good_all).
  apply (dext (fun t => (rsum nv (fun j => r_M rb t i j * a s j) + r_nle rb t i - rsum (nc_of true pub) (fun r => Jst true pub bufJ t r i * f s r))
     + (rsum nv (fun j => r_M rb t i j * (a t j - a s j)) + rsum nc (fun r => - (iJc nv cs (bufJ t) t (a t) r i) * (f t r - f s r))))).
  - intro t. rewrite tau_curve by assumption. unfold pub. rewrite nc_pub, Jst_iJc.
    rewrite (rsum_ext nv (fun j => r_M rb t i j * (a t j - a s j)) (fun j => r_M rb t i j * a t j - r_M rb t i j * a s j)) by (intros; ring).
    rewrite (rsum_ext nc (fun r => - _ * _) (fun r => iJc nv cs (bufJ t) t (a t) r i * f s r - iJc nv cs (bufJ t) t (a t) r i * f t r)) by (intros; ring).
    rewrite !rsum_minus. ring.
  - apply dplus.
    + rewrite hcat_sum. apply (res_rnea nv nj rb s dx true pub (f s) (a s) bufJ OK SM (a s) (snd (iupdate nv cs s (a s) (f s))) rq rv i Hi); [| | |exact RC].
      * unfold pub. rewrite items_pub. exact NJ.
      * unfold pub. rewrite items_pub. exact LJ.
      * unfold pub. now rewrite force_list_eq.
    + rewrite rsum_app. apply dplus; apply drsum.
      * intros j Hj. destruct SM as (SM1 & _). destruct (SM1 i j Hi Hj) as [l Hl].
        eapply deq; [apply (dmult (fun t => r_M rb t i j) (fun t => a t j - a s j)); [exact Hl|apply dminus; [exact (DA j Hj)|apply dconst]]|].
        cbv beta. unfold hcat. rewrite ltb_t by assumption. ring.
      * intros r Hr. assert (DJ : differentiable (fun t => iJc nv cs (bufJ t) t (a t) r i) s).
        { destruct (rows_diff nv (r_G rb) s dx (a s) pcs 0 bufJ r i good_all Hi) as [l Hl].
          - unfold pcs. rewrite item_list_ipcs. fold nc. lia.
          - exists l. eapply dext; [|exact Hl]. intro t. cbv beta. unfold iJc, pcs. now rewrite !row_list_ipcs. }
        destruct DJ as [l Hl].
        eapply deq; [apply (dmult (fun t => - iJc nv cs (bufJ t) t (a t) r i) (fun t => f t r - f s r)); [apply dopp; exact Hl|apply dminus; [exact (DF r Hr)|apply dconst]]|].
        cbv beta. unfold hcat. rewrite ltb_f by lia. rewrite sub_add. ring.
Qed.
(** The acceleration of one contact. *)
Lemma d_acc c k force : In c cs -> cm_active (ic_m c) = true -> kinematic nv c -> (k < c_nc (ic_item c))%nat ->
  is_derive (fun t => cc_a0 (curve (ic_m c) (fun t' => ic_ka c t' (a t))) t k) s
    (rsum (nv + nv) (fun j => fst (published nv (ic_m c) (ic_ka c s (a s)) force) k j * dx j) +
     rsum (nv + nc) (fun j => hcat nv (cc_J (curve (ic_m c) (fun t' => ic_ka c t' (a s))) s) (fun _ _ => 0) k j * du j)).
Proof.
  intros I A KC Hk.
  assert (AG := good_all (curve (ic_m c) (ic_k c)) (published nv (ic_m c) (ic_ka c s (a s)))).
  assert (IN : In (curve (ic_m c) (ic_k c), published nv (ic_m c) (ic_ka c s (a s))) pcs).
  { unfold pcs, ipcs, contacts, frozen. rewrite map_map. apply in_map_iff. exists c. auto. }
  specialize (AG IN). rewrite curve_item in AG. specialize (AG A force).
  assert (O1 := ok_a0 _ _ _ _ _ _ _ _ _ AG k). rewrite curve_item in O1. specialize (O1 Hk).
  apply (dext (fun t => (cc_a0 (curve (ic_m c) (ic_k c)) t k + rsum nv (fun j => cc_J (curve (ic_m c) (ic_k c)) t k j * a s j))
     + rsum nv (fun j => cc_J (curve (ic_m c) (ic_k c)) t k j * (a t j - a s j)))).
  - intro t. rewrite (a0_affine nv (ic_m c) (ic_k c) _ (a t) t k (KC (a t)) Hk).
    rewrite (rsum_ext nv (fun j => _ * (a t j - a s j)) (fun j => cc_J (curve (ic_m c) (ic_k c)) t k j * a t j - cc_J (curve (ic_m c) (ic_k c)) t k j * a s j)) by (intros; ring).
    rewrite rsum_minus. ring.
  - apply dplus; [exact O1|]. rewrite rsum_app, (rsum_0 nc).
    + rewrite Rplus_0_r. apply drsum. intros j Hj.
      destruct (ok_J _ _ _ _ _ _ _ _ _ AG k j) as [l Hl]; [now rewrite curve_item|assumption|].
      eapply deq; [apply (dmult (fun t => cc_J (curve (ic_m c) (ic_k c)) t k j) (fun t => a t j - a s j)); [exact Hl|apply dminus; [exact (DA j Hj)|apply dconst]]|].
      cbv beta. unfold hcat. rewrite ltb_t by assumption. rewrite (J_same nv (ic_m c) (ic_k c) _ (a s) s (KC (a s))). ring.
    + intros r Hr. unfold hcat. rewrite ltb_f by lia. ring.
Qed.
End Derivative.
