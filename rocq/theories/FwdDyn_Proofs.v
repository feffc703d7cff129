(** Implicit differentiation of the contact dynamics. *)
From Coquelicot Require Import Coquelicot.
From Coq Require Import Reals List Arith Bool Lia Lra.
From Verif Require Import Deriv VecMat Implicit Spatial Spatial_Proofs MultiContact_Model MultiContact_Proofs FwdDyn_Model FwdDyn_Spec.
Import ListNotations.
Open Scope R_scope.

Lemma ltb_t a b : (a < b)%nat -> (a <? b) = true.
Proof. apply Nat.ltb_lt. Qed.
Lemma ltb_f a b : (b <= a)%nat -> (a <? b) = false.
Proof. apply Nat.ltb_ge. Qed.
Lemma sub_add a b : (a + b - a)%nat = b.
Proof. lia. Qed.

Lemma add_armature_inertia arm M i j : add_armature arm M i j = inertia arm M i j.
Proof. destruct arm as [ar|]; [|reflexivity]. cbn [add_armature inertia]. destruct (Nat.eqb i j); ring. Qed.

(** ** The linear system *)
Section Core.
Variables (nv nc : nat) (mu : R) (M J : R -> mat) (p g : R -> vec) (a f : R -> vec) (A B : vec) (Kinv : mat) (s d0 : R).
Hypothesis d0pos : 0 < d0.
Hypothesis eq1 : forall t, Rabs (t - s) < d0 -> forall i, (i < nv)%nat ->
  rsum nv (fun j => M t i j * a t j) - rsum nc (fun r => J t r i * f t r) = p t i.
Hypothesis eq2 : forall t, Rabs (t - s) < d0 -> forall r, (r < nc)%nat -> rsum nv (fun j => J t r j * a t j) + g t r + mu * f t r = 0.
Hypothesis dM : forall i j, (i < nv)%nat -> (j < nv)%nat -> differentiable (fun t => M t i j) s.
Hypothesis dJ : forall r i, (r < nc)%nat -> (i < nv)%nat -> differentiable (fun t => J t r i) s.
Hypothesis dA : forall i, (i < nv)%nat ->
  is_derive (fun t => p t i - rsum nv (fun j => M t i j * a s j) + rsum nc (fun r => J t r i * f s r)) s (A i).
Hypothesis dB : forall r, (r < nc)%nat -> is_derive (fun t => - g t r - rsum nv (fun j => J t r j * a s j)) s (B r).
Hypothesis inv : left_inverse (nv + nc) Kinv (kkt nv (M s) (J s) mu).

Let K (t : R) : mat := kkt nv (M t) (J t) mu.
Let z (t : R) : vec := fun i => if i <? nv then a t i else - f t (i - nv)%nat.
Let b (t : R) : vec := fun i => if i <? nv then p t i else - g t (i - nv)%nat.
Let AB : vec := fun i => if i <? nv then A i else B (i - nv)%nat.
Let K' : mat := fun i j => Derive (fun t => K t i j) s.

Lemma mul_top t u i : (i < nv)%nat -> mulv (nv + nc) (K t) (z u) i =
  rsum nv (fun j => M t i j * a u j) - rsum nc (fun r => J t r i * f u r).
Proof.
  intro Hi. unfold mulv. rewrite rsum_app. unfold Rminus. f_equal.
  - apply rsum_ext. intros j Hj. unfold K, kkt, z. now rewrite !ltb_t by assumption.
  - replace (- rsum nc (fun r => J t r i * f u r)) with ((-1) * rsum nc (fun r => J t r i * f u r)) by ring.
    rewrite <- rsum_scal. apply rsum_ext. intros r Hr. unfold K, kkt, z.
    rewrite (ltb_t i nv) by assumption. rewrite !ltb_f by lia. rewrite sub_add. ring.
Qed.
Lemma mul_bot t u r : (r < nc)%nat -> mulv (nv + nc) (K t) (z u) (nv + r)%nat =
  rsum nv (fun j => J t r j * a u j) + mu * f u r.
Proof.
  intro Hr. unfold mulv. rewrite rsum_app. f_equal.
  - apply rsum_ext. intros j Hj. unfold K, kkt, z. rewrite (ltb_f (nv + r)) by lia. rewrite !ltb_t by assumption. now rewrite sub_add.
  - rewrite (rsum_single nc r); [|assumption|].
    + unfold K, kkt, z. rewrite !ltb_f by lia. rewrite Nat.eqb_refl, sub_add. ring.
    + intros j Hj ne. unfold K, kkt. rewrite !ltb_f by lia. rewrite (proj2 (Nat.eqb_neq (nv + r) (nv + j))) by lia. ring.
Qed.
Lemma dKK i j : (i < nv + nc)%nat -> (j < nv + nc)%nat -> is_derive (fun t => K t i j) s (K' i j).
Proof.
  intros Hi Hj. unfold K'. apply Derive_correct. unfold K, kkt.
  destruct (Nat.ltb_spec i nv) as [I|I], (Nat.ltb_spec j nv) as [Jj|Jj].
  - destruct (dM i j I Jj) as [l H]. now exists l.
  - destruct (dJ (j - nv)%nat i) as [l H]; [lia|assumption|]. now exists l.
  - destruct (dJ (i - nv)%nat j) as [l H]; [lia|assumption|]. now exists l.
  - exists 0. apply dconst.
Qed.
Lemma dbb i : (i < nv + nc)%nat -> is_derive (fun t => b t i) s (AB i + mulv (nv + nc) K' (z s) i).
Proof.
  intro Hi. apply (dext (fun t => (b t i - mulv (nv + nc) (K t) (z s) i) + mulv (nv + nc) (K t) (z s) i)); [intro; ring|].
  apply dplus.
  - destruct (Nat.lt_ge_cases i nv) as [L|L].
    + eapply dext; [|eapply deq; [apply (dA i L)|]].
      * intro t. cbv beta. rewrite mul_top by assumption. unfold b. rewrite ltb_t by assumption. ring.
      * unfold AB. now rewrite ltb_t.
    + replace i with (nv + (i - nv))%nat by lia. assert (R' : (i - nv < nc)%nat) by lia.
      apply (dext (fun t => (- g t (i - nv)%nat - rsum nv (fun j => J t (i - nv)%nat j * a s j)) - mu * f s (i - nv)%nat)).
      * intro t. rewrite mul_bot by assumption. unfold b. rewrite ltb_f by lia. rewrite sub_add. ring.
      * eapply deq; [apply dminus; [apply (dB _ R')|apply dconst]|]. unfold AB. rewrite ltb_f by lia. rewrite sub_add. ring.
  - unfold mulv. apply drsum. intros j Hj. eapply deq; [apply (dmult (fun t => K t i j) (fun _ => z s j)); [now apply dKK|apply dconst]|].
    cbv beta. ring.
Qed.
Lemma core i : (i < nv + nc)%nat ->
  is_derive (fun t => z t i) s (rsum nv (fun k => Kinv i k * A k) + rsum nc (fun r => Kinv i (nv + r)%nat * B r)).
Proof.
  intro Hi. eapply deq.
  - apply (implicit_derivative (nv + nc) K K' Kinv b (fun i => AB i + mulv (nv + nc) K' (z s) i) z s d0 dKK dbb inv d0pos).
    + intros t Ht j Hj. destruct (Nat.lt_ge_cases j nv) as [L|L].
      * rewrite mul_top by assumption. unfold b. rewrite ltb_t by assumption. now apply eq1.
      * replace j with (nv + (j - nv))%nat by lia. assert (R' : (j - nv < nc)%nat) by lia. rewrite mul_bot by assumption.
        unfold b. rewrite ltb_f by lia. rewrite sub_add. specialize (eq2 t Ht _ R'). lra.
    + assumption.
  - unfold mulv at 1. rewrite rsum_app. f_equal; apply rsum_ext; intros k Hk; f_equal.
    + unfold AB. rewrite ltb_t by assumption. ring.
    + unfold AB. rewrite ltb_f by lia. rewrite sub_add. ring.
Qed.
Lemma core_a i : (i < nv)%nat ->
  is_derive (fun t => a t i) s (rsum nv (fun k => Kinv i k * A k) + rsum nc (fun r => Kinv i (nv + r)%nat * B r)).
Proof.
  intro Hi. eapply dext; [|apply core; lia]. intro t. unfold z. now rewrite ltb_t.
Qed.
Lemma core_f r : (r < nc)%nat ->
  is_derive (fun t => f t r) s (- (rsum nv (fun k => Kinv (nv + r)%nat k * A k) + rsum nc (fun r' => Kinv (nv + r)%nat (nv + r')%nat * B r'))).
Proof.
  intro Hr. apply (dext (fun t => - z t (nv + r)%nat)).
  - intro t. unfold z. rewrite ltb_f by lia. rewrite sub_add. ring.
  - apply dopp. apply core. lia.
Qed.
End Core.

(** ** From the single contacts to the stacked rows *)
Definition zv : vec := fun _ => 0.
Section Multi.
Variables (nv nj : nat) (rb : robot) (s : R) (dx : vec) (all : bool).
(** Contacts with the derivatives they publish. *)
Variable cs : list (ccurve * (mat * mat)).
Definition items := map (fun x => cc_item (fst x)) cs.
Definition Jrows_at (cs : list (ccurve * (mat * mat))) (t : R) : list (citem * (nat -> vec)) := map (fun x => (cc_item (fst x), cc_J (fst x) t)) cs.
Definition a0_at (cs : list (ccurve * (mat * mat))) (t : R) : list (citem * (nat -> R)) := map (fun x => (cc_item (fst x), cc_a0 (fst x) t)) cs.
Definition da0_of (cs : list (ccurve * (mat * mat))) : list (citem * (nat -> vec)) := map (fun x => (cc_item (fst x), fst (snd x))) cs.
Definition fx_at (cs : list (ccurve * (mat * mat))) (t : R) : list (citem * (vec -> v6)) := map (fun x => (cc_item (fst x), cc_fx (fst x) t)) cs.
Definition dtau_of (cs : list (ccurve * (mat * mat))) : list (citem * mat) := map (fun x => (cc_item (fst x), snd (snd x))) cs.

(** Each active contact is all right for its part of the force. *)
Fixpoint all_ok (cs : list (ccurve * (mat * mat))) (nc : nat) (force a : vec) : Prop :=
  match cs with
  | [] => True
  | (c, (da0, dtau)) :: cs' =>
      if c_active (cc_item c) then
        contact_ok nv (r_G rb) s dx c (fun i => force (nc + i)%nat) a da0 dtau /\ all_ok cs' (nc + c_nc (cc_item c)) force a
      else all_ok cs' (if all then nc + c_nc (cc_item c) else nc) force a
  end.

Lemma ddot6 (f h : R -> v6) t df dh : is_d6 f t df -> is_d6 h t dh ->
  is_derive (fun u => dot6 (f u) (h u)) t (dot6 df (h t) + dot6 (f t) dh).
Proof.
  intros [F1 F2] [H1 H2]. unfold dot6. eapply deq; [apply dplus; [exact (ddot3 _ _ _ _ _ F1 H1)|exact (ddot3 _ _ _ _ _ F2 H2)]|]. cbv beta. ring.
Qed.
(** Pairing of the joint forces of the contacts with the joint motions, with forces taken at [t] and
    motions at [u]. *)
Fixpoint power2 (cs : list (ccurve * (mat * mat))) (nc : nat) (force : vec) (i : nat) (t u : R) : R :=
  match cs with
  | [] => 0
  | (c, _) :: cs' =>
      if c_active (cc_item c) then
        dot6 (cc_fx c t (fun k => force (nc + k)%nat)) (r_G rb u (c_joint (cc_item c)) i) + power2 cs' (nc + c_nc (cc_item c)) force i t u
      else power2 cs' (if all then nc + c_nc (cc_item c) else nc) force i t u
  end.
Fixpoint dtau_sum (cs : list (ccurve * (mat * mat))) (i : nat) : R :=
  match cs with
  | [] => 0
  | (c, (_, dtau)) :: cs' =>
      (if c_active (cc_item c) && negb (c_local (cc_item c)) then rsum nv (fun j => dtau i j * dx j) else 0) + dtau_sum cs' i
  end.
Lemma power2_J cs' nc force a i t : all_ok cs' nc force a -> (i < nv)%nat ->
  power2 cs' nc force i t t = by_contact all (fun r row => row i * force r) (Jrows_at cs' t) nc.
Proof.
  intros H Hi. revert nc H. induction cs' as [|[c [d1 d2]] cs' IH]; intros nc H; [reflexivity|].
  cbn [power2 all_ok Jrows_at map fst snd by_contact] in *. destruct (c_active (cc_item c)); cbn [orb] in *.
  - destruct H as [O H]. f_equal; [|apply IH; assumption]. rewrite (ok_dual _ _ _ _ _ _ _ _ _ O) by assumption.
    apply rsum_ext. intros; ring.
  - rewrite Rplus_0_l. now apply IH.
Qed.
Lemma power2_fx cs' nc force i t u : power2 cs' nc force i t u = sum_contacts all (fun j => r_G rb u j i) (fx_at cs' t) nc force.
Proof.
  revert nc. induction cs' as [|[c [d1 d2]] cs' IH]; intro nc; [reflexivity|].
  cbn [power2 fx_at map fst snd sum_contacts]. destruct (c_active (cc_item c)); cbn [orb]; [f_equal; apply IH|]. rewrite Rplus_0_l. apply IH.
Qed.
Lemma power2_derive cs' nc force a i : all_ok cs' nc force a -> smooth nv rb s -> (i < nv)%nat ->
  exists l, is_derive (fun t => power2 cs' nc force i s t) s l /\
    is_derive (fun t => power2 cs' nc force i t t) s (l - dtau_sum cs' i).
Proof.
  intros H (_ & _ & SG) Hi. revert nc H. induction cs' as [|[c [d1 d2]] cs' IH]; intros nc H.
  - exists 0. cbn [power2 dtau_sum]. rewrite Rminus_0_r. split; apply dconst.
  - cbn [power2 all_ok dtau_sum] in *. destruct (c_active (cc_item c)); cbn [andb].
    + destruct H as [O H]. destruct (IH _ H) as (l & L1 & L2).
      destruct (SG (c_joint (cc_item c)) i Hi) as [dG HG]. destruct (ok_fx _ _ _ _ _ _ _ _ _ O) as [dF HF].
      assert (DT := ok_dtau _ _ _ _ _ _ _ _ _ O i Hi).
      assert (E : rsum nv (fun j => d2 i j * dx j) = - dot6 dF (r_G rb s (c_joint (cc_item c)) i)).
      { eapply duniq; [exact DT|]. apply dopp.
        assert (CG : is_d6 (fun _ : R => r_G rb s (c_joint (cc_item c)) i) s z6) by (split; (split; [|split]); apply dconst).
        eapply deq; [apply (ddot6 _ _ _ _ _ HF CG)|]. cbv beta. generalize (cc_fx c s (fun i0 => force (nc + i0)%nat)). intro w.
        replace (dot6 w z6) with 0 by (v3u; ring). ring. }
      assert (LZ : (if negb (c_local (cc_item c)) then rsum nv (fun j => d2 i j * dx j) else 0) = rsum nv (fun j => d2 i j * dx j)).
      { destruct (c_local (cc_item c)) eqn:LL; [|reflexivity]. cbn [negb]. symmetry. apply rsum_0. intros j Hj.
        rewrite (ok_local _ _ _ _ _ _ _ _ _ O LL). ring. }
      rewrite LZ, E.
      exists (dot6 (cc_fx c s (fun k => force (nc + k)%nat)) dG + l). split.
      * apply dplus; [|exact L1].
        assert (CF : is_d6 (fun _ : R => cc_fx c s (fun k => force (nc + k)%nat)) s z6) by (split; (split; [|split]); apply dconst).
        eapply deq; [apply (ddot6 _ _ _ _ _ CF HG)|]. rewrite dot6_z. ring.
      * eapply deq; [apply dplus; [apply (ddot6 _ _ _ _ _ HF HG)|exact L2]|]. ring.
    + destruct (IH _ H) as (l & L1 & L2). exists l. split; [assumption|]. eapply deq; [exact L2|]. ring.
Qed.
Lemma dtau_sum_rnea cs' D i : (i < nv)%nat ->
  rsum nv (fun j => rnea_diff (dtau_of cs') D i j * dx j) = rsum nv (fun j => D i j * dx j) + dtau_sum cs' i.
Proof.
  intro Hi. revert D. induction cs' as [|[c [d1 d2]] cs' IH]; intro D; [cbn [dtau_of map rnea_diff dtau_sum]; ring|].
  cbn [dtau_of map rnea_diff dtau_sum fst snd]. rewrite IH. destruct (c_active (cc_item c) && negb (c_local (cc_item c))).
  - rewrite (rsum_ext nv _ (fun j => D i j * dx j + d2 i j * dx j)) by (intros; ring). rewrite rsum_plus. ring.
  - ring.
Qed.

(** The stacked rows. *)
Definition nc_of (cs : list (ccurve * (mat * mat))) : nat := nc_used all (map (fun x => cc_item (fst x)) cs).
Definition Jst (bufJ : R -> nat -> vec) (t : R) : mat := stack zv all (Jrows_at cs t) 0 (bufJ t).
Definition a0st (bufa : R -> vec) (t : R) : vec := stack 0 all (a0_at cs t) 0 (bufa t).
Definition da0st (bufd : mat) : mat := stack zv all (da0_of cs) 0 bufd.

Lemma map_items_J t : map fst (Jrows_at cs t) = items.
Proof. unfold Jrows_at, items. rewrite map_map. reflexivity. Qed.
Lemma map_items_a t : map fst (a0_at cs t) = items.
Proof. unfold a0_at, items. rewrite map_map. reflexivity. Qed.
Lemma map_items_d : map fst (da0_of cs) = items.
Proof. unfold da0_of, items. rewrite map_map. reflexivity. Qed.
Lemma map_items_f t : map fst (fx_at cs t) = items.
Proof. unfold fx_at, items. rewrite map_map. reflexivity. Qed.

(** A row of the stack belongs to some active contact. *)
Lemma row_owner (cs' : list (ccurve * (mat * mat))) nc force a r : all = false -> all_ok cs' nc force a -> (nc <= r < nc + nc_of cs')%nat ->
  exists c da0 dtau k nc', (k < c_nc (cc_item c))%nat /\
    contact_ok nv (r_G rb) s dx c (fun i => force (nc' + i)%nat) a da0 dtau /\
    (forall t buf, stack zv all (Jrows_at cs' t) nc buf r = cc_J c t k) /\
    (forall t buf, stack 0 all (a0_at cs' t) nc buf r = cc_a0 c t k) /\
    (forall buf, stack zv all (da0_of cs') nc buf r = da0 k).
Proof.
  intros NA. unfold nc_of. rewrite NA. revert nc. induction cs' as [|[c [d1 d2]] cs' IH]; intros nc H L.
  - cbn [map nc_used nc_active fold_right] in L. lia.
  - cbn [all_ok Jrows_at a0_at da0_of map fst snd stack] in *. rewrite nc_used_cons in L. destruct (c_active (cc_item c)); cbn [orb] in L.
    + destruct H as [O H]. destruct (Nat.lt_ge_cases r (nc + c_nc (cc_item c))) as [Q|Q].
      * exists c, d1, d2, (r - nc)%nat, nc. split; [lia|]. split; [exact O|].
        assert (X : forall (T : Type) zero all (rows : list (citem * (nat -> T))) (x : nat -> T) buf,
          stack zero all rows (nc + c_nc (cc_item c)) (setseg nc (c_nc (cc_item c)) x buf) r = x (r - nc)%nat).
        { intros. rewrite stack_before by assumption. replace r with (nc + (r - nc))%nat at 1 by lia. apply setseg_in. lia. }
        split; [|split]; intros; apply X.
      * destruct (IH (nc + c_nc (cc_item c))%nat H) as (c' & e1 & e2 & k & nc' & K1 & K2 & K3 & K4 & K5); [lia|].
        exists c', e1, e2, k, nc'. split; [assumption|]. split; [assumption|]. split; [|split]; intros; [apply K3|apply K4|apply K5].
    + destruct (IH nc ltac:(rewrite NA in H; exact H)) as (c' & e1 & e2 & k & nc' & K1 & K2 & K3 & K4 & K5); [lia|].
      exists c', e1, e2, k, nc'. auto.
Qed.

Section Residuals.
Variables (force a : vec) (bufJ : R -> nat -> vec) (bufa : R -> vec) (bufd : mat).
Hypothesis OK : all_ok cs 0 force a.
Hypothesis SM : smooth nv rb s.
Lemma Jst_diff r i : all = false -> (r < nc_of cs)%nat -> (i < nv)%nat -> differentiable (fun t => Jst bufJ t r i) s.
Proof.
  intros NA Hr Hi. destruct (row_owner cs 0 force a r NA OK) as (c & e1 & e2 & k & nc' & K1 & K2 & K3 & _ & _); [lia|].
  destruct (ok_J _ _ _ _ _ _ _ _ _ K2 k i K1 Hi) as [l Hl]. exists l. eapply dext; [|exact Hl].
  intro t. unfold Jst. now rewrite (K3 t (bufJ t)).
Qed.
Lemma res_a0 r : all = false -> (r < nc_of cs)%nat ->
  is_derive (fun t => - a0st bufa t r - rsum nv (fun j => Jst bufJ t r j * a j)) s
    (- rsum (nv + nv) (fun j => da0st bufd r j * dx j)).
Proof.
  intros NA Hr. destruct (row_owner cs 0 force a r NA OK) as (c & e1 & e2 & k & nc' & K1 & K2 & K3 & K4 & K5); [lia|].
  unfold da0st. rewrite (K5 bufd).
  apply (dext (fun t => - (cc_a0 c t k + rsum nv (fun j => cc_J c t k j * a j)))).
  - intro t. unfold a0st, Jst. rewrite (K4 t (bufa t)), (K3 t (bufJ t)). ring.
  - apply dopp. apply (ok_a0 _ _ _ _ _ _ _ _ _ K2). assumption.
Qed.
(** The inverse dynamics with the contact forces moving with the contacts. *)
Lemma res_rnea acc fext rq rv i : (i < nv)%nat ->
  NoDup (joints items) -> (forall j, In j (joints items) -> (j < nj)%nat) ->
  fext = snd (update all (fx_at cs s) 0 force (fun _ => z6)) ->
  rnea_contract nv nj rb s dx acc fext rq rv ->
  is_derive (fun t => rsum nv (fun j => r_M rb t i j * acc j) + r_nle rb t i - rsum (nc_of cs) (fun r => Jst bufJ t r i * force r)) s
    (rsum nv (fun j => rnea_diff (dtau_of cs) rq i j * dx j) + rsum nv (fun j => rv i j * dx (nv + j)%nat)).
Proof.
  intros Hi ND LJ -> RC. specialize (RC i Hi).
  destruct (power2_derive cs 0 force a i OK SM Hi) as (l & L1 & L2).
  assert (P1 : forall t, rsum nj (fun j => dot6 (snd (update all (fx_at cs s) 0 force (fun _ => z6)) j) (r_G rb t j i)) = power2 cs 0 force i s t).
  { intro t. assert (X := update_sum all nj (fun j => r_G rb t j i) (fx_at cs s) 0 force (fun _ => z6)).
    rewrite map_items_f in X. rewrite X by auto. rewrite rsum_0 by (intros; apply dot6_z). rewrite Rplus_0_l. symmetry. apply power2_fx. }
  assert (P2 : forall t, rsum (nc_of cs) (fun r => Jst bufJ t r i * force r) = power2 cs 0 force i t t).
  { intro t. rewrite (power2_J cs 0 force a i t OK Hi). unfold nc_of. fold items. rewrite <- (map_items_J t).
    etransitivity; [|apply (stack_sum zv all (fun r row => row i * force r) (Jrows_at cs t) 0 (bufJ t)); intros; unfold zv; ring].
    reflexivity. }
  rewrite dtau_sum_rnea by assumption.
  apply (dext (fun t => (rsum nv (fun j => r_M rb t i j * acc j) + r_nle rb t i - power2 cs 0 force i s t) + (power2 cs 0 force i s t - power2 cs 0 force i t t))).
  - intro t. rewrite P2. ring.
  - eapply deq; [apply dplus; [eapply dext; [|exact RC]; intro t; cbv beta; rewrite P1; reflexivity|apply dminus; [exact L1|exact L2]]|]. ring.
Qed.
End Residuals.
End Multi.
