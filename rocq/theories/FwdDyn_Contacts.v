(** The contact models of Contact_Model.v as contacts of the forward dynamics. *)
From Coquelicot Require Import Coquelicot.
From Coq Require Import Reals List Arith Bool Lia Lra.
From Verif Require Import Deriv VecMat Implicit Spatial Spatial_Proofs Contact_Model Contact_Spec Contact_Proofs
  MultiContact_Model MultiContact_Proofs FwdDyn_Model FwdDyn_Spec FwdDyn_Proofs.
Import ListNotations.
Open Scope R_scope.

(** *** Contact models as data *)
Inductive ckind :=
| K1 (xref : R) (Raxis : m3)
| K2 (xref : R * R)
| K3 (xref : v3)
| K6 (log6 : se3 -> v6) (Jlog6 : se3 -> m6) (pref : se3).
Record cmodel := CModel { cm_kind : ckind; cm_type : ftype; cm_g0 : R; cm_g1 : R; cm_jMf : se3; cm_joint : nat; cm_active : bool }.

Definition v3i (a : v3) (i : nat) : R := match i with O => c1 a | S O => c2 a | _ => c3 a end.
Definition v6i (a : v6) (i : nat) : R := if i <? 3 then v3i (lin a) i else v3i (ang a) (i - 3).
Definition v2i (a : R * R) (i : nat) : R := match i with O => fst a | _ => snd a end.
Definition of3 (f : vec) : v3 := V3 (f 0%nat) (f 1%nat) (f 2%nat).
Definition of6 (f : vec) : v6 := V6 (of3 f) (of3 (fun i => f (3 + i)%nat)).
Definition of2 (f : vec) : R * R := (f 0%nat, f 1%nat).

(** The 2d contact has the type LOCAL (contact-2d.hxx:16, 26). *)
Definition is_local (t : ftype) : bool := match t with LOCAL => true | _ => false end.
Definition item_of (m : cmodel) : citem :=
  CItem (match cm_kind m with K1 _ _ => 1%nat | K2 _ => 2%nat | K3 _ => 3%nat | K6 _ _ _ => 6%nat end) (cm_active m) (cm_joint m)
    (match cm_kind m with K2 _ => true | _ => is_local (cm_type m) end).
(** What the contact computes from kinematics [k] taken with zero acceleration. *)
Definition curve (m : cmodel) (k : R -> kin) : ccurve :=
  let (kind, ty, g0, g1, jMf, _, _) := m in
  match kind with
  | K1 xref Ra => CCurve (item_of m) (fun t _ j => Jc1 ty Ra (k t) j) (fun t _ => a01 ty g0 g1 xref Ra (k t))
                    (fun t f => fext1 ty jMf Ra (k t) (f 0%nat))
  | K2 xref => CCurve (item_of m) (fun t r j => v2i (Jc2 (k t) j) r) (fun t => v2i (a02 g0 g1 xref (k t)))
                    (fun t f => fext2 jMf (of2 f))
  | K3 xref => CCurve (item_of m) (fun t r j => v3i (Jc3 ty (k t) j) r) (fun t => v3i (a03 ty g0 g1 xref (k t)))
                    (fun t f => fext3 ty jMf (k t) (of3 f))
  | K6 log6 _ pref => CCurve (item_of m) (fun t r j => v6i (Jc6 ty (k t) j) r) (fun t => v6i (a06 log6 ty g0 g1 pref (k t)))
                    (fun t f => fext6 ty jMf (k t) (of6 f))
  end.
(** What it publishes in calcDiff and updateForce from the kinematics [k] at the acceleration of the
    motion. *)
Definition published (nv : nat) (m : cmodel) (k : kin) (force : vec) : mat * mat :=
  let (kind, ty, g0, g1, jMf, _, _) := m in
  match kind with
  | K1 xref Ra => (hcat nv (fun _ => da01_dq ty jMf g0 g1 xref Ra k) (fun _ => da01_dv ty jMf g1 Ra k),
                   dtau1 ty Ra k (force 0%nat))
  | K2 xref => (hcat nv (fun r j => v2i (da02_dq jMf g0 g1 k j) r) (fun r j => v2i (da02_dv jMf g1 k j) r), fun _ _ => 0)
  | K3 xref => (hcat nv (fun r j => v3i (da03_dq ty jMf g0 g1 xref k j) r) (fun r j => v3i (da03_dv ty jMf g1 k j) r),
                dtau3 ty k (of3 force))
  | K6 log6 Jlog6 pref => (hcat nv (fun r j => v6i (da06_dq log6 Jlog6 ty jMf g0 g1 pref k j) r) (fun r j => v6i (da06_dv ty jMf g1 k j) r),
                dtau6 ty k (of6 force))
  end.

(** *** Kinematics *)
(** The same motion seen with zero acceleration and with the generalised acceleration [a]: the spatial
    acceleration is affine in it. *)
Record accelerated (nv : nat) (k0 ka : R -> kin) (a : vec) : Prop := {
  ac_M : forall t, oMf (ka t) = oMf (k0 t);
  ac_J : forall t, fJf (ka t) = fJf (k0 t);
  ac_v : forall t, vel (ka t) = vel (k0 t);
  ac_a : forall t, acc (ka t) = add6 (acc (k0 t)) (comb6 nv (fJf (k0 t)) a) }.
(** The frame is fixed to its parent joint. *)
Definition attached (G : R -> nat -> nat -> v6) (m : cmodel) (k0 : R -> kin) : Prop :=
  forall t j, fJf (k0 t) j = actinv_motion (cm_jMf m) (G t (cm_joint m) j).
(** Side conditions of the kinds: a rotation, log6 where it is used, and the condition under which the
    2d contact's derivative is right (C79). *)
Definition side (nv : nat) (m : cmodel) (k : kin) : Prop :=
  match cm_kind m with
  | K1 _ Ra => rotation Ra
  | K2 _ => cm_g0 m = 0 \/ (c2 (row1 (rot (oMf k))) = 0 /\ c2 (row3 (rot (oMf k))) = 0) \/ (forall j, (j < nv)%nat -> c2 (lin (fJf k j)) = 0)
  | K3 _ => True
  | K6 log6 Jlog6 pref => cm_g0 m <> 0 -> log6_contract log6 Jlog6 (rMf pref k)
  end.
Definition left (dx : vec) : vec := dx.
Definition right (nv : nat) (dx : vec) : vec := fun j => dx (nv + j)%nat.
Definition good_contact (nv : nat) (G : R -> nat -> nat -> v6) (s : R) (dx a : vec) (m : cmodel) (k0 ka : R -> kin) : Prop :=
  accelerated nv k0 ka a /\ attached G m k0 /\ moves nv (cm_jMf m) ka s dx (right nv dx) /\ side nv m (ka s).

(** ** Proofs *)
Lemma hcat_sum nv (A B : mat) r dx : rsum (nv + nv) (fun j => hcat nv A B r j * dx j) =
  rsum nv (fun j => A r j * dx j) + rsum nv (fun j => B r j * dx (nv + j)%nat).
Proof.
  rewrite rsum_app. f_equal; apply rsum_ext; intros j Hj; unfold hcat; [now rewrite ltb_t|]. rewrite ltb_f by lia. now rewrite sub_add.
Qed.
Lemma hcat_sumv nv (A B : mat) r dx dv : dv = right nv dx -> rsum (nv + nv) (fun j => hcat nv A B r j * dx j) =
  rsum nv (fun j => A r j * dx j) + rsum nv (fun j => B r j * dv j).
Proof. intros ->. apply hcat_sum. Qed.
Lemma lt3 r : (r < 3)%nat -> r = 0%nat \/ r = 1%nat \/ r = 2%nat. Proof. lia. Qed.
Lemma v3i_d f t d r : (r < 3)%nat -> is_d3 f t d -> is_derive (fun u => v3i (f u) r) t (v3i d r).
Proof. intros Hr (A & B & C). destruct (lt3 r Hr) as [-> |[-> | ->]]; assumption. Qed.
Lemma v6i_d f t d r : (r < 6)%nat -> is_d6 f t d -> is_derive (fun u => v6i (f u) r) t (v6i d r).
Proof.
  intros Hr [A B]. unfold v6i. destruct (Nat.ltb_spec r 3) as [L|L].
  - exact (v3i_d _ _ _ _ L A).
  - refine (v3i_d _ _ _ _ _ B). lia.
Qed.
Lemma v2i_d f t d r : (r < 2)%nat -> is_d2 f t d -> is_derive (fun u => v2i (f u) r) t (v2i d r).
Proof. intros Hr (A & B). assert (X : r = 0%nat \/ r = 1%nat) by lia. destruct X as [-> | ->]; assumption. Qed.
Lemma v3i_comb n J w r : (r < 3)%nat -> v3i (comb3 n J w) r = rsum n (fun j => v3i (J j) r * w j).
Proof. intro Hr. destruct (lt3 r Hr) as [-> |[-> | ->]]; reflexivity. Qed.
Lemma v6i_comb n J w r : (r < 6)%nat -> v6i (comb6 n J w) r = rsum n (fun j => v6i (J j) r * w j).
Proof.
  intro Hr. unfold v6i. destruct (Nat.ltb_spec r 3) as [L|L].
  - exact (v3i_comb n (fun j => lin (J j)) w r L).
  - refine (v3i_comb n (fun j => ang (J j)) w (r - 3) _). lia.
Qed.
Lemma v2i_comb n J w r : (r < 2)%nat -> v2i (comb2 n J w) r = rsum n (fun j => v2i (J j) r * w j).
Proof. intro Hr. assert (X : r = 0%nat \/ r = 1%nat) by lia. destruct X as [-> | ->]; reflexivity. Qed.
Lemma v3i_add a b r : (r < 3)%nat -> v3i (add3 a b) r = v3i a r + v3i b r.
Proof. intro Hr. destruct (lt3 r Hr) as [-> |[-> | ->]]; reflexivity. Qed.
Lemma v6i_add a b r : (r < 6)%nat -> v6i (add6 a b) r = v6i a r + v6i b r.
Proof. intro Hr. unfold v6i. destruct (Nat.ltb_spec r 3) as [L|L]; [exact (v3i_add (lin a) (lin b) r L)|]. refine (v3i_add (ang a) (ang b) (r - 3) _). lia. Qed.
Lemma v2i_add a b r : (r < 2)%nat -> v2i (add2 a b) r = v2i a r + v2i b r.
Proof. intro Hr. assert (X : r = 0%nat \/ r = 1%nat) by lia. destruct X as [-> | ->]; reflexivity. Qed.
Lemma sum3 g (a : v3) : rsum 3 (fun k => g k * v3i a k) = dot3 (of3 g) a.
Proof. cbn [rsum]. unfold of3, dot3. cbn [v3i c1 c2 c3]. ring. Qed.
Lemma sum6 g (a : v6) : rsum 6 (fun k => g k * v6i a k) = dot6 (of6 g) a.
Proof. cbn [rsum]. unfold of6, of3, dot6, dot3, v6i. cbn [v3i c1 c2 c3 lin ang Nat.ltb Nat.leb Nat.sub Nat.add]. ring. Qed.

Lemma d6actinv M f t d : is_d6 f t d -> is_d6 (fun u => actinv_motion M (f u)) t (actinv_motion M d).
Proof.
  intros [A B]. unfold actinv_motion. split; cbn [lin ang].
  - apply d3mvc. eapply d3eq; [apply d3sub; [exact A|apply d3cross; [apply d3const|exact B]]|]. v3r.
  - apply d3mvc. exact B.
Qed.
Lemma d6act M f t d : is_d6 f t d -> is_d6 (fun u => act_force M (f u)) t (act_force M d).
Proof.
  intros [A B]. unfold act_force. split; cbn [lin ang].
  - apply d3mvc. exact A.
  - apply d3add; [apply d3mvc; exact B|]. eapply d3eq; [apply d3cross; [apply d3const|apply d3mvc; exact A]|]. v3r.
Qed.

Section One.
Context (nv : nat) (G : R -> nat -> nat -> v6) (s : R) (dx dv a : vec) (m : cmodel) (k0 ka : R -> kin).
Hypothesis AM : forall t, oMf (ka t) = oMf (k0 t).
Hypothesis AJ : forall t, fJf (ka t) = fJf (k0 t).
Hypothesis AC : accelerated nv k0 ka a.
Hypothesis AT : attached G m k0.
Hypothesis MV : moves nv (cm_jMf m) ka s dx dv.
Hypothesis SG : forall joint i, (i < nv)%nat -> d6able (fun t => G t joint i) s.

Lemma d_J i : (i < nv)%nat -> exists d, is_d6 (fun t => fJf (k0 t) i) s d.
Proof.
  intro Hi. destruct (SG (cm_joint m) i Hi) as [d H]. exists (actinv_motion (cm_jMf m) d).
  destruct (d6actinv (cm_jMf m) _ _ _ H) as [A B]. split; (eapply d3ext; [|eassumption]); intro t; cbv beta; now rewrite AT.
Qed.
Lemma d_R : is_dm (fun t => rot (oMf (k0 t))) s (mm (rot (oMf (ka s))) (skew (ang (comb6 nv (fJf (ka s)) dx)))).
Proof.
  destruct (mv_R _ _ _ _ _ _ MV) as (A & B & C).
  split; [|split]; (eapply d3ext; [|eassumption]); intro t; cbv beta; now rewrite AM.
Qed.
Lemma same_J t : fJf (ka t) = fJf (k0 t). Proof. apply AJ. Qed.
Lemma at_s j : fJf (ka s) j = actinv_motion (cm_jMf m) (G s (cm_joint m) j).
Proof. rewrite same_J. apply AT. Qed.

(** Affine dependence on the acceleration. *)
Lemma when_add g x y z : when g (add3 x y) z = add3 (when g x z) y.
Proof. unfold when. destruct (Req_EM_T g 0); [reflexivity|]. v3r. Qed.
Lemma when6_add g x y z : when6 g (add6 x y) z = add6 (when6 g x z) y.
Proof. unfold when6. destruct (Req_EM_T g 0); [reflexivity|]. v6r. Qed.
Lemma classical_a t : classical (ka t) = add3 (classical (k0 t)) (comb3 nv (fun j => lin (fJf (k0 t) j)) a).
Proof.
  unfold classical. rewrite (ac_a _ _ _ _ AC), (ac_v _ _ _ _ AC). unfold comb6, add6. cbn [lin].
  generalize (comb3 nv (fun j => lin (fJf (k0 t) j)) a). intro. v3r.
Qed.
Lemma a0_local_a g0 g1 pref t : a0_local g0 g1 pref (ka t) = add3 (a0_local g0 g1 pref (k0 t)) (comb3 nv (fun j => lin (fJf (k0 t) j)) a).
Proof.
  unfold a0_local, dp_local, oRf. rewrite classical_a, (ac_v _ _ _ _ AC), (ac_M _ _ _ _ AC). now rewrite !when_add.
Qed.
Lemma a03_a ty g0 g1 xref t : a03 ty g0 g1 xref (ka t) = add3 (a03 ty g0 g1 xref (k0 t)) (comb3 nv (Jc3 ty (k0 t)) a).
Proof.
  unfold a03, oRf. rewrite a0_local_a, (ac_M _ _ _ _ AC). destruct ty; [reflexivity| |];
    rewrite mv_add; f_equal; unfold Jc3, oRf; symmetry; apply comb3_mv.
Qed.
Lemma a01_a ty g0 g1 xref Ra t : a01 ty g0 g1 xref Ra (ka t) = a01 ty g0 g1 xref Ra (k0 t) + rsum nv (fun j => Jc1 ty Ra (k0 t) j * a j).
Proof.
  unfold a01, oRf. rewrite a0_local_a, (ac_M _ _ _ _ AC).
  destruct ty; rewrite mv_add; cbn [add3 c3]; f_equal; unfold Jc1, oRf; symmetry; apply rsum_c3_mv.
Qed.
Lemma a06_a log6 ty g0 g1 pref t : a06 log6 ty g0 g1 pref (ka t) = add6 (a06 log6 ty g0 g1 pref (k0 t)) (comb6 nv (Jc6 ty (k0 t)) a).
Proof.
  assert (L : a06_local log6 g0 g1 pref (ka t) = add6 (a06_local log6 g0 g1 pref (k0 t)) (comb6 nv (fJf (k0 t)) a)).
  { unfold a06_local, rMf. rewrite (ac_a _ _ _ _ AC), (ac_v _ _ _ _ AC), (ac_M _ _ _ _ AC). now rewrite !when6_add. }
  assert (X : rot6 (oRf (k0 t)) (comb6 nv (fJf (k0 t)) a) = comb6 nv (fun j => rot6 (oRf (k0 t)) (fJf (k0 t) j)) a).
  { unfold rot6, comb6. cbn [lin ang]. f_equal; symmetry; apply comb3_mv. }
  assert (Y : forall F x y, rot6 F (add6 x y) = add6 (rot6 F x) (rot6 F y)) by (intros; v6r).
  unfold a06. rewrite L. unfold oRf in *. rewrite (ac_M _ _ _ _ AC). destruct ty; [reflexivity| |]; rewrite Y, X; reflexivity.
Qed.
Lemma a02_a g0 g1 xref t : a02 g0 g1 xref (ka t) = add2 (a02 g0 g1 xref (k0 t)) (comb2 nv (Jc2 (k0 t)) a).
Proof.
  unfold a02. rewrite classical_a, (ac_v _ _ _ _ AC), (ac_M _ _ _ _ AC).
  unfold when2, xz, add2, comb2, Jc2. destruct (Req_EM_T g0 0), (Req_EM_T g1 0); cbn [fst snd add3 comb3 c1 c3 xz]; f_equal; ring.
Qed.

Lemma d3_J3 ty i : (i < nv)%nat -> exists d, is_d3 (fun t => Jc3 ty (k0 t) i) s d.
Proof.
  intro Hi. destruct (d_J i Hi) as [d [A B]]. unfold Jc3, oRf. destruct ty.
  - exists (lin d). exact A.
  - eexists. apply (d3mv (fun t => rot (oMf (k0 t))) (fun t => lin (fJf (k0 t) i))); [exact d_R|exact A].
  - eexists. apply (d3mv (fun t => rot (oMf (k0 t))) (fun t => lin (fJf (k0 t) i))); [exact d_R|exact A].
Qed.
Lemma d6_J6 ty i : (i < nv)%nat -> exists d, is_d6 (fun t => Jc6 ty (k0 t) i) s d.
Proof.
  intro Hi. destruct (d_J i Hi) as [d [A B]]. unfold Jc6, oRf, rot6. destruct ty.
  - exists d. split; [exact A|exact B].
  - exists (V6 (add3 (mv (mm (rot (oMf (ka s))) (skew (ang (comb6 nv (fJf (ka s)) dx)))) (lin (fJf (k0 s) i))) (mv (rot (oMf (k0 s))) (lin d)))
             (add3 (mv (mm (rot (oMf (ka s))) (skew (ang (comb6 nv (fJf (ka s)) dx)))) (ang (fJf (k0 s) i))) (mv (rot (oMf (k0 s))) (ang d)))).
    split; [exact (d3mv _ _ _ _ _ d_R A)|exact (d3mv _ _ _ _ _ d_R B)].
  - exists (V6 (add3 (mv (mm (rot (oMf (ka s))) (skew (ang (comb6 nv (fJf (ka s)) dx)))) (lin (fJf (k0 s) i))) (mv (rot (oMf (k0 s))) (lin d)))
             (add3 (mv (mm (rot (oMf (ka s))) (skew (ang (comb6 nv (fJf (ka s)) dx)))) (ang (fJf (k0 s) i))) (mv (rot (oMf (k0 s))) (ang d)))).
    split; [exact (d3mv _ _ _ _ _ d_R A)|exact (d3mv _ _ _ _ _ d_R B)].
Qed.
Lemma d6c (c : v6) : is_d6 (fun _ : R => c) s z6. Proof. split; apply d3const. Qed.
Lemma d_back c : exists d, is_d3 (fun t => mv (mt (rot (oMf (k0 t)))) c) s d.
Proof. eexists. apply (d3mv (fun t => mt (rot (oMf (k0 t)))) (fun _ => c)); [apply dmt; exact d_R|apply d3const]. Qed.

Lemma fx_ext (f g : R -> v6) d : (forall t, f t = g t) -> is_d6 f s d -> is_d6 g s d.
Proof. intros E [A B]. split; (eapply d3ext; [|eassumption]); intro t; cbv beta; now rewrite E. Qed.
Lemma fext1_k ty Ra t f : fext1 ty (cm_jMf m) Ra (ka t) f = fext1 ty (cm_jMf m) Ra (k0 t) f.
Proof. unfold fext1, f1_local, oRf. now rewrite AM. Qed.
Lemma fext3_k ty t f : fext3 ty (cm_jMf m) (ka t) f = fext3 ty (cm_jMf m) (k0 t) f.
Proof. unfold fext3, f3_local, oRf. now rewrite AM. Qed.
Lemma fext6_k ty t f : fext6 ty (cm_jMf m) (ka t) f = fext6 ty (cm_jMf m) (k0 t) f.
Proof. unfold fext6, f6_local, oRf. now rewrite AM. Qed.

Lemma one_ok force : dv = right nv dx -> side nv m (ka s) ->
  contact_ok nv G s dx (curve m k0) force a (fst (published nv m (ka s) force)) (snd (published nv m (ka s) force)).
Proof.
  intros EV SD. pose proof d_back as DB. pose proof d_J as DJ. pose proof d3_J3 as DJ3. pose proof d6_J6 as DJ6. pose proof at_s as ATS.
  pose proof fext1_k as F1. pose proof fext3_k as F3. pose proof fext6_k as F6.
  destruct m as [kind ty g0 g1 jMf joint act]. unfold side in SD. unfold attached in AT. cbn [cm_kind cm_type cm_g0 cm_g1 cm_jMf cm_joint] in *.
  destruct kind as [xref Ra|xref|xref|log6 Jlog6 pref]; cbn [curve published fst snd item_of cc_item cc_J cc_a0 cc_fx c_nc c_joint c_local cm_kind cm_type cm_joint cm_active] in *;
    constructor; cbn [curve published fst snd item_of cc_item cc_J cc_a0 cc_fx c_nc c_joint c_local cm_kind cm_type cm_joint cm_active] in *.
  (* 1d *)
  - intros t g i Hi. rewrite (torque1 jMf (k0 t) (G t joint)) by apply AT. cbn [rsum]. ring.
  - unfold fext1. destruct ty; [exists z6; apply d6c| |];
      (destruct (DB (mv (mt Ra) ez)) as [d Hd];
       exists (act_force jMf (V6 (scal3 (force 0%nat) d) z3)); apply (d6act jMf (fun t => f1_local Ra (k0 t) (force 0%nat)));
       split; [|exact (d3const z3 s)]; cbn [f1_local lin];
       eapply d3ext; [|apply (d3scal (force 0%nat)); exact Hd]; intro t; cbv beta; unfold oRf; rewrite col3_ez, mv_mm; reflexivity).
  - intros i Hi. eapply dext; [|apply (dtau1_ok nv jMf ka s dx dv MV (G s joint) ATS ty Ra (force 0%nat) i)].
    intro t. cbv beta. now rewrite F1.
  - intros E i j. destruct ty; [reflexivity|discriminate|discriminate].
  - intros r i Hr Hi. unfold Jc1, oRf. destruct (DJ i Hi) as [d [A B]].
    destruct (DJ3 LOCAL_WORLD_ALIGNED i Hi) as [d' D'].
    destruct ty; [exists (c3 (mv Ra (lin d))); exact (proj2 (proj2 (d3mvc Ra _ _ _ A)))| |];
      (exists (c3 (mv Ra d')); eapply dext; [|exact (proj2 (proj2 (d3mvc Ra _ _ _ D')))]; intro t; cbv beta; now rewrite mv_mm).
  - intros r Hr. rewrite (hcat_sumv _ _ _ _ _ _ EV). eapply dext; [|exact (d_a01 nv jMf ka s dx dv MV ty g0 g1 xref Ra SD)].
    intro t. cbv beta. apply a01_a.
  (* 2d *)
  - intros t g i Hi. rewrite (torque2 jMf (k0 t) (G t joint)) by apply AT. cbn [rsum of2 fst snd v2i]. ring.
  - exists z6. apply d6c.
  - intros i Hi. eapply deq; [apply dconst|]. symmetry. apply rsum_0. intros; ring.
  - reflexivity.
  - intros r i Hr Hi. destruct (DJ i Hi) as [d [(A & _ & C) B]]. assert (X : r = 0%nat \/ r = 1%nat) by lia.
    destruct X as [-> | ->]; [exists (c1 (lin d)); exact A|exists (c3 (lin d)); exact C].
  - intros r Hr. rewrite (hcat_sumv _ _ _ _ _ _ EV). eapply deq.
    + eapply dext; [|refine (v2i_d _ _ _ r Hr (d_a02 nv jMf ka s dx dv MV g0 g1 xref _))].
      * intro t. cbv beta. rewrite a02_a, v2i_add, v2i_comb by assumption. reflexivity.
      * intro ne. destruct SD as [H|[[H1 H2]|H]]; [contradiction|rewrite H1, H2; lra|].
        cbn [comb6 lin comb3 c2]. rewrite rsum_0; [lra|]. intros j Hj. rewrite H by assumption. ring.
    + rewrite v2i_add, !v2i_comb by assumption. reflexivity.
  (* 3d *)
  - intros t g i Hi. rewrite (torque3 jMf (k0 t) (G t joint)) by apply AT. now rewrite sum3.
  - unfold fext3. destruct ty; [exists z6; apply d6c| |];
      (destruct (DB (of3 force)) as [d Hd]; exists (act_force jMf (V6 d z3)); apply (d6act jMf (fun t => f3_local (k0 t) (of3 force)));
       split; [exact Hd|exact (d3const z3 s)]).
  - intros i Hi. eapply dext; [|apply (dtau3_ok nv jMf ka s dx dv MV (G s joint) ATS ty (of3 force) i)].
    intro t. cbv beta. now rewrite F3.
  - intros E i j. destruct ty; [reflexivity|discriminate|discriminate].
  - intros r i Hr Hi. destruct (DJ3 ty i Hi) as [d D]. exists (v3i d r). exact (v3i_d _ _ _ _ Hr D).
  - intros r Hr. rewrite (hcat_sumv _ _ _ _ _ _ EV). eapply deq.
    + eapply dext; [|exact (v3i_d _ _ _ r Hr (d_a03 nv jMf ka s dx dv MV ty g0 g1 xref))].
      intro t. cbv beta. rewrite a03_a, v3i_add, v3i_comb by assumption. reflexivity.
    + rewrite v3i_add, !v3i_comb by assumption. reflexivity.
  (* 6d *)
  - intros t g i Hi. rewrite (torque6 jMf (k0 t) (G t joint)) by apply AT. now rewrite sum6.
  - unfold fext6. destruct ty; [exists z6; apply d6c| |];
      (destruct (DB (lin (of6 force))) as [d Hd]; destruct (DB (ang (of6 force))) as [e He];
       exists (act_force jMf (V6 d e)); apply (d6act jMf (fun t => f6_local (k0 t) (of6 force)));
       split; [exact Hd|exact He]).
  - intros i Hi. eapply dext; [|apply (dtau6_ok nv jMf ka s dx dv MV (G s joint) ATS ty (of6 force) i)].
    intro t. cbv beta. now rewrite F6.
  - intros E i j. destruct ty; [reflexivity|discriminate|discriminate].
  - intros r i Hr Hi. destruct (DJ6 ty i Hi) as [d D]. exists (v6i d r). exact (v6i_d _ _ _ _ Hr D).
  - intros r Hr. rewrite (hcat_sumv _ _ _ _ _ _ EV). eapply deq.
    + eapply dext; [|exact (v6i_d _ _ _ r Hr (d_a06 nv jMf ka s dx dv MV log6 Jlog6 ty g0 g1 pref SD))].
      intro t. cbv beta. rewrite a06_a, v6i_add, v6i_comb by assumption. reflexivity.
    + rewrite v6i_add, !v6i_comb by assumption. reflexivity.
Qed.

(** Impulses: the rows and forces are those of a contact, the derivative that of the velocity. *)
Lemma imp_ok ty force : (forall t, vel (ka t) = comb6 nv (fJf (ka t)) a) -> (forall j, (j < nv)%nat -> dv j = 0) ->
  match cm_kind m with K3 _ => True | K6 _ _ _ => cm_type m <> WORLD | _ => False end -> cm_type m = ty ->
  contact_ok nv G s dx (CCurve (item_of m) (cc_J (curve m k0)) (fun _ _ => 0) (cc_fx (curve m k0))) force a
    (hcat nv (fun r j => match cm_kind m with K3 _ => v3i (dv03_dq ty (cm_jMf m) (ka s) j) r | _ => v6i (dv06_dq ty (cm_jMf m) (ka s) j) r end) (fun _ _ => 0))
    (match cm_kind m with K3 _ => dtau3 ty (ka s) (of3 force) | _ => dtau6 ty (ka s) (of6 force) end).
Proof.
  intros HV EV SD ET. pose proof d_back as DB. pose proof d3_J3 as DJ3. pose proof d6_J6 as DJ6. pose proof at_s as ATS.
  pose proof fext3_k as F3. pose proof fext6_k as F6.
  assert (SJ : forall t, fJf (ka t) = fJf (k0 t)) by exact AJ.
  assert (SR : forall t, oMf (ka t) = oMf (k0 t)) by exact AM.
  destruct m as [kind ty' g0 g1 jMf joint act]. unfold attached in AT. cbn [cm_kind cm_type cm_g0 cm_g1 cm_jMf cm_joint] in *. subst ty'.
  destruct kind as [xref Ra|xref|xref|log6 Jlog6 pref]; try contradiction;
    cbn [curve published fst snd item_of cc_item cc_J cc_a0 cc_fx c_nc c_joint c_local cm_kind cm_type cm_joint cm_active] in *;
    constructor; cbn [curve published fst snd item_of cc_item cc_J cc_a0 cc_fx c_nc c_joint c_local cm_kind cm_type cm_joint cm_active] in *.
  - intros t g i Hi. rewrite (torque3 jMf (k0 t) (G t joint)) by apply AT. now rewrite sum3.
  - unfold fext3. destruct ty; [exists z6; apply d6c| |];
      (destruct (DB (of3 force)) as [d Hd]; exists (act_force jMf (V6 d z3)); apply (d6act jMf (fun t => f3_local (k0 t) (of3 force)));
       split; [exact Hd|exact (d3const z3 s)]).
  - intros i Hi. eapply dext; [|apply (dtau3_ok nv jMf ka s dx dv MV (G s joint) ATS ty (of3 force) i)].
    intro t. cbv beta. now rewrite F3.
  - intros E i j. destruct ty; [reflexivity|discriminate|discriminate].
  - intros r i Hr Hi. destruct (DJ3 ty i Hi) as [d D]. exists (v3i d r). exact (v3i_d _ _ _ _ Hr D).
  - intros r Hr. rewrite hcat_sum, (rsum_0 nv (fun j => 0 * _)) by (intros; ring). rewrite Rplus_0_r. eapply deq.
    + eapply dext; [|exact (v3i_d _ _ _ r Hr (d_v03 nv jMf ka s dx dv MV ty EV))].
      intro t. cbv beta. rewrite Rplus_0_l. rewrite <- v3i_comb by assumption. f_equal. unfold v03, Jc3, oRf. rewrite HV, SR, SJ.
      unfold comb6. cbn [lin]. destruct ty; [reflexivity| |]; symmetry; apply comb3_mv.
    + now rewrite v3i_comb by assumption.
  - intros t g i Hi. rewrite (torque6 jMf (k0 t) (G t joint)) by apply AT. now rewrite sum6.
  - unfold fext6. destruct ty; [exists z6; apply d6c| |];
      (destruct (DB (lin (of6 force))) as [d Hd]; destruct (DB (ang (of6 force))) as [e He];
       exists (act_force jMf (V6 d e)); apply (d6act jMf (fun t => f6_local (k0 t) (of6 force)));
       split; [exact Hd|exact He]).
  - intros i Hi. eapply dext; [|apply (dtau6_ok nv jMf ka s dx dv MV (G s joint) ATS ty (of6 force) i)].
    intro t. cbv beta. now rewrite F6.
  - intros E i j. destruct ty; [reflexivity|discriminate|discriminate].
  - intros r i Hr Hi. destruct (DJ6 ty i Hi) as [d D]. exists (v6i d r). exact (v6i_d _ _ _ _ Hr D).
  - intros r Hr. rewrite hcat_sum, (rsum_0 nv (fun j => 0 * _)) by (intros; ring). rewrite Rplus_0_r. eapply deq.
    + eapply dext; [|exact (v6i_d _ _ _ r Hr (d_v06 nv jMf ka s dx dv MV ty SD EV))].
      intro t. cbv beta. rewrite Rplus_0_l. rewrite <- v6i_comb by assumption. f_equal. unfold v06, Jc6, oRf. rewrite HV, SR, SJ.
      unfold rot6, comb6. cbn [lin ang]. destruct ty; [reflexivity| |]; (f_equal; symmetry; apply comb3_mv).
    + now rewrite v6i_comb by assumption.
Qed.
End One.

(** *** Several contacts *)
(** A contact with what it publishes for its part of the force. *)
Definition pcontact : Type := ccurve * (vec -> mat * mat).
(** ... when the manager hands out the stacked force. *)
Fixpoint spread (all : bool) (cs : list pcontact) (nc : nat) (force : vec) : list (ccurve * (mat * mat)) :=
  match cs with
  | [] => []
  | (c, p) :: cs' =>
      (c, p (fun i => force (nc + i)%nat)) ::
      spread all cs' (if c_active (cc_item c) || all then nc + c_nc (cc_item c) else nc)%nat force
  end.
(** What the manager stacks: rows, accelerations, joint forces. *)
Definition item_list (cs : list pcontact) : list citem := map (fun x => cc_item (fst x)) cs.
Definition row_list (cs : list pcontact) (t : R) : list (citem * (nat -> vec)) := map (fun x => (cc_item (fst x), cc_J (fst x) t)) cs.
Definition acc_list (cs : list pcontact) (t : R) : list (citem * (nat -> R)) := map (fun x => (cc_item (fst x), cc_a0 (fst x) t)) cs.
Definition force_list (cs : list pcontact) (t : R) : list (citem * (vec -> v6)) := map (fun x => (cc_item (fst x), cc_fx (fst x) t)) cs.
Definition all_good (nv : nat) (G : R -> nat -> nat -> v6) (s : R) (dx a : vec) (cs : list pcontact) : Prop :=
  forall c p, In (c, p) cs -> c_active (cc_item c) = true -> forall f, contact_ok nv G s dx c f a (fst (p f)) (snd (p f)).

Lemma spread_items all cs nc force : items (spread all cs nc force) = item_list cs.
Proof. revert nc. induction cs as [|[c p] cs IH]; intro nc; [reflexivity|]. unfold items, item_list in *. cbn [spread map fst]. f_equal. apply IH. Qed.
Lemma spread_ok nv rb s dx all a cs nc force : all_good nv (r_G rb) s dx a cs -> all_ok nv rb s dx all (spread all cs nc force) nc force a.
Proof.
  revert nc. induction cs as [|[c p] cs IH]; intros nc AG; [exact I|].
  assert (AG' : all_good nv (r_G rb) s dx a cs) by (intros x y H; apply AG; now right).
  cbn [spread all_ok]. destruct (p (fun i => force (nc + i)%nat)) as [p1 p2] eqn:P.
  destruct (c_active (cc_item c)) eqn:A; [|apply IH; assumption].
  split; [|apply IH; assumption].
  replace p1 with (fst (p (fun i => force (nc + i)%nat))) by now rewrite P.
  replace p2 with (snd (p (fun i => force (nc + i)%nat))) by now rewrite P.
  apply (AG c p (or_introl eq_refl) A).
Qed.
Lemma row_list_eq all cs nc f t : Jrows_at (spread all cs nc f) t = row_list cs t.
Proof. revert nc. induction cs as [|[c p] cs IH]; intro nc; [reflexivity|]. unfold Jrows_at, row_list in *. cbn [spread map fst snd]. now rewrite IH. Qed.
Lemma acc_list_eq all cs nc f t : a0_at (spread all cs nc f) t = acc_list cs t.
Proof. revert nc. induction cs as [|[c p] cs IH]; intro nc; [reflexivity|]. unfold a0_at, acc_list in *. cbn [spread map fst snd]. now rewrite IH. Qed.
Lemma force_list_eq all cs nc f t : fx_at (spread all cs nc f) t = force_list cs t.
Proof. revert nc. induction cs as [|[c p] cs IH]; intro nc; [reflexivity|]. unfold fx_at, force_list in *. cbn [spread map fst snd]. now rewrite IH. Qed.
Lemma nc_of_eq all cs nc f : nc_of all (spread all cs nc f) = nc_used all (item_list cs).
Proof. unfold nc_of. rewrite <- (spread_items all cs nc f). reflexivity. Qed.

(** Contacts and impulses as such. *)
Definition scontact : Type := cmodel * ((R -> kin) * (R -> kin)).
Definition contacts (nv : nat) (s : R) (cs : list scontact) : list pcontact :=
  map (fun x => (curve (fst x) (fst (snd x)), published nv (fst x) (snd (snd x) s))) cs.
Lemma curve_item m k : cc_item (curve m k) = item_of m.
Proof. destruct m as [[] ? ? ? ? ? ?]; reflexivity. Qed.
Lemma contacts_good nv rb s dx a cs : smooth nv rb s ->
  (forall m k0 ka, In (m, (k0, ka)) cs -> cm_active m = true -> good_contact nv (r_G rb) s dx a m k0 ka) ->
  all_good nv (r_G rb) s dx a (contacts nv s cs).
Proof.
  intros (_ & _ & SG) H c p I A f. apply in_map_iff in I. destruct I as ([m [k0 ka]] & E & I). cbn [fst snd] in E.
  injection E as <- <-. rewrite curve_item in A. destruct (H m k0 ka I A) as (G1 & G2 & G3 & G4).
  eapply one_ok; try eassumption; [exact (ac_M _ _ _ _ G1)|exact (ac_J _ _ _ _ G1)|reflexivity].
Qed.
(** An impulse is described by the frame's kinematics [k] at the velocity after the impact; the contact
    model only serves for its type and frame. *)
Definition impulse_of (nv : nat) (s : R) (m : cmodel) (k : R -> kin) : pcontact :=
  (CCurve (item_of m) (cc_J (curve m k)) (fun _ _ => 0) (cc_fx (curve m k)),
   fun force => (hcat nv (fun r j => match cm_kind m with K3 _ => v3i (dv03_dq (cm_type m) (cm_jMf m) (k s) j) r
                                                   | _ => v6i (dv06_dq (cm_type m) (cm_jMf m) (k s) j) r end) (fun _ _ => 0),
                 match cm_kind m with K3 _ => dtau3 (cm_type m) (k s) (of3 force) | _ => dtau6 (cm_type m) (k s) (of6 force) end)).
Definition good_impulse (nv : nat) (G : R -> nat -> nat -> v6) (s : R) (dx v' : vec) (m : cmodel) (k : R -> kin) : Prop :=
  match cm_kind m with K3 _ => True | K6 _ _ _ => cm_type m <> WORLD | _ => False end /\
  attached G m k /\ moves nv (cm_jMf m) k s dx (fun _ => 0) /\ (forall t, vel (k t) = comb6 nv (fJf (k t)) v').
Definition impulses (nv : nat) (s : R) (cs : list (cmodel * (R -> kin))) : list pcontact :=
  map (fun x => impulse_of nv s (fst x) (snd x)) cs.
Lemma impulses_good nv rb s dx v' cs : smooth nv rb s ->
  (forall m k, In (m, k) cs -> cm_active m = true -> good_impulse nv (r_G rb) s dx v' m k) ->
  all_good nv (r_G rb) s dx v' (impulses nv s cs).
Proof.
  intros (_ & _ & SG) H c p I A f. apply in_map_iff in I. destruct I as ([m k] & E & I). cbn [fst snd] in E.
  unfold impulse_of in E. injection E as <- <-. cbn [cc_item] in A. destruct (H m k I A) as (G1 & G2 & G3 & G4). cbn [fst snd].
  exact (imp_ok nv (r_G rb) s dx (fun _ => 0) v' m k k (fun _ => eq_refl) (fun _ => eq_refl) G2 G3 SG (cm_type m) f G4 (fun _ _ => eq_refl) G1 eq_refl).
Qed.
