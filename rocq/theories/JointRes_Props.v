(** C103: joint-effort and joint-acceleration residuals inside an action. *)
From Coquelicot Require Import Coquelicot.
From Coq Require Import Reals List Arith Bool Lia Lra.
From Verif Require Import Deriv VecMat FwdDyn_Spec JointRes_Model.
Import ListNotations.
Open Scope R_scope.

(** ** Specification *)
Section Spec.
Context {X : Type}.
(** In forward dynamics the control is the effort and the dynamics give the acceleration; in inverse
    dynamics the first nv controls are the acceleration and the dynamics give the effort. *)
Definition effort (dm : dyn X) (x : X) (u : vec) : vec := if d_fwd dm then u else d_val dm x u.
Definition accel (dm : dyn X) (x : X) (u : vec) : vec := if d_fwd dm then d_val dm x u else u.
(** the last reference of the right size *)
Definition last_ref (n : nat) (r0 : vec) (l : list (nat * vec)) : vec :=
  match find (fun r => Nat.eqb (fst r) n) (rev l) with Some r => snd r | None => r0 end.
Definition effort_refs (l : list (op (X := X))) : list (nat * vec) := flat_map (fun o => match o with SetE r => [r] | _ => [] end) l.
Definition accel_refs (l : list (op (X := X))) : list (nat * vec) := flat_map (fun o => match o with SetA r => [r] | _ => [] end) l.
Definition terminal (o : op (X := X)) : Prop := match o with CalcT _ | DiffT _ => True | _ => False end.
(** a curve through points and controls along which the dynamics publish exact Jacobians *)
Record exact (nv na nu : nat) (dm : dyn X) (xs : R -> X) (us : R -> vec) (s : R) (dx du : vec) : Prop := Exact {
  ex_u : forall i, (i < nu)%nat -> is_derive (fun t => us t i) s (du i);
  ex_nu : if d_fwd dm then na = nu else (nv <= nu)%nat;
  ex_jac : jac (nv + nv) nu (if d_fwd dm then nv else na) (fun t => d_val dm (xs t) (us t)) s dx du (d_x dm (xs s) (us s)) (d_u dm (xs s) (us s)) }.
End Spec.

Lemma last_ref_snoc n r0 l r : last_ref n r0 (l ++ [r]) = if Nat.eqb (fst r) n then snd r else last_ref n r0 l.
Proof. unfold last_ref. rewrite rev_app_distr. cbn [rev app find]. now destruct (Nat.eqb (fst r) n). Qed.

Section Proofs.
Context {X : Type}.
Variables (nv na : nat) (dm : dyn X).
Notation runs := (run (X := X) nv na dm).
Notation steps := (step (X := X) nv na dm).

Lemma run_app l1 l2 s : runs (l1 ++ l2) s = match runs l1 s with Some s => runs l2 s | None => None end.
Proof. revert s. induction l1 as [|o l1 IH]; intro s; [reflexivity|]. cbn [app run]. destruct (steps o s); [apply IH|reflexivity]. Qed.

Record invar (m : emodel) (aref : vec) (l : list (op (X := X))) (s : state) : Prop := Invar {
  i_size : fst (e_ref (s_em s)) = na;
  i_ref : snd (e_ref (s_em s)) = last_ref na (snd (e_ref m)) (effort_refs l);
  i_aref : s_aref s = last_ref nv aref (accel_refs l);
  i_dep : e_dep (s_em s) = e_dep m;
  i_fwd : e_fwd (s_em s) = e_fwd m;
  i_x0 : e_dep m = false -> r_x (s_e s) = (fun _ _ => 0);
  i_tx : d_fwd dm = true -> j_tau_x (s_j s) = (fun _ _ => 0) /\ j_tau_u (s_j s) = eye;
  i_ax : d_fwd dm = false -> j_a_x (s_j s) = (fun _ _ => 0) /\ j_a_u (s_j s) = (fun i j => if Nat.ltb j nv then eye i j else 0) }.

(** what the constructors establish *)
Lemma e_new_dep c m : e_new nv na c = Some m -> e_dep m = match e_fwd m with Some true => false | _ => true end.
Proof.
destruct c as [r nu f|r|nu|]; cbn [e_new]; intro H.
- destruct (Nat.eqb nu 0); [discriminate|]. assert (E : m = EModel nu (negb f) r (Some f)) by congruence. rewrite E. now destruct f.
- assert (E : m = EModel nv true r (Some false)) by congruence. now rewrite E.
- destruct (Nat.eqb nu 0); [discriminate|]. assert (E : m = EModel nu true (na, fun _ => 0) (Some false)) by congruence. now rewrite E.
- assert (E : m = EModel nv true (na, fun _ => 0) None) by congruence. now rewrite E.
Qed.

Lemma step_invar m aref l s o : e_dep m = match e_fwd m with Some true => false | _ => true end ->
  (e_fwd m = None -> ~ terminal o) -> invar m aref l s -> exists s', steps o s = Some s' /\ invar m aref (l ++ [o]) s'.
Proof.
intros HD HT [I1 I2 I3 I4 I5 I6 I7 I8].
assert (F1 : forall o, effort_refs (l ++ [o]) = effort_refs l ++ match o with SetE r => [r] | _ => [] end).
{ intro o'. unfold effort_refs. rewrite flat_map_app. cbn [flat_map]. now rewrite app_nil_r. }
assert (F2 : forall o, accel_refs (l ++ [o]) = accel_refs l ++ match o with SetA r => [r] | _ => [] end).
{ intro o'. unfold accel_refs. rewrite flat_map_app. cbn [flat_map]. now rewrite app_nil_r. }
destruct o as [x u|x|x u|x|r|r]; cbn [step].
- unfold e_calc, e_diff. rewrite I1, Nat.eqb_refl. eexists. split; [reflexivity|].
  split; cbn [s_j s_em s_aref s_e r_x]; rewrite ?F1, ?F2, ?app_nil_r; try assumption; unfold j_calc; intro H; rewrite H; cbn [j_tau_x j_tau_u j_a_x j_a_u]; auto.
- assert (N : e_fwd m <> None) by (intro N; now apply (HT N)). unfold e_calcT, e_calc, e_diff. rewrite I5, I1, Nat.eqb_refl.
  destruct (e_fwd m) as [[]|] eqn:EF; [| |congruence]; (eexists; split; [reflexivity|]);
  (split; cbn [s_j s_em s_aref s_e r_x]; rewrite ?F1, ?F2, ?app_nil_r; try assumption; congruence).
- eexists. split; [reflexivity|].
  split; cbn [s_j s_em s_aref s_e r_x e_diffR]; rewrite ?F1, ?F2, ?app_nil_r; try assumption.
  + intro H. rewrite I4, H. auto.
  + unfold j_diff; intro H; rewrite H; cbn [j_tau_x j_tau_u j_a_x j_a_u]; auto.
  + unfold j_diff; intro H; rewrite H; cbn [j_tau_x j_tau_u j_a_x j_a_u]; auto.
- assert (N : e_fwd m <> None) by (intro N; now apply (HT N)). unfold e_diffT. rewrite I5.
  destruct (e_fwd m) as [[]|] eqn:EF; [| |congruence]; (eexists; split; [reflexivity|]);
  (split; cbn [s_j s_em s_aref s_e r_x]; rewrite ?F1, ?F2, ?app_nil_r; try assumption; try reflexivity; congruence).
- eexists. split; [reflexivity|]. unfold e_set.
  split; cbn [s_j s_em s_aref s_e r_x]; rewrite ?F1, ?F2, ?app_nil_r; try assumption; try rewrite last_ref_snoc;
    destruct (Nat.eqb_spec (fst r) na); cbn [e_ref e_dep e_fwd]; auto.
- eexists. split; [reflexivity|].
  destruct (Nat.eqb_spec (fst r) nv) as [E|E]; split; cbn [s_j s_em s_aref s_e r_x]; rewrite ?F1, ?F2, ?app_nil_r; try assumption; rewrite last_ref_snoc.
  + now rewrite E, Nat.eqb_refl.
  + now destruct (Nat.eqb_spec (fst r) nv).
Qed.
Lemma run_invar m aref l : e_dep m = match e_fwd m with Some true => false | _ => true end -> fst (e_ref m) = na ->
  (e_fwd m = None -> forall o, In o l -> ~ terminal o) -> exists s, runs l (init nv dm m aref) = Some s /\ invar m aref l s.
Proof.
intros HD HS. induction l as [|o l IH] using rev_ind; intro HT.
- eexists. split; [reflexivity|]. split; cbn [init s_j s_em s_aref s_e zr r_x]; try reflexivity; try assumption;
  intro H; unfold j_create; rewrite H; now split.
- destruct IH as (s & E & I); [intros N o' Ho; apply (HT N), in_or_app; now left|].
  destruct (step_invar m aref l s o HD) as (s' & E' & I'); [intro N; apply (HT N), in_or_app; right; now left|exact I|].
  exists s'. split; [|exact I']. rewrite run_app, E. cbn [run]. now rewrite E'.
Qed.

Section Curve.
Variables (nu : nat) (c : ector) (m : emodel) (aref : vec) (l : list (op (X := X))).
Hypothesis new : e_new nv na c = Some m.
Hypothesis size : fst (e_ref m) = na.
Hypothesis inited : e_fwd m = None -> forall o, In o l -> ~ terminal o.

(** After any calls and changes of the references, calc and calcDiff at a point give the difference between
    the effort and its current reference, and exact Jacobians (a residual that was declared for
    forward dynamics is used there). *)
Theorem C103_effort (xs : R -> X) (us : R -> vec) (s : R) (dx du : vec) : (e_fwd m = Some true -> d_fwd dm = true) ->
  exists f d, (forall t, runs (l ++ [Calc (xs t) (us t)]) (init nv dm m aref) = Some (f t)) /\
  (forall t i, r_val (s_e (f t)) i = effort dm (xs t) (us t) i - last_ref na (snd (e_ref m)) (effort_refs l) i) /\
  runs (l ++ [Calc (xs s) (us s); Diff (xs s) (us s)]) (init nv dm m aref) = Some d /\
  r_val (s_e d) = r_val (s_e (f s)) /\
  (exact nv na nu dm xs us s dx du -> jac (nv + nv) nu na (fun t => r_val (s_e (f t))) s dx du (r_x (s_e d)) (r_u (s_e d))).
Proof.
intro FW. destruct (run_invar m aref l (e_new_dep c m new) size inited) as (s0 & E & I). destruct I as [I1 I2 I3 I4 I5 I6 I7 I8].
exists (fun t => let j := j_calc dm (xs t) (us t) (s_j s0) in
  St j (s_em s0) (s_aref s0) (RData (fun i => j_tau j i - snd (e_ref (s_em s0)) i) (r_x (s_e s0)) (r_u (s_e s0))) (a_calc (s_aref s0) j (s_a s0))).
assert (ST : forall t, steps (Calc (xs t) (us t)) s0 = Some (let j := j_calc dm (xs t) (us t) (s_j s0) in
  St j (s_em s0) (s_aref s0) (RData (fun i => j_tau j i - snd (e_ref (s_em s0)) i) (r_x (s_e s0)) (r_u (s_e s0))) (a_calc (s_aref s0) j (s_a s0)))).
{ intro t. cbn [step]. unfold e_calc, e_diff. now rewrite I1, Nat.eqb_refl. }
assert (V : forall t i, j_tau (j_calc dm (xs t) (us t) (s_j s0)) i = effort dm (xs t) (us t) i).
{ intros t i. unfold j_calc, effort. now destruct (d_fwd dm). }
eexists. split; [intro t; rewrite run_app, E; cbn [run]; rewrite ST; reflexivity|].
split; [intros t i; cbn [s_e r_val]; rewrite I2, V; reflexivity|].
split; [rewrite run_app, E; cbn [run]; rewrite ST; cbn [step]; reflexivity|].
split; [reflexivity|]. intros [EU EN EJ]. cbv zeta. cbn [s_e s_em s_j e_diffR r_x r_u r_val]. rewrite I4.
intros i Hi. eapply deq.
- apply (dext (fun t => effort dm (xs t) (us t) i + (- snd (e_ref (s_em s0)) i))); [intro t; rewrite V; ring|].
  apply dplus; [|exact (dconst _ s)].
  instantiate (1 := rsum (nv + nv) (fun j => (if d_fwd dm then 0 else d_x dm (xs s) (us s) i j) * dx j) +
                   rsum nu (fun j => (if d_fwd dm then eye i j else d_u dm (xs s) (us s) i j) * du j)).
  unfold effort. destruct (d_fwd dm).
  + eapply deq; [apply EU; lia|]. rewrite (rsum_0 (nv + nv)) by (intros; ring).
    rewrite (rsum_single nu i); [unfold eye; rewrite Nat.eqb_refl; ring|lia|].
    intros j Hj N. unfold eye. destruct (Nat.eqb_spec i j); [congruence|ring].
  + apply EJ. exact Hi.
- pose proof (e_new_dep c m new) as HD. unfold j_diff, j_calc. destruct (d_fwd dm).
  + destruct (I7 eq_refl) as (T1 & T2). cbn [j_tau_x j_tau_u]. rewrite T1, T2. destruct (e_dep m); [|rewrite (I6 eq_refl)]; ring.
  + cbn [j_tau_x j_tau_u]. rewrite HD. destruct (e_fwd m) as [[]|]; [discriminate (FW eq_refl)|ring|ring].
Qed.

(** The same for the acceleration. *)
Theorem C103_acceleration (xs : R -> X) (us : R -> vec) (s : R) (dx du : vec) :
  exists f d, (forall t, runs (l ++ [Calc (xs t) (us t)]) (init nv dm m aref) = Some (f t)) /\
  (forall t i, r_val (s_a (f t)) i = accel dm (xs t) (us t) i - last_ref nv aref (accel_refs l) i) /\
  runs (l ++ [Calc (xs s) (us s); Diff (xs s) (us s)]) (init nv dm m aref) = Some d /\
  r_val (s_a d) = r_val (s_a (f s)) /\
  (exact nv na nu dm xs us s dx du -> jac (nv + nv) nu nv (fun t => r_val (s_a (f t))) s dx du (r_x (s_a d)) (r_u (s_a d))).
Proof.
destruct (run_invar m aref l (e_new_dep c m new) size inited) as (s0 & E & I). destruct I as [I1 I2 I3 I4 I5 I6 I7 I8].
exists (fun t => let j := j_calc dm (xs t) (us t) (s_j s0) in
  St j (s_em s0) (s_aref s0) (RData (fun i => j_tau j i - snd (e_ref (s_em s0)) i) (r_x (s_e s0)) (r_u (s_e s0))) (a_calc (s_aref s0) j (s_a s0))).
assert (ST : forall t, steps (Calc (xs t) (us t)) s0 = Some (let j := j_calc dm (xs t) (us t) (s_j s0) in
  St j (s_em s0) (s_aref s0) (RData (fun i => j_tau j i - snd (e_ref (s_em s0)) i) (r_x (s_e s0)) (r_u (s_e s0))) (a_calc (s_aref s0) j (s_a s0)))).
{ intro t. cbn [step]. unfold e_calc, e_diff. now rewrite I1, Nat.eqb_refl. }
assert (V : forall t i, j_a (j_calc dm (xs t) (us t) (s_j s0)) i = accel dm (xs t) (us t) i).
{ intros t i. unfold j_calc, accel. now destruct (d_fwd dm). }
eexists. split; [intro t; rewrite run_app, E; cbn [run]; rewrite ST; reflexivity|].
split; [intros t i; cbn [s_a a_calc r_val]; rewrite I3, V; reflexivity|].
split; [rewrite run_app, E; cbn [run]; rewrite ST; cbn [step]; reflexivity|].
split; [reflexivity|]. intros [EU EN EJ]. cbv zeta. cbn [s_a s_j a_diff a_calc r_x r_u r_val].
intros i Hi. eapply deq.
- apply (dext (fun t => accel dm (xs t) (us t) i + (- s_aref s0 i))); [intro t; rewrite V; ring|].
  apply dplus; [|exact (dconst _ s)].
  instantiate (1 := rsum (nv + nv) (fun j => (if d_fwd dm then d_x dm (xs s) (us s) i j else 0) * dx j) +
                   rsum nu (fun j => (if d_fwd dm then d_u dm (xs s) (us s) i j else if Nat.ltb j nv then eye i j else 0) * du j)).
  unfold accel. destruct (d_fwd dm).
  + apply EJ. exact Hi.
  + eapply deq; [apply EU; lia|]. rewrite (rsum_0 (nv + nv)) by (intros; ring).
    rewrite (rsum_single nu i); [unfold eye; rewrite Nat.eqb_refl; apply Nat.ltb_lt in Hi; rewrite Hi; ring|lia|].
    intros j Hj N. unfold eye. destruct (Nat.eqb_spec i j); [congruence|]. destruct (Nat.ltb j nv); ring.
- unfold j_diff, j_calc. destruct (d_fwd dm).
  + cbn [j_a_x j_a_u]. ring.
  + destruct (I8 eq_refl) as (T1 & T2). cbn [j_a_x j_a_u]. rewrite T1, T2. ring.
Qed.

(** At a terminal node a residual declared for forward dynamics vanishes with its Jacobian. *)
Theorem C103_terminal_effort_partial x x' : e_fwd m = Some true ->
  exists d, runs (l ++ [CalcT x; DiffT x']) (init nv dm m aref) = Some d /\ (forall i, r_val (s_e d) i = 0) /\ forall i j, r_x (s_e d) i j = 0.
Proof.
intro F. destruct (run_invar m aref l (e_new_dep c m new) size inited) as (s0 & E & I). destruct I as [I1 I2 I3 I4 I5 I6 I7 I8].
rewrite run_app, E. cbn [run step s_em s_e]. unfold e_calcT. rewrite I5, F. cbn [s_em]. unfold e_diffT. rewrite I5, F.
eexists. split; [reflexivity|]. now split.
Qed.
End Curve.
End Proofs.

(** ** What fails *)
(** A unit mass pushed by u: position and velocity (x 0, x 1), acceleration u 0 - x 1 with viscous friction. *)
Definition cart : dyn vec := Dyn true (fun x u _ => u 0%nat - x 1%nat) (fun _ _ _ j => if Nat.eqb j 1 then -1 else 0) (fun _ _ _ _ => 1).
(** its inverse dynamics: u 0 is the acceleration *)
Definition cart_inv : dyn vec := Dyn false (fun x u _ => u 0%nat + x 1%nat) (fun _ _ _ j => if Nat.eqb j 1 then 1 else 0) (fun _ _ _ _ => 1).
Definition kfwd : ector := CFull (1%nat, fun _ => 2) 1 true.
Definition m_fwd : emodel := EModel 1 false (1%nat, fun _ => 2) (Some true).
Definition m_inv : emodel := EModel 1 true (1%nat, fun _ => 2) (Some false).

Example C103_ex_exact : forall (p v w : R -> R) s dp dv dw, is_derive p s dp -> is_derive v s dv -> is_derive w s dw ->
  exact 1 1 1 cart (fun t i => match i with O => p t | _ => v t end) (fun t _ => w t) s (fun i => match i with O => dp | _ => dv end) (fun _ => dw) /\
  exact 1 1 1 cart_inv (fun t i => match i with O => p t | _ => v t end) (fun t _ => w t) s (fun i => match i with O => dp | _ => dv end) (fun _ => dw).
Proof.
intros p v w s dp dv dw Dp Dv Dw. split; (split; [intros i _; exact Dw|cbn; try reflexivity; lia|]); intros i Hi; cbn [d_fwd d_val d_x d_u cart cart_inv rsum Nat.eqb Nat.add].
- eapply deq; [apply dminus; [exact Dw|exact Dv]|ring].
- eapply deq; [apply dplus; [exact Dw|exact Dv]|ring].
Qed.
Example C103_ex_run : e_new 1 1 kfwd = Some m_fwd /\ exists d,
  run 1 1 cart [SetE (1%nat, fun _ => 5); SetE (3%nat, fun _ => 7); Calc (fun _ => 1) (fun _ => 4); Diff (fun _ => 1) (fun _ => 4)] (init 1 cart m_fwd (fun _ => 0)) = Some d /\
  r_val (s_e d) 0%nat = 4 - 5 /\ r_val (s_a d) 0%nat = 4 - 1 - 0.
Proof. split; [reflexivity|]. eexists. split; [reflexivity|]. split; reflexivity. Qed.

(** The acceleration residual is constant zero at a terminal node, but its published Jacobian is the one of
    the last running node. *)
Theorem C103_terminal_accel_refuted : exists d, (forall x, exists d, run 1 1 cart [Calc (fun _ => 0) (fun _ => 1); Diff (fun _ => 0) (fun _ => 1); CalcT x] (init 1 cart m_fwd (fun _ => 0)) = Some d /\ r_val (s_a d) 0%nat = 0) /\
  run 1 1 cart [Calc (fun _ => 0) (fun _ => 1); Diff (fun _ => 0) (fun _ => 1); CalcT (fun _ => 3); DiffT (fun _ => 3)] (init 1 cart m_fwd (fun _ => 0)) = Some d /\
  r_x (s_a d) 0%nat 1%nat <> 0.
Proof.
eexists. split; [intro x; eexists; split; reflexivity|]. split; [reflexivity|]. cbn. lra.
Qed.
(** The constructor without reference and nu does not say whether the dynamics are forward: the terminal
    calls read an indeterminate value. *)
Theorem C103_uninit_refuted : forall {X} nv na (dm : dyn X) aref x, exists m, e_new nv na CDefault = Some m /\
  run nv na dm [CalcT x] (init nv dm m aref) = None /\ run nv na dm [DiffT x] (init nv dm m aref) = None.
Proof. intros. eexists. split; [reflexivity|]. split; reflexivity. Qed.
(** In inverse dynamics the terminal value is the one of the last running evaluation, whatever the terminal state. *)
Theorem C103_terminal_inverse_refuted : forall x, exists d d', e_new 1 1 (CRef (1%nat, fun _ => 2)) = Some m_inv /\
  run 1 1 cart_inv [Calc (fun _ => 0) (fun _ => 1); CalcT x] (init 1 cart_inv m_inv (fun _ => 0)) = Some d /\
  run 1 1 cart_inv [CalcT x] (init 1 cart_inv m_inv (fun _ => 0)) = Some d' /\
  r_val (s_e d) 0%nat <> r_val (s_e d') 0%nat.
Proof. intro x. do 2 eexists. split; [reflexivity|]. split; [reflexivity|]. split; [reflexivity|]. cbn. lra. Qed.
(** The constructors accept a reference of any size; calc then reads outside of it. *)
Theorem C103_size_refuted : forall {X} nv na n (dm : dyn X) (uref : vec) aref x u, n <> na -> exists m, e_new nv na (CRef (n, uref)) = Some m /\
  run nv na dm [Calc x u] (init nv dm m aref) = None.
Proof.
intros X nv na n dm uref aref x u N. eexists. split; [reflexivity|]. cbn [run step]. unfold e_calc, e_diff. cbn [init s_em e_ref fst].
destruct (Nat.eqb_spec n na); [contradiction|reflexivity].
Qed.

Print Assumptions C103_effort.
Print Assumptions C103_acceleration.
Print Assumptions C103_terminal_effort_partial.
Print Assumptions C103_terminal_accel_refuted.
Print Assumptions C103_uninit_refuted.
Print Assumptions C103_terminal_inverse_refuted.
Print Assumptions C103_size_refuted.
