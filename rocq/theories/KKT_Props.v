(** C28, C74: the linear system of SolverKKT. *)
From Coquelicot Require Import Coquelicot.
From Coq Require Import Reals Lra Lia Arith Bool FunctionalExtensionality.
From Verif Require Import Deriv VecMat Integrator_Spec IntegratorPsd_Proofs KKT_Model KKT_Proofs.
Open Scope R_scope.

(** ** Specification *)
Section Spec.
Variables (T nd : nat) (nu : nat -> nat) (d : kdata).
Let Lx t := k_Lx (k_run d t). Let Lu t := k_Lu (k_run d t).
Let Fx t := k_Fx (k_run d t). Let Fu t := k_Fu (k_run d t).
(** the quadratic model of the cost along an increment of the states and controls *)
Definition stage_quad (t : nat) (a b : vec) : R := quad nd (nu t) (k_Lxx (k_run d t)) (k_Lxu (k_run d t)) (k_Luu (k_run d t)) a b.
Definition qcost (dx du : nat -> vec) : R :=
  rsum T (fun t => dot nd (Lx t) (dx t) + dot (nu t) (Lu t) (du t) + / 2 * stage_quad t (dx t) (du t)) +
  (dot nd (k_LxT d) (dx T) + / 2 * dot nd (dx T) (mulv nd (k_LxxT d) (dx T))).
(** the linearised dynamics and initial condition; the gaps are diff(x0, xs[0]) and diff(xnext, xs[t+1]) *)
Definition lin (dx du : nat -> vec) : Prop :=
  (forall i, (i < nd)%nat -> dx 0%nat i = - k_gap0 d i) /\
  (forall t i, (t < T)%nat -> (i < nd)%nat -> dx (S t) i = mulv nd (Fx t) (dx t) i + mulv (nu t) (Fu t) (du t) i - k_gap (k_run d t) i).
(** its Lagrangian *)
Definition lagr (dx du l : nat -> vec) : R := qcost dx du + dot nd (l 0%nat) (fun i => dx 0%nat i + k_gap0 d i) +
  rsum T (fun t => dot nd (l (S t)) (fun i => dx (S t) i - mulv nd (Fx t) (dx t) i - mulv (nu t) (Fu t) (du t) i + k_gap (k_run d t) i)).
(** symmetric and convex data *)
Definition symmetric : Prop := (forall t, (t < T)%nat -> sym nd (k_Lxx (k_run d t)) /\ sym (nu t) (k_Luu (k_run d t))) /\ sym nd (k_LxxT d).
Definition convex : Prop := (forall t a b, (t < T)%nat -> 0 <= stage_quad t a b) /\ (forall a, 0 <= dot nd a (mulv nd (k_LxxT d) a)).
Definition pd_control : Prop := forall t (b : vec), (t < T)%nat -> dot (nu t) b (mulv (nu t) (k_Luu (k_run d t)) b) = 0 -> forall j, (j < nu t)%nat -> b j = 0.
Definition along (r : R) (x a : nat -> vec) : nat -> vec := fun t i => x t i + r * a t i.
Definition scaled (r : R) (a : nat -> vec) : nat -> vec := fun t i => r * a t i.
End Spec.
(** The matrix and vector after any history of evaluations, the last one with data d. *)
Inductive kreach (T nd : nat) (nu : nat -> nat) : mat * vec -> Prop :=
| kr_alloc : kreach T nd nu kalloc
| kr_calc d m m' : kreach T nd nu m -> kcalcDiff T nd nu d m = Some m' -> kreach T nd nu m'.
(** z solves kkt z = - kktref *)
Definition solves (N : nat) (m : mat * vec) (z : vec) : Prop := forall i, (i < N)%nat -> mulv N (fst m) z i = - snd m i.

Lemma kreach_clean T nd nu m : kreach T nd nu m -> clean T nd nu (fst m).
Proof. induction 1; [now intros ? ? _ _ _|]. eapply calcDiff_clean; eauto. Qed.

(** ** Algebra of the Lagrangian *)
Lemma dot_line n p x a r : dot n p (fun i => x i + r * a i) = dot n p x + r * dot n p a.
Proof. unfold dot. rewrite <- rsum_scal, <- rsum_plus. apply rsum_ext. intros. ring. Qed.
Lemma mulv_line n A x a r i : mulv n A (fun j => x j + r * a j) i = mulv n A x i + r * mulv n A a i.
Proof. unfold mulv. rewrite <- rsum_scal, <- rsum_plus. apply rsum_ext. intros. ring. Qed.
Lemma bil_scall n m A a b r : bil n m A (fun i => r * a i) b = r * bil n m A a b.
Proof. unfold bil, dot. rewrite <- rsum_scal. apply rsum_ext. intros. ring. Qed.
Lemma bil_scalr n m A a b r : bil n m A a (fun i => r * b i) = r * bil n m A a b.
Proof. rewrite <- (bil_tr m n), bil_scall, bil_tr. reflexivity. Qed.
Lemma bil_line n m A x a u b r : bil n m A (fun i => x i + r * a i) (fun i => u i + r * b i) = bil n m A x u + r * (bil n m A a u + bil n m A x b) + r * r * bil n m A a b.
Proof. rewrite bil_addl, !bil_addr, !bil_scall, !bil_scalr. ring. Qed.
Lemma quad_line n m Qxx Qxu Quu x a u b r : sym n Qxx -> sym m Quu ->
  quad n m Qxx Qxu Quu (fun i => x i + r * a i) (fun i => u i + r * b i) = quad n m Qxx Qxu Quu x u +
  2 * r * (dot n a (fun i => mulv n Qxx x i + mulv m Qxu u i) + dot m b (fun j => mulv n (tr Qxu) x j + mulv m Quu u j)) + r * r * quad n m Qxx Qxu Quu a b.
Proof.
  intros H1 H2. rewrite !quad_bil, !bil_line. rewrite (bil_sym n Qxx x a), (bil_sym m Quu u b) by auto.
  assert (E1 : dot n a (fun i => mulv n Qxx x i + mulv m Qxu u i) = bil n n Qxx a x + bil n m Qxu a u) by (unfold bil, dot; rewrite <- rsum_plus; apply rsum_ext; intros; ring).
  assert (E2 : dot m b (fun j => mulv n (tr Qxu) x j + mulv m Quu u j) = bil n m Qxu x b + bil m m Quu b u).
  { rewrite <- (bil_tr m n). unfold bil, dot. rewrite <- rsum_plus. apply rsum_ext. intros. ring. }
  rewrite E1, E2. ring.
Qed.
Lemma dot_mulv_tr n m A l a : dot n l (mulv m A a) = dot m a (mulv n (tr A) l).
Proof. symmetry. exact (bil_tr m n A a l). Qed.
Lemma reindex k (g : nat -> R) : g 0%nat + rsum k (fun t => g (S t)) = rsum k g + g k.
Proof. induction k; cbn [rsum]; [ring|]. rewrite <- Rplus_assoc, IHk. ring. Qed.

Section Alg.
Variables (T nd : nat) (nu : nat -> nat) (d : kdata).
Hypothesis HS : symmetric T nd nu d.
Variables (x u l a b : nat -> vec).
(** the gradient of the Lagrangian *)
Definition gx t i : R := if (t <? T)%nat then k_Lx (k_run d t) i + (mulv nd (k_Lxx (k_run d t)) (x t) i + mulv (nu t) (k_Lxu (k_run d t)) (u t) i) + (l t i - mulv nd (tr (k_Fx (k_run d t))) (l (S t)) i)
  else k_LxT d i + mulv nd (k_LxxT d) (x t) i + l t i.
Definition gu t j : R := k_Lu (k_run d t) j + (mulv nd (tr (k_Lxu (k_run d t))) (x t) j + mulv (nu t) (k_Luu (k_run d t)) (u t) j) - mulv nd (tr (k_Fu (k_run d t))) (l (S t)) j.
Definition slope : R := rsum T (fun t => dot nd (a t) (gx t) + dot (nu t) (b t) (gu t)) + dot nd (a T) (gx T).
Definition curv : R := rsum T (fun t => stage_quad nd nu d t (a t) (b t)) + dot nd (a T) (mulv nd (k_LxxT d) (a T)).
Lemma lagr_line r : lagr T nd nu d (along r x a) (along r u b) l = lagr T nd nu d x u l + r * slope + / 2 * (r * r) * curv.
Proof.
  destruct HS as [Hs HT]. unfold lagr, qcost.
  set (c0 := fun t => dot nd (l (S t)) (fun i => x (S t) i - mulv nd (k_Fx (k_run d t)) (x t) i - mulv (nu t) (k_Fu (k_run d t)) (u t) i + k_gap (k_run d t) i)).
  set (q0 := fun t => dot nd (k_Lx (k_run d t)) (x t) + dot (nu t) (k_Lu (k_run d t)) (u t) + / 2 * stage_quad nd nu d t (x t) (u t)).
  set (la := fun t => dot nd (l t) (a t)).
  set (fa := fun t => dot nd (a t) (mulv nd (tr (k_Fx (k_run d t))) (l (S t))) + dot (nu t) (b t) (mulv nd (tr (k_Fu (k_run d t))) (l (S t)))).
  set (q1 := fun t => dot nd (k_Lx (k_run d t)) (a t) + dot (nu t) (k_Lu (k_run d t)) (b t) +
     (dot nd (a t) (fun i => mulv nd (k_Lxx (k_run d t)) (x t) i + mulv (nu t) (k_Lxu (k_run d t)) (u t) i) + dot (nu t) (b t) (fun j => mulv nd (tr (k_Lxu (k_run d t))) (x t) j + mulv (nu t) (k_Luu (k_run d t)) (u t) j))).
  assert (E1 : rsum T (fun t => dot nd (l (S t)) (fun i => along r x a (S t) i - mulv nd (k_Fx (k_run d t)) (along r x a t) i - mulv (nu t) (k_Fu (k_run d t)) (along r u b t) i + k_gap (k_run d t) i)) =
    rsum T c0 + r * (rsum T (fun t => la (S t)) - rsum T fa)).
  { rewrite <- rsum_minus, <- rsum_scal, <- rsum_plus. apply rsum_ext. intros t Ht. unfold c0, la, fa. rewrite <- !dot_mulv_tr. unfold dot. rewrite <- rsum_plus, <- rsum_minus, <- rsum_scal, <- rsum_plus.
    apply rsum_ext. intros i Hi. unfold along. rewrite !mulv_line. ring. }
  assert (E2 : rsum T (fun t => dot nd (k_Lx (k_run d t)) (along r x a t) + dot (nu t) (k_Lu (k_run d t)) (along r u b t) + / 2 * stage_quad nd nu d t (along r x a t) (along r u b t)) =
    rsum T q0 + r * rsum T q1 + / 2 * (r * r) * rsum T (fun t => stage_quad nd nu d t (a t) (b t))).
  { rewrite <- !rsum_scal, <- !rsum_plus. apply rsum_ext. intros t Ht. unfold along. rewrite !dot_line. unfold stage_quad at 1. rewrite quad_line by (apply Hs; auto). unfold q0, q1, stage_quad. field. }
  assert (E3 : dot nd (along r x a T) (mulv nd (k_LxxT d) (along r x a T)) = dot nd (x T) (mulv nd (k_LxxT d) (x T)) + 2 * r * dot nd (a T) (mulv nd (k_LxxT d) (x T)) + r * r * dot nd (a T) (mulv nd (k_LxxT d) (a T))).
  { change (bil nd nd (k_LxxT d) (fun i => x T i + r * a T i) (fun i => x T i + r * a T i) = bil nd nd (k_LxxT d) (x T) (x T) + 2 * r * bil nd nd (k_LxxT d) (a T) (x T) + r * r * bil nd nd (k_LxxT d) (a T) (a T)).
    rewrite bil_line. rewrite (bil_sym nd (k_LxxT d) (x T) (a T)) by auto. ring. }
  assert (E4 : dot nd (l 0%nat) (fun i => along r x a 0%nat i + k_gap0 d i) = dot nd (l 0%nat) (fun i => x 0%nat i + k_gap0 d i) + r * la 0%nat).
  { unfold la, dot. rewrite <- rsum_scal, <- rsum_plus. apply rsum_ext. intros i Hi. unfold along. ring. }
  assert (E5 : dot nd (k_LxT d) (along r x a T) = dot nd (k_LxT d) (x T) + r * dot nd (k_LxT d) (a T)) by apply dot_line.
  assert (E6 : slope = rsum T q1 - rsum T fa + (la 0%nat + rsum T (fun t => la (S t))) + dot nd (k_LxT d) (a T) + dot nd (a T) (mulv nd (k_LxxT d) (x T))).
  { rewrite (reindex T la). unfold slope. rewrite (rsum_ext T _ (fun t => q1 t - fa t + la t)).
    - rewrite rsum_plus, rsum_minus. unfold gx. rewrite Nat.ltb_irrefl.
      assert (E : dot nd (a T) (fun i => k_LxT d i + mulv nd (k_LxxT d) (x T) i + l T i) = dot nd (k_LxT d) (a T) + dot nd (a T) (mulv nd (k_LxxT d) (x T)) + la T).
      { unfold la, dot. rewrite <- !rsum_plus. apply rsum_ext. intros. ring. }
      rewrite E. ring.
    - intros t Ht. unfold gx, gu, q1, fa, la. rewrite (proj2 (Nat.ltb_lt t T)) by auto. unfold dot.
      transitivity (rsum nd (fun i => k_Lx (k_run d t) i * a t i + a t i * (mulv nd (k_Lxx (k_run d t)) (x t) i + mulv (nu t) (k_Lxu (k_run d t)) (u t) i) + l t i * a t i - a t i * mulv nd (tr (k_Fx (k_run d t))) (l (S t)) i) +
         rsum (nu t) (fun j => k_Lu (k_run d t) j * b t j + b t j * (mulv nd (tr (k_Lxu (k_run d t))) (x t) j + mulv (nu t) (k_Luu (k_run d t)) (u t) j) - b t j * mulv nd (tr (k_Fu (k_run d t))) (l (S t)) j)).
      + f_equal; apply rsum_ext; intros; ring.
      + rewrite !rsum_minus, !rsum_plus. ring. }
  rewrite E1, E2, E3, E4, E5, E6. unfold curv. fold q0. field.
Qed.
Lemma slope_zero : (forall t i, (t <= T)%nat -> (i < nd)%nat -> gx t i = 0) -> (forall t j, (t < T)%nat -> (j < nu t)%nat -> gu t j = 0) -> slope = 0.
Proof.
  intros H1 H2. unfold slope. rewrite rsum_0; [unfold dot; rewrite rsum_0; [ring|]; intros i Hi; rewrite H1 by (auto; lia); ring|].
  intros t Ht. unfold dot. rewrite !rsum_0; [ring| |]; intros i Hi; [rewrite H2 by auto|rewrite H1 by (auto; lia)]; ring.
Qed.
End Alg.
Lemma lagr_feas T nd nu d x u l : lin T nd nu d x u -> lagr T nd nu d x u l = qcost T nd nu d x u.
Proof.
  intros [H1 H2]. unfold lagr.
  assert (E1 : dot nd (l 0%nat) (fun i => x 0%nat i + k_gap0 d i) = 0) by (unfold dot; apply rsum_0; intros i Hi; rewrite H1 by auto; ring).
  rewrite E1, rsum_0; [ring|]. intros t Ht. unfold dot. apply rsum_0. intros i Hi. rewrite H2 by auto. ring.
Qed.

(** ** C28 *)
Section C28.
Variables (T nd : nat) (nu : nat -> nat) (d : kdata) (m m' : mat * vec).
Hypothesis HR : kreach T nd nu m.
Hypothesis HC : kcalcDiff T nd nu d m = Some m'.
Let N := ksize T nd nu.
Let Hc := kreach_clean T nd nu m HR.
Theorem C28_symmetric : symmetric T nd nu d -> sym N (fst m').
Proof.
  intros [H1 H2] i j Hi Hj. destruct (is_pos T nd nu i Hi) as [p [Hp ->]], (is_pos T nd nu j Hj) as [q [Hq ->]].
  rewrite !(ent T nd nu d m m' HC Hc) by auto. apply (kent_sym T nd nu); auto.
Qed.
(** Nothing of the earlier evaluations is left in the system. *)
Theorem C28_history m2 m2' : kreach T nd nu m2 -> kcalcDiff T nd nu d m2 = Some m2' ->
  forall i j, (i < N)%nat -> (j < N)%nat -> fst m' i j = fst m2' i j /\ snd m' i = snd m2' i.
Proof.
  intros HR2 HC2 i j Hi Hj. pose proof (kreach_clean T nd nu m2 HR2) as Hc2. destruct (is_pos T nd nu i Hi) as [p [Hp ->]], (is_pos T nd nu j Hj) as [q [Hq ->]].
  rewrite (ent T nd nu d m m' HC Hc), (ent T nd nu d m2 m2' HC2 Hc2), (ref T nd nu d m m' HC Hc), (ref T nd nu d m2 m2' HC2 Hc2) by auto. auto.
Qed.
Section Sol.
Variable z : vec.
Hypothesis HZ : solves N m' z.
Let x := dxs nd z. Let u := dus T nd nu z. Let l := lambdas T nd nu z.
Lemma sol_lin : lin T nd nu d x u.
Proof.
  split.
  - intros i Hi. assert (Hp : valid T nd nu (PL 0 i)) by (cbn; split; auto; lia). pose proof (HZ _ (at_lt T nd nu _ Hp)) as H.
    unfold N in H. rewrite (row_0 T nd nu d m m' z HC Hc i Hi), (ref T nd nu d m m' HC Hc) in H by auto. exact H.
  - intros t i Ht Hi. assert (Hp : valid T nd nu (PL (S t) i)) by (cbn; split; auto; lia). pose proof (HZ _ (at_lt T nd nu _ Hp)) as H.
    unfold N in H. rewrite (row_l T nd nu d m m' z HC Hc t i Ht Hi), (ref T nd nu d m m' HC Hc) in H by auto. cbn [kref] in H. unfold x, u. lra.
Qed.
Lemma sol_gx t i : (t <= T)%nat -> (i < nd)%nat -> gx T nd nu d x u l t i = 0.
Proof.
  intros Ht Hi. assert (Hp : valid T nd nu (PX t i)) by (cbn; auto). pose proof (HZ _ (at_lt T nd nu _ Hp)) as H.
  unfold N in H. rewrite (row_x T nd nu d m m' z HC Hc t i Ht Hi), (ref T nd nu d m m' HC Hc) in H by auto. cbn [kref] in H.
  unfold gx, hx, ax in *. unfold x, u, l. destruct (t <? T)%nat; lra.
Qed.
Lemma sol_gu t i : (t < T)%nat -> (i < nu t)%nat -> gu nd nu d x u l t i = 0.
Proof.
  intros Ht Hi. assert (Hp : valid T nd nu (PU t i)) by (cbn; auto). pose proof (HZ _ (at_lt T nd nu _ Hp)) as H.
  unfold N in H. rewrite (row_u T nd nu d m m' z HC Hc t i Ht Hi), (ref T nd nu d m m' HC Hc) in H by auto. cbn [kref] in H.
  unfold gu, hu, au in *. unfold x, u, l. lra.
Qed.
(** A solution of the system satisfies the linearised dynamics, and makes the Lagrangian
    stationary in every direction. *)
Theorem C28_direction : symmetric T nd nu d -> lin T nd nu d x u /\
  forall a b, is_derive (fun r => lagr T nd nu d (along r x a) (along r u b) l) 0 0.
Proof.
  intro HS. split; [exact sol_lin|]. intros a b.
  apply (dext (fun r => lagr T nd nu d x u l + / 2 * (r * r) * curv T nd nu d a b)).
  - intro r. rewrite lagr_line by auto. rewrite (slope_zero T nd nu d x u l a b sol_gx sol_gu). ring.
  - eapply deq; [apply dplus; [apply dconst|apply dmult; [apply dmult; [apply dconst|apply dmult; apply did]|apply dconst]]|]. cbv beta. ring.
Qed.
(** For convex data it is a global minimiser of the quadratic model under the linearised dynamics. *)
Theorem C28_minimiser : symmetric T nd nu d -> convex T nd nu d -> forall x2 u2, lin T nd nu d x2 u2 -> qcost T nd nu d x u <= qcost T nd nu d x2 u2.
Proof.
  intros HS [HV1 HV2] x2 u2 H2. rewrite <- (lagr_feas T nd nu d x u l sol_lin), <- (lagr_feas T nd nu d x2 u2 l H2).
  set (a := fun t i => x2 t i - x t i). set (b := fun t i => u2 t i - u t i).
  assert (E : lagr T nd nu d x2 u2 l = lagr T nd nu d (along 1 x a) (along 1 u b) l).
  { f_equal; apply functional_extensionality; intro t; apply functional_extensionality; intro i; unfold along, a, b; ring. }
  rewrite E, lagr_line by auto. rewrite (slope_zero T nd nu d x u l a b sol_gx sol_gu).
  assert (0 <= curv T nd nu d a b) by (unfold curv; apply Rplus_le_le_0_compat; [apply rsum_ge0; intros; apply HV1; auto|apply HV2]). lra.
Qed.
End Sol.

(** The system has at most one solution when the control Hessians are positive definite. *)
Theorem C28_nonsingular z : symmetric T nd nu d -> convex T nd nu d -> pd_control T nu d ->
  (forall i, (i < N)%nat -> mulv N (fst m') z i = 0) -> forall i, (i < N)%nat -> z i = 0.
Proof.
  intros HS HV HP HZ.
  set (x := dxs nd z). set (u := dus T nd nu z). set (l := lambdas T nd nu z).
  set (dz := KData (fun t => KStage (fun _ => 0) (fun _ => 0) (k_Lxx (k_run d t)) (k_Lxu (k_run d t)) (k_Luu (k_run d t)) (k_Fx (k_run d t)) (k_Fu (k_run d t)) (fun _ => 0)) (fun _ => 0) (k_LxxT d) (fun _ => 0)).
  assert (HSz : symmetric T nd nu dz) by exact HS.
  assert (HL : lin T nd nu dz x u).
  { split.
    - intros i Hi. cbn [k_gap0 dz]. assert (Hp : valid T nd nu (PL 0 i)) by (cbn; split; auto; lia). pose proof (HZ _ (at_lt T nd nu _ Hp)) as H.
      unfold N in H. rewrite (row_0 T nd nu d m m' z HC Hc i Hi) in H. unfold x. lra.
    - intros t i Ht Hi. cbn [k_gap k_run k_Fx k_Fu dz]. assert (Hp : valid T nd nu (PL (S t) i)) by (cbn; split; auto; lia). pose proof (HZ _ (at_lt T nd nu _ Hp)) as H.
      unfold N in H. rewrite (row_l T nd nu d m m' z HC Hc t i Ht Hi) in H. unfold x, u. lra. }
  assert (Gx : forall t i, (t <= T)%nat -> (i < nd)%nat -> gx T nd nu dz x u l t i = 0).
  { intros t i Ht Hi. assert (Hp : valid T nd nu (PX t i)) by (cbn; auto). pose proof (HZ _ (at_lt T nd nu _ Hp)) as H.
    unfold N in H. rewrite (row_x T nd nu d m m' z HC Hc t i Ht Hi) in H. unfold gx, hx, ax in *. cbn [k_run k_Lx k_Lxx k_Lxu k_Fx k_LxT k_LxxT dz]. unfold x, u, l. destruct (t <? T)%nat; lra. }
  assert (Gu : forall t i, (t < T)%nat -> (i < nu t)%nat -> gu nd nu dz x u l t i = 0).
  { intros t i Ht Hi. assert (Hp : valid T nd nu (PU t i)) by (cbn; auto). pose proof (HZ _ (at_lt T nd nu _ Hp)) as H.
    unfold N in H. rewrite (row_u T nd nu d m m' z HC Hc t i Ht Hi) in H. unfold gu, hu, au in *. cbn [k_run k_Lu k_Lxu k_Luu k_Fu dz]. unfold x, u, l. lra. }
  pose proof (lagr_line T nd nu dz HSz x u l x u (-1)) as E. rewrite (slope_zero T nd nu dz x u l x u Gx Gu) in E.
  assert (Z : lagr T nd nu dz (along (-1) x x) (along (-1) u u) l = 0).
  { assert (E1 : along (-1) x x = fun _ _ => 0) by (apply functional_extensionality; intro; apply functional_extensionality; intro; unfold along; ring).
    assert (E2 : along (-1) u u = fun _ _ => 0) by (apply functional_extensionality; intro; apply functional_extensionality; intro; unfold along; ring).
    assert (Zd : forall n (p : vec), dot n p (fun _ => 0) = 0) by (intros; unfold dot; apply rsum_0; intros; ring).
    assert (Zm : forall n (A : mat), mulv n A (fun _ => 0) = (fun _ => 0)) by (intros; apply functional_extensionality; intro; unfold mulv; apply rsum_0; intros; ring).
    rewrite E1, E2. rewrite lagr_feas.
    - unfold qcost, stage_quad, quad. rewrite rsum_0; [rewrite !Zm, !Zd; ring|]. intros t Ht. rewrite !Zm, !Zd. ring.
    - split; intros; cbn; rewrite ?Zm; ring. }
  rewrite Z, (lagr_feas T nd nu dz x u l HL) in E.
  assert (Q : qcost T nd nu dz x u = / 2 * curv T nd nu dz x u).
  { unfold qcost, curv. rewrite Rmult_plus_distr_l, <- rsum_scal. f_equal.
    - apply rsum_ext. intros t Ht. cbn [k_Lx k_Lu k_run dz]. assert (Zl : forall n (p : vec), dot n (fun _ => 0) p = 0) by (intros; unfold dot; apply rsum_0; intros; ring). rewrite !Zl. ring.
    - cbn [k_LxT dz]. unfold dot at 1. rewrite rsum_0 by (intros; ring). ring. }
  assert (C0 : curv T nd nu d x u = 0) by (change (curv T nd nu dz x u = 0); lra).
  destruct HV as [HV1 HV2]. unfold curv in C0.
  assert (S0 : forall t, (t < T)%nat -> stage_quad nd nu d t (x t) (u t) = 0).
  { assert (P : forall k (f : nat -> R), (forall t, (t < k)%nat -> 0 <= f t) -> rsum k f <= 0 -> forall t, (t < k)%nat -> f t = 0).
    { induction k; intros f Hf Hs t Ht; [lia|]. cbn [rsum] in Hs. pose proof (Hf k ltac:(lia)). pose proof (rsum_ge0 k f ltac:(intros; apply Hf; lia)).
      destruct (Nat.eq_dec t k) as [->|]; [lra|]. apply IHk; [intros; apply Hf; lia|lra|lia]. }
    apply (P T (fun t => stage_quad nd nu d t (x t) (u t))); [intros; apply HV1; auto|]. pose proof (HV2 (x T)). lra. }
  assert (X0 : forall t, (t <= T)%nat -> forall i, (i < nd)%nat -> x t i = 0).
  { assert (UX : forall t, (t < T)%nat -> (forall i, (i < nd)%nat -> x t i = 0) -> forall j, (j < nu t)%nat -> u t j = 0).
    { intros t Ht Hx. apply (HP t (u t) Ht). pose proof (S0 t Ht) as Q0. unfold stage_quad, quad in Q0.
      assert (Zx : forall p : vec, dot nd (x t) p = 0) by (intros p; unfold dot; apply rsum_0; intros i Hi; rewrite Hx by auto; ring). rewrite !Zx in Q0. lra. }
    induction t as [|t IH]; intros Ht i Hi.
    - destruct HL as [HL _]. rewrite HL by auto. cbn. ring.
    - specialize (IH ltac:(lia)). destruct HL as [_ HL]. rewrite HL by (auto; lia). cbn [k_gap k_run k_Fx k_Fu dz]. unfold mulv.
      rewrite !rsum_0; [ring| |]; intros j Hj; [rewrite (UX t) by (auto; lia)|rewrite IH by auto]; ring. }
  assert (U0 : forall t, (t < T)%nat -> forall j, (j < nu t)%nat -> u t j = 0).
  { intros t Ht. apply (HP t (u t) Ht). pose proof (S0 t Ht) as Q0. unfold stage_quad, quad in Q0.
    assert (Zx : forall p : vec, dot nd (x t) p = 0) by (intros p; unfold dot; apply rsum_0; intros i Hi; rewrite (X0 t) by (auto; lia); ring). rewrite !Zx in Q0. lra. }
  assert (L0 : forall k t, (t + k = T)%nat -> forall i, (i < nd)%nat -> l t i = 0).
  { assert (ZX : forall A t i, (t <= T)%nat -> mulv nd A (x t) i = 0) by (intros A t i Ht; unfold mulv; apply rsum_0; intros j Hj; rewrite X0 by auto; ring).
    assert (ZU : forall A t i, (t < T)%nat -> mulv (nu t) A (u t) i = 0) by (intros A t i Ht; unfold mulv; apply rsum_0; intros j Hj; rewrite U0 by auto; ring).
    induction k as [|k IH]; intros t Ht i Hi.
    - assert (t = T) as -> by lia. pose proof (Gx T i (Nat.le_refl _) Hi) as G. unfold gx in G. rewrite Nat.ltb_irrefl, ZX in G by auto. cbn in G. lra.
    - pose proof (Gx t i ltac:(lia) Hi) as G. unfold gx in G. rewrite (proj2 (Nat.ltb_lt t T)), ZX, ZU in G by lia. cbn [k_run k_Lx dz] in G.
      unfold mulv, tr in G. rewrite (rsum_0 nd) in G; [lra|]. intros j Hj. rewrite (IH (S t)) by (auto; lia). ring. }
  intros i Hi. destruct (is_pos T nd nu i Hi) as [p [Hp ->]]. destruct p as [t j|t j|t j]; cbn [valid] in Hp; destruct Hp as [Hp1 Hp2].
  - exact (X0 t Hp1 j Hp2).
  - exact (U0 t Hp1 j Hp2).
  - exact (L0 (T - t)%nat t ltac:(lia) j Hp2).
Qed.

(** ** C74 *)
(** The predicted decrease is exactly the decrease of the quadratic model along the step. *)
Theorem C74_expected z a : kdVexp T nd nu m' z a = - qcost T nd nu d (scaled a (dxs nd z)) (scaled a (dus T nd nu z)).
Proof.
  set (x := dxs nd z). set (u := dus T nd nu z). unfold kdVexp, kd0, kd1.
  assert (E1 : dot (ndx_ T nd + nu_ T nu) (snd m') (primal z) = rsum T (fun t => dot nd (k_Lx (k_run d t)) (x t) + dot (nu t) (k_Lu (k_run d t)) (u t)) + dot nd (k_LxT d) (x T)).
  { unfold dot at 1. rewrite sum_primal. cbn [rsum]. rewrite rsum_plus.
    rewrite (rsum_ext T _ (fun t => dot nd (k_Lx (k_run d t)) (x t))).
    2:{ intros t Ht. apply rsum_ext. intros i Hi. rewrite (ref T nd nu d m m' HC Hc) by (cbn; lia). cbn [kref]. rewrite (proj2 (Nat.ltb_lt t T)) by auto. reflexivity. }
    rewrite (rsum_ext nd _ (fun i => k_LxT d i * x T i)).
    2:{ intros i Hi. rewrite (ref T nd nu d m m' HC Hc) by (cbn; lia). cbn [kref]. rewrite Nat.ltb_irrefl. reflexivity. }
    rewrite (rsum_ext T (fun t => rsum (nu t) _) (fun t => dot (nu t) (k_Lu (k_run d t)) (u t))).
    2:{ intros t Ht. apply rsum_ext. intros i Hi. rewrite (ref T nd nu d m m' HC Hc) by (cbn; lia). reflexivity. }
    unfold dot. ring. }
  assert (E2 : dot (ndx_ T nd + nu_ T nu) (mulv (ndx_ T nd + nu_ T nu) (fst m') (primal z)) (primal z) = rsum T (fun t => stage_quad nd nu d t (x t) (u t)) + dot nd (x T) (mulv nd (k_LxxT d) (x T))).
  { unfold dot at 1. rewrite sum_primal. cbn [rsum]. unfold primal.
    rewrite (rsum_ext T _ (fun t => dot nd (x t) (fun i => mulv nd (k_Lxx (k_run d t)) (x t) i + mulv (nu t) (k_Lxu (k_run d t)) (u t) i))).
    2:{ intros t Ht. apply rsum_ext. intros i Hi. rewrite (row_h T nd nu d m m' z HC Hc) by (cbn; auto; lia). rewrite part_xx by (auto; lia). unfold hx. rewrite (proj2 (Nat.ltb_lt t T)) by auto. rewrite Rmult_comm. reflexivity. }
    rewrite (rsum_ext nd _ (fun i => x T i * mulv nd (k_LxxT d) (x T) i)).
    2:{ intros i Hi. rewrite (row_h T nd nu d m m' z HC Hc) by (cbn; auto; lia). rewrite part_xx by (auto; lia). unfold hx. rewrite Nat.ltb_irrefl, Rmult_comm. reflexivity. }
    rewrite (rsum_ext T (fun t => rsum (nu t) _) (fun t => dot (nu t) (u t) (fun j => mulv nd (tr (k_Lxu (k_run d t))) (x t) j + mulv (nu t) (k_Luu (k_run d t)) (u t) j))).
    2:{ intros t Ht. apply rsum_ext. intros i Hi. rewrite (row_h T nd nu d m m' z HC Hc) by (cbn; auto; lia). rewrite part_ux by (auto; lia). unfold hu. rewrite Rmult_comm. reflexivity. }
    rewrite (rsum_ext T (fun t => stage_quad nd nu d t (x t) (u t)) (fun t => dot nd (x t) (fun i => mulv nd (k_Lxx (k_run d t)) (x t) i + mulv (nu t) (k_Lxu (k_run d t)) (u t) i) +
       dot (nu t) (u t) (fun j => mulv nd (tr (k_Lxu (k_run d t))) (x t) j + mulv (nu t) (k_Luu (k_run d t)) (u t) j))).
    2:{ intros t Ht. unfold stage_quad. rewrite quad_bil.
        assert (F : bil nd (nu t) (k_Lxu (k_run d t)) (x t) (u t) = dot (nu t) (u t) (mulv nd (tr (k_Lxu (k_run d t))) (x t))) by (symmetry; apply bil_tr).
        replace (2 * bil nd (nu t) (k_Lxu (k_run d t)) (x t) (u t)) with (bil nd (nu t) (k_Lxu (k_run d t)) (x t) (u t) + dot (nu t) (u t) (mulv nd (tr (k_Lxu (k_run d t))) (x t))) by (rewrite <- F; ring).
        unfold bil, dot. rewrite (rsum_ext nd (fun i => x t i * (_ + _)) (fun i => x t i * mulv nd (k_Lxx (k_run d t)) (x t) i + x t i * mulv (nu t) (k_Lxu (k_run d t)) (u t) i)) by (intros; ring).
        rewrite (rsum_ext (nu t) (fun i => u t i * (_ + _)) (fun i => u t i * mulv nd (tr (k_Lxu (k_run d t))) (x t) i + u t i * mulv (nu t) (k_Luu (k_run d t)) (u t) i)) by (intros; ring).
        rewrite !rsum_plus. ring. }
    rewrite rsum_plus. unfold dot. ring. }
  rewrite E1, E2. unfold qcost.
  assert (F1 : forall n (p : vec) (v : vec), dot n p (fun i => a * v i) = a * dot n p v) by (intros; unfold dot; rewrite <- rsum_scal; apply rsum_ext; intros; ring).
  assert (F2 : dot nd (scaled a x T) (mulv nd (k_LxxT d) (scaled a x T)) = a * a * dot nd (x T) (mulv nd (k_LxxT d) (x T))).
  { change (bil nd nd (k_LxxT d) (fun i => a * x T i) (fun i => a * x T i) = a * a * bil nd nd (k_LxxT d) (x T) (x T)). rewrite bil_scall, bil_scalr. ring. }
  assert (F3 : rsum T (fun t => dot nd (k_Lx (k_run d t)) (scaled a x t) + dot (nu t) (k_Lu (k_run d t)) (scaled a u t) + / 2 * stage_quad nd nu d t (scaled a x t) (scaled a u t)) =
    a * rsum T (fun t => dot nd (k_Lx (k_run d t)) (x t) + dot (nu t) (k_Lu (k_run d t)) (u t)) + / 2 * (a * a) * rsum T (fun t => stage_quad nd nu d t (x t) (u t))).
  { rewrite <- !rsum_scal, <- rsum_plus. apply rsum_ext. intros t Ht. unfold scaled. rewrite !F1. unfold stage_quad. rewrite !quad_bil, !bil_scall, !bil_scalr. ring. }
  rewrite F2, F3. unfold scaled at 1. rewrite F1. ring.
Qed.
(** On a candidate without gaps and for convex data the prediction is non-negative on [0,1]. *)
Theorem C74_descent z : solves N m' z -> symmetric T nd nu d -> convex T nd nu d ->
  (forall i, (i < nd)%nat -> k_gap0 d i = 0) -> (forall t i, (t < T)%nat -> (i < nd)%nat -> k_gap (k_run d t) i = 0) ->
  kd1 T nd nu m' z = - kd0 T nd nu m' z /\ 0 <= kd0 T nd nu m' z /\ forall a, 0 <= a <= 1 -> 0 <= kdVexp T nd nu m' z a.
Proof.
  intros HZ HS HV G0 G1. set (x := dxs nd z). set (u := dus T nd nu z). set (l := lambdas T nd nu z).
  assert (Hl : forall r, lin T nd nu d (along r x x) (along r u u)).
  { intro r. destruct (sol_lin z HZ) as [H1 H2]. split.
    - intros i Hi. unfold along, x. rewrite H1, G0 by auto. ring.
    - intros t i Ht Hi. unfold along. rewrite !mulv_line. unfold x at 1 2. rewrite H2, G1 by auto. unfold x, u. ring. }
  assert (E : forall r, qcost T nd nu d (along r x x) (along r u u) = qcost T nd nu d x u + / 2 * (r * r) * curv T nd nu d x u).
  { intro r. rewrite <- (lagr_feas T nd nu d _ _ l (Hl r)), lagr_line by auto. rewrite (slope_zero T nd nu d x u l x u (sol_gx z HZ) (sol_gu z HZ)), (lagr_feas T nd nu d x u l (sol_lin z HZ)). ring. }
  assert (E' : forall a, kdVexp T nd nu m' z a = - qcost T nd nu d x u - / 2 * ((a - 1) * (a - 1)) * curv T nd nu d x u).
  { intro a. rewrite C74_expected. fold x u. specialize (E (a - 1)). replace (scaled a x) with (along (a - 1) x x) by (apply functional_extensionality; intro; apply functional_extensionality; intro; unfold along, scaled; ring).
    replace (scaled a u) with (along (a - 1) u u) by (apply functional_extensionality; intro; apply functional_extensionality; intro; unfold along, scaled; ring). lra. }
  assert (C : 0 <= curv T nd nu d x u) by (destruct HV as [HV1 HV2]; unfold curv; apply Rplus_le_le_0_compat; [apply rsum_ge0; intros; apply HV1; auto|apply HV2]).
  pose proof (E' 0) as A0. pose proof (E' 1) as A1. pose proof (E' (-1)) as A2. unfold kdVexp in A0, A1, A2.
  assert (K0 : kd0 T nd nu m' z = curv T nd nu d x u) by lra. assert (K1 : kd1 T nd nu m' z = - curv T nd nu d x u) by lra.
  rewrite K0, K1. repeat split; try lra. intros a Ha. unfold kdVexp. rewrite K0, K1.
  assert (B : 0 <= a * (2 - a)) by nra. pose proof (Rmult_le_pos _ _ B C). lra.
Qed.
(** The stopping criterion is the squared norm of the first-order conditions of the nonlinear
    problem at the candidate: gradient of the Lagrangian with the multipliers, and gaps. *)
Definition foc_x (l : nat -> vec) (t i : nat) : R := if (t <? T)%nat then k_Lx (k_run d t) i + l t i - rsum nd (fun r => k_Fx (k_run d t) r i * l (S t) r) else k_LxT d i + l t i.
Definition foc_u (l : nat -> vec) (t j : nat) : R := k_Lu (k_run d t) j - rsum nd (fun r => k_Fu (k_run d t) r j * l (S t) r).
Definition sq (r : R) : R := r * r.
Theorem C74_stop l v : kstop T nd nu m' (kdF T nd nu d l v) =
  rsum (S T) (fun t => rsum nd (fun i => sq (foc_x l t i))) + rsum T (fun t => rsum (nu t) (fun j => sq (foc_u l t j))) +
  (rsum nd (fun i => sq (k_gap0 d i)) + rsum T (fun t => rsum nd (fun i => sq (k_gap (k_run d t) i)))).
Proof.
  unfold kstop. rewrite sum_primal. f_equal; [f_equal|].
  - apply rsum_ext. intros t Ht. apply rsum_ext. intros i Hi. rewrite (ref T nd nu d m m' HC Hc) by (cbn; lia). rewrite dF_x by (auto; lia). unfold sq, foc_x, kref, ax, mulv, tr. destruct (t <? T)%nat; ring.
  - apply rsum_ext. intros t Ht. apply rsum_ext. intros i Hi. rewrite (ref T nd nu d m m' HC Hc) by (cbn; lia). rewrite dF_u by (auto; lia). unfold sq, foc_u, kref, au, mulv, tr. ring.
  - assert (E : forall f, rsum (ndx_ T nd) f = rsum (S T) (fun t => rsum nd (fun i => f (kix nd t + i)%nat))) by (intro f; exact (sum_x nd f (S T))). rewrite E.
    set (g := fun t => rsum nd (fun i => sq (snd m' (at_ T nd nu (PL t i))))). transitivity (rsum (S T) g); [reflexivity|].
    change (rsum (S T) g) with (rsum T g + g T). rewrite <- reindex. f_equal; unfold g.
    + apply rsum_ext. intros i Hi. rewrite (ref T nd nu d m m' HC Hc) by (cbn; lia). reflexivity.
    + apply rsum_ext. intros t Ht. apply rsum_ext. intros i Hi. rewrite (ref T nd nu d m m' HC Hc) by (cbn; lia). reflexivity.
Qed.
End C28.

(** ** A concrete case: one node, x' = x + u, cost x^2/2 + u^2/2 + u, terminal x^2/2 *)
Definition ex_stage : kstage := KStage (fun _ => 0) (fun _ => 1) (fun _ _ => 1) (fun _ _ => 0) (fun _ _ => 1) (fun _ _ => 1) (fun _ _ => 1) (fun _ => 0).
Definition ex_data : kdata := KData (fun _ => ex_stage) (fun _ => 0) (fun _ _ => 1) (fun _ => 0).
Definition ex_z : vec := fun i => match i with O => 0 | S O => - / 2 | S (S O) => - / 2 | _ => / 2 end.
Example C28_case : exists m, kcalcDiff 1 1 (fun _ => 1%nat) ex_data kalloc = Some m /\ kreach 1 1 (fun _ => 1%nat) m /\ solves 5 m ex_z /\
  symmetric 1 1 (fun _ => 1%nat) ex_data /\ convex 1 1 (fun _ => 1%nat) ex_data /\ pd_control 1 (fun _ => 1%nat) ex_data /\ kd0 1 1 (fun _ => 1%nat) m ex_z = / 2.
Proof.
  eexists. split; [reflexivity|]. split; [eapply kr_calc; [apply kr_alloc|reflexivity]|]. split; [|split; [|split; [|split]]].
  - intros i Hi. do 5 (destruct i as [|i]; [vm_compute; lra|]). lia.
  - split; [intros t Ht; split|]; intros i j Hi Hj; reflexivity.
  - split; [intros t a b Ht|intro a]; unfold stage_quad, quad, dot, mulv; cbn; nra.
  - intros t b Ht H j Hj. unfold dot, mulv in H. cbn in H. replace j with 0%nat by lia. nra.
  - vm_compute. lra.
Qed.
Print Assumptions C28_symmetric.
Print Assumptions C28_history.
Print Assumptions C28_direction.
Print Assumptions C28_minimiser.
Print Assumptions C28_nonsingular.
Print Assumptions C74_expected.
Print Assumptions C74_descent.
Print Assumptions C74_stop.
