(** Proofs for C124: costates, the backward pass at stationary points, the stopping value. *)
From Coquelicot Require Import Coquelicot.
From Coq Require Import Reals List Bool Arith Lia Lra FunctionalExtensionality.
From Verif Require Import Deriv VecMat Stop_Model.
Import ListNotations.
Open Scope R_scope.

Lemma dot_ext n (a b c d : vec) : (forall i, (i < n)%nat -> a i = c i) -> (forall i, (i < n)%nat -> b i = d i) -> dot n a b = dot n c d.
Proof. intros H1 H2. apply rsum_ext. intros i Hi. now rewrite H1, H2. Qed.
Lemma dot_0_r n (a b : vec) : (forall i, (i < n)%nat -> b i = 0) -> dot n a b = 0.
Proof. intro H. apply rsum_0. intros i Hi. rewrite H by exact Hi. ring. Qed.
Lemma dot_0_l n (a b : vec) : (forall i, (i < n)%nat -> a i = 0) -> dot n a b = 0.
Proof. intro H. apply rsum_0. intros i Hi. rewrite H by exact Hi. ring. Qed.
Lemma mulv_ext n (A : mat) (a b : vec) i : (forall j, (j < n)%nat -> a j = b j) -> mulv n A a i = mulv n A b i.
Proof. intro H. apply rsum_ext. intros j Hj. now rewrite H. Qed.
Lemma mulv_zero n (A : mat) (a : vec) i : (forall j, (j < n)%nat -> a j = 0) -> mulv n A a i = 0.
Proof. intro H. apply rsum_0. intros j Hj. rewrite H by exact Hj. ring. Qed.
Lemma dot_plus_l n (a b c : vec) : dot n (fun i => a i + b i) c = dot n a c + dot n b c.
Proof. unfold dot. rewrite <- rsum_plus. apply rsum_ext. intros; ring. Qed.
Lemma dot_plus_r n (a b c : vec) : dot n c (fun i => a i + b i) = dot n c a + dot n c b.
Proof. unfold dot. rewrite <- rsum_plus. apply rsum_ext. intros; ring. Qed.
Lemma dot_scal_r n k (a c : vec) : dot n c (fun i => k * a i) = k * dot n c a.
Proof. unfold dot. rewrite <- rsum_scal. apply rsum_ext. intros; ring. Qed.
Lemma dot_opp_l n (a b : vec) : dot n (fun i => - a i) b = - dot n a b.
Proof. unfold dot. replace (- rsum n (fun i => a i * b i)) with (-1 * rsum n (fun i => a i * b i)) by ring. rewrite <- rsum_scal. apply rsum_ext. intros; ring. Qed.
Lemma dot_comm n (a b : vec) : dot n a b = dot n b a.
Proof. apply rsum_ext. intros; ring. Qed.
(** (A' v) . w = v . (A w) *)
Lemma dot_tr n m (A : mat) (v w : vec) : dot n (mulv m (tr A) v) w = dot m v (mulv n A w).
Proof.
  unfold dot, mulv, tr.
  rewrite (rsum_ext n _ (fun i => rsum m (fun j => A j i * v j * w i))).
  2:{ intros i _. rewrite Rmult_comm, <- rsum_scal. apply rsum_ext. intros; ring. }
  rewrite rsum_swap. apply rsum_ext. intros j _. rewrite <- rsum_scal. apply rsum_ext. intros; ring.
Qed.
Definition sym_on (n : nat) (A : mat) : Prop := forall i j, (i < n)%nat -> (j < n)%nat -> A i j = A j i.
Definition pd (n : nat) (A : mat) : Prop := forall v : vec, (exists i, (i < n)%nat /\ v i <> 0) -> 0 < dot n v (mulv n A v).
Lemma pd_zero n A (v : vec) : pd n A -> dot n v (mulv n A v) <= 0 -> forall i, (i < n)%nat -> v i = 0.
Proof.
  intros P H i Hi. destruct (Req_dec (v i) 0) as [E|E]; [exact E|]. exfalso.
  assert (0 < dot n v (mulv n A v)) by (apply P; exists i; auto). lra.
Qed.
Lemma pd_ge0 n A (v : vec) : pd n A -> 0 <= dot n v (mulv n A v).
Proof.
  intro P. destruct (Rle_dec 0 (dot n v (mulv n A v))) as [H|H]; [exact H|]. exfalso.
  assert (Z : forall i, (i < n)%nat -> v i = 0) by (apply (pd_zero n A v P); lra).
  apply H. right. symmetry. now apply dot_0_l.
Qed.
Lemma sym_reg n p A : sym_on n A -> sym_on n (reg p A).
Proof. intros H i j Hi Hj. unfold reg. rewrite (H i j Hi Hj), Nat.eqb_sym. reflexivity. Qed.
Lemma sym_congr n m (A B : mat) : sym_on n A -> sym_on m (mulm n (mulm n (tr B) A) B).
Proof.
  intros H i j _ _. unfold mulm, tr.
  rewrite (rsum_ext n _ (fun k => rsum n (fun l => B l i * A l k * B k j))).
  2:{ intros k _. rewrite Rmult_comm, <- rsum_scal. apply rsum_ext. intros; ring. }
  rewrite rsum_swap. apply rsum_ext. intros k Hk. rewrite Rmult_comm, <- rsum_scal. apply rsum_ext. intros l Hl. rewrite (H k l Hk Hl). ring.
Qed.

Section S.
Variables (X : Type) (ndx : nat) (sdiff : X -> X -> vec).
Variable llt : nat -> mat -> option mat.
Variable boxqp : nat -> mat -> vec -> vec -> vec -> vec * (nat -> bool) * mat.
(** [moves x s w]: the curve [x] has velocity [w] at [s] *)
Variable moves : (R -> X) -> R -> vec -> Prop.
Notation node := (node X).
Notation term := (term X).
Notation bpass := (bpass X ndx llt boxqp).
Notation bstep := (bstep X ndx llt boxqp).
Notation gains := (gains X llt boxqp).
Notation cost := (cost X).

(** The derivatives published by a model are those of its dynamics and cost, which read [nu] controls. *)
Record smooth (m : node) : Prop := Smooth {
  sm_F : forall x (u : R -> vec) s w z, moves x s w -> (forall i, (i < nu X m)%nat -> is_derive (fun t => u t i) s (z i)) ->
    moves (fun t => F X m (x t) (u t)) s (fun i => mulv ndx (Fx X m (x s) (u s)) w i + mulv (nu X m) (Fu X m (x s) (u s)) z i);
  sm_L : forall x (u : R -> vec) s w z, moves x s w -> (forall i, (i < nu X m)%nat -> is_derive (fun t => u t i) s (z i)) ->
    is_derive (fun t => L X m (x t) (u t)) s (dot ndx (Lx X m (x s) (u s)) w + dot (nu X m) (Lu X m (x s) (u s)) z);
  sm_reads : forall x u v, (forall i, (i < nu X m)%nat -> u i = v i) -> F X m x u = F X m x v /\ L X m x u = L X m x v;
  sm_sym : forall x u, sym_on (nu X m) (Luu X m x u) }.
Record smoothT (T : term) : Prop := SmoothT {
  st_L : forall x s w, moves x s w -> is_derive (fun t => LT X T (x t)) s (dot ndx (LTx X T (x s)) w);
  st_sym : forall x, sym_on ndx (LTxx X T x) }.
Definition all_smooth (l : list (node * vec)) : Prop := Forall (fun p => smooth (fst p)) l.

(** Moving the controls of a candidate along directions (missing ones are zero) *)
Definition hdv (ws : list vec) : vec := hd (fun _ => 0) ws.
Fixpoint shift (t : R) (l : list (node * vec)) (ws : list vec) : list (node * vec) :=
  match l with [] => [] | (m, u) :: l' => (m, fun i => u i + t * hdv ws i) :: shift t l' (tl ws) end.

(** Costates and gradients of the total cost with respect to the controls *)
Fixpoint costate (T : term) (x : X) (l : list (node * vec)) : vec :=
  match l with
  | [] => LTx X T x
  | (m, u) :: l' => fun i => Lx X m x u i + mulv ndx (tr (Fx X m x u)) (costate T (F X m x u) l') i
  end.
Definition grad (T : term) (m : node) (x : X) (u : vec) (l' : list (node * vec)) : vec :=
  fun i => Lu X m x u i + mulv ndx (tr (Fu X m x u)) (costate T (F X m x u) l') i.
Fixpoint gsum (T : term) (x : X) (l : list (node * vec)) (ws : list vec) : R :=
  match l with [] => 0 | (m, u) :: l' => dot (nu X m) (grad T m x u l') (hdv ws) + gsum T (F X m x u) l' (tl ws) end.

Lemma slope_gen T l : smoothT T -> all_smooth l -> forall ws (x : R -> X) w, moves x 0 w ->
  is_derive (fun t => cost T (x t) (shift t l ws)) 0 (dot ndx (costate T (x 0) l) w + gsum T (x 0) l ws).
Proof.
  intros HT. induction l as [|(m, u) l IH]; intros HA ws x w Hx.
  - cbn [shift Stop_Model.cost costate gsum]. eapply deq; [exact (st_L T HT x 0 w Hx)|]. ring.
  - inversion HA as [|? ? Hm Hl]; subst. cbn [fst] in Hm. cbn [shift Stop_Model.cost costate gsum].
    assert (E0 : (fun i => u i + 0 * hdv ws i) = u) by (apply functional_extensionality; intro; ring).
    assert (Du : forall i, (i < nu X m)%nat -> is_derive (fun t => u i + t * hdv ws i) 0 (hdv ws i)).
    { intros i _. eapply deq; [apply dplus; [apply dconst|apply (dmult (fun t => t) (fun _ => hdv ws i)); [apply did|apply dconst]]|]. ring. }
    pose proof (sm_F m Hm x (fun t i => u i + t * hdv ws i) 0 w (hdv ws) Hx Du) as MF. cbv beta in MF. rewrite E0 in MF.
    pose proof (sm_L m Hm x (fun t i => u i + t * hdv ws i) 0 w (hdv ws) Hx Du) as DL. cbv beta in DL. rewrite E0 in DL.
    pose proof (IH Hl (tl ws) _ _ MF) as DC. cbv beta in DC. rewrite E0 in DC.
    eapply deq; [apply (dplus _ _ _ _ _ DL DC)|].
    rewrite dot_plus_r, <- !dot_tr. unfold grad. rewrite !dot_plus_l. ring.
Qed.

(** ** The backward pass *)
Lemma bstep_sym box preg m x u Vx Vxx vx vxx b : bstep box preg m x u Vx Vxx = Some (vx, vxx, b) -> sym_on ndx vxx.
Proof.
  unfold Stop_Model.bstep. cbv zeta. destruct (Stop_Model.gains _ _ _ _ _ _ _ _ _) as [b'|]; [|discriminate]. intro E.
  assert (E2 : vxx = reg preg (fun i j => / 2 * ((Lxx X m x u i j + mulm ndx (mulm ndx (tr (Fx X m x u)) Vxx) (Fx X m x u) i j -
     mulm (nu X m) (fun i j => Lxu X m x u i j + mulm ndx (mulm ndx (tr (Fx X m x u)) Vxx) (Fu X m x u) i j) (bK b') i j) +
     (Lxx X m x u j i + mulm ndx (mulm ndx (tr (Fx X m x u)) Vxx) (Fx X m x u) j i -
     mulm (nu X m) (fun i j => Lxu X m x u i j + mulm ndx (mulm ndx (tr (Fx X m x u)) Vxx) (Fu X m x u) i j) (bK b') j i)))) by (injection E; intros; congruence).
  rewrite E2. apply sym_reg. intros i j _ _. f_equal. apply Rplus_comm.
Qed.
Lemma bpass_sym box preg T x l Vx Vxx bs : smoothT T -> bpass box preg T x l = Some (Vx, Vxx, bs) -> sym_on ndx Vxx.
Proof.
  intros HT. destruct l as [|(m, u) l]; cbn [Stop_Model.bpass].
  - intro E. injection E as _ <- _. apply sym_reg, (st_sym T HT).
  - destruct (bpass box preg T (F X m x u) l) as [((V1, V2), bs')|]; [|discriminate].
    destruct (bstep box preg m x u V1 V2) as [((v1, v2), b)|] eqn:B; [|discriminate]. intro E. injection E as _ <- _.
    exact (bstep_sym _ _ _ _ _ _ _ _ _ _ B).
Qed.

(** What a step gives: the raw gradient of the Hamiltonian, its Hessian and the gains *)
Definition rawQu (m : node) (x : X) (u Vx : vec) : vec := fun i => Lu X m x u i + mulv ndx (tr (Fu X m x u)) Vx i.
Lemma bstep_facts box preg m x u Vx Vxx vx vxx b : smooth m -> sym_on ndx Vxx -> bstep box preg m x u Vx Vxx = Some (vx, vxx, b) ->
  sym_on (nu X m) (bQuu b) /\
  (forall i, vx i = Lx X m x u i + mulv ndx (tr (Fx X m x u)) Vx i - mulv (nu X m) (tr (bK b)) (bQu b) i) /\
  exists Qxu, gains box m u (bQuu b) (rawQu m x u Vx) Qxu = Some b.
Proof.
  intros Hm HV. unfold Stop_Model.bstep. cbv zeta.
  set (Quu := reg preg _). set (Qxu := fun i j : nat => Lxu X m x u i j + _).
  change (fun i : nat => Lu X m x u i + mulv ndx (tr (Fu X m x u)) Vx i) with (rawQu m x u Vx).
  destruct (gains box m u Quu (rawQu m x u Vx) Qxu) as [b'|] eqn:G; [|discriminate]. intro E.
  assert (Eb : b' = b) by congruence. subst b'.
  assert (EQ : bQuu b = Quu).
  { revert G. unfold Stop_Model.gains. destruct (Nat.eqb _ _); [intro G; injection G as <-; reflexivity|].
    destruct (if box then lims X m else None) as [(lb, ub)|].
    - destruct (boxqp _ _ _ _ _) as ((y, fr), Hi). intro G; injection G as <-; reflexivity.
    - destruct (llt _ _); [|discriminate]. intro G; injection G as <-; reflexivity. }
  split; [|split].
  - rewrite EQ. apply sym_reg. intros i j Hi Hj. rewrite (sm_sym m Hm x u i j Hi Hj). f_equal. now apply (sym_congr ndx (nu X m)).
  - intro i. injection E as <- _. reflexivity.
  - exists Qxu. now rewrite EQ.
Qed.

(** All steps of a pass are zero, and so are the gradients it reports *)
Fixpoint still (l : list (node * vec)) (bs : list bnode) : Prop :=
  match l, bs with
  | (m, _) :: l', b :: bs' => (forall i, (i < nu X m)%nat -> bk b i = 0 /\ bQu b i = 0) /\ still l' bs'
  | _, _ => True
  end.
Lemma still_costate box preg T l : smoothT T -> all_smooth l -> forall x Vx Vxx bs, bpass box preg T x l = Some (Vx, Vxx, bs) ->
  still l bs -> forall i, Vx i = costate T x l i.
Proof.
  intros HT. induction l as [|(m, u) l IH]; intros HA x Vx Vxx bs; cbn [Stop_Model.bpass].
  - intro E. injection E as <- _ _. reflexivity.
  - inversion HA as [|? ? Hm Hl]; subst. cbn [fst] in Hm.
    destruct (bpass box preg T (F X m x u) l) as [((V1, V2), bs')|] eqn:P; [|discriminate].
    destruct (bstep box preg m x u V1 V2) as [((v1, v2), b)|] eqn:B; [|discriminate]. intro E.
    assert (v1 = Vx /\ b :: bs' = bs) as (<- & <-) by (split; congruence). intros (S1 & S2) i.
    pose proof (bpass_sym _ _ _ _ _ _ _ _ HT P) as SV.
    destruct (bstep_facts _ _ _ _ _ _ _ _ _ _ Hm SV B) as (_ & Ev & _). rewrite Ev.
    rewrite (mulv_zero (nu X m) (tr (bK b)) (bQu b)) by (intros j Hj; apply (S1 j Hj)).
    cbn [costate]. rewrite (mulv_ext ndx _ V1 (costate T (F X m x u) l)); [ring|]. intros j _. exact (IH Hl _ _ _ _ P S2 j).
Qed.
Lemma still_stop l : forall bs, still l bs -> improvement X l bs = (0, 0).
Proof.
  induction l as [|(m, u) l IH]; intros [|b bs]; try reflexivity. intros (S1 & S2). cbn [improvement]. rewrite (IH _ S2). cbn [fst snd].
  rewrite (dot_0_r (nu X m) (bQu b) (bk b)) by (intros i Hi; apply (S1 i Hi)).
  rewrite (dot_0_l (nu X m) (bk b)) by (intros i Hi; apply (S1 i Hi)). f_equal; ring.
Qed.

(** ** Contracts of the factorization and of the box solver *)
Definition llt_ok : Prop := forall n A B, llt n A = Some B -> sym_on n A ->
  pd n A /\ (forall b i, (i < n)%nat -> mulv n A (mulv n B b) i = b i).
(** An exact solution: clamped coordinates are at a bound that the objective pushes against *)
Definition exact (n : nat) (H : mat) (q lb ub : vec) (r : vec * (nat -> bool) * mat) : Prop :=
  let '(x, fr, _) := r in
  forall i, (i < n)%nat -> lb i <= x i <= ub i /\
    (if fr i then mulv n H x i + q i = 0
     else (x i = lb i /\ 0 < mulv n H x i + q i) \/ (x i = ub i /\ mulv n H x i + q i < 0)).

(** First-order optimality of a node *)
Definition node_opt (box : bool) (m : node) (u g : vec) : Prop :=
  forall w : vec, (match (if box then lims X m else None) with None => True
                   | Some (lb, ub) => forall i, (i < nu X m)%nat -> lb i <= u i + w i <= ub i end) -> 0 <= dot (nu X m) g w.
Definition inside (m : node) (u : vec) : Prop :=
  match lims X m with None => True | Some (lb, ub) => forall i, (i < nu X m)%nat -> lb i <= u i <= ub i end.
(** Each control of the node that moves ends strictly inside its limits *)
Definition moves_inside (box : bool) (m : node) (u : vec) (b : bnode) : Prop :=
  match (if box then lims X m else None) with None => True
  | Some (lb, ub) => forall i, (i < nu X m)%nat -> bk b i = 0 \/ lb i < u i - bk b i < ub i end.

Lemma node_opt_free m u g (box : bool) : (if box then lims X m else None) = None -> node_opt box m u g -> forall i, (i < nu X m)%nat -> g i = 0.
Proof.
  unfold node_opt. intros -> H i Hi.
  pose proof (H (fun j => - g j) I) as H1.
  assert (E : dot (nu X m) g (fun j => - g j) = - dot (nu X m) g g) by (now rewrite dot_comm, dot_opp_l).
  rewrite E in H1.
  assert (G : forall n, dot n g g <= 0 -> forall i, (i < n)%nat -> g i = 0).
  { clear. intro n. unfold dot. induction n; intros Hs i Hi; [lia|]. cbn [rsum] in Hs.
    assert (0 <= rsum n (fun i => g i * g i)) by (apply rsum_ge0; intros; apply Rle_0_sqr).
    assert (0 <= g n * g n) by apply Rle_0_sqr.
    destruct (Nat.eq_dec i n) as [->|N]; [apply Rsqr_0_uniq; unfold Rsqr; lra|]. apply IHn; [lra|lia]. }
  apply (G (nu X m)); [lra|exact Hi].
Qed.

Section Contracts.
Hypothesis HL : llt_ok.

(** Without limits: the contribution of a node to the stopping value is half of k' Quu k *)
Lemma free_node (box : bool) m u Quu Qu Qxu b : (if box then lims X m else None) = None -> sym_on (nu X m) Quu ->
  gains box m u Quu Qu Qxu = Some b ->
  (forall i, (i < nu X m)%nat -> bQu b i = Qu i) /\
  ((forall i, (i < nu X m)%nat -> Qu i = 0) -> forall i, (i < nu X m)%nat -> bk b i = 0) /\
  let c := dot (nu X m) (bQu b) (bk b) - / 2 * dot (nu X m) (bk b) (mulv (nu X m) Quu (bk b)) in
  0 <= c /\ (c = 0 -> forall i, (i < nu X m)%nat -> bk b i = 0 /\ bQu b i = 0).
Proof.
  intros NB SQ. unfold Stop_Model.gains. rewrite NB.
  destruct (Nat.eqb_spec (nu X m) 0) as [Z|NZ].
  { intro E. injection E as <-. cbn [bQu bk bQuu]. rewrite Z. cbv zeta. unfold dot. cbn [rsum].
    split; [intros; lia|]. split; [intros; lia|]. split; [lra|intros; lia]. }
  destruct (llt (nu X m) Quu) as [B|] eqn:EL; [|discriminate]. intro E. injection E as <-. cbn [bQu bk bQuu].
  destruct (HL _ _ _ EL SQ) as (P & I).
  split; [reflexivity|]. split.
  { intros Z i _. now apply mulv_zero. }
  set (k := mulv (nu X m) B Qu). cbv zeta.
  assert (ED : dot (nu X m) Qu k = dot (nu X m) k (mulv (nu X m) Quu k)).
  { rewrite dot_comm. apply dot_ext; [reflexivity|]. intros i Hi. symmetry. now apply I. }
  rewrite ED. pose proof (pd_ge0 _ _ k P) as G. split; [lra|]. intros E i Hi.
  assert (K0 : forall i, (i < nu X m)%nat -> k i = 0) by (apply (pd_zero _ _ k P); lra).
  split; [now apply K0|]. rewrite <- (I Qu i Hi). fold k. now apply mulv_zero.
Qed.

(** With limits *)
Lemma box_node (box : bool) m u lb ub Quu Qu Qxu b : (if box then lims X m else None) = Some (lb, ub) -> sym_on (nu X m) Quu -> pd (nu X m) Quu ->
  (forall i, (i < nu X m)%nat -> lb i <= u i <= ub i) ->
  exact (nu X m) Quu Qu (fun i => lb i - u i) (fun i => ub i - u i) (boxqp (nu X m) Quu Qu (fun i => lb i - u i) (fun i => ub i - u i)) ->
  gains box m u Quu Qu Qxu = Some b ->
  ((forall i, (i < nu X m)%nat -> bk b i = 0) -> node_opt box m u Qu /\ forall i, (i < nu X m)%nat -> bQu b i = 0) /\
  (node_opt box m u Qu -> forall i, (i < nu X m)%nat -> bk b i = 0) /\
  (moves_inside box m u b ->
   let c := dot (nu X m) (bQu b) (bk b) - / 2 * dot (nu X m) (bk b) (mulv (nu X m) Quu (bk b)) in
   0 <= c /\ (c = 0 -> forall i, (i < nu X m)%nat -> bk b i = 0)).
Proof.
  intros NB SQ P IN HX. unfold moves_inside, node_opt, Stop_Model.gains. rewrite NB. set (n := nu X m) in *.
  destruct (Nat.eqb_spec n 0) as [Z|NZ].
  { intro E. injection E as <-. cbn [bQu bk bQuu]. rewrite Z. cbv zeta. unfold dot. cbn [rsum].
    split; [intros _; split; [intros; lra|intros; lia]|]. split; [intros; lia|]. intros _. split; [lra|intros; lia]. }
  destruct (boxqp n Quu Qu (fun i => lb i - u i) (fun i => ub i - u i)) as ((x, fr), Hi) eqn:EB.
  unfold exact in HX. cbv beta in HX. intro E. injection E as <-. cbn [bQu bk bQuu].
  assert (EX : forall (v : vec) i, mulv n Quu (fun j => - v j) i = - mulv n Quu v i).
  { intros v i. unfold mulv. replace (- rsum n (fun j => Quu i j * v j)) with (-1 * rsum n (fun j => Quu i j * v j)) by ring.
    rewrite <- rsum_scal. apply rsum_ext. intros; ring. }
  split; [|split].
  - intro K0. assert (X0 : forall i, (i < n)%nat -> x i = 0) by (intros i H; specialize (K0 i H); lra).
    assert (M0 : forall i, mulv n Quu x i = 0) by (intro i; now apply mulv_zero).
    split.
    + intros w Hw. apply rsum_ge0. intros i H. destruct (HX i H) as (_ & HF). rewrite M0, (X0 i H) in HF. specialize (Hw i H).
      destruct (fr i); [rewrite Rplus_0_l in HF; rewrite HF; lra|].
      destruct HF as [(H1 & H2)|(H1 & H2)].
      * apply Rmult_le_pos; lra.
      * replace (Qu i * w i) with (- Qu i * - w i) by ring. apply Rmult_le_pos; lra.
    + intros i H. destruct (HX i H) as (_ & HF). rewrite M0 in HF. destruct (fr i); [lra|reflexivity].
  - intro VI. assert (Q0 : 0 <= dot n Qu x).
    { apply VI. intros i H. destruct (HX i H) as (H1 & _). lra. }
    assert (Q1 : dot n (fun i => mulv n Quu x i + Qu i) x <= 0).
    { assert (G : 0 <= dot n (fun i => - (mulv n Quu x i + Qu i)) x).
      { apply rsum_ge0. intros i H. destruct (HX i H) as (HR & HF). specialize (IN i H).
        destruct (fr i); [rewrite HF; lra|]. destruct HF as [(H1 & H2)|(H1 & H2)].
        - replace (- (mulv n Quu x i + Qu i) * x i) with ((mulv n Quu x i + Qu i) * - x i) by ring. apply Rmult_le_pos; lra.
        - apply Rmult_le_pos; lra. }
      rewrite (dot_opp_l n (fun i => mulv n Quu x i + Qu i) x) in G. lra. }
    rewrite dot_plus_l, dot_comm in Q1.
    intros i H. rewrite (pd_zero n Quu x P) by (lra || assumption). ring.
  - intro MI. cbv zeta. set (k := fun i => - x i).
    assert (ED : dot n (fun i => if fr i then Qu i else 0) k = dot n k (mulv n Quu k)).
    { apply rsum_ext. intros i H. destruct (HX i H) as (_ & HF). unfold k at 3. rewrite EX. unfold k.
      destruct (fr i); [replace (Qu i) with (- mulv n Quu x i) by lra; ring|].
      assert (X0 : x i = 0); [|rewrite X0; ring].
      destruct (MI i H) as [M|M]; [lra|]. destruct HF as [(H1 & _)|(H1 & _)]; lra. }
    rewrite ED. pose proof (pd_ge0 _ _ k P) as G. split; [lra|]. intros E0 i H. apply (pd_zero _ _ k P); [lra|exact H].
Qed.

(** Gradients that are first-order optimal, node by node *)
Fixpoint grads_opt (box : bool) (T : term) (x : X) (l : list (node * vec)) : Prop :=
  match l with [] => True | (m, u) :: l' => node_opt box m u (grad T m x u l') /\ grads_opt box T (F X m x u) l' end.
(** At the nodes with limits: the controls are inside, Quu is positive definite and BoxQP solves its problem *)
Fixpoint nodes_ok (box : bool) (preg : R) (T : term) (x : X) (l : list (node * vec)) : Prop :=
  match l with
  | [] => True
  | (m, u) :: l' =>
      (forall lb ub, (if box then lims X m else None) = Some (lb, ub) ->
         inside m u /\
         forall Vx Vxx bs vx vxx b, bpass box preg T (F X m x u) l' = Some (Vx, Vxx, bs) -> bstep box preg m x u Vx Vxx = Some (vx, vxx, b) ->
           pd (nu X m) (bQuu b) /\
           exact (nu X m) (bQuu b) (rawQu m x u Vx) (fun i => lb i - u i) (fun i => ub i - u i)
             (boxqp (nu X m) (bQuu b) (rawQu m x u Vx) (fun i => lb i - u i) (fun i => ub i - u i))) /\
      nodes_ok box preg T (F X m x u) l'
  end.
Fixpoint all_inside (box : bool) (l : list (node * vec)) (bs : list bnode) : Prop :=
  match l, bs with
  | (m, u) :: l', b :: bs' => moves_inside box m u b /\ all_inside box l' bs'
  | _, _ => True
  end.

Lemma inside_box (box : bool) m u lb ub : (if box then lims X m else None) = Some (lb, ub) -> inside m u -> forall i, (i < nu X m)%nat -> lb i <= u i <= ub i.
Proof. unfold inside. destruct box; [|discriminate]. now intros ->. Qed.

Lemma raw_grad box preg T m x u l V1 V2 bs' : smoothT T -> all_smooth l -> bpass box preg T (F X m x u) l = Some (V1, V2, bs') ->
  still l bs' -> forall i, rawQu m x u V1 i = grad T m x u l i.
Proof.
  intros HT Hl P S i. unfold rawQu, grad. f_equal. apply mulv_ext. intros j _.
  exact (still_costate box preg T l HT Hl _ _ _ _ P S j).
Qed.
Lemma node_opt_ext box m u g h : (forall i, (i < nu X m)%nat -> g i = h i) -> node_opt box m u g -> node_opt box m u h.
Proof. intros E H w Hw. rewrite <- (dot_ext (nu X m) g w h w E (fun i _ => eq_refl)). now apply H. Qed.

(** Optimal gradients: the pass stands still *)
Lemma opt_still box preg T l : smoothT T -> all_smooth l -> forall x Vx Vxx bs, bpass box preg T x l = Some (Vx, Vxx, bs) ->
  nodes_ok box preg T x l -> grads_opt box T x l -> still l bs.
Proof.
  intros HT. induction l as [|(m, u) l IH]; intros HA x Vx Vxx bs; cbn [Stop_Model.bpass].
  - intro E. injection E as _ _ <-. intros _ _. exact I.
  - inversion HA as [|? ? Hm Hl]; subst. cbn [fst] in Hm.
    destruct (bpass box preg T (F X m x u) l) as [((V1, V2), bs')|] eqn:P; [|discriminate].
    destruct (bstep box preg m x u V1 V2) as [((v1, v2), b)|] eqn:B; [|discriminate]. intro E.
    assert (Eb : b :: bs' = bs) by congruence. subst bs. intros (N1 & N2) (G1 & G2).
    pose proof (IH Hl _ _ _ _ P N2 G2) as S2. split; [|exact S2].
    destruct (bstep_facts _ _ _ _ _ _ _ _ _ _ Hm (bpass_sym _ _ _ _ _ _ _ _ HT P) B) as (SQ & _ & Qxu & G).
    pose proof (raw_grad box preg T m x u l V1 V2 bs' HT Hl P S2) as RG.
    destruct (if box then lims X m else None) as [(lb, ub)|] eqn:LB.
    + destruct (N1 lb ub eq_refl) as (IN & N3). destruct (N3 _ _ _ _ _ _ P B) as (PD & EX).
      destruct (box_node box m u lb ub _ _ _ _ LB SQ PD (inside_box box m u lb ub LB IN) EX G) as (B1 & B2 & _).
      assert (K0 : forall i, (i < nu X m)%nat -> bk b i = 0).
      { apply B2. apply (node_opt_ext box m u (grad T m x u l)); [intros i _; now rewrite RG|exact G1]. }
      intros i Hi. split; [now apply K0|]. now apply (proj2 (B1 K0)).
    + destruct (free_node box m u _ _ _ _ LB SQ G) as (Q1 & Q2 & _).
      pose proof (node_opt_free m u _ box LB G1) as G0.
      assert (R0 : forall i, (i < nu X m)%nat -> rawQu m x u V1 i = 0) by (intros i Hi; rewrite RG; now apply G0).
      intros i Hi. split; [now apply Q2|]. rewrite Q1 by exact Hi. now apply R0.
Qed.
(** Standing still: the gradients are optimal *)
Lemma still_opt box preg T l : smoothT T -> all_smooth l -> forall x Vx Vxx bs, bpass box preg T x l = Some (Vx, Vxx, bs) ->
  nodes_ok box preg T x l -> still l bs -> grads_opt box T x l.
Proof.
  intros HT. induction l as [|(m, u) l IH]; intros HA x Vx Vxx bs; cbn [Stop_Model.bpass].
  - intros _ _ _. exact I.
  - inversion HA as [|? ? Hm Hl]; subst. cbn [fst] in Hm.
    destruct (bpass box preg T (F X m x u) l) as [((V1, V2), bs')|] eqn:P; [|discriminate].
    destruct (bstep box preg m x u V1 V2) as [((v1, v2), b)|] eqn:B; [|discriminate]. intro E.
    assert (Eb : b :: bs' = bs) by congruence. subst bs. intros (N1 & N2) (S1 & S2).
    split; [|exact (IH Hl _ _ _ _ P N2 S2)].
    destruct (bstep_facts _ _ _ _ _ _ _ _ _ _ Hm (bpass_sym _ _ _ _ _ _ _ _ HT P) B) as (SQ & _ & Qxu & G).
    pose proof (raw_grad box preg T m x u l V1 V2 bs' HT Hl P S2) as RG.
    apply (node_opt_ext box m u (rawQu m x u V1)); [intros i _; apply RG|].
    destruct (if box then lims X m else None) as [(lb, ub)|] eqn:LB.
    + destruct (N1 lb ub eq_refl) as (IN & N3). destruct (N3 _ _ _ _ _ _ P B) as (PD & EX).
      destruct (box_node box m u lb ub _ _ _ _ LB SQ PD (inside_box box m u lb ub LB IN) EX G) as (B1 & _ & _).
      apply B1. intros i Hi. apply (S1 i Hi).
    + destruct (free_node box m u _ _ _ _ LB SQ G) as (Q1 & _).
      intros w _. rewrite dot_0_l; [lra|]. intros i Hi. rewrite <- Q1 by exact Hi. apply (S1 i Hi).
Qed.
(** The stopping value vanishes only when the pass stands still, if controls that move end inside *)
Lemma stop_still box preg T l : smoothT T -> all_smooth l -> forall x Vx Vxx bs, bpass box preg T x l = Some (Vx, Vxx, bs) ->
  nodes_ok box preg T x l -> all_inside box l bs ->
  0 <= fst (improvement X l bs) + / 2 * snd (improvement X l bs) /\
  (fst (improvement X l bs) + / 2 * snd (improvement X l bs) = 0 -> still l bs).
Proof.
  intros HT. induction l as [|(m, u) l IH]; intros HA x Vx Vxx bs; cbn [Stop_Model.bpass].
  - intro E. injection E as _ _ <-. intros _ _. cbn [improvement fst snd]. split; [lra|intros _; exact I].
  - inversion HA as [|? ? Hm Hl]; subst. cbn [fst] in Hm.
    destruct (bpass box preg T (F X m x u) l) as [((V1, V2), bs')|] eqn:P; [|discriminate].
    destruct (bstep box preg m x u V1 V2) as [((v1, v2), b)|] eqn:B; [|discriminate]. intro E.
    assert (Eb : b :: bs' = bs) by congruence. subst bs. intros (N1 & N2) (A1 & A2).
    destruct (IH Hl _ _ _ _ P N2 A2) as (I1 & I2). cbn [improvement fst snd].
    destruct (bstep_facts _ _ _ _ _ _ _ _ _ _ Hm (bpass_sym _ _ _ _ _ _ _ _ HT P) B) as (SQ & _ & Qxu & G).
    set (r := improvement X l bs') in *.
    assert (NN : let c := dot (nu X m) (bQu b) (bk b) - / 2 * dot (nu X m) (bk b) (mulv (nu X m) (bQuu b) (bk b)) in
       0 <= c /\ (c = 0 -> forall i, (i < nu X m)%nat -> bk b i = 0 /\ bQu b i = 0)).
    { destruct (if box then lims X m else None) as [(lb, ub)|] eqn:LB.
      - destruct (N1 lb ub eq_refl) as (IN & N3). destruct (N3 _ _ _ _ _ _ P B) as (PD & EX).
        destruct (box_node box m u lb ub _ _ _ _ LB SQ PD (inside_box box m u lb ub LB IN) EX G) as (B1 & _ & B3).
        destruct (B3 A1) as (C1 & C2). split; [exact C1|]. intros C0 i Hi. pose proof (C2 C0) as K0.
        split; [now apply K0|]. now apply (proj2 (B1 K0)).
      - exact (proj2 (proj2 (free_node box m u _ _ _ _ LB SQ G))). }
    cbv zeta in NN. destruct NN as (C1 & C2).
    set (p1 := dot (nu X m) (bQu b) (bk b)) in *. set (p2 := dot (nu X m) (bk b) (mulv (nu X m) (bQuu b) (bk b))) in *.
    split; [lra|]. intro E0. split; [apply C2; lra|apply I2; lra].
Qed.

End Contracts.
End S.
