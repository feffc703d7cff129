(** C95: the state of a robot (StateMultibody). *)
From Coquelicot Require Import Coquelicot.
From Coq Require Import QArith Reals List Arith Bool Lia Lra String.
From Verif Require Import Deriv VecMat XFloat State_Model StateMB_Model StateMB_Proofs.
Import ListNotations.
Open Scope list_scope.
Open Scope R_scope.

(** ** Specification *)
(** What is assumed of Pinocchio.  [moves q s w]: the curve q has velocity w (in the tangent space at
    q s) at time s.  [near]: the pairs of configurations where difference is differentiable and inverse
    to integrate; [small]: the tangent vectors recovered by difference. *)
Record lie (sp : space) (moves : (R -> cfg sp) -> R -> vec -> Prop) (near : cfg sp -> cfg sp -> Prop)
    (small : cfg sp -> vec -> Prop) : Prop := {
  l_const : forall q s, moves (fun _ => q) s (fun _ => 0);
  l_vel : forall q s w w', (forall i, (i < nv sp)%nat -> w i = w' i) -> moves q s w -> moves q s w';
  l_diff : forall q0 q1 s w0 w1, moves q0 s w0 -> moves q1 s w1 -> near (q0 s) (q1 s) ->
    forall i, (i < nv sp)%nat -> is_derive (fun t => p_diff sp (q0 t) (q1 t) i) s
      (mulv (nv sp) (p_dD0 sp (q0 s) (q1 s)) w0 i + mulv (nv sp) (p_dD1 sp (q0 s) (q1 s)) w1 i);
  l_int : forall q v s w dv, moves q s w ->
    (forall i, (i < nv sp)%nat -> is_derive (fun t : R => v t i : R) s (dv i)) ->
    moves (fun t => p_int sp (q t) (v t)) s
      (fun i => mulv (nv sp) (p_dI0 sp (q s) (v s)) w i + mulv (nv sp) (p_dI1 sp (q s) (v s)) dv i);
  l_blocks : forall a b i j, (i < nv sp)%nat -> (j < nv sp)%nat -> joint_of (nvs sp) i <> joint_of (nvs sp) j ->
    p_dD0 sp a b i j = 0 /\ p_dD1 sp a b i j = 0;
  l_iblocks : forall a b i j, (i < nv sp)%nat -> (j < nv sp)%nat -> joint_of (nvs sp) i <> joint_of (nvs sp) j ->
    p_dI0 sp a b i j = 0 /\ p_dI1 sp a b i j = 0;
  l_ext : forall q v v', (forall i, (i < nv sp)%nat -> v i = v' i) -> p_int sp q v = p_int sp q v';
  l_there : forall a b, near a b -> p_int sp a (p_diff sp a b) = b;
  l_back : forall q v, small q v -> forall i, (i < nv sp)%nat -> p_diff sp q (p_int sp q v) i = v i }.

(** A curve of states has velocity w: configuration part and derivative of the velocities. *)
Definition smoves {sp : space} (moves : (R -> cfg sp) -> R -> vec -> Prop) (x : R -> mstate sp) (s : R) (w : vec) : Prop :=
  moves (fun t => fst (x t)) s w /\
  forall i, (i < nv sp)%nat -> is_derive (fun t => snd (x t) i) s (w (nv sp + i)%nat).

Section C95.
Variables (sp : space) (moves : (R -> cfg sp) -> R -> vec -> Prop).
Variables (near : cfg sp -> cfg sp -> Prop) (small : cfg sp -> vec -> Prop).
Hypothesis L : lie sp moves near small.
Let n := nv sp.
Let N := ndx sp.

Lemma blocks_D a b : blocky sp (p_dD0 sp a b) /\ blocky sp (p_dD1 sp a b).
Proof. split; intros i j Hi Hj H; now destruct (l_blocks _ _ _ _ L a b i j Hi Hj H). Qed.
Lemma blocks_I a b : blocky sp (p_dI0 sp a b) /\ blocky sp (p_dI1 sp a b).
Proof. split; intros i j Hi Hj H; now destruct (l_iblocks _ _ _ _ L a b i j Hi Hj H). Qed.
Lemma shapes l : shape sp (fst (jrun sp l)) /\ shape sp (snd (jrun sp l)).
Proof. apply shape_run; [exact blocks_I]. Qed.
Lemma still x s : smoves moves (fun _ => x) s (fun _ => 0).
Proof. split; [apply (l_const _ _ _ _ L)|]. intros i _. apply dconst. Qed.
Lemma mulv_0 m A i : mulv m A (fun _ => 0) i = 0.
Proof. apply rsum_0. intros. ring. Qed.

(** integrate and diff are inverse to each other. *)
Theorem C95_there : forall x0 x1 : mstate sp, near (fst x0) (fst x1) ->
  fst (m_int sp x0 (m_diff sp x0 x1)) = fst x1 /\
  forall i, (i < nv sp)%nat -> snd (m_int sp x0 (m_diff sp x0 x1)) i = snd x1 i.
Proof.
intros x0 x1 H. split.
- cbn [m_int fst]. rewrite <- (l_there _ _ _ _ L _ _ H). apply (l_ext _ _ _ _ L). intros i Hi. unfold m_diff.
  now replace (i <? nv sp)%nat with true by (symmetry; now apply Nat.ltb_lt).
- intros i Hi. cbn [m_int snd]. unfold m_diff. replace (nv sp + i <? nv sp)%nat with false by (symmetry; apply Nat.ltb_ge; lia).
  replace (nv sp + i - nv sp)%nat with i by lia. ring.
Qed.
Theorem C95_back : forall (x : mstate sp) dx, small (fst x) dx ->
  forall i, (i < ndx sp)%nat -> m_diff sp x (m_int sp x dx) i = dx i.
Proof.
intros x dx H i Hi. unfold m_diff, m_int. cbn [fst snd]. destruct (Nat.ltb_spec i (nv sp)) as [Lt|Ge].
- now apply (l_back _ _ _ _ L).
- replace (nv sp + (i - nv sp))%nat with i by lia. ring.
Qed.

Lemma diff_both x0 x1 s w0 w1 A B : smoves moves x0 s w0 -> smoves moves x1 s w1 -> near (fst (x0 s)) (fst (x1 s)) ->
  shape sp A -> shape sp B -> forall i, (i < ndx sp)%nat ->
  is_derive (fun t => m_diff sp (x0 t) (x1 t) i) s
    (mulv (ndx sp) (write sp setto (p_dD0 sp (fst (x0 s)) (fst (x1 s))) (-1) A) w0 i +
     mulv (ndx sp) (write sp setto (p_dD1 sp (fst (x0 s)) (fst (x1 s))) 1 B) w1 i).
Proof.
intros [M0 V0] [M1 V1] Hn SA SB i Hi.
rewrite !mulv_write by (auto; apply blocks_D). unfold m_diff. destruct (Nat.ltb_spec i (nv sp)) as [Lt|Ge].
- exact (l_diff _ _ _ _ L _ _ _ _ _ M0 M1 Hn i Lt).
- assert (Hj : (i - nv sp < nv sp)%nat) by (unfold ndx in Hi; lia).
  eapply deq; [exact (dminus _ _ _ _ _ (V1 _ Hj) (V0 _ Hj))|].
  replace (nv sp + (i - nv sp))%nat with i by lia. ring.
Qed.

(** Jdiff, on matrices created as zero and used in any calls before: the requested matrices are the
    derivatives of diff with respect to its arguments, the other matrix is not changed. *)
Theorem C95_Jdiff_partial : forall l c (x0 x1 : R -> mstate sp) s w0 w1,
  smoves moves x0 s w0 -> smoves moves x1 s w1 -> near (fst (x0 s)) (fst (x1 s)) ->
  let J := jrun sp l in
  let J' := m_Jdiff sp c (x0 s) (x1 s) J in
  (c <> second -> forall i, (i < ndx sp)%nat ->
     is_derive (fun t => m_diff sp (x0 t) (x1 s) i) s (mulv (ndx sp) (fst J') w0 i)) /\
  (c <> first -> forall i, (i < ndx sp)%nat ->
     is_derive (fun t => m_diff sp (x0 s) (x1 t) i) s (mulv (ndx sp) (snd J') w1 i)) /\
  (c = both -> forall i, (i < ndx sp)%nat ->
     is_derive (fun t => m_diff sp (x0 t) (x1 t) i) s (mulv (ndx sp) (fst J') w0 i + mulv (ndx sp) (snd J') w1 i)) /\
  (c = first -> snd J' = snd J) /\ (c = second -> fst J' = fst J).
Proof.
intros l c x0 x1 s w0 w1 M0 M1 Hn J J'. destruct (shapes l) as [SA SB]. fold J in SA, SB.
split; [|split; [|split; [|split]]].
- intros Hc i Hi. pose proof (diff_both x0 (fun _ => x1 s) s w0 (fun _ => 0) (fst J) (snd J) M0 (still _ _) Hn SA SB i Hi) as D.
  cbv beta in D. rewrite (mulv_0 _ _ i) in D. eapply deq; [exact D|].
  unfold J', m_Jdiff. destruct c; [| |congruence]; cbn [fst wants_first]; ring.
- intros Hc i Hi. pose proof (diff_both (fun _ => x0 s) x1 s (fun _ => 0) w1 (fst J) (snd J) (still _ _) M1 Hn SA SB i Hi) as D.
  cbv beta in D. rewrite (mulv_0 _ _ i) in D. eapply deq; [exact D|].
  unfold J', m_Jdiff. destruct c; [|congruence|]; cbn [snd wants_second]; ring.
- intros -> i Hi. exact (diff_both x0 x1 s w0 w1 (fst J) (snd J) M0 M1 Hn SA SB i Hi).
- now intros ->.
- now intros ->.
Qed.

Lemma int_both x dx s w dw A B : smoves moves x s w ->
  (forall i, (i < ndx sp)%nat -> is_derive (fun t : R => dx t i : R) s (dw i)) ->
  shape sp A -> shape sp B ->
  smoves moves (fun t => m_int sp (x t) (dx t)) s (fun i =>
    mulv (ndx sp) (write sp setto (p_dI0 sp (fst (x s)) (dx s)) 1 A) w i +
    mulv (ndx sp) (write sp setto (p_dI1 sp (fst (x s)) (dx s)) 1 B) dw i).
Proof.
intros [M V] D SA SB. split.
- cbn [m_int fst]. eapply (l_vel _ _ _ _ L); [|apply (l_int _ _ _ _ L); [exact M|]].
  + intros i Hi. cbv beta. rewrite !mulv_write by (auto; try apply blocks_I; unfold ndx; lia).
    now replace (i <? nv sp)%nat with true by (symmetry; now apply Nat.ltb_lt).
  + intros i Hi. apply D. unfold ndx; lia.
- intros i Hi. cbn [m_int snd]. rewrite !mulv_write by (auto; try apply blocks_I; unfold ndx; lia).
  replace (nv sp + i <? nv sp)%nat with false by (symmetry; apply Nat.ltb_ge; lia).
  eapply deq; [apply dplus; [exact (V i Hi)|apply D; unfold ndx; lia]|]. ring.
Qed.
Lemma smoves_eq x s w w' : (forall i, (i < ndx sp)%nat -> w i = w' i) -> smoves moves x s w -> smoves moves x s w'.
Proof.
intros E [M V]. split.
- eapply (l_vel _ _ _ _ L); [|exact M]. intros i Hi. apply E. unfold ndx; lia.
- intros i Hi. rewrite <- E by (unfold ndx; lia). now apply V.
Qed.

(** Jintegrate in the setto mode, likewise. *)
Theorem C95_Jintegrate_partial : forall l c (x : R -> mstate sp) (dx : R -> vec) s w dw,
  smoves moves x s w -> (forall i, (i < ndx sp)%nat -> is_derive (fun t : R => dx t i : R) s (dw i)) ->
  let J := jrun sp l in
  let J' := m_Jint sp c setto (x s) (dx s) J in
  (c <> second -> smoves moves (fun t => m_int sp (x t) (dx s)) s (mulv (ndx sp) (fst J') w)) /\
  (c <> first -> smoves moves (fun t => m_int sp (x s) (dx t)) s (mulv (ndx sp) (snd J') dw)) /\
  (c = both -> smoves moves (fun t => m_int sp (x t) (dx t)) s
     (fun i => mulv (ndx sp) (fst J') w i + mulv (ndx sp) (snd J') dw i)) /\
  (c = first -> snd J' = snd J) /\ (c = second -> fst J' = fst J).
Proof.
intros l c x dx s w dw M D J J'. destruct (shapes l) as [SA SB]. fold J in SA, SB.
split; [|split; [|split; [|split]]].
- intros Hc. pose proof (int_both x (fun _ => dx s) s w (fun _ => 0) (fst J) (snd J) M (fun i _ => dconst _ _) SA SB) as Z.
  eapply smoves_eq; [|exact Z]. intros i Hi. cbv beta. rewrite mulv_0.
  unfold J', m_Jint. destruct c; [| |congruence]; cbn [fst wants_first]; ring.
- intros Hc. pose proof (int_both (fun _ => x s) dx s (fun _ => 0) dw (fst J) (snd J) (still _ _) D SA SB) as Z.
  eapply smoves_eq; [|exact Z]. intros i Hi. cbv beta. rewrite mulv_0.
  unfold J', m_Jint. destruct c; [|congruence|]; cbn [snd wants_second]; ring.
- intros ->. exact (int_both x dx s w dw (fst J) (snd J) M D SA SB).
- now intros ->.
- now intros ->.
Qed.

(** addto and rmfrom add and subtract the matrix that setto writes, whatever the matrices contain. *)
Theorem C95_addto : forall l c (x : mstate sp) dx (J : mat * mat),
  let A := m_Jint sp c setto x dx (jrun sp l) in
  let P := m_Jint sp c addto x dx J in let M := m_Jint sp c rmfrom x dx J in
  (c <> second -> forall i j, (i < ndx sp)%nat -> (j < ndx sp)%nat ->
     fst P i j = fst J i j + fst A i j /\ fst M i j = fst J i j - fst A i j) /\
  (c <> first -> forall i j, (i < ndx sp)%nat -> (j < ndx sp)%nat ->
     snd P i j = snd J i j + snd A i j /\ snd M i j = snd J i j - snd A i j) /\
  (c = first -> snd P = snd J /\ snd M = snd J) /\ (c = second -> fst P = fst J /\ fst M = fst J).
Proof.
intros l c x dx J A P M. destruct (shapes l) as [SA SB].
assert (W : forall D K S, shape sp S -> forall i j, (i < ndx sp)%nat -> (j < ndx sp)%nat ->
  write sp addto D 1 K i j = K i j + write sp setto D 1 S i j /\ write sp rmfrom D 1 K i j = K i j - write sp setto D 1 S i j).
{ intros D K S HS i j Hi Hj. unfold write. destruct (in_joint sp i j) eqn:E1; [now split|].
  destruct (on_diag sp i j) eqn:E2; [now split|]. rewrite (HS i j) by auto. split; ring. }
unfold A, P, M, m_Jint. split; [|split; [|split]].
- intros Hc i j Hi Hj. destruct c; [| |congruence]; cbn [fst wants_first]; now apply W.
- intros Hc i j Hi Hj. destruct c; [|congruence|]; cbn [snd wants_second]; now apply W.
- now intros ->.
- now intros ->.
Qed.

(** JintegrateTransport multiplies a matrix with any content and any number of columns from the left by
    the Jacobian of integrate; both is rejected. *)
Theorem C95_transport : forall l c (x : mstate sp) dx (J : mat) i j, (i < ndx sp)%nat ->
  match m_Jtransport sp c x dx J with
  | Some J' =>
      (c = first /\ J' i j = mulm (ndx sp) (fst (m_Jint sp first setto x dx (jrun sp l))) J i j) \/
      (c = second /\ J' i j = mulm (ndx sp) (snd (m_Jint sp second setto x dx (jrun sp l))) J i j)
  | None => c = both
  end.
Proof.
intros l c x dx J i j Hi. destruct (shapes l) as [SA SB].
assert (W : forall D S, blocky sp D -> shape sp S ->
  mulm (ndx sp) (write sp setto D 1 S) J i j = transport sp D J i j).
{ intros D S HD HS. rewrite <- mulm_write by auto.
  change (mulv (ndx sp) (write sp setto D 1 S) (fun k => J k j) i = mulv (ndx sp) (write sp setto D 1 zeros) (fun k => J k j) i).
  rewrite !mulv_write; auto using shape_zeros. }
destruct c; cbn [m_Jtransport m_Jint wants_first wants_second fst snd]; [reflexivity| |].
- left. split; [reflexivity|]. symmetry. apply W; [apply blocks_I|exact SA].
- right. split; [reflexivity|]. symmetry. apply W; [apply blocks_I|exact SB].
Qed.
End C95.

(** ** A robot: a joint with two coordinates whose tangent frame depends on the first, and a joint with
    one coordinate. *)
Definition rob_cfg : Type := ((R * R) * R)%type.
Definition low3 (a b c d : R) : mat := fun i j =>
  match i with
  | 0%nat => match j with 0%nat => a | _ => 0 end
  | 1%nat => match j with 0%nat => b | 1%nat => c | _ => 0 end
  | 2%nat => match j with 2%nat => d | _ => 0 end
  | _ => 0
  end.
Definition rob : space := Space rob_cfg [2; 1]%nat
  (fun a b i => match i with
     | 0%nat => fst (fst b) - fst (fst a)
     | 1%nat => (snd (fst b) - snd (fst a)) * exp (- fst (fst a))
     | _ => snd b - snd a end)
  (fun a v => ((fst (fst a) + v 0%nat, snd (fst a) + v 1%nat * exp (fst (fst a))), snd a + v 2%nat))
  (fun a b => low3 (-1) (- ((snd (fst b) - snd (fst a)) * exp (- fst (fst a)))) (-1) (-1))
  (fun a b => low3 1 0 (exp (fst (fst b) - fst (fst a))) 1)
  (fun a v => low3 1 (v 1%nat * exp (- v 0%nat)) (exp (- v 0%nat)) 1)
  (fun a v => low3 1 0 (exp (- v 0%nat)) 1).
Definition rob_moves (q : R -> rob_cfg) (s : R) (w : vec) : Prop :=
  is_derive (fun t => fst (fst (q t))) s (w 0%nat) /\
  is_derive (fun t => snd (fst (q t))) s (w 1%nat * exp (fst (fst (q s)))) /\
  is_derive (fun t => snd (q t)) s (w 2%nat).
Lemma dexp (f : R -> R) s a : is_derive f s a -> is_derive (fun t => exp (f t)) s (a * exp (f s)).
Proof. intro H. eapply deq; [apply dcomp; [apply is_derive_exp|exact H]|]. ring. Qed.
Lemma exp_cancel a : exp a * exp (- a) = 1.
Proof. rewrite <- exp_plus. replace (a + - a) with 0 by ring. apply exp_0. Qed.
Lemma exp_sub a b : exp (a - b) = exp a * exp (- b).
Proof. rewrite <- exp_plus. f_equal. Qed.
Lemma rob_lie : lie rob rob_moves (fun _ _ => True) (fun _ _ => True).
Proof.
constructor.
- intros q s. split; [|split]; (eapply deq; [apply dconst|]); ring.
- intros q s w w' E (A & B & C). rewrite (E 0%nat), (E 1%nat), (E 2%nat) in * by (cbn; lia). split; [|split]; assumption.
- intros q0 q1 s w0 w1 (A0 & B0 & C0) (A1 & B1 & C1) _ i Hi. cbn in Hi. unfold mulv.
  change (nv rob) with 3%nat. cbn [rsum].
  destruct i as [|[|[|i]]]; [| | |lia]; cbn [rob p_diff p_dD0 p_dD1 low3].
  + eapply deq; [exact (dminus _ _ _ _ _ A1 A0)|]. ring.
  + eapply deq; [apply dmult; [exact (dminus _ _ _ _ _ B1 B0)|apply dexp, dopp; exact A0]|].
    cbv beta. rewrite exp_sub. pose proof (exp_cancel (fst (fst (q0 s)))) as X.
    replace (w0 1%nat * exp (fst (fst (q0 s)))) with (w0 1%nat * exp (fst (fst (q0 s)))) by reflexivity.
    transitivity (w1 1%nat * exp (fst (fst (q1 s))) * exp (- fst (fst (q0 s)))
      - w0 1%nat * (exp (fst (fst (q0 s))) * exp (- fst (fst (q0 s))))
      - (snd (fst (q1 s)) - snd (fst (q0 s))) * (w0 0%nat * exp (- fst (fst (q0 s))))); [ring|].
    rewrite X. ring.
  + eapply deq; [exact (dminus _ _ _ _ _ C1 C0)|]. ring.
- intros q v s w dv (A & B & C) D. pose proof (D 0%nat ltac:(cbn; lia)) as D0. pose proof (D 1%nat ltac:(cbn; lia)) as D1.
  pose proof (D 2%nat ltac:(cbn; lia)) as D2. unfold mulv. change (nv rob) with 3%nat. cbn [rsum].
  split; [|split]; cbn [rob p_int p_dI0 p_dI1 low3 fst snd].
  + eapply deq; [exact (dplus _ _ _ _ _ A D0)|]. ring.
  + eapply deq; [apply dplus; [exact B|apply dmult; [exact D1|apply dexp; exact A]]|]. cbv beta.
    pose proof (exp_cancel (v s 0%nat)) as X. rewrite exp_plus.
    set (E := exp (fst (fst (q s)))) in *. set (F := exp (v s 0%nat)) in *. set (G := exp (- v s 0%nat)) in *.
    transitivity ((v s 1%nat * w 0%nat + w 1%nat + dv 1%nat) * E * (F * G)); [rewrite X; ring|ring].
  + eapply deq; [exact (dplus _ _ _ _ _ C D2)|]. ring.
- intros a b i j Hi Hj H. cbn in Hi, Hj.
  destruct i as [|[|[|i]]]; [| | |lia]; (destruct j as [|[|[|j]]]; [| | |lia]); cbn in H; try congruence; split; reflexivity.
- intros a b i j Hi Hj H. cbn in Hi, Hj.
  destruct i as [|[|[|i]]]; [| | |lia]; (destruct j as [|[|[|j]]]; [| | |lia]); cbn in H; try congruence; split; reflexivity.
- intros q v v' E. cbn [rob p_int]. now rewrite (E 0%nat), (E 1%nat), (E 2%nat) by (cbn; lia).
- intros [[a1 a2] a3] [[b1 b2] b3] _. cbn [rob p_int p_diff fst snd].
  pose proof (exp_cancel a1) as X. f_equal; [f_equal|]; try ring.
  transitivity (a2 + (b2 - a2) * (exp a1 * exp (- a1))); [ring|]. rewrite X. ring.
- intros [[a1 a2] a3] v _ i Hi. cbn in Hi. pose proof (exp_cancel a1) as X.
  destruct i as [|[|[|i]]]; [| | |lia]; cbn [rob p_int p_diff fst snd]; try ring.
  transitivity (v 1%nat * (exp a1 * exp (- a1))); [ring|]. rewrite X. ring.
Qed.

(** The hypotheses can be met with a configuration-dependent Jacobian. *)
Example C95_ex : let x0 : R -> mstate rob := fun t => (((t, 2 * t), 0), fun _ => t) in
  let x1 : R -> mstate rob := fun t => (((1, 3), t * t), fun _ => 0) in
  is_derive (fun t => m_diff rob (x0 t) (x1 t) 1%nat) 0
    (mulv 6 (fst (m_Jdiff rob both (x0 0) (x1 0) (jrun rob [JInt rob both addto (x0 5) (fun _ => 1)]))) (fun i => match i with 0%nat => 1 | 1%nat => 2 | 2%nat => 0 | _ => 1 end) 1%nat
     + mulv 6 (snd (m_Jdiff rob both (x0 0) (x1 0) (jrun rob [JInt rob both addto (x0 5) (fun _ => 1)]))) (fun _ => 0) 1%nat)
  /\ mulv 6 (fst (m_Jdiff rob both (x0 0) (x1 0) (jrun rob []))) (fun i => match i with 0%nat => 1 | 1%nat => 2 | 2%nat => 0 | _ => 1 end) 1%nat = -5.
Proof.
intros x0 x1. split.
- pose proof (C95_Jdiff_partial rob rob_moves _ _ rob_lie [JInt rob both addto (x0 5) (fun _ => 1)] both x0 x1 0
    (fun i => match i with 0%nat => 1 | 1%nat => 2 | 2%nat => 0 | _ => 1 end) (fun _ => 0)) as H.
  destruct H as (_ & _ & H & _).
  + split; [split; [|split]|].
    * exact (did 0).
    * cbn [x0 fst snd]. eapply deq; [exact (dscal 2 _ _ _ (did 0))|]. rewrite exp_0. ring.
    * exact (dconst 0 0).
    * intros i Hi. cbn in Hi. change (nv rob) with 3%nat. cbn [x0 snd]. destruct i as [|[|[|i]]]; [apply did|apply did|apply did|lia].
  + split; [split; [|split]|].
    * exact (dconst 1 0).
    * cbn [x1 fst snd]. eapply deq; [apply dconst|]. ring.
    * eapply deq; [exact (dmult _ _ _ _ _ (did 0) (did 0))|]. cbv beta. ring.
    * intros i Hi. exact (dconst 0 0).
  + exact I.
  + exact (H eq_refl 1%nat ltac:(cbn; lia)).
- unfold mulv. cbn [rsum].
  unfold m_Jdiff, write. cbn [wants_first fst in_joint on_diag]. cbn. rewrite Ropp_0, exp_0. unfold zeros. ring.
Qed.

(** False if the matrices of the caller are not zero outside of the diagonal blocks: setto does not
    clear them. *)
Theorem C95_setto_refuted :
  exists sp moves near small, lie sp moves near small /\ exists (A : mat) (x0 : mstate sp) (x1 : R -> mstate sp) (w : vec),
    smoves moves x1 0 w /\ near (fst x0) (fst (x1 0)) /\
    ~ is_derive (fun t => m_diff sp x0 (x1 t) 0%nat) 0 (mulv (ndx sp) (snd (m_Jdiff sp second x0 (x1 0) (A, A))) w 0%nat) /\
    ~ smoves moves (fun t => m_int sp (x1 t) (fun _ => 0)) 0
        (mulv (ndx sp) (fst (m_Jint sp first setto (x1 0) (fun _ => 0) (A, A))) w).
Proof.
exists rob, rob_moves, (fun _ _ => True), (fun _ _ => True). split; [exact rob_lie|].
set (w := (fun i => if Nat.eqb i 3 then 1 else 0) : vec).
exists (fun _ _ => 1), (((0, 0), 0), fun _ => 0), (fun t => (((0, 0), 0), fun i => if Nat.eqb i 0 then t else 0)), w.
split; [|split; [exact I|split]].
- split; [split; [|split]; (eapply deq; [exact (dconst 0 0)|]); unfold w; cbn; ring|].
  intros i Hi. cbn in Hi. change (nv rob) with 3%nat. destruct i as [|[|[|i]]]; [exact (did 0)|exact (dconst 0 0)|exact (dconst 0 0)|lia].
- intro D.
  assert (D' : is_derive (fun t : R => 0) 0 0) by apply dconst.
  assert (E : mulv (ndx rob) (snd (m_Jdiff rob second (((0, 0), 0), fun _ => 0) (((0, 0), 0), fun i => if Nat.eqb i 0 then 0 else 0) (fun _ _ => 1, fun _ _ => 1))) w 0%nat = 1).
  { unfold mulv. change (ndx rob) with 6%nat. cbn [rsum]. unfold m_Jdiff, write. cbn [wants_second snd]. unfold w. cbn. ring. }
  pose proof (deq _ _ _ _ D E) as D1. clear D.
  assert (D2 : is_derive (fun t : R => 0) 0 1).
  { eapply dext; [|exact D1]. intro t. cbn. ring. }
  pose proof (duniq _ _ _ _ D' D2). lra.
- intros [(D & _) _].
  assert (D' : is_derive (fun t : R => 0) 0 0) by apply dconst.
  assert (E : mulv (ndx rob) (fst (m_Jint rob first setto (((0, 0), 0), fun i => if Nat.eqb i 0 then 0 else 0) (fun _ => 0) (fun _ _ => 1, fun _ _ => 1))) w 0%nat = 1).
  { unfold mulv. change (ndx rob) with 6%nat. cbn [rsum]. unfold m_Jint, write. cbn [wants_first fst]. unfold w. cbn. ring. }
  pose proof (deq _ _ _ _ D E) as D1. clear D.
  assert (D2 : is_derive (fun t : R => 0) 0 1).
  { eapply dext; [|exact D1]. intro t. cbn. ring. }
  pose proof (duniq _ _ _ _ D' D2). lra.
Qed.

(** ** Limits *)
(** The joint a configuration coordinate belongs to. *)
Fixpoint owner (l : list joint) (i : nat) : option joint :=
  match l with [] => None | j :: r => if (i <? j_nq j)%nat then Some j else owner r (i - j_nq j) end.
(** The limits of the coordinates are those of the robot; a root joint has none (the largest number). *)
Definition robot_limits (big : xf) (js : list joint) (n_v : nat) (L : limits) (s : slimits) : Prop :=
  exists n_q, (forall i, (i < n_q)%nat <-> exists j, owner js i = Some j) /\
  l_n s = (n_q + n_v)%nat /\ List.length (l_lb s) = l_n s /\ List.length (l_ub s) = l_n s /\
  (forall i j, owner js i = Some j -> j_name j = "root_joint"%string ->
     nth_error (l_lb s) i = Some (xopp big) /\ nth_error (l_ub s) i = Some big) /\
  (forall i j, owner js i = Some j -> j_name j <> "root_joint"%string ->
     nth_error (l_lb s) i = Some (lo_q L i) /\ nth_error (l_ub s) i = Some (up_q L i)) /\
  (forall i, (i < n_v)%nat ->
     nth_error (l_lb s) (n_q + i) = Some (xopp (v_max L i)) /\
     nth_error (l_ub s) (n_q + i) = Some (v_max L i)) /\
  (l_has s = true <-> exists b, (In b (l_lb s) \/ In b (l_ub s)) /\ is_fin b = true).

Lemma owner_lt js i j : owner js i = Some j -> (i < total_nq js)%nat.
Proof.
revert i. induction js as [|k js IH]; intros i H; [discriminate|]. cbn [owner total_nq fold_right] in *.
destruct (Nat.ltb_spec i (j_nq k)); [lia|]. apply IH in H. fold (total_nq js). unfold total_nq in *. lia.
Qed.
Lemma owner_all js i : (i < total_nq js)%nat -> exists j, owner js i = Some j.
Proof.
revert i. induction js as [|k js IH]; intros i H; cbn [owner total_nq fold_right] in *; [lia|].
destruct (Nat.ltb_spec i (j_nq k)); [now exists k|]. apply IH. unfold total_nq. lia.
Qed.
Lemma find_none_names js : ~ In "root_joint"%string (map j_name js) -> find is_root js = None.
Proof.
induction js as [|k js IH]; intro H; [reflexivity|]. cbn [find]. unfold is_root at 1.
destruct (String.eqb_spec (j_name k) "root_joint") as [E|E].
- exfalso. apply H. now left.
- apply IH. intro X. apply H. now right.
Qed.
Lemma owner_In js i j : owner js i = Some j -> In j js.
Proof.
revert i. induction js as [|k js IH]; intros i H; [discriminate|]. cbn [owner] in H.
destruct (i <? j_nq k)%nat; [injection H as ->; now left|right; eauto].
Qed.
Lemma nth_map_seq (f : nat -> xf) n i : (i < n)%nat -> nth_error (map f (seq 0 n)) i = Some (f i).
Proof.
intro H. rewrite nth_error_map, (nth_error_nth' _ 0%nat) by now rewrite seq_length. cbn. now rewrite seq_nth.
Qed.

(** A root joint, if there is one, is the first joint. *)
Theorem C95_limits_partial : forall big js n_v L,
  NoDup (map j_name js) -> (forall i j, nth_error js i = Some j -> j_name j = "root_joint"%string -> i = 0%nat) ->
  robot_limits big js n_v L (m_limits big js n_v L).
Proof.
intros big js n_v L ND H0. unfold robot_limits, m_limits, sl_update, sl_create. cbn [l_n l_lb l_ub l_has].
rewrite !map_length, !seq_length.
assert (Own : forall i j, owner js i = Some j -> (i <? root_nq js)%nat = is_root j).
{ intros i j O. destruct js as [|k js]; [discriminate|]. cbn [root_nq find] in *.
  destruct (is_root k) eqn:Rk; unfold root_nq; cbn [find]; rewrite Rk.
  - cbn [owner] in O. destruct (Nat.ltb_spec i (j_nq k)).
    + injection O as <-. now rewrite Rk.
    + apply owner_In in O. apply In_nth_error in O. destruct O as [p Hp].
      symmetry. apply not_true_iff_false. intro X. apply String.eqb_eq in X.
      specialize (H0 (S p) j Hp X). discriminate.
  - rewrite find_none_names.
    + symmetry. apply not_true_iff_false. intro X. apply String.eqb_eq in X.
      apply owner_In in O. destruct O as [->|O]; [unfold is_root in Rk; rewrite X in Rk; discriminate|].
      apply In_nth_error in O. destruct O as [p Hp]. specialize (H0 (S p) j Hp X). discriminate.
    + intro X. apply in_map_iff in X. destruct X as (j' & E & I'). apply In_nth_error in I'. destruct I' as [p Hp].
      specialize (H0 (S p) j' Hp E). discriminate. }
exists (total_nq js). split; [intro i; split; [apply owner_all|intros (j & O); exact (owner_lt _ _ _ O)]|].
split; [reflexivity|]. split; [reflexivity|]. split; [reflexivity|]. split; [|split; [|split]].
- intros i j O E. pose proof (owner_lt _ _ _ O). rewrite !nth_map_seq by lia.
  rewrite (Own _ _ O). unfold is_root. now rewrite E.
- intros i j O E. pose proof (owner_lt _ _ _ O). rewrite !nth_map_seq by lia.
  rewrite (Own _ _ O). unfold is_root. apply String.eqb_neq in E. rewrite E.
  now replace (i <? total_nq js)%nat with true by (symmetry; now apply Nat.ltb_lt).
- intros i Hi. rewrite !nth_map_seq by lia.
  assert (root_nq js <= total_nq js)%nat.
  { unfold root_nq. destruct (find is_root js) as [k|] eqn:E; [|lia]. apply find_some in E. destruct E as [E _].
    clear - E. induction js as [|k' js IH]; [contradiction|]. cbn [total_nq fold_right]. fold (total_nq js).
    destruct E as [->|E]; [lia|]. specialize (IH E). lia. }
  replace (total_nq js + i <? root_nq js)%nat with false by (symmetry; apply Nat.ltb_ge; lia).
  replace (total_nq js + i <? total_nq js)%nat with false by (symmetry; apply Nat.ltb_ge; lia).
  replace (total_nq js + i - total_nq js)%nat with i by lia. now split.
- rewrite orb_true_iff, !existsb_exists. split.
  + intros [(b & A & B)|(b & A & B)]; exists b; auto.
  + intros (b & [A|A] & B); [left|right]; exists b; auto.
Qed.
(** False if the root joint is not the first joint: the first coordinates lose their limits and the
    root joint keeps those of the robot's description. *)
Theorem C95_limits_refuted : exists big js n_v L, NoDup (map j_name js) /\
  ~ robot_limits big js n_v L (m_limits big js n_v L).
Proof.
exists (Fin 1000%Q), [Joint "lift" 1; Joint "root_joint" 1], 2%nat,
  (Limits (fun _ => Fin (-(2))%Q) (fun _ => Fin 2%Q) (fun _ => Fin 3%Q)).
split.
- cbn. repeat constructor; cbn; intuition discriminate.
- intros (n_q & _ & _ & _ & _ & _ & H & _). specialize (H 0%nat (Joint "lift" 1) eq_refl). destruct H as [H _]; [discriminate|].
  vm_compute in H. discriminate.
Qed.
Example C95_limits_ex : robot_limits (Fin 1000%Q) [Joint "root_joint" 7; Joint "knee" 1] 7
  (Limits (fun _ => Fin (-(2))%Q) (fun _ => Fin 2%Q) (fun _ => Fin 3%Q))
  (m_limits (Fin 1000%Q) [Joint "root_joint" 7; Joint "knee" 1] 7 (Limits (fun _ => Fin (-(2))%Q) (fun _ => Fin 2%Q) (fun _ => Fin 3%Q))).
Proof.
apply C95_limits_partial.
- cbn. repeat constructor; cbn; intuition discriminate.
- intros [|[|i]] j H E; [reflexivity| |destruct i; discriminate]. injection H as <-. discriminate.
Qed.
Print Assumptions C95_there.
Print Assumptions C95_back.
Print Assumptions C95_Jdiff_partial.
Print Assumptions C95_Jintegrate_partial.
Print Assumptions C95_addto.
Print Assumptions C95_transport.
Print Assumptions C95_setto_refuted.
Print Assumptions C95_limits_partial.
Print Assumptions C95_limits_refuted.
