(** C101: the finite-difference wrappers of residuals, costs, constraints, contacts, actuations
    and control parametrizations. *)
From Coquelicot Require Import Coquelicot.
From Coq Require Import Reals List Arith Bool Lia Lra FunctionalExtensionality.
From Verif Require Import Deriv VecMat NumDiff_Spec NumDiff_Model NumDiff_Proofs FinDiff_Model.
Import ListNotations.
Open Scope R_scope.

(** ** Specification *)
(** the point reached from x by moving by h along the i-th tangent direction *)
Definition along {X : Type} (integrate : X -> vec -> X) (x : X) (i : nat) (h : R) : X := integrate x (fun k => if Nat.eqb k i then h else 0).
(** difference quotient along that direction *)
Definition mfd {X : Type} (integrate : X -> vec -> X) (F : X -> R) (x : X) (i : nat) (h : R) : R := (F (along integrate x i h) - F x) / h.
(** directional derivative *)
Definition mpartial {X : Type} (integrate : X -> vec -> X) (F : X -> R) (x : X) (i : nat) (l : R) : Prop :=
  is_derive (fun t => F (along integrate x i t)) 0 l.
(** limit when the disturbance tends to zero *)
Definition goes (q : R -> R) (l : R) : Prop := forall eps, 0 < eps -> exists delta, 0 < delta /\ forall e, 0 < e < delta -> Rabs (q e - l) < eps.
(** Gauss-Newton product of two Jacobian columns *)
Definition gn (nr : nat) (A : mat) (b c : vec) : R := rsum nr (fun k => b k * rsum nr (fun l => A k l * c l)).

(** ** Lemmas *)
Lemma goes_filter q l : goes q l <-> filterlim q (at_right 0) (locally l).
Proof.
split.
- intro G. apply filterlim_locally. intro eps. destruct (G eps (cond_pos eps)) as (d & Hd & H).
  exists (mkposreal d Hd). intros y B Hy. apply H.
  unfold ball in B; cbn in B; unfold AbsRing_ball, abs, minus, plus, opp in B; cbn in B.
  apply Rabs_def2 in B. lra.
- intros F eps He. pose proof (proj1 (filterlim_locally q l) F (mkposreal eps He)) as L. destruct L as (d & H).
  exists d. split; [apply cond_pos|]. intros e E. specialize (H e). apply H; [|lra].
  unfold ball; cbn; unfold AbsRing_ball, abs, minus, plus, opp; cbn. rewrite Ropp_0, Rplus_0_r, Rabs_right; lra.
Qed.
Lemma goes_const c : goes (fun _ => c) c.
Proof. intros eps He. exists 1. split; [lra|]. intros e _. unfold Rminus. now rewrite Rplus_opp_r, Rabs_R0. Qed.
Lemma goes_mult f g a b : goes f a -> goes g b -> goes (fun e => f e * g e) (a * b).
Proof.
rewrite !goes_filter. intros F G. apply (filterlim_comp_2 f g Rmult F G). apply (filterlim_mult a b).
Qed.
Lemma goes_plus f g a b : goes f a -> goes g b -> goes (fun e => f e + g e) (a + b).
Proof.
rewrite !goes_filter. intros F G. apply (filterlim_comp_2 f g Rplus F G). apply (filterlim_plus a b).
Qed.
Lemma goes_rsum n (f : nat -> R -> R) (a : nat -> R) : (forall k, (k < n)%nat -> goes (f k) (a k)) -> goes (fun e => rsum n (fun k => f k e)) (rsum n a).
Proof.
induction n as [|n IH]; intro H; [exact (goes_const 0)|]. cbn [rsum]. apply goes_plus; [apply IH; intros k Hk; apply H; lia|apply H; lia].
Qed.
Lemma goes_ext q q' l : (forall e, 0 < e -> q e = q' e) -> goes q' l -> goes q l.
Proof. intros Q G eps He. destruct (G eps He) as (d & Hd & H). exists d. split; [exact Hd|]. intros e E. rewrite Q by lra. now apply H. Qed.
Lemma goes_gn nr A (b c : nat -> R -> R) b' c' :
  (forall k, (k < nr)%nat -> goes (b k) (b' k)) -> (forall k, (k < nr)%nat -> goes (c k) (c' k)) ->
  goes (fun e => gn nr A (fun k => b k e) (fun k => c k e)) (gn nr A b' c').
Proof.
intros B C. unfold gn. apply goes_rsum. intros k Hk. apply goes_mult; [now apply B|].
apply goes_rsum. intros l Hl. apply goes_mult; [apply goes_const|now apply C].
Qed.
Lemma goes_fd (F : vec -> R) x i l v : partial F x i l -> goes (fun e => fd F x i (e * Rmax 1 v)) l.
Proof.
intros D eps He. destruct (quotient _ _ D eps He) as (d & Hd & H). cbv beta in H. rewrite shift_0 in H.
exists (d / Rmax 1 v). split; [apply Rdiv_lt_0_compat; [exact Hd|]; pose proof (Rmax_l 1 v); lra|].
intros e E. unfold fd. apply H. now apply step_small.
Qed.
Section Man.
Variables (X : Type) (integrate : X -> vec -> X).
Hypothesis int0 : forall x, integrate x zerov = x.
Lemma along_0 x i : along integrate x i 0 = x.
Proof. unfold along. rewrite <- (int0 x) at 2. f_equal. extensionality k. now destruct (Nat.eqb k i). Qed.
Lemma goes_mfd F x i l v : mpartial integrate F x i l -> goes (fun e => mfd integrate F x i (e * Rmax 1 v)) l.
Proof.
intros D eps He. destruct (quotient _ _ D eps He) as (d & Hd & H). cbv beta in H. rewrite along_0 in H.
exists (d / Rmax 1 v). split; [apply Rdiv_lt_0_compat; [exact Hd|]; pose proof (Rmax_l 1 v); lra|].
intros e E. unfold mfd. apply H. now apply step_small.
Qed.
End Man.

(** the loop when the disturbed evaluations do not depend on what the shared data was before *)
Lemma dir_loop_pure (E O J : Type) n (f : vec -> E -> O * E) (wr : nat -> O -> J -> J) h e j (o : nat -> O) :
  (forall i e, fst (f (bump i h) e) = o i) -> snd (dir_loop E n f wr h e j) = for_ 0 n (fun i j => wr i (o i) j) j.
Proof.
intro H. unfold dir_loop.
enough (G : forall e, snd (for_ 0 n (dir_step E f wr h) (zerov, e, j)) = for_ 0 n (fun i j => wr i (o i) j) j /\
            fst (fst (for_ 0 n (dir_step E f wr h) (zerov, e, j))) = zerov).
{ specialize (G e). destruct (for_ 0 n (dir_step E f wr h) (zerov, e, j)) as ((dx, e'), j'). exact (proj1 G). }
clear e. unfold for_. induction n as [|n IH]; intro e; [now split|].
rewrite seq_S, !fold_left_app. cbn [fold_left]. specialize (IH e).
destruct (fold_left _ (seq 0 n) (zerov, e, j)) as ((dx, e'), j'). cbn [fst snd] in IH. destruct IH as (I1 & I2).
unfold dir_step. rewrite I2, setv_zero. specialize (H (0 + n)%nat e'). destruct (f (bump (0 + n) h) e') as (o', e2).
cbn [fst snd] in *. rewrite setv_back. subst. now split.
Qed.
Lemma setcol_loop n (c : nat -> vec) M i k : (i < n)%nat -> for_ 0 n (fun i M => setcol i (c i) M) M k i = c i k.
Proof.
unfold for_. induction n as [|n IH]; intro Hi; [lia|]. rewrite seq_S, fold_left_app. cbn [fold_left]. unfold setcol at 1. cbn [Nat.add].
destruct (Nat.eqb_spec i n) as [->|Ne]; [reflexivity|]. apply IH. lia.
Qed.
Lemma setv_loop n (c : nat -> R) v i : (i < n)%nat -> for_ 0 n (fun i v => setv i (c i) v) v i = c i.
Proof.
unfold for_. induction n as [|n IH]; intro Hi; [lia|]. rewrite seq_S, fold_left_app. cbn [fold_left]. unfold setv at 1. cbn [Nat.add].
destruct (Nat.eqb_spec i n) as [->|Ne]; [reflexivity|]. apply IH. lia.
Qed.
Lemma pair_loop (A B : Type) n (f : nat -> A -> A) (g : nat -> B -> B) a b :
  for_ 0 n (fun i s => (f i (fst s), g i (snd s))) (a, b) = (for_ 0 n f a, for_ 0 n g b).
Proof.
unfold for_. induction n as [|n IH]; [reflexivity|]. rewrite seq_S, !fold_left_app. cbn [fold_left]. rewrite IH. reflexivity.
Qed.
(** without reevaluation functions the loops leave the shared data alone *)
Lemma dir_loop_E (E O J : Type) n (f : vec -> E -> O * E) (wr : nat -> O -> J -> J) h e j :
  (forall dx e, snd (f dx e) = e) -> fst (dir_loop E n f wr h e j) = e.
Proof.
intro H. unfold dir_loop, for_.
enough (G : forall l dx j, snd (fst (fold_left (fun s i => dir_step E f wr h i s) l (dx, e, j))) = e).
{ specialize (G (seq 0 n) zerov j). destruct (fold_left _ _ _) as ((a, b), c). exact G. }
induction l as [|i l IH]; intros dx j'; [reflexivity|]. cbn [fold_left]. unfold dir_step at 2.
specialize (H (setv i h dx) e). destruct (f (setv i h dx) e) as (o, e'). cbn [snd] in H. subst e'. apply IH.
Qed.

Section Wrappers.
Variables (X E : Type) (integrate : X -> vec -> X) (xnorm xraw : X -> R) (ndx nu : nat).
Hypothesis int0 : forall x, integrate x zerov = x.
Notation reeval := (reeval X E).
(** What set_reevals is for: after the reevaluation functions have run at (x, u), the wrapped
    calc sees shared data of (x, u), and returns the value [f x u]. *)
Definition sync {O : Type} (rs : list reeval) (calc : E -> X -> option vec -> O) (f : X -> option vec -> O) : Prop :=
  forall e x u, calc (reevaluate X E rs x u e) x u = f x u.

Section Pure.
Context {O : Type}.
Variables (rs : list reeval) (calc : E -> X -> option vec -> O) (f : X -> option vec -> O).
Hypothesis HS : sync rs calc f.
Lemma at_x_pure x u h i e : fst (at_x X E integrate rs calc x u (bump i h) e) = f (along integrate x i h) u.
Proof. unfold at_x. cbn [fst]. apply HS. Qed.
Lemma at_u_pure x u h i e : fst (at_u X E rs calc x u (bump i h) e) = f x (Some (shift u i h)).
Proof. unfold at_u. cbn [fst]. rewrite HS. now rewrite vplus_bump. Qed.
End Pure.

(** *** Residuals *)
Theorem C101_residual rs calc f e x u ej d : sync rs calc f -> calc e x (Some u) = f x (Some u) -> 0 < ej ->
  let o := snd (rd_calcDiff X E integrate xnorm ndx nu rs calc ej e x u (rd_calc X E calc e x (Some u) d)) in
  let hx := ej * Rmax 1 (xnorm x) in let hu := ej * Rmax 1 (norm nu u) in
  (0 < hx /\ 0 < hu) /\ rd_r o = f x (Some u) /\
  (forall i k, (i < ndx)%nat -> rd_Rx o k i = mfd integrate (fun y => f y (Some u) k) x i hx) /\
  (forall i k, (i < nu)%nat -> rd_Ru o k i = fd (fun v => f x (Some v) k) u i hu).
Proof.
intros HS H0 He. cbv zeta. split; [split; now apply step_pos|]. unfold rd_calcDiff, rd_calc. cbn [rd_r rd_Rx rd_Ru rd_xh].
set (hx := ej * Rmax 1 (xnorm x)). set (hu := ej * Rmax 1 (norm nu u)).
pose proof (dir_loop_pure E vec mat ndx (at_x X E integrate rs calc x (Some u)) (fun i o => setcol i (qcol hx o (calc e x (Some u)))) hx e (rd_Rx d)
  (fun i => f (along integrate x i hx) (Some u)) (fun i e => at_x_pure rs calc f HS x (Some u) hx i e)) as A.
destruct (dir_loop E ndx _ _ hx e (rd_Rx d)) as (e1, Rx). cbn [snd] in A.
pose proof (dir_loop_pure E vec mat nu (at_u X E rs calc x u) (fun i o => setcol i (qcol hu o (calc e x (Some u)))) hu e1 (rd_Ru d)
  (fun i => f x (Some (shift u i hu))) (fun i e => at_u_pure rs calc f HS x u hu i e)) as B.
destruct (dir_loop E nu _ _ hu e1 (rd_Ru d)) as (e2, Ru). cbn [snd] in B. cbn [snd rd_r rd_Rx rd_Ru]. subst Rx Ru.
split; [exact H0|]. rewrite H0. split; intros i k Hi.
- rewrite (setcol_loop ndx (fun i => qcol hx (f (along integrate x i hx) (Some u)) (f x (Some u)))) by exact Hi. reflexivity.
- rewrite (setcol_loop nu (fun i => qcol hu (f x (Some (shift u i hu))) (f x (Some u)))) by exact Hi. reflexivity.
Qed.
Theorem C101_residual_limit rs calc f e x u d : sync rs calc f -> calc e x (Some u) = f x (Some u) ->
  let o := fun ej => snd (rd_calcDiff X E integrate xnorm ndx nu rs calc ej e x u (rd_calc X E calc e x (Some u) d)) in
  (forall i k l, (i < ndx)%nat -> mpartial integrate (fun y => f y (Some u) k) x i l -> goes (fun ej => rd_Rx (o ej) k i) l) /\
  (forall i k l, (i < nu)%nat -> partial (fun v => f x (Some v) k) u i l -> goes (fun ej => rd_Ru (o ej) k i) l).
Proof.
intros HS H0 o. split; intros i k l Hi D.
- apply (goes_ext _ (fun ej => mfd integrate (fun y => f y (Some u) k) x i (ej * Rmax 1 (xnorm x)))).
  + intros ej He. apply (C101_residual rs calc f e x u ej d HS H0 He). exact Hi.
  + now apply (goes_mfd X integrate int0).
- apply (goes_ext _ (fun ej => fd (fun v => f x (Some v) k) u i (ej * Rmax 1 (norm nu u)))).
  + intros ej He. apply (C101_residual rs calc f e x u ej d HS H0 He). exact Hi.
  + now apply goes_fd.
Qed.

(** Terminal overload: difference quotients with the step of the last calcDiff with control. *)
Theorem C101_residual_terminal_partial rs calc f e x d xh : sync rs calc f -> calc e x None = f x None -> rd_xh d = Some xh ->
  exists e' o, rd_calcDiffT X E integrate ndx rs calc e x (rd_calc X E calc e x None d) = Some (e', o) /\
  rd_r o = f x None /\ rd_Ru o = rd_Ru d /\
  (forall i k, (i < ndx)%nat -> rd_Rx o k i = mfd integrate (fun y => f y None k) x i xh).
Proof.
intros HS H0 Hx. unfold rd_calcDiffT, rd_calc. cbn [rd_r rd_Rx rd_Ru rd_xh]. rewrite Hx.
pose proof (dir_loop_pure E vec mat ndx (at_x X E integrate rs calc x None) (fun i o => setcol i (qcol xh o (calc e x None))) xh e (rd_Rx d)
  (fun i => f (along integrate x i xh) None) (fun i e => at_x_pure rs calc f HS x None xh i e)) as A.
destruct (dir_loop E ndx _ _ xh e (rd_Rx d)) as (e1, Rx). cbn [snd] in A. subst Rx. eexists e1, _. split; [reflexivity|].
cbn [rd_r rd_Rx rd_Ru]. split; [exact H0|]. split; [reflexivity|]. intros i k Hi. rewrite H0.
rewrite (setcol_loop ndx (fun i => qcol xh (f (along integrate x i xh) None) (f x None))) by exact Hi. reflexivity.
Qed.

(** *** Costs *)
Lemma wr_cost_loop nr n h c0 r0 (o : nat -> cout) L M :
  for_ 0 n (fun i j => wr_cost nr h c0 r0 i (o i) j) (L, M) =
  (for_ 0 n (fun i v => setv i ((c_cost (o i) - c0) / h) v) L,
   for_ 0 n (fun i M => if with_gauss nr then setcol i (qcol h (c_res (o i)) r0) M else M) M).
Proof. apply (pair_loop vec mat n (fun i v => setv i ((c_cost (o i) - c0) / h) v) (fun i M => if with_gauss nr then setcol i (qcol h (c_res (o i)) r0) M else M)). Qed.

Theorem C101_cost nr rs calc arr f e x u ej d : sync rs calc f -> calc e x (Some u) = f x (Some u) -> 0 < ej ->
  let o := snd (cd_calcDiff X E integrate xnorm ndx nu nr rs calc arr ej e x u (cd_calc X E calc e x (Some u) d)) in
  let hx := ej * Rmax 1 (xnorm x) in let hu := ej * Rmax 1 (norm nu u) in
  let A := arr (c_res (f x (Some u))) in
  let rx := fun i k => mfd integrate (fun y => c_res (f y (Some u)) k) x i hx in
  let ru := fun i k => fd (fun v => c_res (f x (Some v)) k) u i hu in
  (0 < hx /\ 0 < hu) /\ cd_cost o = c_cost (f x (Some u)) /\ cd_r o = c_res (f x (Some u)) /\
  (forall i, (i < ndx)%nat -> cd_Lx o i = mfd integrate (fun y => c_cost (f y (Some u))) x i hx) /\
  (forall i, (i < nu)%nat -> cd_Lu o i = fd (fun v => c_cost (f x (Some v))) u i hu) /\
  (forall i j, (i < ndx)%nat -> (j < ndx)%nat -> cd_Lxx o i j = gn nr A (rx i) (rx j)) /\
  (forall i j, (i < ndx)%nat -> (j < nu)%nat -> cd_Lxu o i j = gn nr A (rx i) (ru j)) /\
  (forall i j, (i < nu)%nat -> (j < nu)%nat -> cd_Luu o i j = gn nr A (ru i) (ru j)).
Proof.
intros HS H0 He. cbv zeta. split; [split; now apply step_pos|]. unfold cd_calcDiff, cd_calc.
cbn [cd_cost cd_r cd_Lx cd_Lu cd_Rx cd_Ru cd_Lxx cd_Lxu cd_Luu]. rewrite H0.
set (hx := ej * Rmax 1 (xnorm x)). set (hu := ej * Rmax 1 (norm nu u)). set (c0 := c_cost (f x (Some u))). set (r0 := c_res (f x (Some u))).
pose proof (dir_loop_pure E cout (vec * mat) ndx (at_x X E integrate rs calc x (Some u)) (wr_cost nr hx c0 r0) hx e (cd_Lx d, cd_Rx d)
  (fun i => f (along integrate x i hx) (Some u)) (fun i e => at_x_pure rs calc f HS x (Some u) hx i e)) as P1.
destruct (dir_loop E ndx _ _ hx e (cd_Lx d, cd_Rx d)) as (e1, (Lx, Rx)). cbn [snd] in P1.
pose proof (dir_loop_pure E cout (vec * mat) nu (at_u X E rs calc x u) (wr_cost nr hu c0 r0) hu e1 (cd_Lu d, cd_Ru d)
  (fun i => f x (Some (shift u i hu))) (fun i e => at_u_pure rs calc f HS x u hu i e)) as P2.
destruct (dir_loop E nu _ _ hu e1 (cd_Lu d, cd_Ru d)) as (e2, (Lu, Ru)). cbn [snd] in P2.
rewrite wr_cost_loop in P1, P2.
assert (L1 := f_equal fst P1). assert (M1 := f_equal snd P1). assert (L2 := f_equal fst P2). assert (M2 := f_equal snd P2).
cbn [fst snd] in L1, M1, L2, M2. clear P1 P2.
set (GG := if with_gauss nr then _ else _).
assert (HG : GG = if with_gauss nr then (quad nr (arr r0) Rx Rx, quad nr (arr r0) Rx Ru, quad nr (arr r0) Ru Ru) else (zerom, zerom, zerom)) by reflexivity.
clearbody GG. destruct GG as ((Lxx, Lxu), Luu).
cbn [snd cd_cost cd_r cd_Lx cd_Lu cd_Rx cd_Ru cd_Lxx cd_Lxu cd_Luu].
split; [reflexivity|]. split; [reflexivity|].
split; [intros i Hi; rewrite L1, (setv_loop ndx (fun i => (c_cost (f (along integrate x i hx) (Some u)) - c0) / hx)) by exact Hi; reflexivity|].
split; [intros i Hi; rewrite L2, (setv_loop nu (fun i => (c_cost (f x (Some (shift u i hu))) - c0) / hu)) by exact Hi; reflexivity|].
unfold with_gauss in HG, M1, M2. destruct nr as [|nr'].
- cbn [Nat.ltb Nat.leb] in HG. injection HG as -> -> ->. unfold zerom, gn. cbn [rsum]. now split; [|split].
- cbn [Nat.ltb Nat.leb] in HG, M1, M2. set (nr := S nr') in *.
  assert (N1 : forall i k, (i < ndx)%nat -> Rx k i = mfd integrate (fun y => c_res (f y (Some u)) k) x i hx).
  { intros i k Hi. rewrite M1. rewrite (setcol_loop ndx (fun i => qcol hx (c_res (f (along integrate x i hx) (Some u))) r0)) by exact Hi. reflexivity. }
  assert (N2 : forall i k, (i < nu)%nat -> Ru k i = fd (fun v => c_res (f x (Some v)) k) u i hu).
  { intros i k Hi. rewrite M2. rewrite (setcol_loop nu (fun i => qcol hu (c_res (f x (Some (shift u i hu)))) r0)) by exact Hi. reflexivity. }
  assert (E1 : Lxx = quad nr (arr r0) Rx Rx) by congruence. assert (E2 : Lxu = quad nr (arr r0) Rx Ru) by congruence.
  assert (E3 : Luu = quad nr (arr r0) Ru Ru) by congruence.
  split; [|split]; intros i j Hi Hj; [rewrite E1|rewrite E2|rewrite E3]; unfold quad, mulm, tr, gn; apply rsum_ext; intros k _;
    rewrite ?N1, ?N2 by assumption; f_equal; apply rsum_ext; intros l _; rewrite ?N1, ?N2 by assumption; reflexivity.
Qed.

Theorem C101_cost_limit nr rs calc arr f e x u d : sync rs calc f -> calc e x (Some u) = f x (Some u) ->
  let o := fun ej => snd (cd_calcDiff X E integrate xnorm ndx nu nr rs calc arr ej e x u (cd_calc X E calc e x (Some u) d)) in
  (forall i l, (i < ndx)%nat -> mpartial integrate (fun y => c_cost (f y (Some u))) x i l -> goes (fun ej => cd_Lx (o ej) i) l) /\
  (forall i l, (i < nu)%nat -> partial (fun v => c_cost (f x (Some v))) u i l -> goes (fun ej => cd_Lu (o ej) i) l) /\
  (forall Jx Ju : mat,
     (forall k i, (k < nr)%nat -> (i < ndx)%nat -> mpartial integrate (fun y => c_res (f y (Some u)) k) x i (Jx k i)) ->
     (forall k i, (k < nr)%nat -> (i < nu)%nat -> partial (fun v => c_res (f x (Some v)) k) u i (Ju k i)) ->
     let A := arr (c_res (f x (Some u))) in let jx := fun i k => Jx k i in let ju := fun i k => Ju k i in
     (forall i j, (i < ndx)%nat -> (j < ndx)%nat -> goes (fun ej => cd_Lxx (o ej) i j) (gn nr A (jx i) (jx j))) /\
     (forall i j, (i < ndx)%nat -> (j < nu)%nat -> goes (fun ej => cd_Lxu (o ej) i j) (gn nr A (jx i) (ju j))) /\
     (forall i j, (i < nu)%nat -> (j < nu)%nat -> goes (fun ej => cd_Luu (o ej) i j) (gn nr A (ju i) (ju j)))).
Proof.
intros HS H0 o.
assert (Q : forall ej, 0 < ej -> _) by (intros ej He; exact (C101_cost nr rs calc arr f e x u ej d HS H0 He)). cbv zeta in Q.
split; [|split].
- intros i l Hi D. apply (goes_ext _ (fun ej => mfd integrate (fun y => c_cost (f y (Some u))) x i (ej * Rmax 1 (xnorm x)))).
  + intros ej He. destruct (Q ej He) as (_ & _ & _ & K & _). now apply K.
  + now apply (goes_mfd X integrate int0).
- intros i l Hi D. apply (goes_ext _ (fun ej => fd (fun v => c_cost (f x (Some v))) u i (ej * Rmax 1 (norm nu u)))).
  + intros ej He. destruct (Q ej He) as (_ & _ & _ & _ & K & _). now apply K.
  + now apply goes_fd.
- intros Jx Ju Dx Du A jx ju.
  assert (Gx : forall i k, (i < ndx)%nat -> (k < nr)%nat -> goes (fun ej => mfd integrate (fun y => c_res (f y (Some u)) k) x i (ej * Rmax 1 (xnorm x))) (jx i k)).
  { intros i k Hi Hk. apply (goes_mfd X integrate int0). now apply Dx. }
  assert (Gu : forall i k, (i < nu)%nat -> (k < nr)%nat -> goes (fun ej => fd (fun v => c_res (f x (Some v)) k) u i (ej * Rmax 1 (norm nu u))) (ju i k)).
  { intros i k Hi Hk. apply goes_fd. now apply Du. }
  split; [|split]; intros i j Hi Hj.
  + eapply goes_ext; [intros ej He; destruct (Q ej He) as (_ & _ & _ & _ & _ & K & _); apply (K i j Hi Hj)|].
    apply (goes_gn nr A (fun k ej => mfd integrate (fun y => c_res (f y (Some u)) k) x i (ej * Rmax 1 (xnorm x)))
             (fun k ej => mfd integrate (fun y => c_res (f y (Some u)) k) x j (ej * Rmax 1 (xnorm x)))); intros k Hk; now apply Gx.
  + eapply goes_ext; [intros ej He; destruct (Q ej He) as (_ & _ & _ & _ & _ & _ & K & _); apply (K i j Hi Hj)|].
    apply (goes_gn nr A (fun k ej => mfd integrate (fun y => c_res (f y (Some u)) k) x i (ej * Rmax 1 (xnorm x)))
             (fun k ej => fd (fun v => c_res (f x (Some v)) k) u j (ej * Rmax 1 (norm nu u)))); intros k Hk; [now apply Gx|now apply Gu].
  + eapply goes_ext; [intros ej He; destruct (Q ej He) as (_ & _ & _ & _ & _ & _ & _ & K); apply (K i j Hi Hj)|].
    apply (goes_gn nr A (fun k ej => fd (fun v => c_res (f x (Some v)) k) u i (ej * Rmax 1 (norm nu u)))
             (fun k ej => fd (fun v => c_res (f x (Some v)) k) u j (ej * Rmax 1 (norm nu u)))); intros k Hk; now apply Gu.
Qed.

Theorem C101_cost_terminal nr rs calc arr f e x d : sync rs calc f -> calc e x None = f x None ->
  let o := fun ej => snd (cd_calcDiffT X E integrate xraw ndx nr rs calc arr ej e x (cd_calc X E calc e x None d)) in
  let h := fun ej => ej * Rmax 1 (xraw x) in
  let A := arr (c_res (f x None)) in
  (forall ej, 0 < ej -> 0 < h ej /\ cd_cost (o ej) = c_cost (f x None) /\
     cd_Lu (o ej) = cd_Lu d /\ cd_Lxu (o ej) = cd_Lxu d /\ cd_Luu (o ej) = cd_Luu d /\
     (forall i, (i < ndx)%nat -> cd_Lx (o ej) i = mfd integrate (fun y => c_cost (f y None)) x i (h ej)) /\
     (forall i j, (i < ndx)%nat -> (j < ndx)%nat -> cd_Lxx (o ej) i j =
        gn nr A (fun k => mfd integrate (fun y => c_res (f y None) k) x i (h ej)) (fun k => mfd integrate (fun y => c_res (f y None) k) x j (h ej)))) /\
  (forall i l, (i < ndx)%nat -> mpartial integrate (fun y => c_cost (f y None)) x i l -> goes (fun ej => cd_Lx (o ej) i) l) /\
  (forall Jx : mat, (forall k i, (k < nr)%nat -> (i < ndx)%nat -> mpartial integrate (fun y => c_res (f y None) k) x i (Jx k i)) ->
     forall i j, (i < ndx)%nat -> (j < ndx)%nat -> goes (fun ej => cd_Lxx (o ej) i j) (gn nr A (fun k => Jx k i) (fun k => Jx k j))).
Proof.
intros HS H0 o h A.
assert (Q : forall ej, 0 < ej -> 0 < h ej /\ cd_cost (o ej) = c_cost (f x None) /\
     cd_Lu (o ej) = cd_Lu d /\ cd_Lxu (o ej) = cd_Lxu d /\ cd_Luu (o ej) = cd_Luu d /\
     (forall i, (i < ndx)%nat -> cd_Lx (o ej) i = mfd integrate (fun y => c_cost (f y None)) x i (h ej)) /\
     (forall i j, (i < ndx)%nat -> (j < ndx)%nat -> cd_Lxx (o ej) i j =
        gn nr A (fun k => mfd integrate (fun y => c_res (f y None) k) x i (h ej)) (fun k => mfd integrate (fun y => c_res (f y None) k) x j (h ej)))).
{ intros ej He. split; [now apply step_pos|]. unfold o, cd_calcDiffT, cd_calc.
  cbn [cd_cost cd_r cd_Lx cd_Lu cd_Rx cd_Ru cd_Lxx cd_Lxu cd_Luu]. rewrite H0. fold (h ej). fold A. set (hx := h ej).
  set (c0 := c_cost (f x None)). set (r0 := c_res (f x None)).
  pose proof (dir_loop_pure E cout (vec * mat) ndx (at_x X E integrate rs calc x None) (wr_cost nr hx c0 r0) hx e (cd_Lx d, cd_Rx d)
    (fun i => f (along integrate x i hx) None) (fun i e => at_x_pure rs calc f HS x None hx i e)) as P1.
  destruct (dir_loop E ndx _ _ hx e (cd_Lx d, cd_Rx d)) as (e1, (Lx, Rx)). cbn [snd] in P1. rewrite wr_cost_loop in P1.
  assert (L1 := f_equal fst P1). assert (M1 := f_equal snd P1). cbn [fst snd] in L1, M1. clear P1.
  cbn [snd cd_cost cd_r cd_Lx cd_Lu cd_Rx cd_Ru cd_Lxx cd_Lxu cd_Luu].
  do 4 (split; [reflexivity|]).
  split; [intros i Hi; rewrite L1, (setv_loop ndx (fun i => (c_cost (f (along integrate x i hx) None) - c0) / hx)) by exact Hi; reflexivity|].
  intros i j Hi Hj. unfold with_gauss in M1 |- *. destruct nr as [|nr']; [reflexivity|]. cbn [Nat.ltb Nat.leb] in M1 |- *. set (n := S nr') in *.
  assert (N1 : forall i k, (i < ndx)%nat -> Rx k i = mfd integrate (fun y => c_res (f y None) k) x i hx).
  { intros i' k Hi'. rewrite M1. rewrite (setcol_loop ndx (fun i => qcol hx (c_res (f (along integrate x i hx) None)) r0)) by exact Hi'. reflexivity. }
  unfold quad, mulm, tr, gn; apply rsum_ext; intros k _; rewrite N1 by assumption; f_equal; apply rsum_ext; intros l _; rewrite N1 by assumption; reflexivity. }
split; [exact Q|]. split.
- intros i l Hi D. eapply goes_ext; [intros ej He; destruct (Q ej He) as (_ & _ & _ & _ & _ & K & _); apply (K i Hi)|].
  now apply (goes_mfd X integrate int0 (fun y => c_cost (f y None))).
- intros Jx D i j Hi Hj. eapply goes_ext; [intros ej He; destruct (Q ej He) as (_ & _ & _ & _ & _ & _ & K); apply (K i j Hi Hj)|].
  apply (goes_gn nr A (fun k ej => mfd integrate (fun y => c_res (f y None) k) x i (ej * Rmax 1 (xraw x)))
           (fun k ej => mfd integrate (fun y => c_res (f y None) k) x j (ej * Rmax 1 (xraw x)))); intros k Hk;
    apply (goes_mfd X integrate int0); now apply D.
Qed.

(** *** Constraints *)
Lemma wr_gh_loop n h g0 h0 (o : nat -> gh) G H :
  for_ 0 n (fun i j => wr_gh h g0 h0 i (o i) j) (G, H) =
  (for_ 0 n (fun i M => setcol i (qcol h (gh_g (o i)) g0) M) G, for_ 0 n (fun i M => setcol i (qcol h (gh_h (o i)) h0) M) H).
Proof. apply (pair_loop mat mat n (fun i M => setcol i (qcol h (gh_g (o i)) g0) M) (fun i M => setcol i (qcol h (gh_h (o i)) h0) M)). Qed.

Theorem C101_constraint rs calc f e x u ej d : sync rs calc f -> calc e x (Some u) = f x (Some u) -> 0 < ej ->
  let o := snd (kd_calcDiff X E integrate xnorm ndx nu rs calc ej e x u (kd_calc X E calc e x (Some u) d)) in
  let hx := ej * Rmax 1 (xnorm x) in let hu := ej * Rmax 1 (norm nu u) in
  (0 < hx /\ 0 < hu) /\ kd_g o = gh_g (f x (Some u)) /\ kd_h o = gh_h (f x (Some u)) /\
  (forall i k, (i < ndx)%nat -> kd_Gx o k i = mfd integrate (fun y => gh_g (f y (Some u)) k) x i hx /\
                               kd_Hx o k i = mfd integrate (fun y => gh_h (f y (Some u)) k) x i hx) /\
  (forall i k, (i < nu)%nat -> kd_Gu o k i = fd (fun v => gh_g (f x (Some v)) k) u i hu /\
                              kd_Hu o k i = fd (fun v => gh_h (f x (Some v)) k) u i hu).
Proof.
intros HS H0 He. cbv zeta. split; [split; now apply step_pos|]. unfold kd_calcDiff, kd_calc. cbn [kd_g kd_h kd_Gx kd_Gu kd_Hx kd_Hu]. rewrite H0.
set (hx := ej * Rmax 1 (xnorm x)). set (hu := ej * Rmax 1 (norm nu u)). set (g0 := gh_g (f x (Some u))). set (h0 := gh_h (f x (Some u))).
pose proof (dir_loop_pure E gh (mat * mat) ndx (at_x X E integrate rs calc x (Some u)) (wr_gh hx g0 h0) hx e (kd_Gx d, kd_Hx d)
  (fun i => f (along integrate x i hx) (Some u)) (fun i e => at_x_pure rs calc f HS x (Some u) hx i e)) as P1.
destruct (dir_loop E ndx _ _ hx e (kd_Gx d, kd_Hx d)) as (e1, (Gx, Hx)). cbn [snd] in P1.
pose proof (dir_loop_pure E gh (mat * mat) nu (at_u X E rs calc x u) (wr_gh hu g0 h0) hu e1 (kd_Gu d, kd_Hu d)
  (fun i => f x (Some (shift u i hu))) (fun i e => at_u_pure rs calc f HS x u hu i e)) as P2.
destruct (dir_loop E nu _ _ hu e1 (kd_Gu d, kd_Hu d)) as (e2, (Gu, Hu)). cbn [snd] in P2.
rewrite wr_gh_loop in P1, P2.
assert (L1 := f_equal fst P1). assert (M1 := f_equal snd P1). assert (L2 := f_equal fst P2). assert (M2 := f_equal snd P2).
cbn [fst snd] in L1, M1, L2, M2. cbn [snd kd_g kd_h kd_Gx kd_Gu kd_Hx kd_Hu].
split; [reflexivity|]. split; [reflexivity|]. split; intros i k Hi; split.
- rewrite L1, (setcol_loop ndx (fun i => qcol hx (gh_g (f (along integrate x i hx) (Some u))) g0)) by exact Hi. reflexivity.
- rewrite M1, (setcol_loop ndx (fun i => qcol hx (gh_h (f (along integrate x i hx) (Some u))) h0)) by exact Hi. reflexivity.
- rewrite L2, (setcol_loop nu (fun i => qcol hu (gh_g (f x (Some (shift u i hu)))) g0)) by exact Hi. reflexivity.
- rewrite M2, (setcol_loop nu (fun i => qcol hu (gh_h (f x (Some (shift u i hu)))) h0)) by exact Hi. reflexivity.
Qed.
Theorem C101_constraint_limit rs calc f e x u d : sync rs calc f -> calc e x (Some u) = f x (Some u) ->
  let o := fun ej => snd (kd_calcDiff X E integrate xnorm ndx nu rs calc ej e x u (kd_calc X E calc e x (Some u) d)) in
  (forall i k l, (i < ndx)%nat -> mpartial integrate (fun y => gh_g (f y (Some u)) k) x i l -> goes (fun ej => kd_Gx (o ej) k i) l) /\
  (forall i k l, (i < ndx)%nat -> mpartial integrate (fun y => gh_h (f y (Some u)) k) x i l -> goes (fun ej => kd_Hx (o ej) k i) l) /\
  (forall i k l, (i < nu)%nat -> partial (fun v => gh_g (f x (Some v)) k) u i l -> goes (fun ej => kd_Gu (o ej) k i) l) /\
  (forall i k l, (i < nu)%nat -> partial (fun v => gh_h (f x (Some v)) k) u i l -> goes (fun ej => kd_Hu (o ej) k i) l).
Proof.
intros HS H0 o.
assert (Q : forall ej, 0 < ej -> _) by (intros ej He; exact (C101_constraint rs calc f e x u ej d HS H0 He)). cbv zeta in Q.
split; [|split; [|split]]; intros i k l Hi D.
- eapply goes_ext; [intros ej He; destruct (Q ej He) as (_ & _ & _ & K & _); apply (proj1 (K i k Hi))|].
  now apply (goes_mfd X integrate int0 (fun y => gh_g (f y (Some u)) k)).
- eapply goes_ext; [intros ej He; destruct (Q ej He) as (_ & _ & _ & K & _); apply (proj2 (K i k Hi))|].
  now apply (goes_mfd X integrate int0 (fun y => gh_h (f y (Some u)) k)).
- eapply goes_ext; [intros ej He; destruct (Q ej He) as (_ & _ & _ & _ & K); apply (proj1 (K i k Hi))|].
  now apply (goes_fd (fun v => gh_g (f x (Some v)) k)).
- eapply goes_ext; [intros ej He; destruct (Q ej He) as (_ & _ & _ & _ & K); apply (proj2 (K i k Hi))|].
  now apply (goes_fd (fun v => gh_h (f x (Some v)) k)).
Qed.
Theorem C101_constraint_terminal rs calc f e x d : sync rs calc f -> calc e x None = f x None ->
  let o := fun ej => snd (kd_calcDiffT X E integrate xnorm ndx rs calc ej e x (kd_calc X E calc e x None d)) in
  (forall ej, 0 < ej -> let h := ej * Rmax 1 (xnorm x) in
     0 < h /\ kd_g (o ej) = gh_g (f x None) /\ kd_h (o ej) = gh_h (f x None) /\ kd_Gu (o ej) = kd_Gu d /\ kd_Hu (o ej) = kd_Hu d /\
     (forall i k, (i < ndx)%nat -> kd_Gx (o ej) k i = mfd integrate (fun y => gh_g (f y None) k) x i h /\
                                  kd_Hx (o ej) k i = mfd integrate (fun y => gh_h (f y None) k) x i h)) /\
  (forall i k l, (i < ndx)%nat -> mpartial integrate (fun y => gh_g (f y None) k) x i l -> goes (fun ej => kd_Gx (o ej) k i) l) /\
  (forall i k l, (i < ndx)%nat -> mpartial integrate (fun y => gh_h (f y None) k) x i l -> goes (fun ej => kd_Hx (o ej) k i) l).
Proof.
intros HS H0 o.
assert (Q : forall ej, 0 < ej -> let h := ej * Rmax 1 (xnorm x) in
     0 < h /\ kd_g (o ej) = gh_g (f x None) /\ kd_h (o ej) = gh_h (f x None) /\ kd_Gu (o ej) = kd_Gu d /\ kd_Hu (o ej) = kd_Hu d /\
     (forall i k, (i < ndx)%nat -> kd_Gx (o ej) k i = mfd integrate (fun y => gh_g (f y None) k) x i h /\
                                  kd_Hx (o ej) k i = mfd integrate (fun y => gh_h (f y None) k) x i h)).
{ intros ej He h. split; [now apply step_pos|]. unfold o, kd_calcDiffT, kd_calc. cbn [kd_g kd_h kd_Gx kd_Gu kd_Hx kd_Hu]. rewrite H0. fold h.
  set (g0 := gh_g (f x None)). set (h0 := gh_h (f x None)).
  pose proof (dir_loop_pure E gh (mat * mat) ndx (at_x X E integrate rs calc x None) (wr_gh h g0 h0) h e (kd_Gx d, kd_Hx d)
    (fun i => f (along integrate x i h) None) (fun i e => at_x_pure rs calc f HS x None h i e)) as P1.
  destruct (dir_loop E ndx _ _ h e (kd_Gx d, kd_Hx d)) as (e1, (Gx, Hx)). cbn [snd] in P1. rewrite wr_gh_loop in P1.
  assert (L1 := f_equal fst P1). assert (M1 := f_equal snd P1). cbn [fst snd] in L1, M1. cbn [snd kd_g kd_h kd_Gx kd_Gu kd_Hx kd_Hu].
  do 4 (split; [reflexivity|]). intros i k Hi; split.
  - rewrite L1, (setcol_loop ndx (fun i => qcol h (gh_g (f (along integrate x i h) None)) g0)) by exact Hi. reflexivity.
  - rewrite M1, (setcol_loop ndx (fun i => qcol h (gh_h (f (along integrate x i h) None)) h0)) by exact Hi. reflexivity. }
split; [exact Q|]. split; intros i k l Hi D.
- eapply goes_ext; [intros ej He; destruct (Q ej He) as (_ & _ & _ & _ & _ & K); apply (proj1 (K i k Hi))|].
  now apply (goes_mfd X integrate int0 (fun y => gh_g (f y None) k)).
- eapply goes_ext; [intros ej He; destruct (Q ej He) as (_ & _ & _ & _ & _ & K); apply (proj2 (K i k Hi))|].
  now apply (goes_mfd X integrate int0 (fun y => gh_h (f y None) k)).
Qed.

(** *** Contacts: the drift and its Jacobian *)
Theorem C101_contact_partial rs (calc : E -> X -> tout) f e x d :
  (forall e x, calc (reevaluate X E rs x (Some zerov) e) x = f x) -> calc e x = f x ->
  let o := fun ej => snd (td_calcDiff X E integrate xnorm ndx rs calc ej e x (td_calc X E calc e x d)) in
  (forall ej, 0 < ej -> let h := ej * Rmax 1 (xnorm x) in 0 < h /\ td_a0 (o ej) = t_a0 (f x) /\
     (forall i k, (i < ndx)%nat -> td_da0 (o ej) k i = mfd integrate (fun y => t_a0 (f y) k) x i h)) /\
  (forall i k l, (i < ndx)%nat -> mpartial integrate (fun y => t_a0 (f y) k) x i l -> goes (fun ej => td_da0 (o ej) k i) l).
Proof.
intros HS H0 o.
assert (Q : forall ej, 0 < ej -> let h := ej * Rmax 1 (xnorm x) in 0 < h /\ td_a0 (o ej) = t_a0 (f x) /\
     (forall i k, (i < ndx)%nat -> td_da0 (o ej) k i = mfd integrate (fun y => t_a0 (f y) k) x i h)).
{ intros ej He h. split; [now apply step_pos|]. unfold o, td_calcDiff, td_calc. cbn [td_a0 td_Jc td_f td_da0 td_f0]. rewrite H0. fold h.
  set (F := fun (dx : vec) (e : E) => _).
  pose proof (dir_loop_pure E tout mat ndx F (fun i o => setcol i (qcol h (t_a0 o) (t_a0 (f x)))) h e (td_da0 d) (fun i => f (along integrate x i h))) as P1.
  destruct (dir_loop E ndx _ _ h e (td_da0 d)) as (e1, da). cbn [snd] in P1. cbn [snd td_a0 td_da0].
  split; [reflexivity|]. intros i k Hi. rewrite P1; [|intros i' e'; unfold F; cbn [fst]; apply HS].
  rewrite (setcol_loop ndx (fun i => qcol h (t_a0 (f (along integrate x i h))) (t_a0 (f x)))) by exact Hi. reflexivity. }
split; [exact Q|]. intros i k l Hi D.
eapply goes_ext; [intros ej He; destruct (Q ej He) as (_ & _ & K); apply (K i k Hi)|].
now apply (goes_mfd X integrate int0 (fun y => t_a0 (f y) k)).
Qed.

(** *** Shared data: without reevaluation functions the derivatives leave it unchanged, so a
    second calc at the same point returns the same value. *)
Theorem C101_shared_partial rcalc ccalc kcalc arr nr ej e x u rd cd kd :
  fst (rd_calcDiff X E integrate xnorm ndx nu [] rcalc ej e x u rd) = e /\
  fst (cd_calcDiff X E integrate xnorm ndx nu nr [] ccalc arr ej e x u cd) = e /\
  fst (kd_calcDiff X E integrate xnorm ndx nu [] kcalc ej e x u kd) = e.
Proof.
split; [|split].
- unfold rd_calcDiff.
  pose proof (dir_loop_E E vec mat ndx (at_x X E integrate [] rcalc x (Some u)) (fun i o => setcol i (qcol (ej * Rmax 1 (xnorm x)) o (rd_r rd))) (ej * Rmax 1 (xnorm x)) e (rd_Rx rd) (fun _ _ => eq_refl)) as A.
  destruct (dir_loop E ndx _ _ _ e _) as (e1, M). cbn [fst] in A. subst e1.
  pose proof (dir_loop_E E vec mat nu (at_u X E [] rcalc x u) (fun i o => setcol i (qcol (ej * Rmax 1 (norm nu u)) o (rd_r rd))) (ej * Rmax 1 (norm nu u)) e (rd_Ru rd) (fun _ _ => eq_refl)) as A.
  destruct (dir_loop E nu _ _ _ e _) as (e1, M'). exact A.
- unfold cd_calcDiff.
  pose proof (dir_loop_E E cout (vec * mat) ndx (at_x X E integrate [] ccalc x (Some u)) (wr_cost nr (ej * Rmax 1 (xnorm x)) (cd_cost cd) (cd_r cd)) (ej * Rmax 1 (xnorm x)) e (cd_Lx cd, cd_Rx cd) (fun _ _ => eq_refl)) as A.
  destruct (dir_loop E ndx _ _ _ e _) as (e1, (L, M)). cbn [fst] in A. subst e1.
  pose proof (dir_loop_E E cout (vec * mat) nu (at_u X E [] ccalc x u) (wr_cost nr (ej * Rmax 1 (norm nu u)) (cd_cost cd) (cd_r cd)) (ej * Rmax 1 (norm nu u)) e (cd_Lu cd, cd_Ru cd) (fun _ _ => eq_refl)) as A.
  destruct (dir_loop E nu _ _ _ e _) as (e1, (L', M')). cbn [fst] in A. destruct (if with_gauss nr then _ else _) as ((a, b), c). exact A.
- unfold kd_calcDiff.
  pose proof (dir_loop_E E gh (mat * mat) ndx (at_x X E integrate [] kcalc x (Some u)) (wr_gh (ej * Rmax 1 (xnorm x)) (kd_g kd) (kd_h kd)) (ej * Rmax 1 (xnorm x)) e (kd_Gx kd, kd_Hx kd) (fun _ _ => eq_refl)) as A.
  destruct (dir_loop E ndx _ _ _ e _) as (e1, (L, M)). cbn [fst] in A. subst e1.
  pose proof (dir_loop_E E gh (mat * mat) nu (at_u X E [] kcalc x u) (wr_gh (ej * Rmax 1 (norm nu u)) (kd_g kd) (kd_h kd)) (ej * Rmax 1 (norm nu u)) e (kd_Gu kd, kd_Hu kd) (fun _ _ => eq_refl)) as A.
  destruct (dir_loop E nu _ _ _ e _) as (e1, (L', M')). exact A.
Qed.
End Wrappers.

(** ** Actuations and control parametrizations *)
Section NoShared.
Variables (X : Type) (integrate : X -> vec -> X) (xnorm : X -> R) (ndx nu : nat).
Hypothesis int0 : forall x, integrate x zerov = x.

Theorem C101_actuation f x u d :
  let o := fun ej => ad_calcDiff X integrate xnorm ndx nu f ej x u (ad_calc X f x (Some u) d) in
  (forall ej, 0 < ej -> let hx := ej * Rmax 1 (xnorm x) in let hu := ej * Rmax 1 (norm nu u) in
     (0 < hx /\ 0 < hu) /\ ad_tau (o ej) = f x (Some u) /\
     (forall i k, (i < ndx)%nat -> ad_dx (o ej) k i = mfd integrate (fun y => f y (Some u) k) x i hx) /\
     (forall i k, (i < nu)%nat -> ad_du (o ej) k i = fd (fun v => f x (Some v) k) u i hu)) /\
  (forall i k l, (i < ndx)%nat -> mpartial integrate (fun y => f y (Some u) k) x i l -> goes (fun ej => ad_dx (o ej) k i) l) /\
  (forall i k l, (i < nu)%nat -> partial (fun v => f x (Some v) k) u i l -> goes (fun ej => ad_du (o ej) k i) l).
Proof.
intro o.
assert (Q : forall ej, 0 < ej -> let hx := ej * Rmax 1 (xnorm x) in let hu := ej * Rmax 1 (norm nu u) in
     (0 < hx /\ 0 < hu) /\ ad_tau (o ej) = f x (Some u) /\
     (forall i k, (i < ndx)%nat -> ad_dx (o ej) k i = mfd integrate (fun y => f y (Some u) k) x i hx) /\
     (forall i k, (i < nu)%nat -> ad_du (o ej) k i = fd (fun v => f x (Some v) k) u i hu)).
{ intros ej He hx hu. split; [split; now apply step_pos|]. unfold o, ad_calcDiff, ad_calc. cbn [ad_tau ad_dx ad_du ad_tau0]. fold hx hu.
  set (F1 := fun (dx : vec) (e : unit) => (f (integrate x dx) (Some u), e)). set (F2 := fun (du : vec) (e : unit) => (f x (Some (vplus u du)), e)).
  pose proof (dir_loop_pure unit vec mat ndx F1 (fun i o => setcol i (qcol hx o (f x (Some u)))) hx tt (ad_dx d) (fun i => f (along integrate x i hx) (Some u)) (fun _ _ => eq_refl)) as A.
  destruct (dir_loop unit ndx _ _ _ tt _) as (e1, M). cbn [snd] in A.
  pose proof (dir_loop_pure unit vec mat nu F2 (fun i o => setcol i (qcol hu o (f x (Some u)))) hu tt (ad_du d) (fun i => f x (Some (shift u i hu)))) as B.
  destruct (dir_loop unit nu _ _ _ tt _) as (e2, M'). cbn [snd] in B. cbn [ad_tau ad_dx ad_du].
  split; [reflexivity|]. split; intros i k Hi.
  - rewrite A, (setcol_loop ndx (fun i => qcol hx (f (along integrate x i hx) (Some u)) (f x (Some u)))) by exact Hi. reflexivity.
  - rewrite B; [|intros i' e'; unfold F2; cbn [fst]; now rewrite vplus_bump].
    rewrite (setcol_loop nu (fun i => qcol hu (f x (Some (shift u i hu))) (f x (Some u)))) by exact Hi. reflexivity. }
split; [exact Q|]. split; intros i k l Hi D.
- eapply goes_ext; [intros ej He; destruct (Q ej He) as (_ & _ & K & _); apply (K i k Hi)|].
  now apply (goes_mfd X integrate int0 (fun y => f y (Some u) k)).
- eapply goes_ext; [intros ej He; destruct (Q ej He) as (_ & _ & _ & K); apply (K i k Hi)|].
  now apply (goes_fd (fun v => f x (Some v) k)).
Qed.
Theorem C101_actuation_terminal f x d :
  let o := fun ej => ad_calcDiffT X integrate xnorm ndx f ej x (ad_calc X f x None d) in
  (forall ej, 0 < ej -> ad_tau (o ej) = f x None /\ ad_du (o ej) = ad_du d /\
     (forall i k, (i < ndx)%nat -> ad_dx (o ej) k i = mfd integrate (fun y => f y None k) x i (ej * Rmax 1 (xnorm x)))) /\
  (forall i k l, (i < ndx)%nat -> mpartial integrate (fun y => f y None k) x i l -> goes (fun ej => ad_dx (o ej) k i) l).
Proof.
intro o.
assert (Q : forall ej, 0 < ej -> ad_tau (o ej) = f x None /\ ad_du (o ej) = ad_du d /\
     (forall i k, (i < ndx)%nat -> ad_dx (o ej) k i = mfd integrate (fun y => f y None k) x i (ej * Rmax 1 (xnorm x)))).
{ intros ej He. unfold o, ad_calcDiffT, ad_calc. cbn [ad_tau ad_dx ad_du ad_tau0]. set (hx := ej * Rmax 1 (xnorm x)).
  set (F1 := fun (dx : vec) (e : unit) => (f (integrate x dx) None, e)).
  pose proof (dir_loop_pure unit vec mat ndx F1 (fun i o => setcol i (qcol hx o (f x None))) hx tt (ad_dx d) (fun i => f (along integrate x i hx) None) (fun _ _ => eq_refl)) as A.
  destruct (dir_loop unit ndx _ _ _ tt _) as (e1, M). cbn [snd] in A. cbn [ad_tau ad_dx ad_du].
  split; [reflexivity|]. split; [reflexivity|]. intros i k Hi.
  rewrite A, (setcol_loop ndx (fun i => qcol hx (f (along integrate x i hx) None) (f x None))) by exact Hi. reflexivity. }
split; [exact Q|]. intros i k l Hi D. eapply goes_ext; [intros ej He; destruct (Q ej He) as (_ & _ & K); apply (K i k Hi)|].
now apply (goes_mfd X integrate int0 (fun y => f y None k)).
Qed.

(** the value of a control parametrization is published by calcDiff only *)
Theorem C101_control_partial f t u d :
  let o := fun ej => wd_calcDiff nu f ej t u (wd_calc f t u d) in
  (forall ej, 0 < ej -> wd_w (o ej) = f t u /\
     (forall i k, (i < nu)%nat -> wd_dw (o ej) k i = fd (fun v => f t v k) u i (ej * Rmax 1 (norm nu u)))) /\
  (forall i k l, (i < nu)%nat -> partial (fun v => f t v k) u i l -> goes (fun ej => wd_dw (o ej) k i) l).
Proof.
intro o.
assert (Q : forall ej, 0 < ej -> wd_w (o ej) = f t u /\
     (forall i k, (i < nu)%nat -> wd_dw (o ej) k i = fd (fun v => f t v k) u i (ej * Rmax 1 (norm nu u)))).
{ intros ej He. unfold o, wd_calcDiff, wd_calc. cbn [wd_w wd_dw wd_w0]. set (hu := ej * Rmax 1 (norm nu u)).
  set (F1 := fun (du : vec) (e : unit) => (f t (vplus u du), e)).
  pose proof (dir_loop_pure unit vec mat nu F1 (fun i o => setcol i (vminus o (f t u))) hu tt (wd_dw d) (fun i => f t (shift u i hu))) as A.
  destruct (dir_loop unit nu _ _ _ tt _) as (e1, M). cbn [snd] in A. cbn [wd_w wd_dw]. split; [reflexivity|]. intros i k Hi. unfold divm.
  rewrite A; [|intros i' e'; unfold F1; cbn [fst]; now rewrite vplus_bump].
  rewrite (setcol_loop nu (fun i => vminus (f t (shift u i hu)) (f t u))) by exact Hi. reflexivity. }
split; [exact Q|]. intros i k l Hi D. eapply goes_ext; [intros ej He; destruct (Q ej He) as (_ & K); apply (K i k Hi)|].
now apply (goes_fd (fun v => f t v k)).
Qed.
End NoShared.

(** ** Where the wrappers do not do what their users rely on *)
(** a residual with one coordinate: the state is a vector, the shared data the value computed by
    the reevaluation function *)
Definition sq_reeval : reeval vec R := fun x _ _ => x 0%nat * x 0%nat.
Definition sq_calc : R -> vec -> option vec -> vec := fun e _ _ _ => e.
Definition sq_f : vec -> option vec -> vec := fun x _ _ => x 0%nat * x 0%nat.
Lemma sq_sync : sync vec R [sq_reeval] sq_calc sq_f.
Proof. intros e x u. reflexivity. Qed.
Lemma vplus_0 x : vplus x zerov = x.
Proof. extensionality k. unfold vplus, zerov. ring. Qed.

(** calcDiff without control right after the creation of the data: the step is not initialised *)
Theorem C101_residual_uninit_refuted : exists (rs : list (reeval vec R)) calc f x, sync vec R rs calc f /\
  forall e, rd_calcDiffT vec R vplus 1 rs calc e x (rd_calc vec R calc e x None rd_create) = None.
Proof. exists [sq_reeval], sq_calc, sq_f, zerov. split; [exact sq_sync|]. intro e. reflexivity. Qed.

(** ... and later set_disturbance has no effect on it: at the minimum of x^2 the published
    Jacobian stays 1 for every new disturbance, after a calcDiff with disturbance 1. *)
Theorem C101_residual_step_refuted : exists (rs : list (reeval vec R)) calc f x u d1,
  sync vec R rs calc f /\ mpartial vplus (fun y => f y None 0%nat) x 0 0 /\
  snd (rd_calcDiff vec R vplus (norm 1) 1 1 rs calc 1 0 x u (rd_calc vec R calc 0 x (Some u) rd_create)) = d1 /\
  (exists e o, rd_calcDiffT vec R vplus 1 rs calc 0 x (rd_calc vec R calc 0 x None d1) = Some (e, o) /\ rd_Rx o 0%nat 0%nat = 1).
Proof.
exists [sq_reeval], sq_calc, sq_f, zerov, zerov. eexists. split; [exact sq_sync|]. split.
- unfold mpartial, along, sq_f, vplus, zerov. cbn [Nat.eqb].
  apply (is_derive_ext (fun t => t * t)); [intro t; cbn; ring|]. auto_derive; [trivial|ring].
- split; [reflexivity|]. assert (N0 : norm 1 zerov = 0) by (unfold norm, dot, zerov; cbn [rsum]; rewrite Rmult_0_r, Rplus_0_l; apply sqrt_0).
  assert (N1 : 1 * Rmax 1 (norm 1 zerov) = 1) by (rewrite N0, Rmax_left; lra).
  match goal with |- exists e o, rd_calcDiffT _ _ _ _ _ _ 0 ?x (rd_calc _ _ _ 0 ?x None ?d) = _ /\ _ =>
    destruct (C101_residual_terminal_partial vec R vplus 1 [sq_reeval] sq_calc sq_f 0 x d 1 sq_sync) as (e' & o & E1 & _ & _ & E2) end.
  + unfold sq_calc, sq_f, zerov. extensionality k. ring.
  + unfold rd_calcDiff. destruct (dir_loop R 1 _ _ _ 0 _) as (e1, M1). destruct (dir_loop R 1 _ _ _ e1 _) as (e2, M2). cbn [snd rd_xh]. now rewrite N1.
  + exists e', o. split; [exact E1|]. rewrite E2 by lia. unfold mfd, along, sq_f, vplus, zerov. cbn [Nat.eqb]. field.
Qed.

(** calc, calcDiff, calc at one and the same point: the second value is that of a disturbed point,
    because the reevaluation functions are not called at (x, u) again. *)
Definition lin_reeval : reeval vec R := fun x u _ => x 0%nat + match u with Some v => v 0%nat | None => 0 end.
Definition lin_f : vec -> option vec -> vec := fun x u _ => x 0%nat + match u with Some v => v 0%nat | None => 0 end.
Lemma lin_sync : sync vec R [lin_reeval] sq_calc lin_f.
Proof. intros e x u. reflexivity. Qed.
Theorem C101_shared_refuted : exists (rs : list (reeval vec R)) calc f x u,
  sync vec R rs calc f /\ calc 0 x (Some u) = f x (Some u) /\ forall ej, 0 < ej ->
  let '(e, d) := rd_calcDiff vec R vplus (norm 1) 1 1 rs calc ej 0 x u (rd_calc vec R calc 0 x (Some u) rd_create) in
  rd_r (rd_calc vec R calc e x (Some u) d) 0%nat = ej /\ rd_r d 0%nat = 0.
Proof.
exists [lin_reeval], sq_calc, lin_f, zerov, zerov. split; [exact lin_sync|]. split; [unfold sq_calc, lin_f, zerov; extensionality k; ring|].
intros ej He. assert (N0 : norm 1 zerov = 0) by (unfold norm, dot, zerov; cbn [rsum]; rewrite Rmult_0_r, Rplus_0_l; apply sqrt_0).
assert (N1 : ej * Rmax 1 (norm 1 zerov) = ej) by (rewrite N0, Rmax_left; lra).
unfold rd_calcDiff. rewrite N1. unfold dir_loop, for_. cbn [seq fold_left dir_step]. unfold at_x, at_u.
cbn [rd_r rd_calc reevaluate fold_left]. unfold sq_calc. cbn [rd_r]. split; [|reflexivity].
unfold lin_reeval, vplus, setv, zerov. cbn [Nat.eqb]. ring.
Qed.

(** calc of a wrapped control parametrization does not publish the control *)
Theorem C101_control_refuted : exists (f : R -> vec -> vec) t u, wd_w (wd_calc f t u wd_create) 0%nat <> f t u 0%nat.
Proof. exists (fun _ v => v), 0, (fun _ => 1). cbn. unfold zerov. lra. Qed.

(** the contact wrapper publishes neither the contact Jacobian nor the force *)
Theorem C101_contact_refuted : exists (calc : unit -> vec -> tout) (force : unit -> vec -> vec) x l,
  let d := td_updateForce unit force tt l (td_calc vec unit calc tt x td_create) in
  td_Jc d 0%nat 0%nat <> t_Jc (calc tt x) 0%nat 0%nat /\ td_f d 0%nat <> force tt l 0%nat.
Proof.
exists (fun _ _ => TOut zerov (fun _ _ => 1)), (fun _ l => l), zerov, (fun _ => 1). cbn. unfold zerov. split; lra.
Qed.

(** ** A case that meets the hypotheses: the residual x^2 with shared data, at x = 3 *)
Example C101_ex : let x : vec := fun _ => 3 in let u : vec := zerov in
  goes (fun ej => rd_Rx (snd (rd_calcDiff vec R vplus (norm 1) 1 1 [sq_reeval] sq_calc ej 9 x u (rd_calc vec R sq_calc 9 x (Some u) rd_create))) 0%nat 0%nat) 6 /\
  goes (fun ej => cd_Lxx (snd (cd_calcDiff vec R vplus (norm 1) 1 1 1 [sq_reeval] (fun e x u => COut (e * e / 2) (fun _ => e)) (fun _ _ _ => 1) ej 9 x u
     (cd_calc vec R (fun e x u => COut (e * e / 2) (fun _ => e)) 9 x (Some u) (CData 0 zerov zerov zerov zerom zerom zerom zerom zerom)))) 0%nat 0%nat) 36.
Proof.
intros x u. split.
- destruct (C101_residual_limit vec R vplus (norm 1) 1 1 vplus_0 [sq_reeval] sq_calc sq_f 9 x u rd_create sq_sync) as (A & _).
  + unfold sq_calc, sq_f, x. extensionality k. ring.
  + apply A; [lia|]. unfold mpartial, along, sq_f, vplus, x. cbn [Nat.eqb]. auto_derive; [trivial|ring].
- destruct (C101_cost_limit vec R vplus (norm 1) 1 1 vplus_0 1 [sq_reeval] (fun e x u => COut (e * e / 2) (fun _ => e)) (fun _ _ _ => 1)
    (fun x _ => COut (x 0%nat * x 0%nat * (x 0%nat * x 0%nat) / 2) (fun _ => x 0%nat * x 0%nat)) 9 x u (CData 0 zerov zerov zerov zerom zerom zerom zerom zerom)) as (_ & _ & A).
  + intros e y v. reflexivity.
  + unfold x. f_equal; [field|extensionality k; ring].
  + destruct (A (fun _ _ => 6) (fun _ _ => 0)) as (B & _).
    * intros k i _ Hi. replace i with 0%nat by lia. unfold mpartial, along, vplus, x. cbn [Nat.eqb c_res]. auto_derive; [trivial|ring].
    * intros k i _ _. unfold partial. cbn [c_res]. auto_derive; [trivial|ring].
    * specialize (B 0%nat 0%nat ltac:(lia) ltac:(lia)). unfold gn in B. cbn [rsum] in B.
      replace 36 with (0 + 6 * (0 + 1 * 6)) by ring. exact B.
Qed.

Print Assumptions C101_residual.
Print Assumptions C101_residual_limit.
Print Assumptions C101_residual_terminal_partial.
Print Assumptions C101_cost.
Print Assumptions C101_cost_limit.
Print Assumptions C101_cost_terminal.
Print Assumptions C101_constraint.
Print Assumptions C101_constraint_limit.
Print Assumptions C101_constraint_terminal.
Print Assumptions C101_contact_partial.
Print Assumptions C101_shared_partial.
Print Assumptions C101_actuation.
Print Assumptions C101_actuation_terminal.
Print Assumptions C101_control_partial.
Print Assumptions C101_residual_uninit_refuted.
Print Assumptions C101_residual_step_refuted.
Print Assumptions C101_shared_refuted.
Print Assumptions C101_control_refuted.
Print Assumptions C101_contact_refuted.
