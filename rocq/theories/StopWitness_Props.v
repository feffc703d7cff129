(** C124: examples, and a problem with control limits on which BoxDDP returns true far from any optimum. *)
From Coquelicot Require Import Coquelicot.
From Coq Require Import Reals List Bool Arith Lia Lra FunctionalExtensionality.
From Verif Require Import Deriv VecMat Stop_Model Stop_Proofs Stop_Props.
Import ListNotations.
Open Scope R_scope.

Definition mv (x : R -> R) (s : R) (w : vec) : Prop := is_derive x s (w 0%nat).
Definition df (a b : R) : vec := fun _ => b - a.
Lemma mv0 x s : mv (fun _ => x) s (fun _ => 0).
Proof. apply dconst. Qed.
Lemma df0 x i : df x x i = 0.
Proof. unfold df. ring. Qed.

(** Two controls; the first cost is convex and not quadratic, the second control has the upper limit 1. *)
Definition lu1 (u : R) : R := -1 + u + u * u * u.
Definition mW : node R := Node R 2 (fun x u => x + u 0%nat)
  (fun _ u => - u 0%nat + / 2 * (u 0%nat * u 0%nat) + / 4 * (u 0%nat * u 0%nat * (u 0%nat * u 0%nat)) - 2 * u 1%nat + / 2 * (u 1%nat * u 1%nat))
  (fun _ _ => idm) (fun _ _ _ j => if Nat.eqb j 0 then 1 else 0)
  (fun _ _ _ => 0) (fun _ u i => if Nat.eqb i 0 then lu1 (u 0%nat) else -2 + u 1%nat)
  (fun _ _ _ _ => 0) (fun _ _ _ _ => 0)
  (fun _ u i j => if Nat.eqb i j then (if Nat.eqb i 0 then 1 + 3 * (u 0%nat * u 0%nat) else 1) else 0)
  (Some ((fun _ => -10), fun i => if Nat.eqb i 0 then 10 else 1)).
Definition tW : term R := Term R (fun _ => 0) (fun _ _ => 0) (fun _ _ _ => 0).

Lemma smooth_W : smooth R 1 mv mW.
Proof.
  split.
  - intros x u s w z Hx Hu. unfold mv in *. cbn [F Fx Fu nu mW mulv rsum] in *.
    eapply deq; [apply dplus; [exact Hx|exact (Hu 0%nat ltac:(lia))]|]. unfold mulv, idm. cbn. ring.
  - intros x u s w z _ Hu. cbn [L Lx Lu nu mW dot rsum] in *.
    pose proof (Hu 0%nat ltac:(lia)) as H0. pose proof (Hu 1%nat ltac:(lia)) as H1.
    pose proof (dmult _ _ _ _ _ H0 H0) as Q0. pose proof (dmult _ _ _ _ _ H1 H1) as Q1. pose proof (dmult _ _ _ _ _ Q0 Q0) as Q2.
    eapply deq; [apply dplus; [apply dminus; [apply dplus; [apply dplus; [apply dopp, H0|apply dscal, Q0]|apply dscal, Q2]|apply dscal, H1]|apply dscal, Q1]|].
    unfold dot, lu1. cbn [rsum Nat.eqb]. field.
  - intros x u v H. cbn [F L nu mW] in *. rewrite (H 0%nat), (H 1%nat) by lia. split; reflexivity.
  - intros x u i j _ _. cbn [Luu mW]. rewrite (Nat.eqb_sym j i). destruct (Nat.eqb_spec i j) as [->|]; reflexivity.
Qed.
Lemma smooth_T : smoothT R 1 mv tW.
Proof.
  split.
  - intros x s w _. cbn [LT LTx tW]. eapply deq; [apply dconst|]. unfold dot. cbn [rsum]. ring.
  - intros x i j _ _. reflexivity.
Qed.
Definition zu : vec := fun _ => 0.
Definition ou : vec := fun _ => 1.
Definition bq : nat -> mat -> vec -> vec -> vec -> vec * (nat -> bool) * mat := fun _ _ _ _ _ => (ou, fun i => Nat.eqb i 0, idm).
Definition no_llt : nat -> mat -> option mat := fun _ _ => None.

Definition bW : bnode := match bpass R 1 no_llt bq true 0 tW 0 [(mW, zu)] with Some (_, _, [b]) => b | _ => BNode zu zu idm idm end.
Lemma W_pass : exists Vx Vxx, bpass R 1 no_llt bq true 0 tW 0 [(mW, zu)] = Some (Vx, Vxx, [bW]).
Proof. do 2 eexists. reflexivity. Qed.
Lemma W_step : exists vx vxx Vx Vxx, bpass R 1 no_llt bq true 0 tW (F R mW 0 zu) [] = Some (Vx, Vxx, []) /\
  bstep R 1 no_llt bq true 0 mW 0 zu Vx Vxx = Some (vx, vxx, bW).
Proof. do 4 eexists. split; reflexivity. Qed.
Lemma W_Quu i j : (i < 2)%nat -> (j < 2)%nat -> bQuu bW i j = idm i j.
Proof.
  intros Hi Hj. destruct i as [|[|i]]; [| |lia]; (destruct j as [|[|j]]; [| |lia]); unfold bW, reg, mulm, tr, idm, zu; cbn; unfold reg, mulm, tr, zu; cbn; ring.
Qed.
Lemma W_mul (v : vec) i : (i < 2)%nat -> mulv 2 (bQuu bW) v i = v i.
Proof.
  intro Hi. unfold mulv. rewrite (rsum_ext 2 _ (fun j => idm i j * v j)); [now apply rsum_id_l|]. intros j Hj. now rewrite W_Quu.
Qed.
Lemma W_Qu : bQu bW 0%nat = -1 /\ bQu bW 1%nat = 0.
Proof. unfold bW, lu1, mulv, tr, zu; cbn; unfold lu1, mulv, tr, zu; cbn. split; ring. Qed.
Lemma W_k i : bk bW i = -1.
Proof. unfold bW; cbn. unfold ou. ring. Qed.
Lemma W_improvement : improvement R [(mW, zu)] [bW] = (1, -2).
Proof.
  cbn [improvement fst snd nu mW]. destruct W_Qu as (Q0 & Q1).
  rewrite (dot_ext 2 (bk bW) (mulv 2 (bQuu bW) (bk bW)) (fun _ => -1) (fun _ => -1)); [|intros; apply W_k|intros i Hi; rewrite W_mul by exact Hi; apply W_k].
  unfold dot. cbn [rsum]. rewrite Q0, Q1, !W_k. f_equal; ring.
Qed.
Lemma W_ok : nodes_ok R 1 no_llt bq true 0 tW 0 [(mW, zu)].
Proof.
  split; [|exact I]. intros lb ub E. cbn [lims mW] in E. injection E as <- <-. split.
  - unfold inside. cbn [lims mW nu]. intros i Hi. unfold zu. destruct (Nat.eqb i 0); lra.
  - intros Vx Vxx bs vx vxx b P B. destruct W_step as (vx' & vxx' & Vx' & Vxx' & P' & B').
    assert (Vx = Vx' /\ Vxx = Vxx') as (-> & ->) by (rewrite P' in P; split; congruence).
    assert (b = bW) as -> by (rewrite B' in B; congruence).
    split.
    + intros v (i & Hi & Hv). cbn [nu mW] in *. rewrite (dot_ext 2 v (mulv 2 (bQuu bW) v) v v) by (auto using W_mul).
      unfold dot. cbn [rsum]. pose proof (Rle_0_sqr (v 0%nat)). pose proof (Rle_0_sqr (v 1%nat)). unfold Rsqr in *.
      pose proof (Rsqr_pos_lt _ Hv) as Hp. unfold Rsqr in Hp. destruct i as [|[|i]]; [lra|lra|lia].
    + assert (EV : Vx' = LTx R tW (F R mW 0 zu)) by (cbn [bpass] in P'; congruence). subst Vx'.
      unfold exact, bq. intros i Hi. cbn [nu mW] in *. rewrite W_mul by exact Hi.
      destruct i as [|[|i]]; [| |lia]; unfold rawQu, mulv, tr, zu, ou, lu1; cbn; unfold lu1; (split; [lra|]).
      * ring.
      * right. split; lra.
Qed.
Lemma no_llt_ok : llt_ok no_llt.
Proof. intros n A B E. discriminate E. Qed.
Lemma W_try : exists xs, forward R 1 df true 1 tW 0 0 [(mW, zu)] [bW] = ([(mW, ou)], xs, cost R tW 0 [(mW, ou)]).
Proof.
  cbn [forward]. cbv zeta.
  assert (E : utry R 1 true 1 mW zu bW (df 0 0) = ou).
  { apply functional_extensionality. intro i. unfold utry, clamp. cbn [lims mW]. rewrite W_k, mulv_zero by (intros; apply df0). unfold zu, ou.
    rewrite Rmax_left by lra. replace (0 - 1 * -1 - 0) with 1 by ring. destruct (Nat.eqb i 0); apply Rmin_left; lra. }
  rewrite E. eexists. reflexivity.
Qed.
Lemma W_gradient : ~ limited_optimum R tW 0 [(mW, ou)].
Proof.
  intro H. destruct (H [fun i => if Nat.eqb i 0 then -1 else 0]) as (g & G0 & G1).
  { exists 1. split; [lra|]. constructor; [|constructor]. cbn [fst snd nu mW lims]. intros i Hi. unfold hdv, ou. cbn [hd]. destruct (Nat.eqb i 0); lra. }
  pose proof (slope R 1 mv mv0 tW 0 [(mW, ou)] [fun i => if Nat.eqb i 0 then -1 else 0] smooth_T ltac:(constructor; [exact smooth_W|constructor])) as D.
  pose proof (duniq _ _ _ _ D G1) as E. revert E. cbn [gsum]. unfold dot, grad, hdv, mulv, tr, ou. cbn [nu mW hd rsum Lu costate LTx tW Nat.eqb Fu F]. unfold lu1. lra.
Qed.
Lemma W_gradient0 : ~ limited_optimum R tW 0 [(mW, zu)].
Proof.
  intro H. destruct W_pass as (Vx & Vxx & P).
  destruct (C124_box_zero R 1 no_llt bq mv mv0 no_llt_ok 0 tW 0 [(mW, zu)] Vx Vxx [bW] smooth_T ltac:(constructor; [exact smooth_W|constructor])) as (_ & K); auto using W_ok.
  { constructor; [|constructor]. cbn [fst snd nu mW lims]. intros i Hi. unfold zu. destruct (Nat.eqb i 0); lra. }
  inversion K as [|? ? ? ? K1 _]; subst. specialize (K1 0%nat). cbn [fst nu mW] in K1. rewrite W_k in K1. specialize (K1 ltac:(lia)). lra.
Qed.

(** The stopping value is zero and BoxDDP returns true, with any thresholds, although neither the candidate nor
    the returned controls are optimal: the gain of a free control is cancelled by the step of a clamped one,
    whose gradient was cleared. *)
Theorem C124_box_refuted :
  exists (X : Type) (ndx : nat) (sdiff : X -> X -> vec) (llt : nat -> mat -> option mat) boxqp
    (moves : (R -> X) -> R -> vec -> Prop) (T : term X) (x : X) (l : list (node X * vec)) Vx Vxx bs (l' : list (node X * vec)),
  (forall x s, moves (fun _ => x) s (fun _ => 0)) /\ (forall x i, sdiff x x i = 0) /\
  llt_ok llt /\ smoothT X ndx moves T /\ all_smooth X ndx moves l /\ within X l /\
  bpass X ndx llt boxqp true 0 T x l = Some (Vx, Vxx, bs) /\ nodes_ok X ndx llt boxqp true 0 T x l /\
  stop_value (improvement X l bs) = 0 /\ ~ limited_optimum X T x l /\
  (forall was th_grad th_accept th_stop, 0 < th_stop ->
     iteration X ndx sdiff llt boxqp true was 0 th_grad th_accept th_stop [1] T x l = Some (l', true)) /\
  within X l' /\ ~ limited_optimum X T x l'.
Proof.
  destruct W_pass as (Vx & Vxx & P).
  assert (ST : stop_value (improvement R [(mW, zu)] [bW]) = 0).
  { rewrite W_improvement. unfold stop_value. cbn [fst snd]. replace (1 + / 2 * -2) with 0 by field. apply Rabs_R0. }
  exists R, 1%nat, df, no_llt, bq, mv, tW, 0, [(mW, zu)], Vx, Vxx, [bW], [(mW, ou)].
  split; [exact mv0|]. split; [exact df0|]. split; [exact no_llt_ok|]. split; [exact smooth_T|].
  split; [constructor; [exact smooth_W|constructor]|].
  split; [constructor; [|constructor]; cbn [fst snd nu mW lims]; intros i Hi; unfold zu; destruct (Nat.eqb i 0); lra|].
  split; [exact P|]. split; [exact W_ok|]. split; [exact ST|]. split; [exact W_gradient0|]. split; [|split; [|exact W_gradient]].
  - intros was tg ta ts Hs. unfold iteration. rewrite P. cbv zeta. cbn [linesearch]. destruct W_try as (xs & ->).
    assert (EP : passes tg ta 1 (improvement R [(mW, zu)] [bW]) (cost R tW 0 [(mW, zu)] - cost R tW 0 [(mW, ou)]) = true).
    { rewrite W_improvement. unfold passes. cbn [fst snd cost mW tW L LT]. unfold zu, ou.
      destruct (Rle_dec 0 _) as [_|N]; [|exfalso; apply N; lra]. cbn [andb].
      match goal with |- _ || (if Rlt_dec ?a ?b then true else false) = true => destruct (Rlt_dec a b) as [_|N] end; [apply orb_true_r|].
      exfalso; apply N. replace (ta * (1 * (1 + / 2 * 1 * -2))) with 0 by field. lra. }
    rewrite EP, ST. destruct (Rlt_dec 0 ts) as [_|N]; [reflexivity|contradiction].
  - constructor; [|constructor]; cbn [fst snd nu mW lims]. intros i Hi. unfold ou. destruct (Nat.eqb i 0); lra.
Qed.

(** DDP on a single integrator with the cost u^2 / 2 and the terminal cost x^2 / 2 from x = 1: u = -1/2 is stationary *)
Definition llt1 : nat -> mat -> option mat := fun n A =>
  if Nat.eqb n 1 then if Rlt_dec 0 (A 0%nat 0%nat) then Some (fun _ _ => / A 0%nat 0%nat) else None else None.
Lemma llt1_ok : llt_ok llt1.
Proof.
  intros n A B. unfold llt1. destruct (Nat.eqb_spec n 1) as [->|]; [|discriminate]. destruct (Rlt_dec 0 (A 0%nat 0%nat)) as [P|]; [|discriminate].
  intros E _. injection E as <-. split.
  - intros v (i & Hi & Hv). unfold dot, mulv. cbn [rsum]. replace i with 0%nat in Hv by lia. pose proof (Rsqr_pos_lt _ Hv) as H. unfold Rsqr in H.
    replace (0 + v 0%nat * (0 + A 0%nat 0%nat * v 0%nat)) with (A 0%nat 0%nat * (v 0%nat * v 0%nat)) by ring. now apply Rmult_lt_0_compat.
  - intros b i Hi. replace i with 0%nat by lia. unfold mulv. cbn [rsum]. field. lra.
Qed.
Definition mI : node R := Node R 1 (fun x u => x + u 0%nat) (fun _ u => / 2 * (u 0%nat * u 0%nat)) (fun _ _ => idm) (fun _ _ => idm)
  (fun _ _ _ => 0) (fun _ u i => u i) (fun _ _ _ _ => 0) (fun _ _ _ _ => 0) (fun _ _ => idm) None.
Definition tI : term R := Term R (fun x => / 2 * (x * x)) (fun x _ => x) (fun _ => idm).
Lemma smooth_I : smooth R 1 mv mI /\ smoothT R 1 mv tI.
Proof.
  split; split.
  - intros x u s w z Hx Hu. unfold mv in *. cbn [F Fx Fu nu mI] in *.
    eapply deq; [apply dplus; [exact Hx|exact (Hu 0%nat ltac:(lia))]|]. unfold mulv, idm. cbn. ring.
  - intros x u s w z _ Hu. cbn [L Lx Lu nu mI] in *. pose proof (Hu 0%nat ltac:(lia)) as H0.
    eapply deq; [apply dscal, (dmult _ _ _ _ _ H0 H0)|]. unfold dot. cbn [rsum]. field.
  - intros x u v H. cbn [F L nu mI] in *. rewrite (H 0%nat) by lia. split; reflexivity.
  - intros x u i j Hi Hj. cbn [nu mI] in *. replace i with 0%nat by lia. replace j with 0%nat by lia. reflexivity.
  - intros x s w Hx. unfold mv in Hx. cbn [LT LTx tI]. eapply deq; [apply dscal, (dmult _ _ _ _ _ Hx Hx)|]. unfold dot. cbn [rsum]. field.
  - intros x i j Hi Hj. replace i with 0%nat by lia. replace j with 0%nat by lia. reflexivity.
Qed.
Example C124_ddp_ex : forall a : R, exists Vx Vxx bs, bpass R 1 llt1 bq false 0 tI 1 [(mI, fun _ => a)] = Some (Vx, Vxx, bs) /\
  (stop_value (improvement R [(mI, fun _ => a)] bs) = 0 <-> a = - / 2) /\
  (stationary R tI 1 [(mI, fun _ => a)] <-> a = - / 2).
Proof.
  intro a. cbn [bpass]. unfold bstep. cbv zeta. unfold gains. cbn [nu mI Nat.eqb]. cbn [Nat.eqb]. set (A := reg 0 _).
  assert (EA : A 0%nat 0%nat = 2) by (unfold A, reg, mulm, tr, idm; cbn; unfold reg, idm; cbn; ring).
  unfold llt1 at 1. cbn [Nat.eqb]. destruct (Rlt_dec 0 (A 0%nat 0%nat)) as [_|N]; [|exfalso; apply N; lra].
  do 3 eexists. split; [reflexivity|].
  match goal with |- (stop_value (improvement R ?l ?bs) = 0 <-> _) /\ _ => set (L0 := l); set (B0 := bs) end.
  assert (E : stop_value (improvement R L0 B0) = 0 <-> a = - / 2).
  { unfold stop_value, L0, B0. cbn [improvement fst snd nu mI]. unfold dot, mulv, tr. cbn [rsum bQu bk bQuu Lu mI Fu LTx tI F]. rewrite EA. unfold idm. cbn [Nat.eqb].
    match goal with |- Rabs ?e = 0 <-> _ => replace e with ((2 * a + 1) * (2 * a + 1) / 4) by field end.
    split.
    - intro H. destruct (Req_dec ((2 * a + 1) * (2 * a + 1) / 4) 0) as [Z|NZ]; [|exfalso; now apply (Rabs_no_R0 _ NZ)].
      assert (Z2 : (2 * a + 1) * (2 * a + 1) = 0) by lra. apply Rmult_integral in Z2. lra.
    - intros ->. replace ((2 * - / 2 + 1) * (2 * - / 2 + 1) / 4) with 0 by field. apply Rabs_R0. }
  split; [exact E|]. rewrite <- E. symmetry.
  destruct smooth_I as (S1 & S2).
  eapply (C124_ddp R 1 llt1 bq mv mv0 llt1_ok 0 tI 1 L0); [exact S2|constructor; [exact S1|constructor]|].
  unfold L0, B0. cbn [bpass]. unfold bstep. cbv zeta. unfold gains. cbn [nu mI Nat.eqb]. fold A.
  unfold llt1. cbn [Nat.eqb]. destruct (Rlt_dec 0 (A 0%nat 0%nat)) as [_|N]; [|exfalso; apply N; lra]. reflexivity.
Qed.

Print Assumptions C124_ddp.
Print Assumptions C124_ddp_returned.
Print Assumptions C124_box_zero.
Print Assumptions C124_box_partial.
Print Assumptions C124_box_refuted.
