(** C24-C26 (BoxQP) and C62 (gains of the control-limited solvers). *)
From mathcomp Require Import all_ssreflect all_algebra.
From Verif Require Import RingTac LinAlg LinAlg_Proofs BoxQP_Model BoxQP_Spec BoxQP_Proofs.
Set Implicit Arguments.
Unset Strict Implicit.
Unset Printing Implicit Defensive.
Import Order.TTheory GRing.Theory Num.Theory.
Local Open Scope ring_scope.

Section Props.
Variables (R : realFieldType) (n : nat).

(** C24: whatever the Hessian, guess, parameters and number of iterations, a returned point
    is inside the box. *)
Theorem C24_in_box (H : 'M[R]_n) (q : 'cV[R]_n) (lb ub : bounds R n) (p : qp R) xinit old sol b :
  nonempty lb ub -> qp_solve H q lb ub p xinit old = Some (sol, b) -> in_box lb ub (sx sol).
Proof. by move=> h; apply: loop_in => //; exact: clip_in. Qed.

(** C24: with a positive definite Hessian the call always returns. *)
Theorem C24_returns (H : 'M[R]_n) (q : 'cV[R]_n) (lb ub : bounds R n) (p : qp R) xinit old :
  symm H -> posdef H -> 0 <= reg p -> exists r, qp_solve H q lb ub p xinit old = Some r.
Proof. by move=> hH hp hr; exact: loop_ok. Qed.

(** C25, the part that holds: with a zero acceptance threshold the objective never increases
    from the guess projected on the box (from the guess itself when it is feasible). *)
Theorem C25_zero_threshold_partial (H : 'M[R]_n) (q : 'cV[R]_n) (lb ub : bounds R n) (p : qp R) xinit old sol b :
  th_acceptstep p = 0 -> in_box lb ub xinit -> qp_solve H q lb ub p xinit old = Some (sol, b) ->
  objective H q (sx sol) <= objective H q xinit.
Proof. by move=> h hx; rewrite /qp_solve clip_id // !objectiveE; exact: loop_th0. Qed.

(** C25, the part that holds: any trial that does not leave the box is no worse, for every
    step length in [0, 2]. *)
Theorem C25_unclipped_partial (H : 'M[R]_n) (q : 'cV[R]_n) (lb ub : bounds R n) x s a :
  symm H -> psd H -> qp_step H q lb ub 0 x = Some s -> in_box lb ub (x + a *: p_dx s) -> 0 <= a <= 2%:R ->
  objective H q (clip lb ub (x + a *: p_dx s)) <= objective H q x.
Proof. by move=> *; rewrite !objectiveE; exact: unclipped. Qed.

(** C26: without regularization and with zero tolerance, convergence certifies the
    first-order conditions. *)
Theorem C26_kkt_partial (H : 'M[R]_n) (q : 'cV[R]_n) (lb ub : bounds R n) (p : qp R) xinit old sol :
  symm H -> nonempty lb ub -> reg p = 0 -> th_grad p = 0 ->
  qp_solve H q lb ub p xinit old = Some (sol, true) -> kkt H q lb ub (sx sol).
Proof.
move=> hH hne hr ht /(loop_converged hne (clip_in _ hne)) [x0 [s [hx hs hsm ->]]].
rewrite hr in hs; rewrite ht in hsm; have [d0 hk] := stationary hH hx hs hsm.
by rewrite d0 search_zero.
Qed.

(** C26: without regularization and with any tolerance, a converged solution of a convex
    problem over a bounded box is within tolerance x (1 + threshold) x (size of the box) of
    the minimum. *)
Theorem C26_near_optimal_partial (H : 'M[R]_n) (q : 'cV[R]_n) (l u : 'cV[R]_n) (p : qp R) xinit old sol y :
  symm H -> psd H -> (forall i, l i 0 <= u i 0) -> reg p = 0 -> 0 <= th_acceptstep p ->
  let lb i := Some (l i 0) in let ub i := Some (u i 0) in
  qp_solve H q lb ub p xinit old = Some (sol, true) -> in_box lb ub y ->
  objective H q (sx sol) <=
  objective H q y + th_grad p * (1 + th_acceptstep p) * \sum_i (u i 0 - l i 0).
Proof.
move=> hH hp hlu hr ht lb ub.
have hne : nonempty lb ub by move=> i ? ? [<-] [<-].
move=> /(loop_converged hne (clip_in _ hne)) [x0 [s [hx hs hsm ->]]] hy; rewrite !objectiveE.
rewrite hr in hs.
have h1 := near_optimal hH hp (fun=> erefl) (fun=> erefl) hx hy hs hsm.
have h2 := search_loss (alphas p) hH hne (fun=> erefl) (fun=> erefl) hx hs hsm ht.
apply: le_trans h2 _; move: h1; move: (qp_cost H q x0) (qp_cost H q y) (\sum_i _) => c0 c1 S h1.
have -> : c1 + th_grad p * (1 + th_acceptstep p) * S = (c1 + th_grad p * S) + th_acceptstep p * th_grad p * S.
  by rewrite mulrDr mulr1 mulrDl addrA [th_grad p * th_acceptstep p]mulrC.
by rewrite ler_add2r.
Qed.

(** C26: a first-order point of a convex problem is a global minimiser over the box. *)
Theorem C26_kkt_global (H : 'M[R]_n) (q : 'cV[R]_n) (lb ub : bounds R n) x y :
  symm H -> psd H -> kkt H q lb ub x -> in_box lb ub y -> objective H q x <= objective H q y.
Proof.
move=> hH hp [hx hk] hy; rewrite !objectiveE (cost_expand q x y hH).
move: (qp_cost H q x) => c0; rewrite -addrA ler_addl addr_ge0 //; last first.
  by rewrite mulr_ge0 ?hp // invr_ge0 ler0n.
rewrite dotE; apply: sumr_ge0 => i _; move: (hk i); rewrite [q + _]addrC.
rewrite [(y - x) i 0]mxE [(- x) i 0]mxE /= => -[h1 h2].
case: (ltrgtP ((H *m x + q) i 0) 0) => hg.
- by rewrite mulr_le0 ?(ltW hg) // subr_le0; apply: hy.2; exact: h2.
- by rewrite mulr_ge0 ?(ltW hg) // subr_ge0; apply: hy.1; exact: h1.
by rewrite hg mul0r.
Qed.
End Props.

Section Gains.
Variables (R : realFieldType) (n m : nat).
(** C62: the full step of the feedforward term respects the control limits. *)
Theorem C62_feedforward_in_limits (p : qp R) (old : solution R m) (Quu : 'M[R]_m) (Qu : 'cV[R]_m)
    (Qxu : 'M[R]_(n, m)) (u_lb u_ub : bounds R m) (us k0 k Qu' : 'cV[R]_m) (K : 'M[R]_(m, n)) :
  nonempty u_lb u_ub ->
  box_gains p old Quu Qu Qxu u_lb u_ub us k0 = Some (k, K, Qu') -> in_box u_lb u_ub (us - k).
Proof. exact: box_gains_in. Qed.

(** C62: the controls split in clamped ones, which sit at a limit and get no feedback and no
    gradient, and free ones, for which the feedback solves the free rows of Quu K = Qux. *)
Theorem C62_clamped_free (p : qp R) (old : solution R m) (Quu : 'M[R]_m) (Qu : 'cV[R]_m)
    (Qxu : 'M[R]_(n, m)) (u_lb u_ub : bounds R m) (us k0 k Qu' : 'cV[R]_m) (K : 'M[R]_(m, n)) :
  symm Quu -> nonempty u_lb u_ub -> reg p = 0 -> (0 < maxiter p)%N ->
  box_gains p old Quu Qu Qxu u_lb u_ub us k0 = Some (k, K, Qu') ->
  exists F : {set 'I_m},
    [/\ forall j, j \notin F -> u_lb j = Some ((us - k) j 0) \/ u_ub j = Some ((us - k) j 0),
        forall j c, j \notin F -> K j c = 0,
        forall i c, i \in F -> (Quu *m K) i c = Qxu c i &
        forall j, Qu' j 0 = if j \in F then Qu j 0 else 0].
Proof. exact: box_gains_facts. Qed.
End Gains.
