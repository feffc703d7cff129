(** Witnesses for C24-C26 and C62 over the rationals. *)
From mathcomp Require Import all_ssreflect all_algebra.
From Verif Require Import RingTac LinAlg LinAlg_Proofs BoxQP_Model BoxQP_Spec BoxQP_Proofs BoxQP_Props.
Set Implicit Arguments.
Unset Strict Implicit.
Unset Printing Implicit Defensive.
Import Order.TTheory GRing.Theory Num.Theory.
Local Open Scope ring_scope.

Notation R := rat_realFieldType.
Definition q_ (a b : nat) : R := a%:R / b%:R.
Arguments q_ : simpl never.

Definition H2 : 'M[R]_2 := \matrix_(i, j) if i == j then q_ 2 1 else 1.
Definition vec2 (a b : R) : 'cV[R]_2 := \col_i if i == 0 then a else b.
Definition bnd2 (a b : R) : bounds R 2 := fun i => Some (if i == 0 then a else b).
Definition x2 := vec2 (q_ 8 1) (- q_ 4 1).
Definition lb2 := bnd2 (q_ 7 1) (- q_ 8 1).
Definition ub2 := bnd2 (q_ 9 1) (q_ 8 1).
Definition p2 : qp R := QP 1 (q_ 1 10) (q_ 1 16) 0 [:: 1; q_ 1 2; q_ 1 4].
Definition old2 : solution R 2 := @Solution R 2 0 set0 0.

Lemma sum2 (f : 'I_2 -> R) : \sum_i f i = f 0 + f 1.
Proof. by rewrite !big_ord_recl big_ord0 addr0; congr (_ + f _); apply: val_inj. Qed.

Lemma H2_symm : symm H2.
Proof. by apply/matrixP => i j; rewrite !mxE eq_sym. Qed.
Add Field RF : (rft R).
Lemma H2_dot (x : 'cV[R]_2) : dot x (H2 *m x) = 2%:R * (x 0 0 * x 0 0 + x 0 0 * x 1 0 + x 1 0 * x 1 0).
Proof.
rewrite dotE sum2 !mxE !sum2 !mxE /=; set a := x 0 0; set b := x 1 0.
rewrite /q_ divr1; rng R.
Qed.
Lemma H2_posdef : posdef H2.
Proof.
move=> x hx; rewrite H2_dot.
have e : 2%:R * (x 0 0 * x 0 0 + x 0 0 * x 1 0 + x 1 0 * x 1 0) =
  x 0 0 ^+ 2 + x 1 0 ^+ 2 + (x 0 0 + x 1 0) ^+ 2.
  rewrite !expr2; rng R.
rewrite e.
rewrite ltr_paddr ?sqr_ge0 // lt_neqAle addr_ge0 ?sqr_ge0 // andbT eq_sym.
apply: contra_neq hx => /eqP; rewrite paddr_eq0 ?sqr_ge0 // !sqrf_eq0 => /andP [/eqP h0 /eqP h1].
apply/matrixP => i j; rewrite (ord1 j) mxE.
by case: (unliftP ord0 i) => [k ->|->] //; rewrite (ord1 k) -[RHS]h1; congr (x _ _); apply: val_inj.
Qed.

Lemma vec2P (x : 'cV[R]_2) a b : x 0 0 = a -> x 1 0 = b -> x = vec2 a b.
Proof.
move=> h0 h1; apply/matrixP => i j; rewrite (ord1 j) mxE.
case: (unliftP ord0 i) => [k ->|->] //=; rewrite (ord1 k) -h1; congr (x _ _); exact: val_inj.
Qed.
Lemma forall2 (P : 'I_2 -> Prop) : P 0 -> P 1 -> forall i, P i.
Proof.
move=> h0 h1 i; case: (unliftP ord0 i) => [k ->|->] //; rewrite (ord1 k).
by rewrite (_ : lift _ _ = 1) //; apply: val_inj.
Qed.

Lemma v20 a b : vec2 a b 0 0 = a. Proof. by rewrite mxE. Qed.
Lemma v21 a b : vec2 a b 1 0 = b. Proof. by rewrite mxE. Qed.

(** The free set of the guess is everything, and the Newton step goes to the origin. *)
Lemma x2_free s : qp_step H2 0 lb2 ub2 0 x2 = Some s -> p_free s = setT /\ p_dx s = - x2.
Proof.
move=> hs; have [e _ h0 hd] := step_facts H2_symm hs.
have eF : p_free s = setT.
  rewrite e; apply/setP => i; rewrite !inE.
  by apply/negP => /orP [] /andP [+ _]; move: i; apply: forall2; rewrite /x2 ?v20 ?v21; vm_compute.
split=> //; apply/eqP; rewrite -addr_eq0.
apply/negPn/negP => hne; have := H2_posdef hne.
suff -> : H2 *m (p_dx s + x2) = 0 by rewrite dot0r ltxx.
apply/matrixP => i j; rewrite (ord1 j).
have hi : i \in p_free s by rewrite eF inE.
move/matrixP: hd => /(_ (enum_rank_in hi i) 0).
rewrite [LHS]mxE [in RHS]mxE [in RHS]mxE enum_rankK_in // add0r => hd.
by rewrite mulmxDr [LHS]mxE hd addNr mxE.
Qed.

Lemma H2_mul (a b : R) : H2 *m vec2 a b = vec2 (q_ 2 1 * a + b) (a + q_ 2 1 * b).
Proof. by apply: vec2P; rewrite mxE sum2 !mxE /= mul1r. Qed.
Lemma dot_vec2 (a b c d : R) : dot (vec2 a b) (vec2 c d) = a * c + b * d.
Proof. by rewrite dotE sum2 !mxE. Qed.
Lemma vec2N (a b : R) : - vec2 a b = vec2 (- a) (- b).
Proof. by apply: vec2P; rewrite !mxE. Qed.
Lemma vec2D (a b c d : R) : vec2 a b + vec2 c d = vec2 (a + c) (b + d).
Proof. by apply: vec2P; rewrite !mxE. Qed.
Lemma vec20 : 0 = vec2 0 0.
Proof. by apply: vec2P; rewrite !mxE. Qed.
Lemma clip_vec2 (a b c d e f : R) :
  clip (bnd2 a b) (bnd2 c d) (vec2 e f) = vec2 (Num.max (Num.min e c) a) (Num.max (Num.min f d) b).
Proof. by apply: vec2P; rewrite !mxE. Qed.
Lemma x2_in : in_box lb2 ub2 x2.
Proof.
by split; apply: forall2 => b [<-]; rewrite mxE /=; vm_compute.
Qed.
Lemma box2_nonempty : nonempty lb2 ub2.
Proof. by apply: forall2 => a b [<-] [<-]; vm_compute. Qed.

Theorem C25_refuted : exists (n : nat) (H : 'M[R]_n) (q : 'cV[R]_n) (lb ub : bounds R n) (p : qp R)
    (xinit : 'cV[R]_n) (old sol : solution R n) (b : bool),
  [/\ symm H /\ posdef H, in_box lb ub xinit, reg p = 0 /\ 0 < th_acceptstep p < 2%:R^-1,
      all (fun a => 0 < a <= 1) (alphas p) &
      qp_solve H q lb ub p xinit old = Some (sol, b) /\ objective H q xinit < objective H q (sx sol)].
Proof.
have [s hs] := step_ok 0 lb2 ub2 x2 H2_symm H2_posdef (lexx (0 : R)).
have [eF ed] := x2_free hs.
have hg : p_g s = - (H2 *m x2).
  apply/matrixP => i j; rewrite (ord1 j) (step_g0 H2_symm hs) eF inE add0r.
  by rewrite [RHS]mxE.
have hy : clip lb2 ub2 (x2 + 1 *: p_dx s) = vec2 (q_ 7 1) 0.
  rewrite ed scale1r subrr (vec20) clip_vec2; congr vec2; by apply/eqP; vm_compute.
have hse : qp_search H2 0 lb2 ub2 (q_ 1 10) x2 (p_dx s) (p_g s) (alphas p2) = vec2 (q_ 7 1) 0.
  rewrite /= hy ifT // hg /qp_cost !dot0l !addr0 /x2 !H2_mul !vec2N !vec2D !dot_vec2.
  by vm_compute.
exists 2%N, H2, 0, lb2, ub2, p2, x2, old2,
  (@Solution R 2 (vec2 (q_ 7 1) 0) (p_free s) (llt_solve (p_Hff s) 1%:M)), (small (p_qf s) (th_grad p2)).
split.
- split; [exact: H2_symm|exact: H2_posdef].
- exact: x2_in.
- by split=> //; vm_compute.
- by vm_compute.
split.
  rewrite /qp_solve (clip_id x2_in) [maxiter p2]/= qp_loopS [reg p2]/= hs; cbv zeta.
  rewrite [th_acceptstep p2]/= hse; by case: small.
rewrite !objectiveE /qp_cost !dot0l !addr0 /sx /x2 !H2_mul !dot_vec2.
by vm_compute.
Qed.


(** Regularization moves the point at which the solver stops (the minimiser is 1,
    the solver certifies 1/2). *)
Definition p1 : qp R := QP 10 (q_ 1 10) 0 1 [:: 1].
Theorem C26_regularized_refuted : exists (n : nat) (H : 'M[R]_n) (q : 'cV[R]_n) (lb ub : bounds R n)
    (p : qp R) (xinit : 'cV[R]_n) (old sol : solution R n),
  [/\ symm H /\ posdef H, nonempty lb ub, th_grad p = 0 &
      qp_solve H q lb ub p xinit old = Some (sol, true) /\ ~ kkt H q lb ub (sx sol)].
Proof.
pose lb : bounds R 1 := fun=> Some 0; pose ub : bounds R 1 := fun=> Some 2%:R.
pose x : 'cV[R]_1 := const_mx (q_ 1 2).
have hH : symm (1%:M : 'M[R]_1) by exact: symm_scalar.
have hp : posdef (1%:M : 'M[R]_1) by move=> y hy; rewrite mul1mx dot_gt0.
have hx : in_box lb ub x by split=> i b [<-]; rewrite mxE; vm_compute.
have [s hs] := step_ok (- 1%:M) lb ub x hH hp (ler01 : (0 : R) <= 1).
have [_ eq] := step_qf hs.
have q0 : p_qf s = 0.
  rewrite eq mul1mx scale1r; apply/matrixP => i j; rewrite (ord1 j) !mxE (ord1 (enum_val i)) /=.
  by apply/eqP; vm_compute.
exists 1%N, 1%:M, (- 1%:M), lb, ub, p1, x, (@Solution R 1 0 set0 0),
  (@Solution R 1 x (p_free s) (llt_solve (p_Hff s) 1%:M)).
split=> //; first by move=> i a b [<-] [<-]; vm_compute.
split.
  rewrite /qp_solve (clip_id hx) [maxiter p1]/= qp_loopS [reg p1]/= hs; cbv zeta.
  rewrite (step_dx0 hs q0) search_zero // q0 [th_grad p1]/= small0 //.
case=> _ /(_ 0) [_]; rewrite /= mul1mx !mxE /= /ub.
have -> : (q_ 1 2 - 1 < 0) by vm_compute.
move=> /(_ isT) []; by vm_compute.
Qed.

(** A run that converges in two iterations with an active bound: from (7, 0) to
    (7, -7/2). *)
Definition p3 : qp R := QP 5 (q_ 1 10) 0 0 [:: 1; q_ 1 2].
Definition xa := vec2 (q_ 7 1) 0.
Definition xb := vec2 (q_ 7 1) (- q_ 7 2).
Lemma xa_in : in_box lb2 ub2 xa.
Proof. by split; apply: forall2 => b [<-]; rewrite mxE /=; vm_compute. Qed.
Lemma xb_in : in_box lb2 ub2 xb.
Proof. by split; apply: forall2 => b [<-]; rewrite mxE /=; vm_compute. Qed.
Lemma xa_free : free_idx lb2 ub2 (0 + H2 *m xa) xa = [set 1].
Proof.
rewrite add0r /xa H2_mul; apply/setP => i; rewrite !inE; move: i.
by apply: forall2; rewrite ?v20 ?v21; vm_compute.
Qed.
Lemma xb_free : free_idx lb2 ub2 (0 + H2 *m xb) xb = [set 1].
Proof.
rewrite add0r /xb H2_mul; apply/setP => i; rewrite !inE; move: i.
by apply: forall2; rewrite ?v20 ?v21; vm_compute.
Qed.
Example C26_example : exists sol, qp_solve H2 0 lb2 ub2 p3 xa old2 = Some (sol, true) /\ sx sol = xb.
Proof.
have [s hs] := step_ok 0 lb2 ub2 xa H2_symm H2_posdef (lexx (0 : R)).
have [s' hs'] := step_ok 0 lb2 ub2 xb H2_symm H2_posdef (lexx (0 : R)).
have [eF eq h0 hd] := step_facts H2_symm hs; have [eF' eq' _ _] := step_facts H2_symm hs'.
rewrite xa_free in eF; rewrite xb_free in eF'.
have ed : p_dx s = vec2 0 (- q_ 7 2).
  have d0 : p_dx s 0 0 = 0 by rewrite h0 // eF inE.
  apply: vec2P => //; have h1 : 1 \in p_free s by rewrite eF inE.
  move/matrixP: hd => /(_ (enum_rank_in h1 1) 0).
  rewrite [LHS]mxE [in RHS]mxE [in RHS]mxE enum_rankK_in // add0r.
  rewrite /xa H2_mul mxE sum2 d0 !mxE /= mulr0 add0r mulr0 addr0 => h.
  have n0 : q_ 2 1 != 0 by vm_compute.
  apply: (mulfI n0); rewrite h; by apply/eqP; vm_compute.
have hg : p_g s = vec2 (q_ 14 1) (- q_ 7 1).
  apply: vec2P; rewrite (step_g0 H2_symm hs) eF !inE /= add0r /xa H2_mul mxE /=; by apply/eqP; vm_compute.
have hse : qp_search H2 0 lb2 ub2 (q_ 1 10) xa (p_dx s) (p_g s) (alphas p3) = xb.
  have e : xa + 1 *: p_dx s = xb.
    by rewrite scale1r ed vec2D /xb; congr vec2; apply/eqP; vm_compute.
  rewrite /= e (clip_id xb_in) ifT // hg /qp_cost !dot0l !addr0 /xa /xb !H2_mul !vec2N !vec2D !dot_vec2.
  by vm_compute.
have q1 : small (p_qf s) 0 = false.
  apply/negP => /(small_free H2_symm hs) /(_ 1); rewrite eF inE eqxx => /(_ isT).
  rewrite add0r /xa H2_mul mxE /=; by vm_compute.
have q0 : p_qf s' = 0.
  rewrite eq'; apply/matrixP => i j; rewrite (ord1 j) mxE.
  have : enum_val i \in [set 1] by rewrite -eF' enum_valP.
  rewrite inE => /eqP ->.
  rewrite add0r /xb H2_mul !mxE /=; by apply/eqP; vm_compute.
exists (@Solution R 2 xb (p_free s') (llt_solve (p_Hff s') 1%:M)); split=> //.
rewrite /qp_solve (clip_id xa_in) [maxiter p3]/= qp_loopS [reg p3]/= hs; cbv zeta.
rewrite [th_acceptstep p3]/= hse [th_grad p3]/= q1 qp_loopS [reg p3]/= hs'; cbv zeta.
by rewrite (step_dx0 hs' q0) search_zero ?q0 ?[th_grad p3]/= ?small0 //; exact: xb_in.
Qed.
(** ... so C26 applies to that run: xb is the constrained minimiser. *)
Example C26_example_kkt : kkt H2 0 lb2 ub2 xb.
Proof.
have [sol [h e]] := C26_example; rewrite -e.
apply: (C26_kkt_partial H2_symm box2_nonempty _ _ h); by [].
Qed.
(** C62: the same Hessian as Quu, controls at zero. *)
Example C62_example : exists k K Qu',
  box_gains p3 old2 H2 (vec2 1 1) (1%:M : 'M[R]_2) lb2 ub2 (vec2 1 0) 0 = Some (k, K, Qu').
Proof.
rewrite /box_gains.
match goal with |- context [qp_solve _ _ ?l ?u _ _ _] =>
  have [[sol b] h] := C24_returns (vec2 1 1) l u 0 old2 H2_symm H2_posdef (lexx (0 : R) : 0 <= reg p3) end.
by rewrite h; do 3!eexists.
Qed.

Print Assumptions C24_in_box.
Print Assumptions C24_returns.
Print Assumptions C25_zero_threshold_partial.
Print Assumptions C25_unclipped_partial.
Print Assumptions C25_refuted.
Print Assumptions C26_kkt_partial.
Print Assumptions C26_near_optimal_partial.
Print Assumptions C26_kkt_global.
Print Assumptions C26_regularized_refuted.
Print Assumptions C62_feedforward_in_limits.
Print Assumptions C62_clamped_free.
