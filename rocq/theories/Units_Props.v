(** C132: the search direction does not depend on the units.

    Specification: the derivatives in other units (Units_Model), and for every node the
    relation between what the backward pass stores in the two units. *)
From mathcomp Require Import all_ssreflect all_algebra.
From Verif Require Import RingTac LinAlg LinAlg_Proofs Riccati_Model Riccati_Spec Riccati_Proofs Units_Model.
Set Implicit Arguments.
Unset Strict Implicit.
Unset Printing Implicit Defensive.
Import Order.TTheory GRing.Theory Num.Theory.
Local Open Scope ring_scope.

Section Units.
Variables (R : realFieldType) (n : nat).
Notation half := (2%:R^-1 : R).
Variables (N : Type) (der : N -> stage R n) (gap : N -> 'cV[R]_n).

(** The same node in another unit of cost: same gains, values multiplied by [c]. *)
Definition rescaled (c : R) m (b b' : bnode R n m) : Prop :=
  [/\ kff b' = kff b, Kfb b' = Kfb b, Vx b' = c *: Vx b, Vxx b' = c *: Vxx b &
      Qu b' = c *: Qu b /\ Quuk b' = c *: Quuk b].

Fixpoint rescaled_all (c : R) (ns : seq N) :
    bnodes der ns -> bnodes (fun d => scale_stage c (der d)) ns -> Prop :=
  match ns with
  | [::] => fun _ _ => True
  | d :: ns' => fun b b' => rescaled c b.1 b'.1 /\ rescaled_all b.2 b'.2
  end.

(** The same node in another basis of the controls: the feedback law, written in the
    original controls, is the same; so are the values. *)
Definition rebased m (S : 'M[R]_m) (b b' : bnode R n m) : Prop :=
  [/\ S *m kff b' = kff b, S *m Kfb b' = Kfb b, Vx b' = Vx b & Vxx b' = Vxx b] /\
  Qu b' = S^T *m Qu b /\ Quuk b' = S^T *m Quuk b.

Variable S : forall d, 'M[R]_(nu (der d)).
Fixpoint rebased_all (ns : seq N) :
    bnodes der ns -> bnodes (fun d => basis_stage (S d)) ns -> Prop :=
  match ns with
  | [::] => fun _ _ => True
  | d :: ns' => fun b b' => rebased (S d) b.1 b'.1 /\ rebased_all b.2 b'.2
  end.

(** ** Lemmas *)
Lemma posdefZ m c (A : 'M[R]_m) : 0 < c -> posdef (c *: A) <-> posdef A.
Proof.
move=> hc; split=> h x hx; have := h x hx; rewrite -scalemxAl dotZr.
- by rewrite pmulr_rgt0.
- by move=> ?; rewrite pmulr_rgt0.
Qed.

Lemma symm_iff (a b : bool) : (a <-> b) -> a = b.
Proof. by case: a; case: b => // -[h1 h2]; [have := h1 isT|have := h2 isT]. Qed.

Lemma llt_okZ m c (A : 'M[R]_m) : 0 < c -> symm A -> llt_ok (c *: A) = llt_ok A.
Proof.
move=> hc sA; apply: symm_iff; rewrite (llt_okP (symmZ c sA)) (llt_okP sA); exact: posdefZ.
Qed.

Lemma solveZ m p c (A : 'M[R]_m) (B : 'M[R]_(m, p)) :
  c != 0 -> symm A -> A \in unitmx -> llt_solve (c *: A) (c *: B) = llt_solve A B.
Proof.
move=> hc sA uA; rewrite /llt_solve !lower_symE //; last exact: symmZ.
rewrite invmxZ; last by rewrite unitmxZ // unitfE.
by rewrite -scalemxAl -scalemxAr scalerA mulVf // scale1r.
Qed.

Lemma bstepZ c preg feas (s : stage R n) f v :
  0 < c -> symm v.2 -> symm (Luu s) ->
  match bstep preg feas s f v, bstep (c * preg) feas (scale_stage c s) f (c *: v.1, c *: v.2) with
  | Some b, Some b' => rescaled c b b'
  | None, None => True
  | _, _ => False
  end.
Proof.
move=> hc hv hL; rewrite /bstep /=.
set quu := Luu s + _ + _; set quu' := c *: Luu s + _ + _.
have c0 : c != 0 by rewrite gt_eqF.
have hq : symm quu.
  by apply: symmD; [apply: symmD => //; exact: symm_conj|exact: symm_scalar].
have eq : quu' = c *: quu.
  by rewrite /quu' /quu !scalerDr scale_scalar_mx -scalemxAr -scalemxAl.
rewrite eq llt_okZ //; case: ifP => // hok.
have uq : quu \in unitmx by apply: posdef_unit; apply/llt_okP.
have eu : c *: Lu s + (Fu s)^T *m (c *: v.1) = c *: (Lu s + (Fu s)^T *m v.1).
  by rewrite scalerDr -scalemxAr.
have exu : c *: Lxu s + (Fx s)^T *m (c *: v.2) *m Fu s = c *: (Lxu s + (Fx s)^T *m v.2 *m Fu s).
  by rewrite scalerDr -scalemxAr -scalemxAl.
have exx : c *: Lxx s + (Fx s)^T *m (c *: v.2) *m Fx s = c *: (Lxx s + (Fx s)^T *m v.2 *m Fx s).
  by rewrite scalerDr -scalemxAr -scalemxAl.
have ex : c *: Lx s + (Fx s)^T *m (c *: v.1) = c *: (Lx s + (Fx s)^T *m v.1).
  by rewrite scalerDr -scalemxAr.
rewrite eu exu exx ex.
have -> : (c *: (Lxu s + (Fx s)^T *m v.2 *m Fu s))^T = c *: (Lxu s + (Fx s)^T *m v.2 *m Fu s)^T.
  by rewrite linearZ.
rewrite !solveZ //.
set K := llt_solve quu (_^T); set k := llt_solve quu (Lu s + _).
set qx := Lx s + _; set qu := Lu s + _; set qxu := Lxu s + _; set qxx := Lxx s + _.
have e0 : c *: qxx - c *: qxu *m K = c *: (qxx - qxu *m K).
  by rewrite scalerBr -scalemxAl.
have eV : half *: (c *: qxx - c *: qxu *m K + (c *: qxx - c *: qxu *m K)^T) + (c * preg)%:M =
          c *: (half *: (qxx - qxu *m K + (qxx - qxu *m K)^T) + preg%:M).
  have et (A : 'M[R]_n) : (c *: A)^T = c *: A^T by rewrite linearZ.
  rewrite e0 et -scalerDr scalerA mulrC -scalerA.
  by rewrite [RHS]scalerDr scale_scalar_mx.
split=> //=; rewrite ?eV //.
- have e1 : c *: qx - K^T *m (c *: qu) = c *: (qx - K^T *m qu).
    by rewrite scalerBr -scalemxAr.
  by case: (feas); [exact: e1|rewrite e1 [RHS]scalerDr -scalemxAl].
- by split=> //; rewrite -scalemxAl.
Qed.

Lemma vtermZ c (preg : R) feas (T : terminal R n) (fT : 'cV[R]_n) :
  vterm (c * preg) feas (scale_term c T) fT =
  (c *: (vterm preg feas T fT).1, c *: (vterm preg feas T fT).2).
Proof.
rewrite /vterm /=.
have e : c *: TLxx T + (c * preg)%:M = c *: (TLxx T + preg%:M) :> 'M[R]_n.
  by rewrite scalerDr scale_scalar_mx.
by rewrite e; case: feas => //; congr (_, _); rewrite [RHS]scalerDr -scalemxAl.
Qed.

Lemma bpassZ c (preg : R) feas (T : terminal R n) (fT : 'cV[R]_n) ns : 0 < c -> symm (TLxx T) ->
  all_nodes (fun d => stage_symm (der d)) ns ->
  match bpass der gap preg feas T fT ns,
        bpass (fun d => scale_stage c (der d)) gap (c * preg) feas (scale_term c T) fT ns with
  | Some b, Some b' =>
      [/\ rescaled_all b b', symm (value (vterm preg feas T fT) b).2 &
          value (vterm (c * preg) feas (scale_term c T) fT) b' =
          (c *: (value (vterm preg feas T fT) b).1, c *: (value (vterm preg feas T fT) b).2)]
  | None, None => True
  | _, _ => False
  end.
Proof.
move=> hc hT; elim: ns => [_|d ns IH [[_ hL] hs]] /=.
  by split=> //; [apply: symmD => //; exact: symm_scalar|exact: vtermZ].
move: (IH hs).
case: (bpass der gap preg feas T fT ns) => [b|]; case: (bpass _ gap (c * preg) feas _ fT ns) => [b'|] //.
move=> [h1 h2 h3]; rewrite h3.
have := @bstepZ c preg feas (der d) (gap d) _ hc h2 hL.
case eb: (bstep preg feas (der d) (gap d) _) => [x|]; case: (bstep (c * preg) _ _ _ _) => [y|] //.
move=> hr; have [_ _ [sV _ _]] := bstep_facts h2 hL eb.
by case: (hr) => _ _ e1 e2 _; split=> //=; rewrite e1 e2.
Qed.

(** ** Unit of the cost *)

(** With every cost and the regularization multiplied by [c > 0], the backward pass
    succeeds on the same problems and stores the same gains at every node of every
    horizon; the values are multiplied by [c]. *)
Theorem C132_cost_partial c (preg : R) feas (T : terminal R n) (fT : 'cV[R]_n) ns : 0 < c -> symm (TLxx T) ->
  all_nodes (fun d => stage_symm (der d)) ns ->
  (bpass der gap preg feas T fT ns = None <->
   bpass (fun d => scale_stage c (der d)) gap (c * preg) feas (scale_term c T) fT ns = None) /\
  forall b b', bpass der gap preg feas T fT ns = Some b ->
    bpass (fun d => scale_stage c (der d)) gap (c * preg) feas (scale_term c T) fT ns = Some b' ->
    rescaled_all b b'.
Proof.
move=> hc hT hs; have := bpassZ preg feas fT hc hT hs.
case: (bpass der _ _ _ _ _ _) => [x|]; case: (bpass _ _ _ _ _ _ _) => [y|] //.
by move=> [h _ _]; split; [split|move=> b b' [<-] [<-]].
Qed.

Lemma ei_rescaled c ns (b : bnodes der ns) b' d : rescaled_all b b' ->
  @ei_ddp R n N (fun d => scale_stage c (der d)) (c * d.1, c * d.2) ns b' =
  (c * (ei_ddp d b).1, c * (ei_ddp d b).2).
Proof.
elim: ns b b' d => [//|e ns IH] /= b b' d [[ek eK _ _ [eq eqk]] h].
by rewrite ek eq eqk dotZl dotZr -(IH _ _ (_, _) h) /= mulrDr mulrBr.
Qed.

Lemma upd_rescaled c feas ns (b : bnodes der ns) b' d : rescaled_all b b' ->
  @upd_loop R n N (fun d => scale_stage c (der d)) gap feas (c * d.1, c * d.2) ns b' =
  (c * (upd_loop gap feas d b).1, c * (upd_loop gap feas d b).2).
Proof.
elim: ns b b' d => [//|e ns IH] /= b b' d [[ek eK eV eW [eq eqk]] h].
rewrite ek eq eqk eV eW -scalemxAl !dotZl !dotZr.
by case: feas IH => IH; rewrite -(IH _ _ (_, _) h) /= !mulrDr ?mulrBr ?mulrDr ?mulrN.
Qed.

(** The expected improvement of SolverDDP and of SolverFDDP and the stopping value are
    multiplied by [c]. *)
Theorem C132_improvement_partial c (preg : R) feas (T : terminal R n) (fT : 'cV[R]_n) ns b b' : 0 < c -> symm (TLxx T) ->
  all_nodes (fun d => stage_symm (der d)) ns ->
  bpass der gap preg feas T fT ns = Some b ->
  bpass (fun d => scale_stage c (der d)) gap (c * preg) feas (scale_term c T) fT ns = Some b' ->
  [/\ (ei_ddp (0, 0) b').1 = c * (ei_ddp (0, 0) b).1,
      (ei_ddp (0, 0) b').2 = c * (ei_ddp (0, 0) b).2,
      stopping (ei_ddp (0, 0) b') = c * stopping (ei_ddp (0, 0) b) &
      upd_fddp gap (c * preg) feas (scale_term c T) fT b' =
      (c * (upd_fddp gap preg feas T fT b).1, c * (upd_fddp gap preg feas T fT b).2)].
Proof.
move=> hc hT hs e e'; have [_ h] := C132_cost_partial preg feas fT hc hT hs.
have hr := h _ _ e e'.
have ei := ei_rescaled (0, 0) hr; rewrite /= mulr0 in ei.
split; rewrite ?ei //=.
- by rewrite /stopping /= mulrCA -mulrDr normrM (gtr0_norm hc).
- rewrite /upd_fddp vtermZ /= -(upd_rescaled _ _ hr).
  apply: (f_equal (fun z => upd_loop gap feas z b')); case: (feas) => /=; first by rewrite mulr0.
  by rewrite dotZl -scalemxAl dotZr mulrN.
Qed.

(** ** Basis of the controls *)
Lemma bstepS preg feas (s : stage R n) (M : 'M[R]_(nu s)) f v :
  preg = 0 -> M \in unitmx -> symm v.2 -> symm (Luu s) ->
  match bstep preg feas s f v, bstep preg feas (basis_stage M) f v with
  | Some b, Some b' => rebased M b b'
  | None, None => True
  | _, _ => False
  end.
Proof.
move=> -> uM hv hL; rewrite /bstep /=.
set quu := Luu s + _ + _; set quu' := M^T *m Luu s *m M + _ + _.
have hq : symm quu.
  by apply: symmD; [apply: symmD => //; exact: symm_conj|exact: symm_scalar].
have eq : quu' = M^T *m quu *m M.
  have z : (0 : R)%:M = 0 :> 'M[R]_(nu s) by rewrite -scalemx1 scale0r.
  by rewrite /quu' /quu z !addr0 trmx_mul mulmxDr mulmxDl !mulmxA.
have hq' : symm quu' by rewrite eq; exact: symm_conj.
have pp : posdef quu' <-> posdef quu.
  rewrite eq; split=> h x hx.
  - have hy : invmx M *m x != 0.
      by apply: contraNneq hx => e; rewrite -(mulKVmx uM x) e mulmx0.
    have := h _ hy.
    rewrite -!mulmxA mulKVmx // dot_adjr.
    by rewrite trmxK mulKVmx.
  - have hy : M *m x != 0.
      by apply: contraNneq hx => e; rewrite -(mulKmx uM x) e mulmx0.
    have := h _ hy.
    by rewrite -!mulmxA -[X in _ -> 0 < X]dot_adj.
have -> : llt_ok quu' = llt_ok quu.
  by apply: symm_iff; rewrite (llt_okP hq') (llt_okP hq).
case: ifP => // hok.
have uq : quu \in unitmx by apply: posdef_unit; apply/llt_okP.
have uMt : M^T \in unitmx by rewrite unitmx_tr.
have uq' : quu' \in unitmx by rewrite eq !unitmx_mul uMt uq uM.
have sol p (B : 'M[R]_(nu s, p)) : M *m llt_solve quu' (M^T *m B) = llt_solve quu B.
  rewrite /llt_solve !lower_symE //.
  have e : quu' *m (invmx quu' *m (M^T *m B)) = M^T *m B by rewrite mulKVmx.
  move: e; set X := invmx quu' *m _; rewrite eq -!mulmxA => /(congr1 (mulmx (invmx M^T))).
  by rewrite !mulKmx // => <-; rewrite mulKmx.
have eu : M^T *m Lu s + (Fu s *m M)^T *m v.1 = M^T *m (Lu s + (Fu s)^T *m v.1).
  by rewrite trmx_mul mulmxDr !mulmxA.
have exu : Lxu s *m M + (Fx s)^T *m v.2 *m (Fu s *m M) = (Lxu s + (Fx s)^T *m v.2 *m Fu s) *m M.
  by rewrite mulmxDl !mulmxA.
rewrite eu exu.
set qu := Lu s + _; set qxu := Lxu s + _; set qx := Lx s + _; set qxx := Lxx s + _.
have et : (qxu *m M)^T = M^T *m qxu^T by rewrite trmx_mul.
rewrite et.
set K' := llt_solve quu' (M^T *m qxu^T); set k' := llt_solve quu' (M^T *m qu).
have eK : M *m K' = llt_solve quu qxu^T by rewrite /K' sol.
have ek : M *m k' = llt_solve quu qu by rewrite /k' sol.
have e1 : qxu *m M *m K' = qxu *m llt_solve quu qxu^T by rewrite -mulmxA eK.
have e2 : K'^T *m (M^T *m qu) = (llt_solve quu qxu^T)^T *m qu.
  by rewrite mulmxA -trmx_mul eK.
rewrite /rebased /= e1 e2; split; first by split.
by split=> //; rewrite eq -!mulmxA ek.
Qed.

Lemma bpassS feas (T : terminal R n) (fT : 'cV[R]_n) ns : symm (TLxx T) ->
  all_nodes (fun d => stage_symm (der d)) ns ->
  all_nodes (fun d => S d \in unitmx : Prop) ns ->
  match bpass der gap 0 feas T fT ns,
        bpass (fun d => basis_stage (S d)) gap 0 feas T fT ns with
  | Some b, Some b' =>
      [/\ rebased_all b b', symm (value (vterm 0 feas T fT) b).2 &
          value (vterm 0 feas T fT) b' = value (vterm 0 feas T fT) b]
  | None, None => True
  | _, _ => False
  end.
Proof.
move=> hT; elim: ns => [_ _|d ns IH [[_ hL] hs] [uS hu]] /=.
  by split=> //; apply: symmD => //; exact: symm_scalar.
move: (IH hs hu).
case: (bpass der gap 0 feas T fT ns) => [b|]; case: (bpass _ gap 0 feas _ fT ns) => [b'|] //.
move=> [h1 h2 h3]; rewrite h3.
have := @bstepS 0 feas (der d) (S d) (gap d) _ erefl uS h2 hL.
case eb: (bstep 0 feas (der d) (gap d) _) => [x|]; case: (bstep 0 _ _ _ _) => [y|] //.
move=> hr; have [_ _ [sV _ _]] := bstep_facts h2 hL eb.
by case: (hr) => -[_ _ e1 e2] _; split=> //=; rewrite e1 e2.
Qed.

(** Without regularization, writing the controls of every node in another basis changes
    neither the success of the backward pass nor the feedback law, the value function or
    the expected improvement. *)
Theorem C132_basis_partial feas (T : terminal R n) (fT : 'cV[R]_n) ns : symm (TLxx T) ->
  all_nodes (fun d => stage_symm (der d)) ns ->
  all_nodes (fun d => S d \in unitmx : Prop) ns ->
  (bpass der gap 0 feas T fT ns = None <->
   bpass (fun d => basis_stage (S d)) gap 0 feas T fT ns = None) /\
  forall b b', bpass der gap 0 feas T fT ns = Some b ->
    bpass (fun d => basis_stage (S d)) gap 0 feas T fT ns = Some b' ->
    rebased_all b b' /\ ei_ddp (0, 0) b' = ei_ddp (0, 0) b.
Proof.
move=> hT hs hu; have := bpassS feas fT hT hs hu.
have ei d (b : bnodes der ns) b' : rebased_all b b' ->
  @ei_ddp R n N (fun d => basis_stage (S d)) d ns b' = ei_ddp d b.
  elim: (ns) b b' d => [//|e ns' IH] /= b b' d [[[ek eK _ _] [eq eqk]] h].
  rewrite eq eqk (IH _ _ _ h) -ek.
  by rewrite -(dot_adjr (S e)) [X in _ - X]dotC -(dot_adjr (S e)) [X in _ - X]dotC.
case: (bpass der _ _ _ _ _ _) => [x|]; case: (bpass _ _ _ _ _ _ _) => [y|] //.
by move=> [h _ _]; split; [split|move=> b b' [<-] [<-]; split=> //; exact: ei].
Qed.
End Units.

Print Assumptions C132_cost_partial.
Print Assumptions C132_improvement_partial.
Print Assumptions C132_basis_partial.
