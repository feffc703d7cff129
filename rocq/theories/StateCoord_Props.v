(** C136: the search direction does not depend on the coordinates of the state.

    Specification: the derivatives in other coordinates (StateCoord_Model), and for every
    node the relation between what the backward pass stores in the two coordinates. *)
From mathcomp Require Import all_ssreflect all_algebra.
From Verif Require Import RingTac LinAlg LinAlg_Proofs Riccati_Model Riccati_Spec Riccati_Proofs
  RiccatiLQ_Proofs Riccati_Props RiccatiWitness_Props StateCoord_Model.
Set Implicit Arguments.
Unset Strict Implicit.
Unset Printing Implicit Defensive.
Import Order.TTheory GRing.Theory Num.Theory.
Local Open Scope ring_scope.

Section Coord.
Variables (R : realFieldType) (n : nat).
Variables (N : Type) (der : N -> stage R n) (gap : N -> 'cV[R]_n) (T : 'M[R]_n).
Notation der' := (fun d => coord_stage T (der d)).
Notation gap' := (fun d => coord_vec T (gap d)).

(** The same node in other coordinates: same feed-forward, the gain composed with the
    change, gradient and Hessian of the value by the chain rule. *)
Definition recoord m (b b' : bnode R n m) : Prop :=
  [/\ kff b' = kff b, Kfb b' = Kfb b *m T, Vx b' = T^T *m Vx b, Vxx b' = T^T *m Vxx b *m T &
      Qu b' = Qu b /\ Quuk b' = Quuk b].

Fixpoint recoord_all (ns : seq N) : bnodes der ns -> bnodes der' ns -> Prop :=
  match ns with
  | [::] => fun _ _ => True
  | d :: ns' => fun b b' => recoord b.1 b'.1 /\ recoord_all b.2 b'.2
  end.

Hypothesis uT : T \in unitmx.

Lemma TTi : T^T *m (invmx T)^T = 1%:M.
Proof. by rewrite -trmx_mul mulVmx // trmx1. Qed.

Lemma iTTt : (invmx T)^T *m T^T = 1%:M.
Proof. by rewrite -trmx_mul mulmxV // trmx1. Qed.

Lemma reg_coord preg (V : 'M[R]_n) : preg *: (T^T *m T) = preg%:M ->
  T^T *m V *m T + preg%:M = T^T *m (V + preg%:M) *m T.
Proof. by move=> h; rewrite mulmxDr mulmxDl mul_mx_scalar -scalemxAl h. Qed.

Lemma bstepC preg feas s f v : preg *: (T^T *m T) = preg%:M ->
  match bstep preg feas s f v,
        bstep preg feas (coord_stage T s) (coord_vec T f) (T^T *m v.1, T^T *m v.2 *m T) with
  | Some b, Some b' => recoord b b'
  | None, None => True
  | _, _ => False
  end.
Proof.
move=> hp; rewrite /bstep /=.
have cancel p (A : 'M[R]_(n, p)) : (invmx T *m A)^T *m T^T = A^T.
  by rewrite trmx_mul -mulmxA iTTt mulmx1.
have e1 : (invmx T *m Fu s)^T *m (T^T *m v.1) = (Fu s)^T *m v.1 by rewrite mulmxA cancel.
have e2 p (A : 'M[R]_(n, p)) : T^T *m v.2 *m T *m (invmx T *m A) = T^T *m v.2 *m A.
  by rewrite -!mulmxA mulKVmx.
have e3 : (invmx T *m Fu s)^T *m (T^T *m v.2 *m T) *m (invmx T *m Fu s) = (Fu s)^T *m v.2 *m Fu s.
  by rewrite -mulmxA e2 -!mulmxA [LHS]mulmxA cancel.
have e4 : (invmx T *m Fx s *m T)^T *m (T^T *m v.2 *m T) *m (invmx T *m Fu s)
          = T^T *m ((Fx s)^T *m v.2 *m Fu s).
  by rewrite -mulmxA e2 trmx_mul -!mulmxA; congr (_ *m _); rewrite [LHS]mulmxA cancel.
have e5 : (invmx T *m Fx s *m T)^T *m (T^T *m v.2 *m T) *m (invmx T *m Fx s *m T)
          = T^T *m ((Fx s)^T *m v.2 *m Fx s) *m T.
  rewrite -[invmx T *m Fx s *m T]mulmxA -mulmxA e2 mulmxA trmx_mul -!mulmxA.
  by congr (_ *m _); rewrite [LHS]mulmxA cancel.
have e6 : (invmx T *m Fx s *m T)^T *m (T^T *m v.1) = T^T *m ((Fx s)^T *m v.1).
  by rewrite trmx_mul -!mulmxA; congr (_ *m _); rewrite mulmxA cancel.
rewrite e1 e3 e4 e5 e6 -mulmxDl -!mulmxDr.
case: ifP => // _.
set quu := Luu s + _ + _; set qu := Lu s + _; set qxu := Lxu s + _.
set qx := Lx s + _; set qxx := Lxx s + _.
have eK : llt_solve quu (T^T *m qxu)^T = llt_solve quu qxu^T *m T.
  by rewrite /llt_solve trmx_mul trmxK mulmxA.
rewrite eK; set K := llt_solve quu qxu^T.
have ex : T^T *m qx - (K *m T)^T *m qu = T^T *m (qx - K^T *m qu).
  by rewrite trmx_mul mulmxBr mulmxA.
have exx : T^T *m qxx *m T - T^T *m qxu *m (K *m T) = T^T *m (qxx - qxu *m K) *m T.
  by rewrite mulmxBr mulmxBl !mulmxA.
have et (A : 'M[R]_n) : (T^T *m A *m T)^T = T^T *m A^T *m T.
  by rewrite !trmx_mul trmxK !mulmxA.
rewrite ex exx et; set W := qxx - qxu *m K.
have eW : 2%:R^-1 *: (T^T *m W *m T + T^T *m W^T *m T) + preg%:M
          = T^T *m (2%:R^-1 *: (W + W^T) + preg%:M) *m T.
  rewrite -reg_coord //; congr (_ + _).
  by rewrite -mulmxDl -mulmxDr -scalemxAr -scalemxAl.
rewrite eW /recoord /=; split=> //.
case: feas => //.
set V := _ + preg%:M; set w := qx - _.
by rewrite /coord_vec [RHS]mulmxDr; congr (_ + _); rewrite -!mulmxA mulKVmx.
Qed.

Lemma vtermC preg feas (W : terminal R n) fT : preg *: (T^T *m T) = preg%:M ->
  vterm preg feas (coord_term T W) (coord_vec T fT) =
  (T^T *m (vterm preg feas W fT).1, T^T *m (vterm preg feas W fT).2 *m T).
Proof.
move=> hp; rewrite /vterm /= reg_coord //; congr (_, _).
by case: feas => //; rewrite /coord_vec -!mulmxA mulKVmx // mulmxDr.
Qed.

Lemma bpassC preg feas (W : terminal R n) fT ns : preg *: (T^T *m T) = preg%:M ->
  match bpass der gap preg feas W fT ns,
        bpass der' gap' preg feas (coord_term T W) (coord_vec T fT) ns with
  | Some b, Some b' => recoord_all b b'
  | None, None => True
  | _, _ => False
  end.
Proof.
move=> hp; elim: ns => //= d ns.
case: (bpass der gap preg feas W fT ns) => [b|];
  case: (bpass der' gap' preg feas _ _ ns) => [b'|] // h.
have hv : value (vterm preg feas (coord_term T W) (coord_vec T fT)) b' =
  (T^T *m (value (vterm preg feas W fT) b).1, T^T *m (value (vterm preg feas W fT) b).2 *m T).
  case: (ns) b b' h => [|e ns'] /= b b'; first by move=> _; exact: vtermC.
  by case=> -[_ _ -> -> _] _.
rewrite hv.
have := @bstepC preg feas (der d) (gap d) (value (vterm preg feas W fT) b) hp.
case: (bstep _ _ (der d) _ _) => [x|]; case: (bstep _ _ _ _ _) => [y|] //.
Qed.

Lemma dotC1 (a b : 'cV[R]_n) : dot (T^T *m a) (coord_vec T b) = dot a b.
Proof. by rewrite /coord_vec dot_adj trmxK mulKVmx. Qed.

Lemma dotC2 (V : 'M[R]_n) (a b : 'cV[R]_n) :
  dot (coord_vec T a) (T^T *m V *m T *m coord_vec T b) = dot a (V *m b).
Proof.
have e : T^T *m V *m T *m coord_vec T b = T^T *m (V *m b).
  by rewrite /coord_vec -!mulmxA mulKVmx.
by rewrite e dotC dotC1 dotC.
Qed.

(** When the change of coordinates is orthogonal, or without regularization, the backward
    pass fails for the same problems, and the feedback law, the value function, and the
    expected improvements of both solvers describe the same direction. *)
Theorem C136_coord_partial preg feas (W : terminal R n) fT ns :
  preg = 0 \/ T^T *m T = 1%:M ->
  (bpass der gap preg feas W fT ns = None <->
   bpass der' gap' preg feas (coord_term T W) (coord_vec T fT) ns = None) /\
  forall b b', bpass der gap preg feas W fT ns = Some b ->
    bpass der' gap' preg feas (coord_term T W) (coord_vec T fT) ns = Some b' ->
    [/\ recoord_all b b', ei_ddp (0, 0) b' = ei_ddp (0, 0) b,
        upd_fddp gap' preg feas (coord_term T W) (coord_vec T fT) b' = upd_fddp gap preg feas W fT b &
        forall dxs dxT, size dxs = size ns ->
          ei_fddp gap' preg feas (coord_term T W) (coord_vec T fT) b' (map (coord_vec T) dxs) (coord_vec T dxT)
          = ei_fddp gap preg feas W fT b dxs dxT].
Proof.
move=> hp0.
have hp : preg *: (T^T *m T) = preg%:M.
  by case: hp0 => [->|->]; [rewrite scale0r raddf0|rewrite scalemx1].
have h := @bpassC preg feas W fT ns hp.
have e1 d (b : bnodes der ns) (b' : bnodes der' ns) : recoord_all b b' -> ei_ddp d b' = ei_ddp d b.
  elim: (ns) b b' d => [//|e ns' IH] /= b b' d [[ek _ _ _ [eq eqk]] hr].
  by rewrite ek eq eqk (IH _ _ _ hr).
have e2 d (b : bnodes der ns) (b' : bnodes der' ns) : recoord_all b b' ->
    upd_loop gap' feas d b' = upd_loop gap feas d b.
  elim: (ns) b b' d => [//|e ns' IH] /= b b' d [[ek _ ev evv [eq eqk]] hr].
  by rewrite ek eq eqk (IH _ _ _ hr) ev evv dotC1 dotC2.
have e3 d (b : bnodes der ns) (b' : bnodes der' ns) dxs : recoord_all b b' -> size dxs = size ns ->
    dv_loop gap' d b' (map (coord_vec T) dxs) = dv_loop gap d b dxs.
  elim: (ns) b b' d dxs => [//|e ns' IH] /= b b' d [//|y dxs] [[_ _ _ evv _] hr] [hs] /=.
  by rewrite evv dotC2 (IH _ _ _ _ hr hs).
move: h; case: (bpass der _ _ _ _ _ _) => [x|]; case: (bpass der' _ _ _ _ _ _) => [y|] // h.
split; first by split.
move=> b b' [<-] [<-].
have eu : upd_fddp gap' preg feas (coord_term T W) (coord_vec T fT) y = upd_fddp gap preg feas W fT x.
  by rewrite /upd_fddp vtermC //= dotC1 dotC2 (e2 _ _ _ h).
split=> //; first exact: e1.
move=> dxs dxT hs; rewrite /ei_fddp eu vtermC //= dotC2.
by rewrite (e3 _ _ _ _ h hs).
Qed.
End Coord.

(** The regularization is an absolute number in the coordinates used: doubling the unit of
    the state changes the direction. *)
Definition cst : stage Q 1 := @Stage Q 1 1 1%:M 1%:M 0 0 0 0 1%:M.
Definition cT : terminal Q 1 := Terminal (v1 1) 0.

Lemma csym0 : symm (0 : 'M[Q]_1).
Proof. by rewrite /symm trmx0. Qed.

Lemma cst_pass (s : stage Q 1) (W : terminal Q 1) q (x : 'cV[Q]_1) :
  symm (Luu s) -> TLxx W = 0 -> 0 < q ->
  Luu s + (Fu s)^T *m Fu s + 1%:M = q%:M -> 
  exists b, bpass (fun _ : unit => s) (fun _ => 0) 1 true W x [:: tt] = Some (b, tt) /\
            q *: kff b = Lu s + (Fu s)^T *m TLx W.
Proof.
move=> sL eT hq e.
have sv : symm (vterm (1 : Q) true W x).2.
  by rewrite /= eT; apply: symmD; [exact: csym0|exact: symm_scalar].
have eq : Luu s + (Fu s)^T *m (vterm (1 : Q) true W x).2 *m Fu s + 1%:M = q%:M.
  by rewrite /= eT add0r mulmx1.
have pq : posdef (Luu s + (Fu s)^T *m (vterm (1 : Q) true W x).2 *m Fu s + 1%:M).
  by rewrite eq => y hy; rewrite mul_scalar_mx dotZr mulr_gt0 // dot_gt0.
case: (@bstep_ok Q 1 1 true s 0 _ sv sL pq) => b hb.
exists b; split; first by rewrite /= hb.
case: (bstep_facts sv sL hb) => -[_ _ hk _ _] [_ e2 _ _ e5] _.
by move: hk; rewrite e5 e2 eq mul_scalar_mx.
Qed.

Theorem C136_coord_refuted :
  exists (s : stage Q 1) (T : 'M[Q]_1) (W : terminal Q 1) (preg : rat) b b',
    [/\ 0 < preg, symm (TLxx W) /\ stage_symm s, T \in unitmx,
        bpass (fun _ : unit => s) (fun _ => 0) preg true W 0 [:: tt] = Some b /\
        bpass (fun _ : unit => coord_stage T s) (fun _ => 0) preg true (coord_term T W) 0 [:: tt] = Some b' &
        kff b'.1 <> kff b.1].
Proof.
pose T : 'M[Q]_1 := 2%:R%:M.
have iT : invmx T = 2%:R^-1%:M by rewrite invmx_scalar.
have h1 : Luu cst + (Fu cst)^T *m Fu cst + 1%:M = 3%:R%:M.
  by rewrite /= tr_scalar_mx mul_scalar_mx scale1r -!raddfD.
have h2 : Luu (coord_stage T cst) + (Fu (coord_stage T cst))^T *m Fu (coord_stage T cst) + 1%:M
          = (9%:R / 4%:R)%:M.
  by rewrite /= iT mul_scalar_mx scalemx1 tr_scalar_mx mul_scalar_mx scale_scalar_mx -!raddfD.
have z : TLxx (coord_term T cT) = 0 by rewrite /= mulmx0 mul0mx.
have [b [hb kb]] := @cst_pass cst cT 3%:R 0 (symm_scalar _ _) erefl isT h1.
have [b' [hb' kb']] := @cst_pass (coord_stage T cst) (coord_term T cT) (9%:R / 4%:R) 0
  (symm_scalar _ _) z isT h2.
exists cst, T, cT, 1, (b, tt), (b', tt); split=> //.
- by split; [exact: csym0|split; [exact: csym0|exact: symm_scalar]].
- by rewrite unitmxE det_scalar expr1 unitfE.
move=> /= e; move: kb'; rewrite e /= iT.
have -> : (9%:R / 4%:R : rat) = 3%:R / 4%:R * 3%:R by [].
rewrite -scalerA kb /= => /(congr1 (fun M : 'cV[rat]_1 => M 0 0)).
rewrite mul_scalar_mx scalemx1 !tr_scalar_mx !mul_scalar_mx !v1Z !add0r v1Z.
by rewrite !mxE.
Qed.

(** A problem meeting the hypotheses: horizon 2 with a gap, without regularization and
    coordinates of half the size, or with regularization and reversed coordinates. *)
Example C136_ex :
  ((2%:R%:M : 'M[Q]_1) \in unitmx) /\ ((- 1%:M : 'M[Q]_1) \in unitmx) /\
  (- 1%:M : 'M[Q]_1)^T *m - 1%:M = 1%:M /\
  (exists bs, bpass (@cder Q 1) (@cf Q 1) 1 false (lq_tdiff sT (v1 0)) (v1 0) guess = Some bs) /\
  (exists bs, bpass (@cder Q 1) (@cf Q 1) 0 false (lq_tdiff sT (v1 0)) (v1 0) guess = Some bs).
Proof.
split; first by rewrite unitmxE det_scalar expr1 unitfE.
split; first by rewrite -raddfN unitmxE det_scalar expr1 unitfE.
split; first by rewrite -raddfN tr_scalar_mx -scalar_mxM mulrNN mul1r.
split; first by case: C22_C23_instance => _ [_ [_ h]].
by case: C20_instance => _ [_ [bs [h _]]]; exists bs.
Qed.

Print Assumptions C136_coord_partial.
Print Assumptions C136_coord_refuted.
