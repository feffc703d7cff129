(** C20-C23. *)
From mathcomp Require Import all_ssreflect all_algebra.
From Verif Require Import RingTac LinAlg LinAlg_Proofs Riccati_Model Riccati_Spec Riccati_Proofs RiccatiLQ_Proofs.
Set Implicit Arguments.
Unset Strict Implicit.
Unset Printing Implicit Defensive.
Import Order.TTheory GRing.Theory Num.Theory.
Local Open Scope ring_scope.

Section Props.
Variables (R : realFieldType) (n : nat).
Add Field RF : (rft R).
Notation half := (2%:R^-1 : R).

Lemma no_gaps_sums vT fT ns (bs : bnodes (@cder R n) ns) : no_gaps ns fT ->
  svx vT fT bs = 0 /\ sfv vT fT bs = 0.
Proof.
case=> h ->; elim: ns bs h => [|d ns IH] bs /=; first by rewrite dot0r dot0l.
case=> -> h; case: (IH bs.2 h) => -> ->; by rewrite dot0r dot0l !addr0.
Qed.

Lemma lq_stored (T : lqterm R n) xT feas fT ns bs : lq_symm T ns ->
  bpass (@cder R n) (@cf R n) 0 feas (lq_tdiff T xT) fT ns = Some bs ->
  all_stored (@stored_ok R n) bs.
Proof. by move=> hs hb; apply: stored_gains hb; [case: hs|exact: lq_nodes_symm hs]. Qed.

(** * C20 *)
(** The full step of an LQ problem from any candidate (with or without gaps) is a rollout
    from x0 whose cost is at most that of every control sequence; it is the only minimiser. *)
Theorem C20_full_step_optimal (feas : bool) (T : lqterm R n) x0 xT fT ns bs :
  lq_symm T ns -> gaps_of x0 ns xT fT -> (feas -> no_gaps ns fT) ->
  bpass (@cder R n) (@cf R n) 0 feas (lq_tdiff T xT) fT ns = Some bs ->
  let '(xs, xend, us, cost) := lq_forward 1 true T fT x0 0 bs in
  [/\ (xs, xend) = roll_states x0 us, cost = roll_cost T x0 us,
      forall ws : ctrls ns, cost <= roll_cost T x0 ws &
      forall ws : ctrls ns, roll_cost T x0 ws = cost -> ws = us].
Proof.
move=> hs hg hf hb; have hst := lq_stored hs hb.
case e: lq_forward => [[[xs xend] us] cost].
have hc := forward_cost 1 true T fT x0 0 bs; have hx := forward_states 1 T fT x0 0 bs.
have hr := @forward_rest R n 1 (vterm 0 feas (lq_tdiff T xT) fT) T xT fT ns x0 0 bs.
rewrite e /= in hc hx hr; rewrite add0r in hc.
have k1 ws := key hs hg hf hb 0 x0 ws; rewrite /= in k1.
have k2 ws : roll_cost T x0 ws =
    cbase T (vterm 0 feas (lq_tdiff T xT) fT) xT fT bs + rest 0 (vterm 0 feas (lq_tdiff T xT) fT) xT fT x0 bs ws.
  by rewrite -(gcost0 T fT) k1 subrr dot0r dot0l mulr0 !addr0.
have hc' : cost = cbase T (vterm 0 feas (lq_tdiff T xT) fT) xT fT bs.
  by rewrite hc gcost0 k2 hr subrr expr0n mulr0 mul0r addr0.
split=> //.
- by rewrite hc gcost0.
- by move=> ws; rewrite k2 hc' ler_addl rest_ge0.
- move=> ws; rewrite k2 hc' => /eqP; rewrite -subr_eq0 addrC addKr => /eqP h0.
  by rewrite (@rest_eq0 R n 1 T _ _ _ _ erefl x0 0 bs ws hst h0) e.
Qed.

(** Convex LQ problems meet the hypothesis: positive definite control weights and
    positive semidefinite stage Hessians. *)
Definition convex_lq (T : lqterm R n) (ns : seq (cnode R n)) : Prop :=
  psd (tQ T) /\
  all_nodes (fun d => posdef (lR (cl d)) /\ stage_psd (cder d)) ns.
Theorem C20_convex_solvable feas (T : lqterm R n) xT fT ns : lq_symm T ns -> convex_lq T ns ->
  exists bs, bpass (@cder R n) (@cf R n) 0 feas (lq_tdiff T xT) fT ns = Some bs.
Proof.
move=> [hT hs] [pT hp]; apply: bpass_succeeds => //.
  by elim: ns hs hp => //= d ns IH [[_ ?] h] [[_ ?] h']; split=> //; exact: IH.
by right; elim: ns hs hp => //= d ns IH [_ h] [[? _] h']; split=> //; exact: IH.
Qed.

(** The iteration after the full step finds nothing left to do: the backward pass
    succeeds, and its expected improvement and stopping criterion are zero. *)
Fixpoint back (ns : seq (cnode R n)) : forall x (us : ctrls ns), ctrls (recandidate x us) -> ctrls ns :=
  match ns with
  | [::] => fun _ _ _ => tt
  | d :: ns' => fun x us ws => (ws.1, back ws.2)
  end.
Lemma back_cost (T : lqterm R n) ns : forall x (us : ctrls ns) z (ws : ctrls (recandidate x us)),
  roll_cost T z ws = roll_cost T z (back ws).
Proof. by elim: ns => [|d ns IH] x us z ws //=; rewrite IH. Qed.
Lemma recandidate_cost (T : lqterm R n) ns : forall x (us : ctrls ns),
  cand_cost T (recandidate x us) (roll_states x us).2 = roll_cost T x us.
Proof. by elim: ns => [|d ns IH] x us //=; rewrite IH. Qed.
Lemma recandidate_gaps (ns : seq (cnode R n)) : forall x (us : ctrls ns),
  gaps_of x (recandidate x us) (roll_states x us).2 0 /\ no_gaps (recandidate x us) 0.
Proof.
elim: ns => [|d ns IH] x us /=; first by rewrite subrr.
by case: (IH (lq_next x us.1) us.2) => h1 [h2 _]; rewrite subrr; do !split.
Qed.
Lemma recandidate_symm (T : lqterm R n) ns : forall x (us : ctrls ns), lq_symm T ns -> lq_symm T (recandidate x us).
Proof.
move=> x us [hT h]; split=> //.
by elim: ns x us h => [|d ns IH] x us //= [? h]; split=> //; exact: IH.
Qed.
Lemma recandidate_bpass feas feas' (T : lqterm R n) xT xT' fT fT' ns : lq_symm T ns ->
  forall x (us : ctrls ns) bs,
  bpass (@cder R n) (@cf R n) 0 feas (lq_tdiff T xT) fT ns = Some bs ->
  exists bs', bpass (@cder R n) (@cf R n) 0 feas' (lq_tdiff T xT') fT' (recandidate x us) = Some bs' /\
    (value (vterm 0 feas' (lq_tdiff T xT') fT') bs').2 = (value (vterm 0 feas (lq_tdiff T xT) fT) bs).2.
Proof.
elim: ns => [|d ns IH] hs x us bs hb; first by exists tt.
have hs' : lq_symm T ns by case: hs => ? [].
case: (bpass_cons hb) => h1 h2; case: (IH hs' (lq_next x us.1) us.2 _ h1) => bs' [hb' ev] /=.
rewrite hb'; move: h2; rewrite /bstep /= ev; case: ifP => // _ [eb].
by eexists; split; first reflexivity; rewrite /= -eb.
Qed.

Theorem C20_then_converged (feas : bool) (T : lqterm R n) x0 xT fT ns bs :
  lq_symm T ns -> gaps_of x0 ns xT fT -> (feas -> no_gaps ns fT) ->
  bpass (@cder R n) (@cf R n) 0 feas (lq_tdiff T xT) fT ns = Some bs ->
  let '(xs, xend, us, cost) := lq_forward 1 true T fT x0 0 bs in
  exists bs', bpass (@cder R n) (@cf R n) 0 true (lq_tdiff T xend) 0 (recandidate x0 us) = Some bs' /\
    ei_ddp (0, 0) bs' = (0, 0) /\ stopping (ei_ddp (0, 0) bs') = 0.
Proof.
move=> hs hg hf hb; have := C20_full_step_optimal hs hg hf hb.
case e: lq_forward => [[[xs xend] us] cost] [hx hc hmin _].
case: (@recandidate_bpass feas true T xT xend fT 0 ns hs x0 us bs hb) => bs' [hb' _].
exists bs'; split=> //.
have ex : xend = (roll_states x0 us).2 by rewrite -hx.
have hs' := recandidate_symm x0 us hs.
have [hg' hn'] := recandidate_gaps x0 us; rewrite -ex in hg'.
have hst := lq_stored hs' hb'.
have := C20_full_step_optimal hs' hg' (fun _ => hn') hb'.
case e': lq_forward => [[[xs' xend'] us'] cost'] [_ hc' hmin' _].
have hr := @forward_rest R n 1 (vterm 0 true (lq_tdiff T xend) 0) T xend 0 _ x0 0 bs'.
rewrite e' /= in hr.
have kk := key hs' hg' (fun _ => hn') hb' 0 x0 us'; rewrite /= gcost0 -hc' in kk.
rewrite subrr dot0r dot0l mulr0 !addr0 hr subrr expr0n mulr0 mul0r addr0 in kk.
have cb := cand_base T (vterm 0 true (lq_tdiff T xend) 0) xend 0 bs'.
case: (no_gaps_sums (vterm 0 true (lq_tdiff T xend) 0) bs' hn') => e1 e2.
have cc : cand_cost T (recandidate x0 us) xend = cost by rewrite ex recandidate_cost hc.
rewrite e1 e2 mulr0 subr0 addr0 cc -kk in cb.
have le : cost <= cost' by rewrite hc' back_cost; exact: hmin.
have q0 := qsum_ge0 hst.
have qz : qsum bs' = 0.
  apply/eqP; rewrite eq_le q0 andbT.
  move: le; rewrite cb ger_addl pmulr_rle0 // invr_gt0 ltr0n //.
have ez : ei_ddp (0, 0) bs' = (0, 0) by rewrite ei_ddp_sum // qz subr0 addr0.
by rewrite ez /stopping /= mulr0 addr0 normr0.
Qed.

(** * C21 *)
(** Feasible candidate: exact for every step length, for DDP and FDDP alike. *)
Theorem C21_ddp_exact a (T : lqterm R n) x0 xT ns bs :
  lq_symm T ns -> gaps_of x0 ns xT 0 -> no_gaps ns 0 ->
  bpass (@cder R n) (@cf R n) 0 true (lq_tdiff T xT) 0 ns = Some bs ->
  let d := ei_ddp (0, 0) bs in
  cand_cost T ns xT - (lq_forward a true T 0 x0 0 bs).2 = a * d.1 + half * a ^+ 2 * d.2.
Proof.
move=> hs hg hn hb d; have hst := lq_stored hs hb.
have hc := forward_cost a true T 0 x0 0 bs.
have hr := @forward_rest R n a (vterm 0 true (lq_tdiff T xT) 0) T xT 0 ns x0 0 bs.
set r := lq_forward _ _ _ _ _ _ _ in hc hr *.
have kk := key hs hg (fun _ => hn) hb 0 x0 r.1.2.
rewrite /= subrr dot0r dot0l mulr0 !addr0 in kk.
have cb := cand_base T (vterm 0 true (lq_tdiff T xT) 0) xT 0 bs.
case: (no_gaps_sums (vterm 0 true (lq_tdiff T xT) 0) bs hn) => e1 e2.
rewrite e1 e2 mulr0 subr0 addr0 in cb.
rewrite /= in hc hr; rewrite hc add0r kk cb hr /d ei_ddp_sum //=; fld R.
Qed.
Theorem C21_fddp_feasible ns (bs : bnodes (@cder R n) ns) preg T fT dxs dxT :
  ei_fddp (@cf R n) preg true T fT bs dxs dxT = ei_ddp (0, 0) bs.
Proof. by rewrite /ei_fddp /upd_fddp upd_feasible mulr0 subr0 addr0 -surjective_pairing. Qed.

(** FDDP with gaps: [trial] is the forward pass with step [a] and the prediction uses its
    states, as in the line search. *)
Definition trial_diffs (ns : seq (cnode R n)) (ys : seq 'cV[R]_n) : seq 'cV[R]_n :=
  [seq p.1 - p.2 | p <- zip (map (@cx R n) ns) ys].
Lemma fddp_sums (T : lqterm R n) xT fT ns bs ys yT : lq_symm T ns -> size ys = size ns ->
  bpass (@cder R n) (@cf R n) 0 false (lq_tdiff T xT) fT ns = Some bs ->
  let vT := vterm 0 false (lq_tdiff T xT) fT in
  ei_fddp (@cf R n) 0 false (lq_tdiff T xT) fT bs (trial_diffs ns ys) (xT - yT) =
  (qsum bs - svx vT fT bs + sdx vT xT fT bs ys yT,
   - qsum bs + sfv vT fT bs - 2%:R * sdx vT xT fT bs ys yT).
Proof.
move=> hs hsz hb vT; have hst := lq_stored hs hb.
have e2 := @dv_sum R n vT xT fT ns 0 bs ys yT _ hsz erefl.
rewrite /ei_fddp /upd_fddp -/vT -[- dot fT (vT.2 *m (xT - yT))]add0r e2 add0r.
by rewrite (upd_sum vT fT) //=; congr pair; rng R.
Qed.

(** The exact error of the prediction: [(1 - a)^2] times the term [dv] of
    expectedImprovement; none for the full step. *)
Theorem C21_fddp_error_partial a (T : lqterm R n) x0 xT fT ns bs :
  lq_symm T ns -> gaps_of x0 ns xT fT ->
  bpass (@cder R n) (@cf R n) 0 false (lq_tdiff T xT) fT ns = Some bs ->
  let r := lq_forward a (a == 1) T fT x0 0 bs in
  let dxs := trial_diffs ns r.1.1.1 in
  let dxT := xT - r.1.1.2 in
  let d := ei_fddp (@cf R n) 0 false (lq_tdiff T xT) fT bs dxs dxT in
  let dv := dv_loop (@cf R n) (- dot fT (tQ T *m dxT)) bs dxs in
  cand_cost T ns xT - r.2 = a * d.1 + half * a ^+ 2 * d.2 + (1 - a) ^+ 2 * dv.
Proof.
move=> hs hg hb r dxs dxT d dv; have hst := lq_stored hs hb.
set vT := vterm 0 false (lq_tdiff T xT) fT.
have cb := cand_base T vT xT fT bs.
have hf : false -> no_gaps ns fT by [].
have hsz : size r.1.1.1 = size ns by exact: forward_size.
have ed : d = _ := fddp_sums r.1.1.2 hs hsz hb.
have edv : dv = sdx vT xT fT bs r.1.1.1 r.1.1.2.
  have ev : vT.2 = tQ T by rewrite /vT /= raddf0 addr0.
  have e2 := @dv_sum R n vT xT fT ns 0 bs r.1.1.1 r.1.1.2 _ hsz erefl.
  by rewrite /dv /dxs /trial_diffs /dxT -ev -[- dot fT _]add0r e2 add0r.
have kk := key hs hg hf hb (if a == 1 then 0 else a - 1) x0 r.1.2.
rewrite /= subrr dot0r dot0l mulr0 !addr0 -/vT in kk.
have hc := forward_cost a (a == 1) T fT x0 0 bs; rewrite -/r /= add0r in hc.
rewrite hc kk cb ed edv /=; clear hc kk cb ed edv dv d.
case: (altP (a =P 1)) => ha.
  have -> : rest 0 vT xT fT x0 bs r.1.2 = half * (1 - a) ^+ 2 * qsum bs.
    by rewrite /r ha eqxx; exact: forward_rest.
  by rewrite ha -/vT; fld R.
have hr := @forward_rest_gaps R n a vT T xT fT ns x0 0 bs.
rewrite /r (negbTE ha) /= in hr *; rewrite hr; fld R.
Qed.
Theorem C21_fddp_full_step (T : lqterm R n) x0 xT fT ns bs :
  lq_symm T ns -> gaps_of x0 ns xT fT ->
  bpass (@cder R n) (@cf R n) 0 false (lq_tdiff T xT) fT ns = Some bs ->
  let r := lq_forward 1 true T fT x0 0 bs in
  let d := ei_fddp (@cf R n) 0 false (lq_tdiff T xT) fT bs (trial_diffs ns r.1.1.1) (xT - r.1.1.2) in
  cand_cost T ns xT - r.2 = d.1 + half * d.2.
Proof.
move=> hs hg hb r d.
have := C21_fddp_error_partial 1 hs hg hb; rewrite eqxx -/r /= -/d => ->.
by rng R.
Qed.

(** * C22 *)
Theorem C22_symmetric (N : Type) (der : N -> stage R n) (gap : N -> 'cV[R]_n) preg feas T fT ns bs :
  symm (TLxx T) -> all_nodes (fun d => stage_symm (der d)) ns ->
  bpass der gap preg feas T fT ns = Some bs ->
  all_stored (fun m (b : bnode R n m) => [/\ symm (Vxx b), symm (Quu b) & posdef (Quu b)]) bs.
Proof.
move=> hT hs; apply: stored_symm => //.
by elim: ns hs {bs} => //= d ns IH [[_ ?] ?]; split=> //; exact: IH.
Qed.
Theorem C22_semidefinite (N : Type) (der : N -> stage R n) (gap : N -> 'cV[R]_n) preg feas T fT ns bs :
  0 <= preg -> symm (TLxx T) -> psd (TLxx T) ->
  all_nodes (fun d => stage_symm (der d) /\ stage_psd (der d)) ns ->
  bpass der gap preg feas T fT ns = Some bs ->
  all_stored (fun m (b : bnode R n m) => psd (Vxx b)) bs.
Proof.
move=> hp hT pT hs; apply: stored_psd => //.
by elim: ns hs {bs} => //= d ns IH [[[_ ?] ?] ?]; split=> //; exact: IH.
Qed.
(** With a positive regularization (or positive definite Luu) convex data never make the
    factorisation fail. *)
Theorem C22_convex_succeeds (N : Type) (der : N -> stage R n) (gap : N -> 'cV[R]_n) preg feas T fT ns :
  0 <= preg -> symm (TLxx T) -> psd (TLxx T) ->
  all_nodes (fun d => stage_symm (der d) /\ stage_psd (der d)) ns ->
  0 < preg \/ all_nodes (fun d => posdef (Luu (der d))) ns ->
  exists bs, bpass der gap preg feas T fT ns = Some bs.
Proof.
move=> hp hT pT hs; apply: bpass_succeeds => //.
by elim: ns hs => //= d ns IH [[[_ ?] ?] ?]; split=> //; exact: IH.
Qed.

(** * C23 *)
Theorem C23_sign (N : Type) (der : N -> stage R n) (gap : N -> 'cV[R]_n) preg feas T fT ns bs :
  symm (TLxx T) -> all_nodes (fun d => stage_symm (der d)) ns ->
  bpass der gap preg feas T fT ns = Some bs ->
  let d := ei_ddp (0, 0) bs in
  [/\ 0 <= d.1, d.2 = - d.1, stopping d = half * d.1 &
      d.1 = 0 <-> all_stored (fun m (b : bnode R n m) => Qu b = 0) bs].
Proof.
move=> hT hs hb d.
have hs' : all_nodes (fun d => symm (Luu (der d))) ns.
  by elim: ns hs {bs hb d} => //= e ns IH [[_ ?] ?]; split=> //; exact: IH.
have hst := stored_gains hT hs' hb; have q0 := qsum_ge0 hst.
rewrite /d ei_ddp_sum //= !add0r; split=> //; last exact: qsum_eq0.
rewrite /stopping /=.
have -> : qsum bs + half * - qsum bs = half * qsum bs by fld R.
by rewrite ger0_norm // mulr_ge0 // invr_ge0 ler0n.
Qed.
(** On a feasible candidate the stopping criterion is zero exactly when no perturbation of
    the controls changes the cost to first order. *)
Theorem C23_stop_iff_stationary (N : Type) (der : N -> stage R n) (gap : N -> 'cV[R]_n) preg T fT ns bs :
  symm (TLxx T) -> all_nodes (fun d => stage_symm (der d)) ns ->
  bpass der gap preg true T fT ns = Some bs ->
  stopping (ei_ddp (0, 0) bs) = 0 <->
  forall us : perturbation der ns, variation T 0 us = 0.
Proof.
move=> hT hs hb; case: (C23_sign hT hs hb) => _ _ -> hz.
have hs' : all_nodes (fun d => symm (Luu (der d))) ns.
  by elim: ns hs {bs hb hz} => //= e ns IH [[_ ?] ?]; split=> //; exact: IH.
split=> [/eqP|hv].
  rewrite mulf_eq0 invr_eq0 pnatr_eq0 /= => /eqP /hz hq us.
  by rewrite (qu0_variation hT hs' hb hq) dot0r.
by have -> := hz.2 (variation_qu0 hT hs' hb hv); rewrite mulr0.
Qed.
End Props.
