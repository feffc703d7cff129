(** C122: solving a convex linear-quadratic problem. *)
From mathcomp Require Import all_ssreflect all_algebra.
From Verif Require Import RingTac LinAlg LinAlg_Proofs Riccati_Model Riccati_Spec Riccati_Proofs RiccatiLQ_Proofs Riccati_Props.
From Verif Require Import LQSolve_Model.
Set Implicit Arguments.
Unset Strict Implicit.
Unset Printing Implicit Defensive.
Import Order.TTheory GRing.Theory Num.Theory.
Local Open Scope ring_scope.

Section Props.
Variables (R : realFieldType) (n : nat).
Add Field RF : (rft R).
Notation half := (2%:R^-1 : R).

(** * Specification *)
(** The states follow the dynamics from [x]; the gaps stored with the nodes play no role *)
Fixpoint trajectory (x : 'cV[R]_n) (ns : seq (cnode R n)) (xT : 'cV[R]_n) : Prop :=
  match ns with
  | [::] => xT = x
  | d :: ns' => cx d = x /\ trajectory (lq_next (cx d) (cu d)) ns' xT
  end.
(** States and controls of a candidate *)
Definition erase (ns : seq (cnode R n)) : seq (cnode R n) := [seq @CNode R n (cl d) (cx d) (cu d) 0 | d <- ns].
(** [ns], [xT] is the only optimal trajectory of the problem of [ms], and [c] its cost *)
Definition the_optimum (T : lqterm R n) (x0 : 'cV[R]_n) (ms ns : seq (cnode R n)) (xT : 'cV[R]_n) (c : R) : Prop :=
  [/\ map (@cl R n) ns = map (@cl R n) ms, trajectory x0 ns xT, c = cand_cost T ns xT,
      forall zs zT, map (@cl R n) zs = map (@cl R n) ms -> trajectory x0 zs zT -> c <= cand_cost T zs zT &
      forall zs zT, map (@cl R n) zs = map (@cl R n) ms -> trajectory x0 zs zT -> cand_cost T zs zT = c ->
        erase zs = erase ns /\ zT = xT].

(** * Bookkeeping *)
Lemma total_cand (T : lqterm R n) ns : forall xT c, total T ns xT c = c + cand_cost T ns xT.
Proof. by elim: ns => [|d ns IH] xT c //=; rewrite IH addrA. Qed.
Lemma set_gaps_ok ns : forall (x0 xT : 'cV[R]_n),
  gaps_of x0 (set_gaps x0 ns xT).1 xT (set_gaps x0 ns xT).2.
Proof. by elim: ns => [|d ns IH] x0 xT //=; split=> //; exact: IH. Qed.
Lemma set_gaps_cl ns : forall (x0 xT : 'cV[R]_n), map (@cl R n) (set_gaps x0 ns xT).1 = map (@cl R n) ns.
Proof. by elim: ns => [|d ns IH] x0 xT //=; rewrite IH. Qed.
Lemma set_gaps_cost (T : lqterm R n) ns : forall (x0 xT : 'cV[R]_n),
  cand_cost T (set_gaps x0 ns xT).1 xT = cand_cost T ns xT.
Proof. by elim: ns => [|d ns IH] x0 xT //=; rewrite IH. Qed.
Lemma set_gaps_traj ns : forall (x0 xT : 'cV[R]_n), trajectory x0 ns xT ->
  no_gaps (set_gaps x0 ns xT).1 (set_gaps x0 ns xT).2.
Proof.
elim: ns => [|d ns IH] x0 xT /=; first by move=> ->; rewrite subrr; split.
by case=> <- h; rewrite subrr; case: (IH _ _ h) => h1 h2; split.
Qed.
Lemma symm_cl (T : lqterm R n) ns ms : map (@cl R n) ns = map (@cl R n) ms -> lq_symm T ms -> lq_symm T ns.
Proof.
move=> e [hT h]; split=> // {hT}; elim: ns ms e h => [|d ns IH] [|e ms] //= [e1 e2] [h1 h2].
by rewrite e1; split=> //; exact: IH h2.
Qed.
Lemma psd_cl (d e : cnode R n) : cl d = cl e -> stage_psd (cder e) -> stage_psd (cder d).
Proof. by case: d => l x u f; case: e => l' x' u' f' /= E; subst l'. Qed.
Lemma convex_cl (T : lqterm R n) ns ms : map (@cl R n) ns = map (@cl R n) ms -> convex_lq T ms -> convex_lq T ns.
Proof.
move=> e [hT h]; split=> // {hT}; elim: ns ms e h => [|d ns IH] [|e ms] //= [e1 e2] [[h1 h1'] h2].
by split; [split; [rewrite e1|exact: psd_cl e1 h1']|exact: IH h2].
Qed.

(** A trajectory is the rollout of its controls *)
Lemma traj_roll (ns : seq (cnode R n)) : forall zs x zT, map (@cl R n) zs = map (@cl R n) ns -> trajectory x zs zT ->
  exists ws : ctrls ns, erase zs = recandidate x ws /\ zT = (roll_states x ws).2.
Proof.
elim: ns => [|d ns IH] [|e zs] x zT // => [_ ->|]; first by exists tt.
rewrite /=; case: d => l y u f; case: e => l' y' u' f' /= [E1 E2] [ex h]; subst l' y'.
case: (IH _ _ _ E2 h) => ws [h1 h2]; exists (u', ws) => /=; rewrite -h1 -h2; split=> //.
Qed.
Lemma erase_cost (T : lqterm R n) ns xT : cand_cost T (erase ns) xT = cand_cost T ns xT.
Proof. by elim: ns => [|d ns IH] //=; rewrite IH. Qed.
Lemma erase_traj (ns : seq (cnode R n)) : forall x xT, trajectory x (erase ns) xT <-> trajectory x ns xT.
Proof. by elim: ns => [|d ns IH] x xT //=; rewrite IH. Qed.
Lemma erase_cl (ns : seq (cnode R n)) : map (@cl R n) (erase ns) = map (@cl R n) ns.
Proof. by elim: ns => [|d ns IH] //=; rewrite IH. Qed.
Lemma recandidate_cl (ns : seq (cnode R n)) : forall x (us : ctrls ns), map (@cl R n) (recandidate x us) = map (@cl R n) ns.
Proof. by elim: ns => [|d ns IH] x us //=; rewrite IH. Qed.
Lemma recandidate_erase (ns : seq (cnode R n)) : forall x (us : ctrls ns), erase (recandidate x us) = recandidate x us.
Proof. by elim: ns => [|d ns IH] x us //=; rewrite IH. Qed.
Lemma recandidate_traj (ns : seq (cnode R n)) : forall x (us : ctrls ns), trajectory x (recandidate x us) (roll_states x us).2.
Proof. by elim: ns => [|d ns IH] x us //=; split. Qed.
Lemma install_erase (ns : seq (cnode R n)) : forall x (us : ctrls ns),
  erase (install (roll_states x us).1 us) = recandidate x us.
Proof. by elim: ns => [|d ns IH] x us //=; rewrite IH. Qed.
Lemma install_gaps (ns : seq (cnode R n)) : forall x (us : ctrls ns),
  set_gaps x (install (roll_states x us).1 us) (roll_states x us).2 = (recandidate x us, 0).
Proof. by elim: ns => [|d ns IH] x us /=; [rewrite subrr|rewrite IH /= subrr]. Qed.
Lemma optimum_erase (T : lqterm R n) x0 ms ns ns' xT c : erase ns = erase ns' ->
  the_optimum T x0 ms ns' xT c -> the_optimum T x0 ms ns xT c.
Proof.
move=> e [h1 h2 h3 h4 h5]; split=> //.
- by rewrite -erase_cl e erase_cl.
- by apply/erase_traj; rewrite e; apply/erase_traj.
- by rewrite h3 -erase_cost -e erase_cost.
- by move=> zs zT a b f; rewrite e; exact: h5 a b f.
Qed.
Lemma optimum_cl (T : lqterm R n) x0 ms ms' ns xT c : map (@cl R n) ms = map (@cl R n) ms' ->
  the_optimum T x0 ms ns xT c -> the_optimum T x0 ms' ns xT c.
Proof. by rewrite /the_optimum => ->. Qed.

(** From the optimality among controls to the optimality among trajectories *)
Lemma optimum_roll (T : lqterm R n) x0 ns (us : ctrls ns) :
  (forall ws : ctrls ns, roll_cost T x0 us <= roll_cost T x0 ws) ->
  (forall ws : ctrls ns, roll_cost T x0 ws = roll_cost T x0 us -> ws = us) ->
  the_optimum T x0 ns (recandidate x0 us) (roll_states x0 us).2 (roll_cost T x0 us).
Proof.
move=> hm hu; split.
- exact: recandidate_cl.
- exact: recandidate_traj.
- by rewrite recandidate_cost.
- move=> zs zT e h; case: (traj_roll e h) => ws [e1 ->].
  by rewrite -erase_cost e1 recandidate_cost.
- move=> zs zT e h; case: (traj_roll e h) => ws [e1 e2].
  rewrite -erase_cost e1 e2 recandidate_cost => /hu ->.
  by rewrite recandidate_erase.
Qed.

(** With zero feed-forward terms and no gaps the trial is the candidate *)
Lemma stay (T : lqterm R n) a ns : forall (x xT : 'cV[R]_n) c (bs : bnodes (@cder R n) ns),
  gaps_of x ns xT 0 -> no_gaps ns 0 -> all_stored (fun m (b : bnode R n m) => kff b = 0) bs ->
  let r := lq_forward a true T 0 x c bs in
  [/\ install r.1.1.1 r.1.2 = ns, r.1.1.2 = xT & r.2 = c + cand_cost T ns xT].
Proof.
elim: ns => [|d ns IH] x xT c bs /=.
  by move=> e _ _; have -> : xT = x by apply/esym/eqP; rewrite -subr_eq0 -e.
case=> ex hg [[ef hn] _] [ek hk].
have ed : x = cx d by apply/eqP; rewrite -subr_eq0 -ex ef.
rewrite ek scaler0 subr0 ed subrr mulmx0 subr0.
case: (IH _ xT (c + lq_cost (cx d) (cu d)) bs.2 hg (conj hn erefl) hk) => h1 h2 h3.
split=> //; last by rewrite h3 addrA.
by rewrite h1; case: (d).
Qed.
Lemma kff_zero preg feas (T : terminal R n) fT ns (bs : bnodes (@cder R n) ns) :
  bpass (@cder R n) (@cf R n) preg feas T fT ns = Some bs ->
  all_stored (fun m (b : bnode R n m) => Qu b = 0) bs ->
  all_stored (fun m (b : bnode R n m) => kff b = 0) bs.
Proof.
elim: ns bs => [|d ns IH] bs // hb [h1 h2]; case: (bpass_cons hb) => hb1 hb2.
split; last exact: IH.
move: hb2 h1; rewrite /bstep; case: ifP => // _ [<-] /= ->.
by rewrite /llt_solve mulmx0.
Qed.

(** * The parameters *)
(** Full step first; the thresholds strictly between the bounds that the setters enforce *)
Definition sane (p : params R) : Prop :=
  [/\ exists l, alphas p = 1 :: l, 0 < th_grad p, 0 < th_stop p, th_accept p < 1 & th_stepinc p < 1 /\ 0 <= reg_min p].

Lemma accepted_exact k (p : params R) feas d dV : sane p -> dV = d.1 + half * d.2 ->
  (0 <= dV \/ k = LFDDP /\ ~~ feas /\ 1 < th_neg p) -> (dV <> 0 \/ `|d.1| < th_grad p) ->
  accepted k p 1 feas d dV.
Proof.
move=> [_ hg hs ha _] e h1 h2; rewrite /accepted !mulr1 !mul1r -e.
have hp : 0 < dV -> th_accept p * dV < dV by move=> h; rewrite -[X in _ < X]mul1r ltr_pmul2r.
have ht : 0 <= dV -> (`|d.1| < th_grad p) || (th_accept p * dV < dV).
  move=> h; case: h2 => [/eqP h2|->] //; rewrite hp ?orbT // lt_def h2 h //.
case: k h1 => [[h|[]] // |h1]; first by rewrite h /=; case/orP: (ht h) => ->; rewrite ?orbT.
case: ifP => h; first exact: ht.
case: h1 => [h'|[_ [-> hn]]]; first by rewrite h' in h.
have hl : dV < 0 by rewrite ltNge h.
by rewrite -[X in _ < X]mul1r ltr_nmul2r.
Qed.
Lemma decrease_ge0 (p : params R) r : 0 <= reg_min p -> 0 <= decrease p r.
Proof. by move=> h; rewrite /decrease; case: ltP => // h'; exact: le_trans h h'. Qed.

(** * The first iteration *)
Definition distinct (T : lqterm R n) (x0 : 'cV[R]_n) (ns : seq (cnode R n)) (xT : 'cV[R]_n) : Prop :=
  forall zs zT c, the_optimum T x0 ns zs zT c -> cand_cost T ns xT <> c.
Lemma first k p (T : lqterm R n) x0 fuel a0 ns xT fT (feas : bool) was c d :
  sane p -> lq_symm T ns -> convex_lq T ns -> (feas -> trajectory x0 ns xT) ->
  (k = LFDDP -> ~~ feas -> 1 < th_neg p /\ distinct T x0 ns xT) ->
  exists (us : ctrls (set_gaps x0 ns xT).1) r d' b,
  [/\ iteration k p T x0 fuel.+1 true a0 (Solver ns xT fT feas was 0 c d) =
        Some (Solver (install (roll_states x0 us).1 us) (roll_states x0 us).2 (set_gaps x0 ns xT).2 true feas r
                (roll_cost T x0 us) d', if feas && b then Some true else None, true, 1),
      0 <= r, the_optimum T x0 ns (recandidate x0 us) (roll_states x0 us).2 (roll_cost T x0 us) &
      exists bs, bpass (@cder R n) (@cf R n) 0 true (lq_tdiff T (roll_states x0 us).2) 0 (recandidate x0 us) = Some bs /\
        stopping (ei_ddp (0, 0) bs) = 0].
Proof.
move=> hp hs0 hc0 hf0 hk; have hp' := hp; case: hp' => -[l el] h1 h2 h3 [h4 h5].
have em := set_gaps_cl ns x0 xT; have hg := set_gaps_ok ns x0 xT.
have hs := symm_cl em hs0; have hc := convex_cl em hc0; have ec := set_gaps_cost T ns x0 xT.
have hf : feas -> no_gaps (set_gaps x0 ns xT).1 (set_gaps x0 ns xT).2 by move=> h; exact: set_gaps_traj (hf0 h).
rewrite /iteration /calc_diff /=.
case: (set_gaps x0 ns xT) em hg hs hc hf ec => m f /= em hg hs hc hf ec.
case: (@C20_convex_solvable R n feas T xT f m hs hc) => bs hb; rewrite hb el /=.
have opt := C20_full_step_optimal hs hg hf hb.
have conv := C20_then_converged hs hg hf hb.
have acc : accepted k p 1 feas
    (match k with LDDP => ei_ddp (0, 0) bs
     | LFDDP => ei_fddp (@cf R n) 0 feas (lq_tdiff T xT) f bs (diffs m (lq_forward 1 true T f x0 0 bs).1.1.1)
                  (xT - (lq_forward 1 true T f x0 0 bs).1.1.2) end)
    (cand_cost T m xT - (lq_forward 1 true T f x0 0 bs).2).
  have hn : all_nodes (fun d => stage_symm (cder d)) m by case: hs => _; exact.
  case: (C23_sign (fT := f) (T := lq_tdiff T xT) hs.1 hn hb) => d1 d2 _ _.
  have eq0 : (ei_ddp (0, 0) bs).1 + half * (ei_ddp (0, 0) bs).2 = half * (ei_ddp (0, 0) bs).1 by rewrite d2; fld R.
  case: (boolP feas) => ef.
    have -> : match k with LDDP => ei_ddp (0, 0) bs
     | LFDDP => ei_fddp (@cf R n) 0 true (lq_tdiff T xT) f bs (diffs m (lq_forward 1 true T f x0 0 bs).1.1.1)
                  (xT - (lq_forward 1 true T f x0 0 bs).1.1.2) end = ei_ddp (0, 0) bs.
      by case: (k) => //; exact: C21_fddp_feasible.
    have f0 : f = 0 by case: (hf ef).
    rewrite ef in hb; rewrite f0 in hb hg hf *.
    have ex := C21_ddp_exact 1 hs hg (hf ef) hb; rewrite /= expr1n mulr1 mul1r in ex.
    rewrite ex; apply: accepted_exact => //; rewrite eq0.
      by left; apply: mulr_ge0 => //; rewrite invr_ge0 ler0n.
    case: (eqVneq (ei_ddp (0, 0) bs).1 0) => e0; [right|left].
      by rewrite e0 normr0.
    by apply/eqP; rewrite mulf_neq0 // invr_eq0 pnatr_eq0.
  case: k hk => hk.
    rewrite /accepted !mulr1 !mul1r eq0 /= orbT andbT.
    by apply: mulr_ge0 => //; rewrite invr_ge0 ler0n.
  case: (hk erefl ef) => hn1 hd.
  rewrite (negbTE ef) in hb.
  have ex := C21_fddp_full_step hs hg hb; rewrite /= in ex.
  apply: accepted_exact => //; first by right.
  left; rewrite ec => /eqP; rewrite subr_eq0 => /eqP.
  move: opt; case: lq_forward => [[[xs xe] us] co] [_ eo hm hu] /=; rewrite eo in hm hu *.
  exact: hd (optimum_cl em (optimum_roll hm hu)).
have ecl : match k with LDDP => true | LFDDP => feas || (1 == 1 :> R) end = true by case: (k); rewrite // eqxx orbT.
rewrite ltxx ltr10 /= !ecl total_cand add0r -ec.
move: opt conv acc; case: lq_forward => [[[xs xe] us] co] [ex eo hm hu] conv /= acc.
have hr : 0 <= (if th_stepdec p < 1 then decrease p 0 else 0) by case: ifP => // _; exact: decrease_ge0.
have hopt : the_optimum T x0 ns (recandidate x0 us) (roll_states x0 us).2 (roll_cost T x0 us).
  by rewrite eo in hm hu; exact: optimum_cl em (optimum_roll hm hu).
case: conv => bs' [hb' [_ hst]].
pose dd := match k with LDDP => ei_ddp (0, 0) bs
           | LFDDP => ei_fddp (@cf R n) 0 feas (lq_tdiff T xT) f bs (diffs m xs) (xT - xe) end.
exists us, (if th_stepdec p < 1 then decrease p 0 else 0), dd, (stopping dd < th_stop p).
rewrite -ex /= -eo in hopt *; split=> //; last by exists bs'.
by case: k hk ecl @dd acc => hk ecl dd acc; rewrite acc /= leNgt h4 /=; case: ifP.
Qed.

(** * The second iteration *)
Lemma second k p (T : lqterm R n) x0 fuel a0 ns xT fT fT' was r c d bs0 ns' :
  sane p -> 0 <= r -> lq_symm T ns -> convex_lq T ns -> gaps_of x0 ns xT 0 -> no_gaps ns 0 ->
  set_gaps x0 ns' xT = (ns, 0) -> cand_cost T ns' xT = cand_cost T ns xT ->
  bpass (@cder R n) (@cf R n) 0 true (lq_tdiff T xT) fT ns = Some bs0 -> stopping (ei_ddp (0, 0) bs0) = 0 ->
  exists r',
  iteration k p T x0 fuel.+1 true a0 (Solver ns' xT fT' true was r c d) =
    Some (Solver ns xT 0 true true r' (cand_cost T ns xT) (0, 0), Some true, true, 1).
Proof.
move=> [[l el] h1 h2 h3 [h4 h5]] hr hs hc hg hn eg ecc hb0 hst.
have hsn : all_nodes (fun d => stage_symm (cder d)) ns by case: hs => _; exact.
have hcn : all_nodes (fun d => stage_symm (cder d) /\ stage_psd (cder d)) ns.
  case: hc => _ hc; elim: (ns) hsn hc => //= e es IH [a b] [[_ a'] b']; split=> //; exact: IH.
have hpd : all_nodes (fun d => posdef (Luu (cder d))) ns.
  by case: hc => _ hc; elim: (ns) hc => //= e es IH [[a _] b]; split=> //; exact: IH.
rewrite /iteration /calc_diff /= eg /=.
case: (@C22_convex_succeeds R n _ (@cder R n) (@cf R n) r true (lq_tdiff T xT) 0 ns hr hs.1 hc.1 hcn (or_intror hpd)) => bs hb.
rewrite hb el /= ltxx ltr10 /=.
have st0 : stopping (ei_ddp (0, 0) bs) = 0.
  apply/(C23_stop_iff_stationary (T := lq_tdiff T xT) hs.1 hsn hb).
  exact/(C23_stop_iff_stationary (T := lq_tdiff T xT) hs.1 hsn hb0).
case: (C23_sign (T := lq_tdiff T xT) hs.1 hsn hb) => d1 d2 sd hq.
have z1 : (ei_ddp (0, 0) bs).1 = 0.
  by apply/eqP; move/eqP: sd; rewrite st0 eq_sym mulf_eq0 invr_eq0 pnatr_eq0.
have z2 : ei_ddp (0, 0) bs = (0, 0) by rewrite [LHS]surjective_pairing d2 z1 oppr0.
have [s1 s2 s3] := stay T 1 0 hg hn (kff_zero hb (hq.1 z1)).
rewrite total_cand add0r ecc.
have ecl : match k with LDDP => true | LFDDP => true end = true by case: (k).
have acc : accepted k p 1 true (0, 0) (cand_cost T ns xT - (lq_forward 1 true T 0 x0 0 bs).2).
  rewrite /accepted !mulr0 addr0 mulr0 lexx /= normr0 h1 /=; by case: (k).
exists (if th_stepdec p < 1 then decrease p r else r).
have a' := acc; rewrite s3 add0r in a'.
have ei y z : ei_fddp (@cf R n) r true (lq_tdiff T xT) 0 bs y z = (0, 0) by rewrite C21_fddp_feasible.
by case: k ecl acc a' => _ acc a'; rewrite ?ei ?z2 acc /= leNgt h4 /= s1 s2 s3 add0r /stopping /= mulr0 addr0 normr0 h2.
Qed.

(** * C122 *)
Lemma solved k p (T : lqterm R n) x0 fuel maxiter ns xT (feas : bool) fT c d a :
  sane p -> lq_symm T ns -> convex_lq T ns -> (feas -> trajectory x0 ns xT) ->
  (k = LFDDP -> ~~ feas -> 1 < th_neg p /\ distinct T x0 ns xT) ->
  exists s ret it,
  [/\ lq_solve k p T x0 fuel.+1 maxiter.+1 ns xT feas 0 fT c d a = Some (s, ret, it),
      the_optimum T x0 ns (s_ns s) (s_xT s) (s_cost s), (it <= 2)%N, s_feas s &
      (0 < maxiter)%N -> ret].
Proof.
move=> hp hs hc hf hk; rewrite /lq_solve /=.
case: (@first k p T x0 fuel a ns xT fT feas false c d hp hs hc hf hk) => us [r [d' [b [-> hr hopt [bs [hb hst]]]]]].
have ecl : map (@cl R n) (recandidate x0 us) = map (@cl R n) ns by rewrite recandidate_cl set_gaps_cl.
have hopt' : the_optimum T x0 ns (install (roll_states x0 us).1 us) (roll_states x0 us).2 (roll_cost T x0 us).
  by apply: optimum_erase hopt; rewrite install_erase recandidate_erase.
case: (boolP (feas && b)) => _; first by do 3!eexists; split; try reflexivity.
case: maxiter => [|maxiter] /=; first by do 3!eexists; split; try reflexivity.
case: (recandidate_gaps x0 us) => hg hn.
have hcc : cand_cost T (install (roll_states x0 us).1 us) (roll_states x0 us).2 =
           cand_cost T (recandidate x0 us) (roll_states x0 us).2.
  by rewrite -erase_cost install_erase.
case: (@second k p T x0 fuel 1 (recandidate x0 us) (roll_states x0 us).2 0 (set_gaps x0 ns xT).2 feas r
  (roll_cost T x0 us) d' bs _ hp hr (symm_cl ecl hs) (convex_cl ecl hc) hg hn (install_gaps x0 us) hcc hb hst) => r' ->.
do 3!eexists; split; try reflexivity.
by rewrite /= recandidate_cost.
Qed.

(** SolverDDP without regularization: from every guess, feasible or not, one iteration reaches the only
    optimal trajectory, and the second finds nothing left to do. *)
Theorem C122_ddp p (T : lqterm R n) x0 fuel maxiter ns xT (feas : bool) fT c d a :
  sane p -> lq_symm T ns -> convex_lq T ns -> (feas -> trajectory x0 ns xT) ->
  exists s ret it,
  [/\ lq_solve LDDP p T x0 fuel.+1 maxiter.+1 ns xT feas 0 fT c d a = Some (s, ret, it),
      the_optimum T x0 ns (s_ns s) (s_xT s) (s_cost s), (it <= 2)%N, s_feas s &
      (0 < maxiter)%N -> ret].
Proof. by move=> hp hs hc hf; apply: solved. Qed.
(** SolverFDDP from a feasible guess *)
Theorem C122_fddp_feasible p (T : lqterm R n) x0 fuel maxiter ns xT fT c d a :
  sane p -> lq_symm T ns -> convex_lq T ns -> trajectory x0 ns xT ->
  exists s ret it,
  [/\ lq_solve LFDDP p T x0 fuel.+1 maxiter.+1 ns xT true 0 fT c d a = Some (s, ret, it),
      the_optimum T x0 ns (s_ns s) (s_xT s) (s_cost s), (it <= 2)%N, s_feas s &
      (0 < maxiter)%N -> ret].
Proof. by move=> hp hs hc hf; apply: solved. Qed.
(** and from an infeasible one.  Missing: a guess whose cost is exactly the optimal cost
    ([C122_fddp_refuted]). *)
Theorem C122_fddp_infeasible_partial p (T : lqterm R n) x0 fuel maxiter ns xT fT c d a :
  sane p -> 1 < th_neg p -> lq_symm T ns -> convex_lq T ns ->
  (forall zs zT v, the_optimum T x0 ns zs zT v -> cand_cost T ns xT <> v) ->
  exists s ret it,
  [/\ lq_solve LFDDP p T x0 fuel.+1 maxiter.+1 ns xT false 0 fT c d a = Some (s, ret, it),
      the_optimum T x0 ns (s_ns s) (s_xT s) (s_cost s), (it <= 2)%N, s_feas s &
      (0 < maxiter)%N -> ret].
Proof. by move=> hp hn hs hc hd; apply: solved. Qed.
End Props.
Print Assumptions C122_ddp.
Print Assumptions C122_fddp_feasible.
Print Assumptions C122_fddp_infeasible_partial.
