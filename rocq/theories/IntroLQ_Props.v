(** C123: SolverIntro on convex linear-quadratic problems with linear equality constraints. *)
From mathcomp Require Import all_ssreflect all_algebra.
From Verif Require Import RingTac LinAlg LinAlg_Proofs Riccati_Model Riccati_Spec Riccati_Proofs RiccatiLQ_Proofs Riccati_Props.
From Verif Require Import Intro_Model Intro_Proofs Intro_Props LQSolve_Model LQSolve_Props IntroLQ_Model IntroLQ_Proofs.
Set Implicit Arguments.
Unset Strict Implicit.
Unset Printing Implicit Defensive.
Import Order.TTheory GRing.Theory Num.Theory.
Local Open Scope ring_scope.

Section Props.
Variables (R : realFieldType) (n : nat).
Add Field RF : (rft R).
Notation half := (2%:R^-1 : R).
Notation ic := (@ic R n).

(** * Specification *)
(** Every node satisfies its constraint *)
Definition satisfies (ns : seq (inode R n)) : Prop :=
  all_nodes (fun d : inode R n => lG (im d) *m ix d + lH (im d) *m iu d + lg (im d) = 0) ns.
(** [ns], [xT] is the only optimal one among the trajectories from [x0] that satisfy the constraints of the
    problem of [ms], and [c] is its cost *)
Definition constrained_optimum (T : lqterm R n) (x0 : 'cV[R]_n) (ms ns : seq (inode R n)) (xT : 'cV[R]_n) (c : R) : Prop :=
  [/\ map (@im R n) ns = map (@im R n) ms, trajectory x0 (map ic ns) xT, satisfies ns, c = cand_cost T (map ic ns) xT &
      forall zs zT, map (@im R n) zs = map (@im R n) ms -> trajectory x0 (map ic zs) zT -> satisfies zs ->
        c <= cand_cost T (map ic zs) zT /\
        (cand_cost T (map ic zs) zT = c -> erase (map ic zs) = erase (map ic ns) /\ zT = xT)].

(** * Bookkeeping *)
Lemma ic_gaps ns : forall (x0 xT : 'cV[R]_n),
  map ic (i_gaps x0 ns xT).1 = (set_gaps x0 (map ic ns) xT).1 /\ (i_gaps x0 ns xT).2 = (set_gaps x0 (map ic ns) xT).2.
Proof. by elim: ns => [|d ns IH] x0 xT //=; case: (IH (lq_next (ix d) (iu d)) xT) => -> ->. Qed.
Lemma im_gaps ns : forall (x0 xT : 'cV[R]_n), map (@im R n) (i_gaps x0 ns xT).1 = map (@im R n) ns.
Proof. by elim: ns => [|d ns IH] x0 xT //=; rewrite IH. Qed.
Lemma ok_gaps ns : forall (x0 xT : 'cV[R]_n), all_nodes (@node_ok R n) ns -> all_nodes (@node_ok R n) (i_gaps x0 ns xT).1.
Proof. by elim: ns => [|d ns IH] x0 xT //= [hd h]; split=> //; exact: IH. Qed.
Lemma sat_gaps ns : forall (x0 xT : 'cV[R]_n), satisfies ns -> satisfies (i_gaps x0 ns xT).1.
Proof. by elim: ns => [|d ns IH] x0 xT //= [hd h]; split=> //; exact: IH. Qed.
Lemma ic_install ns : forall xs (us : ctrls (map ic ns)), map ic (i_install xs us) = install xs us.
Proof. by elim: ns => [|d ns IH] xs us //=; rewrite IH. Qed.
Lemma im_install ns : forall xs (us : ctrls (map ic ns)), map (@im R n) (i_install xs us) = map (@im R n) ns.
Proof. by elim: ns => [|d ns IH] xs us //=; rewrite IH. Qed.
Lemma ok_install ns : forall xs (us : ctrls (map ic ns)), all_nodes (@node_ok R n) ns -> all_nodes (@node_ok R n) (i_install xs us).
Proof. by elim: ns => [|d ns IH] xs us //= [hd h]; split=> //; exact: IH. Qed.
Lemma sat_install ns : forall x (us : ctrls (map ic ns)), admissible x us -> satisfies (i_install (roll_states x us).1 us).
Proof. by elim: ns => [|d ns IH] x us //= [hd h]; split=> //; exact: IH. Qed.

Lemma vnorm_ge0 inf m (v : 'cV[R]_m) : 0 <= vnorm inf v.
Proof.
rewrite /vnorm; elim: (enum 'I_m) => //= i s IH; case: (inf) IH => IH.
- by rewrite le_maxr IH orbT.
- by apply: addr_ge0.
Qed.
Lemma vnorm0 inf m : vnorm inf (0 : 'cV[R]_m) = 0.
Proof.
rewrite /vnorm; elim: (enum 'I_m) => //= i s ->; rewrite mxE normr0.
by case: (inf); rewrite ?maxxx ?addr0.
Qed.
Lemma hfeas_ge0 inf ns : forall xs (us : ctrls (map ic ns)), 0 <= hfeas inf xs us.
Proof.
elim: ns => [|d ns IH] xs us //=; have h := IH (behead xs) us.2; have h' := @vnorm_ge0 inf _ (hval (head 0 xs) us.1).
by case: ifP => _; [rewrite le_maxr h'|exact: addr_ge0].
Qed.
Lemma hfeas_roll inf ns : forall x (us : ctrls (map ic ns)), admissible x us -> hfeas inf (roll_states x us).1 us = 0.
Proof.
elim: ns => [|d ns IH] x us //= [hd h]; rewrite hd vnorm0 IH //.
by case: (inf); rewrite ?maxxx ?addr0.
Qed.
Lemma hfeas_own inf ns : satisfies ns -> hfeas inf (map (@ix R n) ns) (own ns) = 0.
Proof.
elim: ns => [|d ns IH] //= [hd h]; rewrite /hval hd vnorm0 IH //.
by case: (inf); rewrite ?maxxx ?addr0.
Qed.
Lemma own_adm ns : forall x xT, trajectory x (map ic ns) xT -> satisfies ns -> admissible x (own ns).
Proof. by elim: ns => [|d ns IH] x xT //= [<- h] [hd hs]; split=> //; exact: IH h hs. Qed.
Lemma own_cost T ns : forall x xT, trajectory x (map ic ns) xT -> roll_cost T x (own ns) = cand_cost T (map ic ns) xT.
Proof. by elim: ns => [|d ns IH] x xT /=; [move=> ->|case=> <- h; rewrite (IH _ _ h)]. Qed.
Lemma own_kff T ns : forall x xT c (bs : bnodes (@cder R n) (map ic ns)), trajectory x (map ic ns) xT ->
  own ns = (lq_forward 1 true T 0 x c bs).1.2 -> all_stored (fun m (b : bnode R n m) => kff b = 0) bs.
Proof.
elim: ns => [|d ns IH] x xT c bs //= [ex ht] [eu eo].
have zk : kff bs.1 = 0.
  move: eu; rewrite ex subrr mulmx0 subr0 scale1r => /eqP; rewrite -subr_eq0 opprB addrC subrK => /eqP //.
split=> //; rewrite -eu -ex in eo; exact: IH ht eo.
Qed.

Lemma i_traj_roll ns : forall zs x zT, map (@im R n) zs = map (@im R n) ns -> trajectory x (map ic zs) zT -> satisfies zs ->
  exists ws : ctrls (map ic ns), [/\ admissible x ws, erase (map ic zs) = recandidate x ws & zT = (roll_states x ws).2].
Proof.
elim: ns => [|d ns IH] [|e zs] x zT // => [_ -> _|]; first by exists tt.
rewrite /=; case: d => l y u f so; case: e => l' y' u' f' so' /= [E1 E2] [ex h] [hd hs]; subst l' y'.
case: (IH _ _ _ E2 h hs) => ws [h0 h1 h2]; exists (u', ws) => /=; rewrite -h1 -h2; split=> //.
Qed.
Lemma iopt_roll (T : lqterm R n) x0 ns (us : ctrls (map ic ns)) : admissible x0 us ->
  (forall ws : ctrls (map ic ns), admissible x0 ws ->
     roll_cost T x0 us <= roll_cost T x0 ws /\ (roll_cost T x0 ws = roll_cost T x0 us -> ws = us)) ->
  constrained_optimum T x0 ns (i_install (roll_states x0 us).1 us) (roll_states x0 us).2 (roll_cost T x0 us).
Proof.
move=> ha hm; split.
- exact: im_install.
- by apply/erase_traj; rewrite ic_install install_erase; exact: recandidate_traj.
- exact: sat_install.
- by rewrite -erase_cost ic_install install_erase recandidate_cost.
- move=> zs zT e h hz; case: (i_traj_roll e h hz) => ws [aw e1 e2].
  rewrite -erase_cost e1 e2 recandidate_cost ic_install install_erase; case: (hm ws aw) => h1 h2.
  by split=> // /h2 ->.
Qed.
Lemma iopt_im (T : lqterm R n) x0 ms ms' ns xT c : map (@im R n) ms = map (@im R n) ms' ->
  constrained_optimum T x0 ms ns xT c -> constrained_optimum T x0 ms' ns xT c.
Proof. by rewrite /constrained_optimum => ->. Qed.
Lemma iopt_erase (T : lqterm R n) x0 ms ns ns' xT c : map ic ns = map ic ns' ->
  map (@im R n) ns = map (@im R n) ns' -> satisfies ns ->
  constrained_optimum T x0 ms ns' xT c -> constrained_optimum T x0 ms ns xT c.
Proof. by rewrite /constrained_optimum => -> -> hs [h1 h2 h3 h4 h5]. Qed.

Lemma cl_im (ns ms : seq (inode R n)) : map (@im R n) ns = map (@im R n) ms -> map (@cl R n) (map ic ns) = map (@cl R n) (map ic ms).
Proof. by elim: ns ms => [|d ns IH] [|e ms] //= [h1 h2]; rewrite (IH _ h2) /ic /= h1. Qed.

(** * At the optimum the feed-forward terms are zero whatever the regularization *)
Lemma at_optimum preg (T : lqterm R n) x0 ns xT c : 0 <= preg -> i_symm T ns -> i_convex T ns -> all_nodes (@node_ok R n) ns ->
  gaps_of x0 (map ic ns) xT 0 -> no_gaps (map ic ns) 0 -> constrained_optimum T x0 ns ns xT c ->
  exists bs, ibpass preg true (lq_tdiff T xT) 0 ns = Some bs /\ all_stored (fun m (b : bnode R n m) => kff b = 0) bs.
Proof.
move=> hp hs hc hok hg hn [_ ht hsat ec hmin].
case: (@i_succeeds R n 0 true T xT 0 ns (lexx 0) hs hc hok) => bs0 [hb0 _].
case: (@i_succeeds R n preg true T xT 0 ns hp hs hc hok) => bs [hb _].
exists bs; split=> //.
have [_ ha eo _ hm] := step_full hs hok hg (fun _ => hn) hb0.
case: (hm _ (own_adm ht hsat)) => h1 h2.
have e : roll_cost T x0 (own ns) = (lq_forward 1 true T 0 x0 0 bs0).2.
  apply/eqP; rewrite eq_le h1 andbT (own_cost _ ht) -ec eo.
  set fu := (lq_forward 1 true T 0 x0 0 bs0).1.2 in ha eo hm h2 *.
  have ht' : trajectory x0 (map ic (i_install (roll_states x0 fu).1 fu)) (roll_states x0 fu).2.
    by apply/erase_traj; rewrite ic_install install_erase; exact: recandidate_traj.
  case: (hmin _ _ (im_install _ _) ht' (sat_install ha)) => h3 _; apply: le_trans h3 _.
  by rewrite -erase_cost ic_install install_erase recandidate_cost.
have k0 := own_kff ht (h2 e).
by case: (still hs hok hb0 hb k0).
Qed.

(** * The parameters *)
Definition isane (p : params R) : Prop :=
  [/\ sane p, th_stepdec p < 1, reg_min p < reg_max p, 1 < reg_dec p & 0 <= reg_inc p].

Lemma i_accepted_exact (p : params R) ups h d dV : sane p -> 0 <= ups -> 0 <= h -> dV = d.1 + half * d.2 ->
  [\/ 0 < dV + ups * h, dV + ups * h < 0 /\ 1 < th_neg p | `|d.1| < th_grad p /\ 0 <= dV + ups * h] ->
  i_accepted p 1 ups h d dV.
Proof.
move=> [_ hg hs ha _] hu hh e hc; rewrite /i_accepted !mulr1 !mul1r -e.
case: ifP => h0.
  case: hc => [hp|[hn _]|[-> //]]; last by move: hn; rewrite ltNge h0.
  by apply/orP; right; rewrite -[X in _ < X]mul1r ltr_pmul2r.
case: hc => [hp|[hn hth]|[_ hp]]; first (by rewrite (ltW hp) in h0); last by rewrite hp in h0.
have hv : dV < 0 by apply: le_lt_trans hn; rewrite ler_addl mulr_ge0.
by rewrite -[X in _ < X]mul1r ltr_nmul2r.
Qed.
Lemma decrease_lt (p : params R) r : isane p -> 0 <= r -> r <= reg_max p -> 0 <= decrease p r /\ decrease p r < reg_max p.
Proof.
move=> [[_ _ _ _ [_ h0]] _ hm hd _] hr hr'; split; first exact: decrease_ge0.
rewrite /decrease; case: ifP => // _.
have h1 : 0 < reg_dec p by exact: lt_trans ltr01 hd.
rewrite ltr_pdivr_mulr //; apply: le_lt_trans hr' _.
by rewrite -[X in X < _]mulr1 ltr_pmul2l //; exact: le_lt_trans h0 hm.
Qed.
Lemma increase_le (p : params R) r : isane p -> 0 <= r -> 0 <= increase p r /\ increase p r <= reg_max p.
Proof.
move=> [[_ _ _ _ [_ h0]] _ hm hd hi] hr; rewrite /increase; case: ltP => h; last by split=> //; exact: mulr_ge0.
by split=> //; exact: ltW (le_lt_trans h0 hm).
Qed.

Lemma traj_gaps (ns : seq (cnode R n)) : forall x y xT, trajectory x ns xT -> trajectory x (set_gaps y ns xT).1 xT.
Proof. by elim: ns => [|d ns IH] x y xT //= [h1 h2]; split=> //; exact: IH. Qed.
Lemma kff_sums (ns : seq (cnode R n)) (bs : bnodes (@cder R n) ns) :
  all_stored (fun m (b : bnode R n m) => kff b = 0) bs -> qk bs = 0 /\ qsum bs = 0.
Proof.
elim: ns bs => [|d ns IH] bs // [h1 h2]; case: (IH _ h2) => e1 e2.
by rewrite /= e1 e2 h1 dot0r dot0l !addr0.
Qed.

(** * The first iteration *)
Lemma ifirst p th_feas rho inf (T : lqterm R n) x0 fuel dxs dxT a0 ns xT fT (feas : bool) c h ups d dV :
  isane p -> i_symm T ns -> i_convex T ns -> all_nodes (@node_ok R n) ns -> 0 <= ups ->
  (feas -> trajectory x0 (map ic ns) xT) ->
  (feas /\ satisfies ns \/
   1 < th_neg p /\ forall zs zT v, constrained_optimum T x0 ns zs zT v ->
     cand_cost T (map ic ns) xT + ups * hfeas inf (map (@ix R n) ns) (own ns) <> v) ->
  exists (us : ctrls (map ic (i_gaps x0 ns xT).1)) r d' dV' (b : bool),
  [/\ i_iteration p th_feas rho inf T x0 fuel.+1 true true dxs dxT a0 (ISolver ns xT fT feas 0 c h ups d dV) =
        Some (ISolver (i_install (roll_states x0 us).1 us) (roll_states x0 us).2 (i_gaps x0 ns xT).2 true r
                (roll_cost T x0 us) 0 ups d' dV', if b then Some true else None, true, 1),
      0 <= r /\ r <= reg_max p, admissible x0 us &
      constrained_optimum T x0 ns (i_install (roll_states x0 us).1 us) (roll_states x0 us).2 (roll_cost T x0 us)].
Proof.
move=> hp hs0 hc0 hok0 hu hf0 hcase; have hp' := hp; case: hp' => hsane hsd hrm hrd hri.
have hsane' := hsane; case: hsane' => -[l el] h1 h2 h3 [h4 h5].
have [eg1 eg2] := ic_gaps ns x0 xT.
have em := im_gaps ns x0 xT.
have hg : gaps_of x0 (map ic (i_gaps x0 ns xT).1) xT (i_gaps x0 ns xT).2 by rewrite eg1 eg2; exact: set_gaps_ok.
have ecl := cl_im em.
have hs : i_symm T (i_gaps x0 ns xT).1 := symm_cl ecl hs0.
have hc : i_convex T (i_gaps x0 ns xT).1 := convex_cl ecl hc0.
have hok := ok_gaps x0 xT hok0.
have ec : cand_cost T (map ic (i_gaps x0 ns xT).1) xT = cand_cost T (map ic ns) xT by rewrite eg1 set_gaps_cost.
have hf : feas -> no_gaps (map ic (i_gaps x0 ns xT).1) (i_gaps x0 ns xT).2.
  by move=> ef; rewrite eg1 eg2; exact: set_gaps_traj (hf0 ef).
have hsat := sat_gaps x0 xT (ns := ns).
have htr : feas -> trajectory x0 (map ic (i_gaps x0 ns xT).1) xT by move=> /hf0 ?; rewrite eg1; exact: traj_gaps.
rewrite /i_iteration /i_calc_diff /=.
case: (i_gaps x0 ns xT) em hg hs hc hok ec hf hsat htr {eg1 eg2 ecl} => m f /= em hg hs hc hok ec hf hsat htr.
case: (@i_succeeds R n 0 feas T xT f m (lexx 0) hs hc hok) => bs [hb _]; rewrite hb el /= andbF.
have [ex ha eo _ hm] := step_full hs hok hg hf hb.
have hexact := step_exact hs hok hg hf hb; cbv zeta in hexact.
set h0 := hfeas inf (map _ ns) (own ns) in hcase *.
have hh0 : 0 <= h0 by exact: hfeas_ge0.
pose dd := ei_fddp (@cf R n) 0 feas (lq_tdiff T xT) f bs (diffs (map ic m) (lq_forward 1 true T f x0 0 bs).1.1.1)
  (xT - (lq_forward 1 true T f x0 0 bs).1.1.2).
rewrite eo in hm.
have hopt := iopt_im em (iopt_roll ha hm).
have hh1 : hfeas inf (lq_forward 1 true T f x0 0 bs).1.1.1 (lq_forward 1 true T f x0 0 bs).1.2 = 0.
  have -> : (lq_forward 1 true T f x0 0 bs).1.1.1 = (roll_states x0 (lq_forward 1 true T f x0 0 bs).1.2).1 by rewrite -ex.
  exact: hfeas_roll.
have acc : i_accepted p 1 ups (h0 - 0) dd (cand_cost T (map ic m) xT - (lq_forward 1 true T f x0 0 bs).2).
  rewrite subr0; apply: i_accepted_exact => //.
  case: hcase => [[ef hst]|[hn hd]].
    have hst' := hsat hst.
    have ht' := htr ef.
    have e0 : h0 = 0 by exact: hfeas_own.
    rewrite e0 mulr0 addr0.
    case: (hm _ (own_adm ht' hst')) => g1 g2.
    rewrite (own_cost _ ht') -eo in g1 g2.
    case: (eqVneq (cand_cost T (map ic m) xT) (lq_forward 1 true T f x0 0 bs).2) => e.
      have f0 : f = 0 by case: (hf ef).
      have k0 : all_stored (fun m (b : bnode R n m) => kff b = 0) bs.
        by move: (g2 e); rewrite f0 => e2; exact: own_kff ht' e2.
      apply: Or33; rewrite e subrr lexx; split=> //.
      rewrite /dd ef C21_fddp_feasible (i_ei_ddp _ (step_stored hs hok hb)) /=.
      by rewrite (kff_sums k0).1 addr0 normr0.
    by apply: Or31; rewrite subr_gt0 lt_def e.
  have ne : cand_cost T (map ic m) xT - (lq_forward 1 true T f x0 0 bs).2 + ups * h0 <> 0.
    move=> e; apply: (hd _ _ _ hopt); rewrite -ec -eo; apply/eqP; rewrite -subr_eq0; apply/eqP.
    by rewrite -[RHS]e; rng R.
  case: (ltgtP 0 (cand_cost T (map ic m) xT - (lq_forward 1 true T f x0 0 bs).2 + ups * h0)) => hl.
  - exact: Or31.
  - exact: Or32.
  - by case: ne.
rewrite ltxx ltr10 /= eqxx orbT total_cand add0r -ec.
move: acc; rewrite -{1}hh1 /dd.
move: ex ha eo hopt hh1; case: lq_forward => [[[xs xe] us] co] /= ex ha eo hopt hh1 acc; rewrite acc /=.
set r1 := (if (th_stepdec p < 1) && _ then decrease p 0 else 0).
set inc := (1 <= th_stepinc p) || _.
have [q1 q2] : 0 <= r1 /\ r1 < reg_max p.
  have hmx : 0 < reg_max p by exact: le_lt_trans h5 hrm.
  rewrite /r1; case: ifP => _ //; exact: (decrease_lt hp (lexx 0) (ltW hmx)).
rewrite (lt_eqF q2) andbF.
set r2 := (if inc then increase p r1 else r1).
have qr : 0 <= r2 /\ r2 <= reg_max p by rewrite /r2; case: ifP => _; [exact: increase_le|split=> //; exact: ltW].
set st := (_ < th_stop p).
exists us, r2, (ei_fddp (@cf R n) 0 feas (lq_tdiff T xT) f bs (diffs (map ic m) xs) (xT - xe)), (cand_cost T (map ic m) xT - co), st.
rewrite -ex /= -eo in hopt *; split=> //.
by rewrite /i_set /= hh1; case: (st).
Qed.

(** * The second iteration *)
Lemma isecond p th_feas rho inf (T : lqterm R n) x0 fuel dxs dxT a0 ns ns' xT fT r c ups d dV :
  isane p -> 0 <= r -> r <= reg_max p -> i_symm T ns -> i_convex T ns -> all_nodes (@node_ok R n) ns ->
  gaps_of x0 (map ic ns) xT 0 -> no_gaps (map ic ns) 0 -> i_gaps x0 ns' xT = (ns, 0) -> satisfies ns' ->
  cand_cost T (map ic ns') xT = cand_cost T (map ic ns) xT -> constrained_optimum T x0 ns ns xT c ->
  exists s',
  [/\ i_iteration p th_feas rho inf T x0 fuel.+1 false true dxs dxT a0 (ISolver ns' xT fT true r c 0 ups d dV) =
        Some (s', Some true, true, 1),
      constrained_optimum T x0 ns (i_ns s') (i_xT s') (i_cost s'), i_feas s' & i_hfeas s' = 0].
Proof.
move=> hp hr hr' hs hc hok hg hn eg hsat ecc hopt; have hp' := hp; case: hp' => hsane hsd hrm hrd hri.
case: hsane => -[l el] h1 h2 h3 [h4 h5].
case: (at_optimum hr hs hc hok hg hn hopt) => bs [hb hk].
have [s1 s2 s3] := stay T 1 0 hg hn hk.
have hst : istored bs by case: (hs) => hT _; apply: ibpass_stored hb => //; exact: i_symm_R hs.
have ha := fwd_admissible T 0 x0 0 hst.
have ex := @forward_states R n 1 T 0 _ x0 0 bs; cbv zeta in ex.
have hh1 : hfeas inf (lq_forward 1 true T 0 x0 0 bs).1.1.1 (lq_forward 1 true T 0 x0 0 bs).1.2 = 0.
  have -> : (lq_forward 1 true T 0 x0 0 bs).1.1.1 = (roll_states x0 (lq_forward 1 true T 0 x0 0 bs).1.2).1 by rewrite -ex.
  exact: hfeas_roll.
have ei y z : ei_fddp (@cf R n) r true (lq_tdiff T xT) 0 bs y z = (0, 0).
  rewrite C21_fddp_feasible (i_ei_ddp _ hst) /=; case: (kff_sums hk) => -> ->; by rewrite subrr addr0.
rewrite /i_iteration /i_calc_diff eg /= hb el /= hfeas_own // eqxx /= ltxx ltr10 /= total_cand !add0r ecc !ei.
have hf : satisfies (i_install (lq_forward 1 true T 0 x0 0 bs).1.1.1 (lq_forward 1 true T 0 x0 0 bs).1.2).
  have -> : (lq_forward 1 true T 0 x0 0 bs).1.1.1 = (roll_states x0 (lq_forward 1 true T 0 x0 0 bs).1.2).1 by rewrite -ex.
  exact: sat_install.
have him := im_install (lq_forward 1 true T 0 x0 0 bs).1.1.1 (lq_forward 1 true T 0 x0 0 bs).1.2.
rewrite -ic_install in s1.
move: s1 s2 s3 hh1 hf him; case: lq_forward => [[[xs xe] us] co] /= s1 s2 s3 hh1 hf him.
have acc : i_accepted p 1 ups (- hfeas inf xs us) (0, 0) (cand_cost T (map ic ns) xT - co).
  by rewrite /i_accepted /= hh1 oppr0 !(mulr0, addr0) lexx normr0 h1.
rewrite acc /= hh1 normr0 s3 add0r subrr lexx andbT.
set r1 := (if th_stepdec p < 1 then decrease p r else r).
have [q1 q2] : 0 <= r1 /\ r1 < reg_max p by rewrite /r1 hsd; exact: decrease_lt.
rewrite (lt_eqF q2) andbF /stopping /= mulr0 addr0 normr0 maxxx h2.
eexists; split; try reflexivity; rewrite /= s2; case: (hopt) => o1 o2 o3 <- o5.
exact: iopt_erase s1 him hf hopt.
Qed.

(** * C123 *)
Lemma isolved p th_feas rho inf (T : lqterm R n) x0 trial fuel maxiter ns xT fT (feas : bool) c h ups d dV a :
  isane p -> i_symm T ns -> i_convex T ns -> all_nodes (@node_ok R n) ns -> 0 <= ups ->
  (feas -> trajectory x0 (map ic ns) xT) ->
  (feas /\ satisfies ns \/
   1 < th_neg p /\ forall zs zT v, constrained_optimum T x0 ns zs zT v ->
     cand_cost T (map ic ns) xT + ups * hfeas inf (map (@ix R n) ns) (own ns) <> v) ->
  exists s ret it,
  [/\ i_solve p th_feas rho inf T x0 trial fuel.+1 maxiter.+1 0 true a (ISolver ns xT fT feas 0 c h ups d dV) =
        Some (s, ret, it),
      constrained_optimum T x0 ns (i_ns s) (i_xT s) (i_cost s), (it <= 2)%N, i_feas s &
      (0 < maxiter)%N -> ret].
Proof.
move=> hp hs hc hok hu hf hcase; rewrite /=.
set s0 := ISolver _ _ _ _ _ _ _ _ _ _.
case: (@ifirst p th_feas rho inf T x0 fuel (trial s0).1 (trial s0).2 a ns xT fT feas c h ups d dV hp hs hc hok hu hf hcase)
  => us [r [d' [dV' [b [-> [hr hr'] ha hopt]]]]].
case: b => /=; first by do 3!eexists; split; try reflexivity.
case: maxiter => [|maxiter] /=; first by do 3!eexists; split; try reflexivity.
set s1 := ISolver _ _ _ _ _ _ _ _ _ _.
pose ns' := i_install (roll_states x0 us).1 us; pose xe := (roll_states x0 us).2.
pose m := (i_gaps x0 ns' xe).1.
have [eg1 eg2] := ic_gaps ns' x0 xe.
have ig : set_gaps x0 (map ic ns') xe = (recandidate x0 us, 0) by rewrite ic_install install_gaps.
rewrite ig /= in eg1 eg2.
have em : map (@im R n) m = map (@im R n) ns by rewrite im_gaps im_install im_gaps.
have ecl := cl_im em.
have hok' : all_nodes (@node_ok R n) m by apply: ok_gaps; apply: ok_install; exact: ok_gaps.
have [hg hn] := recandidate_gaps x0 us.
rewrite -eg1 -/m in hg hn.
have ecc : cand_cost T (map ic ns') xe = cand_cost T (map ic m) xe.
  by rewrite /m eg1 -erase_cost ic_install install_erase.
have hopt' : constrained_optimum T x0 m m xe (roll_cost T x0 us).
  case: hopt => o1 o2 o3 o4 o5; split=> //.
  - by rewrite /m eg1; exact: recandidate_traj.
  - by apply: sat_gaps.
  - by rewrite -ecc.
  - move=> zs zT e1 e2 e3; rewrite em in e1; case: (o5 _ _ e1 e2 e3) => q1 q2; split=> // /q2 [-> ->].
    by rewrite /m eg1 ic_install install_erase recandidate_erase.
have egg : i_gaps x0 ns' xe = (m, 0) by rewrite [LHS]surjective_pairing eg2.
case: (@isecond p th_feas rho inf T x0 fuel (trial s1).1 (trial s1).2 1 m ns' xe (i_gaps x0 ns xT).2 r
  (roll_cost T x0 us) ups d' dV' hp hr hr' (symm_cl ecl hs) (convex_cl ecl hc) hok' hg hn egg (sat_install ha) ecc hopt')
  => s' [-> o f _].
by exists s', true, 2%N; split=> //; exact: iopt_im em o.
Qed.

(** From a feasible guess that satisfies the constraints *)
Theorem C123_admissible p th_feas rho inf (T : lqterm R n) x0 trial fuel maxiter ns xT fT c h ups d dV a :
  isane p -> i_symm T ns -> i_convex T ns -> all_nodes (@node_ok R n) ns -> 0 <= ups ->
  trajectory x0 (map ic ns) xT -> satisfies ns ->
  exists s ret it,
  [/\ i_solve p th_feas rho inf T x0 trial fuel.+1 maxiter.+1 0 true a (ISolver ns xT fT true 0 c h ups d dV) =
        Some (s, ret, it),
      constrained_optimum T x0 ns (i_ns s) (i_xT s) (i_cost s), (it <= 2)%N, i_feas s &
      (0 < maxiter)%N -> ret].
Proof. by move=> hp hs hc hok hu ht hsat; apply: isolved => //; left. Qed.
(** From any other guess.  Missing: a guess whose merit is exactly the optimal cost ([C123_refuted]). *)
Theorem C123_any_partial p th_feas rho inf (T : lqterm R n) x0 trial fuel maxiter ns xT fT (feas : bool) c h ups d dV a :
  isane p -> 1 < th_neg p -> i_symm T ns -> i_convex T ns -> all_nodes (@node_ok R n) ns -> 0 <= ups ->
  (feas -> trajectory x0 (map ic ns) xT) ->
  (forall zs zT v, constrained_optimum T x0 ns zs zT v ->
     cand_cost T (map ic ns) xT + ups * hfeas inf (map (@ix R n) ns) (own ns) <> v) ->
  exists s ret it,
  [/\ i_solve p th_feas rho inf T x0 trial fuel.+1 maxiter.+1 0 true a (ISolver ns xT fT feas 0 c h ups d dV) =
        Some (s, ret, it),
      constrained_optimum T x0 ns (i_ns s) (i_xT s) (i_cost s), (it <= 2)%N, i_feas s &
      (0 < maxiter)%N -> ret].
Proof. by move=> hp hn hs hc hok hu ht hd; apply: isolved => //; right. Qed.
End Props.
Print Assumptions C123_admissible.
Print Assumptions C123_any_partial.
