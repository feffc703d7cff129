(** C20-C23: concrete instances and the refuted part of C21. *)
From mathcomp Require Import all_ssreflect all_algebra.
From Verif Require Import RingTac LinAlg LinAlg_Proofs Riccati_Model Riccati_Spec Riccati_Proofs RiccatiLQ_Proofs Riccati_Props.
Set Implicit Arguments.
Unset Strict Implicit.
Unset Printing Implicit Defensive.
Import Order.TTheory GRing.Theory Num.Theory.
Local Open Scope ring_scope.

(** Scalar system x' = x + u, costs 1/2 x^2 + 1/2 u^2, terminal cost 1/2 x^2. *)
Notation Q := rat_realFieldType.
Definition v1 (a : rat) : 'cV[rat]_1 := a%:M.
Definition slq : lq Q 1 :=
  @LQ Q 1 1 1%:M 1%:M 0 1%:M 0 1%:M 0 0.
Definition sT : lqterm Q 1 := LQT (1%:M) 0.
Definition snode (x u f : rat) : cnode Q 1 := @CNode Q 1 slq (v1 x) (v1 u) (v1 f).

Lemma v1D a b : v1 a + v1 b = v1 (a + b).
Proof. by rewrite /v1 raddfD. Qed.
Lemma v1N a : - v1 a = v1 (- a).
Proof. by rewrite /v1 raddfN. Qed.
Lemma v10 : v1 0 = 0.
Proof. exact: raddf0. Qed.
Lemma v1Z a b : a *: v1 b = v1 (a * b).
Proof. by rewrite /v1 scale_scalar_mx. Qed.
Lemma dot_v1 a b : dot (v1 a : 'cV[Q]_1) (v1 b) = a * b.
Proof. by rewrite dot1 !mxE !mulr1n. Qed.

Lemma slq_next x u : lq_next (s := slq) (v1 x) (v1 u) = v1 (x + u).
Proof. by rewrite /lq_next /= !mul1mx addr0 v1D. Qed.
Lemma slq_cost x u : lq_cost (s := slq) (v1 x) (v1 u) = (x * x + u * u) / 2%:R.
Proof.
rewrite /lq_cost /= !mul1mx mul0mx !dot0r !dot0l !addr0.
by rewrite !dot_v1 -mulrDr mulrC.
Qed.
Lemma sT_cost x : lq_tcost sT (v1 x) = x * x / 2%:R.
Proof. by rewrite /lq_tcost /= mul1mx dot0l addr0 dot_v1 mulrC. Qed.
Lemma s_symm ns : all_nodes (fun d : cnode Q 1 => cl d = slq) ns -> lq_symm sT ns.
Proof.
move=> h; split; first exact: symm_scalar.
elim: ns h => //= d ns IH [e h]; split; last exact: IH.
by rewrite e; split; exact: symm_scalar.
Qed.
Lemma s_convex ns : all_nodes (fun d : cnode Q 1 => cl d = slq) ns -> convex_lq sT ns.
Proof.
have p1 k : psd (1%:M : 'M[Q]_k) by apply: psd_scalar; rewrite ler01.
move=> h; split; first exact: p1.
elim: ns h => //= d ns IH [e h]; split; last exact: IH.
case: d e => s x u f /= e; subst s; split=> [w hw|w z] /=.
  by rewrite mul1mx dot_gt0.
by rewrite mul0mx dot0r mulr0 addr0 !mul1mx addr_ge0 // dot_ge0.
Qed.

(** C20, C21, C22, C23 instance: horizon 2 from x0 = 1, guess x = (0, 0, 0), u = (0, 0)
    with a gap at the first node. *)
Definition guess : seq (cnode Q 1) := [:: snode 0 0 1; snode 0 0 0].
Example C20_instance :
  lq_symm sT guess /\ gaps_of (v1 1) guess (v1 0) (v1 0) /\
  exists bs, bpass (@cder Q 1) (@cf Q 1) 0 false (lq_tdiff sT (v1 0)) (v1 0) guess = Some bs /\
    (** better than not acting at all *)
    (lq_forward 1 true sT (v1 0) (v1 1) 0 bs).2 <= 3%:R / 2%:R.
Proof.
have hs : lq_symm sT guess by exact: s_symm.
have hg : gaps_of (v1 1) guess (v1 0) (v1 0).
  by rewrite /guess /gaps_of /= !slq_next !v1N !v1D !subr0.
split=> //; split=> //.
case: (@C20_convex_solvable Q 1 false sT (v1 0) (v1 0) guess hs (s_convex _)) => // bs hb.
exists bs; split=> //.
have hf : false -> no_gaps guess (v1 0) by [].
move: (C20_full_step_optimal hs hg hf hb).
case: lq_forward => [[[xs xe] us] c] [_ _ hmin _] /=.
apply: le_trans (hmin (v1 0, (v1 0, tt))) _ => /=.
by rewrite !slq_next !slq_cost sT_cost !addr0.
Qed.
Example C22_C23_instance :
  symm (TLxx (lq_tdiff sT (v1 0))) /\ psd (TLxx (lq_tdiff sT (v1 0))) /\
  all_nodes (fun d => stage_symm (cder d) /\ stage_psd (cder d)) guess /\
  exists bs, bpass (@cder Q 1) (@cf Q 1) 1 false (lq_tdiff sT (v1 0)) (v1 0) guess = Some bs.
Proof.
have h1 : symm (TLxx (lq_tdiff sT (v1 0))) by exact: symm_scalar.
have h2 : psd (TLxx (lq_tdiff sT (v1 0))) by apply: psd_scalar; rewrite ler01.
have h3 : all_nodes (fun d => stage_symm (cder d) /\ stage_psd (cder d)) guess.
  case: (s_convex (ns := guess)) => // _ [[_ ?] [[_ ?] _]].
  by do !split=> //; exact: symm_scalar.
split=> //; split=> //; split=> //.
apply: C22_convex_succeeds => //; left; exact: ltr01.
Qed.

(** With a gap and a partial step the FDDP prediction is wrong: x0 = 0, guess x = (0, -1),
    u = 0 with terminal gap 1; the half step predicts 1/4 but the cost decreases by 3/8. *)
Definition gapped : seq (cnode Q 1) := [:: snode 0 0 0].
Theorem C21_fddp_gaps_refuted : exists (a : rat) (T : lqterm Q 1) x0 xT fT ns bs,
  [/\ 0 < a < 1, lq_symm T ns, gaps_of x0 ns xT fT,
      bpass (@cder Q 1) (@cf Q 1) 0 false (lq_tdiff T xT) fT ns = Some bs &
      let r := lq_forward a (a == 1) T fT x0 0 bs in
      let d := ei_fddp (@cf Q 1) 0 false (lq_tdiff T xT) fT bs (trial_diffs ns r.1.1.1) (xT - r.1.1.2) in
      cand_cost T ns xT - r.2 <> a * d.1 + 2%:R^-1 * a ^+ 2 * d.2].
Proof.
pose a : rat := 2%:R^-1.
have hs : lq_symm sT gapped by exact: s_symm.
have hg : gaps_of (v1 0) gapped (v1 (-1)) (v1 1).
  by rewrite /gapped /gaps_of /= slq_next !v1N !v1D.
case: (@C20_convex_solvable Q 1 false sT (v1 (-1)) (v1 1) gapped hs (s_convex _)) => // bs hb.
exists a, sT, (v1 0), (v1 (-1)), (v1 1), gapped, bs; split=> //.
move=> r d; set X := a * d.1 + _.
rewrite (C21_fddp_error_partial a hs hg hb) -/r -/d -/X => /eqP.
rewrite -subr_eq0 [X + _]addrC addrK => {X}.
have k0 : kff bs.1 = 0.
  case: (bpass_cons hb) => h1 h2.
  case: (bstep_facts (s := cder (snode 0 0 0)) _ _ h2) => /=.
  - by rewrite raddf0 addr0; exact: symm_scalar.
  - exact: symm_scalar.
  move=> [_ pq ek _ _] [_ eq _ _ _] _.
  apply: (posdef_form0 pq); rewrite ek eq.
  have -> : (0^T *m v1 0 + 1%:M *m v1 0 + 0) + (1%:M)^T *m (1%:M *m v1 (-1) + 0 + (1%:M + 0%:M) *m v1 1) = 0 :> 'cV[Q]_1.
    rewrite trmx0 mul0mx !addr0 !add0r tr_scalar_mx !mul1mx mulmxDl mul1mx raddf0 mul0mx addr0.
    by rewrite !v1D -v10.
  by rewrite dot0r.
have ha : (a == 1) = false by [].
have ey : r.1.1.2 = v1 (- a).
  rewrite /r ha /= k0 scaler0 subr0 v10 scaler0 addr0 subrr mulmx0 subr0 -v10 slq_next v1Z v1D.
  by congr v1.
have -> : trial_diffs gapped r.1.1.1 = [:: 0].
  by rewrite /r ha /trial_diffs /= v10 scaler0 addr0 subrr.
rewrite ey /= v10 dot0l subr0 mul1mx v1N v1D dot_v1 /a.
by vm_compute.
Qed.
Print Assumptions C20_full_step_optimal.
Print Assumptions C20_convex_solvable.
Print Assumptions C20_then_converged.
Print Assumptions C21_ddp_exact.
Print Assumptions C21_fddp_feasible.
Print Assumptions C21_fddp_error_partial.
Print Assumptions C21_fddp_full_step.
Print Assumptions C21_fddp_gaps_refuted.
Print Assumptions C22_symmetric.
Print Assumptions C22_semidefinite.
Print Assumptions C22_convex_succeeds.
Print Assumptions C23_sign.
Print Assumptions C23_stop_iff_stationary.
