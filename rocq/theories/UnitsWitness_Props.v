(** C132: concrete instances and the refuted parts. *)
From mathcomp Require Import all_ssreflect all_algebra.
From Verif Require Import RingTac LinAlg LinAlg_Proofs Riccati_Model Riccati_Spec Riccati_Proofs
  RiccatiLQ_Proofs Riccati_Props RiccatiWitness_Props Units_Model Units_Props.
Set Implicit Arguments.
Unset Strict Implicit.
Unset Printing Implicit Defensive.
Import Order.TTheory GRing.Theory Num.Theory.
Local Open Scope ring_scope.

(** One node with one control: cost u + 1/2 u^2, dynamics x' = 0. *)
Definition ust : stage Q 1 := @Stage Q 1 1 0 0 0 (v1 1) 0 0 (v1 1).
Definition uT : terminal Q 1 := Terminal 0 0.

Lemma ust_pass (s : stage Q 1) (T : terminal Q 1) q (preg : rat) :
  Fu s = 0 -> Luu s = q%:M -> symm (TLxx T) -> 0 < q + preg ->
  exists b, bpass (fun _ : unit => s) (fun _ => 0) preg true T 0 [:: tt] = Some (b, tt) /\
            (q + preg) *: kff b = Lu s.
Proof.
move=> eF eL sT hp.
have sv : symm (vterm (preg : Q) true T 0).2 by apply: symmD => //; exact: symm_scalar.
have sL : symm (Luu s) by rewrite eL; exact: symm_scalar.
have eq : Luu s + (Fu s)^T *m (vterm (preg : Q) true T 0).2 *m Fu s + preg%:M = (q + preg)%:M.
  by rewrite eF eL mulmx0 addr0 raddfD.
have pq : posdef (Luu s + (Fu s)^T *m (vterm (preg : Q) true T 0).2 *m Fu s + preg%:M).
  by rewrite eq => x hx; rewrite mul_scalar_mx dotZr mulr_gt0 // dot_gt0.
case: (@bstep_ok Q 1 preg true s 0 _ sv sL pq) => b hb.
exists b; split; first by rewrite /= hb.
case: (bstep_facts sv sL hb) => -[_ _ hk _ _] [_ e2 _ _ e5] _.
by move: hk; rewrite e5 e2 eq mul_scalar_mx eF trmx0 mul0mx addr0.
Qed.

Lemma sym0 : symm (0 : 'M[Q]_1).
Proof. by rewrite /symm trmx0. Qed.

(** The regularization is an absolute number: with the same value, doubling all costs
    changes the direction. *)
Theorem C132_cost_refuted :
  exists (s : stage Q 1) (T : terminal Q 1) (preg : rat) b b',
    [/\ 0 < preg, symm (TLxx T) /\ stage_symm s,
        bpass (fun _ : unit => s) (fun _ => 0) preg true T 0 [:: tt] = Some b,
        bpass (fun _ : unit => scale_stage 2%:R s) (fun _ => 0) preg true (scale_term 2%:R T) 0 [:: tt] = Some b' &
        kff b'.1 <> kff b.1].
Proof.
have [b [hb kb]] := @ust_pass ust uT 1 1 erefl erefl sym0 isT.
have hL : Luu (scale_stage 2%:R ust) = 2%:R%:M by rewrite /= v1Z.
have hT : symm (TLxx (scale_term (2%:R : Q) uT)) by rewrite /= scaler0; exact: sym0.
have [b' [hb' kb']] := @ust_pass (scale_stage 2%:R ust) (scale_term 2%:R uT) 2%:R 1 erefl hL hT isT.
exists ust, uT, 1, (b, tt), (b', tt); split=> //.
  by split; [exact: sym0|split; [exact: sym0|exact: symm_scalar]].
move=> /= e; move: kb'; rewrite e /=.
have -> : (2%:R + 1 : rat) = 3%:R / 2%:R * (1 + 1) by [].
rewrite -scalerA kb /= !v1Z => /(congr1 (fun M : 'cV[rat]_1 => M 0 0)).
by rewrite !mxE.
Qed.

(** Likewise for the unit of the controls. *)
Theorem C132_basis_refuted :
  exists (s : stage Q 1) (S : 'M[rat]_(nu s)) (T : terminal Q 1) (preg : rat) b b',
    [/\ 0 < preg, symm (TLxx T) /\ stage_symm s, S \in unitmx,
        bpass (fun _ : unit => s) (fun _ => 0) preg true T 0 [:: tt] = Some b /\
        bpass (fun _ : unit => basis_stage S) (fun _ => 0) preg true T 0 [:: tt] = Some b' &
        S *m kff b'.1 <> kff b.1].
Proof.
have [b [hb kb]] := @ust_pass ust uT 1 1 erefl erefl sym0 isT.
pose S : 'M[Q]_(nu ust) := 2%:R%:M.
have hF : Fu (basis_stage S) = 0 by rewrite /= mul0mx.
have hL : Luu (basis_stage S) = 4%:R%:M.
  by rewrite /= tr_scalar_mx mul_scalar_mx mul_mx_scalar scalerA v1Z.
have [b' [hb' kb']] := @ust_pass (basis_stage S) uT 4%:R 1 hF hL sym0 isT.
exists ust, S, uT, 1, (b, tt), (b', tt); split=> //.
- by split; [exact: sym0|split; [exact: sym0|exact: symm_scalar]].
- by rewrite unitmxE det_scalar expr1 unitfE.
rewrite /= mul_scalar_mx => e; move: kb.
rewrite -e scalerA.
have -> : ((1 + 1) * 2%:R : rat) = 4%:R / 5%:R * (4%:R + 1) by [].
rewrite -scalerA kb' /= tr_scalar_mx mul_scalar_mx !v1Z => /(congr1 (fun M : 'cV[rat]_1 => M 0 0)).
by rewrite !mxE.
Qed.

(** A problem meeting the hypotheses of the positive theorems: horizon 2 with a gap, with
    regularization 1 (costs) and 0 (basis), and a halved unit of the controls. *)
Example C132_ex :
  (0 < 3%:R :> rat) /\ symm (TLxx (lq_tdiff sT (v1 0))) /\
  all_nodes (fun d => stage_symm (cder d)) guess /\
  all_nodes (fun d : cnode Q 1 => (2%:R%:M : 'M[Q]_(nu (cder d))) \in unitmx : Prop) guess /\
  (exists bs, bpass (@cder Q 1) (@cf Q 1) 1 false (lq_tdiff sT (v1 0)) (v1 0) guess = Some bs) /\
  (exists bs, bpass (@cder Q 1) (@cf Q 1) 0 false (lq_tdiff sT (v1 0)) (v1 0) guess = Some bs).
Proof.
case: C22_C23_instance => h1 [_ [h3 h4]].
split=> //; split=> //; split; first by case: h3 => -[? _] [[? _] _]; split=> //; split.
split; last by split=> //; case: C20_instance => _ [_ [bs [h _]]]; exists bs.
have u2 : (2%:R%:M : 'M[Q]_1) \in unitmx by rewrite unitmxE det_scalar expr1 unitfE.
by split=> //; split.
Qed.

Print Assumptions C132_cost_refuted.
Print Assumptions C132_basis_refuted.
