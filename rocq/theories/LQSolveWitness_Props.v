(** C122: instances and the refuted parts. *)
From mathcomp Require Import all_ssreflect all_algebra.
From Verif Require Import RingTac LinAlg LinAlg_Proofs Riccati_Model Riccati_Spec Riccati_Proofs RiccatiLQ_Proofs Riccati_Props RiccatiWitness_Props.
From Verif Require Import LQSolve_Model LQSolve_Props.
Set Implicit Arguments.
Unset Strict Implicit.
Unset Printing Implicit Defensive.
Import Order.TTheory GRing.Theory Num.Theory.
Local Open Scope ring_scope.

(** x' = x, cost 1/2 u^2 + r u, terminal cost 1/2 x^2 *)
Definition wlq (r : rat) : lq Q 1 := @LQ Q 1 1 1%:M 0 0 0 0 1%:M 0 (v1 r).
Definition wnode (r x u f : rat) : cnode Q 1 := @CNode Q 1 (wlq r) (v1 x) (v1 u) (v1 f).

Lemma w_symm r x u f : lq_symm sT [:: wnode r x u f].
Proof. by split; [exact: symm_scalar|split=> //; split; rewrite /= ?/symm ?trmx0 //; exact: symm_scalar]. Qed.
Lemma w_convex r x u f : convex_lq sT [:: wnode r x u f].
Proof.
split; first by apply: psd_scalar; rewrite ler01.
split=> //; split=> [w hw|w z] /=; first by rewrite mul1mx dot_gt0.
by rewrite !mul0mx !dot0r mulr0 !add0r mul1mx dot_ge0.
Qed.
Lemma w_next r x u : lq_next (s := wlq r) (v1 x) (v1 u) = v1 x.
Proof. by rewrite /lq_next /= mul1mx mul0mx !addr0. Qed.
Lemma w_cost r x u : lq_cost (s := wlq r) (v1 x) (v1 u) = u * u / 2%:R + r * u.
Proof. by rewrite /lq_cost /= !mul0mx !dot0r !dot0l mulr0 !addr0 add0r mul1mx !dot_v1 mulrC. Qed.

Lemma lower_v1 (a : rat) : lower_sym (a%:M : 'M[Q]_1) = a%:M.
Proof. by apply/matrixP=> i j; rewrite !ord1 mxE. Qed.
Lemma solve_v1 (a b : rat) : llt_solve (a%:M : 'M[Q]_1) (v1 b) = v1 (a^-1 * b).
Proof. by rewrite /llt_solve lower_v1 invmx_scalar mul_scalar_mx v1Z. Qed.
Lemma ok_v1 (a : rat) : llt_ok (a%:M : 'M[Q]_1) = (0 < a).
Proof. by rewrite /= mxE eqxx mulr1n andbT. Qed.

Lemma solve_0 (A : 'M[Q]_1) : llt_solve A (0 : 'cV[Q]_1) = 0.
Proof. by rewrite /llt_solve mulmx0. Qed.
Lemma S1 (a b : rat) : a%:M + b%:M = (a + b)%:M :> 'M[Q]_1.
Proof. by rewrite raddfD. Qed.
Lemma M1 (a b : rat) : (a%:M : 'M[Q]_1) *m v1 b = v1 (a * b).
Proof. by rewrite mul_scalar_mx v1Z. Qed.
Lemma Z1 (a b : rat) : a *: (b%:M : 'M[Q]_1) = (a * b)%:M.
Proof. by rewrite scale_scalar_mx. Qed.
Lemma mean (a : rat) : 2%:R^-1 * (a + a) = a.
Proof. by rewrite -mulr2n -[a *+ 2]mulr_natl mulKf. Qed.
Arguments llt_ok : simpl never.
Arguments llt_solve : simpl never.
Definition wb (preg r x u f xT fT : rat) (feas : bool) : bnode Q 1 1 :=
  let vT := if feas then xT else xT + (1 + preg) * fT in
  @BNode Q 1 1 (v1 vT) (v1 (u + r)) ((1 + preg)%:M) 0 ((1 + preg)%:M)
    (v1 ((1 + preg)^-1 * (u + r))) 0 ((1 + preg)%:M *m v1 ((1 + preg)^-1 * (u + r)))
    (v1 (if feas then vT else vT + (1 + preg + preg) * f)) ((1 + preg + preg)%:M).
Lemma w_pass (preg r x u f xT fT : rat) feas : 0 <= preg ->
  bpass (@cder Q 1) (@cf Q 1) preg feas (lq_tdiff sT (v1 xT)) (v1 fT) [:: wnode r x u f] =
  Some (wb preg r x u f xT fT feas, tt).
Proof.
move=> hp /=; rewrite /bstep /=.
rewrite ?trmx0 ?mul0mx ?mulmx0 ?addr0 ?add0r ?tr_scalar_mx ?mul1mx ?mulmx1 ?trmx0 ?solve_0 ?trmx0 ?mul0mx ?mulmx0 ?subr0 ?addr0.
rewrite !S1 ok_v1.
have -> : 0 < 1 + preg by apply: lt_le_trans ltr01 _; rewrite ler_addl.
rewrite !tr_scalar_mx !S1 !Z1 !S1 !M1 !v1D solve_v1 /wb.
have -> : 2%:R^-1 * (1 + preg + (1 + preg)) = 1 + preg by exact: mean.
by congr (Some (_, tt)); case: feas; rewrite ?v1D.
Qed.

Lemma w_calc (x0 r x u f xT fT : rat) (feas was : bool) (preg c : rat) d :
  calc_diff sT (v1 x0) (Solver [:: wnode r x u f] (v1 xT) (v1 fT) feas was preg c d) =
  Solver [:: wnode r x u (x0 - x)] (v1 xT) (v1 (x - xT)) feas was preg (u * u / 2%:R + r * u + xT * xT / 2%:R) d.
Proof.
rewrite /calc_diff /s_ns /s_xT /s_feas /s_was /s_preg /s_d /set_gaps /total.
rewrite [cl (wnode _ _ _ _)]/(wlq r) [cx (wnode _ _ _ _)]/(v1 x) [cu (wnode _ _ _ _)]/(v1 u).
by rewrite w_next w_cost sT_cost add0r /= /wnode !v1N !v1D.
Qed.
Lemma w_iter k p (x0 r x u f xT fT : rat) (feas was : bool) (preg c : rat) d a0 : 0 <= preg ->
  let s := Solver [:: wnode r x u (x0 - x)] (v1 xT) (v1 (x - xT)) feas was preg (u * u / 2%:R + r * u + xT * xT / 2%:R) d in
  let bs : bnodes (@cder Q 1) (s_ns s) := (wb preg r x u (x0 - x) xT (x - xT) feas, tt) in
  iteration k p sT (v1 x0) 1 true a0 (Solver [:: wnode r x u f] (v1 xT) (v1 fT) feas was preg c d) =
  (let d := match k with LDDP => ei_ddp (0, 0) bs | LFDDP => s_d s end in
   let '(s1, a, acc) := @search Q 1 k p sT (v1 x0) s bs d a0 (alphas p) in
   let r1 := if th_stepdec p < a then decrease p preg else preg in
   let inc := a <= th_stepinc p in
   let r2 := if inc then increase p r1 else r1 in
   let s2 := set_preg r2 s1 in
   if inc && (r2 == reg_max p) then Some (s2, Some false, acc, a)
   else if s_was s2 && (stopping (s_d s2) < th_stop p) then Some (s2, Some true, acc, a)
   else Some (s2, None, acc, a)).
Proof.
move=> hp s bs; rewrite /iteration w_calc.
have hd : direct p sT 1 feas [:: wnode r x u (x0 - x)] (v1 xT) (v1 (x - xT)) preg =
    Some (preg, Some ((wb preg r x u (x0 - x) xT (x - xT) feas, tt) : bnodes (@cder Q 1) [:: wnode r x u (x0 - x)])).
  by rewrite /direct w_pass.
by rewrite [direct _ _ _ _ _ _ _ _]hd.
Qed.

(** A trial of FDDP from a guess with a gap at the first node only (u = 0, no linear term, no regularization) *)
Lemma w_ei (x f xT xt yt : rat) :
  ei_fddp (ns := [:: wnode 0 x 0 f]) (@cf Q 1) 0 false (lq_tdiff sT (v1 xT)) (v1 0)
    ((wb 0 0 x 0 f xT 0 false, tt) : bnodes (@cder Q 1) [:: wnode 0 x 0 f])
    (diffs [:: wnode 0 x 0 f] [:: v1 xt]) (v1 xT - v1 yt) =
  (- ((xT + f) * f) - f * (x - xt), f * f + 2%:R * (f * (x - xt))).
Proof.
rewrite /ei_fddp /upd_fddp /= !v10 !dot0l oppr0 !mulmx0 !dot0r.
rewrite !v1N !v1D !M1 !dot_v1 !addr0 !mul1r ?mulr0 ?addr0 ?add0r.
by rewrite mulrN opprK.
Qed.
Lemma w_forward (a x f xT x0 : rat) (close : bool) :
  lq_forward (ns := [:: wnode 0 x 0 f]) a close sT (v1 0) (v1 x0) 0
    ((wb 0 0 x 0 f xT 0 false, tt) : bnodes (@cder Q 1) [:: wnode 0 x 0 f]) =
  (let xt := if close then x0 else x0 + (a - 1) * f in
   ([:: v1 xt], v1 xt, ((v1 0, tt) : ctrls [:: wnode 0 x 0 f]), xt * xt / 2%:R)).
Proof.
rewrite /= mul0mx subr0 addr0 mulr0 v10 !scaler0 subr0 !addr0.
have -> : (if close then v1 x0 else v1 x0 + (a - 1) *: v1 f) = v1 (if close then x0 else x0 + (a - 1) * f).
  by case: close => //; rewrite v1Z v1D.
move: (if close then x0 else _) => xt.
have en : lq_next (s := wlq 0) (v1 xt) 0 = v1 xt by rewrite -v10 w_next.
have ec : lq_cost (s := wlq 0) (v1 xt) 0 = 0 by rewrite -v10 w_cost !mul0r add0r.
rewrite !en ec.
have -> : (if close then v1 xt else v1 xt) = v1 xt by case: close.
by rewrite sT_cost !add0r.
Qed.
Arguments lq_forward : simpl never.
Arguments ei_fddp : simpl never.
Arguments diffs : simpl never.
Lemma w_try p (x0 x f xT : rat) (was : bool) (c : rat) d0 d a0 a l : 0 <= a <= 1 ->
  let s := Solver [:: wnode 0 x 0 f] (v1 xT) (v1 0) false was 0 c d0 in
  let bs : bnodes (@cder Q 1) (s_ns s) := (wb 0 0 x 0 f xT 0 false, tt) in
  let xt := if a == 1 then x0 else x0 + (a - 1) * f in
  let d' := (- ((xT + f) * f) - f * (x - xt), f * f + 2%:R * (f * (x - xt))) in
  @search Q 1 LFDDP p sT (v1 x0) s bs d a0 (a :: l) =
  if accepted LFDDP p a false d' (c - xt * xt / 2%:R)
  then (Solver [:: wnode 0 xt 0 f] (v1 xt) (v1 0) (a == 1) false 0 (xt * xt / 2%:R) d', a, true)
  else @search Q 1 LFDDP p sT (v1 x0) s bs d' a l.
Proof.
move=> /andP [h0 h1] s bs xt d'.
have ha : (1 < a) || (a < 0) = false by rewrite !ltNge h0 h1.
have hF : lq_forward a (a == 1) sT (v1 0) (v1 x0) 0 bs =
    ([:: v1 xt], v1 xt, ((v1 0, tt) : ctrls (s_ns s)), xt * xt / 2%:R) by exact: w_forward.
have hE : ei_fddp (@cf Q 1) 0 false (lq_tdiff sT (v1 xT)) (v1 0) bs (diffs (s_ns s) [:: v1 xt]) (v1 xT - v1 xt) = d'.
  by exact: w_ei.
have -> : @search Q 1 LFDDP p sT (v1 x0) s bs d a0 (a :: l) =
  if (1 < a) || (a < 0) then @search Q 1 LFDDP p sT (v1 x0) s bs d a l
  else
    let r := lq_forward a (a == 1) sT (v1 0) (v1 x0) 0 bs in
    let d' := ei_fddp (@cf Q 1) 0 false (lq_tdiff sT (v1 xT)) (v1 0) bs (diffs (s_ns s) r.1.1.1) (v1 xT - r.1.1.2) in
    if accepted LFDDP p a false d' (c - r.2)
    then (Solver (install r.1.1.1 r.1.2) r.1.1.2 (v1 0) (a == 1) false 0 r.2 d', a, true)
    else @search Q 1 LFDDP p sT (v1 x0) s bs d' a l by [].
by rewrite ha hF; cbv zeta; rewrite hE.
Qed.
Definition wp : params Q := Params (10%:R^-1) 2%:R (100%:R^-1) (100%:R^-1) (2%:R^-1) (100%:R^-1) 0 1 10%:R 10%:R [:: 1; 2%:R^-1].
Ltac rq := by apply/eqP; vm_compute.
Lemma wp_sane : sane wp /\ 1 < th_neg wp.
Proof. by split; [split; [exists [:: 2%:R^-1]| | | |]|]; try by vm_compute. Qed.

Definition s0 : solver Q 1 := Solver [:: wnode 0 (-1) 0 0] (v1 (-1)) (v1 0) false false 0 0 (0, 0).
Lemma w_it1 : exists f c d, iteration LFDDP wp sT (v1 1) 1 true 0 s0 =
  Some (Solver [:: wnode 0 0 0 f] (v1 0) (v1 0) false false 0 c d, None, true, 2%:R^-1).
Proof.
rewrite /s0 w_iter //; cbv zeta; rewrite subrr.
have -> : alphas wp = [:: 1; 2%:R^-1] by [].
rewrite w_try //.
have -> : accepted LFDDP wp 1 false
   (- ((-1 + (1 - -1)) * (1 - -1)) - (1 - -1) * (-1 - (if 1 == 1 :> rat then 1 else 1 + (1 - 1) * (1 - -1))),
    (1 - -1) * (1 - -1) + 2%:R * ((1 - -1) * (-1 - (if 1 == 1 :> rat then 1 else 1 + (1 - 1) * (1 - -1)))))
   (0 * 0 / 2%:R + 0 * 0 + -1 * -1 / 2%:R -
    (if 1 == 1 :> rat then 1 else 1 + (1 - 1) * (1 - -1)) * (if 1 == 1 :> rat then 1 else 1 + (1 - 1) * (1 - -1)) / 2%:R)
   = false by vm_compute.
rewrite w_try //.
have -> : (if 2%:R^-1 == 1 :> rat then 1 else 1 + (2%:R^-1 - 1) * (1 - -1)) = 0 :> rat by rq.
have -> : accepted LFDDP wp 2%:R^-1 false
   (- ((-1 + (1 - -1)) * (1 - -1)) - (1 - -1) * (-1 - 0), (1 - -1) * (1 - -1) + 2%:R * ((1 - -1) * (-1 - 0)))
   (0 * 0 / 2%:R + 0 * 0 + -1 * -1 / 2%:R - 0 * 0 / 2%:R) = true by vm_compute.
cbv iota beta.
have -> : (th_stepdec wp < 2%:R^-1) = false by vm_compute.
have -> : (2%:R^-1 <= th_stepinc wp) = false by vm_compute.
have -> : (2%:R^-1 == 1 :> rat) = false by vm_compute.
by do 3!eexists; reflexivity.
Qed.
Lemma w_it2 f c d : exists f' c' d', iteration LFDDP wp sT (v1 1) 1 true 2%:R^-1
    (Solver [:: wnode 0 0 0 f] (v1 0) (v1 0) false false 0 c d) =
  Some (Solver [:: wnode 0 1 0 f'] (v1 1) (v1 0) true false 0 c' d', None, true, 1).
Proof.
rewrite w_iter //; cbv zeta; rewrite subrr subr0.
have -> : alphas wp = [:: 1; 2%:R^-1] by [].
rewrite w_try //.
have -> : (if 1 == 1 :> rat then 1 else 1 + (1 - 1) * 1) = 1 :> rat by [].
have -> : accepted LFDDP wp 1 false
   (- ((0 + 1) * 1) - 1 * (0 - 1), 1 * 1 + 2%:R * (1 * (0 - 1)))
   (0 * 0 / 2%:R + 0 * 0 + 0 * 0 / 2%:R - 1 * 1 / 2%:R) = true by vm_compute.
cbv iota beta.
have -> : (th_stepdec wp < 1) = true by vm_compute.
have -> : (1 <= th_stepinc wp) = false by vm_compute.
have -> : decrease wp 0 = 0 by rq.
by do 3!eexists; reflexivity.
Qed.
(** The guess x = (-1, -1), u = 0 of the problem with x0 = 1 costs exactly as much as the optimum: the full step
    is rejected, the half step closes half of the gap, and the second iteration closes it without
    converging. *)
Theorem C122_fddp_refuted : exists p (T : lqterm Q 1) x0 ns xT s it,
  [/\ sane p, 1 < th_neg p, lq_symm T ns, convex_lq T ns &
      lq_solve LFDDP p T x0 1 2 ns xT false 0 0 0 (0, 0) 0 = Some (s, false, it)].
Proof.
case: w_it1 => f [c [d e1]]; case: (w_it2 f c d) => f' [c' [d' e2]].
exists wp, sT, (v1 1), [:: wnode 0 (-1) 0 0], (v1 (-1)); do 2!eexists.
split; [exact: wp_sane.1|exact: wp_sane.2|exact: w_symm|exact: w_convex|].
rewrite /lq_solve -v10 /solve -/s0 e1; cbv iota beta; rewrite e2; reflexivity.
Qed.
Print Assumptions C122_fddp_refuted.

(** A regularized solve stops short of the optimum: x0 = 0, guess x = (0, 0), u = 0, cost 1/2 u^2 + u, init_reg = 1.
    The first iteration reaches u = -1/2 and the stopping value 1/4 is below th_stop. *)
Definition wp1 : params Q := Params (10%:R^-1) 2%:R (100%:R^-1) 1 (2%:R^-1) (100%:R^-1) 0 1 10%:R 10%:R [:: 1; 2%:R^-1].
Lemma wp1_sane : sane wp1.
Proof. by split; [exists [:: 2%:R^-1]| | | |]; try by vm_compute. Qed.
Definition wh : bnode Q 1 1 := wb 1 1 0 0 (0 - 0) 0 (0 - 0) true.
Lemma wh_ei : ei_ddp (ns := [:: wnode 1 0 0 (0 - 0)]) (0, 0) ((wh, tt) : bnodes (@cder Q 1) [:: wnode 1 0 0 (0 - 0)]) =
  (2%:R^-1, - 2%:R^-1).
Proof. by rewrite /= M1 !dot_v1; congr pair; rq. Qed.
Lemma wh_forward :
  lq_forward (ns := [:: wnode 1 0 0 (0 - 0)]) 1 true sT (v1 (0 - 0)) (v1 0) 0
    ((wh, tt) : bnodes (@cder Q 1) [:: wnode 1 0 0 (0 - 0)]) =
  ([:: v1 0], v1 0, ((v1 (- 2%:R^-1), tt) : ctrls [:: wnode 1 0 0 (0 - 0)]), - (3%:R / 8%:R)).
Proof.
have e : v1 0 - 1 *: v1 ((1 + 1)^-1 * (0 + 1)) - 0 *m (v1 0 - v1 0) = v1 (- 2%:R^-1).
  by rewrite mul0mx subr0 scale1r v1N v1D; congr v1; rq.
rewrite /lq_forward [kff _]/= [Kfb _]/= [cu _]/= [cx _]/= [cl _]/= !e.
by rewrite !w_next w_cost sT_cost; congr pair; rq.
Qed.
Theorem C122_regularized_refuted : exists p (T : lqterm Q 1) x0 ns xT s it,
  [/\ sane p, lq_symm T ns, convex_lq T ns, trajectory x0 ns xT &
      lq_solve LDDP p T x0 1 2 ns xT true 1 0 0 (0, 0) 0 = Some (s, true, it) /\
      ~ the_optimum T x0 ns (s_ns s) (s_xT s) (s_cost s)].
Proof.
exists wp1, sT, (v1 0), [:: wnode 1 0 0 0], (v1 0); do 2!eexists.
split; [exact: wp1_sane|exact: w_symm|exact: w_convex|by split=> //; rewrite w_next|].
split.
  rewrite /lq_solve -v10 /solve w_iter //; cbv zeta.
  have -> : alphas wp1 = [:: 1; 2%:R^-1] by [].
  rewrite [ei_ddp _ _]wh_ei.
  have -> d a0 l : @search Q 1 LDDP wp1 sT (v1 0)
      (Solver [:: wnode 1 0 0 (0 - 0)] (v1 0) (v1 (0 - 0)) true false 1 (0 * 0 / 2%:R + 1 * 0 + 0 * 0 / 2%:R) (0, 0))
      (wh, tt) d a0 (1 :: l) =
    let r := lq_forward 1 true sT (v1 (0 - 0)) (v1 0) 0 ((wh, tt) : bnodes (@cder Q 1) [:: wnode 1 0 0 (0 - 0)]) in
    if accepted LDDP wp1 1 true d (0 * 0 / 2%:R + 1 * 0 + 0 * 0 / 2%:R - r.2)
    then (Solver (install r.1.1.1 r.1.2) r.1.1.2 (v1 (0 - 0)) true true 1 r.2 d, 1, true)
    else @search Q 1 LDDP wp1 sT (v1 0)
      (Solver [:: wnode 1 0 0 (0 - 0)] (v1 0) (v1 (0 - 0)) true false 1 (0 * 0 / 2%:R + 1 * 0 + 0 * 0 / 2%:R) (0, 0))
      (wh, tt) d 1 l by [].
  rewrite wh_forward; cbv zeta.
  have -> : accepted LDDP wp1 1 true (2%:R^-1, - 2%:R^-1)
    (0 * 0 / 2%:R + 1 * 0 + 0 * 0 / 2%:R - - (3%:R / 8%:R)) = true by vm_compute.
  cbv iota beta.
  have -> : (th_stepdec wp1 < 1) = true by vm_compute.
  have -> : (1 <= th_stepinc wp1) = false by vm_compute.
  have -> : (stopping (2%:R^-1, - 2%:R^-1 : rat) < th_stop wp1) = true by vm_compute.
  reflexivity.
case=> _ _ _ /= h _.
have := h [:: wnode 1 0 (-1) 0] (v1 0) erefl (conj erefl _).
rewrite /= w_next w_cost sT_cost => /(_ erefl).
by vm_compute.
Qed.
Print Assumptions C122_regularized_refuted.
