(** C123: instances and the refuted part. *)
From mathcomp Require Import all_ssreflect all_algebra.
From Verif Require Import RingTac LinAlg LinAlg_Proofs Riccati_Model Riccati_Spec Riccati_Proofs RiccatiLQ_Proofs Riccati_Props RiccatiWitness_Props.
From Verif Require Import Intro_Model Intro_Proofs Intro_Props LQSolve_Model LQSolve_Props LQSolveWitness_Props IntroLQ_Model IntroLQ_Proofs IntroLQ_Props.
Set Implicit Arguments.
Unset Strict Implicit.
Unset Printing Implicit Defensive.
Import Order.TTheory GRing.Theory Num.Theory.
Local Open Scope ring_scope.

(** x' = x, cost 1/2 u^2, terminal cost 1/2 x^2, constraint u = 1, from x0 = 0 *)
Definition vilq : ilq Q 1 := @ILQ Q 1 (wlq 0) 1 0 1%:M (v1 (-1)).
Definition vnode (u : rat) : inode Q 1 := @INode Q 1 vilq (v1 0) (v1 u) (v1 0) Schur.
Definition vb (u : rat) : bnode Q 1 1 :=
  @BNode Q 1 1 (v1 0) (v1 u) 1%:M 0 1%:M (v1 (u - 1)) 0 (v1 (u - 1)) (v1 0) 1%:M.

Lemma v_symm u : i_symm sT [:: vnode u].
Proof. exact: w_symm. Qed.
Lemma v_convex u : i_convex sT [:: vnode u].
Proof. exact: w_convex. Qed.
Lemma v_ok u : all_nodes (@node_ok Q 1) [:: vnode u].
Proof. by split=> //; split=> //; rewrite /= row_free_unit unitmx1. Qed.
Lemma v_traj u : trajectory (v1 0) (map (@ic Q 1) [:: vnode u]) (v1 0).
Proof. by split=> //; rewrite /= w_next. Qed.
Lemma v_hval u : hval (m := vilq) (v1 0) (v1 u) = v1 (u - 1).
Proof. by rewrite /hval /= mul0mx add0r mul1mx v1D. Qed.

Lemma solve_1 (q : nat) (B : 'M[Q]_(1, q)) : llt_solve (1%:M : 'M[Q]_1) B = B.
Proof. by rewrite /llt_solve lower_v1 invmx_scalar invr1 mul1mx. Qed.
Lemma v_pass u : ibpass 0 true (lq_tdiff sT (v1 0)) (v1 0) [:: vnode u] = Some (vb u, tt).
Proof.
rewrite /=.
rewrite /ibstep /i_gains /schur_gains /free_gains /i_value /=.
rewrite ?raddf0 ?trmx0 ?trmx1 ?mul0mx ?mulmx0 ?addr0 ?add0r ?mul1mx ?mulmx1.
rewrite ok_v1 ltr01 !solve_1 ?trmx0 ?trmx1 ?solve_1 ?trmx1 ?mul1mx ?mulmx1 ok_v1 ltr01 ?subr0 ?mulmx0 ?mul0mx ?addr0 ?trmx0 ?mul0mx ?subr0 ?addr0.
rewrite [hval _ _]v_hval.
have -> : v1 u + v1 0 = v1 u by rewrite v10 addr0.
have -> : v1 u + (v1 (u - 1) - v1 u) = v1 (u - 1) by rewrite addrC subrK.
rewrite (mul1mx (v1 _)) (mulmx0 _ (0 - _)) addr0 trmx1.
have -> : 2%:R^-1 *: (1%:M + 1%:M) = 1%:M :> 'M[Q]_1 by rewrite S1 Z1; congr (_%:M); rq.
by [].
Qed.
Notation vbs u := ((vb u, tt) : bnodes (@cder Q 1) (map (@ic Q 1) [:: vnode u])).
Lemma v_ei (u preg : rat) T fT dxs dxT : ei_fddp (@cf Q 1) preg true T fT (vbs u) dxs dxT = (u * (u - 1), - ((u - 1) * (u - 1))).
Proof. by rewrite C21_fddp_feasible /= !dot_v1 !add0r. Qed.
Lemma v_forward (a u : rat) :
  lq_forward a true sT (v1 0) (v1 0) 0 (vbs u) =
  (let ut := u - a * (u - 1) in
   ([:: v1 0], v1 0, ((v1 ut, tt) : ctrls (map (@ic Q 1) [:: vnode u])), ut * ut / 2%:R)).
Proof.
have e : v1 u - a *: v1 (u - 1) - 0 *m (v1 0 - v1 0) = v1 (u - a * (u - 1)).
  by rewrite mul0mx subr0 v1Z v1N v1D.
have -> : lq_forward a true sT (v1 0) (v1 0) 0 (vbs u) =
  (let ut := v1 u - a *: v1 (u - 1) - 0 *m (v1 0 - v1 0) in
   ([:: v1 0], lq_next (s := wlq 0) (v1 0) ut, ((ut, tt) : ctrls (map (@ic Q 1) [:: vnode u])),
    0 + lq_cost (s := wlq 0) (v1 0) ut + lq_tcost sT (lq_next (s := wlq 0) (v1 0) ut))) by [].
rewrite e; cbv zeta.
by rewrite !w_next w_cost sT_cost !mul0r !addr0 add0r.
Qed.
Lemma v_norm (c : rat) : vnorm false (v1 c) = `|c|.
Proof. by rewrite /vnorm enum_ordS /= enum_ord0 /= addr0 mxE eqxx mulr1n. Qed.
Lemma v_feas u0 u : hfeas (ns := [:: vnode u0]) false [:: v1 0] (v1 u, tt) = `|u - 1|.
Proof. by rewrite /= v_hval v_norm addr0. Qed.

Notation vs u fT c h ups d dV := (ISolver [:: vnode u] (v1 0) fT true 0 c h ups d dV).
Lemma v_calc u fT c h ups d dV : i_calc_diff false sT (v1 0) (vs u fT c h ups d dV) =
  vs u (v1 0) (u * u / 2%:R) `|u - 1| ups d dV.
Proof.
rewrite /i_calc_diff /i_ns /i_xT /i_feas /i_preg /i_ups /i_d /i_dV.
have -> : i_gaps (v1 0) [:: vnode u] (v1 0) = ([:: vnode u], v1 0).
  by rewrite /= w_next subrr /vnode v10.
have -> : total sT (map (@ic Q 1) [:: vnode u]) (v1 0) 0 = u * u / 2%:R.
  by rewrite /= w_cost sT_cost !mul0r !addr0 add0r.
have -> : hfeas false (map (@ix Q 1) [:: vnode u]) (own [:: vnode u]) = `|u - 1| by exact: v_feas.
by [].
Qed.
Lemma v_try p u c h ups d0 d dV0 dV a0 a l : 0 <= a <= 1 ->
  let s := vs u (v1 0) c h ups d0 dV0 in
  let ut := u - a * (u - 1) in
  let d' := (u * (u - 1), - ((u - 1) * (u - 1))) in
  @i_search Q 1 p false sT (v1 0) s (vbs u) d dV a0 (a :: l) =
  if i_accepted p a ups (h - `|ut - 1|) d' (c - ut * ut / 2%:R)
  then (vs ut (v1 0) (ut * ut / 2%:R) `|ut - 1| ups d' (c - ut * ut / 2%:R), a, true)
  else @i_search Q 1 p false sT (v1 0) s (vbs u) d' (c - ut * ut / 2%:R) a l.
Proof.
move=> /andP [h0 h1] s ut d'.
have ha : (1 < a) || (a < 0) = false by rewrite !ltNge h0 h1.
have -> : @i_search Q 1 p false sT (v1 0) s (vbs u) d dV a0 (a :: l) =
  if (1 < a) || (a < 0) then @i_search Q 1 p false sT (v1 0) s (vbs u) d dV a l
  else
    let r := lq_forward a true sT (v1 0) (v1 0) 0 (vbs u) in
    let h' := hfeas (ns := [:: vnode u]) false r.1.1.1 r.1.2 in
    let d' := ei_fddp (@cf Q 1) 0 true (lq_tdiff sT (v1 0)) (v1 0) (vbs u) (diffs (map (@ic Q 1) [:: vnode u]) r.1.1.1) (v1 0 - r.1.1.2) in
    if i_accepted p a ups (h - h') d' (c - r.2)
    then (ISolver (i_install (ns := [:: vnode u]) r.1.1.1 r.1.2) r.1.1.2 (v1 0) true 0 r.2 h' ups d' (c - r.2), a, true)
    else @i_search Q 1 p false sT (v1 0) s (vbs u) d' (c - r.2) a l by [].
rewrite ha v_forward; cbv zeta; rewrite v_ei v_feas.
by [].
Qed.
Lemma v_iter p tf rho first dxs dxT u fT c h ups d dV a0 :
  i_iteration p tf rho false sT (v1 0) 1 first true dxs dxT a0 (vs u fT c h ups d dV) =
  (let d' := (u * (u - 1), - ((u - 1) * (u - 1))) in
   let ups' := if (`|u - 1| != 0) && ~~ first then Num.max ups ((d'.1 + 2%:R^-1 * d'.2) / ((1 - rho) * `|u - 1|)) else ups in
   let '(s1, a, acc) := @i_search Q 1 p false sT (v1 0) (vs u (v1 0) (u * u / 2%:R) `|u - 1| ups' d dV) (vbs u) d' dV a0 (alphas p) in
   let stop := Num.max (i_hfeas s1) (stopping (i_d s1)) in
   let r1 := if (th_stepdec p < a) && (0 <= i_dV s1) then decrease p 0 else 0 in
   let inc := (a <= th_stepinc p) || (`|(i_d s1).2| <= tf) in
   if inc && (r1 == reg_max p) then Some (i_set r1 (i_ups s1) s1, Some false, acc, a)
   else
     let s2 := i_set (if inc then increase p r1 else r1) (i_ups s1) s1 in
     if i_feas s2 && (stop < th_stop p) then Some (s2, Some true, acc, a) else Some (s2, None, acc, a)).
Proof.
rewrite /i_iteration v_calc.
have hd : i_direct p sT 1 true [:: vnode u] (v1 0) (v1 0) 0 = Some (0, Some (vbs u)) by rewrite /i_direct v_pass.
by rewrite [i_direct _ _ _ _ _ _ _ _]hd [ei_fddp _ _ _ _ _ _ _ _]v_ei.
Qed.

Definition vp : params Q := Params (10%:R^-1) 2%:R (100%:R^-1) (100%:R^-1) (2%:R^-1) (100%:R^-1) 0 1 10%:R 10%:R [:: 1; 2%:R^-1].
Lemma vp_sane : isane vp /\ 1 < th_neg vp.
Proof. by split; [split; [exact: wp_sane.1| | | |]|]; try by vm_compute. Qed.
Lemma v_it1 dxs dxT : exists c d dV, i_iteration vp (1000%:R^-1) (2%:R^-1) false sT (v1 0) 1 true true dxs dxT 0 (vs (-1) 0 0 0 0 (0, 0) 0) =
  Some (vs 0 (v1 0) c 1 0 d dV, None, true, 2%:R^-1).
Proof.
rewrite v_iter; cbv zeta.
have -> : alphas vp = [:: 1; 2%:R^-1] by [].
have -> : (`|-1 - 1| != 0 :> rat) && ~~ true = false by rewrite andbF.
rewrite v_try //; cbv zeta.
have -> : -1 - 1 * (-1 - 1) = 1 :> rat by rq.
have -> : i_accepted vp 1 0 (`|-1 - 1| - `|1 - 1|) (-1 * (-1 - 1), - ((-1 - 1) * (-1 - 1))) (-1 * -1 / 2%:R - 1 * 1 / 2%:R) = false by vm_compute.
rewrite v_try //; cbv zeta.
have -> : -1 - 2%:R^-1 * (-1 - 1) = 0 :> rat by rq.
have -> : i_accepted vp 2%:R^-1 0 (`|-1 - 1| - `|0 - 1|) (-1 * (-1 - 1), - ((-1 - 1) * (-1 - 1))) (-1 * -1 / 2%:R - 0 * 0 / 2%:R) = true by vm_compute.
have -> : `|0 - 1| = 1 :> rat by rq.
cbv beta iota delta [i_hfeas i_d i_dV i_ups i_ns i_xT i_fT i_feas i_cost i_set fst snd].
have -> : (th_stepdec vp < 2%:R^-1) = false by vm_compute.
have -> : (2%:R^-1 <= th_stepinc vp) = false by vm_compute.
have -> : (`|- ((-1 - 1) * (-1 - 1)) : rat| <= 1000%:R^-1) = false by vm_compute.
have -> : (Num.max 1 (stopping (-1 * (-1 - 1), - ((-1 - 1) * (-1 - 1)) : rat)) < th_stop vp) = false by vm_compute.
by do 3!eexists; reflexivity.
Qed.
Lemma v_ups : (if (`|0 - 1| != 0 :> rat) && ~~ false
   then Num.max 0 ((((0 : rat) * (0 - 1), - (((0 : rat) - 1) * (0 - 1))).1 + 2%:R^-1 * ((0 : rat) * (0 - 1), - (((0 : rat) - 1) * (0 - 1))).2)
          / ((1 - 2%:R^-1) * `|0 - 1|)) else 0) = 0 :> rat.
Proof. rq. Qed.
Lemma v_it2 dxs dxT c d dV : exists c' d' dV', i_iteration vp (1000%:R^-1) (2%:R^-1) false sT (v1 0) 1 false true dxs dxT 2%:R^-1 (vs 0 (v1 0) c 1 0 d dV) =
  Some (vs 1 (v1 0) c' 0 0 d' dV', None, true, 1).
Proof.
rewrite v_iter; cbv zeta.
have -> : alphas vp = [:: 1; 2%:R^-1] by [].
rewrite v_ups.
rewrite v_try //; cbv zeta.
have -> : 0 - 1 * (0 - 1) = 1 :> rat by rq.
have -> : i_accepted vp 1 0 (`|0 - 1| - `|1 - 1|) (0 * (0 - 1), - ((0 - 1) * (0 - 1))) (0 * 0 / 2%:R - 1 * 1 / 2%:R) = true by vm_compute.
have -> : `|1 - 1| = 0 :> rat by rq.
cbv beta iota delta [i_hfeas i_d i_dV i_ups i_ns i_xT i_fT i_feas i_cost i_set fst snd].
have -> : (th_stepdec vp < 1) && (0 <= 0 * 0 / 2%:R - 1 * 1 / 2%:R :> rat) = false by vm_compute.
have -> : (1 <= th_stepinc vp) = false by vm_compute.
have -> : (`|- ((0 - 1) * (0 - 1)) : rat| <= 1000%:R^-1) = false by vm_compute.
by do 3!eexists; reflexivity.
Qed.
(** The guess u = -1 costs exactly as much as the optimum u = 1: the full step is rejected although it is the
    solution, the half step is taken, and the second iteration reaches the optimum without converging. *)
Theorem C123_refuted : exists p th_feas rho (T : lqterm Q 1) x0 ns xT trial s it,
  [/\ isane p /\ 1 < th_neg p, i_symm T ns /\ i_convex T ns, all_nodes (@node_ok Q 1) ns, trajectory x0 (map (@ic Q 1) ns) xT &
      i_solve p th_feas rho false T x0 trial 1 2 0 true 0 (ISolver ns xT 0 true 0 0 0 0 (0, 0) 0) = Some (s, false, it)].
Proof.
pose tr := fun _ : isolver Q 1 => ([::] : seq 'cV[Q]_1, 0 : 'cV[Q]_1).
case: (v_it1 [::] 0) => c [d [dV e1]]; case: (v_it2 [::] 0 c d dV) => c' [d' [dV' e2]].
exists vp, (1000%:R^-1), (2%:R^-1), sT, (v1 0), [:: vnode (-1)], (v1 0), tr; do 2!eexists.
split; [exact: vp_sane|split; [exact: v_symm|exact: v_convex]|exact: v_ok|exact: v_traj|].
rewrite /i_solve [i_iteration _ _ _ _ _ _ _ _ _ _ _ _ _]e1; cbv iota beta; rewrite [i_iteration _ _ _ _ _ _ _ _ _ _ _ _ _]e2; reflexivity.
Qed.
Print Assumptions C123_refuted.

(** The hypotheses are met.  An unconstrained node with cost 1/2 u^2 + u and the guess u = 0, not its optimum, before
    the constrained node with the guess u = 1 *)
Definition filq : ilq Q 1 := @ILQ Q 1 (wlq 1) 0 0 0 0.
Definition fnode (u : rat) : inode Q 1 := @INode Q 1 filq (v1 0) (v1 u) (v1 0) Schur.
Example C123_admissible_ex : let ns := [:: fnode 0; vnode 1] in
  [/\ isane vp, i_symm sT ns, i_convex sT ns, all_nodes (@node_ok Q 1) ns &
      trajectory (v1 0) (map (@ic Q 1) ns) (v1 0) /\ satisfies ns].
Proof.
move=> ns; split.
- exact: vp_sane.1.
- case: (w_symm 1 0 0 0) => h1 [h2 _]; case: (w_symm 0 0 1 0) => _ [h3 _].
  by split=> //; split=> //; split.
- case: (w_convex 1 0 0 0) => h1 [h2 _]; case: (w_convex 0 0 1 0) => _ [h3 _].
  by split=> //; split=> //; split.
- split; last exact: v_ok.
  by split=> //; rewrite /row_free flatmx0 mxrank0.
- split; first by split=> //; rewrite /= w_next; split=> //; rewrite w_next.
  split; first by rewrite flatmx0.
  by split=> //; rewrite [LHS]v_hval subrr v10.
Qed.
(** The guess u = 3 violates the constraint and costs more than the optimum *)
Example C123_any_ex : let ns := [:: vnode 3%:R] in
  [/\ isane vp /\ 1 < th_neg vp, i_symm sT ns, i_convex sT ns, all_nodes (@node_ok Q 1) ns &
      trajectory (v1 0) (map (@ic Q 1) ns) (v1 0) /\
      forall zs zT v, constrained_optimum sT (v1 0) ns zs zT v ->
        cand_cost sT (map (@ic Q 1) ns) (v1 0) + 0 * hfeas false (map (@ix Q 1) ns) (own ns) <> v].
Proof.
move=> ns; split; [exact: vp_sane|exact: v_symm|exact: v_convex|exact: v_ok|split; first exact: v_traj].
move=> zs zT v [_ _ _ _ h].
have hs : satisfies [:: vnode 1] by split=> //; rewrite [LHS]v_hval subrr v10.
case: (h [:: vnode 1] (v1 0) erefl (v_traj 1) hs) => h1 _ e.
move: h1; rewrite -e /= !w_cost sT_cost mul0r addr0.
by vm_compute.
Qed.
