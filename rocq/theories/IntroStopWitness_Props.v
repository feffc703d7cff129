(** C125: an instance and the refuted part. *)
From mathcomp Require Import all_ssreflect all_algebra.
From Verif Require Import RingTac LinAlg LinAlg_Proofs Riccati_Model Riccati_Spec Riccati_Proofs RiccatiLQ_Proofs Riccati_Props RiccatiWitness_Props.
From Verif Require Import Intro_Model Intro_Proofs Intro_Props LQSolve_Model LQSolve_Props LQSolveWitness_Props IntroLQ_Model IntroLQ_Proofs IntroLQ_Props IntroLQWitness_Props.
From Verif Require Import IntroStop_Model IntroStop_Props.
Set Implicit Arguments.
Unset Strict Implicit.
Unset Printing Implicit Defensive.
Import Order.TTheory GRing.Theory Num.Theory.
Local Open Scope ring_scope.

(** x' = x + u, cost 1/2 u^2, candidate x0 = 0, u = 1 *)
Definition zbase : stage Q 1 := @Stage Q 1 1 1%:M 1%:M (v1 0) (v1 1) 0 0 1%:M.
(** With the constraint u - 1 = 0 on the running node, or without *)
Definition znode (c : bool) : snode Q 1 :=
  if c then @SNode Q 1 (@IStage Q 1 zbase 1 0 0 1%:M) Schur
  else @SNode Q 1 (@IStage Q 1 zbase 0 0 0 0) Schur.
(** Without cost on the terminal node, and with the constraint x - 1 = 0 on it, or without *)
Definition zterm (c : bool) : sterm Q 1 :=
  if c then @STerm Q 1 (Terminal 0 0) 1 0 1%:M else @STerm Q 1 (Terminal 0 0) 0 0 0.

Lemma z_regular c c' : regular (zterm c) [:: znode c'].
Proof.
split; first by case: c; rewrite /symm /= trmx0.
split=> //; case: c'; split=> //=; rewrite ?row_free_unit ?unitmx1 //; try by rewrite /symm trmx1.
Qed.
Lemma z_free : exists b, sbpass 0 (zterm true) [:: znode false] = Some (b, tt) /\ kff b = v1 1.
Proof.
rewrite /= /ibstep /i_gains /free_gains /=.
rewrite ?raddf0 ?trmx0 ?trmx1 ?mul0mx ?mulmx0 ?addr0 ?add0r ?mul1mx ?mulmx1.
rewrite !addr0 ok_v1 ltr01 !solve_1; eexists; split; first by [].
by [].
Qed.
Lemma z_bound : exists b, sbpass 0 (zterm false) [:: znode true] = Some (b, tt).
Proof.
rewrite /= /ibstep /i_gains /schur_gains /free_gains /=.
rewrite ?raddf0 ?trmx0 ?trmx1 ?mul0mx ?mulmx0 ?addr0 ?add0r ?mul1mx ?mulmx1.
rewrite ?addr0 ok_v1 ltr01 !solve_1 ?trmx1 ?solve_1 ?mul1mx ok_v1 ltr01.
by eexists.
Qed.

(** The constraint u = 1 is satisfied and leaves no move: the stopping value is zero although the cost
    decreases with u. *)
Example C125_zero_ex inf : exists b, sbpass 0 (zterm false) [:: znode true] = Some (b, tt) /\
  sstop inf 0 (zterm false) (ns := [:: znode true]) (b, tt) = 0 /\ Lu (ibase (sst (znode true))) <> 0.
Proof.
have [b hb] := z_bound; exists b; split=> //; split; last first.
  by move/matrixP/(_ 0 0)/eqP; rewrite !mxE.
apply/(C125_zero_partial inf _ (z_regular false true) hb) => //; split=> // -[w []] /= [].
rewrite mulmx0 mul1mx add0r => -> _.
by rewrite !(mulmx0, dot0r, dot0l, addr0).
Qed.

(** With a terminal constraint the converse is false: x0 = 0, u = 1 satisfies x1 = 1 and is the only
    control that does, but the stopping value is not zero; the gains do not read that constraint. *)
Theorem C125_zero_refuted : exists (T : sterm Q 1) (ns : seq (snode Q 1)) (bs : bnodes (@sder Q 1) ns),
  [/\ regular T ns, sbpass 0 T ns = Some bs, constrained_stationary T ns &
      forall inf, sstop inf 0 T bs <> 0].
Proof.
have [b [hb hk]] := z_free; exists (zterm true), [:: znode false], (b, tt); split=> //.
- exact: z_regular.
- split=> // -[w []] /= [_].
  rewrite mulmx0 !mul1mx add0r => ->.
  by rewrite !(mulmx0, dot0r, dot0l, addr0).
- move=> inf /(sstop_eq0 inf (z_regular true false) hb) [_ [] /=]; rewrite hk => /matrixP/(_ 0 0)/eqP.
  by rewrite !mxE.
Qed.
Print Assumptions C125_zero_refuted.
