From mathcomp Require Import all_ssreflect all_algebra.
Set Implicit Arguments.
Unset Strict Implicit.
Unset Printing Implicit Defensive.
Import GRing.Theory Num.Theory Order.TTheory.
From Verif Require Import Feasibility_Model Feasibility_Spec.
Local Open Scope ring_scope.

Section Proofs.
Variable R : realDomainType.
Implicit Types (v : seq R) (vs : seq (seq R)).

Lemma foldl_add (T : Type) (f : T -> R) (l : seq T) a :
  foldl (fun a e => a + f e) a l = a + \sum_(e <- l) f e.
Proof.
elim: l a => [|e l IH] a /=; first by rewrite big_nil addr0.
by rewrite IH big_cons addrA.
Qed.

Lemma l1E v : l1 v = \sum_(e <- v) `|e|.
Proof. by rewrite /l1 foldl_add add0r. Qed.

Lemma l1_ge0 v : 0 <= l1 v.
Proof. by rewrite l1E; apply: sumr_ge0. Qed.

Definition maxabs v : R := \big[Num.max/0]_(e <- v) `|e|.

Lemma maxabs_nil : maxabs [::] = 0. Proof. by rewrite /maxabs big_nil. Qed.
Lemma maxabs_cons e v : maxabs (e :: v) = Num.max `|e| (maxabs v).
Proof. by rewrite /maxabs big_cons. Qed.
Lemma maxabs_ge0 v : 0 <= maxabs v.
Proof.
elim: v => [|e v IH]; first by rewrite maxabs_nil.
by rewrite maxabs_cons le_maxr IH orbT.
Qed.
Lemma maxabs_cat v w : maxabs (v ++ w) = Num.max (maxabs v) (maxabs w).
Proof.
elim: v => [|e v IH] /=; first by rewrite maxabs_nil; apply/esym/max_idPr/maxabs_ge0.
by rewrite !maxabs_cons IH maxA.
Qed.

Lemma foldl_maxl (T : Type) (f : T -> R) (l : seq T) a b :
  foldl (fun a e => Num.max a (f e)) (Num.max b a) l =
  Num.max b (foldl (fun a e => Num.max a (f e)) a l).
Proof. by elim: l a b => [|e l IH] a b //=; rewrite -maxA IH. Qed.

Lemma foldl_max (T : Type) (f : T -> R) (l : seq T) a :
  foldl (fun a e => Num.max a (f e)) a l = foldr (fun e b => Num.max (f e) b) a l.
Proof. by elim: l a => [|e l IH] a //=; rewrite maxC foldl_maxl IH. Qed.

Lemma linfE v : linf v = maxabs v.
Proof.
rewrite /linf foldl_max. elim: v => [|e v IH] /=; first by rewrite maxabs_nil.
by rewrite maxabs_cons IH.
Qed.

Lemma maxabs_spec v : max_abs v (maxabs v).
Proof.
split.
  elim: v => [|e v IH] x //=. rewrite inE maxabs_cons le_maxr => /orP[/eqP ->|/IH ->].
    by rewrite lexx.
  by rewrite orbT.
elim: v => [|e [|e' v] IH] //; first by exact: maxabs_nil.
  exists e; first by rewrite mem_head.
  by rewrite maxabs_cons maxabs_nil; apply/max_idPl/normr_ge0.
case: IH => x Hx Ex. rewrite maxabs_cons Ex.
case: (leP `|e| `|x|) => _.
  by exists x => //; rewrite in_cons Hx orbT.
by exists e => //; rewrite mem_head.
Qed.

Lemma max_abs_unique v m m' : max_abs v m -> max_abs v m' -> m = m'.
Proof.
case: v => [|e v]; first by case=> _ -> [_ ->].
move=> [H1 [x Hx Ex]] [H2 [y Hy Ey]].
by apply/eqP; rewrite eq_le {1}Ex {2}Ey H1 // H2.
Qed.

Lemma norm_of_unique n v m m' : norm_of n v m -> norm_of n v m' -> m = m'.
Proof. by case: n => [|-> ->] //; exact: max_abs_unique. Qed.

(** *** Dynamic *)
Lemma dynamic_feas_norm n vs : norm_of n (flatten vs) (dynamic_feas n vs).
Proof.
case: n => /=.
  rewrite foldl_max. have -> : foldr (fun e b => Num.max (linf e) b) 0 vs = maxabs (flatten vs).
    elim: vs => [|v vs IH] /=; first by rewrite maxabs_nil.
    by rewrite IH maxabs_cat linfE.
  exact: maxabs_spec.
rewrite /sum_abs. case: vs => [|v vs]; first by rewrite big_nil.
by rewrite foldl_add big_cat /= l1E big_flatten; congr (_ + _); apply: eq_bigr => i _; rewrite l1E.
Qed.

Lemma norm_of_ge0 n v m : norm_of n v m -> 0 <= m.
Proof.
case: n => [[H1 H2]|->]; last by apply: sumr_ge0.
case: v H1 H2 => [|e v] H1; first by move=> ->.
by case=> x _ ->.
Qed.

Lemma norm_of_eq0 n v m : norm_of n v m -> (m == 0) = all (eq_op^~ 0) v.
Proof.
move=> H; apply/eqP/allP.
  move=> m0 e He. case: n H => [[H1 _]|/eqP].
    by have := H1 _ He; rewrite m0 normr_le0.
  rewrite m0 eq_sym psumr_eq0 // => /allP /(_ _ He). by rewrite normr_eq0.
move=> H0. case: n H => [[_]|->].
  case: v H0 => // e v H0 [x Hx ->]. by rewrite (eqP (H0 _ Hx)) normr0.
by rewrite big_seq big1 // => e /H0 /eqP ->; rewrite normr0.
Qed.

(** *** Zero gaps *)
Section Traj.
Variables (X : Type) (diff : X -> X -> seq R).
Hypothesis diff0 : forall x y, all (eq_op^~ 0) (diff x y) <-> x = y.

Lemma gaps_zero x0 xs xnexts :
  size xs = (size xnexts).+1 ->
  all (eq_op^~ 0) (flatten (gaps diff x0 xs xnexts)) <-> consistent_traj x0 xs xnexts.
Proof.
rewrite /consistent_traj. case: xs => [|x xs] //= [E].
rewrite all_cat. split.
  case/andP=> /diff0 -> H; congr cons.
  elim: xs xnexts E H => [|y xs IH] [|z zs] //= [E]. rewrite all_cat.
  by case/andP=> /diff0 -> H; congr cons; apply: IH.
case=> -> ->. apply/andP; split; first by apply/diff0.
elim: xnexts {E} => [|z zs IH] //=. rewrite all_cat; apply/andP; split => //; exact/diff0.
Qed.
End Traj.

(** *** Inequalities *)
Lemma adj_in (p : R * (option R * option R)) : in_bounds p -> p.1 - cmin (cmax p.1 p.2.1) p.2.2 = 0 :> R.
Proof.
case: p => g [lb ub]; rewrite /in_bounds /= => /andP[H1 H2].
have -> : cmax g lb = g by case: lb H1 => [b|] //= /max_idPl.
have -> : cmin g ub = g by case: ub H2 => [b|] //= /min_idPl.
by rewrite subrr.
Qed.

Lemma adj_violation (p : R * (option R * option R)) : ordered p -> violation p `|p.1 - cmin (cmax p.1 p.2.1) p.2.2|.
Proof.
case: p => g [lb ub] Ho. rewrite /violation.
case E: (in_bounds (g, (lb, ub))).
  left; split; first by exact: E. by rewrite (adj_in E) normr0.
move/negbT: E; rewrite /in_bounds /= negb_and => /orP[].
  case: lb Ho => [b|] // Ho; rewrite -ltNge => Hb. right; left. exists b => //; split => //.
  rewrite /= (max_idPr (ltW Hb)).
  have -> : cmin b ub = b by case: ub Ho => [c|] //= /min_idPl.
  by rewrite distrC ger0_norm ?subr_ge0 ?ltW.
case: ub Ho => [b|] // Ho; rewrite -ltNge => Hb. right; right. exists b => //; split => //.
have -> : cmin (cmax g lb) (Some b) = b.
  case: lb Ho => [c|] /= Ho; apply/min_idPr; last exact: ltW.
  by rewrite le_maxr (ltW Hb).
by rewrite ger0_norm ?subr_ge0 ?ltW.
Qed.

Lemma adj_eq0 (p : R * (option R * option R)) : ordered p -> (p.1 - cmin (cmax p.1 p.2.1) p.2.2 == 0 :> R) = in_bounds p.
Proof.
move=> Ho. apply/eqP/idP; last exact: adj_in.
move=> H. have := adj_violation Ho. rewrite H normr0. case: p Ho H => g [lb ub] Ho _ /=.
rewrite /in_bounds /=; case=> [[-> //]|[[b _ [Hb]]|[b _ [Hb]]]].
  by move/esym/eqP; rewrite subr_eq0 => /eqP E; rewrite E ltxx in Hb.
by move/esym/eqP; rewrite subr_eq0 => /eqP E; rewrite E ltxx in Hb.
Qed.

Lemma all_adj (g : ineq R) : all (@ordered R) g -> all (eq_op^~ 0) (adj_res g) = all (@in_bounds R) g.
Proof.
elim: g => [|p g IH] //= /andP[Hp Hg]. by rewrite adj_eq0 // IH.
Qed.

Definition nrm n : seq R -> R := match n with LInf => @linf R | L1 => @l1 R end.
Lemma nrm_norm n v : norm_of n v (nrm n v).
Proof. by case: n => /=; [rewrite linfE; exact: maxabs_spec|rewrite /sum_abs l1E]. Qed.

(** The largest node norm. *)
Definition node_max n (running : seq (ineq R)) : R :=
  foldr Num.max 0 [seq nrm n (adj_res g) | g <- running].

Lemma node_max_ge0 n running : 0 <= node_max n running.
Proof.
rewrite /node_max; elim: running => [|g gs IH] //=. by rewrite le_maxr IH orbT.
Qed.

Lemma nrm_ge0 n v : 0 <= nrm n v.
Proof. exact: norm_of_ge0 (nrm_norm n v). Qed.

Lemma nrm_nil n : nrm n [::] = 0.
Proof. by case: n. Qed.

Lemma ineq_feasE n running terminal :
  ineq_feas n running terminal = node_max n running + nrm n (adj_res terminal).
Proof.
rewrite /ineq_feas -/(nrm n).
have -> : foldl (fun a g => if (0 < size g)%N then Num.max a (nrm n (adj_res g)) else a) 0 running
        = node_max n running.
  suff H : forall a, 0 <= a ->
      foldl (fun a g => if (0 < size g)%N then Num.max a (nrm n (adj_res g)) else a) a running =
      Num.max a (node_max n running).
    by rewrite H // max_r // node_max_ge0.
  elim: running => [|g gs IH] a Ha /=; first by rewrite /node_max /= max_l.
  rewrite /node_max /= -/(node_max n gs). case: g => [|p g] /=.
    by rewrite IH // nrm_nil; congr Num.max; apply/esym/max_idPr/node_max_ge0.
  by rewrite IH ?le_maxr ?Ha // maxA.
case: terminal => [|p t] //=. by rewrite nrm_nil addr0.
Qed.

Lemma node_max_eq0 n running :
  (node_max n running == 0) = all (fun g => nrm n (adj_res g) == 0) running.
Proof.
rewrite /node_max; elim: running => [|g gs IH] /=; first by rewrite eqxx.
rewrite -IH -/(node_max n gs). have Hg := nrm_ge0 n (adj_res g). have Hm := node_max_ge0 n gs.
apply/eqP/andP.
  move=> E; split; rewrite eq_le ?Hg ?Hm andbT -E le_maxr lexx ?orbT //.
by case=> /eqP -> /eqP ->; rewrite maxxx.
Qed.

Lemma ineq_feas_eq0 n running terminal :
  all (all (@ordered R)) running -> all (@ordered R) terminal ->
  (ineq_feas n running terminal == 0) =
  all (all (@in_bounds R)) running && all (@in_bounds R) terminal.
Proof.
move=> Hr Ht. rewrite ineq_feasE paddr_eq0 ?node_max_ge0 ?nrm_ge0 // node_max_eq0.
rewrite (norm_of_eq0 (nrm_norm n _)) all_adj //; congr andb.
elim: running Hr => [|g gs IH] //= /andP[Hg Hgs]. by rewrite (norm_of_eq0 (nrm_norm n _)) all_adj // IH.
Qed.

(** With at most the running nodes (LInf) the value is the maximum. *)
Lemma node_max_linf running :
  node_max LInf running = maxabs (flatten [seq adj_res g | g <- running]).
Proof.
rewrite /node_max; elim: running => [|g gs IH] /=; first by rewrite maxabs_nil.
by rewrite IH maxabs_cat /= linfE.
Qed.

Lemma ineq_feas_linf running terminal :
  all (@in_bounds R) terminal -> 
  max_abs (flatten [seq adj_res g | g <- rcons running terminal]) (ineq_feas LInf running terminal).
Proof.
move=> Ht. rewrite ineq_feasE.
have E : nrm LInf (adj_res terminal) = 0.
  apply/eqP; rewrite (norm_of_eq0 (nrm_norm LInf _)).
  elim: terminal Ht => [|p t IH] //= /andP[Hp Ht]. by rewrite adj_in // eqxx IH.
rewrite E addr0 -cats1 map_cat flatten_cat /= cats0 node_max_linf.
have -> : maxabs (flatten [seq adj_res g | g <- running]) =
          maxabs (flatten [seq adj_res g | g <- running] ++ adj_res terminal).
  rewrite maxabs_cat -[maxabs (adj_res terminal)]linfE. move: E => /= ->.
  by apply/esym/max_idPl/maxabs_ge0.
exact: maxabs_spec.
Qed.

Lemma ineq_feas_l1 (g terminal : ineq R) :
  sum_abs (adj_res g ++ adj_res terminal) (ineq_feas L1 [:: g] terminal).
Proof.
rewrite ineq_feasE /node_max /sum_abs big_cat /= -!l1E; congr (_ + _).
apply/max_idPl/l1_ge0.
Qed.

(** *** Equalities *)
Lemma eq_feas_norm n (running : seq (seq R)) terminal :
  norm_of n (flatten (rcons running terminal)) (eq_feas n running terminal).
Proof.
have -> : eq_feas n running terminal = dynamic_feas n (rcons running terminal).
  have Hl0 : forall h : seq R, size h = 0%N -> linf h = 0 by case.
  case: n => /=.
    have H : forall a, foldl (fun a h => if (0 < size h)%N then Num.max a (linf h) else a) (Num.max a 0) running =
        foldl (fun a h => Num.max a (linf h)) (Num.max a 0) running.
      elim: running => [|h hs IH] a //=. case: h => [|e h] /=.
        have -> : linf ([::] : seq R) = 0 by []. rewrite -maxA maxxx. exact: IH.
      rewrite -maxA [Num.max 0 _]max_r; last by rewrite linfE maxabs_ge0.
      have -> : Num.max a (linf (e :: h)) = Num.max (Num.max a (linf (e :: h))) 0.
        by rewrite -maxA [Num.max _ 0]max_l // linfE maxabs_ge0.
      exact: IH.
    have := H 0; rewrite maxxx => ->. rewrite -cats1 foldl_cat /=.
    case: terminal => [|e t] //=. rewrite max_l //.
    by rewrite foldl_max; elim: (running) => [|h hs IH] //=; rewrite le_maxr IH orbT.
  have H : forall a, foldl (fun a h => if (0 < size h)%N then a + l1 h else a) a running =
      foldl (fun a h => a + l1 h) a running.
    elim: running => [|h hs IH] a //=. case: h => [|e h] /=; last exact: IH.
    have -> : l1 ([::] : seq R) = 0 by []. by rewrite addr0 IH.
  rewrite H. case: running {H} => [|h hs] /=.
    case: terminal => [|e t] //=. by rewrite add0r.
  rewrite add0r -cats1 foldl_cat /=. case: terminal => [|e t] //=.
  have -> : l1 ([::] : seq R) = 0 by []. by rewrite addr0.
exact: dynamic_feas_norm.
Qed.
End Proofs.
