(** C125: the stopping value of SolverIntro vanishes at the constrained stationary points. *)
From mathcomp Require Import all_ssreflect all_algebra.
From Verif Require Import RingTac LinAlg LinAlg_Proofs Riccati_Model Riccati_Spec Riccati_Proofs RiccatiLQ_Proofs Riccati_Props.
From Verif Require Import Intro_Model Intro_Proofs Intro_Props LQSolve_Model LQSolve_Props IntroLQ_Model IntroLQ_Proofs IntroLQ_Props.
From Verif Require Import IntroStop_Model.
Set Implicit Arguments.
Unset Strict Implicit.
Unset Printing Implicit Defensive.
Import Order.TTheory GRing.Theory Num.Theory.
Local Open Scope ring_scope.

Section Props.
Variables (R : realFieldType) (n : nat).
Add Field RF : (rft R).
Notation half := (2%:R^-1 : R).
Notation snode := (snode R n).
Notation sterm := (sterm R n).
Notation sder := (@sder R n).

(** * Specification *)
(** Moves of the controls, one per node *)
Fixpoint moves (ns : seq snode) : Type :=
  match ns with [::] => unit | d :: ns' => ('cV[R]_(nu (sder d)) * moves ns')%type end.
(** The constraints keep their values to first order, when the first state moves by [dx] *)
Fixpoint keeps (T : sterm) (ns : seq snode) : 'cV[R]_n -> moves ns -> Prop :=
  match ns with
  | [::] => fun dx _ => sHx T *m dx = 0
  | d :: ns' => fun dx ws => iHx (sst d) *m dx + iHu (sst d) *m ws.1 = 0 /\
                             keeps T (Fx (sder d) *m dx + Fu (sder d) *m ws.1) ws.2
  end.
(** The first-order change of the total cost *)
Fixpoint change (T : sterm) (ns : seq snode) : 'cV[R]_n -> moves ns -> R :=
  match ns with
  | [::] => fun dx _ => dot (TLx (st T)) dx
  | d :: ns' => fun dx ws => dot (Lx (sder d)) dx + dot (Lu (sder d)) ws.1
                             + change T (Fx (sder d) *m dx + Fu (sder d) *m ws.1) ws.2
  end.
(** The candidate satisfies every constraint, and its cost does not change to first order under the moves
    of the controls that keep the constraints *)
Definition constraints_hold (T : sterm) (ns : seq snode) : Prop :=
  all_nodes (fun d : snode => ih (sst d) = 0) ns /\ sh T = 0.
Definition constrained_stationary (T : sterm) (ns : seq snode) : Prop :=
  constraints_hold T ns /\ forall ws : moves ns, keeps T 0 ws -> change T 0 ws = 0.
(** The Karush-Kuhn-Tucker conditions, with [p] the costate of the first node: the multipliers of the
    constraints and the costates make every gradient of the Lagrangian zero *)
Fixpoint kkt (T : sterm) (ns : seq snode) (p : 'cV[R]_n) : Prop :=
  match ns with
  | [::] => exists mu, p = TLx (st T) + (sHx T)^T *m mu
  | d :: ns' => exists lam p', [/\ p = Lx (sder d) + (Fx (sder d))^T *m p' + (iHx (sst d))^T *m lam,
                                  0 = Lu (sder d) + (Fu (sder d))^T *m p' + (iHu (sst d))^T *m lam & kkt T ns' p']
  end.
(** What the solver assumes of a node: symmetric Hessian, a Jacobian Hu of full row rank and its factors *)
Definition regular (T : sterm) (ns : seq snode) : Prop :=
  symm (TLxx (st T)) /\
  all_nodes (fun d : snode => [/\ symm (Luu (sder d)), row_free (iHu (sst d)) & usable (ssol d) (iHu (sst d))]) ns.

(** * The stored data *)
Lemma snode_facts preg (d : snode) v b : symm (Luu (sder d)) -> symm v.2 -> row_free (iHu (sst d)) -> usable (ssol d) (iHu (sst d)) ->
  ibstep (s := sst d) preg true (ssol d) 0 v = Some b ->
  [/\ symm (Quu b), iHu (sst d) *m kff b = ih (sst d), iHu (sst d) *m Kfb b = iHx (sst d),
      stationary (iHu (sst d)) (Quu b) (Qu b) (Qxu b) (kff b) (Kfb b) & kernel_posdef (iHu (sst d)) (Quu b)].
Proof.
move=> hR hv hF hU hb; have sy : sym_in (sst d) v by split.
case: (posnP (nh (sst d))) => [h0|hp]; last first.
  apply: (ibstep_facts sy _ _ hU hb) => //=.
  exact: leq_trans hp (row_free_size hF).
have [sq hg _] := ibstepP sy hb.
have hc : (0 < nu (ibase (sst d)))%N && (0 < nh (sst d))%N = false by rewrite h0 andbF.
move: hg; rewrite /i_gains /= hc /free_gains; case: ifP => // /(llt_okP sq) pq [hk hK].
have uq := posdef_unit pq.
have ek : Quu b *m kff b = Qu b by rewrite -hk llt_solveE // mulKVmx.
have eK : Quu b *m Kfb b = (Qxu b)^T by rewrite -hK llt_solveE // mulKVmx.
split=> //; try exact: empty_rows.
- by split=> w _; rewrite ?ek ?eK subrr ?dot0r ?mulmx0.
- by move=> w _; exact: pq.
Qed.
Lemma sbpass_cons preg T d ns (bs : bnodes sder (d :: ns)) : sbpass preg T (d :: ns) = Some bs ->
  sbpass preg T ns = Some bs.2 /\
  ibstep (s := sst d) preg true (ssol d) 0 (value (vterm preg true (st T) 0) bs.2) = Some bs.1.
Proof. by rewrite /=; case: sbpass => [bs'|//]; case E: ibstep => [b|//] [<-] /=. Qed.
Lemma svalue_symm preg T ns (bs : bnodes sder ns) : regular T ns -> sbpass preg T ns = Some bs ->
  symm (value (vterm preg true (st T) 0) bs).2.
Proof.
case: ns bs => [|d ns] bs [sT] /=; first by move=> _ _; apply: symmD => //; apply: symm_scalar.
case=> [[sL hF hU] _] /sbpass_cons [_]; rewrite /ibstep; case: i_gains => [[k K]|//] [<-] /=.
apply: symmD; last exact: symm_scalar.
by rewrite /symm linearZ /= linearD /= trmxK addrC.
Qed.
Definition quiet ns (bs : bnodes sder ns) : Prop := all_stored (fun m (b : bnode R n m) => kff b = 0) bs.


(** With zero feed-forward terms the value function gives the first-order change *)
Lemma change_value preg T ns : forall (bs : bnodes sder ns), regular T ns -> sbpass preg T ns = Some bs -> quiet bs ->
  forall dx (ws : moves ns), keeps T dx ws -> change T dx ws = dot (value (vterm preg true (st T) 0) bs).1 dx.
Proof.
elim: ns => [|d ns IH] bs hr hb q dx ws //= [hk hs].
have [hb' hd] := sbpass_cons hb; have [sT [[sL hF hU] hA]] := hr; have [q1 q2] := q.
have hr' : regular T ns by split.
rewrite (IH bs.2 hr' hb' q2 _ _ hs).
have sv := svalue_symm hr' hb'.
have [_ _ EK [S1 _] _] := snode_facts sL sv hF hU hd.
have [E1 _ E3 _ _] := node_eqs hd.
have [_ _] := ibstepP (conj sL sv : sym_in (sst d) _) hd; rewrite /i_value /= => -[-> _].
rewrite q1 !mulmx0 !subr0.
have hker : iHu (sst d) *m (ws.1 + Kfb bs.1 *m dx) = 0.
  by rewrite mulmxDr mulmxA EK addrC.
have := S1 _ hker; rewrite q1 mulmx0 subr0 dotC dotDr => hz.
move: hz; rewrite /IntroStop_Model.sder E1 E3 !dotDl dotNl -!dot_adjr !dotDl -!dot_adjr !dotDr => hz.
apply/eqP; rewrite -subr_eq0; apply/eqP; rewrite -{}hz; rng R.
Qed.

(** Moves that keep the constraints of running nodes after any deviation: the feedback *)
Fixpoint follow (ns : seq snode) : bnodes sder ns -> 'cV[R]_n -> moves ns :=
  match ns with
  | [::] => fun _ _ => tt
  | d :: ns' => fun bs dx => let du := - (Kfb bs.1 *m dx) in (du, follow bs.2 (Fx (sder d) *m dx + Fu (sder d) *m du))
  end.
Lemma follow_keeps preg T ns : snh T = 0%N -> forall (bs : bnodes sder ns), regular T ns -> sbpass preg T ns = Some bs ->
  forall dx, keeps T dx (follow bs dx).
Proof.
move=> h0; elim: ns => [|d ns IH] bs hr hb dx /=; first exact: empty_rows.
have [hb' hd] := sbpass_cons hb; have [sT [[sL hF hU] hA]] := hr.
have hr' : regular T ns by split.
have sv := svalue_symm hr' hb'.
have [_ _ EK _ _] := snode_facts sL sv hF hU hd.
by split; [rewrite mulmxN mulmxA EK subrr|exact: IH].
Qed.

(** At a constrained stationary point without terminal constraint the feed-forward terms are zero *)
Lemma stationary_quiet preg T ns : snh T = 0%N -> forall (bs : bnodes sder ns), regular T ns -> sbpass preg T ns = Some bs ->
  all_nodes (fun d : snode => ih (sst d) = 0) ns -> (forall ws : moves ns, keeps T 0 ws -> change T 0 ws = 0) -> quiet bs.
Proof.
move=> h0; elim: ns => [|d ns IH] bs hr hb hh hs //=.
have [hb' hd] := sbpass_cons hb; have [sT [[sL hF hU] hA]] := hr; have [hh1 hh2] := hh.
have hr' : regular T ns by split.
have q2 : quiet bs.2.
  apply: IH => // ws hk; have := hs (0, ws); rewrite /= !mulmx0 !addr0 !dot0r !add0r => H; exact: H.
split=> //.
have sv := svalue_symm hr' hb'.
have [_ Ek EK [S1 _] pd] := snode_facts sL sv hF hU hd.
have [_ _ E3 _ _] := node_eqs hd.
have kk : iHu (sst d) *m kff bs.1 = 0 by rewrite Ek hh1.
have hq : dot (Qu bs.1) (kff bs.1) = 0.
  have hk := follow_keeps h0 hr' hb' (Fu (sder d) *m kff bs.1).
  have := hs (kff bs.1, follow bs.2 (Fu (sder d) *m kff bs.1)).
  rewrite /= !mulmx0 !add0r !dot0r !add0r => H.
  have := H (conj kk hk); rewrite (change_value hr' hb' q2 hk) => <-.
  by rewrite E3 dotDl -dot_adjr.
have := S1 _ kk; rewrite dotDr dotNr dotC hq sub0r => /eqP; rewrite oppr_eq0 => /eqP hz.
by apply/eqP; apply: contraT => nz; have := pd _ kk nz; rewrite hz ltxx.
Qed.

(** * The stopping value *)
Lemma vnorm_eq0 inf m (v : 'cV[R]_m) : vnorm inf v = 0 -> v = 0.
Proof.
rewrite /vnorm => h; apply/matrixP => i j; rewrite (ord1 j) mxE.
have : i \in enum 'I_m by rewrite mem_enum.
have ge s : 0 <= foldr (fun i a => if inf then Num.max `|v i 0| a else `|v i 0| + a) 0 s.
  elim: s => //= k s IH; case: (inf) IH => IH; [by rewrite le_maxr IH orbT|exact: addr_ge0].
elim: (enum 'I_m) h => //= k s IH.
have g := ge s; case: (inf) IH g => IH g h; rewrite in_cons => /orP [/eqP ->|hi].
- have l : `|v k 0| <= 0 by rewrite -[X in _ <= X]h le_maxr lexx.
  by apply/eqP; rewrite -normr_eq0; apply/eqP; apply/le_anti; rewrite normr_ge0 andbT.
- apply: IH => //; set F := foldr _ _ _ in h g *; have l : F <= 0 by rewrite -[X in _ <= X]h le_maxr lexx orbT.
  by apply/le_anti; rewrite g andbT.
- by apply/eqP; rewrite -normr_eq0; move/eqP: h; rewrite paddr_eq0 // => /andP [].
- by apply: IH => //; move/eqP: h; rewrite paddr_eq0 // => /andP [_ /eqP].
Qed.
Lemma sfeas_ge inf (T : sterm) (ns : seq snode) : forall a : R, 0 <= a -> a <= sfeas inf T a ns.
Proof.
elim: ns => [|d ns IH] a ha /=.
- by case: (inf); [rewrite le_maxr lexx|rewrite ler_addl vnorm_ge0].
- have g : a <= (if inf then Num.max a (vnorm inf (ih (sst d))) else a + vnorm inf (ih (sst d))).
    by case: (inf); [rewrite le_maxr lexx|rewrite ler_addl vnorm_ge0].
  by apply: le_trans g (IH _ (le_trans ha g)).
Qed.
Lemma sfeas_eq0 inf (T : sterm) (ns : seq snode) : sfeas inf T 0 ns = 0 <-> constraints_hold T ns.
Proof.
elim: ns => [|d ns IH] /=.
- split=> [h|[_ ->]]; last by rewrite vnorm0; case: (inf); rewrite ?maxxx ?addr0.
  split=> //; apply: (@vnorm_eq0 inf); move: h; case: (inf); last by rewrite add0r.
  by rewrite max_r // vnorm_ge0.
- have e : (if inf then Num.max 0 (vnorm inf (ih (sst d))) else 0 + vnorm inf (ih (sst d))) = vnorm inf (ih (sst d)).
    by case: (inf); rewrite ?add0r ?max_r ?vnorm_ge0.
  rewrite e; split=> [h|[[h1 h2] h3]]; last by rewrite h1 vnorm0; apply/IH.
  have z : vnorm inf (ih (sst d)) = 0.
    by apply/le_anti; rewrite vnorm_ge0 andbT -h; apply: sfeas_ge; exact: vnorm_ge0.
  rewrite z in h; case/IH: h => h1 h2; split=> //; split=> //; exact: vnorm_eq0 z.
Qed.
Lemma upd_feas ns : forall (bs : bnodes sder ns) (d : R * R), 
  (upd_loop (fun=> 0) true d bs).1 + half * (upd_loop (fun=> 0) true d bs).2
  = d.1 + half * d.2 + ((upd_loop (fun=> 0) true (0, 0) bs).1 + half * (upd_loop (fun=> 0) true (0, 0) bs).2).
Proof.
elim: ns => [|e ns IH] bs d /=; first by rewrite mulr0 !addr0.
by rewrite IH [in RHS]IH /=; fld R.
Qed.
Lemma improvement preg T ns : forall (bs : bnodes sder ns), regular T ns -> sbpass preg T ns = Some bs ->
  all_nodes (fun d : snode => ih (sst d) = 0) ns ->
  let d := upd_loop (fun=> 0) true (0, 0) bs in
  0 <= d.1 + half * d.2 /\ (d.1 + half * d.2 = 0 <-> quiet bs).
Proof.
elim: ns => [|d ns IH] bs hr hb hh /=; first by rewrite mulr0 addr0.
have [hb' hd] := sbpass_cons hb; have [sT [[sL hF hU] hA]] := hr; have [hh1 hh2] := hh.
have hr' : regular T ns by split.
have sv := svalue_symm hr' hb'.
have [_ Ek EK [S1 _] pd] := snode_facts sL sv hF hU hd.
have [_ _ _ _ [_ Eq]] := node_eqs hd.
have kk : iHu (sst d) *m kff bs.1 = 0 by rewrite Ek hh1.
have := S1 _ kk; rewrite dotDr dotNr dotC => /eqP; rewrite subr_eq0 => /eqP e1.
rewrite upd_feas /= !add0r Eq e1.
set q := dot (kff bs.1) (Quu bs.1 *m kff bs.1).
have q0 : 0 <= q.
  case: (eqVneq (kff bs.1) 0) => [z|nz]; first by rewrite /q z dot0l.
  exact: ltW (pd _ kk nz).
have -> : q + half * - q = half * q by fld R.
have hq : 0 <= half * q by apply: mulr_ge0 => //; rewrite invr_ge0 ler0n.
have [g i] := IH bs.2 hr' hb' hh2; split; first exact: addr_ge0.
split.
- move/eqP; rewrite paddr_eq0 // => /andP [/eqP z /eqP/i q2]; split=> //.
  apply/eqP; apply: contraT => nz; have := pd _ kk nz; rewrite -/q.
  have -> : q = 0 by rewrite -[q]mul1r -(@mulfV _ (2%:R : R)) ?pnatr_eq0 // -mulrA z mulr0.
  by rewrite ltxx.
- by case=> k0 q2; rewrite /q k0 dot0l mulr0 add0r; apply/i.
Qed.
Lemma sstop_eq0 inf preg T ns (bs : bnodes sder ns) : regular T ns -> sbpass preg T ns = Some bs ->
  sstop inf preg T bs = 0 <-> constraints_hold T ns /\ quiet bs.
Proof.
move=> hr hb; rewrite /sstop /stopping /ei_fddp /upd_fddp /= addr0 mulr0 subr0.
have g := @sfeas_ge inf T ns 0 (lexx 0).
split=> [h|[hc hq]].
- have z : sfeas inf T 0 ns = 0 by apply/le_anti; rewrite g andbT -[X in _ <= X]h le_maxr lexx.
  have hc := (sfeas_eq0 inf T ns).1 z; split=> //.
  apply/(improvement hr hb hc.1).2; move: h; rewrite z max_r ?normr_ge0 // => /eqP; rewrite normr_eq0 => /eqP //.
- by rewrite ((sfeas_eq0 inf T ns).2 hc) ((improvement hr hb hc.1).2.2 hq) normr0 maxxx.
Qed.

(** * C125 *)
(** A zero stopping value: the constraints hold and the cost is stationary along them. *)
Theorem C125_stationary inf preg T ns (bs : bnodes sder ns) : regular T ns -> sbpass preg T ns = Some bs ->
  sstop inf preg T bs = 0 -> constrained_stationary T ns.
Proof.
move=> hr hb /(sstop_eq0 inf hr hb) [hc q]; split=> // ws hk.
by rewrite (change_value hr hb q hk) dot0r.
Qed.
(** Without a terminal constraint the converse holds too. *)
Theorem C125_zero_partial inf preg T ns (bs : bnodes sder ns) : snh T = 0%N -> regular T ns -> sbpass preg T ns = Some bs ->
  sstop inf preg T bs = 0 <-> constrained_stationary T ns.
Proof.
move=> h0 hr hb; split; first exact: C125_stationary.
by case=> hc hs; apply/(sstop_eq0 inf hr hb); split=> //; apply: (stationary_quiet h0 hr hb hc.1).
Qed.

(** The conditions are sufficient whatever the constraints are *)
Lemma kkt_change T ns : forall dx p (ws : moves ns), kkt T ns p -> keeps T dx ws -> change T dx ws = dot p dx.
Proof.
elim: ns => [|d ns IH] dx p ws /=.
  by case=> mu -> hk; rewrite dotDl -dot_adjr hk dot0r addr0.
case=> lam [p' [-> h hp]] [hk hs]; rewrite (IH _ _ _ hp hs).
have := congr1 (fun v => dot v ws.1) h; rewrite dot0l !dotDl -!dot_adjr => h'.
have := congr1 (fun v => dot lam v) hk; rewrite dot0r !dotDr => h2.
apply/eqP; rewrite -subr_eq0; apply/eqP.
transitivity (dot (Lu (sder d)) ws.1 + dot p' (Fu (sder d) *m ws.1) + dot lam (iHu (sst d) *m ws.1)
              - (dot lam (iHx (sst d) *m dx) + dot lam (iHu (sst d) *m ws.1))).
  by rng R.
by rewrite -h' h2 subr0.
Qed.
Lemma kkt_value preg T ns : forall (bs : bnodes sder ns), regular T ns -> sbpass preg T ns = Some bs -> quiet bs ->
  kkt T ns (value (vterm preg true (st T) 0) bs).1.
Proof.
elim: ns => [|d ns IH] bs hr hb q /=; first by exists 0; rewrite mulmx0 addr0.
have [hb' hd] := sbpass_cons hb; have [sT [[sL hF hU] hA]] := hr; have [q1 q2] := q.
have hr' : regular T ns by split.
have sv := svalue_symm hr' hb'.
have [_ _ EK [S1 _] _] := snode_facts sL sv hF hU hd.
have [E1 _ E3 _ _] := node_eqs hd.
have [_ _] := ibstepP (conj sL sv : sym_in (sst d) _) hd; rewrite /i_value /= => -[-> _].
rewrite q1 !mulmx0 !subr0.
have [Y hY] := row_freeP hF.
have hQ : Qu bs.1 = (iHu (sst d))^T *m (Y^T *m Qu bs.1).
  apply: dot_inj => v; rewrite -!dot_adj.
  have hv : iHu (sst d) *m (v - Y *m (iHu (sst d) *m v)) = 0 by rewrite mulmxBr mulmxA hY mul1mx subrr.
  by have := S1 _ hv; rewrite q1 mulmx0 subr0 dotDl dotNl => /eqP; rewrite subr_eq0 => /eqP.
exists (- (Y^T *m Qu bs.1)), (value (vterm preg true (st T) 0) bs.2).1; split; last exact: IH.
- by rewrite /IntroStop_Model.sder -E1 mulmxN; congr (_ - _); rewrite -EK trmx_mul -mulmxA -hQ.
- by rewrite /IntroStop_Model.sder -E3 mulmxN -hQ subrr.
Qed.
(** A zero stopping value gives the Karush-Kuhn-Tucker conditions; the costates are the gradients of the
    value function. *)
Theorem C125_multipliers inf preg T ns (bs : bnodes sder ns) : regular T ns -> sbpass preg T ns = Some bs ->
  sstop inf preg T bs = 0 -> constraints_hold T ns /\ kkt T ns (value (vterm preg true (st T) 0) bs).1.
Proof.
by move=> hr hb /(sstop_eq0 inf hr hb) [hc q]; split=> //; exact: kkt_value.
Qed.
(** Conversely the conditions give a zero stopping value when the terminal node has no constraint. *)
Theorem C125_kkt_partial inf preg T ns (bs : bnodes sder ns) : snh T = 0%N -> regular T ns -> sbpass preg T ns = Some bs ->
  sstop inf preg T bs = 0 <-> constraints_hold T ns /\ exists p, kkt T ns p.
Proof.
move=> h0 hr hb; split=> [/(C125_multipliers hr hb) [hc hk]|[hc [p hk]]]; first by split=> //; exists (value (vterm preg true (st T) 0) bs).1.
apply/(C125_zero_partial inf h0 hr hb); split=> // ws hs.
by rewrite (kkt_change hk hs) dot0r.
Qed.
End Props.
Print Assumptions C125_multipliers.
Print Assumptions C125_kkt_partial.
Print Assumptions C125_stationary.
Print Assumptions C125_zero_partial.
