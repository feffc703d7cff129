(** Lemmas for C123. *)
From mathcomp Require Import all_ssreflect all_algebra.
From Verif Require Import RingTac LinAlg LinAlg_Proofs Riccati_Model Riccati_Spec Riccati_Proofs RiccatiLQ_Proofs Riccati_Props.
From Verif Require Import Intro_Model Intro_Proofs Intro_Props LQSolve_Model IntroLQ_Model.
Set Implicit Arguments.
Unset Strict Implicit.
Unset Printing Implicit Defensive.
Import Order.TTheory GRing.Theory Num.Theory.
Local Open Scope ring_scope.

Section Proofs.
Variables (R : realFieldType) (n : nat).
Add Field RF : (rft R).
Notation half := (2%:R^-1 : R).
Notation ic := (@ic R n).

(** The constraint of a node has full row rank and its factors are those of [Hu] *)
Definition node_ok (d : inode R n) : Prop := row_free (lH (im d)) /\ usable (isol d) (lH (im d)).

Lemma empty_rows p q (A B : 'M[R]_(p, q)) : p = 0%N -> A = B.
Proof. by move=> e; subst p; apply/matrixP => -[]. Qed.
Lemma row_free_size p q (A : 'M[R]_(p, q)) : row_free A -> (p <= q)%N.
Proof. by move/eqP => <-; exact: rank_leq_col. Qed.

Lemma node_facts preg feas (d : inode R n) f v b : symm (lR (il (im d))) -> symm v.2 -> node_ok d ->
  ibstep (s := ist d) preg feas (isol d) f v = Some b ->
  [/\ symm (Quu b), lH (im d) *m kff b = hval (ix d) (iu d), lH (im d) *m Kfb b = lG (im d),
      stationary (lH (im d)) (Quu b) (Qu b) (Qxu b) (kff b) (Kfb b) & kernel_posdef (lH (im d)) (Quu b)].
Proof.
move=> hR hv [hF hU] hb; have sy : sym_in (ist d) v by split.
case: (posnP (lh (im d))) => [h0|hp]; last first.
  apply: (ibstep_facts sy _ _ hU hb) => //=.
  exact: leq_trans hp (row_free_size hF).
have [sq hg _] := ibstepP sy hb.
have hc : (0 < lnu (il (im d)))%N && (0 < lh (im d))%N = false by rewrite h0 andbF.
move: hg; rewrite /i_gains /= hc /free_gains; case: ifP => // /(llt_okP sq) pq [hk hK].
have uq := posdef_unit pq.
have ek : Quu b *m kff b = Qu b by rewrite -hk llt_solveE // mulKVmx.
have eK : Quu b *m Kfb b = (Qxu b)^T by rewrite -hK llt_solveE // mulKVmx.
split=> //; try exact: empty_rows.
- by split=> w _; rewrite ?ek ?eK subrr ?dot0r ?mulmx0.
- by move=> w _; exact: pq.
Qed.

Lemma node_eqs preg feas (s : istage R n) e f v b : ibstep (s := s) preg feas e f v = Some b ->
  [/\ Qx b = Lx (ibase s) + (Fx (ibase s))^T *m v.1,
      Qxx b = Lxx (ibase s) + (Fx (ibase s))^T *m v.2 *m Fx (ibase s),
      Qu b = Lu (ibase s) + (Fu (ibase s))^T *m v.1,
      Quu b = Luu (ibase s) + (Fu (ibase s))^T *m v.2 *m Fu (ibase s) + preg%:M &
      Qxu b = Lxu (ibase s) + (Fx (ibase s))^T *m v.2 *m Fu (ibase s) /\ Quuk b = Quu b *m kff b].
Proof. by rewrite /ibstep; case: i_gains => [[k K]|//] [<-]. Qed.

Lemma ibpass_cons preg feas T fT d ns (bs : bnodes (@cder R n) (map ic (d :: ns))) :
  ibpass preg feas T fT (d :: ns) = Some bs ->
  ibpass preg feas T fT ns = Some bs.2 /\
  ibstep (s := ist d) preg feas (isol d) (ifs d) (value (vterm preg feas T fT) bs.2) = Some bs.1.
Proof.
rewrite /=; case: ibpass => [bs'|//]; case E: ibstep => [b|//] [<-] /=.
by split.
Qed.

Lemma i_value_symm (preg : R) feas (T : terminal R n) fT (ns : seq (inode R n)) bs : symm (TLxx T) -> all_nodes (fun d : inode R n => symm (lR (il (im d)))) ns ->
  ibpass preg feas T fT ns = Some bs -> symm (value (vterm preg feas T fT) bs).2.
Proof.
move=> hT; elim: ns bs => [|d ns IH] bs; first by move=> _ _ /=; apply: symmD => //; exact: symm_scalar.
case=> hd hns /ibpass_cons [h1 h2].
have sy : sym_in (ist d) (value (vterm preg feas T fT) bs.2) by split=> //; exact: IH.
by case: (C78_value 0 sy h2).
Qed.

(** * Constraints along a rollout *)
Fixpoint admissible (x : 'cV[R]_n) (ns : seq (inode R n)) : ctrls (map ic ns) -> Prop :=
  match ns with
  | [::] => fun _ => True
  | d :: ns' => fun us => hval x us.1 = 0 :> 'cV_(lh (im d)) /\ admissible (lq_next x us.1) us.2
  end.

Fixpoint icbase (T : lqterm R n) (vT : 'cV[R]_n * 'M[R]_n) (xT fT : 'cV[R]_n) (ns : seq (cnode R n)) :
    bnodes (@cder R n) ns -> R :=
  match ns with
  | [::] => fun _ => lq_tcost T xT + dot vT.1 fT - half * dot fT (vT.2 *m fT)
  | d :: ns' => fun bs =>
      lq_cost (cx d) (cu d) + icbase T vT xT fT bs.2 + dot (Vx bs.1) (cf d)
      - half * dot (cf d) (Vxx bs.1 *m cf d) + (half * dot (kff bs.1) (Quu bs.1 *m kff bs.1) - dot (Qu bs.1) (kff bs.1))
  end.

Lemma i_square (feas : bool) (d : inode R n) v b dx du :
  symm v.2 -> symm (lR (il (im d))) -> node_ok d -> (feas -> ifs d = 0) ->
  ibstep (s := ist d) 0 feas (isol d) (ifs d) v = Some b ->
  hval (ix d + dx) (iu d + du) = 0 :> 'cV_(lh (im d)) ->
  let s := cder (ic d) in
  let y := Fx s *m dx + Fu s *m du in
  let e := du + kff b + Kfb b *m dx in
  dot (Lx s) dx + dot (Lu s) du
  + half * dot dx (Lxx s *m dx) + dot dx (Lxu s *m du) + half * dot du (Luu s *m du)
  + dot v.1 y + half * dot y (v.2 *m y)
  = dot (Vx b - Vxx b *m ifs d) dx + half * dot dx (Vxx b *m dx)
    + (half * dot (kff b) (Quu b *m kff b) - dot (Qu b) (kff b)) + half * dot e (Quu b *m e).
Proof.
move=> hv hR hok hf hb hh s y e.
have [sq ek eK [S1 S2] _] := node_facts hR hv hok hb.
have [e1 e2 e3 e4 [e5 _]] := node_eqs hb.
have sy : sym_in (ist d) v by split.
case: (C78_value dx sy hb) => sV; rewrite mul0r mulr0 addr0.
have -> : Vx b - (if feas then 0 else Vxx b *m ifs d) = Vx b - Vxx b *m ifs d.
  by case: (feas) hf => // /(_ isT) ->; rewrite mulmx0.
set q := qfun _ _ _ _ _ => pol.
have edu : du = (- kff b - Kfb b *m dx) + e by rewrite /e; vec R.
have He : lH (im d) *m e = 0.
  rewrite /e !mulmxDr ek mulmxA eK -[RHS]hh /hval !mulmxDr; vec R.
have hq : q dx du = q dx (- kff b - Kfb b *m dx) + half * dot e (Quu b *m e).
  rewrite {1}edu /q qfun_diff //; congr (_ + _).
  have -> : Qu b + Quu b *m (- kff b - Kfb b *m dx) + (Qxu b)^T *m dx =
            (Qu b - Quu b *m kff b) + ((Qxu b)^T - Quu b *m Kfb b) *m dx.
    by rewrite mulmxBr mulmxN mulmxBl -mulmxA; vec R.
  by rewrite dotDr (S1 _ He) /dot mulmxA (S2 _ He) mul0mx mxE !addr0.
have eq : q dx du = dot (Lx s) dx + dot (Lu s) du
  + half * dot dx (Lxx s *m dx) + dot dx (Lxu s *m du) + half * dot du (Luu s *m du)
  + dot v.1 y + half * dot y (v.2 *m y).
  rewrite /q /qfun e1 e2 e3 e4 e5 /y !(mulmxDl, mulmxDr, dotDl, dotDr) !mul_scalar_mx !scale0r !dot0r.
  rewrite -!mulmxA ![dot (_ *m _) _]dot_adj !trmxK.
  have -> : dot du ((Fu s)^T *m (v.2 *m (Fx s *m dx))) = dot dx ((Fx s)^T *m (v.2 *m (Fu s *m du))).
    by rewrite -!dot_adj dot_symm.
  rewrite /=; by fld R.
by rewrite -eq hq pol; rng R.
Qed.

Definition i_symm (T : lqterm R n) (ns : seq (inode R n)) : Prop := lq_symm T (map ic ns).
Lemma i_symm_R T ns : i_symm T ns -> all_nodes (fun d : inode R n => symm (lR (il (im d)))) ns.
Proof. by case=> _; elim: ns => //= d ns IH [[_ ?] /IH]. Qed.

Lemma ikey (feas : bool) (T : lqterm R n) xT fT ns bs xin : i_symm T ns -> all_nodes node_ok ns ->
  gaps_of xin (map ic ns) xT fT -> (feas -> no_gaps (map ic ns) fT) ->
  ibpass 0 feas (lq_tdiff T xT) fT ns = Some bs ->
  forall z us, admissible z us ->
  let vT := vterm 0 feas (lq_tdiff T xT) fT in
  let v := value vT bs in
  gcost 0 T fT z us =
    icbase T vT xT fT bs + dot v.1 (z - xin) + half * dot (z - xin) (v.2 *m (z - xin))
    + rest 0 vT xT fT z bs us.
Proof.
elim: ns bs xin => [|d ns IH] bs xin hs hok hg hf hb z us ha vT v.
  rewrite /= in hg; case: hs => hT _.
  have ex : xin = xT + fT by rewrite hg addrC subrK.
  have ev : vT.2 = tQ T by rewrite /vT /= raddf0 addr0.
  have e1 : vT.1 = TLx (lq_tdiff T xT) + vT.2 *m fT.
    rewrite ev /vT /=; case: (feas) hf => [/(_ isT)[_ ->]|_]; first by rewrite mulmx0 addr0.
    by rewrite raddf0 addr0.
  have hV : symm vT.2 by rewrite ev.
  have sh := @shift_id R n 0 _ _ _ fT (z - xin) hV e1.
  have e2 : z + 0 *: fT = xT + (z - xin + fT + 0 *: fT) by rewrite ex; vec R.
  have -> : gcost 0 T fT z us = lq_tcost T (z + 0 *: fT) by [].
  have -> : icbase T vT xT fT bs = lq_tcost T xT + dot vT.1 fT - half * dot fT (vT.2 *m fT) by [].
  have -> : rest 0 vT xT fT z bs us = gterm 0 vT fT (z - (xT + fT)) by [].
  have -> : v = vT by [].
  rewrite e2 lq_tcost_taylor // -[tQ T]ev -addrA sh -ex -surjective_pairing.
  by rng R.
have hR := i_symm_R hs.
case: hs => hT [[hQ _] hns]; case: hg => ef hg; case: hok => hd hok; case: ha => hh ha.
case: (ibpass_cons hb) => h1 h2.
have hs' : i_symm T ns by split.
have hf' : feas -> no_gaps (map ic ns) fT by move=> /hf[[_ ?] ?]; split.
have fd : feas -> ifs d = 0 by move=> /hf[[? _] _].
have hsv : symm (value vT bs.2).2 by apply: i_value_symm h1 => //; exact: hR.2.
have sy : sym_in (ist d) (value vT bs.2) by split=> //; exact: hR.1.
have hV : symm (Vxx bs.1) by case: (C78_value 0 sy h2).
set y := z + 0 *: cf (ic d); set dx := y - ix d; set du := us.1 - iu d.
have yz : y = z by rewrite /y scale0r addr0.
have ey : y = ix d + dx by rewrite /dx; vec R.
have eu : us.1 = iu d + du by rewrite /du; vec R.
have en : lq_next y us.1 - lq_next (ix d) (iu d) = Fx (cder (ic d)) *m dx + Fu (cder (ic d)) *m du.
  by rewrite /lq_next ey eu !mulmxDr /=; vec R.
have ex : xin = ix d + ifs d by rewrite [ifs d]ef addrC subrK.
have edx : dx = (z - xin) + ifs d + 0 *: ifs d by rewrite /dx /y ex /=; vec R.
have hh' : hval (ix d + dx) (iu d + du) = 0 :> 'cV_(lh (im d)) by rewrite -ey -eu yz.
have sq := @i_square feas d (value vT bs.2) bs.1 dx du hsv hR.1 hd fd h2 hh'.
have e1 : Vx bs.1 = (Vx bs.1 - Vxx bs.1 *m ifs d) + Vxx bs.1 *m ifs d by rewrite subrK.
have sh := @shift_id R n 0 _ _ _ (ifs d) (z - xin) hV e1.
rewrite -edx in sh.
have ha' : admissible (lq_next y us.1) us.2 by rewrite yz.
have IH' := IH _ _ hs' hok hg hf' h1 _ us.2 ha'.
have -> : gcost 0 T fT z us = lq_cost y us.1 + gcost 0 T fT (lq_next y us.1) us.2 by [].
rewrite IH' en -/vT.
have -> : lq_cost y us.1 = lq_cost (ix d + dx) (iu d + du) by rewrite -ey -eu.
rewrite lq_cost_taylor //; last exact: hR.1.
rewrite /v.
have -> : icbase T vT xT fT bs = lq_cost (ix d) (iu d) + icbase T vT xT fT bs.2 + dot (Vx bs.1) (ifs d)
      - half * dot (ifs d) (Vxx bs.1 *m ifs d) + (half * dot (kff bs.1) (Quu bs.1 *m kff bs.1) - dot (Qu bs.1) (kff bs.1)) by [].
have -> : value vT bs = (Vx bs.1, Vxx bs.1) by [].
have -> : rest 0 vT xT fT z bs us = gterm 0 (Vx bs.1, Vxx bs.1) (ifs d) (z - (ix d + ifs d))
      + half * dot (du + kff bs.1 + Kfb bs.1 *m dx) (Quu bs.1 *m (du + kff bs.1 + Kfb bs.1 *m dx))
      + rest 0 vT xT fT (lq_next y us.1) bs.2 us.2 by [].
rewrite -ex yz.
move: sq; cbv zeta => sq.
by rewrite -[Lx (lq_diff (ix d) (iu d))]/(Lx (cder (ic d))) -[Lu (lq_diff (ix d) (iu d))]/(Lu (cder (ic d))); apply: (lincomb2 sq sh); rewrite /=; rng R.
Qed.

(** What the pass stores, node by node *)
Fixpoint istored (ns : seq (inode R n)) : bnodes (@cder R n) (map ic ns) -> Prop :=
  match ns with
  | [::] => fun _ => True
  | d :: ns' => fun bs =>
      [/\ symm (Quu bs.1), lH (im d) *m kff bs.1 = hval (ix d) (iu d), lH (im d) *m Kfb bs.1 = lG (im d),
          stationary (lH (im d)) (Quu bs.1) (Qu bs.1) (Qxu bs.1) (kff bs.1) (Kfb bs.1) &
          kernel_posdef (lH (im d)) (Quu bs.1) /\ Quuk bs.1 = Quu bs.1 *m kff bs.1] /\ istored bs.2
  end.
Lemma ibpass_stored preg feas (T : terminal R n) fT (ns : seq (inode R n)) bs : symm (TLxx T) ->
  all_nodes (fun d : inode R n => symm (lR (il (im d)))) ns -> all_nodes node_ok ns ->
  ibpass preg feas T fT ns = Some bs -> istored bs.
Proof.
move=> hT; elim: ns bs => [|d ns IH] bs // [hd hns] [kd kns] /ibpass_cons [h1 h2].
split; last exact: IH.
have hv := i_value_symm hT hns h1.
have [? ? ? ? ?] := node_facts hd hv kd h2.
by have [_ _ _ _ [_ ?]] := node_eqs h2.
Qed.

Lemma i_residual (d : inode R n) (b : bnode R n (lnu (il (im d)))) z (u : 'cV[R]_(lnu (il (im d)))) :
  lH (im d) *m kff b = hval (ix d) (iu d) -> lH (im d) *m Kfb b = lG (im d) ->
  lH (im d) *m (u - iu d + kff b + Kfb b *m (z - ix d)) = hval z u.
Proof.
move=> ek eK; rewrite 2!mulmxDr ek [lH (im d) *m (Kfb b *m _)]mulmxA eK /hval mulmxBr (mulmxBr (lG (im d))); vec R.
Qed.

Lemma fwd_admissible T fT ns : forall z c (bs : bnodes (@cder R n) (map ic ns)), istored bs ->
  admissible z ((lq_forward 1 true T fT z c bs).1.2).
Proof.
elim: ns => [|d ns IH] z c bs // [[_ ek eK _ _] hbs]; split; last exact: IH.
have {1}-> : (lq_forward 1 true T fT z c bs).1.2 =
  (iu d - 1 *: kff bs.1 - Kfb bs.1 *m (z - ix d),
   (lq_forward 1 true T fT (lq_next z (iu d - 1 *: kff bs.1 - Kfb bs.1 *m (z - ix d)))
     (c + lq_cost z (iu d - 1 *: kff bs.1 - Kfb bs.1 *m (z - ix d))) bs.2).1.2) by [].
rewrite -(i_residual _ _ ek eK) /=.
have -> : iu d - 1 *: kff bs.1 - Kfb bs.1 *m (z - ix d) - iu d + kff bs.1 + Kfb bs.1 *m (z - ix d) = 0 by vec R.
by rewrite mulmx0.
Qed.

Lemma kernel_form_ge0 p m (H : 'M[R]_(p, m)) (Q : 'M[R]_m) e : kernel_posdef H Q -> H *m e = 0 -> 0 <= dot e (Q *m e).
Proof.
move=> hp he; case: (eqVneq e 0) => [->|hn]; first by rewrite mulmx0 dot0r.
by apply: ltW; exact: hp.
Qed.
Lemma kernel_form_eq0 p m (H : 'M[R]_(p, m)) (Q : 'M[R]_m) e : kernel_posdef H Q -> H *m e = 0 ->
  dot e (Q *m e) = 0 -> e = 0.
Proof.
move=> hp he h0; apply/eqP; apply: contraT => hn.
by have := hp e he hn; rewrite h0 ltxx.
Qed.
Lemma gterm0 (v : 'cV[R]_n * 'M[R]_n) f i : gterm 0 v f i = 0.
Proof. by rewrite /gterm expr2 !mul0r !mulr0 !mul0r !addr0. Qed.

Lemma irest_ge0 vT xT fT ns : forall z (bs : bnodes (@cder R n) (map ic ns)) us,
  istored bs -> admissible z us -> 0 <= rest 0 vT xT fT z bs us.
Proof.
elim: ns => [|d ns IH] z bs us; first by rewrite /= gterm0.
case=> [[_ ek eK _ [hp _]] hbs] [hh ha] /=.
rewrite gterm0 add0r scale0r addr0; apply: addr_ge0; last exact: IH.
apply: mulr_ge0; first by rewrite invr_ge0 ler0n.
by apply: (kernel_form_ge0 hp); rewrite i_residual.
Qed.
Lemma irest_eq0 T vT xT fT ns : forall z c (bs : bnodes (@cder R n) (map ic ns)) us,
  istored bs -> admissible z us -> rest 0 vT xT fT z bs us = 0 ->
  us = (lq_forward 1 true T fT z c bs).1.2.
Proof.
elim: ns => [|d ns IH] z c bs us; first by case: us.
case=> [[_ ek eK _ [hp _]] hbs] [hh ha] /=.
rewrite gterm0 add0r !scale0r !addr0.
set e := _ + _ *m (z - ix d) => /eqP.
have he : lH (im d) *m e = 0 by rewrite i_residual.
rewrite paddr_eq0; first last.
- exact: irest_ge0.
- by apply: mulr_ge0; [rewrite invr_ge0 ler0n|exact: kernel_form_ge0 hp he].
case/andP; rewrite mulf_eq0 invr_eq0 pnatr_eq0 /= => /eqP h0 /eqP h1.
have eu : us.1 = iu d - 1 *: kff bs.1 - Kfb bs.1 *m (z - ix d).
  have he0 := kernel_form_eq0 hp he h0.
  apply/eqP; rewrite -subr_eq0; apply/eqP; rewrite -he0 /e; vec R.
rewrite -eu; rewrite {1}(surjective_pairing us); congr pair.
exact: IH.
Qed.

Fixpoint qk (ns : seq (cnode R n)) : bnodes (@cder R n) ns -> R :=
  match ns with [::] => fun _ => 0 | d :: ns' => fun bs => dot (Qu bs.1) (kff bs.1) + qk bs.2 end.
Lemma i_cand_base T vT xT fT ns (bs : bnodes (@cder R n) ns) :
  cand_cost T ns xT = icbase T vT xT fT bs - svx vT fT bs + half * sfv vT fT bs + (qk bs - half * qsum bs).
Proof.
elim: ns bs => [|d ns IH] bs /=; first by fld R.
by rewrite (IH bs.2); fld R.
Qed.
Lemma i_ei_ddp (ns : seq (inode R n)) : forall d (bs : bnodes (@cder R n) (map ic ns)), istored bs ->
  ei_ddp d bs = (d.1 + qk bs, d.2 - qsum bs).
Proof.
elim: ns => [|e ns IH] d bs; first by move=> _ /=; rewrite addr0 subr0 -surjective_pairing.
case=> [[_ _ _ _ [_ hq]] hbs] /=; rewrite IH //= hq; congr pair; rng R.
Qed.
Lemma i_upd_sum vT fT (ns : seq (inode R n)) : forall d (bs : bnodes (@cder R n) (map ic ns)), istored bs ->
  upd_loop (@cf R n) false d bs =
  (d.1 + qk bs - (svx vT fT bs - dot vT.1 fT), d.2 - qsum bs + (sfv vT fT bs - dot fT (vT.2 *m fT))).
Proof.
elim: ns => [|e ns IH] d bs.
  by move=> _ /=; rewrite !subrr !addr0 !subr0 -surjective_pairing.
by case=> [[_ _ _ _ [_ hq]] hbs] /=; rewrite IH //= hq; congr pair; rng R.
Qed.

(** * The full step *)
Section Step.
Variables (T : lqterm R n) (x0 xT fT : 'cV[R]_n) (ns : seq (inode R n)) (bs : bnodes (@cder R n) (map ic ns)) (feas : bool).
Hypotheses (hs : i_symm T ns) (hok : all_nodes node_ok ns) (hg : gaps_of x0 (map ic ns) xT fT)
  (hf : feas -> no_gaps (map ic ns) fT) (hb : ibpass 0 feas (lq_tdiff T xT) fT ns = Some bs).
Let r := lq_forward 1 true T fT x0 0 bs.

Lemma step_stored : istored bs.
Proof. by case: (hs) => hT _; apply: ibpass_stored hb => //; exact: i_symm_R hs. Qed.
Lemma step_cost us : admissible x0 us ->
  roll_cost T x0 us = icbase T (vterm 0 feas (lq_tdiff T xT) fT) xT fT bs
    + rest 0 (vterm 0 feas (lq_tdiff T xT) fT) xT fT x0 bs us.
Proof.
move=> ha; have := ikey hs hok hg hf hb ha; cbv zeta.
by rewrite gcost0 subrr dot0r mulmx0 dot0r mulr0 !addr0.
Qed.
Lemma step_full :
  [/\ (r.1.1.1, r.1.1.2) = roll_states x0 (r.1.2), admissible x0 (r.1.2), r.2 = roll_cost T x0 (r.1.2),
      r.2 = icbase T (vterm 0 feas (lq_tdiff T xT) fT) xT fT bs &
      forall us, admissible x0 us -> r.2 <= roll_cost T x0 us /\ (roll_cost T x0 us = r.2 -> us = r.1.2)].
Proof.
have hst := step_stored.
have ha := fwd_admissible T fT x0 0 hst.
have ec : r.2 = roll_cost T x0 (r.1.2).
  by have := @forward_cost R n 1 true T fT _ x0 0 bs; cbv zeta; rewrite add0r gcost0.
have er := @forward_rest R n 1 (vterm 0 feas (lq_tdiff T xT) fT) T xT fT _ x0 0 bs; cbv zeta in er.
rewrite subrr expr0n mulr0 mul0r in er.
have e0 : r.2 = icbase T (vterm 0 feas (lq_tdiff T xT) fT) xT fT bs by rewrite ec step_cost // er addr0.
split=> //; first by have := @forward_states R n 1 T fT _ x0 0 bs.
move=> us hu; have g0 := irest_ge0 (vterm 0 feas (lq_tdiff T xT) fT) xT fT hst hu.
rewrite step_cost // e0; split; first by rewrite ler_addl.
move=> h; apply: (irest_eq0 T 0 hst hu (vT := vterm 0 feas (lq_tdiff T xT) fT) (xT := xT) (fT := fT)).
by apply: (addrI (icbase T (vterm 0 feas (lq_tdiff T xT) fT) xT fT bs)); rewrite addr0.
Qed.
(** The expected improvement of the full step is exact *)
Lemma step_exact :
  let d := ei_fddp (@cf R n) 0 feas (lq_tdiff T xT) fT bs (diffs (map ic ns) r.1.1.1) (xT - r.1.1.2) in
  cand_cost T (map ic ns) xT - r.2 = d.1 + half * d.2.
Proof.
have hst := step_stored; have [_ _ _ e0 _] := step_full.
cbv zeta; rewrite e0; set vT := vterm 0 feas (lq_tdiff T xT) fT.
rewrite (i_cand_base T vT xT fT bs).
case: (boolP feas) => ef.
  rewrite C21_fddp_feasible i_ei_ddp //=.
  case: (no_gaps_sums vT bs (hf ef)) => -> ->; by rng R.
have hsz : size r.1.1.1 = size (map ic ns) by exact: forward_size.
have e2 := @dv_sum R n vT xT fT _ 0 bs r.1.1.1 r.1.1.2 _ hsz erefl.
rewrite /ei_fddp /upd_fddp.
have -> : vterm 0 false (lq_tdiff T xT) fT = vT by rewrite /vT (negbTE ef).
rewrite -[- dot fT (vT.2 *m _)]add0r e2 add0r.
by rewrite (i_upd_sum vT fT) //=; fld R.
Qed.
End Step.

(** * Convex problems: the pass succeeds *)
Lemma i_vxx_form preg feas (s : istage R n) e f v b x : sym_in s v -> ibstep (s := s) preg feas e f v = Some b ->
  let y := - (Kfb b *m x) in
  let z := Fx (ibase s) *m x + Fu (ibase s) *m y in
  dot x (Vxx b *m x) = (dot x (Lxx (ibase s) *m x) + 2%:R * dot x (Lxu (ibase s) *m y) + dot y (Luu (ibase s) *m y))
    + dot z (v.2 *m z) + preg * dot y y + preg * dot x x.
Proof.
move=> sy hb y z; have [_ _ [_ ->]] := ibstepP sy hb; have [_ e2 _ e4 [e5 _]] := node_eqs hb.
rewrite (mulmxDl _ preg%:M x) dotDr dot_sym mul_scalar_mx dotZr; congr (_ + _).
have -> : (Qxx b + ((Kfb b)^T *m Quu b - 2%:R *: Qxu b) *m Kfb b) *m x
        = Qxx b *m x - ((Kfb b)^T *m (Quu b *m y)) + 2%:R *: (Qxu b *m y).
  rewrite (mulmxDl (Qxx b)) -[_ *m Kfb b *m x]mulmxA mulmxBl -scalemxAl -[(Kfb b)^T *m _ *m _]mulmxA /y !mulmxN; vec R.
rewrite !dotDr dotNr dotZr -dot_adj.
have -> : Kfb b *m x = - y by rewrite /y opprK.
rewrite dotNl opprK e2 e4 e5 /z !(mulmxDl, mulmxDr, dotDl, dotDr) mul_scalar_mx dotZr.
rewrite -!mulmxA ![dot (_ *m _) _]dot_adj.
have -> : dot y ((Fu (ibase s))^T *m (v.2 *m (Fx (ibase s) *m x))) = dot x ((Fx (ibase s))^T *m (v.2 *m (Fu (ibase s) *m y))).
  by rewrite -!dot_adj dot_symm //; case: sy.
by rng R.
Qed.

Definition i_convex (T : lqterm R n) (ns : seq (inode R n)) : Prop := convex_lq T (map ic ns).
Lemma i_succeeds preg feas (T : lqterm R n) xT fT ns : 0 <= preg -> i_symm T ns -> i_convex T ns -> all_nodes node_ok ns ->
  exists bs, ibpass preg feas (lq_tdiff T xT) fT ns = Some bs /\ psd (value (vterm preg feas (lq_tdiff T xT) fT) bs).2.
Proof.
move=> hp; elim: ns => [|d ns IH] hs hc hok.
  by exists tt; split=> //=; apply: psdD; [case: hc|exact: psd_scalar].
have hR := i_symm_R hs.
have hs' : i_symm T ns by case: hs => ? [_ ?]; split.
have hc' : i_convex T ns by case: hc => ? [_ ?]; split.
case: hs => hT _; case: hc => _ [[pR ps] _]; case: hok => hd hok; case: hR => hRd hR.
case: (IH hs' hc' hok) => bs [hb pv]; rewrite /= hb.
set v := value _ bs; have sv : symm v.2 by exact: i_value_symm hb.
have sy : sym_in (ist d) v by split.
have pq : posdef (step_quu preg (ist d) v).
  move=> w nw; rewrite /step_quu /= !mulmxDl !dotDr mul_scalar_mx dotZr -!mulmxA -dot_adj -addrA.
  apply: ltr_paddr; last exact: pR.
  by apply: addr_ge0; [exact: pv|apply: mulr_ge0 => //; exact: dot_ge0].
have [b eb] : exists b, ibstep (s := ist d) preg feas (isol d) (ifs d) v = Some b.
  case: (posnP (lh (im d))) => [h0|hh].
    have hc : (0 < lnu (il (im d)))%N && (0 < lh (im d))%N = false by rewrite h0 andbF.
    rewrite /ibstep /i_gains /= hc /free_gains -/(step_quu preg (ist d) v).
    have sq : symm (step_quu preg (ist d) v) by apply: symmD; [apply: symmD => //; apply: symm_conj|apply: symm_scalar].
    have -> : llt_ok (step_quu preg (ist d) v) by apply/(llt_okP sq).
    by eexists.
  case: hd => hF hU.
  apply/(C29_succeeds preg feas (ifs d) sy _ hh hU); first exact: leq_trans hh (row_free_size hF).
  by case: (isol d) => [z Y Z w _|]; [exact: pq|split].
exists (b, bs); rewrite eb; split=> // x.
rewrite /= (i_vxx_form x sy eb) /=.
apply: addr_ge0; last by apply: mulr_ge0 => //; exact: dot_ge0.
apply: addr_ge0; last by apply: mulr_ge0 => //; exact: dot_ge0.
by apply: addr_ge0; [exact: ps|exact: pv].
Qed.

(** * At the optimum *)
(** Without gaps, when the unregularized pass has zero feed-forward terms, so has the regularized one *)
Lemma still preg (T : lqterm R n) xT fT ns bs0 bs : i_symm T ns -> all_nodes node_ok ns ->
  ibpass 0 true (lq_tdiff T xT) fT ns = Some bs0 -> ibpass preg true (lq_tdiff T xT) fT ns = Some bs ->
  all_stored (fun m (b : bnode R n m) => kff b = 0) bs0 ->
  all_stored (fun m (b : bnode R n m) => kff b = 0) bs /\
  (value (vterm preg true (lq_tdiff T xT) fT) bs).1 = (value (vterm 0 true (lq_tdiff T xT) fT) bs0).1.
Proof.
elim: ns bs0 bs => [|d ns IH] bs0 bs hs hok hb0 hb h0; first by [].
have hR := i_symm_R hs.
have hs' : i_symm T ns by case: hs => ? [_ ?]; split.
case: hs => hT _; case: hok => hd hok; case: hR => hRd hR; case: h0 => k0 h0.
case: (ibpass_cons hb0) => a0 b0; case: (ibpass_cons hb) => a b.
have [hz ev] := IH _ _ hs' hok a0 a h0.
have sv0 := i_value_symm (T := lq_tdiff T xT) hT hR a0; have sv := i_value_symm (T := lq_tdiff T xT) hT hR a.
have [sq0 ek0 eK0 [S0 _] _] := node_facts hRd sv0 hd b0.
have [sq ek eK [S1 S2] pd] := node_facts hRd sv hd b.
have [x0 _ u0 _ _] := node_eqs b0; have [x1 _ u1 _ _] := node_eqs b.
have eu : Qu bs.1 = Qu bs0.1 by rewrite u1 u0 ev.
have ex : Qx bs.1 = Qx bs0.1 by rewrite x1 x0 ev.
have ker w : lH (im d) *m w = 0 -> dot w (Qu bs.1) = 0.
  by move=> hw; have := S0 w hw; rewrite k0 mulmx0 subr0 eu.
have kk : lH (im d) *m kff bs.1 = 0 by rewrite ek -ek0 k0 mulmx0.
have zk : kff bs.1 = 0.
  apply: (kernel_form_eq0 pd kk); have := S1 _ kk; rewrite dotDr dotNr ker // add0r => /eqP.
  by rewrite oppr_eq0 => /eqP.
split; first by split.
have sy0 : sym_in (ist d) (value (vterm 0 true (lq_tdiff T xT) fT) bs0.2) by split.
have sy : sym_in (ist d) (value (vterm preg true (lq_tdiff T xT) fT) bs.2) by split.
have [_ _ [v0 _]] := ibstepP sy0 b0; have [_ _ [v1 _]] := ibstepP sy b.
rewrite /= v0 v1 zk k0 !mulmx0 !subr0 ex eu; congr (_ - _).
apply: dot_inj => w; rewrite -!dot_adj; apply/eqP; rewrite -subr_eq0 -dotNl -dotDl; apply/eqP.
by rewrite -mulmxBl -eu; apply: ker; rewrite mulmxA mulmxBr eK eK0 subrr mul0mx.
Qed.
End Proofs.
