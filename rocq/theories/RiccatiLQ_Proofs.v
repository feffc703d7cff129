From mathcomp Require Import all_ssreflect all_algebra.
From Verif Require Import RingTac LinAlg LinAlg_Proofs Riccati_Model Riccati_Spec Riccati_Proofs.
Set Implicit Arguments.
Unset Strict Implicit.
Unset Printing Implicit Defensive.
Import Order.TTheory GRing.Theory Num.Theory.
Local Open Scope ring_scope.

Section Proofs.
Variables (R : realFieldType) (n : nat).
Add Field RF : (rft R).
Notation half := (2%:R^-1 : R).
Notation bpass := (bpass (@cder R n) (@cf R n)).

(** Taylor expansions of the quadratic costs. *)
Lemma lq_cost_taylor (s : lq R n) x u dx du : symm (lQ s) -> symm (lR s) ->
  @lq_cost R n s (x + dx) (u + du) =
  lq_cost x u + dot (Lx (lq_diff x u)) dx + dot (Lu (lq_diff x u)) du
  + half * dot dx (lQ s *m dx) + dot dx (lN s *m du) + half * dot du (lR s *m du).
Proof.
move=> hQ hR; rewrite /lq_cost /= !(mulmxDr, dotDl, dotDr).
rewrite (dot_symm dx x hQ) (dot_symm du u hR).
rewrite [dot (lQ s *m x) dx]dotC [dot (lR s *m u) du]dotC (dot_symm dx x hQ) (dot_symm du u hR).
rewrite [dot (lN s *m u) dx]dotC [dot ((lN s)^T *m x) du]dot_adj trmxK.
by fld R.
Qed.
Lemma lq_tcost_taylor (T : lqterm R n) x dx : symm (tQ T) ->
  lq_tcost T (x + dx) = lq_tcost T x + dot (TLx (lq_tdiff T x)) dx + half * dot dx (tQ T *m dx).
Proof.
move=> hQ; rewrite /lq_tcost /= !(mulmxDr, dotDl, dotDr).
by rewrite (dot_symm dx x hQ) [dot (tQ T *m x) dx]dotC (dot_symm dx x hQ); fld R.
Qed.

(** One step: completing the square in the control. *)
Lemma complete_square feas (s : stage R n) f v b dx du :
  symm v.2 -> symm (Lxx s) -> symm (Luu s) -> bstep 0 feas s f v = Some b ->
  let y := Fx s *m dx + Fu s *m du in
  let e := du + kff b + Kfb b *m dx in
  dot (Lx s) dx + dot (Lu s) du
  + half * dot dx (Lxx s *m dx) + dot dx (Lxu s *m du) + half * dot du (Luu s *m du)
  + dot v.1 y + half * dot y (v.2 *m y)
  = dot (Qx b - (Kfb b)^T *m Qu b) dx + half * dot dx (Vxx b *m dx)
    - half * dot (kff b) (Quu b *m kff b) + half * dot e (Quu b *m e).
Proof.
move=> hv hx hL /(bstep_facts hv hL)[[sq pq ek eK _] [e1 e2 e3 e4 e5] [_ eV _]] y e.
have -> : dot dx (Vxx b *m dx) = dot dx (Qxx b *m dx) - dot dx (Qxu b *m (Kfb b *m dx)).
  rewrite eV mulmxDl dotDr dot_sym mul_scalar_mx scale0r dot0r addr0.
  by rewrite mulmxBl dotDr dotNr mulmxA.
have -> : dot e (Quu b *m e) = dot du (Quu b *m du) + 2%:R * dot (Qu b) du
    + 2%:R * dot dx (Qxu b *m du) + dot (kff b) (Quu b *m kff b)
    + 2%:R * dot (Qu b) (Kfb b *m dx) + dot dx (Qxu b *m (Kfb b *m dx)).
  rewrite /e !(mulmxDr, dotDl, dotDr) ek mulmxA eK.
  rewrite (dot_symm (kff b) du sq) ek.
  have h1 : dot (Kfb b *m dx) (Quu b *m du) = dot dx (Qxu b *m du).
    by rewrite (dot_symm _ _ sq) [Quu b *m (Kfb b *m dx)]mulmxA eK dot_adjr trmxK dotC.
  have h2 z : dot z ((Qxu b)^T *m dx) = dot dx (Qxu b *m z) by rewrite dot_adjr trmxK dotC.
  rewrite h1 !h2.
  have h3 : dot dx (Qxu b *m kff b) = dot (Kfb b *m dx) (Qu b).
    by rewrite -h2 -eK -ek -mulmxA (dot_symm _ _ sq).
  by rewrite h3 [dot (Kfb b *m dx) (Qu b)]dotC [dot du (Qu b)]dotC [dot (kff b) (Qu b)]dotC; rng R.
rewrite dotDl dotNl [dot (_ *m Qu b) dx]dot_adj trmxK.
rewrite e1 e2 e3 e4 e5 /y !(mulmxDl, mulmxDr, dotDl, dotDr) !mul_scalar_mx !scale0r !dot0r.
rewrite -!mulmxA ![dot (_ *m _) _]dot_adj !trmxK.
have -> : dot du ((Fu s)^T *m (v.2 *m (Fx s *m dx))) = dot dx ((Fx s)^T *m (v.2 *m (Fu s *m du))).
  by rewrite -!dot_adj dot_symm.
by fld R.
Qed.

(** Cost of controls when every node's entry state is shifted by [g] times its gap:
    [g = 0] is a rollout, [g = a - 1] the trial of a step of length [a]. *)
Fixpoint gcost (g : R) (T : lqterm R n) (fT : 'cV[R]_n) (z : 'cV[R]_n) (ns : seq (cnode R n)) : ctrls ns -> R :=
  match ns with
  | [::] => fun _ => lq_tcost T (z + g *: fT)
  | d :: ns' => fun us =>
      let y := z + g *: cf d in lq_cost y us.1 + gcost g T fT (lq_next y us.1) us.2
  end.

(** The terms of the expansion around the candidate. *)
Definition gterm (g : R) (v : 'cV[R]_n * 'M[R]_n) (f i : 'cV[R]_n) : R :=
  g * dot v.1 f + half * g ^+ 2 * dot f (v.2 *m f) + g * dot f (v.2 *m i).
Fixpoint rest (g : R) (vT : 'cV[R]_n * 'M[R]_n) (xT fT z : 'cV[R]_n) (ns : seq (cnode R n)) :
    bnodes (@cder R n) ns -> ctrls ns -> R :=
  match ns with
  | [::] => fun _ _ => gterm g vT fT (z - (xT + fT))
  | d :: ns' => fun bs us =>
      let y := z + g *: cf d in
      let e := (us.1 - cu d) + kff bs.1 + Kfb bs.1 *m (y - cx d) in
      gterm g (Vx bs.1, Vxx bs.1) (cf d) (z - (cx d + cf d))
      + half * dot e (Quu bs.1 *m e) + rest g vT xT fT (lq_next y us.1) bs.2 us.2
  end.
Fixpoint cbase (T : lqterm R n) (vT : 'cV[R]_n * 'M[R]_n) (xT fT : 'cV[R]_n) (ns : seq (cnode R n)) :
    bnodes (@cder R n) ns -> R :=
  match ns with
  | [::] => fun _ => lq_tcost T xT + dot vT.1 fT - half * dot fT (vT.2 *m fT)
  | d :: ns' => fun bs =>
      lq_cost (cx d) (cu d) + cbase T vT xT fT bs.2 + dot (Vx bs.1) (cf d)
      - half * dot (cf d) (Vxx bs.1 *m cf d) - half * dot (kff bs.1) (Quu bs.1 *m kff bs.1)
  end.

Lemma shift_id (g : R) (V : 'M[R]_n) (v v0 f i : 'cV[R]_n) : symm V -> v = v0 + V *m f ->
  dot v0 (i + f + g *: f) + half * dot (i + f + g *: f) (V *m (i + f + g *: f))
  = dot v f - half * dot f (V *m f) + dot v i + half * dot i (V *m i) + gterm g (v, V) f i.
Proof.
move=> hV ->; rewrite /gterm /= !(mulmxDr, dotDl, dotDr) -!scalemxAr !dotZr !dotZl.
rewrite (dot_symm i f hV) [dot (V *m f) f]dotC [dot (V *m f) i]dotC (dot_symm i f hV).
by fld R.
Qed.

Lemma lq_nodes_symm (T : lqterm R n) ns : lq_symm T ns ->
  all_nodes (fun d => symm (Luu (cder d))) ns.
Proof. by case=> _; elim: ns => //= d ns IH [[_ ?] /IH]. Qed.

Lemma key (feas : bool) (T : lqterm R n) xT fT ns bs xin : lq_symm T ns -> gaps_of xin ns xT fT ->
  (feas -> no_gaps ns fT) ->
  bpass 0 feas (lq_tdiff T xT) fT ns = Some bs ->
  forall g z us,
  let vT := vterm 0 feas (lq_tdiff T xT) fT in
  let v := value vT bs in
  gcost g T fT z us =
    cbase T vT xT fT bs + dot v.1 (z - xin) + half * dot (z - xin) (v.2 *m (z - xin))
    + rest g vT xT fT z bs us.
Proof.
elim: ns bs xin => [|d ns IH] bs xin hs hg hf hb g z us vT v.
  rewrite /= in hg; case: hs => hT _.
  have ex : xin = xT + fT by rewrite hg addrC subrK.
  have ev : vT.2 = tQ T by rewrite /vT /= raddf0 addr0.
  have e1 : vT.1 = TLx (lq_tdiff T xT) + vT.2 *m fT.
    rewrite ev /vT /=; case: (feas) hf => [/(_ isT)[_ ->]|_]; first by rewrite mulmx0 addr0.
    by rewrite raddf0 addr0.
  have hV : symm vT.2 by rewrite ev.
  have sh := @shift_id g _ _ _ fT (z - xin) hV e1.
  have e2 : z + g *: fT = xT + (z - xin + fT + g *: fT) by rewrite ex; vec R.
  rewrite /gcost e2 lq_tcost_taylor // -[tQ T]ev -addrA sh /rest /cbase /v /value -ex.
  by rewrite -surjective_pairing; rng R.
case: hs => hT [[hQ hR] hns]; case: hg => ef hg.
case: (bpass_cons hb) => h1 h2.
have hs' : lq_symm T ns by split.
have hf' : feas -> no_gaps ns fT by move=> /hf[[_ ?] ?]; split.
have IH' := IH _ _ hs' hg hf' h1 g.
have hsv : symm (value vT bs.2).2 by apply: value_symm h1 => //; exact: lq_nodes_symm hs'.
have [_ _ [hV _ eV]] := @bstep_facts R n 0 feas (cder d) _ _ _ hsv hR h2.
set y := z + g *: cf d; set dx := y - cx d; set du := us.1 - cu d.
have ey : y = cx d + dx by rewrite /dx; vec R.
have eu : us.1 = cu d + du by rewrite /du; vec R.
have en : lq_next y us.1 - lq_next (cx d) (cu d) = Fx (cder d) *m dx + Fu (cder d) *m du.
  by rewrite /lq_next ey eu !mulmxDr /=; vec R.
have ex : xin = cx d + cf d by rewrite ef addrC subrK.
have edx : dx = (z - xin) + cf d + g *: cf d by rewrite /dx /y ex; vec R.
rewrite /gcost -/gcost -/y (IH' (lq_next y us.1) us.2) en -/vT.
have -> : lq_cost y us.1 = lq_cost (cx d + dx) (cu d + du) by rewrite -ey -eu.
rewrite lq_cost_taylor //.
have sq := @complete_square feas (cder d) (cf d) (value vT bs.2) bs.1 dx du hsv hQ hR h2.
move: sq => /= sq.
have e1 : Vx bs.1 = Qx bs.1 - (Kfb bs.1)^T *m Qu bs.1 + Vxx bs.1 *m cf d.
  rewrite eV; congr (_ + _); case: (feas) hf => // /(_ isT) [[-> _] _].
  by rewrite mulmx0.
have sh := @shift_id g _ _ _ (cf d) (z - xin) hV e1.
rewrite -edx in sh.
rewrite /rest -/rest /cbase -/cbase -/y -/dx -/du /v /value -ex.
by apply: (lincomb2 sq sh); rng R.
Qed.

Notation fwd_us r := (r.1.2).

Lemma forward_cost a close T fT ns : forall z c (bs : bnodes (@cder R n) ns),
  let r := lq_forward a close T fT z c bs in
  r.2 = c + gcost (if close then 0 else a - 1) T fT z (fwd_us r).
Proof.
elim: ns => [|d ns IH] z c bs /=; first by case: (close); rewrite ?scale0r ?addr0.
rewrite IH addrA.
have -> : z + (if close then 0 else a - 1) *: cf d = if close then z else z + (a - 1) *: cf d.
  by case: (close); rewrite ?scale0r ?addr0.
by [].
Qed.

Lemma gcost0 T fT ns : forall z (us : ctrls ns), gcost 0 T fT z us = roll_cost T z us.
Proof.
elim: ns => [|d ns IH] z us /=; first by rewrite scale0r addr0.
by rewrite scale0r addr0 IH.
Qed.

(** The remaining sums of the FDDP expansion. *)
Fixpoint svx (vT : 'cV[R]_n * 'M[R]_n) (fT : 'cV[R]_n) (ns : seq (cnode R n)) : bnodes (@cder R n) ns -> R :=
  match ns with
  | [::] => fun _ => dot vT.1 fT
  | d :: _ => fun bs => dot (Vx bs.1) (cf d) + svx vT fT bs.2
  end.
Fixpoint sfv (vT : 'cV[R]_n * 'M[R]_n) (fT : 'cV[R]_n) (ns : seq (cnode R n)) : bnodes (@cder R n) ns -> R :=
  match ns with
  | [::] => fun _ => dot fT (vT.2 *m fT)
  | d :: _ => fun bs => dot (cf d) (Vxx bs.1 *m cf d) + sfv vT fT bs.2
  end.
(** [f' Vxx (trial - candidate)] *)
Fixpoint sdx (vT : 'cV[R]_n * 'M[R]_n) (xT fT : 'cV[R]_n) (ns : seq (cnode R n)) :
    bnodes (@cder R n) ns -> seq 'cV[R]_n -> 'cV[R]_n -> R :=
  match ns with
  | [::] => fun _ _ yT => dot fT (vT.2 *m (yT - xT))
  | d :: _ => fun bs ys yT =>
      dot (cf d) (Vxx bs.1 *m (head 0 ys - cx d)) + sdx vT xT fT bs.2 (behead ys) yT
  end.

Lemma forward_rest a vT T xT fT ns : forall z c (bs : bnodes (@cder R n) ns),
  let r := lq_forward a true T fT z c bs in
  rest 0 vT xT fT z bs (fwd_us r) = half * (1 - a) ^+ 2 * qsum bs.
Proof.
elim: ns => [|d ns IH] z c bs /=; first by rewrite /gterm; rng R.
rewrite !scale0r !addr0 IH.
have -> : cu d - a *: kff bs.1 - Kfb bs.1 *m (z - cx d) - cu d + kff bs.1 + Kfb bs.1 *m (z - cx d)
          = (1 - a) *: kff bs.1 by vec R.
by rewrite -scalemxAr dotZl dotZr /gterm; fld R.
Qed.

Lemma forward_rest_gaps a vT T xT fT ns : forall z c (bs : bnodes (@cder R n) ns),
  let r := lq_forward a false T fT z c bs in
  rest (a - 1) vT xT fT z bs (fwd_us r) =
    half * (1 - a) ^+ 2 * qsum bs + (a - 1) * svx vT fT bs
    + (half * (a - 1) ^+ 2 - (a - 1) * a) * sfv vT fT bs
    + (a - 1) * sdx vT xT fT bs r.1.1.1 r.1.1.2.
Proof.
have gt v f x z : gterm (a - 1) v f (z - (x + f)) =
    (a - 1) * dot v.1 f + (half * (a - 1) ^+ 2 - (a - 1) * a) * dot f (v.2 *m f)
    + (a - 1) * dot f (v.2 *m (z + (a - 1) *: f - x)).
  rewrite /gterm.
  have -> : z - (x + f) = (z + (a - 1) *: f - x) + (- a) *: f by vec R.
  by rewrite mulmxDr dotDr -scalemxAr dotZr; fld R.
elim: ns => [|d ns IH] z c bs /=; first by rewrite gt; rng R.
rewrite gt IH /=.
set y := z + (a - 1) *: cf d.
have -> : cu d - a *: kff bs.1 - Kfb bs.1 *m (y - cx d) - cu d + kff bs.1 + Kfb bs.1 *m (y - cx d)
          = (1 - a) *: kff bs.1 by vec R.
by rewrite -scalemxAr dotZl dotZr; fld R.
Qed.

Lemma cand_base T vT xT fT ns (bs : bnodes (@cder R n) ns) :
  cand_cost T ns xT = cbase T vT xT fT bs - svx vT fT bs + half * sfv vT fT bs + half * qsum bs.
Proof.
elim: ns bs => [|d ns IH] bs /=; first by fld R.
by rewrite (IH bs.2); fld R.
Qed.

Lemma upd_feasible d ns (bs : bnodes (@cder R n) ns) :
  upd_loop (@cf R n) true d bs = ei_ddp d bs.
Proof. by elim: ns d bs => [|e ns IH] d bs //=. Qed.

Lemma upd_sum vT fT ns : forall d (bs : bnodes (@cder R n) ns), all_stored (@stored_ok R n) bs ->
  upd_loop (@cf R n) false d bs =
  (d.1 + qsum bs - (svx vT fT bs - dot vT.1 fT), d.2 - qsum bs + (sfv vT fT bs - dot fT (vT.2 *m fT))).
Proof.
elim: ns => [|e ns IH] d bs.
  by move=> _ /=; rewrite !subrr !addr0 !subr0 -surjective_pairing.
case=> -[hp hk hq] hbs /=; rewrite IH //= hq -hk [dot (_ *m _) _]dotC.
by congr pair; rng R.
Qed.

Lemma dv_sum vT xT fT ns : forall dv (bs : bnodes (@cder R n) ns) ys yT dxs,
  size ys = size ns ->
  dxs = [seq p.1 - p.2 | p <- zip (map (@cx R n) ns) ys] ->
  dv_loop (@cf R n) (dv - dot fT (vT.2 *m (xT - yT))) bs dxs = dv + sdx vT xT fT bs ys yT.
Proof.
elim: ns => [|e ns IH] dv bs [|y ys] yT dxs //=.
  move=> _ _; rewrite -dotNr -mulmxN; congr (_ + dot _ (_ *m _)); vec R.
move=> [hsz] -> /=.
have -> : dv - dot fT (vT.2 *m (xT - yT)) - dot (cf e) (Vxx bs.1 *m (cx e - y))
        = (dv - dot (cf e) (Vxx bs.1 *m (cx e - y))) - dot fT (vT.2 *m (xT - yT)) by rng R.
rewrite (IH _ _ ys) // -addrA; congr (_ + _); rewrite -dotNr -mulmxN; congr (dot _ (_ *m _) + _); vec R.
Qed.

Lemma forward_size a close T fT ns : forall z c (bs : bnodes (@cder R n) ns),
  size (lq_forward a close T fT z c bs).1.1.1 = size ns.
Proof. by elim: ns => [|d ns IH] z c bs //=; rewrite IH. Qed.

Lemma forward_states a T fT ns : forall z c (bs : bnodes (@cder R n) ns),
  let r := lq_forward a true T fT z c bs in
  (r.1.1.1, r.1.1.2) = roll_states z (fwd_us r).
Proof.
elim: ns => [|d ns IH] z c bs //=.
by move: (IH (lq_next z (cu d - a *: kff bs.1 - Kfb bs.1 *m (z - cx d)))
   (c + lq_cost z (cu d - a *: kff bs.1 - Kfb bs.1 *m (z - cx d))) bs.2) => /= <-.
Qed.

(** Any rollout: the remaining terms are the completed squares. *)
Lemma rest_ge0 vT xT fT ns : forall z (bs : bnodes (@cder R n) ns) (us : ctrls ns),
  all_stored (@stored_ok R n) bs -> 0 <= rest 0 vT xT fT z bs us.
Proof.
elim: ns => [|d ns IH] z bs us /=; first by rewrite /gterm expr2 !mul0r !mulr0 !mul0r !addr0.
case=> -[hp _ _] hbs; rewrite /gterm expr2 !mul0r !mulr0 !mul0r !add0r.
apply: addr_ge0; last exact: IH.
by rewrite mulr_ge0 ?invr_ge0 ?ler0n //; exact: posdef_psd.
Qed.

Lemma rest_eq0 a T vT xT fT ns : a = 1 -> forall z c (bs : bnodes (@cder R n) ns) (us : ctrls ns),
  all_stored (@stored_ok R n) bs -> rest 0 vT xT fT z bs us = 0 ->
  us = fwd_us (lq_forward a true T fT z c bs).
Proof.
move=> ->; elim: ns => [|d ns IH] z c bs us /=; first by case: us.
case=> -[hp _ _] hbs; rewrite /gterm expr2 !mul0r !mulr0 !mul0r !add0r !scale0r !addr0.
set e := _ + _ *m (z - cx d) => /eqP.
rewrite paddr_eq0; first last.
- exact: rest_ge0.
- by rewrite mulr_ge0 ?invr_ge0 ?ler0n //; exact: posdef_psd.
case/andP; rewrite mulf_eq0 invr_eq0 pnatr_eq0 /= => /eqP h0 /eqP h1.
have eu : us.1 = cu d - 1 *: kff bs.1 - Kfb bs.1 *m (z - cx d).
  have he := posdef_form0 hp h0.
  apply/eqP; rewrite -subr_eq0; apply/eqP; rewrite -he /e; vec R.
rewrite -eu; rewrite {1}(surjective_pairing us); congr pair.
exact: IH.
Qed.
End Proofs.
