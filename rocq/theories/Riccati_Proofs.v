From mathcomp Require Import all_ssreflect all_algebra.
From Verif Require Import RingTac LinAlg LinAlg_Proofs Riccati_Model Riccati_Spec.
Set Implicit Arguments.
Unset Strict Implicit.
Unset Printing Implicit Defensive.
Import Order.TTheory GRing.Theory Num.Theory.
Local Open Scope ring_scope.

Section Proofs.
Variables (R : realFieldType) (n : nat).
Add Field RF : (rft R).
Notation half := (2%:R^-1 : R).

(** What a successful step of the backward pass stores. *)
Lemma bstep_facts preg feas (s : stage R n) f v b :
  symm v.2 -> symm (Luu s) -> bstep preg feas s f v = Some b ->
  [/\ [/\ symm (Quu b), posdef (Quu b), Quu b *m kff b = Qu b, Quu b *m Kfb b = (Qxu b)^T
      & Quuk b = Qu b],
      [/\ Qx b = Lx s + (Fx s)^T *m v.1, Qu b = Lu s + (Fu s)^T *m v.1,
          Qxx b = Lxx s + (Fx s)^T *m v.2 *m Fx s,
          Qxu b = Lxu s + (Fx s)^T *m v.2 *m Fu s
        & Quu b = Luu s + (Fu s)^T *m v.2 *m Fu s + preg%:M] &
      [/\ symm (Vxx b),
          Vxx b = half *: ((Qxx b - Qxu b *m Kfb b) + (Qxx b - Qxu b *m Kfb b)^T) + preg%:M
        & Vx b = Qx b - (Kfb b)^T *m Qu b + (if feas then 0 else Vxx b *m f)]].
Proof.
move=> hv hL; rewrite /bstep; case: ifP => // hok [<-] /=.
set quu := Luu s + _ + _ in hok *.
have hq : symm quu.
  by apply: symmD; [apply: symmD => //; exact: symm_conj|exact: symm_scalar].
have pq : posdef quu by apply/llt_okP.
have uq : quu \in unitmx by exact: posdef_unit.
rewrite /llt_solve lower_symE //.
split.
- by split=> //; rewrite mulKVmx.
- by [].
- split=> //.
  + by apply: symmD; [exact: symm_sym|exact: symm_scalar].
  + by case: feas; rewrite ?addr0.
Qed.

Lemma bstep_ok preg feas (s : stage R n) f v :
  symm v.2 -> symm (Luu s) -> posdef (Luu s + (Fu s)^T *m v.2 *m Fu s + preg%:M) ->
  exists b, bstep preg feas s f v = Some b.
Proof.
move=> hv hL hp; rewrite /bstep ifT; first by eexists.
by apply/llt_okP => //; apply: symmD; [apply: symmD => //; exact: symm_conj|exact: symm_scalar].
Qed.

(** Value-function Hessian of a step, as a quadratic form. *)
Lemma vxx_form preg feas (s : stage R n) f v b x :
  symm v.2 -> symm (Luu s) -> bstep preg feas s f v = Some b ->
  let u := - (Kfb b *m x) in
  let y := Fx s *m x + Fu s *m u in
  dot x (Vxx b *m x) =
    (dot x (Lxx s *m x) + 2%:R * dot x (Lxu s *m u) + dot u (Luu s *m u))
    + dot y (v.2 *m y) + preg * dot u u + preg * dot x x.
Proof.
move=> hv hL /(bstep_facts hv hL)[[sq pq ek eK _] [e1 e2 e3 e4 e5] [_ eV _]].
move=> u y; rewrite eV mulmxDl dotDr dot_sym mul_scalar_mx dotZr; congr (_ + _).
rewrite mulmxBl dotDr dotNr.
have eq1 : dot x (Qxu b *m Kfb b *m x) = dot u (Quu b *m u).
  rewrite /u mulmxN dotNl dotNr opprK [Quu b *m _]mulmxA eK -mulmxA dot_adjr.
  exact: dotC.
have eq2 : dot x (Qxu b *m u) = - dot u (Quu b *m u).
  by rewrite -eq1 /u mulmxN dotNr mulmxA.
have -> : dot x (Qxx b *m x) - dot x (Qxu b *m Kfb b *m x)
          = dot x (Qxx b *m x) + 2%:R * dot x (Qxu b *m u) + dot u (Quu b *m u).
  by rewrite eq1 eq2; rng R.
rewrite e3 e4 e5 /y !(mulmxDl, mulmxDr, dotDl, dotDr) mul_scalar_mx dotZr.
rewrite -!mulmxA !dot_adj.
have -> : dot u ((Fu s)^T *m (v.2 *m (Fx s *m x))) = dot x ((Fx s)^T *m (v.2 *m (Fu s *m u))).
  by rewrite -!dot_adj dot_symm.
by rng R.
Qed.

Section Generic.
Variables (N : Type) (der : N -> stage R n) (gap : N -> 'cV[R]_n).
Notation bpass := (bpass der gap).

Lemma bpass_cons preg feas T fT d ns (bs : bnodes der (d :: ns)) :
  bpass preg feas T fT (d :: ns) = Some bs ->
  bpass preg feas T fT ns = Some bs.2 /\
  bstep preg feas (der d) (gap d) (value (vterm preg feas T fT) bs.2) = Some bs.1.
Proof.
rewrite /=; case: (bpass _ _ _ _ ns) => // bs'.
by case e: bstep => [b|] // [<-].
Qed.

(** All stored Hessians are symmetric. *)
Lemma value_symm preg feas T fT ns bs : symm (TLxx T) ->
  all_nodes (fun d => symm (Luu (der d))) ns ->
  bpass preg feas T fT ns = Some bs ->
  symm (value (vterm preg feas T fT) bs).2.
Proof.
move=> hT; elim: ns bs => [|d ns IH] bs /=.
  by move=> _ _; apply: symmD => //; exact: symm_scalar.
case=> hd hns /bpass_cons[h1 h2].
by case: (bstep_facts (IH _ hns h1) hd h2) => _ _ [].
Qed.

Lemma stored_symm preg feas T fT ns bs : symm (TLxx T) ->
  all_nodes (fun d => symm (Luu (der d))) ns ->
  bpass preg feas T fT ns = Some bs ->
  all_stored (fun m (b : bnode R n m) => [/\ symm (Vxx b), symm (Quu b) & posdef (Quu b)]) bs.
Proof.
move=> hT; elim: ns bs => [|d ns IH] bs //=.
case=> hd hns /bpass_cons[h1 h2]; split; last exact: IH.
by case: (bstep_facts (value_symm hT hns h1) hd h2) => [[? ? ? ? ?] _ []].
Qed.

Lemma value_psd preg feas T fT ns bs : 0 <= preg -> symm (TLxx T) -> psd (TLxx T) ->
  all_nodes (fun d => symm (Luu (der d)) /\ stage_psd (der d)) ns ->
  bpass preg feas T fT ns = Some bs ->
  psd (value (vterm preg feas T fT) bs).2.
Proof.
move=> hp sT hT; elim: ns bs => [|d ns IH] bs /=.
  by move=> _ _; apply: psdD => //; exact: psd_scalar.
case=> -[hd1 hd2] hns /bpass_cons[h1 h2].
have hs : all_nodes (fun d => symm (Luu (der d))) ns.
  by elim: (ns) hns => //= e l IHl [[? ?] ?]; split=> //; exact: IHl.
move=> x; rewrite (vxx_form _ (value_symm sT hs h1) hd1 h2).
apply: addr_ge0; last by rewrite mulr_ge0 // dot_ge0.
apply: addr_ge0; last by rewrite mulr_ge0 // dot_ge0.
by apply: addr_ge0; [exact: hd2|exact: (IH _ hns h1)].
Qed.

Lemma stored_psd preg feas T fT ns bs : 0 <= preg -> symm (TLxx T) -> psd (TLxx T) ->
  all_nodes (fun d => symm (Luu (der d)) /\ stage_psd (der d)) ns ->
  bpass preg feas T fT ns = Some bs ->
  all_stored (fun m (b : bnode R n m) => psd (Vxx b)) bs.
Proof.
move=> hp sT hT; elim: ns bs => [|d ns IH] bs // hns hb; split.
  exact: (value_psd hp sT hT hns hb).
by case: hns => _ hns; case: (bpass_cons hb) => h1 _; exact: IH.
Qed.

(** Convex problems never raise. *)
Lemma bpass_succeeds preg feas T fT ns : 0 <= preg -> symm (TLxx T) -> psd (TLxx T) ->
  all_nodes (fun d => symm (Luu (der d)) /\ stage_psd (der d)) ns ->
  (0 < preg \/ all_nodes (fun d => posdef (Luu (der d))) ns) ->
  exists bs, bpass preg feas T fT ns = Some bs.
Proof.
move=> hp sT hT; elim: ns => [|d ns IH] /=; first by exists tt.
case=> -[hd1 hd2] hns hpos.
have hpos' : 0 < preg \/ all_nodes (fun d => posdef (Luu (der d))) ns.
  by case: hpos => [?|[_ ?]]; [left|right].
case: (IH hns hpos') => bs hb; rewrite hb.
have hs : all_nodes (fun d => symm (Luu (der d))) ns.
  by elim: (ns) hns => //= e l IHl [[? ?] ?]; split=> //; exact: IHl.
have hv := value_symm sT hs hb; have pv := value_psd hp sT hT hns hb.
have [b ->] : exists b, bstep preg feas (der d) (gap d) (value (vterm preg feas T fT) bs) = Some b.
  apply: bstep_ok => // u hu.
  rewrite !mulmxDl !dotDr mul_scalar_mx dotZr.
  have a1 : 0 <= dot u (Luu (der d) *m u).
    by move: (hd2 0 u); rewrite !dot0l mulr0 !add0r.
  have a2 : 0 <= dot u ((Fu (der d))^T *m (value (vterm preg feas T fT) bs).2 *m Fu (der d) *m u).
    by rewrite -!mulmxA -dot_adj.
  case: hpos => [h|[h _]].
    by apply: ltr_paddl; [exact: addr_ge0|rewrite mulr_gt0 // dot_gt0].
  apply: ltr_paddr; first by rewrite mulr_ge0 // dot_ge0.
  by apply: ltr_paddr => //; exact: h.
by eexists.
Qed.

(** Sum over the nodes of [Qu' Quu^-1 Qu]. *)
Fixpoint qsum (ns : seq N) : bnodes der ns -> R :=
  match ns with
  | [::] => fun _ => 0
  | _ :: _ => fun bs => dot (kff bs.1) (Quu bs.1 *m kff bs.1) + qsum bs.2
  end.
Definition stored_ok := fun m (b : bnode R n m) =>
  [/\ posdef (Quu b), Quu b *m kff b = Qu b & Quuk b = Qu b].

Lemma stored_gains preg feas T fT ns bs : symm (TLxx T) ->
  all_nodes (fun d => symm (Luu (der d))) ns ->
  bpass preg feas T fT ns = Some bs -> all_stored stored_ok bs.
Proof.
move=> hT; elim: ns bs => [|d ns IH] bs //=.
case=> hd hns /bpass_cons[h1 h2]; split; last exact: IH.
by case: (bstep_facts (value_symm hT hns h1) hd h2) => [[? ? ? ? ?] _ _].
Qed.

Lemma ei_ddp_sum d ns (bs : bnodes der ns) : all_stored stored_ok bs ->
  ei_ddp d bs = (d.1 + qsum bs, d.2 - qsum bs).
Proof.
elim: ns d bs => [|e ns IH] d bs /=; first by rewrite addr0 subr0 -surjective_pairing.
case=> -[hp hk hq] hbs; rewrite IH //= hq -hk [dot (_ *m _) _]dotC.
by congr pair; rng R.
Qed.

Lemma qsum_ge0 ns (bs : bnodes der ns) : all_stored stored_ok bs -> 0 <= qsum bs.
Proof.
elim: ns bs => [|e ns IH] bs //= [[hp _ _] hbs].
by apply: addr_ge0; [exact: posdef_psd|exact: IH].
Qed.

Lemma qsum_eq0 ns (bs : bnodes der ns) : all_stored stored_ok bs ->
  qsum bs = 0 <-> all_stored (fun m (b : bnode R n m) => Qu b = 0) bs.
Proof.
elim: ns bs => [|e ns IH] bs //= [[hp hk _] hbs].
have h0 := qsum_ge0 hbs; have h1 := posdef_psd hp (kff bs.1).
split.
  move=> /eqP; rewrite paddr_eq0 // => /andP[/eqP ha /eqP hb].
  by split; [rewrite -hk (posdef_form0 hp ha) mulmx0|apply/IH].
case=> hq /IH-> //; rewrite addr0.
by rewrite hk hq dot0r.
Qed.

(** On a feasible candidate, zero [Qu] everywhere is first-order optimality. *)
Lemma variation_cons T x d ns us :
  @variation R n N der T x (d :: ns) us =
  dot (Lx (der d)) x + dot (Lu (der d)) us.1
  + variation T (Fx (der d) *m x + Fu (der d) *m us.1) us.2.
Proof. by []. Qed.

Lemma qu0_variation preg T fT ns bs : symm (TLxx T) ->
  all_nodes (fun d => symm (Luu (der d))) ns ->
  bpass preg true T fT ns = Some bs ->
  all_stored (fun m (b : bnode R n m) => Qu b = 0) bs ->
  forall x (us : perturbation der ns), variation T x us = dot (value (vterm preg true T fT) bs).1 x.
Proof.
move=> hT; elim: ns bs => [|d ns IH] bs // hs hb hq x us.
case: hs => hd hns; case: (bpass_cons hb) => h1 h2; case: hq => q0 hq.
rewrite variation_cons (IH _ hns h1 hq).
case: (bstep_facts (value_symm hT hns h1) hd h2) => _ [e1 e2 _ _ _] [_ _ eV].
rewrite /value eV q0 mulmx0 subr0 addr0 e1.
set w := (value _ bs.2).1 in e2 *.
move: (congr1 (fun z => dot z us.1) e2); rewrite q0 dot0l dotDl => e3.
rewrite !dotDl !dotDr [dot (_^T *m w) x]dot_adj trmxK.
rewrite -[dot w (Fu (der d) *m us.1)]subr0 e3 [dot (_^T *m w) us.1]dot_adj trmxK.
by rng R.
Qed.

Definition pert0 : forall ns, perturbation der ns :=
  fix go ns := match ns with [::] => tt | d :: ns' => (0, go ns') end.

Lemma variation_qu0 preg T fT ns bs : symm (TLxx T) ->
  all_nodes (fun d => symm (Luu (der d))) ns ->
  bpass preg true T fT ns = Some bs ->
  (forall us : perturbation der ns, variation T 0 us = 0) ->
  all_stored (fun m (b : bnode R n m) => Qu b = 0) bs.
Proof.
move=> hT.
suff gen : forall ns bs, all_nodes (fun d => symm (Luu (der d))) ns ->
    bpass preg true T fT ns = Some bs ->
    (forall us : perturbation der ns, variation T 0 us = 0) ->
    all_stored (fun m (b : bnode R n m) => Qu b = 0) bs.
  by move=> hs hb; exact: gen.
elim=> [|d l IH] // bs' [hd hl] hb' hv'; case: (bpass_cons hb') => h1 h2.
have hq : all_stored (fun m (b : bnode R n m) => Qu b = 0) bs'.2.
  apply: IH => // us; move: (hv' (0, us)).
  by rewrite variation_cons /= !dot0r !mulmx0 !add0r.
split=> //.
case: (bstep_facts (value_symm hT hl h1) hd h2) => _ [_ e2 _ _ _] _.
apply: dot_eq0; set q := Qu _ in e2 *.
move: (hv' (q, pert0 l)).
rewrite variation_cons /= dot0r add0r mulmx0 add0r (qu0_variation hT hl h1 hq).
by rewrite dot_adjr -dotDl -e2.
Qed.
End Generic.
End Proofs.
