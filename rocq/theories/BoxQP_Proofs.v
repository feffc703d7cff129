From mathcomp Require Import all_ssreflect all_algebra.
From Verif Require Import RingTac LinAlg LinAlg_Proofs BoxQP_Model BoxQP_Spec.
Set Implicit Arguments.
Unset Strict Implicit.
Unset Printing Implicit Defensive.
Import Order.TTheory GRing.Theory Num.Theory.
Local Open Scope ring_scope.

Section Proofs.
Variables (R : realFieldType) (n : nat).
Add Field RF : (rft R).
Notation half := (2%:R^-1 : R).
Implicit Types (H : 'M[R]_n) (q x : 'cV[R]_n) (lb ub : bounds R n).

Lemma objectiveE H q x : objective H q x = qp_cost H q x.
Proof.
rewrite /objective /qp_cost mulrC; congr (_ * _ + _); rewrite dotE //.
apply: eq_bigr => i _; rewrite mxE mulr_sumr.
by apply: eq_bigr => j _; rewrite mulrA.
Qed.

Lemma clip_in lb ub x : nonempty lb ub -> in_box lb ub (clip lb ub x).
Proof.
move=> h; split=> i b e; rewrite mxE /clip1 e.
  by rewrite le_maxr lexx orbT.
case el: (lb i) => [l|]; last by rewrite le_minl lexx orbT.
by rewrite le_maxl le_minl lexx orbT /= (h i).
Qed.
Lemma clip_id lb ub x : in_box lb ub x -> clip lb ub x = x.
Proof.
move=> [h1 h2]; apply/matrixP => i j; rewrite (ord1 j) mxE /clip1.
case eu: (ub i) => [u|].
  rewrite min_l ?(h2 i) //; case el: (lb i) => [l|] //.
  by rewrite max_l ?(h1 i).
by case el: (lb i) => [l|] //; rewrite max_l ?(h1 i).
Qed.

Lemma search_in H q lb ub th x dx g al : nonempty lb ub -> in_box lb ub x ->
  in_box lb ub (qp_search H q lb ub th x dx g al).
Proof.
move=> h hx; elim: al => //= a al IH; case: ifP => // _; exact: clip_in.
Qed.

Lemma loop_in H q lb ub p k x sol sol' b : nonempty lb ub -> in_box lb ub x ->
  qp_loop H q lb ub p k x sol = Some (sol', b) -> in_box lb ub (sx sol').
Proof.
move=> h; elim: k x sol => [|k IH] x sol hx /=; first by case=> <- _.
case: qp_step => // s.
case: ifP => _; first by case=> <- _ /=; exact: search_in.
by apply: IH; exact: search_in.
Qed.

(** Reduced quantities. *)
Lemma sum_split (F : {set 'I_n}) (f : 'I_n -> R) :
  \sum_j f j = \sum_(a < #|F|) f (enum_val a) + \sum_(a < #|~: F|) f (enum_val a).
Proof.
rewrite -!(big_enum_val f) /=.
rewrite (bigID (mem F)) /=; congr (_ + _).
by apply: eq_bigl => j; rewrite !inE.
Qed.

Lemma scatter_in (F : {set 'I_n}) (y : 'cV[R]_#|F|) (o : 'cV[R]_n) (i : 'I_#|F|) : scatter y o (enum_val i) 0 = y i 0.
Proof.
rewrite mxE; case: pickP => [a /eqP /enum_val_inj -> //|/(_ i)]; by rewrite eqxx.
Qed.
Lemma scatter_out (F : {set 'I_n}) (y : 'cV[R]_#|F|) (o : 'cV[R]_n) j : j \notin F -> scatter y o j 0 = o j 0.
Proof.
move=> hj; rewrite mxE; case: pickP => [a /eqP e|//].
by move: hj; rewrite -e enum_valP.
Qed.
Lemma gather_scatter (F : {set 'I_n}) (y : 'cV[R]_#|F|) (o : 'cV[R]_n) : gather F (scatter y o) = y.
Proof. by apply/matrixP => i j; rewrite (ord1 j) mxE scatter_in. Qed.
Lemma scatter_gather (F : {set 'I_n}) x (o : 'cV[R]_n) : (forall j, j \notin F -> o j 0 = x j 0) ->
  scatter (gather F x) o = x.
Proof.
move=> h; apply/matrixP => j k; rewrite (ord1 k).
case: (boolP (j \in F)) => hj; last by rewrite scatter_out // h.
by rewrite -(enum_rankK_in hj hj) scatter_in mxE.
Qed.

Lemma reduced_mul H (F : {set 'I_n}) x :
  gather F (H *m x) = submat H F F *m gather F x + submat H F (~: F) *m gather (~: F) x.
Proof.
apply/matrixP => i j; rewrite (ord1 j) !mxE (sum_split F); congr (_ + _); apply: eq_bigr => a _; by rewrite !mxE.
Qed.
Lemma gatherD (F : {set 'I_n}) (x y : 'cV[R]_n) : gather F (x + y) = gather F x + gather F y.
Proof. by apply/matrixP => i j; rewrite !mxE. Qed.

Lemma submat_symm H F : symm H -> symm (submat H F F).
Proof. by move=> h; apply/matrixP => i j; rewrite !mxE -[in LHS]h mxE. Qed.

(** What a successful step computes, without regularization. *)
Lemma step_facts H q lb ub x s : symm H -> qp_step H q lb ub 0 x = Some s ->
  let g := q + H *m x in
  [/\ p_free s = free_idx lb ub g x, p_qf s = gather (p_free s) g,
      (forall j, j \notin p_free s -> p_dx s j 0 = 0) &
      gather (p_free s) (H *m p_dx s) = - gather (p_free s) g].
Proof.
move=> hH; rewrite /qp_step eqxx /=; case: ifP => // hok [<-] /= .
set g := q + H *m x; set F := free_idx _ _ _ _ in hok *.
have eq : gather F q + submat H F F *m gather F x + submat H F (~: F) *m gather (~: F) x = gather F g.
  by rewrite /g gatherD reduced_mul addrA.
rewrite eq; split=> //.
  by move=> j hj; rewrite scatter_out // mxE.
rewrite reduced_mul gather_scatter.
have hs := submat_symm F hH.
have pH : posdef (submat H F F) by apply/llt_okP.
rewrite /llt_solve lower_symE // mulKVmx ?posdef_unit //.
rewrite (_ : gather (~: F) _ = 0) ?mulmx0 ?addr0 //.
apply/matrixP => i j; rewrite (ord1 j) mxE scatter_out ?mxE //.
by move: (enum_valP i); rewrite !inE.
Qed.

(** A zero reduced gradient leaves the point where it is. *)
Lemma search_zero H q lb ub th x g al : in_box lb ub x -> qp_search H q lb ub th x 0 g al = x.
Proof.
move=> hx; elim: al => //= a al ->.
by rewrite scaler0 addr0 clip_id // if_same.
Qed.

Lemma step_g H q lb ub rg x s : qp_step H q lb ub rg x = Some s ->
  forall j, p_g s j 0 = if [pick i : 'I_#|p_free s| | enum_val i == j] is Some i then - p_qf s i 0 else (q + H *m x) j 0.
Proof.
rewrite /qp_step; case: ifP => // _ [<-] /= j; rewrite [LHS]mxE.
by case: pickP => // i _; rewrite mxE.
Qed.

Lemma step_g0 H q lb ub x s : symm H -> qp_step H q lb ub 0 x = Some s ->
  forall j, p_g s j 0 = if j \in p_free s then - (q + H *m x) j 0 else (q + H *m x) j 0.
Proof.
move=> hH hs j; have [_ e _ _] := step_facts hH hs; rewrite (step_g hs) e.
case: pickP => [i /eqP <-|h]; first by rewrite enum_valP mxE.
case: ifP => // hj; move: (h (enum_rank_in hj j)); by rewrite enum_rankK_in ?eqxx.
Qed.

Lemma clamped H q lb ub x s j : symm H -> qp_step H q lb ub 0 x = Some s -> j \notin p_free s ->
  (lb j = Some (x j 0) /\ 0 < (q + H *m x) j 0) \/ (ub j = Some (x j 0) /\ (q + H *m x) j 0 < 0).
Proof.
move=> hH hs; have [e _ _ _] := step_facts hH hs; rewrite {}e.
rewrite inE negbK => /orP [] /andP [].
  by case e: (lb j) => [l|] //= /eqP -> h; left.
by case e: (ub j) => [l|] //= /eqP -> h; right.
Qed.

Lemma cost_expand H q x y : symm H ->
  qp_cost H q y = qp_cost H q x + dot (q + H *m x) (y - x) + half * dot (y - x) (H *m (y - x)).
Proof.
move=> hH; rewrite /qp_cost.
have -> : dot (q + H *m x) (y - x) = dot q y - dot q x + dot y (H *m x) - dot x (H *m x).
  rewrite dotDl !dotDr !dotNr (dotC (H *m x) y) (dotC (H *m x) x); rng R.
have -> : dot (y - x) (H *m (y - x)) = dot y (H *m y) - 2%:R * dot y (H *m x) + dot x (H *m x).
  rewrite mulmxBr !dotDl !dotDr !dotNl !dotNr (dot_symm x y hH); rng R.
fld R.
Qed.

Lemma search_cases H q lb ub th x dx g al :
  qp_search H q lb ub th x dx g al = x \/
  exists2 a, a \in al & let y := clip lb ub (x + a *: dx) in
    qp_search H q lb ub th x dx g al = y /\ qp_cost H q x - qp_cost H q y > th * dot g (x - y).
Proof.
elim: al => [|a al IH] /=; first by left.
case: ifP => h; first by right; exists a; rewrite ?mem_head.
case: IH => [->|[b hb e]]; [by left|right; exists b => //; by rewrite in_cons hb orbT].
Qed.

Lemma search_th0 H q lb ub x dx g al :
  qp_cost H q (qp_search H q lb ub 0 x dx g al) <= qp_cost H q x.
Proof.
case: (search_cases H q lb ub 0 x dx g al) => [->//|[a _ /= [-> ]]].
by rewrite mul0r subr_gt0; exact: ltW.
Qed.

Lemma loop_th0 H q lb ub p k x sol sol' b : th_acceptstep p = 0 ->
  qp_loop H q lb ub p k x sol = Some (sol', b) -> qp_cost H q (sx sol') <= qp_cost H q x.
Proof.
move=> h; elim: k x sol => [|k IH] x sol /=; first by case=> <- _.
case: qp_step => // s; rewrite h.
case: ifP => _; first by case=> <- _ /=; exact: search_th0.
by move=> /IH /le_trans; apply; exact: search_th0.
Qed.

(** Newton direction on the free set: [g'dx = - dx'H dx]. *)
Lemma newton_dot H q lb ub x s : symm H -> qp_step H q lb ub 0 x = Some s ->
  dot (q + H *m x) (p_dx s) = - dot (p_dx s) (H *m p_dx s).
Proof.
move=> hH hs; have [_ _ h0 hd] := step_facts hH hs.
rewrite dotC !dotE -sumrN; apply: eq_bigr => j _.
case: (boolP (j \in p_free s)) => hj; last by rewrite h0 // !mul0r oppr0.
move/matrixP: hd => /(_ (enum_rank_in hj j) 0).
rewrite [LHS]mxE [in RHS]mxE [in RHS]mxE enum_rankK_in // => ->.
by rewrite mulrN opprK.
Qed.

(** A step that stays inside the box does not increase the cost. *)
Lemma unclipped H q lb ub x s a : symm H -> psd H -> qp_step H q lb ub 0 x = Some s ->
  in_box lb ub (x + a *: p_dx s) -> 0 <= a <= 2%:R ->
  qp_cost H q (clip lb ub (x + a *: p_dx s)) <= qp_cost H q x.
Proof.
move=> hH hp hs /clip_id -> /andP [a0 a2].
rewrite (cost_expand q x (x + a *: p_dx s) hH).
have -> : x + a *: p_dx s - x = a *: p_dx s by rewrite addrC addKr.
rewrite -scalemxAr !dotZr dotZl (newton_dot hH hs).
have := hp (p_dx s); set e := dot _ _ => he.
have -> : qp_cost H q x + a * - e + half * (a * (a * e)) = qp_cost H q x - (a * (2%:R - a)) * (half * e).
  fld R.
rewrite ler_subl_addr ler_addl mulr_ge0 // mulr_ge0 ?subr_ge0 //.
by rewrite invr_ge0 ler0n.
Qed.

Lemma loop_converged H q lb ub p k x sol sol' : nonempty lb ub -> in_box lb ub x ->
  qp_loop H q lb ub p k x sol = Some (sol', true) ->
  exists x0 s, [/\ in_box lb ub x0, qp_step H q lb ub (reg p) x0 = Some s, small (p_qf s) (th_grad p) &
    sx sol' = qp_search H q lb ub (th_acceptstep p) x0 (p_dx s) (p_g s) (alphas p)].
Proof.
move=> h; elim: k x sol => [|k IH] x sol hx //=.
case e: qp_step => [s|] //.
case: ifP => hs; first by case=> <- /=; exists x, s.
by apply: IH; exact: search_in.
Qed.

Lemma small_free H q lb ub x s th : symm H -> qp_step H q lb ub 0 x = Some s -> small (p_qf s) th ->
  forall j, j \in p_free s -> `|(q + H *m x) j 0| <= th.
Proof.
move=> hH hs /andP [_ /forallP h] j hj; have [_ e _ _] := step_facts hH hs.
by move: (h (enum_rank_in hj j)); rewrite e mxE enum_rankK_in.
Qed.

Lemma box_width lb ub x y (l u : 'cV[R]_n) :
  (forall i, lb i = Some (l i 0)) -> (forall i, ub i = Some (u i 0)) ->
  in_box lb ub x -> in_box lb ub y -> forall i, `|x i 0 - y i 0| <= u i 0 - l i 0.
Proof.
move=> hl hu [x1 x2] [y1 y2] i; rewrite ler_norml.
have a := x1 _ _ (hl i); have b := x2 _ _ (hu i); have c := y1 _ _ (hl i); have d := y2 _ _ (hu i).
apply/andP; split; last exact: ler_sub.
by rewrite opprB; exact: ler_sub.
Qed.

(** A point with small reduced gradient is nearly optimal. *)
Lemma near_optimal H q lb ub x s th y (l u : 'cV[R]_n) : symm H -> psd H ->
  (forall i, lb i = Some (l i 0)) -> (forall i, ub i = Some (u i 0)) ->
  in_box lb ub x -> in_box lb ub y -> qp_step H q lb ub 0 x = Some s -> small (p_qf s) th ->
  qp_cost H q x <= qp_cost H q y + th * \sum_i (u i 0 - l i 0).
Proof.
move=> hH hp hl hu hx hy hs hsm; rewrite (cost_expand q x y hH); move: (qp_cost H q x) => c0; rewrite -!addrA ler_addl addrCA.
apply: addr_ge0; first by rewrite mulr_ge0 ?hp // invr_ge0 ler0n.
rewrite dotE mulr_sumr -big_split /=; apply: sumr_ge0 => i _.
have w := box_width hl hu hy hx i; have th0 : 0 <= th by case/andP: hsm.
have wu : 0 <= u i 0 - l i 0 by exact: le_trans (normr_ge0 _) w.
rewrite [(y - x) i 0]mxE [(- x) i 0]mxE.
case: (boolP (i \in p_free s)) => hi.
  have hg := small_free hH hs hsm hi.
  have : `|(q + H *m x) i 0 * (y i 0 - x i 0)| <= th * (u i 0 - l i 0).
    by rewrite normrM; apply: ler_pmul.
  by rewrite ler_norml => /andP [+ _]; rewrite -subr_ge0 opprK.
apply: addr_ge0; last exact: mulr_ge0.
case: (clamped hH hs hi) => [[e hg]|[e hg]].
  by rewrite mulr_ge0 ?(ltW hg) // subr_ge0; exact: hy.1.
by rewrite mulr_le0 ?(ltW hg) // subr_le0; exact: hy.2.
Qed.

(** What an accepted trial can lose. *)
Lemma search_loss H q lb ub x s th tha al (l u : 'cV[R]_n) : symm H -> nonempty lb ub ->
  (forall i, lb i = Some (l i 0)) -> (forall i, ub i = Some (u i 0)) ->
  in_box lb ub x -> qp_step H q lb ub 0 x = Some s -> small (p_qf s) th -> 0 <= tha ->
  qp_cost H q (qp_search H q lb ub tha x (p_dx s) (p_g s) al) <=
  qp_cost H q x + tha * th * \sum_i (u i 0 - l i 0).
Proof.
move=> hH hne hl hu hx hs hsm ht; have th0 : 0 <= th by case/andP: hsm.
have wu i : 0 <= u i 0 - l i 0 by exact: le_trans (normr_ge0 _) (box_width hl hu hx hx i).
have t0 : 0 <= tha * th * \sum_i (u i 0 - l i 0).
  by rewrite mulr_ge0 ?mulr_ge0 // sumr_ge0.
case: (search_cases H q lb ub tha x (p_dx s) (p_g s) al) => [->|[a _ /= [-> ha]]].
  by rewrite ler_addl.
set y := clip _ _ _ in ha *; have hy : in_box lb ub y by exact: clip_in.
have : - (th * \sum_i (u i 0 - l i 0)) <= dot (p_g s) (x - y).
  rewrite dotE mulr_sumr -sumrN; apply: ler_sum => i _.
  rewrite [(x - y) i 0]mxE [(- y) i 0]mxE (step_g0 hH hs).
  case: (boolP (i \in p_free s)) => hi.
    have hg := small_free hH hs hsm hi.
    have : `|- (q + H *m x) i 0 * (x i 0 - y i 0)| <= th * (u i 0 - l i 0).
      by rewrite normrM normrN; apply: ler_pmul => //; exact: box_width hl hu hx hy i.
    by rewrite ler_norml => /andP [].
  have [_ _ d0 _] := step_facts hH hs.
  have -> : y i 0 = x i 0.
    rewrite mxE [(x + _) i 0]mxE [(a *: p_dx s) i 0]mxE d0 // mulr0 addr0.
    by rewrite -[in RHS](clip_id hx) mxE.
  by rewrite subrr mulr0 oppr_le0 mulr_ge0.
move/(ler_wpmul2l ht) => hb; have := le_lt_trans hb ha.
move: (qp_cost H q x) (qp_cost H q y) => c0 c1.
by rewrite mulrN mulrA ltr_subr_addr addrC ltr_subl_addr => /ltW.
Qed.

(** No reduced gradient: the search keeps the point and the point is stationary. *)
Lemma stationary H q lb ub x s : symm H -> in_box lb ub x ->
  qp_step H q lb ub 0 x = Some s -> small (p_qf s) 0 -> p_dx s = 0 /\ kkt H q lb ub x.
Proof.
move=> hH hx hs hsm.
have g0 j : j \in p_free s -> (q + H *m x) j 0 = 0.
  by move=> /(small_free hH hs hsm); rewrite normr_le0 => /eqP.
have [_ e h0 hd] := step_facts hH hs.
split; last first.
  split=> // i; rewrite [H *m x + q]addrC.
  case: (boolP (i \in p_free s)) => hi /=; first by rewrite g0 ?ltxx.
  by case: (clamped hH hs hi) => [[a b]|[a b]]; split=> // h; move: (lt_trans b h); rewrite ltxx.
move: hs; rewrite /qp_step eqxx /=; case: ifP => // hok [es].
have q0 : p_qf s = 0.
  by rewrite e; apply/matrixP => i j; rewrite mxE g0 ?enum_valP // mxE.
move: q0; rewrite -es /= => ->.
rewrite /llt_solve oppr0 mulmx0; apply/matrixP => i j; rewrite (ord1 j) mxE.
by case: pickP => [? _|_]; rewrite !mxE.
Qed.

(** Positive definite Hessians are always factorised. *)
Lemma submat_posdef H F : posdef H -> posdef (submat H F F).
Proof.
move=> h y hy; have := h (scatter y 0); set z := scatter y 0.
have gz : gather F z = y by exact: gather_scatter.
have hz : z != 0.
  apply: contra_neq hy => e; rewrite -gz e; by apply/matrixP => i j; rewrite !mxE.
move=> /(_ hz); suff -> : dot z (H *m z) = dot y (submat H F F *m y) by [].
rewrite !dotE (sum_split F) [X in _ + X]big1 ?addr0; last first.
  move=> i _; rewrite scatter_out ?mxE ?mul0r //.
  by move: (enum_valP i); rewrite inE.
have := reduced_mul H F z; rewrite gz.
rewrite (_ : gather (~: F) z = 0) ?mulmx0 ?addr0; last first.
  apply/matrixP => i j; rewrite (ord1 j) mxE scatter_out ?mxE //.
  by move: (enum_valP i); rewrite inE.
move=> e; apply: eq_bigr => i _; rewrite -e scatter_in; congr (_ * _).
by rewrite [RHS]mxE.
Qed.

Lemma posdefD_scalar m (A : 'M[R]_m) (c : R) : 0 <= c -> posdef A -> posdef (A + c%:M).
Proof.
move=> hc hA x hx; rewrite mulmxDl dotDr mul_scalar_mx dotZr.
by rewrite ltr_paddr ?hA // mulr_ge0 // dot_ge0.
Qed.

Lemma step_ok H q lb ub rg x : symm H -> posdef H -> 0 <= rg -> exists s, qp_step H q lb ub rg x = Some s.
Proof.
move=> hH hp hr; rewrite /qp_step; set F := free_idx _ _ _ _.
rewrite ifT; first by eexists.
have hs := submat_symm F hH; have hpF := submat_posdef (F := F) hp.
case: ifP => _; last by apply/llt_okP.
apply/llt_okP; last exact: posdefD_scalar.
exact: symmD hs (symm_scalar _ _).
Qed.

Lemma loop_ok H q lb ub p k x sol : symm H -> posdef H -> 0 <= reg p ->
  exists r, qp_loop H q lb ub p k x sol = Some r.
Proof.
move=> hH hp hr; elim: k x sol => [|k IH] x sol /=; first by eexists.
have [s ->] := step_ok q lb ub x hH hp hr.
by case: ifP => _; [eexists|exact: IH].
Qed.

Lemma step_qf H q lb ub rg x s : qp_step H q lb ub rg x = Some s ->
  [/\ p_free s = free_idx lb ub (q + H *m x) x & p_qf s = gather (p_free s) (q + H *m x + rg *: x)].
Proof.
rewrite /qp_step; case: ifP => // hok [<-] /=; split=> //.
set F := free_idx _ _ _ _ in hok *.
rewrite -[q + _ + _]addrA gatherD -addrA; congr (_ + _).
rewrite gatherD reduced_mul.
have -> : gather F (rg *: x) = rg *: gather F x by apply/matrixP => i j; rewrite !mxE.
case: ifP => [_|/negbFE /eqP ->]; last by rewrite scale0r addr0.
by rewrite mulmxDl mul_scalar_mx -!addrA; congr (_ + _); rewrite addrC.
Qed.

Lemma step_dx0 H q lb ub rg x s : qp_step H q lb ub rg x = Some s -> p_qf s = 0 -> p_dx s = 0.
Proof.
rewrite /qp_step; case: ifP => // hok [<-] /= ->.
rewrite /llt_solve oppr0 mulmx0; apply/matrixP => i j; rewrite (ord1 j) mxE.
by case: pickP => [? _|_]; rewrite !mxE.
Qed.
Lemma small0 k : small (0 : 'cV[R]_k) 0.
Proof. by rewrite /small lexx /=; apply/forallP => i; rewrite mxE normr0. Qed.

Lemma qp_loopS H q lb ub p k x sol : qp_loop H q lb ub p k.+1 x sol =
  match qp_step H q lb ub (reg p) x with
  | None => None
  | Some s =>
      let x' := qp_search H q lb ub (th_acceptstep p) x (p_dx s) (p_g s) (alphas p) in
      let sol' := @Solution R n x' (p_free s) (llt_solve (p_Hff s) 1%:M) in
      if small (p_qf s) (th_grad p) then Some (sol', true) else qp_loop H q lb ub p k x' sol'
  end.
Proof. by []. Qed.

Lemma loop_last H q lb ub p k x sol sol' b : nonempty lb ub -> in_box lb ub x ->
  qp_loop H q lb ub p k.+1 x sol = Some (sol', b) ->
  exists x0 s, [/\ in_box lb ub x0, qp_step H q lb ub (reg p) x0 = Some s &
    sol' = @Solution R n (qp_search H q lb ub (th_acceptstep p) x0 (p_dx s) (p_g s) (alphas p))
             (p_free s) (llt_solve (p_Hff s) 1%:M)].
Proof.
move=> h; elim: k x sol => [|k IH] x sol hx.
  rewrite /qp_loop; case e: qp_step => [s|] //.
  by case: ifP => _ [<- _]; exists x, s.
rewrite qp_loopS; case e: qp_step => [s|] //; cbv zeta.
case: ifP => _; first by case=> <- _; exists x, s.
by apply: (IH _ _ _); exact: search_in.
Qed.

(** Clamped coordinates stay at their bound. *)
Lemma search_clamped H q lb ub th x s al j : symm H -> in_box lb ub x -> qp_step H q lb ub 0 x = Some s ->
  j \notin p_free s -> qp_search H q lb ub th x (p_dx s) (p_g s) al j 0 = x j 0.
Proof.
move=> hH hx hs hj; have [_ _ d0 _] := step_facts hH hs.
case: (search_cases H q lb ub th x (p_dx s) (p_g s) al) => [->//|[a _ /= [-> _]]].
rewrite mxE [(x + _) j 0]mxE [(a *: p_dx s) j 0]mxE d0 // mulr0 addr0.
by rewrite -[in RHS](clip_id hx) mxE.
Qed.

(** The padded inverse times a matrix solves the free rows. *)
Definition pad (F : {set 'I_n}) (A : 'M[R]_#|F|) : 'M[R]_n := \matrix_(i, j)
  match [pick a : 'I_#|F| | enum_val a == i], [pick b : 'I_#|F| | enum_val b == j] with
  | Some a, Some b => A a b
  | _, _ => 0
  end.
Lemma pick_in (F : {set 'I_n}) (a : 'I_#|F|) : [pick b : 'I_#|F| | enum_val b == enum_val a] = Some a.
Proof. by case: pickP => [b /eqP /enum_val_inj -> //|/(_ a)]; rewrite eqxx. Qed.
Lemma pick_out (F : {set 'I_n}) j : j \notin F -> [pick b : 'I_#|F| | enum_val b == j] = None.
Proof. by move=> hj; case: pickP => [b /eqP e|//]; move: hj; rewrite -e enum_valP. Qed.

Lemma pad_out (F : {set 'I_n}) (A : 'M[R]_#|F|) i j : i \notin F -> pad A i j = 0.
Proof. by move=> h; rewrite mxE pick_out. Qed.
Lemma notin_setC (F : {set 'I_n}) (i : 'I_#|~: F|) : enum_val i \notin F.
Proof. by move: (enum_valP i); rewrite inE. Qed.

Lemma pad_solve H (F : {set 'I_n}) m (B : 'M[R]_(n, m)) : submat H F F \in unitmx -> forall i c, i \in F ->
  (H *m (pad (invmx (submat H F F)) *m B)) i c = B i c.
Proof.
move=> hu i c hi; rewrite mxE (sum_split F) [X in _ + X]big1 ?addr0; last first.
  move=> a _; rewrite [X in _ * X]mxE big1 ?mulr0 // => b _.
  by rewrite pad_out ?notin_setC // mul0r.
pose Bf : 'M[R]_(#|F|, m) := \matrix_(a, b) B (enum_val a) b.
have e a : (pad (invmx (submat H F F)) *m B) (enum_val a) c = (invmx (submat H F F) *m Bf) a c.
  rewrite mxE (sum_split F) [X in _ + X]big1 ?addr0; last first.
    by move=> b _; rewrite mxE pick_in pick_out ?notin_setC // mul0r.
  rewrite mxE; apply: eq_bigr => b _; rewrite [X in X * _]mxE !pick_in.
  by congr (_ * _); rewrite mxE.
rewrite -(enum_rankK_in hi hi); set k := enum_rank_in hi i.
transitivity ((submat H F F *m (invmx (submat H F F) *m Bf)) k c).
  rewrite [RHS]mxE; apply: eq_bigr => a _; rewrite e; congr (_ * _); by rewrite [RHS]mxE.
by rewrite mulKVmx // mxE.
Qed.
End Proofs.

Section Gains.
Variables (R : realFieldType) (n m : nat).
Lemma box_gains_facts (p : qp R) (old : solution R m) (Quu : 'M[R]_m) (Qu : 'cV[R]_m) (Qxu : 'M[R]_(n, m))
    (u_lb u_ub : bounds R m) (us k0 k Qu' : 'cV[R]_m) (K : 'M[R]_(m, n)) :
  symm Quu -> nonempty u_lb u_ub -> reg p = 0 -> (0 < maxiter p)%N ->
  box_gains p old Quu Qu Qxu u_lb u_ub us k0 = Some (k, K, Qu') ->
  exists F : {set 'I_m},
    [/\ forall j, j \notin F -> u_lb j = Some ((us - k) j 0) \/ u_ub j = Some ((us - k) j 0),
        forall j c, j \notin F -> K j c = 0,
        forall i c, i \in F -> (Quu *m K) i c = Qxu c i &
        forall j, Qu' j 0 = if j \in F then Qu j 0 else 0].
Proof.
move=> hs hne hr hm; rewrite /box_gains /qp_solve.
set lb := fun i => _; set ub := fun i => _.
have hne' : nonempty lb ub.
  move=> i l u; rewrite /lb /ub; case el: (u_lb i) => [l'|] //= [<-].
  by case eu: (u_ub i) => [u'|] //= [<-]; rewrite ler_add2r (hne i).
move: hm; case: (maxiter p) => // it _.
case e: qp_loop => [[sol b]|] //.
have [x0 [s [hx hst es]]] := loop_last hne' (clip_in _ hne') e.
rewrite hr in hst; rewrite {}es /= => -[<- <- <-].
exists (p_free s); split.
- move=> j hj; rewrite [(us - _) j 0]mxE opprK (search_clamped _ _ hs hx hst hj).
  case: (clamped hs hst hj) => [[h _]|[h _]]; [left|right]; move: h; rewrite /lb /ub.
    by case: (u_lb j) => [l|] //= [<-]; rewrite addrC subrK.
  by case: (u_ub j) => [l|] //= [<-]; rewrite addrC subrK.
- move=> j c hj; rewrite mxE big1 // => a _; by rewrite mxE pick_out // mul0r.
- move: hst; rewrite /qp_step eqxx /=; case: ifP => // hok [<-] /= i c hi.
  rewrite -/(pad _) /llt_solve mulmx1 lower_symE; last exact: submat_symm.
  rewrite pad_solve // ?mxE // posdef_unit //.
  by apply/llt_okP => //; exact: submat_symm.
by move=> j; rewrite mxE.
Qed.

Lemma box_gains_in (p : qp R) (old : solution R m) (Quu : 'M[R]_m) (Qu : 'cV[R]_m) (Qxu : 'M[R]_(n, m))
    (u_lb u_ub : bounds R m) (us k0 k Qu' : 'cV[R]_m) (K : 'M[R]_(m, n)) :
  nonempty u_lb u_ub ->
  box_gains p old Quu Qu Qxu u_lb u_ub us k0 = Some (k, K, Qu') -> in_box u_lb u_ub (us - k).
Proof.
move=> hne; rewrite /box_gains /qp_solve.
set lb := fun i => _; set ub := fun i => _.
have hne' : nonempty lb ub.
  move=> i l u; rewrite /lb /ub; case el: (u_lb i) => [l'|] //= [<-].
  by case eu: (u_ub i) => [u'|] //= [<-]; rewrite ler_add2r (hne i).
case e: qp_loop => [[sol b]|] // [<- _ _].
have [h1 h2] := loop_in hne' (clip_in _ hne') e.
split=> i c ec; rewrite [(us - _) i 0]mxE opprK.
  by rewrite -ler_subl_addl h1 // /lb ec.
by rewrite -ler_subr_addl h2 // /ub ec.
Qed.
End Gains.
