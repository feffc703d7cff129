(** Facts about inner products, symmetric and positive definite matrices, and the
    Cholesky test. *)
From mathcomp Require Import all_ssreflect all_algebra.
From Verif Require Import RingTac LinAlg.
Set Implicit Arguments.
Unset Strict Implicit.
Unset Printing Implicit Defensive.
Import Order.TTheory GRing.Theory Num.Theory.
Local Open Scope ring_scope.

Section LinAlg.
Variable R : realFieldType.
Add Field RF : (rft R).
Implicit Types (n m p : nat).

(** Entries of sums: used by the tactic [vec], which decides linear identities. *)
Lemma addE n m (A B : 'M[R]_(n, m)) i j : (A + B) i j = A i j + B i j.
Proof. by rewrite mxE. Qed.
Lemma oppE n m (A : 'M[R]_(n, m)) i j : (- A) i j = - A i j.
Proof. by rewrite mxE. Qed.
Lemma scaleE n m a (A : 'M[R]_(n, m)) i j : (a *: A) i j = a * A i j.
Proof. by rewrite mxE. Qed.
Lemma zeroE n m i j : (0 : 'M[R]_(n, m)) i j = 0.
Proof. by rewrite mxE. Qed.

Lemma dotE n (u v : 'cV[R]_n) : dot u v = \sum_i u i 0 * v i 0.
Proof. by rewrite /dot !mxE; apply: eq_bigr => i _; rewrite !mxE. Qed.
Lemma dotC n (u v : 'cV[R]_n) : dot u v = dot v u.
Proof. by rewrite !dotE; apply: eq_bigr => i _; rewrite mulrC. Qed.
Lemma dotDl n (u v w : 'cV[R]_n) : dot (u + v) w = dot u w + dot v w.
Proof. by rewrite /dot linearD mulmxDl mxE. Qed.
Lemma dotDr n (u v w : 'cV[R]_n) : dot w (u + v) = dot w u + dot w v.
Proof. by rewrite /dot mulmxDr mxE. Qed.
Lemma dotNl n (u w : 'cV[R]_n) : dot (- u) w = - dot u w.
Proof. by rewrite /dot linearN mulNmx mxE. Qed.
Lemma dotNr n (u w : 'cV[R]_n) : dot w (- u) = - dot w u.
Proof. by rewrite /dot mulmxN mxE. Qed.
Lemma dotZl n a (u w : 'cV[R]_n) : dot (a *: u) w = a * dot u w.
Proof. by rewrite /dot linearZ -scalemxAl mxE. Qed.
Lemma dotZr n a (u w : 'cV[R]_n) : dot w (a *: u) = a * dot w u.
Proof. by rewrite /dot -scalemxAr mxE. Qed.
Lemma dot0l n (w : 'cV[R]_n) : dot 0 w = 0.
Proof. by rewrite /dot trmx0 mul0mx mxE. Qed.
Lemma dot0r n (w : 'cV[R]_n) : dot w 0 = 0.
Proof. by rewrite /dot mulmx0 mxE. Qed.
Lemma dot_adj n m (A : 'M[R]_(n, m)) (x : 'cV[R]_m) (y : 'cV[R]_n) :
  dot (A *m x) y = dot x (A^T *m y).
Proof. by rewrite /dot trmx_mul mulmxA. Qed.
Lemma dot_adjr n m (A : 'M[R]_(n, m)) (x : 'cV[R]_m) (y : 'cV[R]_n) :
  dot y (A *m x) = dot (A^T *m y) x.
Proof. by rewrite dot_adj trmxK. Qed.
Lemma dot_ge0 n (u : 'cV[R]_n) : 0 <= dot u u.
Proof. by rewrite dotE; apply: sumr_ge0 => i _; rewrite -expr2 sqr_ge0. Qed.
Lemma dot_eq0 n (u : 'cV[R]_n) : dot u u = 0 -> u = 0.
Proof.
rewrite dotE => /eqP; rewrite psumr_eq0; last by move=> i _; rewrite -expr2 sqr_ge0.
move=> /allP h; apply/matrixP => i j; rewrite (ord1 j) mxE.
by move: (h i (mem_index_enum _)); rewrite /= -expr2 sqrf_eq0 => /eqP.
Qed.
Lemma dot_gt0 n (u : 'cV[R]_n) : u != 0 -> 0 < dot u u.
Proof.
by move=> h; rewrite lt_def dot_ge0 andbT; apply: contra h => /eqP /dot_eq0 ->.
Qed.
Lemma dot_inj n (u v : 'cV[R]_n) : (forall w, dot w u = dot w v) -> u = v.
Proof.
move=> h; apply/eqP; rewrite -subr_eq0; apply/eqP; apply: dot_eq0.
by rewrite dotDr dotNr h subrr.
Qed.
Lemma dot_symm n (A : 'M[R]_n) (x y : 'cV[R]_n) : symm A -> dot x (A *m y) = dot y (A *m x).
Proof. by move=> h; rewrite dotC dot_adj h. Qed.

Lemma symmD n (A B : 'M[R]_n) : symm A -> symm B -> symm (A + B).
Proof. by rewrite /symm => hA hB; rewrite linearD /= hA hB. Qed.
Lemma symmN n (A : 'M[R]_n) : symm A -> symm (- A).
Proof. by rewrite /symm => hA; rewrite linearN /= hA. Qed.
Lemma symmZ n a (A : 'M[R]_n) : symm A -> symm (a *: A).
Proof. by rewrite /symm => hA; rewrite linearZ /= hA. Qed.
Lemma symm_scalar n a : symm (a%:M : 'M[R]_n).
Proof. exact: tr_scalar_mx. Qed.
Lemma symm_conj n m (A : 'M[R]_n) (F : 'M[R]_(n, m)) : symm A -> symm (F^T *m A *m F).
Proof. by rewrite /symm => hA; rewrite !trmx_mul trmxK hA mulmxA. Qed.
Lemma symm_sym n (A : 'M[R]_n) : symm (2%:R^-1 *: (A + A^T)).
Proof. by rewrite /symm linearZ linearD /= trmxK addrC. Qed.
Lemma sym_id n (A : 'M[R]_n) : symm A -> 2%:R^-1 *: (A + A^T) = A.
Proof.
move=> ->; rewrite -mulr2n -scaler_nat scalerA mulVf ?scale1r //.
by rewrite pnatr_eq0.
Qed.
Lemma dot_sym n (A : 'M[R]_n) x : dot x ((2%:R^-1 *: (A + A^T)) *m x) = dot x (A *m x).
Proof.
rewrite -scalemxAl mulmxDl dotZr dotDr [dot x (A^T *m x)]dot_adjr trmxK.
rewrite [dot (A *m x) x]dotC; fld R.
Qed.

Lemma posdef_psd n (A : 'M[R]_n) : posdef A -> psd A.
Proof.
move=> h x; case: (altP (x =P 0)) => [->|hx]; first by rewrite dot0l.
exact/ltW/h.
Qed.
Lemma psdD n (A B : 'M[R]_n) : psd A -> psd B -> psd (A + B).
Proof. by move=> hA hB x; rewrite mulmxDl dotDr addr_ge0. Qed.
Lemma psd_scalar n a : 0 <= a -> psd (a%:M : 'M[R]_n).
Proof. by move=> h x; rewrite mul_scalar_mx dotZr mulr_ge0 // dot_ge0. Qed.
Lemma posdef_unit n (A : 'M[R]_n) : posdef A -> A \in unitmx.
Proof.
move=> h; rewrite -unitmx_tr -row_free_unit -kermx_eq0; apply/eqP/row_matrixP => i.
rewrite row0; apply/eqP; apply: contraT => hi.
set v := (row i (kermx A^T))^T.
have hv : v != 0 by rewrite -trmx0 (inj_eq trmx_inj).
have e : A *m v = 0.
  by apply: trmx_inj; rewrite trmx_mul trmxK -row_mul mulmx_ker row0 trmx0.
by move: (h v hv); rewrite e dot0r ltxx.
Qed.
Lemma posdef_form0 n (A : 'M[R]_n) x : posdef A -> dot x (A *m x) = 0 -> x = 0.
Proof.
by move=> h e; apply/eqP; apply: contraT => hx; move: (h x hx); rewrite e ltxx.
Qed.

Lemma lower_symE n (A : 'M[R]_n) : symm A -> lower_sym A = A.
Proof.
move=> h; apply/matrixP => i j; rewrite mxE; case: ifP => // _.
by rewrite -[in LHS]h mxE.
Qed.

(** Splitting off the first coordinate. *)
Lemma dot_col n m (a c : 'cV[R]_n) (b d : 'cV[R]_m) :
  dot (col_mx a b) (col_mx c d) = dot a c + dot b d.
Proof. by rewrite /dot tr_col_mx mul_row_col mxE. Qed.
Lemma dot1 (a b : 'cV[R]_1) : dot a b = a 0 0 * b 0 0.
Proof. by rewrite dotE big_ord1. Qed.
Lemma quad_block n (A : 'M[R]_(1 + n)) (x : 'cV[R]_(1 + n)) : symm A ->
  dot x (A *m x) =
    A 0 0 * (x 0 0) ^+ 2 + 2%:R * x 0 0 * dot (dlsubmx A) (dsubmx x)
    + dot (dsubmx x) (drsubmx A *m dsubmx x).
Proof.
move=> hA.
have hur : ursubmx A = (dlsubmx A)^T by rewrite trmx_dlsub hA.
rewrite -{1 2}(vsubmxK x) -{1}(submxK A) mul_block_col dot_col dotDr dotDr.
rewrite hur; set b := dlsubmx A; set D := drsubmx A; set y := dsubmx x.
have e1 : (usubmx x) 0 0 = x 0 0 by rewrite mxE; congr (x _ _); apply: val_inj.
have e2 : (ulsubmx A) 0 0 = A 0 0 by rewrite !mxE; congr (A _ _); apply: val_inj.
have e3 : dot y (b *m usubmx x) = x 0 0 * dot b y.
  have -> : usubmx x = (x 0 0)%:M by apply/matrixP => i j; rewrite !ord1 e1 mxE mulr1n.
  by rewrite mul_mx_scalar dotZr dotC.
rewrite e3 !dot1 e1 [(_ *m usubmx x) 0 0]mxE big_ord1 e1 e2 -/(dot b y).
by rng R.
Qed.

Lemma schur_symm n (A : 'M[R]_(1 + n)) : symm A ->
  symm (drsubmx A - (A 0 0)^-1 *: (dlsubmx A *m (dlsubmx A)^T)).
Proof.
move=> hA; apply: symmD; last apply: symmN.
  by rewrite /symm trmx_drsub hA.
by apply: symmZ; rewrite /symm trmx_mul trmxK.
Qed.

Lemma schur_form n (A : 'M[R]_(1 + n)) (y : 'cV[R]_n) :
  dot y ((drsubmx A - (A 0 0)^-1 *: (dlsubmx A *m (dlsubmx A)^T)) *m y) =
  dot y (drsubmx A *m y) - (A 0 0)^-1 * (dot (dlsubmx A) y) ^+ 2.
Proof.
rewrite mulmxDl dotDr mulNmx dotNr -scalemxAl dotZr -mulmxA; congr (_ - _ * _).
rewrite dotC dot_adj; set b := dlsubmx A.
rewrite dot1 expr2; congr (_ * _).
Qed.

(** The factorisation succeeds exactly on positive definite matrices. *)
Lemma llt_okP n (A : 'M[R]_n) : symm A -> llt_ok A <-> posdef A.
Proof.
elim: n A => [|n IH] A hA.
  split=> // _ x; rewrite (flatmx0 x) eqxx //.
rewrite /= -[n.+1]/(1 + n)%N in A hA *.
set S := (drsubmx A - _).
have hS : symm S by exact: schur_symm.
have split_form (x : 'cV[R]_(1 + n)) : A 0 0 != 0 ->
    dot x (A *m x) = A 0 0 * (x 0 0 + (A 0 0)^-1 * dot (dlsubmx A) (dsubmx x)) ^+ 2
                     + dot (dsubmx x) (S *m dsubmx x).
  move=> ha; rewrite schur_form quad_block //.
  by fld R; exact/eqP.
split=> [/andP[ha /IH-/(_ hS) pS] x hx|pA].
  have ha0 : A 0 0 != 0 by rewrite gt_eqF.
  rewrite split_form //.
  case: (altP (dsubmx x =P 0)) => [e|hy]; last first.
    by apply: ltr_paddl; [rewrite mulr_ge0 ?sqr_ge0 // ltW|exact: pS].
  rewrite e dot0r dot0l mulr0 !addr0 mulr_gt0 // exprn_even_gt0 //=.
  apply: contra hx => /eqP e0; rewrite -(vsubmxK x) e.
  have -> : usubmx x = 0.
    by apply/matrixP => i j; rewrite !ord1 !mxE -[RHS]e0; congr (x _ _); apply: val_inj.
  by rewrite col_mx0.
have ha : 0 < A 0 0.
  pose x : 'cV[R]_(1 + n) := col_mx (1%:M) 0.
  have hx : x != 0.
    apply/eqP => /(congr1 (fun y : 'cV[R]_(1 + n) => y (lshift n 0) 0)).
    by rewrite col_mxEu !mxE => /eqP; rewrite oner_eq0.
  move: (pA x hx); rewrite quad_block // /x col_mxKd dot0r dot0l mulr0 !addr0.
  have -> : (col_mx 1%:M 0 : 'cV[R]_(1 + n)) 0 0 = 1.
    by rewrite (_ : 0 = lshift n 0 :> 'I_(1 + n)) ?col_mxEu ?mxE //; apply: val_inj.
  by rewrite expr1n mulr1.
rewrite ha /=; apply/IH => // y hy.
have ha0 : A 0 0 != 0 by rewrite gt_eqF.
pose x : 'cV[R]_(1 + n) := col_mx (- ((A 0 0)^-1 * dot (dlsubmx A) y))%:M y.
have hx : x != 0.
  by apply: contra hy => /eqP e; rewrite -[y](col_mxKd ((- ((A 0 0)^-1 * dot (dlsubmx A) y))%:M)) -/x e linear0.
have x00 : x 0 0 = - ((A 0 0)^-1 * dot (dlsubmx A) y).
  by rewrite /x (_ : 0 = lshift n 0 :> 'I_(1 + n)) ?col_mxEu ?mxE //; apply: val_inj.
by move: (pA x hx); rewrite split_form // x00 /x col_mxKd addNr expr0n mulr0 add0r.
Qed.
End LinAlg.
Ltac vec R :=
  let i := fresh "i" in let j := fresh "j" in
  apply/matrixP => i j; rewrite ?(addE, oppE, scaleE, zeroE); fld R.
