(** C29, C78: gains and value function of SolverIntro. *)
From mathcomp Require Import all_ssreflect all_algebra all_fingroup.
From Verif Require Import LinAlg LinAlg_Proofs RingTac Riccati_Model Intro_Model Intro_Proofs.
Set Implicit Arguments.
Unset Strict Implicit.
Unset Printing Implicit Defensive.
Import Order.TTheory GRing.Theory Num.Theory.
Local Open Scope ring_scope.

Section Intro.
Variable R : realFieldType.
Add Field RF : (rft R).
Variable n : nat.

(** The node's Hessian and the incoming value Hessian are symmetric. *)
Definition sym_in (s : istage R n) (v : 'cV[R]_n * 'M[R]_n) : Prop := symm (Luu (ibase s)) /\ symm v.2.

Lemma ibstepP preg feas (s : istage R n) e f v b : sym_in s v -> ibstep preg feas e f v = Some b ->
  [/\ symm (Quu b), i_gains e (iHu s) (iHx s) (ih s) (Quu b) (Qu b) (Qxu b) = Some (kff b, Kfb b) &
      (Vx b, Vxx b) = i_value preg feas f (Qx b) (Qxx b) (Qu b) (Quu b) (Qxu b) (kff b) (Kfb b)].
Proof.
move=> [sL sV]; rewrite /ibstep; case E: i_gains => [[k K]|//] [<-] /=.
split=> //; by apply: symmD; [apply: symmD => //; apply: symm_conj|apply: symm_scalar].
Qed.

Lemma ibstep_facts preg feas (s : istage R n) e f v b : sym_in s v ->
  (0 < nu (ibase s))%N -> (0 < nh s)%N -> usable e (iHu s) -> ibstep preg feas e f v = Some b ->
  [/\ symm (Quu b), iHu s *m kff b = ih s, iHu s *m Kfb b = iHx s,
      stationary (iHu s) (Quu b) (Qu b) (Qxu b) (kff b) (Kfb b) & kernel_posdef (iHu s) (Quu b)].
Proof.
move=> sy pu ph us /(ibstepP sy) [sq]; rewrite /i_gains pu ph /= => E _.
case: e us E => [z Y Z [fH yz]|_] E.
- by have [] := null_facts sq fH yz E.
- by have [] := schur_facts sq E.
Qed.

(** Both resolutions: the full step zeroes the linearised constraint for every deviation
    of the state. *)
Theorem C29_constraint preg feas (s : istage R n) e f v b : sym_in s v ->
  (0 < nu (ibase s))%N -> (0 < nh s)%N -> usable e (iHu s) -> ibstep preg feas e f v = Some b ->
  [/\ iHu s *m kff b = ih s, iHu s *m Kfb b = iHx s &
      forall dx, ih s + iHx s *m dx + iHu s *m (- kff b - Kfb b *m dx) = 0].
Proof.
move=> sy pu ph us E; have [_ Ek EK _ _] := ibstep_facts sy pu ph us E.
by split=> // dx; rewrite mulmxBr mulmxN mulmxA Ek EK -opprD subrr.
Qed.

(** The policy is the unique minimiser of the quadratic action value over the controls
    that satisfy the linearised constraint. *)
Theorem C29_optimal preg feas (s : istage R n) e f v b dx du : sym_in s v ->
  (0 < nu (ibase s))%N -> (0 < nh s)%N -> usable e (iHu s) -> ibstep preg feas e f v = Some b ->
  ih s + iHx s *m dx + iHu s *m du = 0 ->
  let q := qfun (Qx b) (Qxx b) (Qu b) (Quu b) (Qxu b) dx in
  q (- kff b - Kfb b *m dx) <= q du /\ (q (- kff b - Kfb b *m dx) = q du -> du = - kff b - Kfb b *m dx).
Proof.
move=> sy pu ph us E F; have [sq Ek EK st pd] := ibstep_facts sy pu ph us E.
exact: policy_optimal sq Ek EK st pd F.
Qed.

(** When a step succeeds: the null-space resolutions exactly when [Quu] is positive
    definite on the kernel of [Hu]; the Schur resolution exactly when [Quu] is positive
    definite and [Hu] has full row rank. *)
Definition step_quu (preg : R) (s : istage R n) (v : 'cV[R]_n * 'M[R]_n) : 'M[R]_(nu (ibase s)) :=
  Luu (ibase s) + (Fu (ibase s))^T *m v.2 *m Fu (ibase s) + preg%:M.

Theorem C29_succeeds preg feas (s : istage R n) e f v : sym_in s v ->
  (0 < nu (ibase s))%N -> (0 < nh s)%N -> usable e (iHu s) ->
  (exists b, ibstep preg feas e f v = Some b) <->
  (match e with
   | Null _ _ _ => forall d : 'cV[R]_(nu (ibase s)), iHu s *m d = 0 -> d != 0 -> 0 < dot d (step_quu preg s v *m d)
   | Schur => posdef (step_quu preg s v) /\ row_free (iHu s)
   end).
Proof.
move=> [sL sV] pu ph us.
have sq : symm (step_quu preg s v) by apply: symmD; [apply: symmD => //; apply: symm_conj|apply: symm_scalar].
rewrite /ibstep -/(step_quu preg s v) /i_gains pu ph /=.
case: e us => [z Y Z [fH yz]|_].
- rewrite /null_gains; set qzz := Z^T *m _.
  have sz : symm qzz by rewrite /qzz mulmxA; apply: symm_conj.
  have [ker inj] := null_kernel fH yz.
  have form w : dot (Z *m w) (step_quu preg s v *m (Z *m w)) = dot w (qzz *m w).
    by rewrite /dot trmx_mul /qzz !mulmxA.
  split=> [|pd].
  + case: ifP => [/(llt_okP sz) pz _ d /ker [w ->] nd|_ [b //]].
    by rewrite form; apply: pz; apply: contraNneq nd => ->; rewrite mulmx0.
  + have -> : llt_ok qzz.
      apply/(llt_okP sz) => w nw; rewrite -form; apply: pd; first by apply/ker; exists w.
      by apply: contraNneq nw => /inj ->.
    by eexists.
- rewrite /schur_gains /free_gains; pose w := llt_solve (step_quu preg s v) (iHu s)^T; pose qzz := iHu s *m w; rewrite -/w -/qzz.
  split=> [|[pd fH]].
  + case: ifP => [/(llt_okP sq) pq|_ [b //]].
    have uq := posdef_unit pq.
    have wE : w = invmx (step_quu preg s v) *m (iHu s)^T by rewrite /w llt_solveE.
    have si : symm (invmx (step_quu preg s v)) by rewrite /symm trmx_inv sq.
    have sz : symm qzz by rewrite /qzz wE mulmxA; apply: gram_symm.
    case: ifP => [/(llt_okP sz) pz _|_ [b //]]; split=> //.
    apply: row_free_of_inj => x Ex; apply: (posdef_form0 pz).
    by rewrite /qzz wE -!mulmxA Ex !mulmx0 dot0r.
  + have -> : llt_ok (step_quu preg s v) by apply/(llt_okP sq).
    have uq := posdef_unit pd.
    have wE : w = invmx (step_quu preg s v) *m (iHu s)^T by rewrite /w llt_solveE.
    have si : symm (invmx (step_quu preg s v)) by rewrite /symm trmx_inv sq.
    have sz : symm qzz by rewrite /qzz wE mulmxA; apply: gram_symm.
    have -> : llt_ok qzz.
      apply/(llt_okP sz) => x nx; rewrite /qzz wE -!mulmxA dot_adjr.
      set y := (iHu s)^T *m x; have ny : y != 0 by apply: contraNneq nx => /(row_free_inj fH) ->.
      have : 0 < dot (invmx (step_quu preg s v) *m y) (step_quu preg s v *m (invmx (step_quu preg s v) *m y)).
        apply: pd; apply: contraNneq ny => E0.
        by rewrite -(mulKVmx uq y) E0 mulmx0.
      by rewrite mulKVmx // dotC.
    by eexists.
Qed.

(** All resolutions give the same direction. *)
Theorem C29_agree preg feas (s : istage R n) e e' f v b b' : sym_in s v ->
  (0 < nu (ibase s))%N -> (0 < nh s)%N -> usable e (iHu s) -> usable e' (iHu s) ->
  ibstep preg feas e f v = Some b -> ibstep preg feas e' f v = Some b' -> b = b'.
Proof.
move=> sy pu ph us us' E E'.
have [sq Ek EK st pd] := ibstep_facts sy pu ph us E.
have [_ Ek' EK' st' _] := ibstep_facts sy pu ph us' E'.
have [Eqx Equ Eqxx Eqxu Equu] : [/\ Qx b' = Qx b, Qu b' = Qu b, Qxx b' = Qxx b, Qxu b' = Qxu b & Quu b' = Quu b].
  by move: E E'; rewrite /ibstep; case: i_gains => [[k K]|//] [<-]; case: i_gains => [[k' K']|//] [<-].
have Ekk : kff b' = kff b /\ Kfb b' = Kfb b.
  have uni w (z : 'cV[R]_(nu (ibase s))) : iHu s *m z = 0 -> (forall y, iHu s *m y = 0 -> dot y w = 0) ->
      w = Quu b *m z -> z = 0.
    move=> Hz Hw Ew; apply/eqP; apply: contraT => nz; have := pd z Hz nz.
    by rewrite -Ew Hw // ltxx.
  split.
  - apply/eqP; rewrite -subr_eq0; apply/eqP; apply: (uni (Quu b *m (kff b' - kff b))) => //.
    + by rewrite mulmxBr Ek Ek' subrr.
    + move=> y Hy; case: st st' => [S1 _] [S1' _]; move: (S1 y Hy) (S1' y Hy); rewrite Equu Equ => A B.
      have -> : Quu b *m (kff b' - kff b) = (Qu b - Quu b *m kff b) - (Qu b - Quu b *m kff b').
        by rewrite mulmxBr opprB [RHS]addrC addrA subrK.
      by rewrite dotDr dotNr A B subrr.
  - apply/eqP; rewrite -subr_eq0; apply/eqP; apply/matrixP => i j.
    have -> : (Kfb b' - Kfb b) i j = (((Kfb b' - Kfb b) *m (delta_mx j 0 : 'cV[R]_n)) : 'cV[R]__) i 0 by rewrite -colE [in RHS]mxE.
    set z := (Kfb b' - Kfb b) *m _; suff -> : z = 0 by rewrite !mxE.
    apply: (uni (Quu b *m z)) => //.
    + by rewrite /z mulmxA mulmxBr EK EK' subrr mul0mx.
    + move=> y Hy; case: st st' => [_ S1] [_ S1']; move: (S1 y Hy) (S1' y Hy); rewrite Equu Eqxu => A B.
      have -> : Quu b *m z = (((Qxu b)^T - Quu b *m Kfb b) - ((Qxu b)^T - Quu b *m Kfb b')) *m delta_mx j 0.
        by rewrite /z mulmxA mulmxBr opprB; congr (_ *m _); rewrite [RHS]addrC addrA subrK.
      by rewrite mulmxBl dotDr dotNr /dot !mulmxA A B !mul0mx !mxE subrr.
have [_ _ V] := ibstepP sy E; have [_ _ V'] := ibstepP sy E'.
case: Ekk => E1 E2; rewrite Eqx Equ Eqxx Eqxu Equu E1 E2 -V in V'.
have Eq : Quuk b' = Quuk b.
  have A : Quuk b = Quu b *m kff b by move: E; rewrite /ibstep; case: i_gains => [[k K]|//] [<-].
  have B : Quuk b' = Quu b' *m kff b' by move: E'; rewrite /ibstep; case: i_gains => [[k K]|//] [<-].
  by rewrite A B Equu E1.
case: V' => V1 V2.
move: Eqx Equ Eqxx Eqxu Equu E1 E2 Eq V1 V2; clear.
by case: b b' => [? ? ? ? ? ? ? ? ? ?] [? ? ? ? ? ? ? ? ? ?] /= -> -> -> -> -> -> -> -> -> ->.
Qed.

(** * C78 *)
(** The stored value function is the action value along the policy plus the
    regularization, up to the constant term; the gap shifts the gradient. *)
Theorem C78_value preg feas (s : istage R n) (e : eqsolver R (nh s) (nu (ibase s))) f v b dx : sym_in s v -> ibstep preg feas e f v = Some b ->
  symm (Vxx b) /\
  qfun (Qx b) (Qxx b) (Qu b) (Quu b) (Qxu b) dx (- kff b - Kfb b *m dx) + 2%:R^-1 * (preg * dot dx dx) =
  (2%:R^-1 * dot (kff b) (Quu b *m kff b) - dot (Qu b) (kff b)) +
  dot (Vx b - (if feas then 0 else Vxx b *m f)) dx + 2%:R^-1 * dot dx (Vxx b *m dx).
Proof.
move=> sy /(ibstepP sy) [sq _]; rewrite /i_value; set k := kff b; set K := Kfb b.
set v0 := Qx b - _ - _; set V0 := Qxx b + _; case=> -> ->.
set V := _ + preg%:M.
split; first by apply: symmD; [apply: symm_sym|apply: symm_scalar].
have -> : (if feas then v0 else v0 + V *m f) - (if feas then 0 else V *m f) = v0 by case: feas; rewrite ?subr0 ?addrK.
have -> : dot dx (V *m dx) = dot dx (V0 *m dx) + preg * dot dx dx.
  by rewrite /V mulmxDl dotDr dot_sym mul_scalar_mx dotZr.
set y := K *m dx; set d := - k - y.
have B1 : dot (Qu b) d = - dot (Qu b) k - dot (Qu b) y by rewrite dotDr !dotNr.
have B2 : dot dx (Qxu b *m d) = - dot dx (Qxu b *m k) - dot dx (Qxu b *m y) by rewrite mulmxBr mulmxN dotDr !dotNr.
have B3 : dot d (Quu b *m d) = dot k (Quu b *m k) + 2%:R * dot k (Quu b *m y) + dot y (Quu b *m y).
  rewrite /d mulmxBr mulmxN dotDl !dotNl !dotDr !dotNr (dot_symm y k sq); by fld R.
have B4 : dot v0 dx = dot (Qx b) dx - dot dx (Qxu b *m k) - (dot (Qu b) y - dot k (Quu b *m y)).
  rewrite /v0 !dotDl !dotNl (dotC (Qxu b *m k)) (dot_adj K^T) trmxK -/y dotDl dotNl.
  by rewrite (dotC (Quu b *m k)) (dot_symm y k sq).
have B5 : dot dx (V0 *m dx) = dot dx (Qxx b *m dx) + dot y (Quu b *m y) - 2%:R * dot dx (Qxu b *m y).
  have E : V0 *m dx = Qxx b *m dx + (K^T *m (Quu b *m y) - 2%:R *: (Qxu b *m y)).
    by rewrite /V0 (mulmxDl (Qxx b)) -[_ *m K *m dx]mulmxA -/y mulmxBl -scalemxAl -[K^T *m _ *m y]mulmxA.
  by rewrite E dotDr (dotDr _ _ dx) dotNr dotZr -(dot_adj K) -/y addrA.
rewrite /qfun B1 B2 B3 B4 B5.
by fld R.
Qed.
End Intro.

(** A node with two controls and one constraint [1 + 2 dx + du_1 + du_2 = 0]: both
    resolutions are usable and succeed. *)
Section Ex.
Let F := [realFieldType of rat].
Definition ex_hu : 'M[F]_(1, 2) := const_mx 1.
Definition ex_z : 'M[F]_(2, 1) := \matrix_(i, j) (if i == 0 then 1 else -1).
Definition ex_stage : istage F 1 :=
  @IStage F 1 (@Stage F 1 2 1%:M (const_mx 1) (const_mx 3%:R) (const_mx 1) 1%:M 0 1%:M) 1
    (const_mx 1) (const_mx 2%:R) ex_hu.

Lemma ex_mul (d : 'cV[F]_2) i j : (ex_hu *m d) i j = d 0 0 + d 1 0.
Proof. by rewrite mxE big_ord_recl big_ord1 !mxE !mul1r !(ord1 j); congr (_ + d _ 0); apply: val_inj. Qed.
Lemma ex_free : row_free ex_hu.
Proof.
apply: row_free_of_inj => x /matrixP /(_ 0 0); rewrite !mxE big_ord1 !mxE mul1r => E.
by apply/matrixP => i j; rewrite !ord1 E mxE.
Qed.
Lemma ex_usable : usable (Null ex_hu^T ex_z) ex_hu.
Proof.
split; first exact: ex_free.
left; split; first by exists 1%g; rewrite row_perm1.
split=> [d|w].
- split=> [/matrixP /(_ 0 0)|[w ->]].
  + rewrite ex_mul mxE => E; exists (const_mx (d 0 0)); apply/matrixP => i j.
    rewrite mxE big_ord1 !mxE (ord1 j).
    case: (i =P 0) => [->|/eqP ni]; first by rewrite mul1r.
    have -> : i = 1 by apply: val_inj; case: i ni => [[|[|//]]].
    by rewrite mulN1r; apply/eqP; rewrite -addr_eq0 addrC E.
  + by apply/matrixP => i j; rewrite ex_mul !mxE !big_ord1 !mxE /= mul1r mulN1r subrr.
- move/matrixP => /(_ 0 0); rewrite !mxE big_ord1 !mxE mul1r => E.
  by apply/matrixP => i j; rewrite !ord1 E mxE.
Qed.
Example C29_ex (f : 'cV[F]_1) (v : 'cV[F]_1) :
  let V : 'M[F]_1 := 1%:M in
  (exists b, ibstep (s := ex_stage) 0 false (Null ex_hu^T ex_z) f (v, V) = Some b) /\
  (exists b, ibstep (s := ex_stage) 0 false Schur f (v, V) = Some b).
Proof.
move=> V.
have sy : sym_in ex_stage (v, V) by split; rewrite /symm /= trmx1.
have pd : posdef (step_quu 0 ex_stage (v, V)).
  move=> d nd; rewrite /step_quu /= mulmx1.
  have -> : (0 : F)%:M = 0 :> 'M[F]_2 by rewrite raddf0.
  rewrite addr0 mulmxDl mul1mx dotDr -mulmxA.
  apply: ltr_paddr; last exact: dot_gt0.
  by rewrite -dot_adj dot_ge0.
split; apply/(C29_succeeds 0 false f sy) => //.
- exact: ex_usable.
- by move=> d _; apply: pd.
- by split=> //; apply: ex_free.
Qed.
End Ex.

Print Assumptions C29_constraint.
Print Assumptions C29_optimal.
Print Assumptions C29_succeeds.
Print Assumptions C29_agree.
Print Assumptions C78_value.
Print Assumptions C29_ex.
