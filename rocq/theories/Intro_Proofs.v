From mathcomp Require Import all_ssreflect all_algebra all_fingroup.
From Verif Require Import LinAlg LinAlg_Proofs RingTac Riccati_Model Intro_Model.
Set Implicit Arguments.
Unset Strict Implicit.
Unset Printing Implicit Defensive.
Import Order.TTheory GRing.Theory Num.Theory.
Local Open Scope ring_scope.

Section Intro.
Variable R : realFieldType.
Add Field RF : (rft R).
Variable n : nat.

Lemma row_free_inj p m (A : 'M[R]_(p, m)) (x : 'cV[R]_p) : row_free A -> A^T *m x = 0 -> x = 0.
Proof.
move=> fA E; have : x^T *m A = 0 by apply: trmx_inj; rewrite trmx_mul trmxK E trmx0.
by move/eqP; rewrite mulmx_free_eq0 // => /eqP /(congr1 trmx); rewrite trmxK trmx0.
Qed.
Lemma row_free_of_inj p m (A : 'M[R]_(p, m)) : (forall x : 'cV[R]_p, A^T *m x = 0 -> x = 0) -> row_free A.
Proof.
move=> H; rewrite -kermx_eq0; apply/rowV0P => v /sub_kermxP E.
by apply: trmx_inj; rewrite trmx0; apply: H; rewrite -trmx_mul E trmx0.
Qed.
Lemma gram_posdef p m (A : 'M[R]_(p, m)) : row_free A -> posdef (A *m A^T).
Proof.
move=> fA x nx; rewrite -mulmxA -[A]trmxK dot_adjr trmxK; apply: dot_gt0.
by apply: contraNneq nx => /(row_free_inj fA) ->.
Qed.
Lemma gram_symm p m (A : 'M[R]_(p, m)) (B : 'M[R]_m) : symm B -> symm (A *m B *m A^T).
Proof. by move=> sB; rewrite /symm !trmx_mul trmxK sB mulmxA. Qed.

(** [Hu Y] is invertible. *)
Lemma lu_unit p m z (Hu : 'M[R]_(p, m)) Y (Z : 'M[R]_(m, z)) : row_free Hu -> lu_null Hu Y Z -> Hu *m Y \in unitmx.
Proof.
move=> fH [[s ->] _]; rewrite row_permE trmx_mul mulmxA unitmx_mul unitmx_tr unitmx_perm andbT.
by apply: posdef_unit; apply: gram_posdef.
Qed.
Lemma qr_W_unit p m (Hu : 'M[R]_(p, m)) (Y : 'M[R]_(m, p)) (W : 'M[R]_p) :
  row_free Hu -> Hu^T = Y *m W -> W \in unitmx.
Proof.
move=> fH E; rewrite -row_free_unit -row_leq_rank.
move: fH; rewrite /row_free => /eqP {1}<-; rewrite -mxrank_tr E; exact: mxrankM_maxr.
Qed.
Lemma qr_unit p m z (Hu : 'M[R]_(p, m)) Y (Z : 'M[R]_(m, z)) : row_free Hu -> qr_null Hu Y Z -> Hu *m Y \in unitmx.
Proof.
move=> fH [[W E] [YY _]]; have -> : Hu = W^T *m Y^T by rewrite -trmx_mul -E trmxK.
by rewrite -mulmxA YY mulmx1 unitmx_tr; apply: qr_W_unit E.
Qed.
(** [Z] spans the kernel. *)
Lemma qr_kernel p m z (Hu : 'M[R]_(p, m)) Y (Z : 'M[R]_(m, z)) : row_free Hu -> qr_null Hu Y Z ->
  (forall v : 'cV[R]_m, Hu *m v = 0 <-> exists w : 'cV[R]_z, v = Z *m w) /\
  (forall w : 'cV[R]_z, Z *m w = 0 -> w = 0).
Proof.
move=> fH [[W E] [YY [YZ [ZZ YZ1]]]].
have EH : Hu = W^T *m Y^T by rewrite -trmx_mul -E trmxK.
have uW : W^T \in unitmx by rewrite unitmx_tr; apply: qr_W_unit E.
split=> [v|w Ew]; last by rewrite -[w]mul1mx -ZZ -mulmxA Ew mulmx0.
split=> [Hv|[w ->]]; last by rewrite EH -mulmxA (mulmxA Y^T) YZ mul0mx mulmx0.
have Yv : Y^T *m v = 0 by move: Hv; rewrite EH -mulmxA => /(congr1 (mulmx (invmx W^T))); rewrite mulKmx // mulmx0.
by exists (Z^T *m v); rewrite mulmxA -[LHS]mul1mx -YZ1 mulmxDl -mulmxA Yv mulmx0 add0r.
Qed.

Definition usable p m (e : eqsolver R p m) (Hu : 'M[R]_(p, m)) : Prop :=
  match e with Null z Y Z => row_free Hu /\ (lu_null Hu Y Z \/ qr_null Hu Y Z) | Schur => True end.

Lemma null_unit p m z (Hu : 'M[R]_(p, m)) Y (Z : 'M[R]_(m, z)) :
  row_free Hu -> lu_null Hu Y Z \/ qr_null Hu Y Z -> Hu *m Y \in unitmx.
Proof. by move=> fH [|]; [apply: lu_unit|apply: qr_unit]. Qed.
Lemma null_kernel p m z (Hu : 'M[R]_(p, m)) Y (Z : 'M[R]_(m, z)) :
  row_free Hu -> lu_null Hu Y Z \/ qr_null Hu Y Z ->
  (forall v : 'cV[R]_m, Hu *m v = 0 <-> exists w : 'cV[R]_z, v = Z *m w) /\
  (forall w : 'cV[R]_z, Z *m w = 0 -> w = 0).
Proof. by move=> fH [[_ H]|H] //; apply: qr_kernel fH H. Qed.

Lemma llt_solveE m q (A : 'M[R]_m) (B : 'M[R]_(m, q)) : symm A -> llt_solve A B = invmx A *m B.
Proof. by move=> sA; rewrite /llt_solve lower_symE. Qed.

Section Step.
Variables (p m : nat).
Variables (Hu : 'M[R]_(p, m)) (Hx : 'M[R]_(p, n)) (h : 'cV[R]_p).
Variables (quu : 'M[R]_m) (qu : 'cV[R]_m) (qxu : 'M[R]_(n, m)).
Hypothesis squu : symm quu.

(** The gradient of the action-value function along the policy lies in the row space of
    [Hu], and the action-value Hessian is positive definite on the kernel. *)
Definition stationary (k : 'cV[R]_m) (K : 'M[R]_(m, n)) : Prop :=
  (forall v : 'cV[R]_m, Hu *m v = 0 -> dot v (qu - quu *m k) = 0) /\
  (forall v : 'cV[R]_m, Hu *m v = 0 -> v^T *m (qxu^T - quu *m K) = 0).
Definition kernel_posdef : Prop := forall v : 'cV[R]_m, Hu *m v = 0 -> v != 0 -> 0 < dot v (quu *m v).

Lemma null_facts z (Y : 'M[R]_(m, p)) (Z : 'M[R]_(m, z)) k K :
  row_free Hu -> lu_null Hu Y Z \/ qr_null Hu Y Z ->
  null_gains Hu Hx h Y Z quu qu qxu = Some (k, K) ->
  [/\ Hu *m k = h, Hu *m K = Hx, stationary k K & kernel_posdef].
Proof.
move=> fH yz; rewrite /null_gains; set kz := null_part Hu Y h; set Kz := null_part Hu Y Hx.
set quz := quu *m Z; set qzz := Z^T *m quz.
have sq : symm qzz by rewrite /qzz /quz mulmxA; apply: symm_conj.
case: ifP => // /(llt_okP sq) pq [<- <-].
have uq := posdef_unit pq; have [ker inj] := null_kernel fH yz; have uY := null_unit fH yz.
have HZ : Hu *m Z = 0.
  apply/matrixP => i j.
  have /matrixP/(_ i 0) : Hu *m (Z *m (delta_mx j 0 : 'cV[R]_z)) = 0 by apply/ker; exists (delta_mx j 0).
  by rewrite mulmxA -colE mxE => ->; rewrite !mxE.
have part q (b : 'M[R]_(p, q)) : Hu *m null_part Hu Y b = b by rewrite /null_part mulmxA mulKVmx.
have qzuE : quz^T = Z^T *m quu by rewrite /quz trmx_mul squu.
have stat q (b : 'M[R]_(m, q)) (x : 'M[R]_(m, q)) :
    Z^T *m (b - quu *m (x + Z *m (llt_solve qzz (Z^T *m b) - llt_solve qzz quz^T *m x))) = 0.
  rewrite mulmxBr (mulmxA Z^T) mulmxDr (mulmxA (Z^T *m quu)) -[Z^T *m quu *m Z]mulmxA -/quz -/qzz.
  by rewrite mulmxBr !llt_solveE // mulKVmx // mulmxA mulKVmx // qzuE addrC [_ *m x + _]addrC -addrA addNr addr0 addNr.
split.
- by rewrite mulmxDr part mulmxA HZ mul0mx addr0.
- by rewrite mulmxDr part mulmxA HZ mul0mx addr0.
- split=> v /ker [w ->].
    by rewrite /dot trmx_mul -mulmxA stat mulmx0 mxE.
  by rewrite trmx_mul -mulmxA trmx_mul stat mulmx0.
- move=> v /ker [w ->] nv; have -> : dot (Z *m w) (quu *m (Z *m w)) = dot w (qzz *m w).
    by rewrite /dot trmx_mul /qzz /quz !mulmxA.
  by apply: pq; apply: contraNneq nv => ->; rewrite mulmx0.
Qed.

Lemma schur_facts k K : schur_gains Hu Hx h quu qu qxu = Some (k, K) ->
  [/\ Hu *m k = h, Hu *m K = Hx, stationary k K & kernel_posdef].
Proof.
rewrite /schur_gains /free_gains; case: ifP => // /(llt_okP squu) pq.
have uq := posdef_unit pq.
set w := llt_solve quu Hu^T; set qzz := Hu *m w.
have wE : w = invmx quu *m Hu^T by rewrite /w llt_solveE.
have si : symm (invmx quu) by rewrite /symm trmx_inv squu.
have sq : symm qzz by rewrite /qzz wE mulmxA; apply: gram_symm.
case: ifP => // /(llt_okP sq) pz [<- <-]; have uz := posdef_unit pz.
have wE' : (llt_solve qzz w^T)^T = w *m invmx qzz.
  by rewrite llt_solveE // trmx_mul trmxK trmx_inv sq.
have quw : quu *m w = Hu^T by rewrite wE mulKVmx.
have con q (b : 'M[R]_(p, q)) (x : 'M[R]_(m, q)) : Hu *m (x + (llt_solve qzz w^T)^T *m (b - Hu *m x)) = b.
  have E y : Hu *m (w *m invmx qzz *m y) = y :> 'M_(p, q) by rewrite -mulmxA mulmxA -/qzz mulKVmx.
  by rewrite wE' mulmxDr E addrC subrK.
have sta q (b : 'M[R]_(p, q)) (c : 'M[R]_(m, q)) (v : 'cV[R]_m) : Hu *m v = 0 ->
    v^T *m (c - quu *m (llt_solve quu c + (llt_solve qzz w^T)^T *m (b - Hu *m llt_solve quu c))) = 0.
  move=> Hv; set y := b - _; have E : quu *m llt_solve quu c = c by rewrite llt_solveE // mulKVmx.
  rewrite wE' [quu *m _]mulmxDr E opprD addrA subrr sub0r mulmxN.
  have -> : quu *m (w *m invmx qzz *m y) = Hu^T *m (invmx qzz *m y) by rewrite -(mulmxA w) (mulmxA quu) quw.
  by rewrite mulmxA -trmx_mul Hv trmx0 mul0mx oppr0.
split; rewrite ?con //.
- by split=> v Hv; rewrite ?/dot sta // mxE.
- by move=> v _; apply: pq.
Qed.
End Step.

(** Quadratic model of the action value. *)
Definition qfun m (qx : 'cV[R]_n) (qxx : 'M[R]_n) (qu : 'cV[R]_m) (quu : 'M[R]_m) (qxu : 'M[R]_(n, m))
    (dx : 'cV[R]_n) (du : 'cV[R]_m) : R :=
  dot qx dx + 2%:R^-1 * dot dx (qxx *m dx) + dot qu du + dot dx (qxu *m du) + 2%:R^-1 * dot du (quu *m du).

Lemma qfun_diff m qx qxx (qu : 'cV[R]_m) quu qxu dx du v : symm quu ->
  qfun qx qxx qu quu qxu dx (du + v) =
  qfun qx qxx qu quu qxu dx du + dot v (qu + quu *m du + qxu^T *m dx) + 2%:R^-1 * dot v (quu *m v).
Proof.
move=> s; rewrite /qfun !mulmxDr !dotDl !dotDr (dot_symm v du s) (dotC v qu).
have -> : dot v (qxu^T *m dx) = dot dx (qxu *m v) by rewrite dotC -dot_adjr.
by fld R.
Qed.

Lemma policy_optimal p m (Hu : 'M[R]_(p, m)) Hx h quu (qu : 'cV[R]_m) qxu k K qx qxx dx du :
  symm quu -> Hu *m k = h -> Hu *m K = Hx -> stationary Hu quu qu qxu k K -> kernel_posdef Hu quu ->
  h + Hx *m dx + Hu *m du = 0 ->
  qfun qx qxx qu quu qxu dx (- k - K *m dx) <= qfun qx qxx qu quu qxu dx du /\
  (qfun qx qxx qu quu qxu dx (- k - K *m dx) = qfun qx qxx qu quu qxu dx du -> du = - k - K *m dx).
Proof.
move=> s Ek EK [S1 S2] pd F; set d0 := - k - K *m dx.
have EH : Hu *m (du - d0) = 0.
  by rewrite mulmxBr /d0 mulmxBr mulmxN mulmxA Ek EK -opprD opprK addrC.
have g : dot (du - d0) (qu + quu *m d0 + qxu^T *m dx) = 0.
  have -> : qu + quu *m d0 + qxu^T *m dx = (qu - quu *m k) + (qxu^T - quu *m K) *m dx.
    rewrite /d0 mulmxBr mulmxN mulmxBl mulmxA addrA -!addrA; congr (_ + (_ + _)).
    by rewrite addrC.
  by rewrite dotDr S1 // add0r /dot mulmxA S2 // mul0mx mxE.
have E : qfun qx qxx qu quu qxu dx du = qfun qx qxx qu quu qxu dx d0 + 2%:R^-1 * dot (du - d0) (quu *m (du - d0)).
  by rewrite -[in LHS](subrK d0 du) [du - d0 + d0]addrC qfun_diff // g addr0.
have half : 0 < 2%:R^-1 :> R by rewrite invr_gt0 ltr0n.
have [Ev|nv] := eqVneq (du - d0) 0.
  by move/eqP: Ev; rewrite subr_eq0 => /eqP ->.
have pos : 0 < 2%:R^-1 * dot (du - d0) (quu *m (du - d0)) by rewrite mulr_gt0 // pd.
split; first by rewrite E ler_addl ltW.
by rewrite E => /eqP; rewrite eq_sym -subr_eq0 addrAC subrr add0r gt_eqF.
Qed.
End Intro.
