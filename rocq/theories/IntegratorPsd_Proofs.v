(** Lemmas for C63: the Hessian blocks of the integrated cost as congruences. *)
From Coquelicot Require Import Coquelicot.
From Coq Require Import Reals List Arith Bool Lia Lra.
From Verif Require Import Deriv VecMat ControlParam_Model ControlParam_Spec ControlParam_Proofs Integrator_Model Integrator_Spec Integrator_Proofs IntegratorRK_Proofs.
Import ListNotations.
Open Scope R_scope.

Definition bil (n m : nat) (A : mat) (a b : vec) : R := dot n a (mulv m A b).
Lemma bil_ext n m A B a b : (forall i j, (i < n)%nat -> (j < m)%nat -> A i j = B i j) -> bil n m A a b = bil n m B a b.
Proof.
  intro H. unfold bil, dot, mulv. apply rsum_ext. intros i Hi. f_equal. apply rsum_ext. intros j Hj. now rewrite H.
Qed.
Lemma bil_extv n m A a a' b b' : (forall i, (i < n)%nat -> a i = a' i) -> (forall i, (i < m)%nat -> b i = b' i) ->
  bil n m A a b = bil n m A a' b'.
Proof.
  intros H1 H2. unfold bil, dot, mulv. apply rsum_ext. intros i Hi. rewrite H1 by auto. f_equal. apply rsum_ext. intros j Hj. now rewrite H2.
Qed.
Lemma bil_tr n m A a b : bil n m (tr A) a b = bil m n A b a.
Proof.
  unfold bil, dot, mulv, tr.
  rewrite (rsum_ext n _ (fun i => rsum m (fun j => a i * (A j i * b j)))) by (intros; now rewrite rsum_scal).
  rewrite rsum_swap. apply rsum_ext. intros j _. rewrite <- rsum_scal. apply rsum_ext. intros; ring.
Qed.
Lemma bil_mulr n m k A P a b : bil n m (mulm k A P) a b = bil n k A a (mulv m P b).
Proof. unfold bil, dot. apply rsum_ext. intros i _. f_equal. apply mulv_mulm. Qed.
Lemma bil_mull n m k P A a b : bil n m (mulm k (tr P) A) a b = bil k m A (mulv n P a) b.
Proof.
  rewrite <- (bil_tr m k A), <- (bil_mulr m n k (tr A) P), <- (bil_tr n m (mulm k (tr A) P)).
  apply bil_ext. intros i j _ _. unfold tr, mulm. apply rsum_ext. intros; ring.
Qed.
Lemma bil_add n m A B a b : bil n m (fun i j => A i j + B i j) a b = bil n m A a b + bil n m B a b.
Proof.
  unfold bil, dot, mulv. rewrite <- rsum_plus. apply rsum_ext. intros i _.
  rewrite <- Rmult_plus_distr_l, <- rsum_plus. f_equal. apply rsum_ext. intros; ring.
Qed.
Lemma bil_scal n m c A a b : bil n m (fun i j => c * A i j) a b = c * bil n m A a b.
Proof.
  unfold bil, dot, mulv. rewrite <- rsum_scal. apply rsum_ext. intros i _.
  rewrite (rsum_ext m _ (fun j => c * (A i j * b j))) by (intros; ring). rewrite rsum_scal. ring.
Qed.
Lemma bil_addl n m A a a' b : bil n m A (fun i => a i + a' i) b = bil n m A a b + bil n m A a' b.
Proof. unfold bil, dot. rewrite <- rsum_plus. apply rsum_ext. intros; ring. Qed.
Lemma bil_addr n m A a b b' : bil n m A a (fun i => b i + b' i) = bil n m A a b + bil n m A a b'.
Proof.
  unfold bil, dot, mulv. rewrite <- rsum_plus. apply rsum_ext. intros i _.
  rewrite <- Rmult_plus_distr_l, <- rsum_plus. f_equal. apply rsum_ext. intros; ring.
Qed.
Lemma bil_sym n A a b : sym n A -> bil n n A a b = bil n n A b a.
Proof. intro H. rewrite <- bil_tr. apply bil_ext. intros i j Hi Hj. unfold tr. now apply H. Qed.

Lemma bil_flip n m A B b : bil n m A (mulv m B b) b = bil n m B (mulv m A b) b.
Proof. unfold bil, dot. apply rsum_ext. intros; ring. Qed.
Lemma quad_bil n m Qxx Qxu Quu a b :
  quad n m Qxx Qxu Quu a b = bil n n Qxx a a + 2 * bil n m Qxu a b + bil m m Quu b b.
Proof. reflexivity. Qed.

Section Psd.
Variables (nv nw : nat) (p : param) (dm : diffmodel) (ts : tstep) (rk : rktype).
Let nu := np p nw.

(** mulJ and mulJT in setto mode are matrix products on the existing entries. *)
Lemma bil_mulJ cp n A out a b : bil n nu (mulJ p nw cp A out setto) a b = bil n nw A a (mulv nu (jac_entry p nw (cc cp)) b).
Proof.
  rewrite <- bil_mulr. apply bil_ext. intros i j _ Hj. rewrite mulJ_entry by auto. reflexivity.
Qed.
Lemma bil_mulJT cp m A out a b : bil nu m (mulJT p nw cp A out setto) a b = bil nw m A (mulv nu (jac_entry p nw (cc cp)) a) b.
Proof.
  rewrite <- bil_mull. apply bil_ext. intros i j Hi _. rewrite mulJT_entry, mulJ_entry by auto. unfold mulm, tr. cbn [assign].
  apply rsum_ext. intros; ring.
Qed.

Lemma euler_quad x u d a b :
  let o := e_act (euler_calcDiff nv nw p dm ts x u d) in
  let cp := cp_calc p nw 0 u (e_cp d) in
  quad (2 * nv) nu (Lxx o) (Lxu o) (Luu o) a b =
  dt ts * quad (2 * nv) nw (dLxx dm x (cp_w cp)) (dLxu dm x (cp_w cp)) (dLuu dm x (cp_w cp)) a (mulv nu (jac_entry p nw (cc cp)) b).
Proof.
  intros o cp. rewrite !quad_bil. unfold o, euler_calcDiff. cbn [e_act Lxx Lxu Luu]. fold cp.
  rewrite bil_scal.
  rewrite (bil_ext _ nu (fun i j => mulJ p nw cp (dLxu dm x (cp_w cp)) (Lxu (e_act d)) setto i j * dt ts)
            (fun i j => dt ts * mulJ p nw cp (dLxu dm x (cp_w cp)) (Lxu (e_act d)) setto i j)) by (intros; ring).
  rewrite bil_scal, bil_mulJ.
  match goal with |- context [bil nu nu ?M b b] =>
    rewrite (bil_ext nu nu M (fun i j => dt ts * mulJT p nw cp (mulJ p nw cp (dLuu dm x (cp_w cp)) (e_Lwu d) setto) (Luu (e_act d)) setto i j))
      by (intros; ring) end.
  rewrite bil_scal, bil_mulJT, bil_mulJ. ring.
Qed.

Section Stage.
Variables (y w : nat -> vec) (cp : nat -> cpdata).
Let DX i := dy_dx nv dm ts rk y w i.
Let DU i := dy_du nv nw p dm ts rk y w cp i.

Lemma stage_quad i a b : sym (2 * nv) (dLxx dm (y i) (w i)) ->
  quad (2 * nv) nu (ddl_ddx nv dm ts rk y w i) (ddl_dxdu nv nw p dm ts rk y w cp i) (ddl_ddu nv nw p dm ts rk y w cp i) a b =
  quad (2 * nv) nw (dLxx dm (y i) (w i)) (dLxu dm (y i) (w i)) (dLuu dm (y i) (w i))
    (fun j => mulv (2 * nv) (DX i) a j + mulv nu (DU i) b j) (mulv nu (jac_entry p nw (cc (cp i))) b).
Proof.
  intro Hs. rewrite !quad_bil. rewrite !bil_addl, !bil_addr.
  destruct i as [|i].
  - assert (E0 : forall j, (j < 2 * nv)%nat -> mulv (2 * nv) (DX 0%nat) a j = a j).
    { intros j Hj. unfold mulv, DX. cbn [dy_dx]. now apply rsum_id_l. }
    assert (E1 : forall j, (j < 2 * nv)%nat -> mulv nu (DU 0%nat) b j = (fun _ => 0) j).
    { intros j Hj. unfold mulv, DU. cbn [dy_du]. apply rsum_0. intros; ring. }
    assert (Z1 : forall m A v, bil (2 * nv) m A (mulv nu (DU 0%nat) b) v = 0).
    { intros m A v. unfold bil, dot. apply rsum_0. intros k Hk. rewrite E1 by auto. ring. }
    assert (Z2 : forall n A v, bil n (2 * nv) A v (mulv nu (DU 0%nat) b) = 0).
    { intros n A v. unfold bil, dot, mulv at 1. apply rsum_0. intros k Hk. rewrite rsum_0; [ring|]. intros l Hl. rewrite E1 by auto. ring. }
    rewrite !Z1, !Z2. cbn [ddl_ddx ddl_dxdu ddl_ddu].
    rewrite bil_mulJ, bil_mulJT, bil_mulJ.
    rewrite (bil_extv (2 * nv) (2 * nv) _ (mulv (2 * nv) (DX 0%nat) a) a (mulv (2 * nv) (DX 0%nat) a) a) by auto.
    rewrite (bil_extv (2 * nv) nw _ (mulv (2 * nv) (DX 0%nat) a) a _ _ E0 (fun _ _ => eq_refl)). ring.
  - cbn [ddl_ddx ddl_dxdu ddl_ddu]. fold (DX (S i)). fold (DU (S i)).
    rewrite !bil_add, bil_tr, !bil_mull, !bil_mulr, bil_mulJ, bil_mull, bil_mulJT, bil_mulJ.
    rewrite (bil_flip (2 * nv) nu (DU (S i))), bil_mulJ.
    rewrite (bil_sym (2 * nv) _ (mulv nu (DU (S i)) b) (mulv (2 * nv) (DX (S i)) a) Hs). ring.
Qed.
End Stage.

Lemma dcombo_nonneg f : 0 <= dt ts -> (forall i, (i < rk_n rk)%nat -> 0 <= f i) -> 0 <= dcombo ts rk f.
Proof.
  intros Hd H. unfold rk_n in H. unfold dcombo. destruct rk.
  - apply Rmult_le_pos; auto.
  - assert (0 <= f 0%nat) by auto with arith. assert (0 <= f 2%nat) by auto with arith.
    apply Rmult_le_pos; lra.
  - assert (0 <= f 0%nat) by (apply H; lia). assert (0 <= f 1%nat) by (apply H; lia).
    assert (0 <= f 2%nat) by (apply H; lia). assert (0 <= f 3%nat) by (apply H; lia).
    apply Rmult_le_pos; lra.
Qed.
Lemma bil_dcombo n m (A : nat -> mat) a b :
  bil n m (fun i j => dcombo ts rk (fun k => A k i j)) a b = dcombo ts rk (fun k => bil n m (A k) a b).
Proof.
  unfold bil, dot, mulv. rewrite dcombo_rsum. apply rsum_ext. intros i _.
  rewrite dcombo_scal. f_equal. rewrite dcombo_rsum. apply rsum_ext. intros j _.
  rewrite (dcombo_ext nw p ts rk (fun k => A k i j * b j) (fun k => b j * A k i j)) by (intros; ring). rewrite dcombo_scal. ring.
Qed.
Lemma rk_quad d a b :
  let o := r_act (rk_calcDiff nv nw p dm ts rk d) in
  quad (2 * nv) nu (Lxx o) (Lxu o) (Luu o) a b =
  dcombo ts rk (fun i => quad (2 * nv) nu (ddl_ddx nv dm ts rk (r_y d) (r_w d) i) (ddl_dxdu nv nw p dm ts rk (r_y d) (r_w d) (r_cp d) i)
     (ddl_ddu nv nw p dm ts rk (r_y d) (r_w d) (r_cp d) i) a b).
Proof.
  intro o. rewrite quad_bil. unfold o, rk_calcDiff. cbn [r_act Lxx Lxu Luu].
  rewrite !bil_dcombo, <- dcombo_scal, <- !dcombo_plus. reflexivity.
Qed.
End Psd.

(** Symmetry of the Hessian blocks. *)
Definition basis (i : nat) : vec := fun j => if Nat.eqb j i then 1 else 0.
Lemma bil_basis n m A i j : (i < n)%nat -> (j < m)%nat -> bil n m A (basis i) (basis j) = A i j.
Proof.
  intros Hi Hj. unfold bil, dot, mulv, basis.
  rewrite (rsum_single n i); auto.
  - rewrite Nat.eqb_refl, (rsum_single m j); auto.
    + rewrite Nat.eqb_refl. ring.
    + intros k _ Hk. rewrite (proj2 (Nat.eqb_neq k j) Hk). ring.
  - intros k _ Hk. rewrite (proj2 (Nat.eqb_neq k i) Hk). ring.
Qed.
Lemma sym_bil n A : (forall a b, bil n n A a b = bil n n A b a) -> sym n A.
Proof. intros H i j Hi Hj. rewrite <- (bil_basis n n A i j), <- (bil_basis n n A j i) by auto. apply H. Qed.

Section Sym.
Variables (nv nw : nat) (p : param) (dm : diffmodel) (ts : tstep) (rk : rktype).
Let nu := np p nw.
Variables (y w : nat -> vec) (cp : nat -> cpdata).
Lemma ddx_sym i : sym (2 * nv) (dLxx dm (y i) (w i)) -> sym (2 * nv) (ddl_ddx nv dm ts rk y w i).
Proof.
  intro H. destruct i; [exact H|]. cbn [ddl_ddx]. apply sym_bil. intros a b.
  rewrite !bil_mull, !bil_mulr. now apply bil_sym.
Qed.
Lemma ddu_sym i : sym (2 * nv) (dLxx dm (y i) (w i)) -> sym nw (dLuu dm (y i) (w i)) ->
  sym nu (ddl_ddu nv nw p dm ts rk y w cp i).
Proof.
  intros H Hu. apply sym_bil. intros a b. unfold nu. destruct i; cbn [ddl_ddu].
  - rewrite !bil_mulJT, !bil_mulJ. now apply bil_sym.
  - rewrite !bil_add, !bil_tr, !bil_mulJT, !bil_mulJ.
    rewrite !(bil_mull _ _ _ (dy_du nv nw p dm ts rk y w cp (S i))), !(bil_mulr _ _ _ (dLxx dm (y (S i)) (w (S i)))).
    rewrite (bil_sym nw _ _ _ Hu), (bil_sym (2 * nv) _ (mulv (np p nw) (dy_du nv nw p dm ts rk y w cp (S i)) a) _ H). ring.
Qed.
End Sym.
