(** Lemmas for C45. *)
From Coquelicot Require Import Coquelicot.
From Coq Require Import Reals List Arith Bool Lia Lra ClassicalDedekindReals.
From Verif Require Import Deriv VecMat State_Model Integrator_Spec LQR_Model.
Import ListNotations.
Open Scope R_scope.

Lemma check_psd_spec n L : check_psd n L = true <-> psd_lower n L.
Proof.
  unfold check_psd. destruct (sig_not_dec (psd_lower n L)) as [H|H]; split; intro E; auto; try discriminate.
  - intro v. destruct (Rle_dec (- (1 / 1000000000) * dot n v v) (dot n v (mulv n (lower L) v))); auto.
    exfalso. apply H. intro P. now apply n0.
Qed.

Section Deriv.
Variables (n m : nat) (cx cu : R -> vec) (s : R) (vx vu : vec).
Hypothesis Hx : forall j, (j < n)%nat -> is_derive (fun t => cx t j) s (vx j).
Hypothesis Hu : forall j, (j < m)%nat -> is_derive (fun t => cu t j) s (vu j).

Lemma d_mulv_x A i : is_derive (fun t => mulv n A (cx t) i) s (rsum n (fun j => A i j * vx j)).
Proof. apply (drsum n (fun j t => A i j * cx t j) s (fun j => A i j * vx j)). intros j Hj. now apply dscal, Hx. Qed.
Lemma d_dot_x q : is_derive (fun t => dot n q (cx t)) s (rsum n (fun j => q j * vx j)).
Proof. apply (drsum n (fun j t => q j * cx t j) s (fun j => q j * vx j)). intros j Hj. now apply dscal, Hx. Qed.
End Deriv.

Lemma d_bilinear n m cx cu s (vx vu : vec) N :
  (forall j, (j < n)%nat -> is_derive (fun t => cx t j) s (vx j)) ->
  (forall j, (j < m)%nat -> is_derive (fun t => cu t j) s (vu j)) ->
  is_derive (fun t => dot n (cx t) (mulv m N (cu t))) s
    (rsum n (fun i => mulv m N (cu s) i * vx i) + rsum m (fun j => mulv n (tr N) (cx s) j * vu j)).
Proof.
  intros Hx Hu.
  eapply deq.
  - apply (drsum n (fun i t => cx t i * mulv m N (cu t) i) s (fun i => vx i * mulv m N (cu s) i + cx s i * rsum m (fun j => N i j * vu j))).
    intros i Hi. eapply deq; [apply dmult; [now apply Hx|apply (d_mulv_x m cu s vu Hu)]|]. reflexivity.
  - rewrite rsum_plus. f_equal.
    + apply rsum_ext. intros; ring.
    + unfold mulv, tr.
      rewrite (rsum_ext n _ (fun i => rsum m (fun j => cx s i * (N i j * vu j)))) by (intros; now rewrite rsum_scal).
      rewrite rsum_swap. apply rsum_ext. intros j _. rewrite (Rmult_comm _ (vu j)), <- rsum_scal.
      apply rsum_ext. intros; ring.
Qed.

Lemma nth_error_upd_same {A} i (a : A) l : (i < length l)%nat -> nth_error (upd_nth i a l) i = Some a.
Proof. revert i; induction l; destruct i; cbn; intros; try lia; auto. apply IHl; lia. Qed.
Lemma nth_error_upd_other {A} i j (a : A) l : i <> j -> nth_error (upd_nth i a l) j = nth_error l j.
Proof. revert i j; induction l; destruct i, j; cbn; intros; auto; congruence. Qed.
Lemma upd_length {A} i (a : A) l : length (upd_nth i a l) = length l.
Proof. revert i; induction l; destruct i; cbn; auto. Qed.
Lemma nth_error_lt {A} i (a : A) l : nth_error l i = Some a -> (i < length l)%nat.
Proof. intro H. apply nth_error_Some. congruence. Qed.

Lemma dims_spec r c M : dims r c M = true <-> rows M = r /\ cols M = c.
Proof. unfold dims. rewrite andb_true_iff, !Nat.eqb_eq. tauto. Qed.

Lemma run_app k nx nu ng nh a b w w1 : lrun k nx nu ng nh a w = Some w1 ->
  lrun k nx nu ng nh (a ++ b) w = lrun k nx nu ng nh b w1.
Proof.
  revert w. induction a as [|o a IH]; cbn [lrun app]; intros w H; [now injection H as <-|].
  destruct (lstep k nx nu ng nh o w); [auto|discriminate].
Qed.
