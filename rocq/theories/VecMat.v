(** Vectors and matrices of reals indexed by naturals, with explicit dimensions in the
    products, and Eigen-style assignment modes. *)
From Coq Require Import Reals Lra Lia.
From Verif Require Import Deriv.
Open Scope R_scope.

Definition vec := nat -> R.
Definition mat := nat -> nat -> R.

(** Products; [n] is the common dimension. *)
Definition mulv (n : nat) (A : mat) (x : vec) : vec := fun i => rsum n (fun j => A i j * x j).
Definition mulm (n : nat) (A B : mat) : mat := fun i k => rsum n (fun j => A i j * B j k).
Definition tr (A : mat) : mat := fun i j => A j i.
Definition dot (n : nat) (x y : vec) : R := rsum n (fun i => x i * y i).
Definition idm : mat := fun i j => if Nat.eqb i j then 1 else 0.

(** AssignmentOp (include/crocoddyl/core/fwd.hpp:22) *)
Inductive assign_op := setto | addto | rmfrom.
Definition assign (op : assign_op) (old new : R) : R :=
  match op with setto => new | addto => old + new | rmfrom => old - new end.

Lemma idm_same i : idm i i = 1.
Proof. unfold idm. now rewrite PeanoNat.Nat.eqb_refl. Qed.
Lemma idm_other i j : i <> j -> idm i j = 0.
Proof. unfold idm. intro H. apply PeanoNat.Nat.eqb_neq in H. now rewrite H. Qed.
Lemma rsum_id_l n i f : (i < n)%nat -> rsum n (fun j => idm i j * f j) = f i.
Proof.
  intro H. rewrite (rsum_single n i); auto.
  - rewrite idm_same. ring.
  - intros j _ Hj. rewrite idm_other; auto. ring.
Qed.
Lemma rsum_id_r n i f : (i < n)%nat -> rsum n (fun j => f j * idm j i) = f i.
Proof.
  intro H. rewrite (rsum_single n i); auto.
  - rewrite idm_same. ring.
  - intros j _ Hj. rewrite idm_other; auto. ring.
Qed.
(** Associativity of the product applied to a vector. *)
Lemma mulv_mulm n m A B x i : mulv m (mulm n A B) x i = mulv n A (mulv m B x) i.
Proof.
  unfold mulv, mulm.
  rewrite (rsum_ext m _ (fun j => rsum n (fun k => A i k * B k j * x j))).
  2:{ intros j _. rewrite Rmult_comm, <- rsum_scal. apply rsum_ext. intros; ring. }
  rewrite rsum_swap. apply rsum_ext. intros j _. rewrite <- rsum_scal. apply rsum_ext. intros; ring.
Qed.
(** Sums over a range split in two. *)
Lemma rsum_app n m f : rsum (n + m) f = rsum n f + rsum m (fun i => f (n + i)%nat).
Proof.
  induction m; cbn [rsum].
  - rewrite PeanoNat.Nat.add_0_r. ring.
  - replace (n + S m)%nat with (S (n + m)) by lia. cbn [rsum]. rewrite IHm. ring.
Qed.
