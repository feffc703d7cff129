(** Dense linear algebra used by the solvers, in exact arithmetic over a real field. *)
From mathcomp Require Import all_ssreflect all_algebra.
Set Implicit Arguments.
Unset Strict Implicit.
Unset Printing Implicit Defensive.
Import GRing.Theory Num.Theory.
Local Open Scope ring_scope.

Section LinAlg.
Variable R : realFieldType.

(** Eigen's Cholesky factorisation (LLT::compute, called in ddp.cpp:381): it succeeds iff
    every pivot is positive; the Schur complement is factorised next.  Only the lower
    triangle is read. *)
Fixpoint llt_ok (n : nat) : 'M[R]_n -> bool :=
  match n with
  | 0 => fun _ => true
  | n'.+1 => fun A : 'M[R]_(1 + n') =>
      let a := A 0 0 in
      let b := dlsubmx A in
      (0 < a) && llt_ok (drsubmx A - a^-1 *: (b *m b^T))
  end.
(** The symmetric matrix whose lower triangle was factorised. *)
Definition lower_sym (n : nat) (A : 'M[R]_n) : 'M[R]_n :=
  \matrix_(i, j) if (j <= i)%N then A i j else A j i.
(** LLT::solveInPlace (ddp.cpp:392, 395): the two triangular solves multiply by the
    inverse of the factorised matrix. *)
Definition llt_solve (n p : nat) (A : 'M[R]_n) (B : 'M[R]_(n, p)) : 'M[R]_(n, p) :=
  invmx (lower_sym A) *m B.

(** [u.dot(v)] *)
Definition dot (p : nat) (u v : 'cV[R]_p) : R := (u^T *m v) 0 0.

(** Specification vocabulary. *)
Definition symm (n : nat) (A : 'M[R]_n) : Prop := A^T = A.
Definition psd (n : nat) (A : 'M[R]_n) : Prop := forall x : 'cV[R]_n, 0 <= dot x (A *m x).
Definition posdef (n : nat) (A : 'M[R]_n) : Prop := forall x : 'cV[R]_n, x != 0 -> 0 < dot x (A *m x).
End LinAlg.
