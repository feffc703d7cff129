(** The derivatives of a problem written in other units.

    Problems as in Riccati_Model (src/core/solvers/ddp.cpp:149-170, 212-251, 303-396 and
    fddp.cpp:123-266).  Multiplying the cost of every node by [c] multiplies the stored
    derivatives of the cost and leaves those of the dynamics (cost-sum.hxx:254-292 and
    actions/lqr.hxx:158-212 are linear in the cost); writing the controls of a node in
    another basis, u = S w, transforms the control columns by the chain rule. *)
From mathcomp Require Import all_ssreflect all_algebra.
From Verif Require Import LinAlg Riccati_Model.
Set Implicit Arguments.
Unset Strict Implicit.
Unset Printing Implicit Defensive.
Import GRing.Theory Num.Theory.
Local Open Scope ring_scope.

Section Units.
Variables (R : realFieldType) (n : nat).

(** Costs in another unit. *)
Definition scale_stage (c : R) (s : stage R n) : stage R n :=
  @Stage R n (nu s) (Fx s) (Fu s) (c *: Lx s) (c *: Lu s) (c *: Lxx s) (c *: Lxu s) (c *: Luu s).
Definition scale_term (c : R) (T : terminal R n) : terminal R n :=
  Terminal (c *: TLx T) (c *: TLxx T).

(** Controls in another basis. *)
Definition basis_stage (s : stage R n) (S : 'M[R]_(nu s)) : stage R n :=
  @Stage R n (nu s) (Fx s) (Fu s *m S) (Lx s) (S^T *m Lu s) (Lxx s) (Lxu s *m S) (S^T *m Luu s *m S).
End Units.
