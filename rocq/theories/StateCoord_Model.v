(** The derivatives of a problem whose state increments are written in other coordinates.

    Problems as in Riccati_Model (src/core/solvers/ddp.cpp:149-170, 212-251, 303-396 and
    fddp.cpp:123-266).  Writing the tangent of the state in another basis, dx = T dy (other
    units for positions and velocities, another ordering, another body frame), transforms
    the stored derivatives by the chain rule and the gaps by the inverse.  One basis is
    used for all nodes. *)
From mathcomp Require Import all_ssreflect all_algebra.
From Verif Require Import LinAlg Riccati_Model.
Set Implicit Arguments.
Unset Strict Implicit.
Unset Printing Implicit Defensive.
Import GRing.Theory Num.Theory.
Local Open Scope ring_scope.

Section Coord.
Variables (R : realFieldType) (n : nat) (T : 'M[R]_n).

(** Derivatives of the next state (actions/lqr.hxx:158-212 for the names): columns of the
    state by [T], rows by its inverse. *)
Definition coord_stage (s : stage R n) : stage R n :=
  @Stage R n (nu s) (invmx T *m Fx s *m T) (invmx T *m Fu s)
    (T^T *m Lx s) (Lu s) (T^T *m Lxx s *m T) (T^T *m Lxu s) (Luu s).
Definition coord_term (W : terminal R n) : terminal R n :=
  Terminal (T^T *m TLx W) (T^T *m TLxx W *m T).
(** Gaps and other increments of the state. *)
Definition coord_vec (f : 'cV[R]_n) : 'cV[R]_n := invmx T *m f.
End Coord.
