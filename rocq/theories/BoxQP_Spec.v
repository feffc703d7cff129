(** Specification for C24-C26 and C62. *)
From mathcomp Require Import all_ssreflect all_algebra.
From Verif Require Import LinAlg BoxQP_Model.
Set Implicit Arguments.
Unset Strict Implicit.
Unset Printing Implicit Defensive.
Import Order.TTheory GRing.Theory Num.Theory.
Local Open Scope ring_scope.

Section Spec.
Variables (R : realFieldType) (n : nat).
Definition above (lb : bounds R n) (x : 'cV[R]_n) : Prop := forall i l, lb i = Some l -> l <= x i 0.
Definition below (ub : bounds R n) (x : 'cV[R]_n) : Prop := forall i u, ub i = Some u -> x i 0 <= u.
Definition in_box (lb ub : bounds R n) (x : 'cV[R]_n) : Prop := above lb x /\ below ub x.
Definition nonempty (lb ub : bounds R n) : Prop :=
  forall i l u, lb i = Some l -> ub i = Some u -> l <= u.

(** First-order conditions of min 1/2 x'Hx + q'x over the box, with the gradient
    [g = Hx + q]: a component of the gradient may only be non-zero at a bound, pointing
    outwards. *)
Definition kkt (H : 'M[R]_n) (q : 'cV[R]_n) (lb ub : bounds R n) (x : 'cV[R]_n) : Prop :=
  in_box lb ub x /\
  forall i, let g := (H *m x + q) i 0 in
    (0 < g -> lb i = Some (x i 0)) /\ (g < 0 -> ub i = Some (x i 0)).

(** The objective. *)
Definition objective (H : 'M[R]_n) (q : 'cV[R]_n) (x : 'cV[R]_n) : R :=
  (\sum_i \sum_j x i 0 * H i j * x j 0) / 2%:R + \sum_i q i 0 * x i 0.
End Spec.
