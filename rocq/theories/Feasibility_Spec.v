(** Specification for C08-C10: what the norms mean. *)
From mathcomp Require Import all_ssreflect all_algebra.
Set Implicit Arguments.
Unset Strict Implicit.
Unset Printing Implicit Defensive.
Import GRing.Theory Num.Theory.
From Verif Require Import Feasibility_Model.
Local Open Scope ring_scope.

Section Spec.
Variable R : realDomainType.

(** [m] is the largest absolute value among the entries (0 if there is none). *)
Definition max_abs (entries : seq R) (m : R) : Prop :=
  (forall e, e \in entries -> `|e| <= m) /\
  (if entries is [::] then m = 0 else exists2 e, e \in entries & m = `|e|).
Definition sum_abs (entries : seq R) (m : R) : Prop := m = \sum_(e <- entries) `|e|.
Definition norm_of (n : feasnorm) (entries : seq R) (m : R) : Prop :=
  match n with LInf => max_abs entries m | L1 => sum_abs entries m end.

(** The trajectory [x0], [xs] follows the next states. *)
Definition consistent_traj (X : Type) (x0 : X) (xs xnexts : seq X) : Prop := xs = x0 :: xnexts.

(** Violation of [lb <= g <= ub]: 0 inside, the distance to the bound outside. *)
Definition violation (p : R * (option R * option R)) (v : R) : Prop :=
  let '(g, (lb, ub)) := p in
  (if lb is Some b then b <= g else true) && (if ub is Some b then g <= b else true) = true
    /\ v = 0
  \/ (exists2 b, lb = Some b & g < b /\ v = b - g)
  \/ (exists2 b, ub = Some b & b < g /\ v = g - b).
Definition in_bounds (p : R * (option R * option R)) : bool :=
  (if p.2.1 is Some b then b <= p.1 else true) && (if p.2.2 is Some b then p.1 <= b else true).
(** Bounds are ordered. *)
Definition ordered (p : R * (option R * option R)) : bool :=
  if p.2 is (Some l, Some u) then l <= u else true.
End Spec.
