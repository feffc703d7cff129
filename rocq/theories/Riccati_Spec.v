(** Specification for C20-C23, independent of the backward recursion. *)
From mathcomp Require Import all_ssreflect all_algebra.
From Verif Require Import LinAlg Riccati_Model.
Set Implicit Arguments.
Unset Strict Implicit.
Unset Printing Implicit Defensive.
Import Order.TTheory GRing.Theory Num.Theory.
Local Open Scope ring_scope.

Section Spec.
Variables (R : realFieldType) (n : nat).

(** Symmetric / convex second-order data of a node. *)
Definition stage_symm (s : stage R n) : Prop := symm (Lxx s) /\ symm (Luu s).
Definition stage_psd (s : stage R n) : Prop := forall (x : 'cV[R]_n) (u : 'cV[R]_(nu s)),
  0 <= dot x (Lxx s *m x) + 2%:R * dot x (Lxu s *m u) + dot u (Luu s *m u).

Section Generic.
Variables (N : Type) (der : N -> stage R n) (gap : N -> 'cV[R]_n).

Fixpoint all_nodes (P : N -> Prop) (ns : seq N) : Prop :=
  match ns with [::] => True | d :: ns' => P d /\ all_nodes P ns' end.
Fixpoint all_stored (P : forall m, bnode R n m -> Prop) (ns : seq N) : bnodes der ns -> Prop :=
  match ns with [::] => fun _ => True | d :: ns' => fun bs => P _ bs.1 /\ all_stored P bs.2 end.

(** A perturbation of the controls, one per node. *)
Fixpoint perturbation (ns : seq N) : Type :=
  match ns with [::] => unit | d :: ns' => ('cV[R]_(nu (der d)) * perturbation ns')%type end.
(** First-order variation of the total cost when the controls are perturbed and the
    linearised dynamics are followed from the state deviation [x]. *)
Fixpoint variation (T : terminal R n) (x : 'cV[R]_n) (ns : seq N) : perturbation ns -> R :=
  match ns with
  | [::] => fun _ => dot (TLx T) x
  | d :: ns' => fun us =>
      dot (Lx (der d)) x + dot (Lu (der d)) us.1
      + variation T (Fx (der d) *m x + Fu (der d) *m us.1) us.2
  end.
End Generic.

(** Linear-quadratic problems. *)
Definition lq_symm (T : lqterm R n) (ns : seq (cnode R n)) : Prop :=
  symm (tQ T) /\ all_nodes (fun d => symm (lQ (cl d)) /\ symm (lR (cl d))) ns.

(** The stored gaps are those of the candidate: x0 - xs[0], next(xs[t], us[t]) - xs[t+1]. *)
Fixpoint gaps_of (x0 : 'cV[R]_n) (ns : seq (cnode R n)) (xT fT : 'cV[R]_n) : Prop :=
  match ns with
  | [::] => fT = x0 - xT
  | d :: ns' => cf d = x0 - cx d /\ gaps_of (lq_next (cx d) (cu d)) ns' xT fT
  end.
Definition no_gaps (ns : seq (cnode R n)) (fT : 'cV[R]_n) : Prop :=
  all_nodes (fun d => cf d = 0) ns /\ fT = 0.

(** Total cost of a candidate (each node at its own state). *)
Fixpoint cand_cost (T : lqterm R n) (ns : seq (cnode R n)) (xT : 'cV[R]_n) : R :=
  match ns with
  | [::] => lq_tcost T xT
  | d :: ns' => lq_cost (cx d) (cu d) + cand_cost T ns' xT
  end.

(** Rollout of controls from [x]: states and total cost. *)
Fixpoint roll_states (x : 'cV[R]_n) (ns : seq (cnode R n)) : ctrls ns -> seq 'cV[R]_n * 'cV[R]_n :=
  match ns with
  | [::] => fun _ => ([::], x)
  | d :: ns' => fun us => let r := roll_states (lq_next x us.1) us.2 in (x :: r.1, r.2)
  end.
Fixpoint roll_cost (T : lqterm R n) (x : 'cV[R]_n) (ns : seq (cnode R n)) : ctrls ns -> R :=
  match ns with
  | [::] => fun _ => lq_tcost T x
  | d :: ns' => fun us => lq_cost x us.1 + roll_cost T (lq_next x us.1) us.2
  end.

(** The same problem with a new candidate: the rollout of [us] from [x], no gaps. *)
Fixpoint recandidate (x : 'cV[R]_n) (ns : seq (cnode R n)) : ctrls ns -> seq (cnode R n) :=
  match ns with
  | [::] => fun _ => [::]
  | d :: ns' => fun us =>
      @CNode R n (cl d) x us.1 0 :: recandidate (lq_next x us.1) us.2
  end.
End Spec.
