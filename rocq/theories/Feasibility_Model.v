(** Feasibility measures of the solver base class.
    Models src/core/solver-base.cpp:91-210 over an arbitrary real domain (exact
    arithmetic).  Vectors are sequences of scalars. *)
From mathcomp Require Import all_ssreflect all_algebra.
Set Implicit Arguments.
Unset Strict Implicit.
Unset Printing Implicit Defensive.
Import GRing.Theory Num.Theory.
Local Open Scope ring_scope.

Section Feasibility.
Variable R : realDomainType.

(** [FeasibilityNorm], solver-base.hpp *)
Inductive feasnorm := LInf | L1.

(** [lpNorm<Eigen::Infinity>()] (0 for an empty vector) and [lpNorm<1>()] *)
Definition linf (v : seq R) : R := foldl (fun a e => Num.max a `|e|) 0 v.
Definition l1 (v : seq R) : R := foldl (fun a e => a + `|e|) 0 v.

Section Dynamic.
Variables (X : Type) (diff : X -> X -> seq R).

(** solver-base.cpp:91-107: [fs_[0]], then [fs_[t+1]] for the running nodes.  [xs]
    has one entry more than [xnexts]. *)
Definition gaps (x0 : X) (xs : seq X) (xnexts : seq X) : seq (seq R) :=
  match xs with
  | [::] => [::]
  | x :: xs' => diff x x0 :: [seq diff p.1 p.2 | p <- zip xs' xnexts]
  end.

(** solver-base.cpp:108-124 *)
Definition dynamic_feas (n : feasnorm) (fs : seq (seq R)) : R :=
  match n, fs with
  | LInf, _ => foldl (fun a f => Num.max a (linf f)) 0 fs
  | L1, f0 :: fs' => foldl (fun a f => a + l1 f) (l1 f0) fs'
  | L1, [::] => 0
  end.
End Dynamic.

(** A bound; [None] is an infinite one. *)
Definition cmax (x : R) (lb : option R) : R := if lb is Some b then Num.max x b else x.
Definition cmin (x : R) (ub : option R) : R := if ub is Some b then Num.min x b else x.

(** The inequality part of a node: value, lower and upper bound, entry by entry. *)
Definition ineq := seq (R * (option R * option R)).

(** [g - g.cwiseMax(g_lb).cwiseMin(g_ub)] *)
Definition adj_res (g : ineq) : seq R :=
  [seq p.1 - cmin (cmax p.1 p.2.1) p.2.2 | p <- g].

(** solver-base.cpp:126-175 *)
Definition ineq_feas (n : feasnorm) (running : seq ineq) (terminal : ineq) : R :=
  let nrm := match n with LInf => linf | L1 => l1 end in
  let run := foldl (fun a g => if (0 < size g)%N then Num.max a (nrm (adj_res g)) else a) 0 running in
  if (0 < size terminal)%N then run + nrm (adj_res terminal) else run.

(** solver-base.cpp:177-210 *)
Definition eq_feas (n : feasnorm) (running : seq (seq R)) (terminal : seq R) : R :=
  match n with
  | LInf =>
      let run := foldl (fun a h => if (0 < size h)%N then Num.max a (linf h) else a) 0 running in
      if (0 < size terminal)%N then Num.max run (linf terminal) else run
  | L1 =>
      let run := foldl (fun a h => if (0 < size h)%N then a + l1 h else a) 0 running in
      if (0 < size terminal)%N then run + l1 terminal else run
  end.
End Feasibility.
