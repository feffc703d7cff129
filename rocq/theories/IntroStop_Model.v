(** The stopping value of SolverIntro at a feasible candidate of an arbitrary problem with equality
    constraints (src/core/solvers/intro.cpp:186-199), in exact arithmetic over an arbitrary real field.
    The nodes are given by their derivatives at the candidate (see Intro_Model); inequality constraints,
    which the solver does not read, are left out. *)
From mathcomp Require Import all_ssreflect all_algebra.
From Verif Require Import LinAlg Riccati_Model Intro_Model IntroLQ_Model.
Set Implicit Arguments.
Unset Strict Implicit.
Unset Printing Implicit Defensive.
Import Order.TTheory GRing.Theory Num.Theory.
Local Open Scope ring_scope.

Section IntroStop.
Variables (R : realFieldType) (n : nat).

(** A running node with the factors of Hu that calcDiff keeps (intro.cpp:226-295) *)
Record snode := SNode { sst : istage R n; ssol : eqsolver R (nh sst) (nu (ibase sst)) }.
Definition sder (d : snode) : stage R n := ibase (sst d).
(** The terminal node with its constraint [h + Hx dx = 0] (get_nh_T) *)
Record sterm := STerm { st : terminal R n; snh : nat; sh : 'cV[R]_snh; sHx : 'M[R]_(snh, n) }.

(** backwardPass (ddp.cpp:212-251) of a feasible candidate, whose gaps are not read; the constraint of the
    terminal node is not read either *)
Fixpoint sbpass (preg : R) (T : sterm) (ns : seq snode) : option (bnodes sder ns) :=
  match ns with
  | [::] => Some tt
  | d :: ns' =>
      match sbpass preg T ns' with
      | None => None
      | Some bs =>
          match ibstep (s := sst d) preg true (ssol d) 0 (value (vterm preg true (st T) 0) bs) with
          | None => None
          | Some b => Some (b, bs)
          end
      end
  end.

(** computeEqualityFeasibility (solver-base.cpp:177-210): [inf]: feasnorm_ == LInf, else L1 *)
Fixpoint sfeas (inf : bool) (T : sterm) (a : R) (ns : seq snode) : R :=
  let add m (v : 'cV[R]_m) := if inf then Num.max a (vnorm inf v) else a + vnorm inf v in
  match ns with
  | [::] => add _ (sh T)
  | d :: ns' => sfeas inf T (add _ (ih (sst d))) ns'
  end.

(** updateExpectedImprovement, expectedImprovement (fddp.cpp:123-173) and stoppingCriteria
    (intro.cpp:192-195) *)
Definition sstop (inf : bool) (preg : R) (T : sterm) (ns : seq snode) (bs : bnodes sder ns) : R :=
  Num.max (sfeas inf T 0 ns) (stopping (ei_fddp (fun=> 0) preg true (st T) 0 bs [::] 0)).
End IntroStop.
Arguments snode R n : clear implicits.
Arguments sterm R n : clear implicits.
