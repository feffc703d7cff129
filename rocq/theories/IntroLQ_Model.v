(** SolverIntro on linear-quadratic problems with linear equality constraints (ActionModelLQR with nh > 0):
    the backward pass of ddp.cpp:212-251 with the gains and value function of Intro_Model, and the loop
    of intro.cpp:70-185, in exact arithmetic over an arbitrary real field.  The terminal node has no
    constraint, there are no inequality constraints, and no callbacks. *)
From mathcomp Require Import all_ssreflect all_algebra.
From Verif Require Import LinAlg Riccati_Model Intro_Model LQSolve_Model.
Set Implicit Arguments.
Unset Strict Implicit.
Unset Printing Implicit Defensive.
Import Order.TTheory GRing.Theory Num.Theory.
Local Open Scope ring_scope.

Section IntroLQ.
Variables (R : realFieldType) (n : nat).
Notation half := (2%:R^-1 : R).

(** A node: the linear-quadratic model with the constraint [G x + H u + g = 0] *)
Record ilq := ILQ {
  il : lq R n; lh : nat; lG : 'M[R]_(lh, n); lH : 'M[R]_(lh, lnu il); lg : 'cV[R]_lh }.
(** actions/lqr.hxx:126-128 *)
Definition hval (m : ilq) (x : 'cV[R]_n) (u : 'cV[R]_(lnu (il m))) : 'cV[R]_(lh m) :=
  lG m *m x + lH m *m u + lg m.
(** A node of the candidate with its gap and the factors of Hu (eq_solver_, computed by calcDiff) *)
Record inode := INode {
  im : ilq; ix : 'cV[R]_n; iu : 'cV[R]_(lnu (il im)); ifs : 'cV[R]_n;
  isol : eqsolver R (lh im) (lnu (il im)) }.
Definition ic (d : inode) : cnode R n := @CNode R n (il (im d)) (ix d) (iu d) (ifs d).
Definition ist (d : inode) : istage R n :=
  @IStage R n (cder (ic d)) (lh (im d)) (hval (ix d) (iu d)) (lG (im d)) (lH (im d)).

(** backwardPass (ddp.cpp:229-249) with the gains of SolverIntro *)
Fixpoint ibpass (preg : R) (feas : bool) (T : terminal R n) (fT : 'cV[R]_n) (ns : seq inode) :
    option (bnodes (@cder R n) (map ic ns)) :=
  match ns with
  | [::] => Some tt
  | d :: ns' =>
      match ibpass preg feas T fT ns' with
      | None => None
      | Some bs =>
          match ibstep (s := ist d) preg feas (isol d) (ifs d) (value (vterm preg feas T fT) bs) with
          | None => None
          | Some b => Some (b, bs)
          end
      end
  end.

(** computeEqualityFeasibility (solver-base.cpp): [inf]: feasnorm_ == LInf, else L1 *)
Definition vnorm (inf : bool) (m : nat) (v : 'cV[R]_m) : R :=
  foldr (fun i a => if inf then Num.max `|v i 0| a else `|v i 0| + a) 0 (enum 'I_m).
Fixpoint hfeas (inf : bool) (ns : seq inode) : seq 'cV[R]_n -> ctrls (map ic ns) -> R :=
  match ns with
  | [::] => fun _ _ => 0
  | d :: ns' => fun xs us =>
      let a := vnorm inf (hval (head 0 xs) us.1) in
      let b := hfeas inf (behead xs) us.2 in
      if inf then Num.max a b else a + b
  end.
(** Of the candidate *)
Fixpoint own (ns : seq inode) : ctrls (map ic ns) :=
  match ns with [::] => tt | d :: ns' => (iu d, own ns') end.

(** setCandidate and computeDynamicFeasibility (see [install], [set_gaps]) *)
Fixpoint i_install (ns : seq inode) : seq 'cV[R]_n -> ctrls (map ic ns) -> seq inode :=
  match ns with
  | [::] => fun _ _ => [::]
  | d :: ns' => fun xs us => @INode (im d) (head 0 xs) us.1 (ifs d) (isol d) :: i_install (behead xs) us.2
  end.
Fixpoint i_gaps (x0 : 'cV[R]_n) (ns : seq inode) (xT : 'cV[R]_n) : seq inode * 'cV[R]_n :=
  match ns with
  | [::] => ([::], x0 - xT)
  | d :: ns' =>
      let r := i_gaps (lq_next (ix d) (iu d)) ns' xT in
      (@INode (im d) (ix d) (iu d) (x0 - ix d) (isol d) :: r.1, r.2)
  end.

(** intro.hpp: th_feas_, rho_ beside the parameters of [params] *)
Record isolver := ISolver {
  i_ns : seq inode; i_xT : 'cV[R]_n; i_fT : 'cV[R]_n; i_feas : bool; i_preg : R; i_cost : R; i_hfeas : R; i_ups : R;
  i_d : R * R; i_dV : R }.

Section Problem.
Variables (p : params R) (th_feas rho : R) (inf : bool) (T : lqterm R n) (x0 : 'cV[R]_n).

(** calcDiff (ddp.cpp:198-210, intro.cpp:226-295) *)
Definition i_calc_diff (s : isolver) : isolver :=
  let r := i_gaps x0 (i_ns s) (i_xT s) in
  ISolver r.1 (i_xT s) r.2 (i_feas s) (i_preg s) (total T (map ic (i_ns s)) (i_xT s) 0)
    (hfeas inf (map ix (i_ns s)) (own (i_ns s))) (i_ups s) (i_d s) (i_dV s).

(** intro.cpp:96-108 *)
Fixpoint i_direct (fuel : nat) (feas : bool) (ns : seq inode) (xT fT : 'cV[R]_n) (preg : R) :
    option (R * option (bnodes (@cder R n) (map ic ns))) :=
  match fuel with
  | 0 => None
  | fuel'.+1 =>
      match ibpass preg feas (lq_tdiff T xT) fT ns with
      | Some bs => Some (preg, Some bs)
      | None =>
          let r := increase p preg in
          if r == reg_max p then Some (r, None) else i_direct fuel' feas ns xT fT r
      end
  end.

(** intro.cpp:132-158 *)
Definition i_accepted (a : R) (ups dfeas : R) (d : R * R) (dV : R) : bool :=
  let dPhi := dV + ups * dfeas in
  let dVexp := a * (d.1 + half * a * d.2) in
  let dPhiexp := dVexp + a * ups * dfeas in
  if 0 <= dPhiexp then (`|d.1| < th_grad p) || (th_accept p * dPhiexp < dPhi)
  else th_neg p * dVexp < dV.

(** The line search, intro.cpp:123-158; [dV_] keeps the value of the last trial that did not throw *)
Fixpoint i_search (s : isolver) (bs : bnodes (@cder R n) (map ic (i_ns s))) (d : R * R) (dV a0 : R) (l : seq R) :
    isolver * R * bool :=
  match l with
  | [::] => (ISolver (i_ns s) (i_xT s) (i_fT s) (i_feas s) (i_preg s) (i_cost s) (i_hfeas s) (i_ups s) d dV, a0, false)
  | a :: l' =>
      if (1 < a) || (a < 0) then i_search bs d dV a l'
      else
        let close := i_feas s || (a == 1) in
        let r := lq_forward a close T (i_fT s) x0 0 bs in
        let h := hfeas inf r.1.1.1 r.1.2 in
        let d' := ei_fddp (@cf R n) (i_preg s) (i_feas s) (lq_tdiff T (i_xT s)) (i_fT s) bs
                    (diffs (map ic (i_ns s)) r.1.1.1) (i_xT s - r.1.1.2) in
        if i_accepted a (i_ups s) (i_hfeas s - h) d' (i_cost s - r.2)
        then (ISolver (i_install r.1.1.1 r.1.2) r.1.1.2 (i_fT s) close (i_preg s) r.2 h (i_ups s) d' (i_cost s - r.2),
              a, true)
        else i_search bs d' (i_cost s - r.2) a l'
  end.

Definition i_set (preg ups : R) (s : isolver) : isolver :=
  ISolver (i_ns s) (i_xT s) (i_fT s) (i_feas s) preg (i_cost s) (i_hfeas s) ups (i_d s) (i_dV s).

(** One iteration, intro.cpp:95-183; [first]: iter_ == 0.  expectedImprovement before the search reads the
    trial states of the previous search ([dxs], [dxT]); it only matters for the weight. *)
Definition i_iteration (fuel : nat) (first recalc : bool) (dxs : seq 'cV[R]_n) (dxT : 'cV[R]_n) (a0 : R) (s : isolver) :
    option (isolver * option bool * bool * R) :=
  let s := if recalc then i_calc_diff s else s in
  match i_direct fuel (i_feas s) (i_ns s) (i_xT s) (i_fT s) (i_preg s) with
  | None => None
  | Some (r, None) => Some (i_set r (i_ups s) s, Some false, false, a0)
  | Some (r, Some bs) =>
      let d := ei_fddp (@cf R n) r (i_feas s) (lq_tdiff T (i_xT s)) (i_fT s) bs dxs dxT in
      let ups := if (i_hfeas s != 0) && ~~ first
                 then Num.max (i_ups s) ((d.1 + half * d.2) / ((1 - rho) * i_hfeas s)) else i_ups s in
      let '(s1, a, acc) := @i_search (i_set r ups s) bs d (i_dV s) a0 (alphas p) in
      let stop := Num.max (i_hfeas s1) (stopping (i_d s1)) in
      let r1 := if (th_stepdec p < a) && (0 <= i_dV s1) then decrease p r else r in
      let inc := (a <= th_stepinc p) || (`|(i_d s1).2| <= th_feas) in
      if inc && (r1 == reg_max p) then Some (i_set r1 (i_ups s1) s1, Some false, acc, a)
      else
        let s2 := i_set (if inc then increase p r1 else r1) (i_ups s1) s1 in
        if i_feas s2 && (stop < th_stop p) then Some (s2, Some true, acc, a) else Some (s2, None, acc, a)
  end.
(** The trial states of the previous search are given by the oracle [trial] *)
Variable trial : isolver -> seq 'cV[R]_n * 'cV[R]_n.
Fixpoint i_solve (fuel maxiter it : nat) (recalc : bool) (a0 : R) (s : isolver) : option (isolver * bool * nat) :=
  match maxiter with
  | 0 => Some (s, false, it)
  | m.+1 =>
      match i_iteration fuel (it == 0)%N recalc (trial s).1 (trial s).2 a0 s with
      | None => None
      | Some (s', Some b, _, _) => Some (s', b, it.+1)
      | Some (s', None, acc, a) => i_solve fuel m it.+1 acc a s'
      end
  end.
End Problem.
End IntroLQ.
Arguments ilq R n : clear implicits.
Arguments inode R n : clear implicits.
