(** C133: a model used at running nodes and at the terminal node; concrete
    instances of the hypotheses. *)
From mathcomp Require Import all_ssreflect all_algebra.
From Verif Require Import ContainersEval_Model Feasibility_Model Feasibility_Spec SharedBounds_Model SharedBounds_Props.
Set Implicit Arguments.
Unset Strict Implicit.
Unset Printing Implicit Defensive.
Import Order.TTheory GRing.Theory Num.Theory.
Local Open Scope ring_scope.

Notation Zi := int_realDomainType.
Definition as_ineq (r : seq (int * (int * int))) : ineq Zi := [seq (q.1, (Some q.2.1, Some q.2.2)) | q <- r].

(** One running and one terminal node with the same model: a constraint of the
    control (not evaluated at terminal nodes) with bounds [a], then one of the
    state with bounds [b]. *)
Definition two (a b : int * int) : cproblem int :=
  CProblem (fun m => if m is O then
    [:: SegItem true false 1 0 [:: 0] [::] [:: a.1] [:: a.2];
        SegItem true true 1 0 [:: 0] [::] [:: b.1] [:: b.2]] else [::]) [:: 0%N] 0%N.
Definition fresh_st : cstate int :=
  CState (fun m => if m is O then ([:: 7; 7], [:: 7; 7]) else ([::], [::]))
         (fun _ => ([:: 0; 0], [::])) ([:: 0], [::]).

Lemma two_good a b : good_problem (two a b).
Proof.
move=> [|m]; last exact: List.Forall_nil.
by apply: List.Forall_cons => //; apply: List.Forall_cons.
Qed.
Lemma two_state a b : good_state (two a b) fresh_st.
Proof.
split; first by move=> [|m].
by split=> // -[|[|t]] m //= [<-].
Qed.
Definition sweep (u x xT : int) : seq (event int) :=
  [:: ERun 0 [:: [:: u]; [:: x]]; ETerm [:: [:: 0]; [:: xT]]].
Lemma two_sweep a b u x xT : List.Forall (good_event (two a b)) (sweep u x xT).
Proof.
apply: List.Forall_cons.
  by exists 0%N; split=> //; apply: List.Forall2_cons => //; apply: List.Forall2_cons.
apply: List.Forall_cons => //.
by apply: List.Forall2_cons => //; apply: List.Forall2_cons.
Qed.

Lemma two_runs a b u x xT :
  eruns (two a b) fresh_st (sweep u x xT) = Some (odflt fresh_st (eruns (two a b) fresh_st (sweep u x xT))).
Proof. by case: (C133_safe _ _ _ (two_good a b) (two_state a b) (two_sweep a b u x xT)) => st [-> _]. Qed.

(** All constraints hold at all nodes, and the solver reports a violation of 9. *)
Theorem C133_shared_refuted : exists p st es st',
  [/\ good_problem p, good_state p st, List.Forall (good_event p) es &
      eruns p st es = Some st'] /\
  [/\ es = sweep 1 11 11,
      all (@in_bounds Zi) (as_ineq (rows running (p_cons p 0) [:: [:: 1]; [:: 11]])),
      all (@in_bounds Zi) (as_ineq (rows terminal (p_cons p 0) [:: [:: 0]; [:: 11]])) &
      ineq_feas LInf [:: as_ineq (read_run p st' 0)] (as_ineq (read_term p st')) = 9].
Proof.
exists (two (0, 2) (10, 12)), fresh_st, (sweep 1 11 11), (odflt fresh_st (eruns (two (0, 2) (10, 12)) fresh_st (sweep 1 11 11))).
split; first by split; [exact: two_good|exact: two_state|exact: two_sweep|exact: two_runs].
by split; [|vm_compute|vm_compute|vm_compute].
Qed.

(** A control beyond its bound, and the solver reports that all constraints hold. *)
Theorem C133_missed_refuted : exists p st es st',
  [/\ good_problem p, good_state p st, List.Forall (good_event p) es &
      eruns p st es = Some st'] /\
  [/\ es = sweep 9 0 0,
      ~~ all (@in_bounds Zi) (as_ineq (rows running (p_cons p 0) [:: [:: 9]; [:: 0]])),
      ineq_feas LInf [:: as_ineq (read_run p st' 0)] (as_ineq (read_term p st')) = 0 &
      ineq_feas L1 [:: as_ineq (read_run p st' 0)] (as_ineq (read_term p st')) = 0].
Proof.
exists (two (0, 2) (- 10%:Z, 10)), fresh_st, (sweep 9 0 0), (odflt fresh_st (eruns (two (0, 2) (- 10%:Z, 10)) fresh_st (sweep 9 0 0))).
split; first by split; [exact: two_good|exact: two_state|exact: two_sweep|exact: two_runs].
by split; [|vm_compute|vm_compute|vm_compute].
Qed.

(** The hypotheses of the positive theorems: two running nodes sharing model 0, model 1
    at the terminal node. *)
Definition apart : cproblem int :=
  CProblem (fun m => if (m < 2)%N then p_cons (two (0, 2) (10, 12)) 0 else [::]) [:: 0%N; 0%N] 1%N.
Definition apart_st : cstate int :=
  CState (fun m => if (m < 2)%N then ([:: 7; 7], [:: 7; 7]) else ([::], [::]))
         (fun _ => ([:: 0; 0], [::])) ([:: 0], [::]).
Example C133_ex :
  good_problem apart /\ good_state apart apart_st /\ separate apart 0 /\
  exists st', eruns apart apart_st
      [:: ERun 1 [:: [:: 1]; [:: 20]]; ERun 0 [:: [:: 5]; [:: 11]]; ETerm [:: [:: 0]; [:: 13]]] = Some st' /\
    read_run apart st' 1 = [:: (1, (0, 2)); (20, (10, 12))] /\
    read_run apart st' 0 = [:: (5, (0, 2)); (11, (10, 12))] /\
    read_term apart st' = [:: (13, (10, 12))].
Proof.
split.
  by move=> [|[|m]]; do ?apply: List.Forall_cons => //; exact: List.Forall_nil.
split.
  split; first by move=> [|[|m]].
  by split=> // -[|[|[|t]]] m //= [<-].
split; first by left.
set es := [:: _; _; _]; exists (odflt apart_st (eruns apart apart_st es)).
by vm_compute.
Qed.

Print Assumptions C133_shared_refuted.
Print Assumptions C133_missed_refuted.
