(** Properties C08-C10 (feasibility measures) and the zero-gap part of C01. *)
From mathcomp Require Import all_ssreflect all_algebra.
Set Implicit Arguments.
Unset Strict Implicit.
Unset Printing Implicit Defensive.
Import GRing.Theory Num.Theory Order.TTheory.
From Verif Require Import Common Shooting_Model Shooting_Spec Shooting_Proofs
  Feasibility_Model Feasibility_Spec Feasibility_Proofs.
Local Open Scope ring_scope.

(** * C08 *)
Theorem C08_dynamic_feasibility_is_the_norm :
  forall (R : realDomainType) (X : Type) (diff : X -> X -> seq R) (n : feasnorm) x0 xs xnexts,
  norm_of n (flatten (gaps diff x0 xs xnexts)) (dynamic_feas n (gaps diff x0 xs xnexts)).
Proof. move=> R X diff n x0 xs xnexts; exact: dynamic_feas_norm. Qed.
Print Assumptions C08_dynamic_feasibility_is_the_norm.

(** [gaps] itself: the first entry compares the first state with x0, entry t+1 the
    state t+1 with the next state of node t. *)
Theorem C08_gaps_entries :
  forall (R : realDomainType) (X : Type) (diff : X -> X -> seq R) x0 x xs xnexts,
  size xs = size xnexts ->
  size (gaps diff x0 (x :: xs) xnexts) = (size xs).+1 /\
  nth [::] (gaps diff x0 (x :: xs) xnexts) 0 = diff x x0 /\
  forall t d, (t < size xs)%N ->
    nth [::] (gaps diff x0 (x :: xs) xnexts) t.+1 = diff (nth d xs t) (nth d xnexts t).
Proof.
move=> R X diff x0 x xs xnexts E; split; first by rewrite /= size_map size1_zip // E.
split=> // t d Ht /=. rewrite (nth_map (d, d)); last by rewrite size1_zip // E.
by rewrite nth_zip.
Qed.
Print Assumptions C08_gaps_entries.

Theorem C08_zero_iff_consistent :
  forall (R : realDomainType) (X : Type) (diff : X -> X -> seq R) (n : feasnorm) x0 xs xnexts,
  (forall x y, all (eq_op^~ 0) (diff x y) <-> x = y) ->
  size xs = (size xnexts).+1 ->
  dynamic_feas n (gaps diff x0 xs xnexts) = 0 <-> consistent_traj x0 xs xnexts.
Proof.
move=> R X diff n x0 xs xnexts Hd Hs. rewrite -(gaps_zero Hd) //.
rewrite -(norm_of_eq0 (dynamic_feas_norm n _)). by split=> /eqP.
Qed.
Print Assumptions C08_zero_iff_consistent.

(** The difference of a vector space meets the hypothesis; a sample. *)
Definition xdiff (x y : rat * rat) : seq rat := [:: y.1 - x.1; y.2 - x.2].
Example C08_sample_diff : forall x y, all (eq_op^~ 0) (xdiff x y) <-> x = y.
Proof.
move=> [a b] [c d]; rewrite /= !subr_eq0 andbT; split; first by case/andP=> /eqP -> /eqP ->.
by case=> -> ->; rewrite !eqxx.
Qed.
Example C08_sample :
  dynamic_feas LInf (gaps xdiff (1, 2) [:: (1, 3); (2, 2)] [:: (5, 2)]) = 3 /\
  dynamic_feas L1 (gaps xdiff (1, 2) [:: (1, 3); (2, 2)] [:: (5, 2)]) = 4.
Proof. by split; vm_compute. Qed.

(** * C01: zero gaps *)
Lemma rollout_loop_states M D X U (calc : M -> D -> X -> U -> D) (xnext : D -> X) x ns us :
  size us = size ns ->
  (rollout_loop calc xnext x ns us).1 = x :: map xnext (rollout_loop calc xnext x ns us).2.
Proof.
elim: ns x us => [|[m d] ns IH] x [|u us] //= [E].
by move: (IH (xnext (calc m d x u)) us E); case: (rollout_loop _ _ _ _ _) => xs ds /= ->.
Qed.

(** A rollout followed by the gap computation reports zero, in both norms. *)
Theorem C01_rollout_zero_gaps :
  forall (R : realDomainType) M D X U nx ndx check_data create_data xsize
         (calc : M -> D -> X -> U -> D) calcT (xnext : D -> X) (diff : X -> X -> seq R)
         (n : feasnorm) (p : problem M D X) us xs_in xs p',
  reachable nx ndx check_data create_data xsize p \/
  reachable_datas nx ndx check_data create_data xsize p ->
  (forall x y, all (eq_op^~ 0) (diff x y) <-> x = y) ->
  rollout calc calcT xnext p us xs_in = Some (xs, p') ->
  dynamic_feas n (gaps diff (p_x0 p') xs [seq xnext d | d <- p_rund p']) = 0.
Proof.
move=> R M D X U nx ndx check_data create_data xsize calc calcT xnext diff n p us xs_in xs p' Hr Hd.
have [_ H1 H2 _ _] : shaped nx ndx xsize p.
  by case: Hr => [/reachable_consistent []|/reachable_datas_shaped].
rewrite /rollout. case E: (Nat.eqb _ _ && _) => //.
have Hu : size us = size (List.combine (p_run p) (p_rund p)).
  move/andb_prop: E => [_ /PeanoNat.Nat.eqb_eq].
  change (length us = p_T p -> length us = length (List.combine (p_run p) (p_rund p))).
  by rewrite List.combine_length H1 H2 PeanoNat.Nat.min_id.
have Hl := rollout_loop_states calc xnext (p_x0 p) Hu.
case: (rollout_loop _ _ _ _ _) Hl => xs' ds /= -> [<- <-] /=.
have Hs : size (p_x0 p :: [seq xnext d | d <- ds]) = (size [seq xnext d | d <- ds]).+1 by [].
by apply/(C08_zero_iff_consistent n _ Hd Hs).
Qed.
Print Assumptions C01_rollout_zero_gaps.

(** * C09 *)

(** The LInf measure adds the terminal violation instead of taking the maximum:
    violation 1 at a running node and 1 at the terminal node give 2. *)
Theorem C09_linf_refuted :
  exists (running : seq (ineq rat_realDomainType)) terminal,
    all (all (@ordered _)) running /\ all (@ordered _) terminal /\
    flatten [seq adj_res g | g <- rcons running terminal] = [:: 1; 1] /\
    ineq_feas LInf running terminal = 2 /\
    ~ norm_of LInf (flatten [seq adj_res g | g <- rcons running terminal])
        (ineq_feas LInf running terminal).
Proof.
exists [:: [:: (1, (None, Some 0))]], [:: (3, (Some (-1), Some 2))]. do 2!split=> //.
have E1 : flatten [seq adj_res g | g <- rcons [:: [:: (1, (None, Some 0))]] [:: (3, (Some (-1), Some 2))]]
   = [:: 1; 1 : rat] by vm_compute.
have E2 : ineq_feas LInf [:: [:: (1, (None, Some 0))]] [:: (3, (Some (-1), Some 2))] = 2 :> rat by vm_compute.
rewrite E1 E2; do 2!split=> //. case=> _ [e]. by rewrite !inE => /orP[] /eqP -> /eqP; vm_compute.
Qed.
Print Assumptions C09_linf_refuted.

(** The L1 measure takes the maximum over the running nodes instead of the sum. *)
Theorem C09_l1_refuted :
  exists (running : seq (ineq rat_realDomainType)) terminal,
    all (all (@ordered _)) running /\ all (@ordered _) terminal /\
    flatten [seq adj_res g | g <- rcons running terminal] = [:: 1; 1] /\
    ineq_feas L1 running terminal = 1 /\
    ~ norm_of L1 (flatten [seq adj_res g | g <- rcons running terminal])
        (ineq_feas L1 running terminal).
Proof.
exists [:: [:: (1, (None, Some 0))]; [:: (3, (Some (-1), Some 2))]], [::]. do 2!split=> //.
have E1 : flatten [seq adj_res g | g <- rcons [:: [:: (1, (None, Some 0))]; [:: (3, (Some (-1), Some 2))]] [::]]
   = [:: 1; 1 : rat] by vm_compute.
have E2 : ineq_feas L1 [:: [:: (1, (None, Some 0))]; [:: (3, (Some (-1), Some 2))]] [::] = 1 :> rat by vm_compute.
rewrite E1 E2; do 2!split=> //. by rewrite /norm_of /sum_abs => /eqP; rewrite !big_cons big_nil; vm_compute.
Qed.
Print Assumptions C09_l1_refuted.

(** The entries are the violations (distance to the interval of admissible values). *)
Theorem C09_entries_are_violations :
  forall (R : realDomainType) (g : ineq R),
  all (@ordered R) g ->
  size (adj_res g) = size g /\
  forall i p0, (i < size g)%N -> violation (nth p0 g i) `|nth 0 (adj_res g) i|.
Proof.
move=> R g O; split; first by rewrite size_map.
move=> i p0 Hi; rewrite (nth_map p0) //; apply: adj_violation.
by move/all_nthP: O => /(_ p0 i Hi).
Qed.
Print Assumptions C09_entries_are_violations.

(** Both measures vanish exactly when every bound is satisfied.
    Missing with respect to C09: the aggregation, false in general. *)
Theorem C09_zero_iff_satisfied_partial :
  forall (R : realDomainType) n (running : seq (ineq R)) terminal,
  all (all (@ordered R)) running -> all (@ordered R) terminal ->
  (ineq_feas n running terminal == 0) =
  all (all (@in_bounds R)) running && all (@in_bounds R) terminal.
Proof. exact: ineq_feas_eq0. Qed.
Print Assumptions C09_zero_iff_satisfied_partial.

(** The LInf measure is right when the terminal bounds hold (or there are none). *)
Theorem C09_linf_terminal_satisfied_partial :
  forall (R : realDomainType) (running : seq (ineq R)) terminal,
  all (@in_bounds R) terminal ->
  norm_of LInf (flatten [seq adj_res g | g <- rcons running terminal])
    (ineq_feas LInf running terminal).
Proof. exact: ineq_feas_linf. Qed.
Print Assumptions C09_linf_terminal_satisfied_partial.

(** The L1 measure is right for one running node. *)
Theorem C09_l1_one_node_partial :
  forall (R : realDomainType) (g terminal : ineq R),
  norm_of L1 (adj_res g ++ adj_res terminal) (ineq_feas L1 [:: g] terminal).
Proof. exact: ineq_feas_l1. Qed.
Print Assumptions C09_l1_one_node_partial.

(** In general: the largest norm of a running node plus the norm of the terminal
    node.  [a] bounds the running norms tightly. *)
Theorem C09_actual_value :
  forall (R : realDomainType) n (running : seq (ineq R)) terminal,
  exists a b,
    ineq_feas n running terminal = a + b /\ norm_of n (adj_res terminal) b /\ 0 <= a /\
    (forall g v, g \in running -> norm_of n (adj_res g) v -> v <= a) /\
    (a = 0 \/ exists2 g, g \in running & norm_of n (adj_res g) a).
Proof.
move=> R n running terminal. exists (node_max n running), (nrm n (adj_res terminal)).
split; first exact: ineq_feasE. split; first exact: nrm_norm. split; first exact: node_max_ge0.
split.
  move=> g v Hg Hv. rewrite (norm_of_unique Hv (nrm_norm n _)) /node_max.
  elim: running Hg => [|g' gs IH] //=. rewrite inE le_maxr => /orP[/eqP ->|/IH ->].
    by rewrite lexx.
  by rewrite orbT.
rewrite /node_max. elim: running => [|g gs IH] /=; first by left.
case: (leP (nrm n (adj_res g)) (foldr Num.max 0 [seq nrm n (adj_res g) | g <- gs])) => _.
  case: IH => [->|[g' Hg' H]]; [by left|right]. by exists g' => //; rewrite inE Hg' orbT.
right; exists g; first by rewrite mem_head. exact: nrm_norm.
Qed.
Print Assumptions C09_actual_value.

Example C09_sample :
  ineq_feas LInf [:: [:: (1, (None, Some 0)); (4, (Some 1, None))]; [::]; [:: (-3%:R, (Some 0, Some 2))]]
    [:: (1, (Some 0, Some 2))] = 3 :> rat.
Proof. by vm_compute. Qed.

(** * C10 *)
Theorem C10_equality_feasibility_is_the_norm :
  forall (R : realDomainType) n (running : seq (seq R)) terminal,
  norm_of n (flatten (rcons running terminal)) (eq_feas n running terminal).
Proof. exact: eq_feas_norm. Qed.
Print Assumptions C10_equality_feasibility_is_the_norm.

Theorem C10_zero_iff :
  forall (R : realDomainType) n (running : seq (seq R)) terminal,
  eq_feas n running terminal = 0 <->
  (forall h e, h \in rcons running terminal -> e \in h -> e = 0).
Proof.
move=> R n running terminal. have := norm_of_eq0 (eq_feas_norm n running terminal).
move=> E; split.
  move/eqP; rewrite E => /allP H h e Hh He. by apply/eqP/H/flattenP; exists h.
move=> H; apply/eqP; rewrite E; apply/allP => e /flattenP [h Hh He]. by rewrite (H h e Hh He) eqxx.
Qed.
Print Assumptions C10_zero_iff.

Example C10_sample :
  eq_feas LInf [:: [:: 1; -2%:R]; [::]] [:: 1] = 2 :> rat /\
  eq_feas L1 [:: [:: 1; -2%:R]; [::]] [:: 1] = 4 :> rat.
Proof. by split; vm_compute. Qed.
