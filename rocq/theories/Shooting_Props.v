(** Properties C01-C06: the shooting problem. *)
From Coq Require Import List Arith Bool Lia ZArith Permutation.
From Verif Require Import Common Shooting_Model Shooting_Spec Shooting_Proofs.
Import ListNotations.

(** A concrete instance used by the examples: a model is (nx, ndx, tag), a data is
    the pair (next state, cost), a state is a list of integers. *)
Definition xM : Type := nat * nat * Z.
Definition xnx (m : xM) := fst (fst m).
Definition xndx (m : xM) := snd (fst m).
Definition xD : Type := list Z * Z.
Definition xcreate (m : xM) : xD := (repeat 0%Z (xnx m), 0%Z).
Definition xcheck (m : xM) (d : xD) : bool := Nat.eqb (length (fst d)) (xnx m).
Definition xcalc (m : xM) (d : xD) (x : list Z) (u : Z) : xD :=
  (map (fun v => v * 2 + u + snd m)%Z x, fold_left Z.add x (u * u)%Z).
Definition xcalcT (m : xM) (d : xD) (x : list Z) : xD := (fst d, fold_left Z.add x (snd m)).
Notation xmk := (mk_problem xnx xndx xcreate (@length Z)).

(** * C01 *)
Theorem C01_rollout_unique_trajectory :
  forall M D X U nx ndx check_data create_data xsize
         (calc : M -> D -> X -> U -> D) calcT xnext (p : problem M D X) us xs_in,
  reachable nx ndx check_data create_data xsize p \/
  reachable_datas nx ndx check_data create_data xsize p ->
  length us = p_T p -> length xs_in = p_T p + 1 ->
  exists xs p', rollout calc calcT xnext p us xs_in = Some (xs, p') /\
    follows calc xnext (p_x0 p) (combine (p_run p) (p_rund p)) us xs /\
    (forall xs', follows calc xnext (p_x0 p) (combine (p_run p) (p_rund p)) us xs' -> xs' = xs) /\
    p_run p' = p_run p /\ p_term p' = p_term p /\ p_x0 p' = p_x0 p /\ p_T p' = p_T p /\
    length (p_rund p') = p_T p.
Proof.
  intros until xs_in. intros R Hu Hx.
  assert (shaped nx ndx xsize p) as [_ H1 H2 _ _].
  { destruct R as [R|R]; [apply reachable_consistent in R; apply R|now apply reachable_datas_shaped in R]. }
  now apply rollout_spec.
Qed.
Print Assumptions C01_rollout_unique_trajectory.

Theorem C01_wrong_sizes_rejected :
  forall M D X U (calc : M -> D -> X -> U -> D) calcT xnext (p : problem M D X) us xs_in,
  length us <> p_T p \/ length xs_in <> p_T p + 1 ->
  rollout calc calcT xnext p us xs_in = None.
Proof. exact @rollout_rejects. Qed.
Print Assumptions C01_wrong_sizes_rejected.

Definition xprob : problem xM xD (list Z) :=
  match xmk [1; 2]%Z [(2, 2, 5%Z); (2, 2, 0%Z); (2, 2, 7%Z)] (2, 2, 9%Z) with
  | Built p => p | _ => Problem 0 [] (0, 0, 0%Z) ([], 0%Z) [] [] 0 0 None end.
Example C01_sample_reachable : reachable xnx xndx xcheck xcreate (@length Z) xprob.
Proof.
  exists [1; 2]%Z, [(2, 2, 5%Z); (2, 2, 0%Z); (2, 2, 7%Z)], (2, 2, 9%Z), [], xprob.
  split; reflexivity.
Qed.
Example C01_sample :
  option_map fst (rollout xcalc xcalcT fst xprob [1; 0; -1]%Z [[]; []; []; []]) =
  Some [[1; 2]; [8; 10]; [16; 20]; [38; 46]]%Z.
Proof. reflexivity. Qed.

(** * C02 *)

(** The cost is the sum of the node costs and every data holds the evaluation of
    its node. *)
Theorem C02_total_cost :
  forall M D X U S nx ndx check_data create_data xsize
         (calc : M -> D -> X -> U -> D) calcT (cost : D -> S) zero add
         (p : problem M D X) xs us xT,
  reachable nx ndx check_data create_data xsize p \/
  reachable_datas nx ndx check_data create_data xsize p ->
  length us = p_T p -> length xs = p_T p + 1 -> nth_error xs (p_T p) = Some xT ->
  exists ds p',
    evaluated calc (combine (p_run p) (p_rund p)) xs us ds /\
    (forall ds', evaluated calc (combine (p_run p) (p_rund p)) xs us ds' -> ds' = ds) /\
    problem_calc calc calcT cost zero add p xs us =
      Some (add (fold_left add (map cost ds) zero) (cost (calcT (p_term p) (p_termd p) xT)), p') /\
    p_rund p' = ds /\ p_termd p' = calcT (p_term p) (p_termd p) xT /\
    p_run p' = p_run p /\ p_term p' = p_term p /\ p_x0 p' = p_x0 p /\ p_T p' = p_T p.
Proof.
  intros until xT. intros R Hu Hx HT.
  assert (shaped nx ndx xsize p) as [_ H1 H2 _ _].
  { destruct R as [R|R]; [apply reachable_consistent in R; apply R|now apply reachable_datas_shaped in R]. }
  destruct (problem_calc_spec calc calcT cost zero add p xs us xT H1 H2 Hu Hx HT)
    as (ds & p' & E & Ec & F). exists ds, p'. split; [exact E|]. split; [|split; [exact Ec|exact F]].
  intros ds' E'. eapply evaluated_unique; try eassumption; rewrite combine_length; lia.
Qed.
Print Assumptions C02_total_cost.

Theorem C02_wrong_sizes_rejected :
  forall M D X U S (calc : M -> D -> X -> U -> D) calcT (cost : D -> S) zero add
         (p : problem M D X) xs us,
  length us <> p_T p \/ length xs <> p_T p + 1 ->
  problem_calc calc calcT cost zero add p xs us = None.
Proof. exact @problem_calc_rejects. Qed.
Print Assumptions C02_wrong_sizes_rejected.

(** The loop may visit the nodes in any order and interleave their steps: with
    separate datas, every node's data ends with the evaluation of that node and no
    other data is touched.  [locs] are the locations of the datas, [steps] the
    sequence of writes by which a node's evaluation is performed. *)
Theorem C02_any_schedule :
  forall M D X U (calc : M -> D -> X -> U -> D) (steps : M -> X -> U -> list (D -> D))
         (locs : list nat) (nodes : list (M * X * U)) tr (h : heap (D := D)),
  (forall m d x u, fold_left (fun d f => f d) (steps m x u) d = calc m d x u) ->
  length locs = length nodes -> NoDup locs ->
  runs (combine locs (map (fun n => let '(m, x, u) := n in steps m x u) nodes)) tr ->
  (forall t l m x u, nth_error locs t = Some l -> nth_error nodes t = Some (m, x, u) ->
     exec tr h l = calc m (h l) x u) /\
  (forall l, ~ In l locs -> exec tr h l = h l).
Proof.
  intros M D X U calc steps locs nodes tr h Hs L N R.
  assert (map fst (combine locs (map (fun n => let '(m, x, u) := n in steps m x u) nodes)) = locs) as Ef.
  { clear -L. revert nodes L. induction locs as [|l locs IH]; intros [|n ns] L; try discriminate; auto.
    injection L as L. simpl. f_equal. auto. }
  assert (NoDup (map fst (combine locs (map (fun n => let '(m, x, u) := n in steps m x u) nodes)))) as N'
    by now rewrite Ef.
  destruct (runs_result _ _ h R N') as [H1 H2]. rewrite Ef in H2. split; auto.
  intros t l m x u Hl Hn. rewrite (H1 l (steps m x u)); [apply Hs|].
  clear -L Hl Hn. revert t nodes L Hl Hn. induction locs as [|k locs IH]; intros [|t] [|n ns] L Hl Hn;
    try discriminate; simpl in *.
  - injection Hl as ->. injection Hn as ->. now left.
  - right. injection L as L. eauto.
Qed.
Print Assumptions C02_any_schedule.

(** Summing the costs in any order gives the same total (exact arithmetic). *)
Theorem C02_any_summation_order :
  forall S (add : S -> S -> S) (zero : S) (cs cs' : list S),
  (forall a b, add a b = add b a) -> (forall a b c, add a (add b c) = add (add a b) c) ->
  Permutation cs cs' -> fold_left add cs zero = fold_left add cs' zero.
Proof. intros S add zero cs cs' Hc Ha P. now apply fold_left_perm. Qed.
Print Assumptions C02_any_summation_order.

Example C02_sample :
  option_map fst (problem_calc xcalc xcalcT snd 0%Z Z.add xprob
    [[1; 2]; [3; 4]; [5; 6]; [7; 8]]%Z [1; 2; 3]%Z) = Some ((3 + 1) + (7 + 4) + (11 + 9) + (15 + 9))%Z.
Proof. reflexivity. Qed.
(** Two nodes with separate datas, second node first, steps interleaved. *)
Example C02_sample_schedule :
  runs [(0, [Z.add 1%Z; Z.mul 2%Z]); (7, [Z.add 5%Z])]
       [(0, Z.add 1%Z); (7, Z.add 5%Z); (0, Z.mul 2%Z)].
Proof.
  apply (runs_step []). apply (runs_step [(0, [Z.mul 2%Z])]). apply (runs_step []).
  constructor. repeat constructor.
Qed.
(** Without separate datas the schedule matters. *)
Example C02_shared_data_depends_on_schedule :
  runs [(0, [Z.add 1%Z]); (0, [Z.mul 2%Z])] [(0, Z.add 1%Z); (0, Z.mul 2%Z)] /\
  runs [(0, [Z.add 1%Z]); (0, [Z.mul 2%Z])] [(0, Z.mul 2%Z); (0, Z.add 1%Z)] /\
  exec [(0, Z.add 1%Z); (0, Z.mul 2%Z)] (fun _ => 3%Z) 0 <>
  exec [(0, Z.mul 2%Z); (0, Z.add 1%Z)] (fun _ => 3%Z) 0.
Proof.
  split; [|split].
  - apply (runs_step []). apply (runs_step [(0, [])]). constructor. repeat constructor.
  - apply (runs_step [(0, [Z.add 1%Z])] 0 (Z.mul 2%Z) [] []). apply (runs_step []).
    constructor. repeat constructor.
  - discriminate.
Qed.

(** * C03 *)
Theorem C03_receding_horizon :
  forall M D X nx ndx check_data create_data xsize (p : problem M D X) (l : list (M * D)),
  reachable nx ndx check_data create_data xsize p \/
  reachable_datas nx ndx check_data create_data xsize p ->
  (forall md, In md l -> check_data (fst md) (snd md) = true /\
                         nx (fst md) = p_nx p /\ ndx (fst md) = p_ndx p) ->
  exists p', run_edits nx ndx check_data create_data xsize (appends l) p = Some p' /\
    p_run p' = skipn (length l) (p_run p ++ map fst l) /\
    p_rund p' = skipn (length l) (p_rund p ++ map snd l) /\
    p_T p' = p_T p /\ p_nx p' = p_nx p /\ p_ndx p' = p_ndx p /\
    p_x0 p' = p_x0 p /\ p_term p' = p_term p /\ p_termd p' = p_termd p.
Proof.
  intros until l. intros R H.
  assert (shaped nx ndx xsize p) as S.
  { destruct R as [R|R]; [apply reachable_consistent in R; apply R|now apply reachable_datas_shaped in R]. }
  now apply circular_append_horizon.
Qed.
Print Assumptions C03_receding_horizon.

(** T appends replace the whole horizon. *)
Theorem C03_full_turn :
  forall M D X nx ndx check_data create_data xsize (p : problem M D X) (l : list (M * D)),
  reachable nx ndx check_data create_data xsize p \/
  reachable_datas nx ndx check_data create_data xsize p ->
  length l = p_T p ->
  (forall md, In md l -> check_data (fst md) (snd md) = true /\
                         nx (fst md) = p_nx p /\ ndx (fst md) = p_ndx p) ->
  exists p', run_edits nx ndx check_data create_data xsize (appends l) p = Some p' /\
    p_run p' = map fst l /\ p_rund p' = map snd l.
Proof.
  intros until l. intros R L H.
  assert (shaped nx ndx xsize p) as [_ H1 H2 _ _].
  { destruct R as [R|R]; [apply reachable_consistent in R; apply R|now apply reachable_datas_shaped in R]. }
  destruct (C03_receding_horizon _ _ _ _ _ _ _ _ _ _ R H) as (p' & E & R1 & R2 & _).
  exists p'. split; auto. rewrite R1, R2. split.
  - rewrite skipn_app, L, <- H1, skipn_all, Nat.sub_diag. reflexivity.
  - rewrite skipn_app, L, <- H2, skipn_all, Nat.sub_diag. reflexivity.
Qed.
Print Assumptions C03_full_turn.

Example C03_sample :
  option_map (fun p => map snd (p_run p))
    (run_edits xnx xndx xcheck xcreate (@length Z)
       (appends [((2, 2, 50%Z), ([0; 0], 0)%Z); ((2, 2, 60%Z), ([0; 0], 0)%Z)]) xprob) = Some [7; 50; 60]%Z.
Proof. reflexivity. Qed.

(** * C04 *)

(** Problems built by the first constructor: never undefined behaviour, always
    consistent, a throwing call has no effect, an accepted one has exactly the
    expected effect, and the accepted calls are the valid ones. *)
Theorem C04_edits_keep_consistency :
  forall M D X nx ndx check_data create_data xsize (p : problem M D X) e,
  reachable nx ndx check_data create_data xsize p ->
  consistent nx ndx xsize p /\
  (if accepted nx ndx check_data xsize (p_T p) (p_nx p) (p_ndx p) e
   then exists p', apply_edit nx ndx check_data create_data xsize e p = Ok p' tt /\
          nodes p' = nodes_after create_data e p /\
          p_T p' = p_T p /\ p_nx p' = p_nx p /\ p_ndx p' = p_ndx p /\
          reachable nx ndx check_data create_data xsize p'
   else apply_edit nx ndx check_data create_data xsize e p = Throw p).
Proof.
  intros until e. intro R. pose proof R as C. apply reachable_consistent in C as [S T].
  split; [split; auto|]. pose proof (apply_edit_spec nx ndx check_data create_data xsize e p S) as E.
  destruct (accepted _ _ _ _ _ _ _ e); auto.
  exists (edited create_data e p). split; auto.
  destruct (edited_frame create_data e p) as (F1 & F2 & F3 & _ & F5). repeat split; auto.
  destruct R as (x0 & run & term & es & p0 & R1 & R2).
  exists x0, run, term, (es ++ [e]), p0. split; auto.
  rewrite run_edits_app, R2. cbn [run_edits]. now rewrite E.
Qed.
Print Assumptions C04_edits_keep_consistency.

Theorem C04_histories_never_undefined :
  forall M D X nx ndx check_data create_data xsize (p : problem M D X) es,
  reachable nx ndx check_data create_data xsize p \/
  reachable_datas nx ndx check_data create_data xsize p ->
  exists p', run_edits nx ndx check_data create_data xsize es p = Some p' /\
    shaped nx ndx xsize p' /\ p_T p' = p_T p /\ p_nx p' = p_nx p /\ p_ndx p' = p_ndx p.
Proof.
  intros until es. intro R.
  assert (shaped nx ndx xsize p) as S.
  { destruct R as [R|R]; [apply reachable_consistent in R; apply R|now apply reachable_datas_shaped in R]. }
  destruct (run_edits_shaped nx ndx check_data create_data xsize es p S) as (p' & H1 & H2 & _ & H3).
  eauto 10.
Qed.
Print Assumptions C04_histories_never_undefined.

(** The constructor that receives the datas does not look at the dimensions of the
    terminal model: a problem of dimension 2 with a terminal model of dimension 3
    is built. *)
Theorem C04_terminal_dimension_refuted :
  exists nx ndx check_data (xsize : list Z -> nat) x0 run term rund termd p,
    mk_problem_datas (M := xM) (D := xD) nx ndx check_data xsize x0 run term rund termd = Built p /\
    ~ consistent nx ndx xsize p.
Proof.
  exists xnx, xndx, xcheck, (@length Z), [1; 2]%Z, [(2, 2, 5%Z)], (3, 3, 9%Z), [([0; 0], 0)%Z],
    ([0; 0; 0], 0)%Z.
  eexists. split; [reflexivity|]. intros [_ [H _]]. discriminate H.
Qed.
Print Assumptions C04_terminal_dimension_refuted.

(** For that constructor everything but the terminal dimension holds; and the
    terminal dimension holds too once it is right.
    Missing with respect to C04: the check of the terminal model. *)
Theorem C04_data_constructor_partial :
  forall M D X nx ndx check_data create_data xsize (p : problem M D X) e,
  reachable_datas nx ndx check_data create_data xsize p ->
  shaped nx ndx xsize p /\
  (if accepted nx ndx check_data xsize (p_T p) (p_nx p) (p_ndx p) e
   then exists p', apply_edit nx ndx check_data create_data xsize e p = Ok p' tt /\
          nodes p' = nodes_after create_data e p /\
          p_T p' = p_T p /\ p_nx p' = p_nx p /\ p_ndx p' = p_ndx p /\
          (terminal_fits nx ndx p -> terminal_fits nx ndx p')
   else apply_edit nx ndx check_data create_data xsize e p = Throw p).
Proof.
  intros until e. intro R. pose proof R as S. apply reachable_datas_shaped in S.
  split; auto. pose proof (apply_edit_spec nx ndx check_data create_data xsize e p S) as E.
  destruct (accepted _ _ _ _ _ _ _ e) eqn:A; auto.
  exists (edited create_data e p). split; auto.
  destruct (edited_frame create_data e p) as (F1 & F2 & F3 & _ & F5). repeat split; auto;
    apply (edited_shaped nx ndx check_data create_data xsize e p S A); auto.
Qed.
Print Assumptions C04_data_constructor_partial.

Example C04_sample :
  option_map (fun p => (map snd (p_run p), p_x0 p, snd (p_term p)))
    (run_edits xnx xndx xcheck xcreate (@length Z)
       [ENode 1 (2, 2, 100%Z) ([0; 0], 0)%Z; EModel 9 (2, 2, 1%Z); EModel 3 (2, 2, 11%Z);
        EX0 [1; 2; 3]%Z; EX0 [8; 9]%Z; EAppendModel (3, 3, 1%Z)] xprob) =
  Some ([5; 100; 7]%Z, [8; 9]%Z, 11%Z).
Proof. reflexivity. Qed.

(** * C05 *)

(** [set_runningModels] never succeeds: whatever the models, it throws or runs into
    undefined behaviour (it reads [running_models_[0]] right after clearing it). *)
Theorem C05_never_succeeds :
  forall M D X nx ndx check_data create_data xsize (p : problem M D X) models,
  reachable nx ndx check_data create_data xsize p \/
  reachable_datas nx ndx check_data create_data xsize p ->
  set_running nx ndx create_data models p = UB \/ set_running nx ndx create_data models p = Throw p.
Proof.
  intros until models. intro R. apply set_running_never_ok.
  destruct R as [R|R]; [apply reachable_consistent in R as [[] _]|apply reachable_datas_shaped in R as []]; auto.
Qed.
Print Assumptions C05_never_succeeds.

Theorem C05_valid_models_refuted :
  exists (p : problem xM xD (list Z)) models,
    reachable xnx xndx xcheck xcreate (@length Z) p /\
    (forall m, In m models -> xnx m = p_nx p /\ xndx m = p_ndx p) /\
    models = p_run p /\
    set_running xnx xndx xcreate models p = UB.
Proof.
  exists xprob, (p_run xprob). split; [apply C01_sample_reachable|]. split; [|split; reflexivity].
  intros m [<-|[<-|[<-|[]]]]; split; reflexivity.
Qed.
Print Assumptions C05_valid_models_refuted.

(** What holds: it throws, leaving the problem unchanged, exactly when one of the
    first T models (T the current horizon) has other dimensions.
    Missing with respect to C05: the replacement itself, and the rejection of bad
    models beyond position T. *)
Theorem C05_rejection_partial :
  forall M D X nx ndx create_data (p : problem M D X) models,
  set_running nx ndx create_data models p = Throw p <->
  exists i m, i < p_T p /\ nth_error models i = Some m /\ ~ (nx m = p_nx p /\ ndx m = p_ndx p) /\
    (forall j m', j < i -> nth_error models j = Some m' -> nx m' = p_nx p /\ ndx m' = p_ndx p).
Proof. intros. apply set_running_throw. Qed.
Print Assumptions C05_rejection_partial.

Example C05_sample :
  set_running xnx xndx xcreate [(2, 2, 1%Z); (2, 3, 1%Z)] xprob = Throw xprob.
Proof. reflexivity. Qed.

(** * C06 *)

(** First constructor: every answer is the expected one.
    Missing with respect to C06: the other constructors, see below, and
    [set_runningModels], which does not return (C05). *)
Theorem C06_answers_partial :
  forall M D X nx ndx check_data create_data xsize x0 run term (p : problem M D X) cs,
  mk_problem nx ndx create_data xsize x0 run term = Built p ->
  run_calls nx ndx check_data create_data xsize cs p =
  Some (answers nx ndx check_data xsize (p_T p) (p_nx p) (p_ndx p) false cs).
Proof.
  intros until cs. intro B. destruct (mk_problem_built _ _ _ _ _ _ _ _ B) as (S & _ & _ & _ & _ & _ & U).
  now apply run_calls_spec.
Qed.
Print Assumptions C06_answers_partial.

(** The constructor that receives the datas, and the copy constructor, leave the
    flag uninitialised: the first query reads an indeterminate value. *)
Theorem C06_uninitialised_refuted :
  (forall M D X nx ndx check_data xsize x0 run term rund termd (p : problem M D X),
     mk_problem_datas nx ndx check_data xsize x0 run term rund termd = Built p ->
     is_updated p = UB) /\
  (forall M D X (p : problem M D X), is_updated (copy_problem p) = UB) /\
  (exists p, mk_problem_datas xnx xndx xcheck (@length Z) [1; 2]%Z [(2, 2, 5%Z)] (2, 2, 9%Z)
               [([0; 0], 0)%Z] ([0; 0], 0)%Z = Built p).
Proof.
  split; [|split].
  - intros until p. intro B. destruct (mk_problem_datas_built _ _ _ _ _ _ _ _ _ _ B)
      as (_ & _ & _ & _ & _ & _ & U). unfold is_updated. now rewrite U.
  - reflexivity.
  - eexists. reflexivity.
Qed.
Print Assumptions C06_uninitialised_refuted.

Example C06_sample :
  run_calls xnx xndx xcheck xcreate (@length Z)
    [CQuery; CEdit (EModel 1 (2, 2, 3%Z)); CEdit (EX0 [5; 5]%Z); CQuery; CQuery;
     CEdit (EModel 1 (3, 3, 3%Z)); CQuery; CEdit (ETerminal (2, 2, 1%Z)); CQuery] xprob =
  Some [false; true; false; false; true].
Proof. reflexivity. Qed.
