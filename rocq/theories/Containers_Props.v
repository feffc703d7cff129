(** Properties C40-C44 and C61: named containers. *)
From Coq Require Import ZArith String List Bool Arith Permutation Lia.
From Verif Require Import Common SMap Containers_Model Containers_Spec Containers_Proofs
  ContainersEval_Model ContainersEval_Proofs.
Import ListNotations.
Local Open Scope Z_scope.

(** * C40: cost, contact and impulse containers *)

(** The property is false: removing an inactive contact (or cost, or impulse)
    from a fresh container leaves an empty container that advertises 2^64 - 3
    contact dimensions. *)
Theorem C40_counters_after_removing_inactive_refuted :
  exists nu h, no_item_overload h /\
    c_items (run (empty_cont nu) h) = [] /\
    c_n (run (empty_cont nu) h) = 2 ^ 64 - 3 /\
    ~ exact_counters (run (empty_cont nu) h) (arun nu h).
Proof.
  exists 7, remove_inactive_history. split; [|split; [|split]]; try reflexivity.
  - intros o [<-|[<-|[]]]; exact I.
  - intros [_ H].
    assert (enumerates [] (arun 7 remove_inactive_history)) as E.
    { split; [constructor|]. intros n v; split; [easy|].
      unfold arun, remove_inactive_history. simpl. unfold aset.
      destruct (String.eqb n "contact"); discriminate. }
    apply H in E as [E _]. discriminate E.
Qed.
Print Assumptions C40_counters_after_removing_inactive_refuted.

(** The [CostItem] overload with a used name double-counts the dimension and puts
    the name in both the active and the inactive set. *)
Theorem C40_duplicate_item_refuted :
  exists nu h,
    (forall o, In o h -> match o with OpRemove _ => False | _ => True end) /\
    In "goal"%string (c_act (run (empty_cont nu) h)) /\
    In "goal"%string (c_inact (run (empty_cont nu) h)) /\
    c_ntot (run (empty_cont nu) h) = 12 /\
    map (fun kv => it_dim (snd kv)) (c_items (run (empty_cont nu) h)) = [6].
Proof.
  exists 7, dup_item_history. split; [|repeat split; simpl; auto].
  intros o [<-|[<-|[]]]; exact I.
Qed.
Print Assumptions C40_duplicate_item_refuted.

(** What holds for every history of the cost container in which no inactive item
    is removed and no [CostItem] is added under a used name.
    Missing with respect to C40: those two situations, where the claim is false. *)
Theorem C40_careful_histories_exact_partial :
  forall nu h, careful nu (fun _ => None) h ->
  (forall n, mfind n (c_items (run (empty_cont nu) h)) = arun nu h n) /\
  exact_counters (run (empty_cont nu) h) (arun nu h) /\
  exact_sets (run (empty_cont nu) h) (arun nu h).
Proof. exact careful_exact. Qed.
Print Assumptions C40_careful_histories_exact_partial.

(** Contacts (and costs added by name), for every history: contents, name sets
    and total dimension are exact; the active dimension is off by exactly the
    dimensions of the items that were inactive when removed. *)
Theorem C40_contacts_all_histories :
  forall nu h, no_item_overload h ->
  (forall n, mfind n (c_items (run (empty_cont nu) h)) = arun nu h n) /\
  exact_sets (run (empty_cont nu) h) (arun nu h) /\
  (exists l, enumerates l (arun nu h)) /\
  (forall l, enumerates l (arun nu h) ->
     c_n (run (empty_cont nu) h)
       = wrap (dims it_dim it_active l - removed_inactive nu (fun _ => None) h) /\
     c_ntot (run (empty_cont nu) h) = wrap (dims it_dim (fun _ => true) l)).
Proof. exact contacts_characterised. Qed.
Print Assumptions C40_contacts_all_histories.

(** The status getters, for every history of contacts and impulses: true exactly for the active items;
    unknown names give false. *)
Theorem C40_status :
  forall nu h name,
  (no_item_overload h -> (get_status name (run (empty_cont nu) h) = true <-> exists i, arun nu h name = Some i /\ it_active i = true)) /\
  (get_status name (impulse_run (empty_cont nu) h) = true <-> exists i, airun h name = Some i /\ it_active i = true).
Proof.
  intros nu h name. unfold get_status. split; [intro H; rewrite (proj1 (contacts_characterised nu h H) name)|rewrite (proj1 (impulses_characterised nu h) name)];
  (destruct (_ : option item) as [i|]; [split; [intro E; exists i; auto|intros (j & E & A); injection E as <-; exact A]|split; [discriminate|intros (j & E & _); discriminate E]]).
Qed.
Print Assumptions C40_status.

Theorem C40_impulses_all_histories :
  forall nu h,
  (forall n, mfind n (c_items (impulse_run (empty_cont nu) h)) = airun h n) /\
  exact_sets (impulse_run (empty_cont nu) h) (airun h) /\
  (exists l, enumerates l (airun h)) /\
  (forall l, enumerates l (airun h) ->
     c_n (impulse_run (empty_cont nu) h)
       = wrap (dims it_dim it_active l - iremoved_inactive (fun _ => None) h) /\
     c_ntot (impulse_run (empty_cont nu) h) = wrap (dims it_dim (fun _ => true) l)).
Proof. exact impulses_characterised. Qed.
Print Assumptions C40_impulses_all_histories.

(** A careful history with additions, a rejected addition, status changes and a
    removal; the container ends with two items, one of them active. *)
Definition sample_history : list cop :=
  [ OpAdd "lf" (Item 6 12 true); OpAdd "rf" (Item 3 12 true); OpAdd "bad" (Item 1 11 true);
    OpAddItem "lh" (Item 6 12 false); OpStatus "rf" false; OpRemove "lf";
    OpStatus "lh" true; OpAdd "lh" (Item 9 12 true) ].

Example C40_sample_careful : careful 12 (fun _ => None) sample_history.
Proof. simpl. repeat split; try reflexivity; try discriminate. Qed.

Example C40_sample_state :
  run (empty_cont 12) sample_history =
  Cont 12 6 9 [("lh"%string, Item 6 12 true); ("rf"%string, Item 3 12 false)]
       ["lh"%string] ["rf"%string].
Proof. reflexivity. Qed.

(** * C41: constraint manager *)

Theorem C41_manager_all_histories :
  forall nu h,
  (forall n, mfind n (m_items (mrun (empty_cman nu) h)) = amrun nu h n) /\
  exact_manager (mrun (empty_cman nu) h) (amrun nu h).
Proof. exact manager_exact. Qed.
Print Assumptions C41_manager_all_histories.

(** Without wrap-around the counters are the sums themselves. *)
Theorem C41_manager_sums :
  forall nu h l, enumerates l (amrun nu h) ->
  0 <= dims ci_ng ci_active l < 2 ^ 64 ->
  0 <= dims ci_nh ci_active l < 2 ^ 64 ->
  m_ng (mrun (empty_cman nu) h) = dims ci_ng ci_active l /\
  m_nh (mrun (empty_cman nu) h) = dims ci_nh ci_active l.
Proof.
  intros nu h l El Hg Hh. destruct (manager_exact nu h) as [_ (_ & H & _)].
  destruct (H l El) as (H1 & H2 & _). rewrite H1, H2. split; apply wrap_small; assumption.
Qed.
Print Assumptions C41_manager_sums.

Example C41_sample :
  mrun (empty_cman 4)
    [ MAdd "b" (CItem 2 0 4 true true); MAdd "a" (CItem 0 3 4 false true);
      MAdd "c" (CItem 5 1 4 true false); MAdd "d" (CItem 5 1 3 true true);
      MStatus "c" true; MRemove "a"; MStatus "b" false; MRemove "zz" ] =
  CMan 4 5 1 5 1 5 [("b"%string, CItem 2 0 4 true false); ("c"%string, CItem 5 1 4 true true)]
       ["c"%string] ["b"%string].
Proof. reflexivity. Qed.

(** * C42: cost sum evaluation *)

Local Close Scope Z_scope.
Section C42.
(** Arbitrary scalars (floating point included), states, controls and item datas. *)
Context {S X U D : Type} (zero : S) (add mul : S -> S -> S) (val : D -> comp -> S).

(** Value a user expects for component [c]: sum, in name order, of weight times
    the item's component over the active items. *)
Notation expected f ms ds c := (fold_left add (contribs mul val f ms ds c) zero).

Theorem C42_calc :
  forall (ms : smap (ecost S X U D)) x u (s : sdata S D),
  ssorted (keys (sd_items s)) -> keys ms = keys (sd_items s) ->
  exists s', sum_calc zero add mul val ms x u s = Ok s' tt /\
    sd_tot s' CCost = expected (fun m d => e_calc m d x u) ms (sd_items s) CCost /\
    (forall c, c <> CCost -> sd_tot s' c = sd_tot s c) /\
    (forall k m d, In (k, m) ms -> mfind k (sd_items s) = Some d ->
       mfind k (sd_items s') = Some (if e_active m then e_calc m d x u else d)).
Proof.
  intros ms x u s Hs Hk.
  destruct (sum_eval_spec zero add mul val is_cost (fun m d => e_calc m d x u) ms s Hs Hk)
    as (s' & E & H1 & H2 & _ & H4).
  exists s'. repeat split; auto. intros c Hc. apply H2. now destruct c.
Qed.

Theorem C42_calcDiff :
  forall (ms : smap (ecost S X U D)) x u (s : sdata S D),
  ssorted (keys (sd_items s)) -> keys ms = keys (sd_items s) ->
  exists s', sum_diff zero add mul val ms x u s = Ok s' tt /\
    (forall c, c <> CCost ->
       sd_tot s' c = expected (fun m d => e_diff m d x u) ms (sd_items s) c) /\
    sd_tot s' CCost = sd_tot s CCost /\
    (forall k m d, In (k, m) ms -> mfind k (sd_items s) = Some d ->
       mfind k (sd_items s') = Some (if e_active m then e_diff m d x u else d)).
Proof.
  intros ms x u s Hs Hk.
  destruct (sum_eval_spec zero add mul val is_deriv (fun m d => e_diff m d x u) ms s Hs Hk)
    as (s' & E & H1 & H2 & _ & H4).
  exists s'. repeat split; auto. intros c Hc. apply H1. now destruct c.
Qed.

Theorem C42_calcDiff_terminal :
  forall (ms : smap (ecost S X U D)) x (s : sdata S D),
  ssorted (keys (sd_items s)) -> keys ms = keys (sd_items s) ->
  exists s', sum_diffT zero add mul val ms x s = Ok s' tt /\
    (forall i, sd_tot s' (CLx i) = expected (fun m d => e_diffT m d x) ms (sd_items s) (CLx i)) /\
    (forall i j, sd_tot s' (CLxx i j)
                 = expected (fun m d => e_diffT m d x) ms (sd_items s) (CLxx i j)) /\
    (forall i j, sd_tot s' (CLu i) = sd_tot s (CLu i) /\
                 sd_tot s' (CLxu i j) = sd_tot s (CLxu i j) /\
                 sd_tot s' (CLuu i j) = sd_tot s (CLuu i j)).
Proof.
  intros ms x s Hs Hk.
  destruct (sum_eval_spec zero add mul val is_xderiv (fun m d => e_diffT m d x) ms s Hs Hk)
    as (s' & E & H1 & H2 & _ & _).
  exists s'. repeat split; auto.
Qed.

(** Inactive items contribute nothing, whatever their weight, model and data. *)
Theorem C42_inactive_irrelevant :
  forall f (ms1 ms2 : smap (ecost S X U D)) ds c,
  filter (fun km => e_active (snd km)) ms1 = filter (fun km => e_active (snd km)) ms2 ->
  expected f ms1 ds c = expected f ms2 ds c.
Proof.
  intros f ms1 ms2 ds c H. now rewrite (contribs_active _ _ _ ms1), (contribs_active _ _ _ ms2), H.
Qed.

(** Insertion order does not matter: the same named items inserted in two orders
    give the same container, hence bit-for-bit the same results. *)
Theorem C42_insertion_order :
  forall (l1 l2 : list (string * ecost S X U D)),
  NoDup (map fst l1) -> Permutation l1 l2 ->
  fold_right (fun kv m => minsert (fst kv) (snd kv) m) [] l1 =
  fold_right (fun kv m => minsert (fst kv) (snd kv) m) [] l2.
Proof. intros l1 l2. apply fold_insert_perm. Qed.

(** In exact arithmetic the total is the sum over the active items taken in any
    order. *)
Theorem C42_any_order :
  (forall a b, add a b = add b a) -> (forall a b c, add a (add b c) = add (add a b) c) ->
  (forall a, add zero a = a) ->
  forall f (ms : smap (ecost S X U D)) ds c l,
  Permutation (contribs mul val f ms ds c) l ->
  expected f ms ds c = fold_right add zero l.
Proof.
  intros H1 H2 H3 f ms ds c l P.
  rewrite (fold_left_add zero add H1 H2 H3), H3. now apply fold_right_perm.
Qed.

(** A mismatch in the number of datas is rejected without effect. *)
Theorem C42_size_mismatch_rejected :
  forall (ms : smap (ecost S X U D)) x u (s : sdata S D),
  length (sd_items s) <> length ms -> sum_calc zero add mul val ms x u s = Throw s.
Proof.
  intros ms x u s H. unfold sum_calc, sum_eval. apply Nat.eqb_neq in H. now rewrite H.
Qed.
End C42.
Print Assumptions C42_calc.
Print Assumptions C42_calcDiff.
Print Assumptions C42_calcDiff_terminal.
Print Assumptions C42_inactive_irrelevant.
Print Assumptions C42_insertion_order.
Print Assumptions C42_any_order.
Print Assumptions C42_size_mismatch_rejected.

(** Three costs on [x = 3], [u = 5], the middle one inactive: 2*3 + 10*(3+5). *)
Definition sample_costs : smap (ecost nat nat nat nat) :=
  let c w b f := ECost w b (fun _ x u => f x u) (fun _ x => x) (fun _ x u => x) (fun _ x => x) in
  [("goal"%string, c 2 true (fun x u => x)); ("pos"%string, c 7 false (fun x u => u));
   ("reg"%string, c 10 true (fun x u => x + u))].
Definition sample_sdata : sdata nat nat :=
  SData (fun _ => 99) [("goal"%string, 0); ("pos"%string, 1); ("reg"%string, 2)].

Example C42_sample_hyps :
  ssorted (keys (sd_items sample_sdata)) /\ keys sample_costs = keys (sd_items sample_sdata).
Proof.
  split; [|reflexivity]. simpl. repeat (constructor; [|repeat (constructor; try reflexivity)]).
  constructor.
Qed.
Example C42_sample_value :
  match sum_calc 0 Nat.add Nat.mul (fun d _ => d) sample_costs 3 5 sample_sdata with
  | Ok s _ => sd_tot s CCost = 86 /\ sd_tot s (CLx 0) = 99 /\ values (sd_items s) = [3; 1; 8]
  | _ => False
  end.
Proof. repeat split; reflexivity. Qed.

(** * C43: constraint stacking *)

(** Running nodes: with buffers of the advertised sizes the loop stays in range
    and fills them exactly with the active blocks in name order. *)
Theorem C43_running_partition :
  forall S (l : list (seg_item S)) b,
  Forall well_sized l ->
  length (b_g b) = total sel_running s_ng l -> length (b_h b) = total sel_running s_nh l ->
  length (b_lb b) = total sel_running s_ng l -> length (b_ub b) = total sel_running s_ng l ->
  manager_calc l b =
  Some (Bufs (stacked sel_running s_g l) (stacked sel_running s_h l)
             (stacked sel_running s_lb l) (stacked sel_running s_ub l)).
Proof. exact @manager_calc_exact. Qed.
Print Assumptions C43_running_partition.

(** Terminal nodes: [g] and [h] are exactly the terminal blocks; the bounds are
    written in the leading rows of the (larger) bound vectors. *)
Theorem C43_terminal_partition :
  forall S (l : list (seg_item S)) b,
  Forall well_sized l ->
  length (b_g b) = total sel_terminal s_ng l -> length (b_h b) = total sel_terminal s_nh l ->
  length (b_lb b) = total sel_running s_ng l -> length (b_ub b) = total sel_running s_ng l ->
  total sel_terminal s_ng l <= total sel_running s_ng l /\
  manager_calcT l b =
  Some (Bufs (stacked sel_terminal s_g l) (stacked sel_terminal s_h l)
             (stacked sel_terminal s_lb l ++ skipn (total sel_terminal s_ng l) (b_lb b))
             (stacked sel_terminal s_ub l ++ skipn (total sel_terminal s_ng l) (b_ub b))).
Proof. exact @manager_calcT_exact. Qed.
Print Assumptions C43_terminal_partition.

(** Row [r] of an active constraint is row [offset + r] of the stack, where the
    offset is the number of active rows that precede it. *)
Theorem C43_row_of_item :
  forall S (sel : seg_item S -> bool) l1 m l2 r,
  Forall well_sized (l1 ++ m :: l2) -> sel m = true -> r < s_ng m ->
  nth_error (stacked sel s_g (l1 ++ m :: l2)) (total sel s_ng l1 + r) = nth_error (s_g m) r /\
  nth_error (stacked sel s_lb (l1 ++ m :: l2)) (total sel s_ng l1 + r) = nth_error (s_lb m) r /\
  nth_error (stacked sel s_ub (l1 ++ m :: l2)) (total sel s_ng l1 + r) = nth_error (s_ub m) r.
Proof. exact @stacked_row. Qed.
Print Assumptions C43_row_of_item.

Definition sample_segs : list (seg_item nat) :=
  [ SegItem true true 2 0 [1; 2] [] [10; 10] [20; 20];
    SegItem false true 1 1 [3] [4] [0] [0];
    SegItem true false 1 2 [5] [6; 7] [11] [21] ].
Example C43_sample_sized : Forall well_sized sample_segs.
Proof. repeat (constructor; [repeat split|]). constructor. Qed.
Example C43_sample :
  manager_calc sample_segs (Bufs [0;0;0] [0;0] [0;0;0] [0;0;0]) =
    Some (Bufs [1;2;5] [6;7] [10;10;11] [20;20;21]) /\
  manager_calcT sample_segs (Bufs [0;0] [] [9;9;9] [9;9;9]) =
    Some (Bufs [1;2] [] [10;10;9] [20;20;9]).
Proof. split; reflexivity. Qed.

(** * C61: re-sizing standalone constraint datas *)

(** False: create the data while a 5-row constraint is inactive, activate it and
    call [resize(model)]: the view covers 5 rows of a buffer allocated with 0. *)
Theorem C61_resize_in_bounds_refuted :
  exists nu h1 h2,
    let ng0 := m_ng (mrun (empty_cman nu) h1) in
    let ng1 := m_ng (mrun (empty_cman nu) (h1 ++ h2)) in
    gmem_safe (gmem_create ng0) /\ ~ gmem_safe (gmem_resize ng1 (gmem_create ng0)).
Proof.
  exists 4%Z, [MAdd "c" (CItem 5 0 4 true false)], [MStatus "c" true].
  unfold gmem_safe. simpl. split; [reflexivity|]. intro H. now apply H.
Qed.
Print Assumptions C61_resize_in_bounds_refuted.

(** Holds while constraints are only deactivated or removed after the creation of
    the data.  Missing: activations and additions, where it is false. *)
Theorem C61_resize_in_bounds_partial :
  forall nu h1 h2,
    (forall o, In o h1 -> match o with MAdd _ i => (0 <= ci_ng i)%Z | _ => True end) ->
    (forall l, enumerates l (amrun nu h1) -> (dims ci_ng ci_active l < 2 ^ 64)%Z) ->
    (forall o, In o h2 -> match o with MAdd _ _ => False | MStatus _ b => b = false | _ => True end) ->
    gmem_safe (gmem_resize (m_ng (mrun (empty_cman nu) (h1 ++ h2)))
                           (gmem_create (m_ng (mrun (empty_cman nu) h1)))).
Proof. exact resize_after_deactivation. Qed.
Print Assumptions C61_resize_in_bounds_partial.

Example C61_sample :
  let h1 := [MAdd "c" (CItem 5 0 4 true true); MAdd "d" (CItem 2 0 4 true true)] in
  m_ng (mrun (empty_cman 4) h1) = 7%Z /\
  m_ng (mrun (empty_cman 4) (h1 ++ [MStatus "c" false])) = 2%Z.
Proof. split; reflexivity. Qed.

(** And a view that is too small makes the stacking loop write out of range. *)
Theorem C61_stale_view_is_undefined :
  forall S (sel : seg_item S -> bool) l b,
  Forall well_sized l -> length (b_g b) < total sel s_ng l -> stack_loop sel l 0 0 b = None.
Proof. exact @manager_stack_too_small. Qed.
Print Assumptions C61_stale_view_is_undefined.

(** * C44: joint forces *)

(** Force a user expects on joint [j]: the sum over the active contacts attached
    to it. *)
Definition joint_force {F} (zero : F) (add : F -> F -> F) (l : list (fcontact F)) (j : nat) : F :=
  fold_right add zero
    (map f_fext (filter (fun c => f_active c && Nat.eqb (f_joint c) j) l)).

(** False: two active contacts on one joint, the first one is lost. *)
Theorem C44_shared_joint_refuted :
  exists (l : list (fcontact Z)) j,
    fst (update_force 0%Z l) j <> joint_force 0%Z Z.add l j.
Proof.
  exists [FContact true 2 5%Z; FContact true 2 7%Z], 2%nat.
  unfold joint_force, update_force. simpl. unfold fput. simpl. discriminate.
Qed.
Print Assumptions C44_shared_joint_refuted.

(** Holds for every joint with at most one active contact; inactive contacts
    always carry zero force.  Missing: joints with several active contacts. *)
Theorem C44_distinct_joints_partial :
  forall F (zero : F) (add : F -> F -> F) (add_0_r : forall a, add a zero = a)
         (l : list (fcontact F)) j,
  (forall k1 k2 c1 c2, nth_error l k1 = Some c1 -> nth_error l k2 = Some c2 ->
     f_active c1 && Nat.eqb (f_joint c1) j = true ->
     f_active c2 && Nat.eqb (f_joint c2) j = true -> k1 = k2) ->
  fst (update_force zero l) j = joint_force zero add l j.
Proof.
  intros F zero add H0 l j H. destruct (update_force_unique zero l j H) as [E L].
  rewrite E. unfold joint_force. fold (attached (F := F) j).
  destruct (filter (attached j) l) as [|c [|c' r]]; simpl in *; auto; lia.
Qed.
Print Assumptions C44_distinct_joints_partial.

Theorem C44_inactive_zero :
  forall F (zero : F) (l : list (fcontact F)) c,
  In c (snd (update_force zero l)) -> f_active c = false -> f_fext c = zero.
Proof. exact @update_force_inactive. Qed.
Print Assumptions C44_inactive_zero.

(** In general the joint keeps the force of the last active contact in name order. *)
Theorem C44_last_contact_wins :
  forall F (zero : F) (l : list (fcontact F)) j,
  fst (update_force zero l) j =
  match filter (fun c => f_active c && Nat.eqb (f_joint c) j) (rev l) with
  | [] => zero | c :: _ => f_fext c end.
Proof. exact @update_force_last. Qed.
Print Assumptions C44_last_contact_wins.

Example C44_sample :
  let l := [FContact true 1 5%Z; FContact false 1 7%Z; FContact true 3 9%Z] in
  map (fst (update_force 0%Z l)) [0; 1; 2; 3]%nat = [0; 5; 0; 9]%Z.
Proof. reflexivity. Qed.
