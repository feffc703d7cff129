(** C113: playing back a solution. *)
From Coq Require Import List Arith Bool QArith Lia Sorted.
From Verif Require Import Display_Model.
Import ListNotations.
Open Scope list_scope.
Open Scope nat_scope.

Section Spec.
Context {X F : Type}.
Implicit Types (ns : list (@node F)) (s : @scene F).

(** ** Specification *)
(** the contacts and the thrusts of a node, whatever integrates it *)
Definition contacts_of (n : @node F) : list (@contact F) :=
  match n with Euler (Some cs) _ _ | Rk (Some cs) _ _ | Impulse cs => cs | _ => [] end.
Definition thrusts_of (n : @node F) : list F :=
  match n with Euler _ (Some ts) _ | Rk _ (Some ts) _ => ts | _ => [] end.
Definition pushes (n : @node F) (j : nat) (f : F) : Prop :=
  exists c, In c (contacts_of n) /\ active c = true /\ joint c = j /\ force c = f.
(** the joints that have a contact at some node *)
Definition contact_joint ns (j : nat) : Prop := exists n c, In n ns /\ In c (contacts_of n) /\ joint c = j.
(** the arrows show the forces of the node and nothing else *)
Definition arrows_right ns (n : @node F) s : Prop :=
  forall j, contact_joint ns j ->
    (forall f, pushes n j f -> s j = Some f) /\ ((forall f, ~ pushes n j f) -> s j = None).
(** a shot is right for frame [i] of the solution; the last node has no control, hence no thrust *)
Definition shot_right ns (nt : @node F) (xs : list X) (factor : Q) (i : nat) (sh : @shot X F) : Prop :=
  exists n, nth_error (ns ++ [nt]) i = Some n /\ nth_error xs i = Some (shown_state sh) /\
    arrows_right (ns ++ [nt]) n (arrows sh) /\
    thrusts sh = (if Nat.eqb i (length ns) then [] else thrusts_of n) /\
    sleep sh = (match n with Euler _ _ dt | Rk _ _ dt => dt | _ => 0 end * factor)%Q.

(** ** Conditions *)
(** contacts that the display finds, one per joint *)
Definition found_ok (n : @node F) : Prop :=
  match n with
  | Euler (Some cs) _ _ | Impulse cs => NoDup (map joint (filter active cs))
  | _ => False
  end.
Definition thrusters_ok ns : Prop :=
  (forall n, In n ns -> exists cs ts dt, n = Euler cs (Some ts) dt) \/
  (forall n, In n ns -> match n with Euler _ None _ | Rk _ None _ | Impulse _ | Other => True | _ => False end).

(** ** Proofs *)
Lemma show_forces_spec (fs : list (nat * F)) : forall act s,
  let '(act', s') := show_forces fs act s in
  (forall j, In j act' <-> In j act \/ In j (map fst fs)) /\
  (forall j, ~ In j (map fst fs) -> s' j = s j) /\
  (NoDup (map fst fs) -> forall j f, In (j, f) fs -> s' j = Some f).
Proof.
  induction fs as [|[k g] fs IH]; intros act s; cbn [show_forces].
  - split; [intro j; cbn; tauto|]. split; [reflexivity|]. intros _ j f [].
  - specialize (IH (k :: act) (upd s k (Some g))). destruct (show_forces fs (k :: act) (upd s k (Some g))) as [act' s'].
    destruct IH as (H1 & H2 & H3). cbn [map fst]. split; [|split].
    + intro j. rewrite H1. cbn. tauto.
    + intros j Hj. rewrite H2; [|intro G; apply Hj; now right]. unfold upd.
      destruct (Nat.eqb_spec j k) as [->|_]; [destruct Hj; now left|reflexivity].
    + intros Nd j f Hin. inversion Nd as [|? ? Nk Nd']; subst.
      destruct Hin as [E|Hin]; [injection E as <- <-; rewrite H2 by assumption; unfold upd; now rewrite Nat.eqb_refl|].
      now apply H3.
Qed.
Lemma hide_spec keys act : forall s j,
  (In j act -> hide keys act s j = s j) /\ (In j keys -> ~ In j act -> hide keys act s j = None) /\
  (s j = None -> hide keys act s j = None).
Proof.
  unfold hide. induction keys as [|k keys IH]; intros s j; cbn [fold_left].
  - split; [reflexivity|]. split; [intros []|auto].
  - assert (E : existsb (Nat.eqb k) act = true <-> In k act).
    { rewrite existsb_exists. split; [intros (y & Hy & Ey); apply Nat.eqb_eq in Ey; now subst|].
      intro H. exists k. split; [assumption|apply Nat.eqb_refl]. }
    set (t := if existsb (Nat.eqb k) act then s else upd s k None).
    assert (T1 : In j act -> t j = s j).
    { intro H. unfold t, upd. destruct (existsb (Nat.eqb k) act); [reflexivity|].
      destruct (Nat.eqb_spec j k) as [->|_]; [|reflexivity]. apply E in H. discriminate. }
    assert (T2 : s j = None -> t j = None).
    { intro H. unfold t, upd. destruct (existsb (Nat.eqb k) act); [exact H|]. now destruct (Nat.eqb j k). }
    destruct (IH t j) as (I1 & I2 & I3). split; [|split].
    + intro H. now rewrite I1, T1.
    + intros [->|H] Nj; [|now apply I2]. apply I3. unfold t, upd.
      destruct (existsb (Nat.eqb j) act); [now destruct Nj; apply E|]. now rewrite Nat.eqb_refl.
    + intro H. now apply I3, T2.
Qed.

Lemma found_all n : found_ok n -> found n = Some (contacts_of n).
Proof. destruct n as [[cs|] th dt|cs th dt|cs|]; cbn; tauto. Qed.
Lemma init_keys_in ns : (forall n, In n ns -> found_ok n) -> forall j, contact_joint ns j <-> In j (init_keys ns).
Proof.
  intros H j. unfold init_keys, contact_joint. rewrite in_flat_map. split.
  - intros (n & c & Hn & Hc & <-). exists n. split; [assumption|]. rewrite found_all by now apply H.
    now apply in_map.
  - intros (n & Hn & Hj). rewrite found_all in Hj by now apply H. apply in_map_iff in Hj as (c & <- & Hc).
    now exists n, c.
Qed.
Lemma forces_all ns : (forall n, In n ns -> found_ok n) ->
  flat_map (fun n => match found n with Some cs => [force_information cs] | None => [] end) ns =
  map (fun n => force_information (contacts_of n)) ns.
Proof.
  intro H. induction ns as [|n ns IH]; [reflexivity|]. cbn [flat_map map].
  rewrite found_all by (apply H; now left). rewrite IH; [reflexivity|]. intros m Hm. apply H. now right.
Qed.
Lemma force_trajectory_all ns : (forall n, In n ns -> found_ok n) ->
  (init_keys ns = [] /\ force_trajectory ns = None) \/
  force_trajectory ns = Some (map (fun n => force_information (contacts_of n)) ns).
Proof.
  intro H. unfold force_trajectory. rewrite (forces_all ns H). destruct (init_keys ns); [now left|now right].
Qed.
Lemma arrows_after ns n s act0 : (forall m, In m ns -> found_ok m) -> In n ns ->
  let '(act, s') := show_forces (force_information (contacts_of n)) act0 s in
  act0 = [] -> arrows_right ns n (hide (init_keys ns) act s').
Proof.
  intros H Hn. pose proof (show_forces_spec (force_information (contacts_of n)) act0 s) as P.
  destruct (show_forces (force_information (contacts_of n)) act0 s) as [act s']. destruct P as (P1 & P2 & P3).
  intros -> j Hj. apply init_keys_in in Hj; [|exact H].
  assert (E : forall f, pushes n j f <-> In (j, f) (force_information (contacts_of n))).
  { intro f. unfold force_information. rewrite in_map_iff. split.
    - intros (c & Hc & Ha & <- & <-). exists c. split; [reflexivity|]. apply filter_In. now split.
    - intros (c & Ec & Hc). injection Ec as <- <-. apply filter_In in Hc as [Hc Ha]. now exists c. }
  assert (Nd : NoDup (map fst (force_information (contacts_of n)))).
  { unfold force_information. rewrite map_map. cbn. pose proof (H n Hn) as K.
    destruct n as [[cs|] th dt|cs th dt|cs|]; cbn in *; tauto || exact K. }
  destruct (hide_spec (init_keys ns) act s' j) as (Q1 & Q2 & Q3). split.
  - intros f Hf. apply E in Hf. rewrite Q1; [now apply P3|]. apply P1. right. apply in_map_iff. now exists (j, f).
  - intro Hf. apply Q2; [exact Hj|]. rewrite P1. intros [[]|Hin]. apply in_map_iff in Hin as ([k f] & Ek & Hin). cbn in Ek. subst k.
    now apply (Hf f), E.
Qed.

Lemma thrust_all ns : thrusters_ok ns ->
  exists rs, thrust_trajectory ns = Some rs /\
    ((rs = [] /\ forall n, In n ns -> thrusts_of n = []) \/ rs = map thrusts_of ns).
Proof.
  intros [H|H].
  - exists (map thrusts_of ns). split; [|now right]. induction ns as [|n ns IH]; [reflexivity|].
    destruct (H n (or_introl eq_refl)) as (cs & ts & dt & ->). cbn [thrust_trajectory map thrusts_of].
    rewrite IH; [reflexivity|]. intros m Hm. apply H. now right.
  - exists []. split.
    + induction ns as [|n ns IH]; [reflexivity|]. pose proof (H n (or_introl eq_refl)) as K.
      cbn [thrust_trajectory]. destruct n as [cs [th|] dt|cs [th|] dt|cs|]; try contradiction;
        apply IH; intros m Hm; apply H; now right.
    + left. split; [reflexivity|]. intros n Hn. specialize (H n Hn).
      destruct n as [cs [th|] dt|cs [th|] dt|cs|]; try contradiction; reflexivity.
Qed.

Variable frac_hit : nat -> nat -> nat -> bool.
Lemma loop_right rate ns nt xs factor rs :
  (forall n, In n (ns ++ [nt]) -> found_ok n) -> length xs = S (length ns) ->
  ((rs = [] /\ forall n, In n ns -> thrusts_of n = []) \/ rs = map thrusts_of ns) ->
  forall tl i act s, tl = skipn i xs -> i <= length xs ->
  exists shots,
    display_loop frac_hit rate (length xs) tl i (map duration (ns ++ [nt])) rs (force_trajectory (ns ++ [nt]))
      (init_keys (ns ++ [nt])) act s factor = (shots, true) /\
    Forall2 (shot_right ns nt xs factor) (filter (hit frac_hit rate (length xs)) (seq i (length tl))) shots.
Proof.
  intros Hf Hl Hr. induction tl as [|x tl IH]; intros i act s Et Hi; cbn [display_loop length seq filter].
  - exists []. now split.
  - assert (Hlt : i < length xs).
    { destruct (Nat.eq_dec i (length xs)) as [->|]; [rewrite skipn_all in Et; discriminate|lia]. }
    assert (Hx : nth_error xs i = Some x /\ tl = skipn (S i) xs).
    { revert Et Hlt. clear. revert i. induction xs as [|y xs IH]; intros i E L; [cbn in L; lia|].
      destruct i as [|i]; [cbn in E; injection E as -> ->; now split|]. cbn in *. apply IH; [exact E|lia]. }
    destruct Hx as [Hx Htl].
    destruct (nth_error (ns ++ [nt]) i) as [n|] eqn:En; [|apply nth_error_None in En; rewrite app_length in En; cbn in En; lia].
    assert (Hn : In n (ns ++ [nt])) by (eapply nth_error_In; exact En).
    set (all := ns ++ [nt]) in *.
    destruct (hit frac_hit rate (length xs) i) eqn:Hh.
    2:{ destruct (IH (S i) act s Htl Hlt) as (l & E1 & E2). now exists l. }
    assert (Th : match rs with [] => Some [] | _ => if Nat.eqb i (length xs - 1) then Some [] else nth_error rs i end
                 = Some (if Nat.eqb i (length ns) then [] else thrusts_of n)).
    { replace (length xs - 1) with (length ns) by lia.
      destruct (Nat.eqb_spec i (length ns)) as [->|Ni]; [now destruct rs|].
      assert (En' : nth_error ns i = Some n) by (unfold all in En; rewrite nth_error_app1 in En by lia; exact En).
      destruct Hr as [[-> Hr]| ->]; [rewrite Hr; [reflexivity|eapply nth_error_In; exact En']|].
      pose proof (map_nth_error thrusts_of i ns En') as M. destruct ns as [|n0 ns']; [now destruct i|exact M]. }
    rewrite Th. clear Th.
    assert (Fo : exists act' s', match force_trajectory all with
                 | Some ((_ :: _) as l) => option_map (fun f => show_forces f [] s) (nth_error l i)
                 | _ => Some (act, s)
                 end = Some (act', s') /\ arrows_right all n (hide (init_keys all) act' s')).
    { destruct (force_trajectory_all all Hf) as [[Ek ->]| ->].
      - exists act, s. split; [reflexivity|]. intros j Hj. apply (init_keys_in all Hf) in Hj. rewrite Ek in Hj. destruct Hj.
      - pose proof (map_nth_error (fun n => force_information (contacts_of n)) i all En) as M.
        pose proof (arrows_after all n s [] Hf Hn) as A.
        destruct (show_forces (force_information (contacts_of n)) [] s) as [act' s'] eqn:Es.
        exists act', s'. split; [|now apply A].
        destruct (map (fun n => force_information (contacts_of n)) all) as [|f0 l0]; [now destruct i|].
        rewrite M. cbn [option_map]. now rewrite Es. }
    destruct Fo as (act' & s' & Fo & Ar). rewrite Fo. clear Fo.
    rewrite (map_nth_error duration i all En).
    destruct (IH (S i) act' (hide (init_keys all) act' s') Htl Hlt) as (l & E1 & E2). rewrite E1.
    eexists. split; [reflexivity|]. constructor; [|exact E2].
    exists n. repeat split; try assumption.
    + now apply Ar.
    + now apply Ar.
Qed.
Lemma filter_sorted (p : nat -> bool) n i : StronglySorted lt (filter p (seq i n)) /\ Forall (le i) (filter p (seq i n)).
Proof.
  revert i. induction n as [|n IH]; intro i; cbn [seq filter]; [split; constructor|].
  destruct (IH (S i)) as [H1 H2].
  assert (H2' : Forall (lt i) (filter p (seq (S i) n))) by (eapply Forall_impl; [|exact H2]; cbn; lia).
  destruct (p i); split.
  - now constructor.
  - constructor; [lia|]. eapply Forall_impl; [|exact H2']. cbn. lia.
  - exact H1.
  - eapply Forall_impl; [|exact H2']. cbn. lia.
Qed.
Lemma filter_all (p : nat -> bool) l : (forall i, In i l -> p i = true) -> filter p l = l.
Proof. induction l as [|a l IH]; intro H; [reflexivity|]. cbn. rewrite H by now left. f_equal. apply IH. intros i Hi. apply H. now right. Qed.

(** Every frame shown is shown with the state, the forces, the thrusts and the duration of its own
    node, in the order of the trajectory, and no index runs out of range: if the display finds the
    contacts of every node, one per joint, and either all running nodes have thrusters or none. *)
Theorem C113_frames_partial rate ns nt xs s0 factor :
  (forall n, In n (ns ++ [nt]) -> found_ok n) -> thrusters_ok ns -> length xs = S (length ns) ->
  exists idx shots, display_from_solver frac_hit rate ns nt xs s0 factor = (shots, true) /\
    Forall2 (shot_right ns nt xs factor) idx shots /\ StronglySorted lt idx /\
    (rate = None -> idx = seq 0 (length xs)).
Proof.
  intros Hf Ht Hl. destruct (thrust_all ns Ht) as (rs & Er & Hr). unfold display_from_solver. rewrite Er.
  destruct (loop_right rate ns nt xs factor rs Hf Hl Hr xs 0 (init_keys (ns ++ [nt])) s0) as (shots & E1 & E2);
    [reflexivity|lia|].
  exists (filter (hit frac_hit rate (length xs)) (seq 0 (length xs))), shots.
  split; [exact E1|]. split; [exact E2|]. split; [apply filter_sorted|].
  intros ->. apply filter_all. reflexivity.
Qed.
End Spec.

(** With a rate that divides the number of states, the number of frames shown is the rate. *)
Lemma count_multiples k r : 0 < k -> forall i, length (filter (fun i => Nat.eqb (i mod k) 0) (seq (i * k) (r * k))) = r.
Proof.
  intro Hk. induction r as [|r IH]; intro i; [reflexivity|].
  assert (E : seq (i * k) (S r * k) = seq (i * k) k ++ seq (S i * k) (r * k)).
  { replace (S r * k) with (k + r * k) by lia. rewrite seq_app. do 2 f_equal. lia. }
  rewrite E, filter_app, app_length, IH. clear E.
  assert (L : length (filter (fun i => Nat.eqb (i mod k) 0) (seq (i * k) k)) = 1); [|lia].
  destruct k as [|k]; [lia|]. cbn [seq filter]. rewrite Nat.mod_mul by lia. cbn [Nat.eqb length]. f_equal.
  assert (N : forall j, In j (seq (S (i * S k)) k) -> Nat.eqb (j mod S k) 0 = false).
  { intros j Hj. apply in_seq in Hj. apply Nat.eqb_neq. intro Z.
    apply Nat.mod_divide in Z; [|lia]. destruct Z as [q Eq]. assert (q = i \/ q < i \/ i < q) by lia. nia. }
  revert N. generalize (seq (S (i * S k)) k) as l. induction l as [|a l IHl]; intro N; [reflexivity|].
  cbn [filter]. rewrite N by now left. apply IHl. intros j Hj. apply N. now right.
Qed.
Lemma forall2_len {A B} (P : A -> B -> Prop) l m : Forall2 P l m -> length l = length m.
Proof. induction 1; cbn; congruence. Qed.
Theorem C113_rate (X F : Type) frac r (ns : list (@node F)) nt (xs : list X) s0 factor :
  (forall n, In n (ns ++ [nt]) -> found_ok n) -> thrusters_ok ns -> length xs = S (length ns) ->
  0 < r -> length xs mod r = 0 ->
  length (fst (display_from_solver frac (Some r) ns nt xs s0 factor)) = Nat.min r (length xs).
Proof.
  intros Hf Ht Hl Hr0 Hm. destruct (thrust_all ns Ht) as (rs & Er & Hr). unfold display_from_solver. rewrite Er.
  destruct (loop_right frac (Some r) ns nt xs factor rs Hf Hl Hr xs 0 (init_keys (ns ++ [nt])) s0) as (shots & E1 & E2);
    [reflexivity|lia|].
  rewrite E1. cbn [fst]. rewrite <- (forall2_len _ _ _ E2).
  apply Nat.mod_divide in Hm as [k Ek]; [|lia].
  destruct (Nat.leb_spec (length xs) r) as [L|L].
  - rewrite filter_all; [rewrite seq_length; lia|]. intros i _. unfold hit. now rewrite (proj2 (Nat.leb_le _ _) L).
  - assert (Ekk : length xs / r = k) by (rewrite Ek; apply Nat.div_mul; lia).
    rewrite (filter_ext _ (fun i => Nat.eqb (i mod k) 0)).
    2:{ intro i. unfold hit. rewrite (proj2 (Nat.leb_gt _ _) L), Ekk, Ek, Nat.mod_mul by lia. reflexivity. }
    assert (Hk : 0 < k) by (destruct k; lia).
    rewrite Ek, (Nat.mul_comm k r).
    pose proof (count_multiples k r Hk 0) as C. change (0 * k) with 0 in C. rewrite C. nia.
Qed.

(** The time sequence: one entry per state, each the sum of the durations before it. *)
Theorem C113_times (F : Type) (ns : list (@node F)) :
  length (time_sequence ns) = S (length ns) /\
  forall i, i <= length ns ->
    nth_error (time_sequence ns) i = Some (fold_left Qplus (map duration (firstn i ns)) 0%Q).
Proof.
  assert (P : forall (dts : list Q) t ts, length (time_loop dts t ts) = length ts + length dts /\
     (forall i, i < length ts -> nth_error (time_loop dts t ts) i = nth_error ts i) /\
     (forall i, i < length dts -> nth_error (time_loop dts t ts) (length ts + i) = Some (fold_left Qplus (firstn (S i) dts) t))).
  { induction dts as [|d dts IH]; intros t ts; cbn [time_loop].
    - cbn. split; [lia|]. split; [reflexivity|]. intros i Hi. lia.
    - destruct (IH (t + d)%Q (ts ++ [(t + d)%Q])) as (I1 & I2 & I3). rewrite app_length in *. cbn [length] in *.
      split; [lia|]. split.
      + intros i Hi. rewrite I2 by lia. now rewrite nth_error_app1.
      + intros i Hi. destruct i as [|i].
        * rewrite I2 by lia. rewrite nth_error_app2 by lia. replace (length ts + 0 - length ts) with 0 by lia. reflexivity.
        * replace (length ts + S i) with (length ts + 1 + i) by lia. rewrite I3 by lia. reflexivity. }
  unfold time_sequence. destruct (P (map duration ns) 0%Q [0%Q]) as (P1 & P2 & P3). cbn [length] in *.
  rewrite map_length in *. split; [exact P1|]. intros i Hi. destruct i as [|i]; [now rewrite P2 by lia|].
  change (S i) with (1 + i) at 1. rewrite P3 by lia. now rewrite firstn_map.
Qed.

(** ** Where it goes wrong *)
Notation ct j f := (Ct j true f).
(** A node without contacts shifts the forces of the later nodes to earlier frames and the play-back
    ends with an exception. *)
Theorem C113_mixed_refuted : exists (ns : list (@node nat)) nt (xs : list nat),
  length xs = S (length ns) /\ forall frac s0 factor,
  let '(l, ok) := display_from_solver frac None ns nt xs s0 factor in
  ok = false /\ exists sh, nth_error l 0 = Some sh /\ arrows sh 5 = Some 10 /\
  forall n, nth_error ns 0 = Some n -> contacts_of n = [].
Proof.
  exists [Euler None None 1%Q; Euler (Some [ct 5 10]) None 1%Q], (Euler (Some [ct 5 20]) None 0%Q), [100; 101; 102].
  split; [reflexivity|]. intros frac s0 factor. cbn. split; [reflexivity|]. eexists. split; [reflexivity|].
  split; [reflexivity|]. intros n H. injection H as <-. reflexivity.
Qed.
(** With a Runge-Kutta integrator no contact force is shown. *)
Theorem C113_rk_refuted : exists (n : @node nat) (xs : list nat),
  pushes n 5 10 /\ forall frac factor,
  let '(l, ok) := display_from_solver frac None [n] n xs (fun _ => None) factor in
  ok = true /\ length l = 2 /\ forall sh, In sh l -> arrows sh 5 = None.
Proof.
  exists (Rk (Some [ct 5 10]) None 1%Q), [100; 101]. split.
  - exists (ct 5 10). cbn. tauto.
  - intros frac factor. cbn. split; [reflexivity|]. split; [reflexivity|].
    intros sh [<-|[<-|[]]]; reflexivity.
Qed.
(** Of two contacts at one joint only the last is shown. *)
Theorem C113_joint_refuted : exists (n : @node nat) (xs : list nat),
  pushes n 5 10 /\ pushes n 5 20 /\ forall frac factor,
  let '(l, ok) := display_from_solver frac None [n] n xs (fun _ => None) factor in
  ok = true /\ length l = 2 /\ forall sh j, In sh l -> arrows sh j <> Some 10.
Proof.
  exists (Euler (Some [ct 5 10; ct 5 20]) None 1%Q), [100; 101]. split; [|split].
  - exists (ct 5 10). cbn. tauto.
  - exists (ct 5 20). cbn. tauto.
  - intros frac factor. cbn. split; [reflexivity|]. split; [reflexivity|].
    intros sh j [<-|[<-|[]]]; cbn [arrows]; unfold hide; cbn [fold_left existsb Nat.eqb orb]; unfold upd;
      destruct (Nat.eqb j 5); discriminate.
Qed.
(** A running node without thrusters shifts the thrusts. *)
Theorem C113_thrust_refuted : exists (ns : list (@node nat)) nt (xs : list nat),
  length xs = S (length ns) /\ forall frac s0 factor,
  let '(l, ok) := display_from_solver frac None ns nt xs s0 factor in
  ok = false /\ exists sh, nth_error l 0 = Some sh /\ thrusts sh = [7] /\
  forall n, nth_error ns 0 = Some n -> thrusts_of n = [].
Proof.
  exists [Euler None None 1%Q; Euler None (Some [7]) 1%Q], (Euler None (Some [8]) 0%Q), [100; 101; 102].
  split; [reflexivity|]. intros frac s0 factor. cbn. split; [reflexivity|]. eexists. split; [reflexivity|].
  split; [reflexivity|]. intros n H. injection H as <-. reflexivity.
Qed.
(** With a rate, the frames that are skipped take no time: the play-back is shorter than the motion. *)
Theorem C113_duration_refuted : exists (n nt : @node nat) (xs : list nat),
  found_ok n /\ found_ok nt /\ forall frac s0,
  let '(l, ok) := display_from_solver frac (Some 2) [n; n; n] nt xs s0 1%Q in
  ok = true /\ (fold_left Qplus (map sleep l) 0 == 2)%Q /\
  (fold_left Qplus (map duration [n; n; n; nt]) 0 == 3)%Q.
Proof.
  exists (Euler (Some []) None 1%Q), (Euler (Some []) None 0%Q), [1; 2; 3; 4].
  split; [constructor|]. split; [constructor|]. intros frac s0. cbn. split; [reflexivity|]. split; reflexivity.
Qed.

Example frames_ex :
  let ns := [Euler (Some [ct 5 10; Ct 6 false 11]) (Some [1; 2]) 1%Q; Euler (Some [ct 6 30]) (Some [3; 4]) 2%Q] in
  let nt := Impulse [ct 5 20; ct 6 21] in
  (forall n, In n (ns ++ [nt]) -> found_ok n) /\ thrusters_ok ns /\
  map (fun sh => (arrows sh 5, arrows sh 6, thrusts sh)) (fst (display_from_solver (fun _ _ _ => true) None ns nt [1; 2; 3] (fun _ => None) 1%Q))
  = [(Some 10, None, [1; 2]); (None, Some 30, [3; 4]); (Some 20, Some 21, [])].
Proof.
  cbn zeta. split; [|split; [|reflexivity]].
  - intros n [<-|[<-|[<-|[]]]]; cbn; repeat constructor; cbn; intuition lia.
  - left. intros n [<-|[<-|[]]]; eexists _, _, _; reflexivity.
Qed.

Print Assumptions C113_frames_partial.
Print Assumptions C113_rate.
Print Assumptions C113_times.
Print Assumptions C113_mixed_refuted.
Print Assumptions C113_rk_refuted.
Print Assumptions C113_joint_refuted.
Print Assumptions C113_thrust_refuted.
Print Assumptions C113_duration_refuted.
