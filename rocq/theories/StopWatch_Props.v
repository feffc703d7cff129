(** C99: profiler statistics. *)
From Coq Require Import String List ZArith Bool Lia.
From Verif Require Import StopWatch_Model.
Import ListNotations.
Open Scope string_scope. Open Scope list_scope. Open Scope Z_scope.

(** ** Specification *)
(** What a history measures for one name: the time of the latest start and the measured durations, latest
    first, since the latest reset.  [known]: the name was used; [clean]: it was never reset. *)
Record heard := H { on : bool; prof : bool; ws : list (string * bool); known : bool; since : option Z; laps : list Z; clean : bool }.
Definition silence : heard := H true false [] false None [] true.
Definition time (m : mode) (t : reading) : Z := match m with MCpu => ticks t | _ => real t end.
Section Spec.
Variables (m : mode) (n : string).
Definition started (h : heard) (t : reading) : heard := H (on h) (prof h) (ws h) true (Some (time m t)) (laps h) (clean h).
Definition stopped (h : heard) (t : reading) : heard :=
  match since h with
  | None => h
  | Some b => H (on h) (prof h) (ws h) (known h) (since h) (time m t - b :: laps h) (clean h)
  end.
Definition forget (h : heard) : heard := if known h then H (on h) (prof h) (ws h) true None [] false else h.
Definition set_ws (h : heard) (w : list (string * bool)) : heard := H (on h) (prof h) w (known h) (since h) (laps h) (clean h).
Definition know (h : heard) : heard := H (on h) (prof h) (ws h) true (since h) (laps h) (clean h).
Definition is (k : string) : bool := String.eqb n k.
Definition bind (i : nat) (k : string) (w : list (string * bool)) : list (string * bool) :=
  map (fun k' => if Nat.eqb (fst k') i then (k, true) else snd k') (combine (seq 0 (length w)) w).
Definition hear (h : heard) (o : op) : heard :=
  match o with
  | Start k t => if on h && is k then started h t else h
  | Stop k t => if on h && is k then stopped h t else h
  | Pause _ _ | SetMode _ => h
  | Reset k => if on h && is k then forget h else h
  | ResetAll => if on h then forget h else h
  | TurnOn => H true (prof h) (ws h) (known h) (since h) (laps h) (clean h)
  | TurnOff => H false (prof h) (ws h) (known h) (since h) (laps h) (clean h)
  | Enable => H (on h) true (ws h) (known h) (since h) (laps h) (clean h)
  | Disable => H (on h) false (ws h) (known h) (since h) (laps h) (clean h)
  | Watcher k => let h := set_ws h (ws h ++ [(k, on h)]) in if on h && is k then know h else h
  | WStart i t =>
      match nth_error (ws h) i with
      | Some (k, _) => if prof h then let h := set_ws h (bind i k (ws h)) in if is k then started h t else h else h
      | None => h
      end
  | WStop i t =>
      match nth_error (ws h) i with
      | Some (k, b) => if prof h && b && is k then stopped h t else h
      | None => h
      end
  end.
Definition history (l : list op) : heard := fold_left hear l silence.
(** Histories with one clock, no pause of this name, and positive clock readings. *)
Definition reading_of (o : op) : option reading :=
  match o with Start _ t | Stop _ t | Pause _ t | WStart _ t | WStop _ t => Some t | _ => None end.
Definition plain (o : op) : Prop :=
  match o with SetMode _ => False | Pause k _ => k <> n | _ => True end /\
  match reading_of o with Some t => 0 < real t /\ 0 < ticks t | None => True end.
End Spec.
Definition sum (l : list Z) : Z := fold_right Z.add 0 l.
Definition is_max (x : Z) (l : list Z) : Prop := In x l /\ forall y, In y l -> y <= x.
Definition is_min (x : Z) (l : list Z) : Prop := In x l /\ forall y, In y l -> x <= y.
(** a longer duration was measured before *)
Definition after_longer (x : Z) (l : list Z) : Prop :=
  exists later earlier y, l = later ++ x :: earlier /\ In y earlier /\ x < y.

(** ** Proofs *)
Lemma find_set n k p l : find_perf n (set_perf k p l) = if String.eqb n k then Some p else find_perf n l.
Proof.
induction l as [|(j, q) l IH]; cbn [find_perf set_perf]; [reflexivity|].
destruct (String.eqb_spec k j) as [->|E]; cbn [find_perf].
- destruct (String.eqb n j); reflexivity.
- rewrite IH. destruct (String.eqb_spec n j) as [->|F]; [|reflexivity].
  now rewrite (proj2 (String.eqb_neq j k)) by congruence.
Qed.
Lemma find_goc n k l : find_perf n (snd (get_or_create k l)) =
  match find_perf n l with Some p => Some p | None => if String.eqb n k then Some new_perf else None end.
Proof.
unfold get_or_create. destruct (find_perf k l) as [q|] eqn:E; cbn [snd].
- destruct (find_perf n l) eqn:F; [reflexivity|]. destruct (String.eqb_spec n k) as [->|]; [congruence|reflexivity].
- rewrite find_set. destruct (String.eqb_spec n k) as [->|].
  + now rewrite E.
  + now destruct (find_perf n l).
Qed.
Lemma fst_goc k l : fst (get_or_create k l) = match find_perf k l with Some p => p | None => new_perf end.
Proof. unfold get_or_create. now destruct (find_perf k l). Qed.
Lemma find_map n l : find_perf n (map (fun k => (fst k, reset_perf)) l) = match find_perf n l with Some _ => Some reset_perf | None => None end.
Proof. induction l as [|(k, p) l IH]; [reflexivity|]. cbn [map fst find_perf]. now destruct (String.eqb n k). Qed.

Definition raw_ (m : mode) (z : Z) : Z := match m with MCpu => 1000000 * z | _ => z end.
Lemma take m t : m <> MNone -> take_time m t = Some (raw_ m (time m t)).
Proof. destruct m; [congruence| |]; reflexivity. Qed.
Lemma lap_exact m a b : (match m with MCpu => (raw_ m a - raw_ m b) / 1000000 | _ => raw_ m a - raw_ m b end) = a - b.
Proof.
destruct m; cbn [raw_]; try reflexivity.
replace (1000000 * a - 1000000 * b) with ((a - b) * 1000000) by lia. apply Z.div_mul. lia.
Qed.
Lemma raw_0 m b : 0 < b -> raw_ m b =? 0 = false.
Proof. intro. apply Z.eqb_neq. destruct m; cbn [raw_]; lia. Qed.
Section Inv.
Variables (m : mode) (n : string).
Hypothesis Hm : m <> MNone.
Notation raw := (raw_ m).

Record good (h : heard) (p : perf) : Prop := {
  g_start : clock_start p = match since h with None => 0 | Some b => raw b end;
  g_pos : match since h with None => True | Some b => 0 < b end;
  g_total : total p = sum (laps h);
  g_stops : stops p = Z.of_nat (length (laps h));
  g_last : lastt p = hd 0 (laps h);
  g_max1 : forall x, is_max x (laps h) -> 0 < x -> maxt p = Some x;
  g_max2 : (forall x, In x (laps h) -> x <= 0) -> maxt p = if clean h then None else Some 0;
  g_min1 : clean h = true -> forall x, mint p = Some x -> In x (laps h);
  g_min2 : clean h = true -> forall x, after_longer x (laps h) -> exists y, mint p = Some y /\ y <= x }.
Lemma good_new h : since h = None -> laps h = [] -> clean h = true -> good h new_perf.
Proof.
intros S L C. constructor; try rewrite S; try rewrite L; cbn; auto.
- intros x [[] _].
- now rewrite C.
- discriminate.
- intros _ x ([|] & e & y & E & _); discriminate.
Qed.
Lemma good_reset o pf w k : good (H o pf w k None [] false) reset_perf.
Proof. constructor; cbn; auto; try discriminate. intros x [[] _]. Qed.
Lemma good_flags o pf w k o' pf' w' k' s l c p : good (H o pf w k s l c) p -> good (H o' pf' w' k' s l c) p.
Proof. intro G. destruct G. constructor; auto. Qed.
Lemma good_started h p t : good h p -> 0 < time m t ->
  good (started m h t) (Perf (raw (time m t)) (total p) (mint p) (maxt p) (lastt p) (stops p)).
Proof. intros G T. destruct G. constructor; auto. Qed.
Lemma has_max l : l <> [] -> exists x, is_max x l.
Proof.
induction l as [|a l IH]; [congruence|]. intros _. destruct l as [|b l].
- exists a. split; [now left|]. intros y [->|[]]. lia.
- destruct IH as (x & Ix & Mx); [discriminate|]. exists (Z.max a x). split.
  + destruct (Z.max_spec a x) as [[_ ->]|[_ ->]]; [now right|now left].
  + intros y [->|Hy]; [lia|]. specialize (Mx y Hy). lia.
Qed.
Lemma good_stopped h p t : good h p -> 0 < time m t -> good (stopped m h t) (stop_perf m p (raw (time m t))).
Proof.
intros G T. unfold stopped, stop_perf. destruct (since h) as [b|] eqn:S.
2:{ rewrite (g_start _ _ G), S. exact G. }
pose proof (g_pos _ _ G) as B. rewrite S in B.
assert (C0 : clock_start p = raw b) by now rewrite (g_start _ _ G), S.
assert (N : clock_start p =? 0 = false) by (rewrite C0; now apply raw_0).
rewrite N.
assert (L : (match m with MCpu => (raw (time m t) - clock_start p) / 1000000 | _ => raw (time m t) - clock_start p end) = time m t - b).
{ rewrite C0. apply lap_exact. }
cbv zeta. rewrite L. set (x := time m t - b). clearbody x.
(* what the comparison with the maximum says *)
assert (GE : ge_max x (maxt p) = true -> 0 <= x /\ (forall y, In y (laps h) -> y <= x) /\ (0 < x \/ clean h = false)).
{ intro E. destruct (laps h) as [|a l] eqn:LL.
  - assert (M : maxt p = if clean h then None else Some 0) by (apply (g_max2 _ _ G); rewrite LL; intros ? []).
    rewrite M in E. destruct (clean h); cbn in E; [apply Z.ltb_lt in E|apply Z.leb_le in E]; split; try lia; split; auto; intros ? [].
  - destruct (has_max (a :: l)) as (M & HM); [discriminate|]. destruct (Z_lt_dec 0 M) as [P|P].
    + rewrite (g_max1 _ _ G M) in E by (rewrite ?LL; auto). cbn in E. apply Z.leb_le in E. split; [lia|]. split; [|left; lia].
      intros y Hy. pose proof (proj2 HM y Hy). lia.
    + assert (Q : maxt p = if clean h then None else Some 0).
      { apply (g_max2 _ _ G). rewrite LL. intros y Hy. pose proof (proj2 HM y Hy). lia. }
      rewrite Q in E. assert (0 <= x /\ (0 < x \/ clean h = false)) as [X1 X2].
      { destruct (clean h); cbn in E; [apply Z.ltb_lt in E|apply Z.leb_le in E]; split; auto; lia. }
      split; [exact X1|]. split; [|exact X2]. intros y Hy. pose proof (proj2 HM y Hy). lia. }
assert (LT : ge_max x (maxt p) = false -> forall M, is_max M (x :: laps h) -> 0 < M -> is_max M (laps h)).
{ intros E M [I1 I2] P. split; [|intros y Hy; apply I2; now right]. destruct I1 as [<-|I1]; [|exact I1]. exfalso.
  destruct (laps h) as [|a l] eqn:LL.
  - assert (Q : maxt p = if clean h then None else Some 0) by (apply (g_max2 _ _ G); rewrite LL; intros ? []).
    rewrite Q in E. destruct (clean h); cbn in E; [apply Z.ltb_ge in E|apply Z.leb_gt in E]; lia.
  - destruct (has_max (a :: l)) as (M & HM); [discriminate|]. pose proof (I2 M (or_intror (proj1 HM))). destruct (Z_lt_dec 0 M) as [P'|P'].
    + rewrite (g_max1 _ _ G M) in E by (rewrite ?LL; auto). cbn in E. apply Z.leb_gt in E. lia.
    + assert (Q : maxt p = if clean h then None else Some 0).
      { apply (g_max2 _ _ G). rewrite LL. intros y Hy. pose proof (proj2 HM y Hy). lia. }
      rewrite Q in E. destruct (clean h); cbn in E; [apply Z.ltb_ge in E|apply Z.leb_gt in E]; lia. }
constructor; cbn [clock_start total stops lastt maxt mint since laps clean].
- exact C0.
- exact B.
- rewrite (g_total _ _ G). cbn [sum fold_right]. unfold sum. lia.
- rewrite (g_stops _ _ G). cbn [length]. lia.
- reflexivity.
- intros M HM P. destruct (ge_max x (maxt p)) eqn:E.
  + destruct (GE eq_refl) as (_ & U & _). f_equal. destruct HM as [[->|I1] I2]; [reflexivity|].
    pose proof (U M I1). pose proof (I2 x (or_introl eq_refl)). lia.
  + apply (g_max1 _ _ G); [|exact P]. now apply LT.
- intro A. pose proof (A x (or_introl eq_refl)) as Ax.
  assert (Q : maxt p = if clean h then None else Some 0) by (apply (g_max2 _ _ G); intros y Hy; apply A; now right).
  destruct (ge_max x (maxt p)) eqn:E; [|exact Q].
  destruct (GE eq_refl) as (X & _ & [Y|Y]); [lia|]. rewrite Y. f_equal. lia.
- intros Cl y. destruct (ge_max x (maxt p)).
  + intro E. right. now apply (g_min1 _ _ G Cl).
  + destruct (le_min x (mint p)); [intros [= ->]; now left|]. intro E. right. now apply (g_min1 _ _ G Cl).
- intros Cl y (la & ea & z & E & Iz & Lz). destruct la as [|a la]; cbn [app] in E.
  + assert (y = x /\ ea = laps h) as [-> ->] by (split; congruence).
    destruct (ge_max x (maxt p)) eqn:Eg.
    { destruct (GE eq_refl) as (_ & U & _). specialize (U z Iz). lia. }
    destruct (mint p) as [mn|]; cbn [le_min]; [|exists x; split; [reflexivity|lia]].
    destruct (Z.leb_spec x mn); [exists x; split; [reflexivity|lia]|exists mn; split; [reflexivity|lia]].
  + assert (AL : after_longer y (laps h)) by (exists la, ea, z; split; [congruence|auto]).
    destruct (g_min2 _ _ G Cl y AL) as (w & Ew & Lw). rewrite Ew.
    destruct (ge_max x (maxt p)); [exists w; auto|]. cbn [le_min].
    destruct (Z.leb_spec x w); [exists x; split; [reflexivity|lia]|exists w; auto].
Qed.

Record inv (s : sw) (h : heard) : Prop := {
  i_on : active s = on h; i_prof : profiling s = prof h; i_ws : watchers s = ws h; i_md : md s = m;
  i_rec : match record_of s n with
          | None => known h = false /\ since h = None /\ laps h = [] /\ clean h = true
          | Some p => known h = true /\ good h p
          end;
  i_bound : forall k, In (k, true) (ws h) -> record_of s k <> None }.
Lemma rd_time t : 0 < real t /\ 0 < ticks t -> 0 < time m t.
Proof. destruct m; cbn; lia. Qed.
Lemma rec_create s h k l : inv s h -> l = snd (get_or_create k (recs s)) ->
  match find_perf n l with
  | None => known h = false /\ since h = None /\ laps h = [] /\ clean h = true /\ String.eqb n k = false
  | Some p => (known h = true \/ String.eqb n k = true) /\ good h p
  end.
Proof.
intros I ->. rewrite find_goc. pose proof (i_rec _ _ I) as R0. unfold record_of in R0.
destruct (find_perf n (recs s)) as [p|]; [tauto|]. destruct (String.eqb n k); [|tauto].
destruct R0 as (A & B & D & E). split; [now right|]. now apply good_new.
Qed.
Lemma bound_create s k j l : l = snd (get_or_create k (recs s)) -> record_of s j <> None -> find_perf j l <> None.
Proof. intros -> N. rewrite find_goc. unfold record_of in N. destruct (find_perf j (recs s)); [discriminate|congruence]. Qed.
Lemma bound_set j k p l : find_perf j l <> None -> find_perf j (set_perf k p l) <> None.
Proof. intro N. rewrite find_set. destruct (String.eqb j k); [discriminate|exact N]. Qed.
Lemma in_bind i k w j : In (j, true) (bind i k w) -> j = k \/ In (j, true) w.
Proof.
unfold bind. intro I. apply in_map_iff in I. destruct I as ((a, (b, c)) & E & I). cbn [fst snd] in E.
destruct (Nat.eqb a i); [left; congruence|]. right. apply in_combine_r in I. congruence.
Qed.
Lemma inv_step s h o : inv s h -> plain n o -> inv (fst (step s o)) (hear m n h o).
Proof.
intros I [P T]. pose proof (i_on _ _ I) as Eon. pose proof (i_prof _ _ I) as Epr. pose proof (i_ws _ _ I) as Ews. pose proof (i_md _ _ I) as Emd.
pose proof (i_rec _ _ I) as Er. pose proof (i_bound _ _ I) as Eb. unfold record_of in Er, Eb.
destruct o as [k t|k t|k t|k| | | |mm| | |k|i t|i t]; cbn [step hear reading_of] in *; try contradiction.
- (* Start *)
  rewrite Eon. destruct (on h) eqn:O; cbn [andb]; [|exact I].
  pose proof (rec_create s h k _ I eq_refl) as RC. pose proof (fst_goc k (recs s)) as FG. pose proof (bound_create s k) as BC.
  destruct (get_or_create k (recs s)) as (p, l) eqn:GC. cbn [fst snd] in *.
  rewrite Emd, (take m t Hm). cbn [fst].
  assert (BB : forall q j, In (j, true) (ws h) -> find_perf j (set_perf k q l) <> None)
    by (intros q j Ij; apply bound_set; apply (BC j l eq_refl), (Eb j Ij)).
  unfold is. destruct (String.eqb_spec n k) as [<-|NE].
  + constructor; unfold record_of; cbn [with_recs recs with_recs active profiling watchers md recs started on prof ws]; auto; try congruence.
    cbn [with_recs recs]. rewrite find_set, String.eqb_refl. split; [reflexivity|].
    assert (FL : find_perf n l = Some p).
    { rewrite FG. pose proof (find_goc n n (recs s)) as X. rewrite GC in X. cbn [snd] in X. rewrite X, String.eqb_refl.
      now destruct (find_perf n (recs s)). }
    rewrite FL in RC. apply good_started; [tauto|now apply rd_time].
  + constructor; unfold record_of; cbn [with_recs recs with_recs active profiling watchers md recs]; auto; try congruence.
    cbn [with_recs recs]. rewrite find_set, (proj2 (String.eqb_neq _ _) NE).
    destruct (find_perf n l); [|tauto]. destruct RC as [[?|?] ?]; [tauto|discriminate].
- (* Stop *)
  rewrite Eon. destruct (on h) eqn:O; cbn [andb]; [|exact I]. rewrite Emd, (take m t Hm).
  destruct (find_perf k (recs s)) as [p|] eqn:F; cbn [fst].
  + unfold is. destruct (String.eqb_spec n k) as [<-|NE].
    * rewrite F in Er. destruct Er as [Kn G].
      assert (Q : on (stopped m h t) = on h /\ prof (stopped m h t) = prof h /\ ws (stopped m h t) = ws h /\ known (stopped m h t) = known h)
        by (unfold stopped; destruct (since h); auto). destruct Q as (Q1 & Q2 & Q3 & Q4).
      constructor; unfold record_of; cbn [with_recs recs with_recs active profiling watchers md recs]; rewrite ?Q1, ?Q2, ?Q3; auto; try congruence.
      -- cbn [with_recs recs]. rewrite find_set, String.eqb_refl, Q4. split; [exact Kn|].
         apply good_stopped; [exact G|now apply rd_time].
      -- intros j Ij. apply bound_set, (Eb j Ij).
    * constructor; unfold record_of; cbn [with_recs recs with_recs active profiling watchers md recs]; auto; try congruence.
      -- cbn [with_recs recs]. now rewrite find_set, (proj2 (String.eqb_neq _ _) NE).
      -- intros j Ij. apply bound_set, (Eb j Ij).
  + unfold is. destruct (String.eqb_spec n k) as [<-|NE]; [|exact I].
    rewrite F in Er. destruct Er as (_ & S0 & _). unfold stopped. rewrite S0. exact I.
- (* Pause *)
  rewrite Eon. destruct (on h) eqn:O; [|exact I]. destruct (find_perf k (recs s)) as [p|]; [|exact I]. destruct (clock_start p =? 0); [exact I|]. cbn [fst].
  constructor; unfold record_of; cbn [with_recs recs with_recs active profiling watchers md recs]; auto; try congruence.
  + cbn [with_recs recs]. rewrite find_set, (proj2 (String.eqb_neq n k)) by congruence. exact Er.
  + intros j Ij. apply bound_set, (Eb j Ij).
- (* Reset *)
  rewrite Eon. destruct (on h) eqn:O; cbn [andb]; [|exact I]. unfold is, forget.
  destruct (find_perf k (recs s)) as [p|] eqn:F; cbn [fst].
  + destruct (String.eqb_spec n k) as [<-|NE].
    * rewrite F in Er. destruct Er as [Kn G]. rewrite Kn.
      constructor; unfold record_of; cbn [with_recs recs with_recs active profiling watchers md recs on prof ws]; auto; try congruence.
      -- cbn [with_recs recs]. rewrite find_set, String.eqb_refl. split; [reflexivity|]. apply good_reset.
      -- intros j Ij. apply bound_set, (Eb j Ij).
    * constructor; unfold record_of; cbn [with_recs recs with_recs active profiling watchers md recs]; auto; try congruence.
      -- cbn [with_recs recs]. now rewrite find_set, (proj2 (String.eqb_neq _ _) NE).
      -- intros j Ij. apply bound_set, (Eb j Ij).
  + destruct (String.eqb_spec n k) as [<-|NE]; [|exact I]. rewrite F in Er. destruct Er as (Kn & _). now rewrite Kn.
- (* ResetAll *)
  rewrite Eon. destruct (on h) eqn:O; [|exact I]. unfold forget. cbn [fst].
  assert (BB : forall j, In (j, true) (ws h) -> find_perf j (map (fun k => (fst k, reset_perf)) (recs s)) <> None).
  { intros j Ij. rewrite find_map. specialize (Eb j Ij). destruct (find_perf j (recs s)); [discriminate|congruence]. }
  destruct (find_perf n (recs s)) as [p|] eqn:F.
  + destruct Er as [Kn G]. rewrite Kn. constructor; unfold record_of; cbn [with_recs recs with_recs active profiling watchers md recs on prof ws]; auto; try congruence.
    cbn [with_recs recs]. rewrite find_map, F. split; [reflexivity|]. apply good_reset.
  + destruct Er as (Kn & E). rewrite Kn. constructor; unfold record_of; cbn [with_recs recs with_recs active profiling watchers md recs on prof ws]; auto; try congruence.
    cbn [with_recs recs]. rewrite find_map, F. tauto.
- cbn [fst]. destruct h; constructor; unfold record_of; cbn in *; auto. destruct (find_perf n (recs s)); [|exact Er]. destruct Er. split; [auto|]. eapply good_flags; eassumption.
- cbn [fst]. destruct h; constructor; unfold record_of; cbn in *; auto. destruct (find_perf n (recs s)); [|exact Er]. destruct Er. split; [auto|]. eapply good_flags; eassumption.
- cbn [fst]. destruct h; constructor; unfold record_of; cbn in *; auto. destruct (find_perf n (recs s)); [|exact Er]. destruct Er. split; [auto|]. eapply good_flags; eassumption.
- cbn [fst]. destruct h; constructor; unfold record_of; cbn in *; auto. destruct (find_perf n (recs s)); [|exact Er]. destruct Er. split; [auto|]. eapply good_flags; eassumption.
- (* Watcher *)
  rewrite Eon. cbn zeta. pose proof (rec_create s h k _ I eq_refl) as RC. pose proof (bound_create s k) as BC. pose proof (find_goc k k (recs s)) as FK.
  destruct (on h) eqn:O; cbn [set_ws on andb]; rewrite ?O; cbn [andb].
  + destruct (get_or_create k (recs s)) as (p, l) eqn:GC. cbn [fst snd] in *.
    assert (BB : forall j, In (j, true) (ws h ++ [(k, true)]) -> find_perf j l <> None).
    { intros j Ij. apply in_app_or in Ij. destruct Ij as [Ij|[[= <-]|[]]]; [exact (BC j l eq_refl (Eb j Ij))|].
      rewrite FK, String.eqb_refl. destruct (find_perf k (recs s)); discriminate. }
    unfold is. destruct (String.eqb n k) eqn:EQ.
    * constructor; unfold record_of; cbn [with_recs recs with_recs active profiling watchers md recs on prof ws know set_ws]; auto; try congruence.
      cbn [with_recs recs known know]. destruct (find_perf n l); [|destruct RC as (_ & _ & _ & _ & X); discriminate].
      split; [reflexivity|]. destruct h. eapply good_flags. exact (proj2 RC).
    * constructor; unfold record_of; cbn [with_recs recs with_recs active profiling watchers md recs on prof ws know set_ws]; auto; try congruence.
      cbn [with_recs recs]. destruct (find_perf n l); [|destruct h; cbn in *; tauto].
      destruct h; cbn [known set_ws on prof ws since laps clean] in *. destruct RC as [[X|X] G]; [|discriminate]. split; [exact X|]. eapply good_flags; exact G.
  + cbn [fst]. constructor; unfold record_of; cbn [with_recs recs active profiling watchers md recs on prof ws set_ws]; auto; try congruence.
    * cbn [with_recs recs]. destruct h; cbn [known set_ws on prof ws since laps clean] in *.
      destruct (find_perf n (recs s)); [|exact Er]. destruct Er. split; [auto|]. eapply good_flags; eassumption.
    * intros j Ij. apply in_app_or in Ij. destruct Ij as [Ij|[[=]|[]]]. exact (Eb j Ij).
- (* WStart *)
  rewrite Ews. destruct (nth_error (ws h) i) as [(k, b)|] eqn:NT; [|exact I]. rewrite Epr. destruct (prof h) eqn:PR; [|exact I].
  pose proof (rec_create s h k _ I eq_refl) as RC. pose proof (fst_goc k (recs s)) as FG. pose proof (bound_create s k) as BC.
  destruct (get_or_create k (recs s)) as (p, l) eqn:GC. cbn [fst snd] in *.
  rewrite Emd, (take m t Hm). cbn [fst]. cbn zeta. fold (bind i k (ws h)).
  assert (BB : forall q j, In (j, true) (bind i k (ws h)) -> find_perf j (set_perf k q l) <> None).
  { intros q j Ij. apply in_bind in Ij. destruct Ij as [->|Ij]; [rewrite find_set, String.eqb_refl; discriminate|].
    apply bound_set; apply (BC j l eq_refl), (Eb j Ij). }
  unfold is. destruct (String.eqb_spec n k) as [<-|NE].
  + constructor; unfold record_of; cbn [with_recs recs active profiling watchers md recs started on prof ws set_ws]; auto; try congruence.
    cbn [with_recs recs]. rewrite find_set, String.eqb_refl. split; [reflexivity|].
    assert (FL : find_perf n l = Some p).
    { rewrite FG. pose proof (find_goc n n (recs s)) as X. rewrite GC in X. cbn [snd] in X. rewrite X, String.eqb_refl.
      now destruct (find_perf n (recs s)). }
    rewrite FL in RC. apply good_started; [|now apply rd_time]. destruct h. eapply good_flags. exact (proj2 RC).
  + constructor; unfold record_of; cbn [with_recs recs active profiling watchers md recs set_ws on prof ws]; auto; try congruence.
    cbn [with_recs recs]. rewrite find_set, (proj2 (String.eqb_neq _ _) NE). destruct h; cbn [known set_ws on prof ws since laps clean] in *.
    destruct (find_perf n l); [|tauto]. destruct RC as [[?|?] G]; [|discriminate]. split; [assumption|]. eapply good_flags; exact G.
- (* WStop *)
  rewrite Ews. destruct (nth_error (ws h) i) as [(k, b)|] eqn:NT; [|exact I]. rewrite Epr.
  destruct (prof h) eqn:PR; [|exact I]. destruct b; [|exact I]. cbn [andb]. rewrite Emd, (take m t Hm).
  destruct (find_perf k (recs s)) as [p|] eqn:F; cbn [fst].
  2:{ exfalso. apply (Eb k); [eapply nth_error_In; exact NT|exact F]. }
  unfold is. destruct (String.eqb_spec n k) as [<-|NE].
  + rewrite F in Er. destruct Er as [Kn G].
    assert (Q : on (stopped m h t) = on h /\ prof (stopped m h t) = prof h /\ ws (stopped m h t) = ws h /\ known (stopped m h t) = known h)
      by (unfold stopped; destruct (since h); auto). destruct Q as (Q1 & Q2 & Q3 & Q4).
    constructor; unfold record_of; cbn [with_recs recs with_recs active profiling watchers md recs]; rewrite ?Q1, ?Q2, ?Q3; auto; try congruence.
    -- cbn [with_recs recs]. rewrite find_set, String.eqb_refl, Q4. split; [exact Kn|].
       apply good_stopped; [exact G|now apply rd_time].
    -- intros j Ij. apply bound_set, (Eb j Ij).
  + constructor; unfold record_of; cbn [with_recs recs with_recs active profiling watchers md recs]; auto; try congruence.
    -- cbn [with_recs recs]. now rewrite find_set, (proj2 (String.eqb_neq _ _) NE).
    -- intros j Ij. apply bound_set, (Eb j Ij).
Qed.
Lemma inv_run l : List.Forall (plain n) l -> inv (exec (new_sw m) l) (history m n l).
Proof.
unfold exec, history. intro F.
assert (X : inv (new_sw m) silence) by (constructor; cbn; auto; intros ? []).
revert X. generalize (new_sw m) silence. induction F as [|o l Po F IH]; intros s h X; [exact X|].
cbn [fold_left]. apply IH. now apply inv_step.
Qed.
End Inv.

(** After every history without pauses, with one clock: a name has a record exactly when it was used; its
    total is the sum of the measured durations, its count their number, its last time the latest one, its
    maximum the longest (when one is positive); its minimum is the shortest when the name was never reset
    and a longer one was measured before the shortest.
    Missing: pauses, the minimum otherwise; both refuted below. *)
Theorem C99_statistics_partial : forall m n l, m <> MNone -> List.Forall (plain n) l ->
  let h := history m n l in
  match record_of (exec (new_sw m) l) n with
  | None => known h = false
  | Some p => known h = true /\ total p = sum (laps h) /\ stops p = Z.of_nat (length (laps h)) /\ lastt p = hd 0 (laps h) /\
      (forall x, is_max x (laps h) -> 0 < x -> maxt p = Some x) /\
      (clean h = true -> forall x, is_min x (laps h) -> after_longer x (laps h) -> mint p = Some x)
  end.
Proof.
intros m n l Hm F h. pose proof (i_rec _ _ _ _ (inv_run m n Hm l F)) as R0. fold h in R0.
destruct (record_of _ n) as [p|]; [|tauto]. destruct R0 as [Kn G].
repeat (split; [first [exact Kn|apply G]|]). intros Cl x [Ix Mx] AL.
destruct (g_min2 _ _ _ G Cl x AL) as (y & E & L). pose proof (g_min1 _ _ _ G Cl y E) as Iy. pose proof (Mx y Iy).
rewrite E. f_equal. lia.
Qed.
(** Operations on one name leave the records of the others alone. *)
Definition touches (s : sw) (o : op) (n : string) : Prop :=
  match o with
  | Start k _ | Stop k _ | Pause k _ | Reset k | Watcher k => n = k
  | WStart i _ | WStop i _ => match nth_error (watchers s) i with Some (k, _) => n = k | None => False end
  | ResetAll => True
  | _ => False
  end.
Theorem C99_names : forall s o n, ~ touches s o n -> record_of (fst (step s o)) n = record_of s n.
Proof.
intros s o n T. unfold record_of.
assert (GC : forall k, n <> k -> find_perf n (snd (get_or_create k (recs s))) = find_perf n (recs s)).
{ intros k N. rewrite find_goc. rewrite (proj2 (String.eqb_neq n k) N). now destruct (find_perf n (recs s)). }
assert (SP : forall k p q, n <> k -> find_perf n (set_perf k p q) = find_perf n q).
{ intros k p q N. now rewrite find_set, (proj2 (String.eqb_neq n k) N). }
destruct o as [j t|j t|j t|j| | | |mm| | |j|i t|i t]; cbn [touches step] in *; try reflexivity; try contradiction (T I);
  try specialize (GC j T).
- destruct (active s); [|reflexivity]. destruct (get_or_create j (recs s)) as (p, q). cbn [snd] in GC. destruct (take_time (md s) t); cbn [fst with_recs recs].
  + now rewrite SP. + exact GC.
- destruct (active s); [|reflexivity]. destruct (take_time (md s) t), (find_perf j (recs s)); cbn [fst with_recs recs]; try reflexivity. now apply SP.
- destruct (active s); [|reflexivity]. destruct (find_perf j (recs s)) as [p|]; [|reflexivity]. destruct (clock_start p =? 0); [reflexivity|]. now apply SP.
- destruct (active s); [|reflexivity]. destruct (find_perf j (recs s)) as [p|]; [|reflexivity]. now apply SP.
- destruct (active s); [|reflexivity]. destruct (get_or_create j (recs s)) as (p, q). exact GC.
- destruct (nth_error (watchers s) i) as [(j, b)|]; [|reflexivity]. specialize (GC j T).
  destruct (profiling s); [|reflexivity]. destruct (get_or_create j (recs s)) as (p, q). cbn [snd] in GC. destruct (take_time (md s) t); cbn [fst recs].
  + now rewrite SP. + exact GC.
- destruct (nth_error (watchers s) i) as [(j, b)|]; [|reflexivity].
  destruct (profiling s && b); [|reflexivity]. destruct (take_time (md s) t), (find_perf j (recs s)); cbn [fst with_recs recs]; try reflexivity. now apply SP.
Qed.
(** Stopping or resetting a name that was never used throws and changes nothing. *)
Theorem C99_unknown : forall m n l t, m <> MNone -> List.Forall (plain n) l ->
  known (history m n l) = false -> on (history m n l) = true ->
  let s := exec (new_sw m) l in step s (Stop n t) = (s, false) /\ step s (Pause n t) = (s, false) /\ step s (Reset n) = (s, false).
Proof.
intros m n l t Hm F K O s. pose proof (inv_run m n Hm l F) as I. fold s in I. pose proof (i_rec _ _ _ _ I) as R0. unfold record_of in R0.
destruct (find_perf n (recs s)) as [p|] eqn:E; [destruct R0; congruence|].
cbn [step]. rewrite (i_on _ _ _ _ I), O, E. destruct (take_time (md s) t); auto.
Qed.
(** With the profiler disabled (or the stopwatch turned off) watchers (or start and stop) change no record. *)
Theorem C99_disabled : forall s o, match o with WStart _ _ | WStop _ _ => profiling s = false | Start _ _ | Stop _ _ | Pause _ _ | Reset _ | ResetAll => active s = false | _ => False end ->
  step s o = (s, true).
Proof.
intros s o P. destruct o; try contradiction; cbn [step]; rewrite P; try reflexivity.
- now destruct (nth_error (watchers s) i) as [(j, b)|].
- now destruct (nth_error (watchers s) i) as [(j, b)|].
Qed.

(** The minimum is wrong when the first duration is the shortest, in particular after one measurement, ... *)
Theorem C99_min_refuted : forall m n a b, m <> MNone -> 0 < a < b -> 
  let l := [Start n (Rd 1 1); Stop n (Rd (1 + a) (1 + a)); Start n (Rd 1 1); Stop n (Rd (1 + b) (1 + b))] in
  laps (history m n l) = [b; a] /\ is_min a [b; a] /\ exists p, record_of (exec (new_sw m) l) n = Some p /\ mint p = None.
Proof.
intros m n a b Hm [A B] l.
assert (F : List.Forall (plain n) l).
{ unfold l. repeat (apply Forall_cons; [split; cbn [reading_of real ticks]; [exact I|lia]|]). apply Forall_nil. }
assert (LA : laps (history m n l) = [b; a]).
{ assert (TI : forall c, time m (Rd c c) = c) by (intro c; destruct m; reflexivity).
  unfold l, history. cbn [fold_left hear silence on]. unfold is. rewrite String.eqb_refl.
  cbn [andb started stopped since laps on prof ws known clean]. cbn -[Z.add Z.sub time]. rewrite !TI. repeat f_equal; lia. }
split; [exact LA|]. split.
{ split; [right; now left|]. intros y [<-|[<-|[]]]; lia. }
pose proof (C99_statistics_partial m n l Hm F) as ST. cbv zeta in ST.
pose proof (i_rec _ _ _ _ (inv_run m n Hm l F)) as R0.
assert (X : exec (new_sw m) l = with_recs (new_sw m) [(n, Perf (raw_ m 1) (a + b) None (Some b) b 2)]).
{ unfold l, exec. cbn [fold_left].
  assert (S1 : fst (step (new_sw m) (Start n (Rd 1 1))) = with_recs (new_sw m) [(n, Perf (raw_ m 1) 0 None None 0 0)]).
  { cbn [step new_sw active md recs get_or_create find_perf set_perf]. rewrite String.eqb_refl. destruct m; [congruence| |]; reflexivity. }
  assert (S2 : forall p c, clock_start p = raw_ m 1 -> fst (step (with_recs (new_sw m) [(n, p)]) (Stop n (Rd (1 + c) (1 + c)))) =
    with_recs (new_sw m) [(n, Perf (raw_ m 1) (total p + c) (if ge_max c (maxt p) then mint p else if le_min c (mint p) then Some c else mint p) (if ge_max c (maxt p) then Some c else maxt p) c (stops p + 1))]).
  { intros p c E. cbn [step with_recs new_sw active md recs find_perf set_perf]. rewrite String.eqb_refl, (take m _ Hm). cbn [fst with_recs recs active md profiling watchers set_perf].
    rewrite ?String.eqb_refl. unfold stop_perf. rewrite E, raw_0 by lia. cbv zeta. rewrite lap_exact. replace (time m (Rd (1 + c) (1 + c))) with (1 + c) by (now destruct m). replace (1 + c - 1) with c by lia. reflexivity. }
  assert (S3 : forall p, fst (step (with_recs (new_sw m) [(n, p)]) (Start n (Rd 1 1))) = with_recs (new_sw m) [(n, Perf (raw_ m 1) (total p) (mint p) (maxt p) (lastt p) (stops p))]).
  { intro p. cbn [step with_recs new_sw active md recs get_or_create find_perf]. unfold get_or_create. cbn [find_perf]. rewrite String.eqb_refl, (take m _ Hm).
    cbn [fst with_recs recs active md profiling watchers set_perf]. rewrite ?String.eqb_refl. destruct m; reflexivity. }
  rewrite S1, S2 by reflexivity. cbn [total mint maxt lastt stops ge_max]. rewrite (proj2 (Z.ltb_lt 0 a)) by lia.
  rewrite S3. cbn [total mint maxt lastt stops]. rewrite S2 by reflexivity. cbn [total mint maxt lastt stops ge_max].
  rewrite (proj2 (Z.leb_le a b)) by lia. reflexivity. }
rewrite X. exists (Perf (raw_ m 1) (a + b) None (Some b) b 2). split; [|reflexivity].
unfold record_of. cbn [with_recs recs find_perf]. now rewrite String.eqb_refl.
Qed.
(** ... and after a reset, where it stays 0 ... *)
Theorem C99_min_reset_refuted :
  let l := [Start "f" (Rd 1 1); Reset "f"; Start "f" (Rd 10 10); Stop "f" (Rd 15 15); Start "f" (Rd 20 20); Stop "f" (Rd 23 23)] in
  laps (history MReal "f" l) = [3; 5] /\ option_map mint (record_of (exec (new_sw MReal) l) "f") = Some (Some 0).
Proof. split; reflexivity. Qed.
(** ... and a pause adds the difference of two different clocks: with 2 s and 3 s of work around a pause,
    both clocks running together, the total is wrong in both modes. *)
Theorem C99_pause_refuted : forall m, m <> MNone ->
  let s := 1000000 in
  let l := [Start "f" (Rd s s); Pause "f" (Rd (3 * s) (3 * s)); Start "f" (Rd (10 * s) (10 * s)); Stop "f" (Rd (13 * s) (13 * s))] in
  exists p, record_of (exec (new_sw m) l) "f" = Some p /\ total p <> 5 * s /\ lastt p <> 5 * s.
Proof. intros m Hm s l. destruct m; [congruence| |]; eexists; (split; [reflexivity|]); vm_compute; split; discriminate. Qed.

(** Example: watchers and direct use, other names, a switched-off period. *)
Example C99_ex : let l := [Watcher "g"; WStart 0 (Rd 5 1); Enable; WStart 0 (Rd 10 1); Start "f" (Rd 12 2); WStop 0 (Rd 19 3); Stop "f" (Rd 20 3);
    TurnOff; Start "f" (Rd 50 5); TurnOn; Start "f" (Rd 60 5); Stop "f" (Rd 63 5)] in
  List.Forall (plain "f") l /\ laps (history MReal "f" l) = [3; 8] /\ laps (history MReal "g" l) = [9] /\
  is_min 3 [3; 8] /\ after_longer 3 [3; 8] /\ clean (history MReal "f" l) = true /\
  record_of (exec (new_sw MReal) l) "f" = Some (Perf 60 11 (Some 3) (Some 8) 3 2).
Proof.
intro l. split; [|split; [reflexivity|split; [reflexivity|split; [|split; [|split; reflexivity]]]]].
- unfold l. repeat (apply Forall_cons; [unfold plain; cbn; lia|]). apply Forall_nil.
- split; [now left|]. intros y [<-|[<-|[]]]; lia.
- exists [], [8], 8. split; [reflexivity|]. split; [now left|lia].
Qed.
Print Assumptions C99_statistics_partial.
Print Assumptions C99_names.
Print Assumptions C99_unknown.
Print Assumptions C99_disabled.
Print Assumptions C99_min_refuted.
Print Assumptions C99_min_reset_refuted.
Print Assumptions C99_pause_refuted.
