(** C100: the walking gait generator. *)
From Coq Require Import Reals List Arith Bool Lra Lia.
From Verif Require Import Spatial Walk_Model.
Import ListNotations.
Open Scope R_scope.

(** ** Specification *)
Definition tasks_of (nd : node) : list (nat * v3) := match nd with Swing _ _ _ ts | Switch _ ts => ts end.
Definition support_of (nd : node) : list nat := match nd with Swing _ s _ _ | Switch s _ => s end.
Fixpoint lookup (f : nat) (ts : list (nat * v3)) : option v3 :=
  match ts with [] => None | (g, q) :: ts => if Nat.eqb f g then Some q else lookup f ts end.
(** Where each foot is meant to be after some nodes: its reference in the latest node that has one, or
    where it was. *)
Definition place (P : nat -> v3) (nd : node) : nat -> v3 :=
  fun f => match lookup f (tasks_of nd) with Some q => q | None => P f end.
Definition places (P : nat -> v3) (l : list node) : nat -> v3 := fold_left place l P.
Definition mean (c : v3 -> R) (g : gait) (P : nat -> v3) : R := (c (P (lf g)) + c (P (rf g)) + c (P (lh g)) + c (P (rh g))) / 4.
Definition distinct (g : gait) : Prop := NoDup [lf g; rf g; lh g; rh g].
Definition initial (g : gait) (plf prf plh prh : v3) (P : nat -> v3) : Prop :=
  P (lf g) = plf /\ P (rf g) = prf /\ P (lh g) = plh /\ P (rh g) = prh.

(** ** Proofs *)
Lemma INR_pos n : (0 < n)%nat -> 0 < INR n.
Proof. exact (lt_0_INR n). Qed.
(** Heights of the swing. *)
Lemma dp_x L h n k : c1 (dp L h n k) = L * (INR (k + 1) / INR n).
Proof. reflexivity. Qed.
Lemma dp_last L h n : (0 < n)%nat -> c1 (dp L h n (n - 1)) = L.
Proof. intro N. rewrite dp_x. replace (n - 1 + 1)%nat with n by lia. field. pose proof (INR_pos n N). lra. Qed.
Lemma dp_height L h n k : 0 <= h -> (k < n)%nat -> 0 <= c3 (dp L h n k) <= h.
Proof.
intros H K. unfold dp. cbn [c3]. pose proof (Nat.div_mod n 2 ltac:(lia)) as DM. pose proof (Nat.mod_upper_bound n 2 ltac:(lia)) as MB.
set (p := (n / 2)%nat) in *.
destruct (Nat.ltb_spec k p) as [A|A].
- pose proof (INR_pos p ltac:(lia)). pose proof (lt_INR k p A). pose proof (pos_INR k).
  assert (0 <= INR k / INR p <= 1).
  { split; [apply Rmult_le_pos; [lra|left; apply Rinv_0_lt_compat; lra]|]. apply (Rmult_le_reg_r (INR p)); [lra|]. unfold Rdiv. rewrite Rmult_assoc, Rinv_l by lra. lra. }
  unfold Rdiv in *. rewrite Rmult_assoc. nra.
- destruct (Nat.eqb_spec k p) as [B|B]; [lra|].
  assert (P : (0 < p)%nat) by lia. pose proof (INR_pos p P). assert (C : (k <= p + p)%nat) by lia. apply le_INR in C. rewrite plus_INR in C.
  pose proof (lt_INR p k ltac:(lia)).
  assert (0 <= (INR k - INR p) / INR p <= 1).
  { split; [apply Rmult_le_pos; [lra|left; apply Rinv_0_lt_compat; lra]|]. apply (Rmult_le_reg_r (INR p)); [lra|]. unfold Rdiv. rewrite Rmult_assoc, Rinv_l by lra. lra. }
  nra.
Qed.
Lemma dp_top L h n : c3 (dp L h n (n / 2)) = h.
Proof. unfold dp. cbn [c3]. now rewrite Nat.ltb_irrefl, Nat.eqb_refl. Qed.
Lemma dp_start L h n : (2 <= n)%nat -> c3 (dp L h n 0) = 0.
Proof.
intro N. unfold dp. cbn [c3]. assert (0 < n / 2)%nat by (apply Nat.div_str_pos; lia). destruct (Nat.ltb_spec 0 (n / 2)); [|lia].
cbn [INR]. unfold Rdiv. ring.
Qed.
Lemma dp_odd L h j : (0 < j)%nat -> dp L h (2 * j + 1) (2 * j) = V3 L 0 0.
Proof.
intro J. unfold dp. replace ((2 * j + 1) / 2)%nat with j by (symmetry; rewrite Nat.add_comm, Nat.mul_comm, Nat.div_add by lia; reflexivity).
destruct (Nat.ltb_spec (2 * j) j); [lia|]. destruct (Nat.eqb_spec (2 * j) j); [lia|].
pose proof (INR_pos j J). f_equal.
- field. rewrite plus_INR, mult_INR. cbn. lra.
- rewrite mult_INR. cbn [INR]. field. lra.
Qed.
Lemma dp_even L h j : (0 < j)%nat -> c3 (dp L h (2 * j) (2 * j - 1)) = h / INR j.
Proof.
intro J. unfold dp. cbn [c3]. replace (2 * j / 2)%nat with j by (symmetry; rewrite Nat.mul_comm; apply Nat.div_mul; lia).
pose proof (INR_pos j J).
destruct (Nat.ltb_spec (2 * j - 1) j); [lia|]. destruct (Nat.eqb_spec (2 * j - 1) j) as [E|E].
- assert (j = 1)%nat as -> by lia. cbn. field.
- rewrite minus_INR, mult_INR by lia. cbn [INR]. field. lra.
Qed.

(** One step of any set of feet: a node per knot and the switch, all with the given support. *)
Theorem C100_swing : forall dt L h n com feet support swing nodes com' feet',
  foot_step dt L h n com feet support swing = Some (nodes, com', feet') -> 0 <= h -> length feet = length swing ->
  length nodes = S n /\ (forall nd, In nd nodes -> support_of nd = support /\ (n = 0%nat \/ map fst (tasks_of nd) = swing)) /\
  (forall k i f p, (k < n)%nat -> nth_error swing i = Some f -> nth_error feet i = Some p ->
    exists c q, nth_error nodes k = Some (Swing dt support (Some c) (map (fun a => (fst a, add3 (snd a) (sub3 q p))) (combine swing feet))) /\
      c1 q = c1 p + L * INR (k + 1) / INR n /\ c2 q = c2 p /\ c3 p <= c3 q <= c3 p + h /\
      (k = (n / 2)%nat -> c3 q = c3 p + h) /\ (k = 0%nat -> (2 <= n)%nat -> c3 q = c3 p)).
Proof.
intros dt L h n com feet support swing nodes com' feet' E H Le. unfold foot_step in E.
destruct ((length feet <? length swing)%nat && (0 <? n)%nat); [discriminate|].
assert (EN : nodes = map (fun k => Swing dt support (Some (com_task L n com support swing k)) (tasks L h n feet swing k)) (seq 0 n) ++
          [Switch support (match n with O => [] | S n' => tasks L h n feet swing n' end)]) by congruence.
clear E. assert (TS : forall k, map fst (tasks L h n feet swing k) = swing).
{ intro k. unfold tasks. rewrite map_map. cbn [fst]. clear EN. revert feet Le. induction swing as [|s sw IH]; intros [|x l] LE; try discriminate; [reflexivity|].
  cbn [combine map fst]. f_equal. apply IH. cbn in LE. congruence. }
split; [|split].
- rewrite EN, app_length, map_length, seq_length. cbn. lia.
- intros nd I. rewrite EN in I. apply in_app_or in I. destruct I as [I|[<-|[]]].
  + apply in_map_iff in I. destruct I as (k & <- & _). split; [reflexivity|]. right. apply TS.
  + split; [reflexivity|]. destruct n as [|n']; [now left|right]. apply TS.
- intros k i f p K Hf Hp. exists (com_task L n com support swing k), (add3 p (dp L h n k)). split.
  + rewrite EN, nth_error_app1 by (rewrite map_length, seq_length; lia).
    rewrite (map_nth_error _ k (seq 0 n) (d := k)).
    * f_equal. f_equal. unfold tasks. apply map_ext. intro a. f_equal. f_equal. destruct (dp L h n k), p. unfold sub3, add3. cbn. f_equal; ring.
    * rewrite nth_error_nth' with (d := 0%nat) by (rewrite seq_length; lia). now rewrite seq_nth.
  + pose proof (dp_height L h n k H K) as DH. cbn [add3 c1 c2 c3].
    rewrite dp_x. split; [unfold Rdiv; ring|]. split; [cbn [dp c2]; ring|]. split; [lra|]. split.
    * intros ->. now rewrite dp_top.
    * intros -> N. rewrite dp_start by exact N. ring.
Qed.
(** With an odd number of knots (3 or more) the feet land on the ground: the references of the last knot
    and of the switch are the initial positions moved by the step length, which are the positions handed
    to the next step.  Missing: even numbers and 1, refuted below. *)
Theorem C100_landing_partial : forall dt L h j com feet support swing nodes com' feet', (0 < j)%nat -> length feet = length swing ->
  foot_step dt L h (2 * j + 1) com feet support swing = Some (nodes, com', feet') ->
  exists pre c, nodes = pre ++ [Swing dt support c (combine swing feet'); Switch support (combine swing feet')].
Proof.
intros dt L h j com feet support swing nodes com' feet' J Le E.
remember (2 * j + 1)%nat as n eqn:En. destruct n as [|n']; [lia|].
assert (DP : dp L h (S n') n' = V3 L 0 0) by (rewrite En; replace n' with (2 * j)%nat by lia; now apply dp_odd).
unfold foot_step in E. destruct (_ && _); [discriminate|].
assert (EN : nodes = map (fun k => Swing dt support (Some (com_task L (S n') com support swing k)) (tasks L h (S n') feet swing k)) (seq 0 (S n')) ++
          [Switch support (tasks L h (S n') feet swing n')]) by congruence.
assert (EF : feet' = map (fun p => add3 p (V3 L 0 0)) feet) by congruence. clear E.
assert (T : tasks L h (S n') feet swing n' = combine swing feet').
{ unfold tasks. rewrite DP, EF. clear EN EF. revert feet Le. induction swing as [|s sw IH]; intros [|x l] LE; try discriminate; [reflexivity|].
  cbn [combine map fst snd]. f_equal. apply IH. cbn in LE. congruence. }
rewrite EN, seq_S, map_app, <- app_assoc. cbn [map app Nat.add]. rewrite T. eexists _, _. reflexivity.
Qed.
(** With an even number of knots the feet hang in the air at the end of the swing and when the contact
    switches; with one knot they are at the top. *)
Theorem C100_landing_refuted : forall dt L h n com p f support nodes com' feet', (0 < n)%nat -> Nat.even n = true \/ n = 1%nat -> 0 < h ->
  foot_step dt L h n com [p] support [f] = Some (nodes, com', feet') ->
  exists pre c q, nodes = pre ++ [Swing dt support c [(f, q)]; Switch support [(f, q)]] /\ c3 p < c3 q.
Proof.
intros dt L h n com p f support nodes com' feet' N Ev H E. unfold foot_step in E. cbn [length Nat.ltb Nat.leb andb] in E.
assert (EN : nodes = map (fun k => Swing dt support (Some (com_task L n com support [f] k)) (tasks L h n [p] [f] k)) (seq 0 n) ++
          [Switch support (match n with O => [] | S n' => tasks L h n [p] [f] n' end)]) by congruence. clear E.
assert (A : 0 < c3 (dp L h n (n - 1))).
{ destruct Ev as [Ev|Ev].
  - apply Nat.even_spec in Ev. destruct Ev as [j ->]. rewrite dp_even by lia. apply Rdiv_lt_0_compat; [exact H|apply INR_pos; lia].
  - subst n. change (1 - 1)%nat with (1 / 2)%nat. now rewrite dp_top. }
destruct n as [|n']; [lia|]. rewrite seq_S, map_app, <- app_assoc in EN. cbn [map app Nat.add] in EN.
unfold tasks in EN at 2 3. cbn [combine map fst snd] in EN. replace (S n' - 1)%nat with n' in A by lia.
eexists _, _, (add3 p (dp L h (S n') n')). split; [exact EN|]. cbn [add3 c3]. lra.
Qed.

(** *** The walking problem *)
(** the nodes of a step of one foot *)
Definition sn dt L h n com p support f : list node :=
  map (fun k => Swing dt support (Some (com_task L n com support [f] k)) (tasks L h n [p] [f] k)) (seq 0 n) ++
  [Switch support (match n with O => [] | S n' => tasks L h n [p] [f] n' end)].
Definition sc L com support (f : nat) : v3 := add3 com (V3 (L * com_percentage support [f]) 0 0).
Lemma foot_step_one dt L h n com p support f :
  foot_step dt L h n com [p] support [f] = Some (sn dt L h n com p support f, sc L com support f, [add3 p (V3 L 0 0)]).
Proof. reflexivity. Qed.
Section Walk.
Variable g : gait.
Hypothesis D : distinct g.
Fixpoint above (comz : R) (P : nat -> v3) (l : list node) : Prop :=
  match l with
  | [] => True
  | nd :: l => (match nd with Swing _ _ (Some c) _ => c1 c = mean c1 g (place P nd) /\ c2 c = mean c2 g (place P nd) /\ c3 c = comz | _ => True end) /\
               above comz (place P nd) l
  end.
Lemma above_app z P a b : above z P (a ++ b) <-> above z P a /\ above z (places P a) b.
Proof. revert P. induction a as [|nd a IH]; intro P; cbn [app above places fold_left]; [tauto|]. rewrite IH. unfold places. tauto. Qed.
Lemma above_at z P l : above z P l -> forall pre dt s c ts post, l = pre ++ Swing dt s (Some c) ts :: post ->
  let Q := places P (pre ++ [Swing dt s (Some c) ts]) in c1 c = mean c1 g Q /\ c2 c = mean c2 g Q /\ c3 c = z.
Proof.
intros A pre dt s c ts post ->. apply above_app in A. destruct A as [_ [A _]]. cbv zeta. unfold places in *. rewrite fold_left_app. exact A.
Qed.
Lemma places_app P a b : places P (a ++ b) = places (places P a) b.
Proof. apply fold_left_app. Qed.

Definition others (f : nat) (P P' : nat -> v3) : Prop := forall k, k <> f -> P' k = P k.
Lemma place_one f q P s dt c k : place P (Swing dt s c [(f, q)]) k = if Nat.eqb k f then q else P k.
Proof. unfold place. cbn [tasks_of lookup]. now destruct (Nat.eqb k f). Qed.
Lemma place_sw f q P s k : place P (Switch s [(f, q)]) k = if Nat.eqb k f then q else P k.
Proof. unfold place. cbn [tasks_of lookup]. now destruct (Nat.eqb k f). Qed.
Lemma mean_one (c : v3 -> R) f P P' : In f [lf g; rf g; lh g; rh g] -> others f P P' ->
  mean c g P' = mean c g P + (c (P' f) - c (P f)) / 4.
Proof.
intros I O. unfold distinct in D. unfold mean.
inversion D as [|? ? N1 D1]; subst. inversion D1 as [|? ? N2 D2]; subst. inversion D2 as [|? ? N3 D3]; subst. cbn [In] in *.
destruct I as [<-|[<-|[<-|[<-|[]]]]].
- rewrite (O (rf g)), (O (lh g)), (O (rh g)) by (intro; apply N1; auto). lra.
- rewrite (O (lf g)) by (intro X; apply N1; left; now symmetry). rewrite (O (lh g)), (O (rh g)) by (intro; apply N2; auto). lra.
- rewrite (O (lf g)) by (intro X; apply N1; right; left; now symmetry). rewrite (O (rf g)) by (intro X; apply N2; left; now symmetry).
  rewrite (O (rh g)) by (intro; apply N3; auto). lra.
- rewrite (O (lf g)) by (intro X; apply N1; right; right; left; now symmetry). rewrite (O (rf g)) by (intro X; apply N2; right; left; now symmetry).
  rewrite (O (lh g)) by (intro X; apply N3; left; now symmetry). lra.
Qed.
Section One.
Variables (dt L h : R) (n : nat) (com p : v3) (support : list nat) (f : nat) (P : nat -> v3).
Hypotheses (S3 : length support = 3%nat) (If : In f [lf g; rf g; lh g; rh g]) (Pf : P f = p)
  (M1 : c1 com = mean c1 g P) (M2 : c2 com = mean c2 g P).
Notation nd k := (Swing dt support (Some (com_task L n com support [f] k)) (tasks L h n [p] [f] k)).
Lemma one_nodes m : forall a P', others f P P' -> above (c3 com) P' (map (fun k => nd k) (seq a m)) /\
  others f P (places P' (map (fun k => nd k) (seq a m))) /\
  places P' (map (fun k => nd k) (seq a m)) f = match m with O => P' f | S m' => add3 p (dp L h n (a + m')) end.
Proof.
induction m as [|m IH]; intros a P' O; [split; [exact I|]; split; [exact O|reflexivity]|].
cbn [seq map above places fold_left].
set (Q := place P' (nd a)).
assert (OQ : others f P Q).
{ intros k K. unfold Q, tasks. cbn [combine map fst snd]. rewrite place_one. rewrite (proj2 (Nat.eqb_neq k f) K). now apply O. }
assert (Qf : Q f = add3 p (dp L h n a)).
{ unfold Q, tasks. cbn [combine map fst snd]. now rewrite place_one, Nat.eqb_refl. }
destruct (IH (S a) Q OQ) as (A1 & A2 & A3).
split; [split; [|exact A1]|split; [exact A2|]].
- unfold com_task, com_percentage, kp1_n. rewrite S3. cbn [length Nat.add scal3 add3 c1 c2 c3].
  rewrite (mean_one c1 f P Q If OQ), (mean_one c2 f P Q If OQ), Qf, Pf, <- M1, <- M2. cbn [add3 c1 c2]. rewrite dp_x. cbn [dp c2 INR].
  split; [|split]; lra.
- fold (places Q (map (fun k => nd k) (seq (S a) m))). rewrite A3. destruct m as [|m']; [now rewrite Nat.add_0_r|]. f_equal. f_equal. lia.
Qed.
Lemma one_step : let nodes := sn dt L h n com p support f in let com' := sc L com support f in
  length nodes = S n /\ above (c3 com) P nodes /\ others f P (places P nodes) /\
  (n <> 0%nat -> c1 (places P nodes f) = c1 p + L /\ c2 (places P nodes f) = c2 p /\
    c1 com' = mean c1 g (places P nodes) /\ c2 com' = mean c2 g (places P nodes)) /\
  c3 com' = c3 com /\ (n = 0%nat -> places P nodes = P) /\
  (forall x, In x nodes -> support_of x = support /\ (tasks_of x <> [] -> map fst (tasks_of x) = [f])).
Proof.
cbv zeta. unfold sn, sc.
destruct (one_nodes n 0 P (fun _ _ => eq_refl)) as (A1 & A2 & A3).
set (l := map (fun k => nd k) (seq 0 n)) in *.
assert (LL : length l = n) by (unfold l; now rewrite map_length, seq_length).
split; [rewrite app_length, LL; cbn; lia|].
assert (PS : forall k, places P (l ++ [Switch support (match n with O => [] | S n' => tasks L h n [p] [f] n' end)]) k =
  if Nat.eqb k f then (match n with O => P k | S n' => add3 p (dp L h n n') end) else P k).
{ intro k. rewrite places_app. cbn [places fold_left]. fold (places P l). destruct n as [|n'] eqn:En.
  - unfold place. cbn [tasks_of lookup]. destruct (Nat.eqb_spec k f) as [->|NE]; [exact A3|now apply A2].
  - unfold tasks. cbn [combine map fst snd]. rewrite place_sw. destruct (Nat.eqb_spec k f) as [->|NE]; [reflexivity|now apply A2]. }
split; [apply above_app; split; [exact A1|cbn; auto]|].
assert (OO : others f P (places P (l ++ [Switch support (match n with O => [] | S n' => tasks L h n [p] [f] n' end)]))).
{ intros k K. rewrite PS. now rewrite (proj2 (Nat.eqb_neq k f) K). }
split; [exact OO|]. split.
- intro N. destruct n as [|n'] eqn:En; [congruence|]. rewrite (mean_one c1 f P _ If OO), (mean_one c2 f P _ If OO), <- M1, <- M2, PS, Nat.eqb_refl, Pf.
  cbn [add3 c1 c2]. pose proof (dp_last L h (S n') ltac:(lia)) as DL. replace (S n' - 1)%nat with n' in DL by lia. rewrite DL.
  unfold com_percentage. rewrite S3. cbn [length Nat.add dp c2 INR]. split; [ring|]. split; [ring|]. split; lra.
- split; [cbn [add3 c3]; ring|]. split.
  + intro N. unfold l. rewrite N. reflexivity.
  + intros x I0. apply in_app_or in I0. destruct I0 as [I0|[<-|[]]].
    * unfold l in I0. apply in_map_iff in I0. destruct I0 as (k & <- & _). split; [reflexivity|]. reflexivity.
    * split; [reflexivity|]. destruct n; [intro X; now contradict X|]. reflexivity.
Qed.
End One.
Lemma double_above z P dt s k : above z P (repeat (Swing dt s None []) k) /\ places P (repeat (Swing dt s None []) k) = P.
Proof. induction k as [|k [A B]]; [split; [exact I|reflexivity]|]. cbn [repeat above places fold_left]. exact (conj (conj I A) B). Qed.
End Walk.

(** The walking problem is always built: two double supports and four steps, the last switch being also
    the terminal node; every node supports three feet and swings the fourth, or supports all four;
    the reference of the centre of mass is always above the mean of the places of the feet at the initial
    height; right feet advance by half a step in the first problem and a full step afterwards, left feet
    by a full step. *)
Theorem C100_walking : forall g plf prf plh prh comz L h dt n ds, distinct g ->
  exists nodes last g', walking g plf prf plh prh comz L h dt n ds = Some (nodes, last, g') /\
  length nodes = (2 * ds + 4 * (n + 1))%nat /\ (exists pre, nodes = pre ++ [last]) /\
  g' = Gait false (lf g) (rf g) (lh g) (rh g) /\
  (forall nd, In nd nodes -> exists swung, (forall f, In f (support_of nd) -> ~ In f swung) /\
     (forall f, f = lf g \/ f = rf g \/ f = lh g \/ f = rh g <-> In f (support_of nd) \/ In f swung) /\
     (length swung <= 1)%nat /\ (tasks_of nd <> [] -> map fst (tasks_of nd) = swung)) /\
  forall P, initial g plf prf plh prh P ->
    (forall pre dt' s c ts post, nodes = pre ++ Swing dt' s (Some c) ts :: post ->
       let Q := places P (pre ++ [Swing dt' s (Some c) ts]) in c1 c = mean c1 g Q /\ c2 c = mean c2 g Q /\ c3 c = comz) /\
    (n <> 0%nat -> let Q := places P nodes in let Lr := if first g then L / 2 else L in
       c1 (Q (rh g)) = c1 prh + Lr /\ c1 (Q (rf g)) = c1 prf + Lr /\ c1 (Q (lh g)) = c1 plh + L /\ c1 (Q (lf g)) = c1 plf + L /\
       c2 (Q (rh g)) = c2 prh /\ c2 (Q (rf g)) = c2 prf /\ c2 (Q (lh g)) = c2 plh /\ c2 (Q (lf g)) = c2 plf).
Proof.
intros g plf prf plh prh comz L h dt n ds D. unfold walking. cbv zeta. do 4 (rewrite foot_step_one; cbv beta iota).
set (c0 := add3 (add3 (add3 prf prh) plf) plh). set (com := V3 (c1 c0 / 4) (c2 c0 / 4) comz).
set (Lr := if first g then 1 / 2 * L else L).
set (d := repeat (Swing dt [lf g; rf g; lh g; rh g] None []) ds).
set (s1 := [lf g; rf g; lh g]). set (s2 := [lf g; lh g; rh g]). set (s3 := [lf g; rf g; rh g]). set (s4 := [rf g; lh g; rh g]).
set (com1 := sc Lr com s1 (rh g)). set (com2 := sc Lr com1 s2 (rf g)). set (com3 := sc L com2 s3 (lh g)).
set (n1 := sn dt Lr h n com prh s1 (rh g)). set (n2 := sn dt Lr h n com1 prf s2 (rf g)).
set (n3 := sn dt L h n com2 plh s3 (lh g)). set (n4 := sn dt L h n com3 plf s4 (lf g)).
pose proof D as D'. unfold distinct in D'. inversion D' as [|? ? N1 D1]; subst. inversion D1 as [|? ? N2 D2]; subst. inversion D2 as [|? ? N3 D3]; subst. cbn [In] in N1, N2, N3.
assert (NE : lf g <> rf g /\ lf g <> lh g /\ lf g <> rh g /\ rf g <> lh g /\ rf g <> rh g /\ lh g <> rh g)
  by (repeat split; intro X; first [apply N1; rewrite X; tauto|apply N2; rewrite X; tauto|apply N3; rewrite X; tauto]).
destruct NE as (E1 & E2 & E3 & E4 & E5 & E6).
assert (W4 : exists last pre4, n4 = pre4 ++ [last]) by (eexists _, _; reflexivity).
destruct W4 as (last & pre4 & W4).
assert (RV : rev (d ++ n1 ++ n2 ++ d ++ n3 ++ n4) = last :: rev (d ++ n1 ++ n2 ++ d ++ n3 ++ pre4)).
{ rewrite W4. rewrite !app_assoc, rev_app_distr. reflexivity. }
rewrite RV. exists (d ++ n1 ++ n2 ++ d ++ n3 ++ n4), last, (Gait false (lf g) (rf g) (lh g) (rh g)).
split; [reflexivity|].
assert (LN : forall dt L c p s f, length (sn dt L h n c p s f) = S n).
{ intros. unfold sn. rewrite app_length, map_length, seq_length. cbn. lia. }
split.
{ rewrite !app_length. unfold n1, n2, n3, n4, d. rewrite !LN, repeat_length. lia. }
split; [exists (d ++ n1 ++ n2 ++ d ++ n3 ++ pre4); rewrite W4, !app_assoc; reflexivity|].
split; [reflexivity|].
assert (SUP : forall nd dt L c p s f, In nd (sn dt L h n c p s f) -> support_of nd = s /\ (tasks_of nd <> [] -> map fst (tasks_of nd) = [f])).
{ intros nd dt0 L0 c p s f I0. unfold sn in I0. apply in_app_or in I0. destruct I0 as [I0|[<-|[]]].
  - apply in_map_iff in I0. destruct I0 as (k & <- & _). split; reflexivity.
  - split; [reflexivity|]. destruct n; [intro X; now contradict X|]. reflexivity. }
split.
{ intros nd I0. rewrite !in_app_iff in I0.
  destruct I0 as [I0|[I0|[I0|[I0|[I0|I0]]]]].
  - apply repeat_spec in I0. subst nd. exists []. cbn [support_of tasks_of map]. split; [intros f _ []|]. split; [intro f; cbn [In]; intuition congruence|]. split; [cbn; lia|auto].
  - destruct (SUP nd _ _ _ _ _ _ I0) as (-> & T). exists [rh g]. unfold s1. cbn [In]. split; [intros f [<-|[<-|[<-|[]]]] [X|[]]; congruence|]. split; [intro f; intuition congruence|]. split; [cbn; lia|exact T].
  - destruct (SUP nd _ _ _ _ _ _ I0) as (-> & T). exists [rf g]. unfold s2. cbn [In]. split; [intros f [<-|[<-|[<-|[]]]] [X|[]]; congruence|]. split; [intro f; intuition congruence|]. split; [cbn; lia|exact T].
  - apply repeat_spec in I0. subst nd. exists []. cbn [support_of tasks_of map]. split; [intros f _ []|]. split; [intro f; cbn [In]; intuition congruence|]. split; [cbn; lia|auto].
  - destruct (SUP nd _ _ _ _ _ _ I0) as (-> & T). exists [lh g]. unfold s3. cbn [In]. split; [intros f [<-|[<-|[<-|[]]]] [X|[]]; congruence|]. split; [intro f; intuition congruence|]. split; [cbn; lia|exact T].
  - destruct (SUP nd _ _ _ _ _ _ I0) as (-> & T). exists [lf g]. unfold s4. cbn [In]. split; [intros f [<-|[<-|[<-|[]]]] [X|[]]; congruence|]. split; [intro f; intuition congruence|]. split; [cbn; lia|exact T]. }
intros P (I1 & I2 & I3 & I4).
destruct (double_above g comz P dt [lf g; rf g; lh g; rh g] ds) as [DA DP]. fold d in DA, DP.
destruct (Nat.eq_dec n 0) as [Z0|Z0].
{ split; [|intro X; contradiction]. apply above_at.
  assert (T : forall dt L c p s f Q, above g comz Q (sn dt L h n c p s f) /\ places Q (sn dt L h n c p s f) = Q).
  { intros. unfold sn. rewrite Z0. cbn [seq map app above places fold_left]. split; [auto|reflexivity]. }
  rewrite !above_app. rewrite !DP. unfold n1, n2, n3, n4.
  repeat match goal with |- context[places ?Q (sn ?a ?b ?c ?e ?f ?i ?j ?k)] => rewrite (proj2 (T a b f i j k Q)) end. rewrite !DP.
  repeat match goal with |- context[places ?Q (sn ?a ?b ?c ?e ?f ?i ?j ?k)] => rewrite (proj2 (T a b f i j k Q)) end.
  repeat (split; [first [exact DA|apply T]|]). apply T. }
destruct (one_step g D dt Lr h n com prh s1 (rh g) P eq_refl ltac:(cbn; auto) I4) as (_ & A1 & O1 & F1 & C1 & _ & _).
{ unfold com, mean. cbn [c1]. rewrite I1, I2, I3, I4. cbn [add3 c1 c0]. lra. }
{ unfold com, mean. cbn [c2]. rewrite I1, I2, I3, I4. cbn [add3 c2 c0]. lra. }
fold n1 com1 in A1, O1, F1, C1. destruct (F1 Z0) as (X1 & Y1 & M11 & M12). set (P1 := places P n1) in *.
destruct (one_step g D dt Lr h n com1 prf s2 (rf g) P1 eq_refl ltac:(cbn; auto)) as (_ & A2 & O2 & F2 & C2 & _ & _); [rewrite (O1 (rf g)) by congruence; exact I2|exact M11|exact M12|].
fold n2 com2 in A2, O2, F2, C2. destruct (F2 Z0) as (X2 & Y2 & M21 & M22). set (P2 := places P1 n2) in *.
destruct (one_step g D dt L h n com2 plh s3 (lh g) P2 eq_refl ltac:(cbn; auto)) as (_ & A3 & O3 & F3 & C3 & _ & _);
  [rewrite (O2 (lh g)), (O1 (lh g)) by congruence; exact I3|exact M21|exact M22|].
fold n3 com3 in A3, O3, F3, C3. destruct (F3 Z0) as (X3 & Y3 & M31 & M32). set (P3 := places P2 n3) in *.
destruct (one_step g D dt L h n com3 plf s4 (lf g) P3 eq_refl ltac:(cbn; auto)) as (_ & A4 & O4 & F4 & C4 & _ & _);
  [rewrite (O3 (lf g)), (O2 (lf g)), (O1 (lf g)) by congruence; exact I1|exact M31|exact M32|].
fold n4 in A4, O4, F4. destruct (F4 Z0) as (X4 & Y4 & _ & _). set (P4 := places P3 n4) in *.
rewrite C3, C2, C1 in A4. rewrite C2, C1 in A3. rewrite C1 in A2. cbn [com c3] in A1, A2, A3, A4.
destruct (double_above g comz P2 dt [lf g; rf g; lh g; rh g] ds) as [DA2 DP2]. fold d in DA2, DP2.
split.
- apply above_at. rewrite !above_app, DP. fold P1 P2. rewrite DP2. fold P3. tauto.
- intros _. cbv zeta. rewrite !places_app, DP. fold P1 P2. rewrite DP2. fold P3 P4.
  assert (LR : Lr = if first g then L / 2 else L) by (unfold Lr; destruct (first g); [field|reflexivity]).
  rewrite <- LR.
  rewrite (O4 (rh g)), (O3 (rh g)), (O2 (rh g)) by congruence. rewrite (O4 (rf g)), (O3 (rf g)) by congruence. rewrite (O4 (lh g)) by congruence.
  tauto.
Qed.

(** Example: three knots per step, two double supports: the third reference is the landing point. *)
Example C100_ex : exists nodes last g', let g := Gait true 11 7 15 3 in
  walking g (V3 1 1 0) (V3 1 (-1) 0) (V3 (-1) 1 0) (V3 (-1) (-1) 0) 5 2 (1 / 2) (1 / 100) 3 2 = Some (nodes, last, g') /\
  distinct g /\ length nodes = 20%nat /\
  (exists c, nth_error nodes 4 = Some (Swing (1 / 100) [11; 7; 15]%nat c [(3%nat, V3 (-1 + 1) (-1 + 0) (0 + 0))])) /\
  initial g (V3 1 1 0) (V3 1 (-1) 0) (V3 (-1) 1 0) (V3 (-1) (-1) 0)
    (fun f => V3 (if (f =? 11)%nat || (f =? 7)%nat then 1 else -1) (if (f =? 11)%nat || (f =? 15)%nat then 1 else -1) 0).
Proof.
eexists _, _, _. split; [unfold walking; cbv zeta; cbn [lf rf lh rh first]; do 4 (rewrite foot_step_one; cbv beta iota); reflexivity|].
split; [unfold distinct; cbn [lf rf lh rh]; repeat constructor; cbn; lia|]. split; [reflexivity|]. split.
- eexists. cbn [repeat app sn seq map nth_error]. f_equal. f_equal. unfold tasks. cbn [combine map fst snd].
  change (dp (1 / 2 * 2) (1 / 2) 3 2) with (dp (1 / 2 * 2) (1 / 2) (2 * 1 + 1) (2 * 1)). rewrite dp_odd by lia.
  unfold add3. cbn [c1 c2 c3]. f_equal. f_equal. f_equal. lra.
- repeat split; reflexivity.
Qed.
(** four knots: the foot switches contact half the step height above the ground *)
Example C100_hanging : exists pre c com' feet', foot_step (1 / 100) 2 (1 / 2) 4 z3 [V3 1 1 0] [1; 2; 3]%nat [4]%nat =
  Some (pre ++ [Swing (1 / 100) [1; 2; 3]%nat c [(4%nat, V3 (1 + 2 * (INR 4 / INR 4)) (1 + 0) (0 + 1 / 2 * (1 - (INR 3 - INR 2) / INR 2)))];
    Switch [1; 2; 3]%nat [(4%nat, V3 (1 + 2 * (INR 4 / INR 4)) (1 + 0) (0 + 1 / 2 * (1 - (INR 3 - INR 2) / INR 2)))]], com', feet') /\
  1 / 2 * (1 - (INR 3 - INR 2) / INR 2) = 1 / 4.
Proof. exists (map (fun k => Swing (1 / 100) [1; 2; 3]%nat (Some (com_task 2 4 z3 [1; 2; 3]%nat [4]%nat k)) (tasks 2 (1 / 2) 4 [V3 1 1 0] [4]%nat k)) (seq 0 3)). eexists _, _, _. split; [reflexivity|]. cbn [INR]. lra. Qed.
Print Assumptions C100_swing.
Print Assumptions C100_landing_partial.
Print Assumptions C100_landing_refuted.
Print Assumptions C100_walking.
