(** C119, C120: the gait problems of the Python utilities (model: Gait_Model.v). *)
From Coq Require Import Reals List Arith Bool Lra Lia Permutation.
From Verif Require Import Gait_Model.
Import ListNotations.
Local Open Scope R_scope.

(** ** Specification *)
Definition total (l : list nat) (g : nat -> R) : R := fold_right Rplus 0 (map g l).
(** The place of a swinging foot at knot k of N: forward evenly, up and down along a tent *)
Definition swinging (p0 p : pos) (L h : R) (N k : nat) : Prop :=
  px p = px p0 + INR (k + 1) / INR N * L /\ py p = py p0 /\
  pz p = pz p0 + h * Rmin (2 * INR k / INR N) (2 - 2 * INR k / INR N).
Definition over (F : list nat) (c : pos) (r : nat -> pos) : Prop :=
  INR (length F) * px c = total F (fun i => px (r i)) /\ INR (length F) * py c = total F (fun i => py (r i)).
(** A node that holds all feet *)
Definition standing (F : list nat) (dt : R) (n : node) : Prop :=
  exists held, n = Stance dt held None [] /\ forall i, In i held <-> In i F.
(** A step of the feet sw, from the footprints f to f': the other feet are held, the swinging ones
    follow their path, the centre of mass is kept over the feet, and the feet land horizontally on
    their new footprints. *)
Definition step (F : list nat) (cz dt L h : R) (N : nat) (sw : list nat) (f : nat -> pos) (ns : list node) (f' : nat -> pos) : Prop :=
  (forall i, In i sw -> px (f' i) = px (f i) + L /\ py (f' i) = py (f i) /\ pz (f' i) = pz (f i)) /\
  (forall i, ~ In i sw -> f' i = f i) /\
  exists swings land ts, ns = swings ++ [Switch land ts] /\ length swings = N /\
    (forall k n, nth_error swings k = Some n -> exists held c tr ref, n = Stance dt held (Some c) tr /\
      (forall i, In i held <-> In i F /\ ~ In i sw) /\
      (forall i, ~ In i sw -> ref i = f i) /\ (forall i, In i sw -> swinging (f i) (ref i) L h N k) /\
      (forall i p, In (i, p) tr <-> In i sw /\ p = ref i) /\ over F c ref /\ pz c = cz) /\
    (forall i, In i land <-> In i sw) /\ (forall i, In i sw -> exists p, In (i, p) ts) /\
    (forall i p, In (i, p) ts -> In i sw /\ px p = px (f' i) /\ py p = py (f' i) /\
       pz p = pz (f' i) + h * Rmin (2 * INR (N - 1) / INR N) (2 / INR N)).
Inductive segment := Stand (n : nat) | Step (sw : list nat) (L : R).
Fixpoint chain (F : list nat) (cz dt h : R) (N : nat) (f : nat -> pos) (l : list segment) (ns : list node) (f' : nat -> pos) : Prop :=
  match l with
  | [] => ns = [] /\ forall i, f' i = f i
  | Stand n :: l => exists a b, ns = a ++ b /\ length a = n /\ List.Forall (standing F dt) a /\ chain F cz dt h N f l b f'
  | Step sw L :: l => exists a b f1, ns = a ++ b /\ step F cz dt L h N sw f a f1 /\ chain F cz dt h N f1 l b f'
  end.

(** ** Lemmas *)
Lemma total_app l r g : total (l ++ r) g = total l g + total r g.
Proof. unfold total. induction l as [|a l IH]; cbn; [lra|]. rewrite IH. lra. Qed.
Lemma total_perm l r g : Permutation l r -> total l g = total r g.
Proof. unfold total. induction 1; cbn in *; lra. Qed.
Lemma total_ext l g g' : (forall i, In i l -> g i = g' i) -> total l g = total l g'.
Proof. unfold total. induction l as [|a l IH]; cbn; intro H; [reflexivity|]. rewrite H, IH by auto. reflexivity. Qed.
Lemma total_shift l g c : total l (fun i => g i + c) = total l g + INR (length l) * c.
Proof.
  unfold total. induction l as [|a l IH]; [cbn; lra|]. cbn [map fold_right length]. rewrite IH, S_INR. lra.
Qed.
Lemma some_inj {A} (a b : A) : Some a = Some b -> a = b.
Proof. congruence. Qed.
Lemma combine_diag {A} (l : list A) : combine l l = map (fun i => (i, i)) l.
Proof. induction l; cbn; congruence. Qed.
Lemma moves L arrays : NoDup arrays -> forall f i,
  fold_left (move L) arrays f i = if in_dec Nat.eq_dec i arrays then padd (f i) (Pos L 0 0) else f i.
Proof.
  induction 1 as [|a l Ha Nd IH]; intros f i; cbn [fold_left]; [now destruct (in_dec _ i [])|].
  rewrite IH. unfold move at 1 2. destruct (in_dec Nat.eq_dec i l) as [I|I]; destruct (in_dec Nat.eq_dec i (a :: l)) as [J|J].
  - destruct (Nat.eqb_spec i a) as [->|]; [contradiction|reflexivity].
  - exfalso. apply J. now right.
  - destruct J as [->|J]; [|contradiction]. now rewrite Nat.eqb_refl.
  - destruct (Nat.eqb_spec i a) as [->|]; [|reflexivity]. exfalso. apply J. now left.
Qed.
Lemma swing_spec L h N k p : (k < N)%nat -> swinging p (padd p (swing L h N k)) L h N k.
Proof.
  intro H. assert (P : 0 < INR N) by (apply lt_0_INR; lia). unfold swinging, swing.
  destruct (Nat.ltb_spec (2 * k) N) as [A|A]; [|destruct (Nat.eqb_spec (2 * k) N) as [B|B]]; cbn [padd px py pz].
  - split; [field; lra|split; [lra|]]. apply lt_INR in A. rewrite mult_INR in A. cbn [INR] in A.
    assert (Q : 2 * INR k / INR N < 1) by (apply Rmult_lt_reg_r with (INR N); [lra|field_simplify; lra]).
    rewrite Rmin_left by lra. field. lra.
  - split; [field; lra|split; [lra|]]. apply (f_equal INR) in B. rewrite mult_INR in B. cbn [INR] in B.
    assert (Q : 2 * INR k / INR N = 1) by (rewrite <- B; field; lra). rewrite Q, Rmin_left by lra. lra.
  - split; [field; lra|split; [lra|]]. assert (A' : (N < 2 * k)%nat) by lia. apply lt_INR in A'. rewrite mult_INR in A'. cbn [INR] in A'.
    assert (Q : 1 < 2 * INR k / INR N) by (apply Rmult_lt_reg_r with (INR N); [lra|field_simplify; lra]).
    rewrite Rmin_right by lra. field. lra.
Qed.
Lemma swing_xy L h N k : px (swing L h N k) = L * INR (k + 1) / INR N /\ py (swing L h N k) = 0.
Proof. unfold swing. destruct (_ <? _)%nat; [|destruct (_ =? _)%nat]; split; reflexivity. Qed.

Lemma tasks_in l (g : nat -> pos) i p : In (i, p) (map (fun '(i, a) => (i, g a)) (combine l l)) <-> In i l /\ p = g i.
Proof.
  rewrite combine_diag, map_map. rewrite in_map_iff. split.
  - intros (j & E & J). injection E as <- <-. now split.
  - intros [I ->]. now exists i.
Qed.

Section Feet.
Variables (F : list nat) (cz : R).
Hypothesis ND : NoDup F.
Hypothesis NE : F <> [].

Definition centred (m : mem) : Prop := over F (m_com m) (m_foot m) /\ pz (m_com m) = cz.

Lemma total_move support feet (f r : nat -> R) c : Permutation F (support ++ feet) ->
  (forall i, ~ In i feet -> r i = f i) -> (forall i, In i feet -> r i = f i + c) ->
  total F r = total F f + INR (length feet) * c.
Proof.
  intros P A B. rewrite (total_perm F _ r P), (total_perm F _ f P), !total_app.
  assert (D : NoDup (support ++ feet)) by (eapply Permutation_NoDup; eassumption).
  rewrite (total_ext support r f), (total_ext feet r (fun i => f i + c)), total_shift; [lra|exact B|].
  intros i I. apply A. intro J. clear - D I J. induction support as [|a s IH]; [easy|]. cbn in D. inversion D as [|x l N1 N2]; subst.
  destruct I as [->|I]; [apply N1, in_or_app; now right|]. now apply IH.
Qed.

Lemma footsteps_step m support feet L h dt N : Permutation F (support ++ feet) -> centred m -> N <> 0%nat ->
  exists ns m', footsteps m feet L h dt N support feet = Some (ns, m') /\
    step F cz dt L h N feet (m_foot m) ns (m_foot m') /\ centred m'.
Proof.
  intros P [[Cx Cy] Cz] HN.
  assert (D : NoDup (support ++ feet)) by (eapply Permutation_NoDup; eassumption).
  assert (Len : length F = (length support + length feet)%nat) by (rewrite (Permutation_length P), app_length; reflexivity).
  assert (Pos0 : 0 < INR (length F)) by (apply lt_0_INR; destruct F; [congruence|cbn; lia]).
  assert (PosN : 0 < INR N) by (apply lt_0_INR; lia).
  assert (DF : NoDup feet) by (clear - D; induction support; [exact D|inversion D; auto]).
  assert (Disj : forall i, In i support -> In i feet -> False).
  { clear - D. induction support as [|a s IH]; [easy|]. cbn in D. inversion D as [|x l N1 N2]; subst. intros i [->|I] J.
    - apply N1, in_or_app. now right.
    - now apply (IH N2 i). }
  assert (Sup : forall i, In i support <-> In i F /\ ~ In i feet).
  { intro i. split.
    - intro I. split; [|intro J; eauto]. eapply Permutation_in; [symmetry; exact P|]. apply in_or_app. now left.
    - intros [I J]. apply (Permutation_in _ P), in_app_or in I. tauto. }
  unfold footsteps. destruct N as [|last]; [congruence|]. set (N := S last) in *.
  set (f := m_foot m) in *. set (f' := fold_left (move L) feet f).
  assert (Fi : forall i, In i feet -> f' i = padd (f i) (Pos L 0 0)).
  { intros i I. unfold f'. rewrite moves by exact DF. now destruct (in_dec Nat.eq_dec i feet). }
  assert (Fo : forall i, ~ In i feet -> f' i = f i).
  { intros i I. unfold f'. rewrite moves by exact DF. now destruct (in_dec Nat.eq_dec i feet). }
  set (part := INR (length feet) / INR (length support + length feet)).
  assert (Part : INR (length F) * part = INR (length feet)) by (unfold part; rewrite <- Len; field; lra).
  eexists _, _. split; [reflexivity|]. split; [|split; [split|]]; cbn [m_foot m_com].
  - split; [|split; [exact Fo|]].
    { intros i I. fold f f'. rewrite Fi by exact I. cbn. repeat split; lra. }
    eexists _, feet, _. split; [reflexivity|]. split; [rewrite map_length, seq_length; reflexivity|]. split; [|split; [tauto|split]].
    + intros k n E. assert (K : (k < N)%nat).
      { lazymatch type of E with nth_error ?l k = _ => assert (X : (k < length l)%nat) by (apply nth_error_Some; rewrite E; discriminate) end. rewrite map_length, seq_length in X; exact X. }
      rewrite nth_error_map, (nth_error_nth' (seq 0 N) 0%nat) in E by (rewrite seq_length; exact K).
      rewrite seq_nth in E by exact K. cbn [option_map Nat.add] in E.
      set (ref := fun i => if in_dec Nat.eq_dec i feet then padd (f i) (swing L h N k) else f i).
      assert (Ri : forall i, In i feet -> ref i = padd (f i) (swing L h N k)) by (intros i I; unfold ref; now destruct (in_dec Nat.eq_dec i feet)).
      assert (Ro : forall i, ~ In i feet -> ref i = f i) by (intros i I; unfold ref; now destruct (in_dec Nat.eq_dec i feet)).
      exists support. eexists _, _, ref. split; [apply some_inj in E; symmetry; exact E|].
      split; [exact Sup|]. split; [exact Ro|]. split; [intros i I; rewrite Ri by exact I; now apply swing_spec|].
      split.
      { intros i p. rewrite (tasks_in feet (fun a => padd (f a) (swing L h N k))). split; (intros [I Q]; split; [exact I|]).
        - now rewrite Ri.
        - now rewrite Q, Ri. }
      destruct (swing_xy L h N k) as [Sx Sy]. split; [split|].
      * cbn [padd pscale px]. rewrite (total_move support feet (fun i => px (f i)) (fun i => px (ref i)) (L * INR (k + 1) / INR N) P).
        -- rewrite <- Cx. rewrite Rmult_plus_distr_l, <- Rmult_assoc, Part. unfold Rdiv. ring.
        -- intros i I. now rewrite Ro.
        -- intros i I. rewrite Ri by exact I. cbn [padd px]. now rewrite Sx.
      * cbn [padd pscale py]. rewrite (total_move support feet (fun i => py (f i)) (fun i => py (ref i)) 0 P).
        -- rewrite <- Cy. lra.
        -- intros i I. now rewrite Ro.
        -- intros i I. rewrite Ri by exact I. cbn [padd py]. now rewrite Sy.
      * cbn [padd pscale pz]. rewrite Cz. lra.
    + intros i I. eexists. apply (tasks_in feet (fun a => padd (f a) (swing L h N last))). split; [exact I|reflexivity].
    + intros i p I. apply (tasks_in feet (fun a => padd (f a) (swing L h N last))) in I. destruct I as [I ->]. split; [exact I|].
      assert (K : (last < N)%nat) by (unfold N; lia). destruct (swing_spec L h N last (f i) K) as (A & B & C).
      fold f f'. rewrite A, B, C, Fi by exact I. cbn [padd px py pz].
      replace (N - 1)%nat with last by (unfold N; lia). replace (last + 1)%nat with N by (unfold N; lia).
      split; [field; lra|split; [lra|]].
      replace (2 - 2 * INR last / INR N) with (2 / INR N); [lra|].
      unfold N. rewrite S_INR. field. rewrite <- S_INR. fold N. lra.
  - cbn [padd px]. rewrite (total_move support feet (fun i => px (f i)) (fun i => px (f' i)) L P).
    + rewrite <- Cx. rewrite Rmult_plus_distr_l. replace (INR (length F) * (L * part)) with (INR (length F) * part * L) by ring. rewrite Part. lra.
    + intros i I. now rewrite Fo.
    + intros i I. rewrite Fi by exact I. reflexivity.
  - cbn [padd py]. rewrite (total_move support feet (fun i => py (f i)) (fun i => py (f' i)) 0 P).
    + rewrite <- Cy. lra.
    + intros i I. now rewrite Fo.
    + intros i I. rewrite Fi by exact I. reflexivity.
  - cbn [padd pz]. lra.
Qed.
End Feet.
Lemma split_last_app l n : split_last (l ++ [n]) = Some (l, n).
Proof.
  induction l as [|a l IH]; [reflexivity|]. cbn [app split_last]. rewrite IH. destruct l; reflexivity.
Qed.
Ltac perm := apply (Permutation_count_occ Nat.eq_dec); intro; cbn; repeat (destruct Nat.eq_dec); reflexivity.
Lemma chain_stand F cz dt h N f l b f' n k : standing F dt n -> chain F cz dt h N f l b f' -> chain F cz dt h N f (Stand k :: l) (repeat n k ++ b) f'.
Proof.
  intros H C. exists (repeat n k), b. split; [reflexivity|split; [apply repeat_length|split; [|exact C]]].
  apply List.Forall_forall. intros m M. apply repeat_spec in M. now subst.
Qed.
Lemma chain_step F cz dt h N f l a b f1 f' sw L : step F cz dt L h N sw f a f1 -> chain F cz dt h N f1 l b f' -> chain F cz dt h N f (Step sw L :: l) (a ++ b) f'.
Proof. intros A C. now exists a, b, f1. Qed.
Lemma chain_end F cz dt h N f : chain F cz dt h N f [] [] f.
Proof. now split. Qed.

Inductive gait := Walk | Trot | Pace | Bound.
Section Quadruped.
Variables lf rf lh rh : nat.
Definition make (g : gait) := match g with Walk => walking lf rf lh rh | Trot => trotting lf rf lh rh | Pace => pacing lf rf lh rh | Bound => bounding lf rf lh rh end.
(** The order of the steps: one leg at a time, diagonal pairs, the legs of a side, front and hind pairs;
    in the first problem the legs that go first make half a step. *)
Definition order (g : gait) (K : nat) (L1 L : R) : list segment :=
  match g with
  | Walk => [Stand K; Step [rh] L1; Step [rf] L1; Stand K; Step [lh] L; Step [lf] L]
  | Trot => [Stand K; Step [rf; lh] L1; Stand K; Step [lf; rh] L]
  | Pace => [Stand K; Step [rf; rh] L1; Stand K; Step [lf; lh] L]
  | Bound => [Stand K; Step [lf; rf] L; Stand K; Step [lh; rh] L]
  end.
Definition leads (g : gait) (i : nat) : Prop :=
  match g with Walk | Pace => i = rf \/ i = rh | Trot => i = rf \/ i = lh | Bound => False end.
Hypothesis ND : NoDup [lf; rf; lh; rh].
Variables (f : nat -> pos) (cz L h dt : R) (N K : nat).
Hypothesis (HN : N <> 0%nat) (HK : K <> 0%nat).

Lemma start_centred : centred [lf; rf; lh; rh] cz (start4 lf rf lh rh f cz).
Proof. unfold centred, over, total, start4. cbn. repeat split; try lra. Qed.
Lemma stand_standing : standing [lf; rf; lh; rh] dt (stand4 lf rf lh rh dt).
Proof. eexists. split; [reflexivity|]. now intro i. Qed.

Ltac one_step sup sw LL :=
  lazymatch goal with
  | C : centred _ _ ?m |- _ =>
      let ns := fresh "ns" in let m' := fresh "m" in let E := fresh "E" in let St := fresh "St" in let C' := fresh "C" in
      destruct (footsteps_step [lf; rf; lh; rh] cz ND ltac:(discriminate) m sup sw LL h dt N ltac:(perm) C HN) as (ns & m' & E & St & C'); clear C
  end.
Lemma first_ds : exists n K', repeat (stand4 lf rf lh rh dt) K = n :: repeat n K' /\ n = stand4 lf rf lh rh dt /\ K = S K'.
Proof. destruct K as [|K']; [congruence|]. eexists _, K'. repeat split. Qed.

Theorem C119_quadruped g first : exists running term f',
  fst (make g f cz L h dt N K first) = Some (running, term) /\
  chain [lf; rf; lh; rh] cz dt h N f (order g K (if first then L / 2 else L) L) running f' /\
  standing [lf; rf; lh; rh] dt term /\
  snd (make g f cz L h dt N K first) = (match g with Bound => first | _ => false end).
Proof.
  pose proof start_centred as C0. replace (L / 2) with (/ 2 * L) by field.
  assert (F0 : first_of (repeat (stand4 lf rf lh rh dt) K) = Some (stand4 lf rf lh rh dt)) by (destruct K; [congruence|reflexivity]).
  destruct g; cbn [make].
  - set (L1 := if first then / 2 * L else L). one_step [lf; rf; lh] [rh] L1. one_step [lf; lh; rh] [rf] L1.
    one_step [lf; rf; rh] [lh] L. one_step [rf; lh; rh] [lf] L.
    unfold walking. fold L1. rewrite E. cbn [snd fst]. rewrite E0. cbn [snd fst]. rewrite E1. cbn [snd fst]. rewrite E2. cbn [snd fst].
    rewrite F0. rewrite !app_assoc, split_last_app. eexists _, _, _. split; [reflexivity|split; [|split; [exact stand_standing|reflexivity]]].
    rewrite <- !app_assoc. unfold order. apply chain_stand; [exact stand_standing|].
    eapply chain_step; [exact St|]. eapply chain_step; [exact St0|]. apply chain_stand; [exact stand_standing|].
    eapply chain_step; [exact St1|]. rewrite <- (app_nil_r ns2). eapply chain_step; [exact St2|]. apply chain_end.
  - set (L1 := if first then / 2 * L else L). one_step [lf; rh] [rf; lh] L1. one_step [rf; lh] [lf; rh] L.
    unfold trotting. fold L1. rewrite E. rewrite E0. cbn [snd fst].
    rewrite F0. rewrite !app_assoc, split_last_app. eexists _, _, _. split; [reflexivity|split; [|split; [exact stand_standing|reflexivity]]].
    rewrite <- !app_assoc. unfold order. apply chain_stand; [exact stand_standing|].
    eapply chain_step; [exact St|]. apply chain_stand; [exact stand_standing|].
    rewrite <- (app_nil_r ns0). eapply chain_step; [exact St0|]. apply chain_end.
  - set (L1 := if first then / 2 * L else L). one_step [lf; lh] [rf; rh] L1. one_step [rf; rh] [lf; lh] L.
    unfold pacing. fold L1. rewrite E. rewrite E0. cbn [snd fst].
    rewrite F0. rewrite !app_assoc, split_last_app. eexists _, _, _. split; [reflexivity|split; [|split; [exact stand_standing|reflexivity]]].
    rewrite <- !app_assoc. unfold order. apply chain_stand; [exact stand_standing|].
    eapply chain_step; [exact St|]. apply chain_stand; [exact stand_standing|].
    rewrite <- (app_nil_r ns0). eapply chain_step; [exact St0|]. apply chain_end.
  - one_step [lh; rh] [lf; rf] L. one_step [lf; rf] [lh; rh] L.
    unfold bounding. rewrite E. cbn [snd fst]. rewrite E0. cbn [snd fst].
    rewrite F0. rewrite !app_assoc, split_last_app. eexists _, _, _. split; [reflexivity|split; [|split; [exact stand_standing|reflexivity]]].
    rewrite <- !app_assoc. unfold order. apply chain_stand; [exact stand_standing|].
    eapply chain_step; [exact St|]. apply chain_stand; [exact stand_standing|].
    rewrite <- (app_nil_r ns0). eapply chain_step; [exact St0|]. apply chain_end.
Qed.
End Quadruped.

(** ** What follows for whole problems *)
Definition tracked (n : node) : list (nat * pos) := match n with Stance _ _ _ tr => tr | Switch _ tr => tr end.
Definition duration (n : node) : R := match n with Stance dt _ _ _ => dt | Switch _ _ => 0 end.
Definition steps (l : list segment) : nat := fold_right (fun s k => match s with Stand _ => k | Step _ _ => S k end) 0%nat l.
Definition stands (l : list segment) : nat := fold_right (fun s k => match s with Stand n => (n + k)%nat | Step _ _ => k end) 0%nat l.
Definition way (l : list segment) (i : nat) : R :=
  fold_right (fun s d => match s with Stand _ => d | Step sw L => if in_dec Nat.eq_dec i sw then L + d else d end) 0 l.
Definition lasting (l : list node) : R := fold_right (fun n s => duration n + s) 0 l.

Section Chains.
Variables (F : list nat) (cz dt h : R) (N : nat).
Lemma chain_feet l : forall f ns f', chain F cz dt h N f l ns f' ->
  forall i, px (f' i) = px (f i) + way l i /\ py (f' i) = py (f i) /\ pz (f' i) = pz (f i).
Proof.
  induction l as [|[n|sw L] l IH]; intros f ns f' C i; cbn [chain way fold_right] in *.
  - destruct C as [_ C]. rewrite C. repeat split; lra.
  - destruct C as (a & b & _ & _ & _ & C). exact (IH _ _ _ C i).
  - destruct C as (a & b & f1 & _ & (A & B & _) & C). destruct (IH _ _ _ C i) as (X & Y & Z).
    destruct (in_dec Nat.eq_dec i sw) as [I|I].
    + destruct (A i I) as (U & V & W). fold (way l i). rewrite X, Y, Z, U, V, W. repeat split; lra.
    + rewrite X, Y, Z, (B i I). repeat split; reflexivity.
Qed.
Lemma lasting_app a b : lasting (a ++ b) = lasting a + lasting b.
Proof. unfold lasting. induction a as [|x a IH]; cbn; [lra|]. rewrite IH. lra. Qed.
Lemma lasting_all a : (forall n, In n a -> duration n = dt) -> lasting a = INR (length a) * dt.
Proof.
  induction a as [|x a IH]; intro H; [cbn; lra|]. cbn [lasting fold_right length]. fold (lasting a).
  rewrite (H x), IH, S_INR by (intros; try apply H; cbn; auto). lra.
Qed.
Lemma chain_count l : forall f ns f', chain F cz dt h N f l ns f' ->
  length ns = (stands l + steps l * (N + 1))%nat /\ lasting ns = INR (stands l + steps l * N) * dt.
Proof.
  induction l as [|[n|sw L] l IH]; intros f ns f' C; cbn [chain] in *.
  - destruct C as [-> _]. cbn. split; [reflexivity|lra].
  - destruct C as (a & b & -> & La & Sa & C). destruct (IH _ _ _ C) as [X Y]. change (stands (Stand n :: l)) with (n + stands l)%nat. change (steps (Stand n :: l)) with (steps l).
    rewrite app_length, lasting_app, X, Y, La. split; [lia|]. rewrite lasting_all.
    + rewrite La, !plus_INR. lra.
    + intros m M. rewrite List.Forall_forall in Sa. destruct (Sa m M) as (hh & -> & _). reflexivity.
  - destruct C as (a & b & f1 & -> & (_ & _ & sws & land & ts & -> & Ls & Q & _) & C). destruct (IH _ _ _ C) as [X Y].
    change (stands (Step sw L :: l)) with (stands l). change (steps (Step sw L :: l)) with (S (steps l)).
    rewrite !app_length, !lasting_app, X, Y, Ls. split; [cbn; lia|]. rewrite lasting_all.
    + rewrite Ls. cbn [lasting fold_right duration]. replace (stands l + S (steps l) * N)%nat with (N + (stands l + steps l * N))%nat by lia.
      rewrite (plus_INR N). lra.
    + intros m M. apply In_nth_error in M. destruct M as (k & E). destruct (Q k m E) as (held & c & tr & ref & -> & _). reflexivity.
Qed.
(** Every tracked foot is at the height of some knot; where it lands, at the height of the last one. *)
Lemma chain_heights l : forall f ns f', chain F cz dt h N f l ns f' -> forall n i p, In n ns -> In (i, p) (tracked n) ->
  match n with
  | Stance _ held _ _ => ~ In i held /\ exists k, (k < N)%nat /\ pz p = pz (f i) + h * Rmin (2 * INR k / INR N) (2 - 2 * INR k / INR N)
  | Switch _ _ => pz p = pz (f i) + h * Rmin (2 * INR (N - 1) / INR N) (2 / INR N)
  end.
Proof.
  induction l as [|[m|sw L] l IH]; intros f ns f' C n i p I T; cbn [chain] in *.
  - destruct C as [-> _]. destruct I.
  - destruct C as (a & b & -> & _ & Sa & C). apply in_app_or in I. destruct I as [I|I]; [|exact (IH _ _ _ C n i p I T)].
    rewrite List.Forall_forall in Sa. destruct (Sa n I) as (held & -> & _). destruct T.
  - destruct C as (a & b & f1 & -> & (Mv & St & sws & land & ts & -> & Ls & Q & _ & _ & Ld) & C). apply in_app_or in I.
    assert (Hz : pz (f1 i) = pz (f i)) by (destruct (in_dec Nat.eq_dec i sw) as [J|J]; [now apply Mv|now rewrite St]).
    destruct I as [I|I].
    + apply in_app_or in I. destruct I as [I|[<-|[]]].
      * apply In_nth_error in I. destruct I as (k & E). destruct (Q k n E) as (held & c & tr & ref & -> & Hd & _ & Sw & Tr & _).
        cbn [tracked] in T. apply Tr in T. destruct T as [J ->]. split.
        -- rewrite Hd. tauto.
        -- exists k. split; [rewrite <- Ls; apply nth_error_Some; rewrite E; discriminate|]. destruct (Sw i J) as (_ & _ & Z). exact Z.
      * cbn [tracked] in T. destruct (Ld i p T) as (_ & _ & _ & Z). now rewrite Z, Hz.
    + pose proof (IH _ _ _ C n i p I T) as Z. rewrite <- Hz. exact Z.
Qed.
End Chains.

Lemma tent_bounds N k : (k < N)%nat -> 0 <= Rmin (2 * INR k / INR N) (2 - 2 * INR k / INR N) <= 1 /\
  (Rmin (2 * INR k / INR N) (2 - 2 * INR k / INR N) = 1 -> N = (2 * k)%nat).
Proof.
  intro H. assert (P : 0 < INR N) by (apply lt_0_INR; lia). pose proof (pos_INR k) as Pk. pose proof (lt_INR _ _ H) as Hk.
  set (t := 2 * INR k / INR N). assert (T0 : 0 <= t) by (apply Rle_mult_inv_pos; lra).
  assert (T2 : t * INR N = 2 * INR k) by (unfold t; field; lra).
  assert (T3 : t < 2) by (apply Rmult_lt_reg_r with (INR N); lra).
  split.
  - unfold Rmin. destruct (Rle_dec t (2 - t)); lra.
  - intro E. assert (t = 1) by (unfold Rmin in E; destruct (Rle_dec t (2 - t)); lra).
    apply INR_eq. rewrite mult_INR. cbn [INR]. nra.
Qed.

Section Whole.
Variables lf rf lh rh : nat.
Hypothesis ND : NoDup [lf; rf; lh; rh].
Variables (f : nat -> pos) (cz L h dt : R) (N K : nat).
Hypothesis (HN : N <> 0%nat) (HK : K <> 0%nat).
(** The number of nodes and the duration. *)
Theorem C119_nodes g first running term : fst (make lf rf lh rh g f cz L h dt N K first) = Some (running, term) ->
  length running = (2 * K + (match g with Walk => 4 | _ => 2 end) * (N + 1))%nat /\
  lasting running = INR (2 * K + (match g with Walk => 4 | _ => 2 end) * N) * dt.
Proof.
  intro E. destruct (C119_quadruped lf rf lh rh ND f cz L h dt N K HN HK g first) as (r & t & f' & E' & C & _).
  rewrite E in E'. injection E' as <- <-. destruct (chain_count _ _ _ _ _ _ _ _ _ C) as [A B]. rewrite A, B.
  destruct g; cbn [order steps stands fold_right]; (split; [lia|do 2 f_equal; lia]).
Qed.
(** Every foot ends where it started, one step ahead (half a step for the legs that go first the first time). *)
Theorem C119_footprints g first : exists running term f',
  fst (make lf rf lh rh g f cz L h dt N K first) = Some (running, term) /\
  chain [lf; rf; lh; rh] cz dt h N f (order lf rf lh rh g K (if first then L / 2 else L) L) running f' /\
  forall i, In i [lf; rf; lh; rh] -> py (f' i) = py (f i) /\ pz (f' i) = pz (f i) /\
    (leads rf lh rh g i -> first = true -> px (f' i) = px (f i) + L / 2) /\
    (~ (leads rf lh rh g i /\ first = true) -> px (f' i) = px (f i) + L).
Proof.
  destruct (C119_quadruped lf rf lh rh ND f cz L h dt N K HN HK g first) as (r & t & f' & E' & C & _).
  exists r, t, f'. split; [exact E'|split; [exact C|]]. intros i I. destruct (chain_feet _ _ _ _ _ _ _ _ _ C i) as (A & B & D).
  split; [exact B|split; [exact D|]]. rewrite A. clear - I ND.
  inversion ND as [|x1 l1 N1 M1]; subst. inversion M1 as [|x2 l2 N2 M2]; subst. inversion M2 as [|x3 l3 N3 M3]; subst.
  assert (D1 : lf <> rf /\ lf <> lh /\ lf <> rh /\ rf <> lh /\ rf <> rh /\ lh <> rh).
  { cbn in N1, N2, N3. repeat split; intro; subst; tauto. }
  destruct D1 as (D1 & D2 & D3 & D4 & D5 & D6). clear N1 N2 N3 M1 M2 M3 ND.
  destruct I as [<-|[<-|[<-|[<-|[]]]]]; destruct g; cbn [order way fold_right leads];
    repeat (match goal with |- context [in_dec Nat.eq_dec ?a ?l] => destruct (in_dec Nat.eq_dec a l) as [J|J];
      cbn in J; [try (exfalso; intuition congruence)|try (exfalso; intuition congruence)]; clear J end);
    destruct first; split; intros; try lra; exfalso; intuition congruence.
Qed.
(** Feet that swing stay between the ground and the step height, and are not held. *)
Theorem C119_clearance g first running term n i p : 0 <= h -> fst (make lf rf lh rh g f cz L h dt N K first) = Some (running, term) ->
  In n running -> In (i, p) (tracked n) ->
  pz (f i) <= pz p <= pz (f i) + h /\ match n with Stance _ held _ _ => ~ In i held | _ => True end.
Proof.
  intros Hh E I T. destruct (C119_quadruped lf rf lh rh ND f cz L h dt N K HN HK g first) as (r & t & f' & E' & C & _).
  rewrite E in E'. injection E' as <- <-. pose proof (chain_heights _ _ _ _ _ _ _ _ _ C n i p I T) as Q.
  assert (B : exists k, (k < N)%nat /\ pz p = pz (f i) + h * Rmin (2 * INR k / INR N) (2 - 2 * INR k / INR N)).
  { destruct n; [apply Q|]. exists (N - 1)%nat. split; [lia|]. rewrite Q. do 3 f_equal.
    assert (P : 0 < INR N) by (apply lt_0_INR; lia). rewrite minus_INR by lia. cbn [INR]. field. lra. }
  split; [|destruct n; tauto]. destruct B as (k & Hk & ->). destruct (tent_bounds N k Hk) as [[A B] _]. split; nra.
Qed.
(** Refuted: with an odd number of knots the step height is never reached... *)
Theorem C119_apex_refuted g first running term : 0 < h -> Nat.odd N = true ->
  fst (make lf rf lh rh g f cz L h dt N K first) = Some (running, term) ->
  forall n i p, In n running -> In (i, p) (tracked n) -> pz p < pz (f i) + h.
Proof.
  intros Hh Od E n i p I T. destruct (C119_quadruped lf rf lh rh ND f cz L h dt N K HN HK g first) as (r & t & f' & E' & C & _).
  rewrite E in E'. injection E' as <- <-. pose proof (chain_heights _ _ _ _ _ _ _ _ _ C n i p I T) as Q.
  assert (B : exists k, (k < N)%nat /\ pz p = pz (f i) + h * Rmin (2 * INR k / INR N) (2 - 2 * INR k / INR N)).
  { destruct n; [apply Q|]. exists (N - 1)%nat. split; [lia|]. rewrite Q. do 3 f_equal.
    assert (P : 0 < INR N) by (apply lt_0_INR; lia). rewrite minus_INR by lia. cbn [INR]. field. lra. }
  destruct B as (k & Hk & ->). destruct (tent_bounds N k Hk) as [[A B] D].
  assert (Rmin (2 * INR k / INR N) (2 - 2 * INR k / INR N) <> 1).
  { intro X. specialize (D X). rewrite D, Nat.odd_mul in Od. discriminate. }
  nra.
Qed.
(** ... and with more than one knot the feet are made to land above the ground. *)
Theorem C119_landing_refuted g first running term land tr i p : h <> 0 -> (N > 1)%nat ->
  fst (make lf rf lh rh g f cz L h dt N K first) = Some (running, term) ->
  In (Switch land tr) running -> In (i, p) tr -> pz p = pz (f i) + 2 * h / INR N /\ pz p <> pz (f i).
Proof.
  intros Hh N1 E I T. destruct (C119_quadruped lf rf lh rh ND f cz L h dt N K HN HK g first) as (r & t & f' & E' & C & _).
  rewrite E in E'. injection E' as <- <-. pose proof (chain_heights _ _ _ _ _ _ _ _ _ C _ i p I T) as Q. cbn in Q.
  assert (P : 0 < INR N) by (apply lt_0_INR; lia). assert (P2 : 2 <= INR N) by (apply (le_INR 2); lia).
  assert (M : Rmin (2 * INR (N - 1) / INR N) (2 / INR N) = 2 / INR N).
  { apply Rmin_right. rewrite minus_INR by lia. cbn [INR]. apply Rmult_le_reg_r with (INR N); [lra|]. field_simplify; lra. }
  rewrite M in Q. split; [rewrite Q; field; lra|]. rewrite Q. intro X. assert (Y : h * (2 / INR N) = 0) by lra.
  apply Rmult_integral in Y. destruct Y as [Y|Y]; [contradiction|]. assert (0 < 2 / INR N) by (apply Rdiv_lt_0_compat; lra). lra.
Qed.
End Whole.

(** Refuted: without support knots every gait raises, after walking, trotting and pacing have already
    taken note that the first step was made; without step knots every gait raises. *)
Theorem C119_no_support_refuted lf rf lh rh f cz L h dt N first : N <> 0%nat ->
  (forall g, fst (make lf rf lh rh g f cz L h dt N 0 first) = None) /\
  (forall g, g <> Bound -> snd (make lf rf lh rh g f cz L h dt N 0 first) = false) /\
  (forall g K, fst (make lf rf lh rh g f cz L h dt 0 K first) = None /\ snd (make lf rf lh rh g f cz L h dt 0 K first) = first).
Proof.
  intro HN. destruct N as [|N]; [congruence|]. split; [|split].
  - intros []; reflexivity.
  - intros [] H; try reflexivity; congruence.
  - intros [] K; split; reflexivity.
Qed.

Section Biped.
Variables rf lf : nat.
Hypothesis ND : rf <> lf.
Variables (f : nat -> pos) (cz L h dt : R) (N K : nat).
Hypothesis HN : N <> 0%nat.
(** The biped steps with the right foot, then with the left one, also without support knots; refuted:
    the problem does not end standing but at the landing of the left foot. *)
Theorem C119_biped first : exists running land tr f',
  fst (biped_walking lf rf f cz L h dt N K first) = Some (running, Switch land tr) /\
  chain [rf; lf] cz dt h N f [Stand K; Step [rf] (if first then L / 2 else L); Stand K; Step [lf] L] (running ++ [Switch land tr]) f' /\
  snd (biped_walking lf rf f cz L h dt N K first) = false.
Proof.
  replace (L / 2) with (/ 2 * L) by field. set (L1 := if first then / 2 * L else L).
  assert (D : NoDup [rf; lf]) by (repeat constructor; cbn; intuition congruence).
  assert (C0 : centred [rf; lf] cz (start2 lf rf f cz)).
  { unfold centred, over, total, start2. cbn. repeat split; lra. }
  assert (Ne : [rf; lf] <> []) by discriminate.
  assert (P1 : Permutation [rf; lf] ([lf] ++ [rf])) by (apply perm_swap).
  assert (P2 : Permutation [rf; lf] ([rf] ++ [lf])) by reflexivity.
  destruct (footsteps_step _ cz D Ne _ [lf] [rf] L1 h dt N P1 C0 HN) as (n1 & m1 & E1 & S1 & C1).
  destruct (footsteps_step _ cz D Ne _ [rf] [lf] L h dt N P2 C1 HN) as (n2 & m2 & E2 & S2 & C2).
  pose proof S2 as S2'. destruct S2' as (_ & _ & sws & land & ts & Q & _).
  unfold biped_walking. fold L1. rewrite E1, E2. cbn [fst snd]. rewrite Q. rewrite !app_assoc, split_last_app.
  exists (((repeat (stand2 lf rf dt) K ++ n1) ++ repeat (stand2 lf rf dt) K) ++ sws), land, ts, (m_foot m2). split; [reflexivity|split; [|reflexivity]].
  rewrite <- !app_assoc, <- Q. assert (Sd : standing [rf; lf] dt (stand2 lf rf dt)) by (eexists; split; [reflexivity|now intro i]).
  apply chain_stand; [exact Sd|]. eapply chain_step; [exact S1|]. apply chain_stand; [exact Sd|].
  rewrite <- (app_nil_r n2). eapply chain_step; [exact S2|]. apply chain_end.
Qed.
End Biped.

(** ** C120: jumps and motions of the centre of mass *)
(** What the documentation promises of a jump: stand, fly up along a straight line, fly down, land
    with all feet displaced, stand with the centre of mass displaced. *)
Definition shape (F : list nat) (dt : R) (G Fl G' : nat) (apex0 apex : pos) (places : nat -> pos) (com' : pos) (all : list node) : Prop :=
  exists a b c land ts d, all = a ++ b ++ c ++ [Switch land ts] ++ d /\
    length a = G /\ List.Forall (standing F dt) a /\
    length b = Fl /\ (forall k n, nth_error b k = Some n -> exists p, n = Stance dt [] (Some p) [] /\
      INR Fl * (px p - px apex0) = INR (k + 1) * (px apex - px apex0) /\
      INR Fl * (py p - py apex0) = INR (k + 1) * (py apex - py apex0) /\
      INR Fl * (pz p - pz apex0) = INR (k + 1) * (pz apex - pz apex0)) /\
    c = repeat (Stance dt [] None []) Fl /\
    (forall i, In i land <-> In i F) /\ (forall i p, In (i, p) ts <-> In i F /\ p = places i) /\
    length d = G' /\ List.Forall (fun n => exists held, n = Stance dt held (Some com') [] /\ forall i, In i held <-> In i F) d.
Definition whole (p : problem) (all : list node) : Prop := exists r t, p = Some (r, t) /\ all = r ++ [t].
Lemma split_last_whole l : l <> [] -> whole (split_last l) l.
Proof.
  intro H. destruct (exists_last H) as (r & t & ->). exists r, t. split; [apply split_last_app|reflexivity].
Qed.
Lemma up_line jump H Fl com k : (k < Fl)%nat ->
  INR Fl * (px (up jump H Fl com k) - px com) = INR (k + 1) * (px jump / 2) /\
  INR Fl * (py (up jump H Fl com k) - py com) = INR (k + 1) * (py jump / 2) /\
  INR Fl * (pz (up jump H Fl com k) - pz com) = INR (k + 1) * (pz jump / 2 + H).
Proof. intro K. assert (0 < INR Fl) by (apply lt_0_INR; lia). unfold up. cbn [padd pscale px py pz]. repeat split; field; lra. Qed.

Section Jump.
Variables lf rf lh rh : nat.
Variables (f : nat -> pos) (cz H : R) (jump : pos) (dt : R) (G Fl : nat).
Lemma jump_shape F held com places com' G' : (forall i, In i held <-> In i F) ->
  shape F dt G Fl G' com (Pos (px com + px jump / 2) (py com + py jump / 2) (pz com + (pz jump / 2 + H))) places com'
    (repeat (Stance dt held None []) G ++ map (fun k => Stance dt [] (Some (up jump H Fl com k)) []) (seq 0 Fl)
     ++ repeat (Stance dt [] None []) Fl ++ [Switch held (map (fun i => (i, places i)) held)] ++ repeat (Stance dt held (Some com') []) G').
Proof.
  intro HF. eexists _, _, _, _, _, _. split; [reflexivity|]. split; [apply repeat_length|]. split.
  { apply List.Forall_forall. intros n M. apply repeat_spec in M. subst. now exists held. }
  split; [now rewrite map_length, seq_length|]. split.
  { intros k n E. assert (K : (k < Fl)%nat).
    { lazymatch type of E with nth_error ?l k = _ => assert (X : (k < length l)%nat) by (apply nth_error_Some; rewrite E; discriminate) end. rewrite map_length, seq_length in X; exact X. }
    rewrite nth_error_map, (nth_error_nth' (seq 0 Fl) 0%nat) in E by (rewrite seq_length; exact K).
    rewrite seq_nth in E by exact K. cbn [option_map Nat.add] in E. apply some_inj in E. subst n. eexists. split; [reflexivity|].
    destruct (up_line jump H Fl com k K) as (A & B & C). rewrite A, B, C. cbn [px py pz]. repeat split; ring. }
  split; [reflexivity|]. split; [exact HF|]. split.
  { intros i p. rewrite in_map_iff. split.
    - intros (j & E & J). injection E as <- <-. split; [now apply HF|reflexivity].
    - intros [I ->]. exists i. split; [reflexivity|now apply HF]. }
  split; [apply repeat_length|]. apply List.Forall_forall. intros n M. apply repeat_spec in M. subst. now exists held.
Qed.
(** The jump: the feet land displaced by [jump] from their places on the ground (height zero); the
    centre of mass goes from above the feet at the start to above the landed feet, at its height cz
    changed as much as the height of the right front foot. *)
Theorem C120_jump_partial : exists all com, whole (fst (jumping lf rf lh rh f cz H jump dt G Fl)) all /\
  over [lf; rf; lh; rh] com f /\ pz com = cz /\
  let places i := Pos (px (f i) + px jump) (py (f i) + py jump) (pz jump) in
  exists com', over [lf; rf; lh; rh] com' places /\ pz com' - cz = pz jump - pz (f rf) /\
  shape [lf; rf; lh; rh] dt G Fl G com (Pos (px com + px jump / 2) (py com + py jump / 2) (pz com + (pz jump / 2 + H))) places com' all.
Proof.
  unfold jumping. cbn [fst].
  set (s := padd (padd (padd (flat (f rf)) (flat (f rh))) (flat (f lf))) (flat (f lh))). set (com := Pos (px s / 4) (py s / 4) cz).
  eexists _, com. split; [apply split_last_whole; destruct (repeat _ G); [destruct (map _ (seq 0 Fl)); [destruct (repeat _ Fl)|]|]; discriminate|].
  split; [unfold over, total, com, s; cbn; split; lra|]. split; [reflexivity|]. cbv zeta.
  exists (padd com (Pos (px jump) (py jump) (pz jump - pz (f rf)))). split; [unfold over, total, com, s; cbn; split; lra|]. split; [unfold com; cbn; lra|].
  replace (map (fun i => (i, padd (flat (f i)) jump)) (all4 lf rf lh rh)) with (map (fun i => (i, Pos (px (f i) + px jump) (py (f i) + py jump) (pz jump))) (all4 lf rf lh rh)).
  - apply jump_shape. now intro i.
  - apply map_ext. intro i. f_equal. unfold padd, flat. cbn [px py pz]. f_equal. lra.
Qed.
Theorem C120_biped_jump_partial : exists all com, whole (fst (biped_jumping lf rf f cz H jump dt G Fl)) all /\
  over [lf; rf] com f /\ pz com = cz /\
  let places i := Pos (px (f i) + px jump) (py (f i) + py jump) (pz jump) in
  exists com', over [lf; rf] com' places /\ pz com' - cz = pz jump - pz (f rf) /\
  shape [lf; rf] dt G Fl (G / 2) com (Pos (px com + px jump / 2) (py com + py jump / 2) (pz com + (pz jump / 2 + H))) places com' all.
Proof.
  unfold biped_jumping. cbn [fst].
  set (s := padd (flat (f rf)) (flat (f lf))). set (com := Pos (px s / 2) (py s / 2) cz).
  eexists _, com. split; [apply split_last_whole; destruct (repeat _ G); [destruct (map _ (seq 0 Fl)); [destruct (repeat _ Fl)|]|]; discriminate|].
  split; [unfold over, total, com, s; cbn; split; lra|]. split; [reflexivity|]. cbv zeta.
  exists (padd com (Pos (px jump) (py jump) (pz jump - pz (f rf)))). split; [unfold over, total, com, s; cbn; split; lra|]. split; [unfold com; cbn; lra|].
  replace (map (fun i => (i, padd (flat (f i)) jump)) [lf; rf]) with (map (fun i => (i, Pos (px (f i) + px jump) (py (f i) + py jump) (pz jump))) [lf; rf]).
  - apply jump_shape. now intro i.
  - apply map_ext. intro i. f_equal. unfold padd, flat. cbn [px py pz]. f_equal. lra.
Qed.
(** The array of the caller comes back as it was exactly when the right (front) foot is at height zero. *)
Theorem C120_array_partial : (snd (jumping lf rf lh rh f cz H jump dt G Fl) = jump <-> pz (f rf) = 0) /\
  (snd (biped_jumping lf rf f cz H jump dt G Fl) = jump <-> pz (f rf) = 0).
Proof.
  unfold jumping, biped_jumping. cbn [snd]. destruct jump as [a b c]. cbn [px py pz].
  split; (split; [intro E; apply (f_equal pz) in E; cbn in E; lra|intros ->; f_equal; lra]).
Qed.
(** Refuted otherwise: the array is changed, and a second jump with it lands elsewhere. *)
Theorem C120_array_refuted : pz (f rf) <> 0 ->
  let jump' := snd (jumping lf rf lh rh f cz H jump dt G Fl) in
  pz jump' = pz jump - pz (f rf) /\
  exists all all' land ts land' ts' p p', whole (fst (jumping lf rf lh rh f cz H jump dt G Fl)) all /\
    whole (fst (jumping lf rf lh rh f cz H jump' dt G Fl)) all' /\
    In (Switch land ts) all /\ In (Switch land' ts') all' /\ In (lf, p) ts /\ In (lf, p') ts' /\ pz p' <> pz p.
Proof.
  intro Z. cbv zeta. split; [reflexivity|]. set (jump' := snd _).
  assert (Q : forall j, exists all land ts p, whole (fst (jumping lf rf lh rh f cz H j dt G Fl)) all /\ In (Switch land ts) all /\ In (lf, p) ts /\ pz p = pz j).
  { intro j. unfold jumping. cbn [fst].
    eexists _, (all4 lf rf lh rh), _, (padd (flat (f lf)) j). split; [apply split_last_whole; destruct (repeat _ G); [destruct (map _ (seq 0 Fl)); [destruct (repeat _ Fl)|]|]; discriminate|].
    split; [rewrite !in_app_iff; right; right; right; left; left; reflexivity|]. split; [now left|]. cbn. lra. }
  destruct (Q jump) as (all & land & ts & p & A & B & C & D). destruct (Q jump') as (all' & land' & ts' & p' & A' & B' & C' & D').
  exists all, all', land, ts, land', ts', p, p'. repeat split; auto. rewrite D, D'. unfold jump', jumping. cbn. lra.
Qed.
(** Refuted: with feet whose frames are above the ground, the feet do not land [jump] away from where
    they started. *)
Theorem C120_displacement_refuted i : In i [lf; rf; lh; rh] -> pz (f i) <> 0 ->
  exists all land ts p, whole (fst (jumping lf rf lh rh f cz H jump dt G Fl)) all /\ In (Switch land ts) all /\ In (i, p) ts /\
    px p = px (f i) + px jump /\ py p = py (f i) + py jump /\ pz p <> pz (f i) + pz jump.
Proof.
  intros I Z. unfold jumping. cbn [fst].
  eexists _, (all4 lf rf lh rh), _, (padd (flat (f i)) jump). split; [apply split_last_whole; destruct (repeat _ G); [destruct (map _ (seq 0 Fl)); [destruct (repeat _ Fl)|]|]; discriminate|].
  split; [rewrite !in_app_iff; right; right; right; left; left; reflexivity|].
  split; [apply in_map_iff; exists i; split; [reflexivity|exact I]|]. cbn. repeat split; lra.
Qed.
(** The centre of mass goes forward and back (or forward only) while all feet are held. *)
Theorem C120_com com0 go n : exists a b c,
  com_problem lf rf lh rh com0 go dt n = Some (a ++ [Stance dt [lf; rf; lh; rh] (Some b) []] ++ a, Stance dt [lf; rf; lh; rh] (Some c) []) /\
  com_goal lf rf lh rh com0 go dt n = Some (a, Stance dt [lf; rf; lh; rh] (Some b) []) /\
  length a = n /\ List.Forall (standing [lf; rf; lh; rh] dt) a /\
  px b - px com0 = go /\ px c - px com0 = - go /\ py b = py com0 /\ py c = py com0 /\ pz b = pz com0 /\ pz c = pz com0.
Proof.
  exists (repeat (stand4 lf rf lh rh dt) n), (padd com0 (Pos go 0 0)), (padd com0 (Pos (- go) 0 0)).
  unfold com_problem, com_goal. split; [|split; [apply split_last_app|split; [apply repeat_length|split]]].
  - rewrite app_assoc, split_last_app. now rewrite <- app_assoc.
  - apply List.Forall_forall. intros m M. apply repeat_spec in M. subst. eexists. split; [reflexivity|now intro i].
  - cbn. repeat split; lra.
Qed.
End Jump.

(** ** Cases *)
Definition feet_ex (i : nat) : pos := match i with 0 => Pos 1 1 0 | 1 => Pos 1 (-1) 0 | 2 => Pos (-1) 1 0 | _ => Pos (-1) (-1) 0 end.
Example ex_nodup : NoDup [0; 1; 2; 3]%nat.
Proof. repeat constructor; cbn; intuition lia. Qed.
Example ex_walk : exists r t f', fst (make 0 1 2 3 Walk feet_ex 1 1 (1/10) (1/100) 4 2 true) = Some (r, t) /\
  length r = 24%nat /\ chain [0; 1; 2; 3]%nat 1 (1/100) (1/10) 4 feet_ex (order 0 1 2 3 Walk 2 (1/2) 1) r f' /\ px (f' 1%nat) = 3/2 /\ px (f' 0%nat) = 2.
Proof.
  destruct (C119_footprints 0 1 2 3 ex_nodup feet_ex 1 1 (1/10) (1/100) 4 2 ltac:(lia) ltac:(lia) Walk true) as (r & t & f' & E & C & D).
  exists r, t, f'. split; [exact E|split; [|split; [exact C|split]]].
  - destruct (C119_nodes 0 1 2 3 ex_nodup feet_ex 1 1 (1/10) (1/100) 4 2 ltac:(lia) ltac:(lia) Walk true r t E) as [A _]. exact A.
  - destruct (D 1%nat) as (_ & _ & A & _); [cbn; tauto|]. rewrite A by (cbn; auto). cbn. lra.
  - destruct (D 0%nat) as (_ & _ & _ & A); [cbn; tauto|]. rewrite A by (cbn; intuition discriminate). cbn. lra.
Qed.
Example ex_landing : exists r t land tr p, fst (make 0 1 2 3 Walk feet_ex 1 1 (1/10) (1/100) 4 2 true) = Some (r, t) /\ In (Switch land tr) r /\ In (3%nat, p) tr /\ pz p = 1/20.
Proof.
  eexists _, _, [3]%nat, _, _. split; [reflexivity|]. split; [do 6 right; left; reflexivity|]. split; [left; reflexivity|]. cbn. field.
Qed.

Print Assumptions C119_quadruped.
Print Assumptions C119_nodes.
Print Assumptions C119_footprints.
Print Assumptions C119_clearance.
Print Assumptions C119_apex_refuted.
Print Assumptions C119_landing_refuted.
Print Assumptions C119_no_support_refuted.
Print Assumptions C119_biped.
Print Assumptions C120_jump_partial.
Print Assumptions C120_biped_jump_partial.
Print Assumptions C120_array_partial.
Print Assumptions C120_array_refuted.
Print Assumptions C120_displacement_refuted.
Print Assumptions C120_com.
