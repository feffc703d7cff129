(** C137: the limits of a state are those the user set, also in its casts.

    Specification: the bounds in force after a history of calls are the last ones of the
    right size, or those of the constructor ([wanted_lb], [wanted_ub]); casts do not count. *)
From Coq Require Import QArith List Bool Arith Lia.
From Verif Require Import Common XFloat StateLimits_Model.
Import ListNotations.
Local Open Scope nat_scope.

(** The limits of a robot have the sizes Pinocchio gives them. *)
Fixpoint sizes_ok (k : skind) : Prop :=
  match k with
  | Robot r => r_nq0 r <= length (r_lo r) /\ length (r_hi r) = length (r_lo r)
  | Wrapped k => sizes_ok k
  | _ => True
  end.

Definition wanted_lb (k : skind) (os : list lop) : list xf :=
  fold_left (fun b o => match o with SetLb l => if length l =? k_nx k then l else b | _ => b end) os (lb0 k).
Definition wanted_ub (k : skind) (os : list lop) : list xf :=
  fold_left (fun b o => match o with SetUb l => if length l =? k_nx k then l else b | _ => b end) os (ub0 k).
Definition limited (lb ub : list xf) : Prop :=
  exists q, In (Fin q) lb \/ In (Fin q) ub.
Definition no_cast (o : lop) : Prop := match o with Cast => False | _ => True end.

(** ** Invariants *)
Lemma fin_exists l : existsb is_fin l = true <-> exists q, In (Fin q) l.
Proof.
  rewrite existsb_exists. split.
  - intros ([| | |q] & H & E); try discriminate. eauto.
  - intros [q H]. exists (Fin q). auto.
Qed.

Lemma no_fin_repeat a n : is_fin a = false -> existsb is_fin (repeat a n) = false.
Proof. intro H. induction n as [|n IH]; cbn; auto. now rewrite H. Qed.

Definition flag_ok (s : state) : Prop := s_has s = existsb is_fin (s_lb s) || existsb is_fin (s_ub s).

Lemma construct_flag k : flag_ok (construct k).
Proof.
  unfold flag_ok, construct. destruct k as [n|r|k]; cbn [update_has_limits s_has s_lb s_ub lb0 ub0]; auto;
    now rewrite !no_fin_repeat.
Qed.

Lemma construct_kind k : s_kind (construct k) = k /\ s_lb (construct k) = lb0 k /\ s_ub (construct k) = ub0 k.
Proof. destruct k; cbn; auto. Qed.

Lemma construct_sizes k : sizes_ok k -> length (lb0 k) = k_nx k /\ length (ub0 k) = k_nx k.
Proof.
  destruct k as [n|r|k]; cbn [sizes_ok lb0 ub0 k_nx]; intro H; rewrite ?repeat_length; auto.
  destruct H as [H1 H2]. rewrite !app_length, !repeat_length, !skipn_length, map_length. lia.
Qed.

Lemma step_inv k s o : sizes_ok k -> s_kind s = k -> flag_ok s -> length (s_lb s) = k_nx k -> length (s_ub s) = k_nx k ->
  s_kind (lstep s o) = k /\ flag_ok (lstep s o) /\ length (s_lb (lstep s o)) = k_nx k /\ length (s_ub (lstep s o)) = k_nx k.
Proof.
  intros Hk Es Hf L U. destruct o as [l|l|]; cbn [lstep].
  - unfold set_lb. rewrite Es. destruct (Nat.eqb_spec (length l) (k_nx k)); cbn; auto. repeat split; auto.
  - unfold set_ub. rewrite Es. destruct (Nat.eqb_spec (length l) (k_nx k)); cbn; auto. repeat split; auto.
  - unfold cast. rewrite Es. destruct (construct_kind k) as (A & B & C). destruct (construct_sizes k Hk) as [D E].
    rewrite A, B, C. split; auto. split; [apply construct_flag|auto].
Qed.

Lemma runs_inv k os : sizes_ok k -> let s := lruns (construct k) os in
  s_kind s = k /\ flag_ok s /\ length (s_lb s) = k_nx k /\ length (s_ub s) = k_nx k.
Proof.
  intro Hk. cbv zeta.
  assert (H : s_kind (construct k) = k /\ flag_ok (construct k) /\ length (s_lb (construct k)) = k_nx k /\ length (s_ub (construct k)) = k_nx k).
  { destruct (construct_kind k) as (A & B & C). destruct (construct_sizes k Hk) as [D E]. rewrite A, B, C.
    split; auto. split; [apply construct_flag|auto]. }
  revert H. generalize (construct k) as s. unfold lruns.
  induction os as [|o os IH]; intros s (A & B & C & D); cbn [fold_left]; auto.
  apply IH. now apply step_inv.
Qed.

(** Whatever the history, the state says that it has limits exactly when one of its bounds
    is a number, and its bounds have its size. *)
Theorem C137_flag : forall k os, sizes_ok k -> let s := lruns (construct k) os in
  (s_has s = true <-> limited (s_lb s) (s_ub s)) /\ length (s_lb s) = k_nx k /\ length (s_ub s) = k_nx k.
Proof.
  intros k os Hk. cbv zeta. destruct (runs_inv k os Hk) as (_ & F & L & U). split; auto.
  unfold flag_ok in F. rewrite F, orb_true_iff, !fin_exists. unfold limited. split.
  - intros [[q H]|[q H]]; eauto.
  - intros [q [H|H]]; eauto.
Qed.

Lemma runs_bounds k os : Forall no_cast os -> forall s, s_kind s = k ->
  s_kind (lruns s os) = k /\
  s_lb (lruns s os) = fold_left (fun b o => match o with SetLb l => if length l =? k_nx k then l else b | _ => b end) os (s_lb s) /\
  s_ub (lruns s os) = fold_left (fun b o => match o with SetUb l => if length l =? k_nx k then l else b | _ => b end) os (s_ub s).
Proof.
  unfold lruns. induction 1 as [|o os Ho Hos IH]; intros s Es; cbn [fold_left]; auto.
  assert (Ek : s_kind (lstep s o) = k).
  { destruct o; cbn [lstep]; [| |destruct Ho]; unfold set_lb, set_ub; destruct (_ =? _); auto. }
  destruct (IH _ Ek) as (A & B & C). split; auto. rewrite B, C.
  destruct o as [l|l|]; cbn [lstep]; [| |destruct Ho]; unfold set_lb, set_ub; rewrite Es; destruct (_ =? _); auto.
Qed.

(** Without casts the bounds are the wanted ones; a bound of the wrong size changes nothing. *)
Theorem C137_bounds_partial : forall k os, Forall no_cast os ->
  s_lb (lruns (construct k) os) = wanted_lb k os /\ s_ub (lruns (construct k) os) = wanted_ub k os.
Proof.
  intros k os H. destruct (construct_kind k) as (A & B & C).
  destruct (runs_bounds k os H _ A) as (_ & D & E). rewrite D, E, B, C. auto.
Qed.

(** A cast is the same state exactly when the bounds are still those of the constructor. *)
Theorem C137_cast_partial : forall k os, sizes_ok k -> let s := lruns (construct k) os in
  cast s = s <-> s_lb s = lb0 k /\ s_ub s = ub0 k.
Proof.
  intros k os Hk. cbv zeta. destruct (runs_inv k os Hk) as (A & F & _ & _).
  destruct (construct_kind k) as (K1 & K2 & K3). pose proof (construct_flag k) as Fk. unfold cast. rewrite A. split.
  - intro E. rewrite <- E. auto.
  - intros [L U]. unfold flag_ok in *. revert A F Fk K1 K2 K3 L U.
    destruct (lruns (construct k) os) as [k1 l1 u1 h1], (construct k) as [k2 l2 u2 h2].
    cbn [s_kind s_lb s_ub s_has]. intros. subst. reflexivity.
Qed.

(** The bounds a robot's state starts with, coordinate by coordinate: the root joint is free up
    to the largest number, the joints have the limits of the robot, the velocities lie within
    plus and minus the limit of the robot. *)
Definition opposite (a b : xf) : Prop :=
  match a, b with
  | NaN, NaN | PInf, NInf | NInf, PInf => True
  | Fin p, Fin q => (p + q == 0)%Q
  | _, _ => False
  end.
Theorem C137_robot : forall r i, sizes_ok (Robot r) -> i < k_nx (Robot r) ->
  let s := construct (Robot r) in let nq := length (r_lo r) in
  if i <? r_nq0 r then nth i (s_lb s) NaN = Fin (- r_max r) /\ nth i (s_ub s) NaN = Fin (r_max r)
  else if i <? nq then nth i (s_lb s) NaN = nth i (r_lo r) NaN /\ nth i (s_ub s) NaN = nth i (r_hi r) NaN
  else opposite (nth i (s_lb s) NaN) (nth (i - nq) (r_vel r) NaN) /\ nth i (s_ub s) NaN = nth (i - nq) (r_vel r) NaN.
Proof.
  intros r i [H1 H2] Hi. cbn [k_nx] in Hi. cbv zeta. cbn [construct update_has_limits s_lb s_ub lb0 ub0].
  assert (Hs : forall l j, nth j (skipn (r_nq0 r) l) NaN = nth (r_nq0 r + j) l NaN).
  { intros l. generalize (r_nq0 r) as n. induction l as [|a l IH]; intros [|n] j; cbn; auto; now destruct j. }
  destruct (Nat.ltb_spec i (r_nq0 r)) as [L|L].
  - rewrite !app_nth1 by (rewrite repeat_length; lia).
    assert (Hr : forall a : xf, nth i (repeat a (r_nq0 r)) NaN = a).
    { intro a. apply (repeat_spec (r_nq0 r)). apply nth_In. now rewrite repeat_length. }
    rewrite !Hr. auto.
  - rewrite !(app_nth2 (repeat _ _)) by (rewrite repeat_length; lia). rewrite !repeat_length.
    destruct (Nat.ltb_spec i (length (r_lo r))) as [M|M].
    + rewrite !app_nth1 by (rewrite skipn_length; lia). rewrite !Hs.
      replace (r_nq0 r + (i - r_nq0 r)) with i by lia. auto.
    + rewrite !app_nth2 by (rewrite skipn_length; lia). rewrite !skipn_length, H2.
      replace (i - r_nq0 r - (length (r_lo r) - r_nq0 r)) with (i - length (r_lo r)) by lia.
      split; auto. change NaN with (xneg NaN) at 1. rewrite map_nth.
      destruct (nth _ _ _) as [| | |q]; cbn; auto. ring.
Qed.

(** The user's limits are lost in a cast, and a state with limits is given none when it is
    wrapped for numerical differentiation. *)
Theorem C137_cast_refuted : exists k l,
  sizes_ok k /\ s_has (lruns (construct k) [SetLb l]) = true /\
  wanted_lb k [SetLb l; Cast] = l /\ s_lb (lruns (construct k) [SetLb l; Cast]) <> l /\
  s_has (lruns (construct k) [SetLb l; Cast]) = false.
Proof.
  exists (Vector 2), [Fin 1; NInf]. repeat split; try reflexivity. vm_compute. discriminate.
Qed.
Theorem C137_wrapped_refuted :
  (exists k, sizes_ok k /\ s_has (construct k) = true) /\
  forall k, s_has (construct (Wrapped k)) = false /\ ~ limited (s_lb (construct (Wrapped k))) (s_ub (construct (Wrapped k))).
Proof.
  split.
  - exists (Robot (Limits 0 [Fin (-1)] [Fin 1] [Fin 3] 100)). repeat split; cbn; auto.
  - intro k. split; [reflexivity|]. cbn. intros [q [H|H]]; apply repeat_spec in H; discriminate.
Qed.

(** A robot with a free root of one coordinate, a joint, and a rejected bound: the hypotheses of
    the theorems. *)
Example C137_ex :
  let k := Robot (Limits 1 [Fin (-9); Fin (-1)] [Fin 9; Fin 1] [Fin 3; PInf] 100) in
  let os := [SetLb [Fin 0]; SetUb [PInf; Fin 5; Fin 3; PInf]] in
  sizes_ok k /\ Forall no_cast os /\
  s_lb (lruns (construct k) os) = [Fin (-100); Fin (-1); Fin (-3); NInf] /\
  s_ub (lruns (construct k) os) = [PInf; Fin 5; Fin 3; PInf] /\ cast (construct k) = construct k.
Proof. cbv zeta. split; [cbn; auto|]. split; [repeat constructor|]. repeat split; reflexivity. Qed.

Print Assumptions C137_flag.
Print Assumptions C137_bounds_partial.
Print Assumptions C137_cast_partial.
Print Assumptions C137_robot.
Print Assumptions C137_cast_refuted.
Print Assumptions C137_wrapped_refuted.
