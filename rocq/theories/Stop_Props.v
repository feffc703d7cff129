(** C124: the stopping value of DDP vanishes exactly at stationary points. *)
From Coquelicot Require Import Coquelicot.
From Coq Require Import Reals List Bool Arith Lia Lra FunctionalExtensionality.
From Verif Require Import Deriv VecMat Stop_Model Stop_Proofs.
Import ListNotations.
Open Scope R_scope.

Section P.
Variables (X : Type) (ndx : nat) (sdiff : X -> X -> vec).
Variable llt : nat -> mat -> option mat.
Variable boxqp : nat -> mat -> vec -> vec -> vec -> vec * (nat -> bool) * mat.
Variable moves : (R -> X) -> R -> vec -> Prop.
Notation node := (node X).
Notation term := (term X).
Notation cost := (cost X).
Notation shift := (shift X).
Notation bpass := (bpass X ndx llt boxqp).
Notation smoothT := (smoothT X ndx moves).
Notation all_smooth := (all_smooth X ndx moves).
Notation nodes_ok := (nodes_ok X ndx llt boxqp).
Notation all_inside := (all_inside X).
Notation gsum := (gsum X ndx).
Notation grads_opt := (grads_opt X ndx).

(** ** Specification *)
(** The total cost of the rollout does not change to first order when the controls move. *)
Definition stationary (T : term) (x : X) (l : list (node * vec)) : Prop :=
  forall ws, is_derive (fun t => cost T x (shift t l ws)) 0 0.
(** It does not decrease to first order when they move within their limits. *)
Definition within (l : list (node * vec)) : Prop :=
  Forall (fun p => match lims X (fst p) with None => True
                   | Some (lb, ub) => forall i, (i < nu X (fst p))%nat -> lb i <= snd p i <= ub i end) l.
Definition limited_optimum (T : term) (x : X) (l : list (node * vec)) : Prop :=
  forall ws, (exists e, 0 < e /\ within (shift e l ws)) ->
  exists g, 0 <= g /\ is_derive (fun t => cost T x (shift t l ws)) 0 g.
(** The same models with the same controls *)
Definition same (l l' : list (node * vec)) : Prop :=
  Forall2 (fun p q => fst p = fst q /\ forall i, (i < nu X (fst p))%nat -> snd p i = snd q i) l l'.

Hypothesis M0 : forall x s, moves (fun _ => x) s (fun _ => 0).

Lemma slope T x l ws : smoothT T -> all_smooth l -> is_derive (fun t => cost T x (shift t l ws)) 0 (gsum T x l ws).
Proof.
  intros HT HA. eapply deq; [exact (slope_gen X ndx moves T l HT HA ws (fun _ => x) (fun _ => 0) (M0 x 0))|].
  rewrite dot_0_r by reflexivity. ring.
Qed.
Lemma gsum_nil T l : forall x, gsum T x l [] = 0.
Proof.
  induction l as [|(m, u) l IH]; intro x; cbn [Stop_Proofs.gsum]; [reflexivity|]. cbn [tl]. rewrite IH. rewrite dot_0_r by reflexivity. ring.
Qed.
Lemma gsum_zero T m u l x ws : gsum T x ((m, u) :: l) ((fun _ => 0) :: ws) = gsum T (F X m x u) l ws.
Proof. cbn [Stop_Proofs.gsum tl hdv hd]. unfold hdv. cbn [hd]. rewrite dot_0_r by reflexivity. ring. Qed.
Lemma gsum_one T m u l x w : gsum T x ((m, u) :: l) [w] = dot (nu X m) (grad X ndx T m x u l) w.
Proof. cbn [Stop_Proofs.gsum tl]. rewrite gsum_nil. unfold hdv. cbn [hd]. ring. Qed.

Lemma stationary_grads T l : (forall x, (forall ws, gsum T x l ws = 0) <-> grads_opt false T x l).
Proof.
  induction l as [|(m, u) l IH]; intro x.
  - split; [intros _; exact I|intros _ ws; reflexivity].
  - split.
    + intro H. split; [|apply IH; intro ws; rewrite <- (gsum_zero T m u l x ws); apply H].
      intros w _. rewrite <- (gsum_one T m u l x w). rewrite H. lra.
    + intros (G1 & G2) ws. cbn [Stop_Proofs.gsum]. rewrite (proj2 (IH _) G2).
      rewrite dot_0_l; [ring|]. apply (node_opt_free X m u _ false eq_refl G1).
Qed.
Lemma stationary_iff T x l : smoothT T -> all_smooth l -> stationary T x l <-> grads_opt false T x l.
Proof.
  intros HT HA. rewrite <- stationary_grads. split; intros H ws.
  - exact (duniq _ _ _ _ (slope T x l ws HT HA) (H ws)).
  - eapply deq; [exact (slope T x l ws HT HA)|apply H].
Qed.
Lemma within_zero e l : within l -> within (shift e l []).
Proof.
  induction l as [|(m, u) l IH]; intro H; [constructor|]. inversion H as [|? ? H1 H2]; subst. cbn [Stop_Proofs.shift]. constructor; [|now apply IH].
  cbn [fst snd] in *. destruct (lims X m) as [(lb, ub)|]; [|exact I]. intros i Hi. unfold hdv. cbn [hd]. specialize (H1 i Hi). lra.
Qed.
Lemma limited_iff T l : smoothT T -> all_smooth l -> within l -> forall x, limited_optimum T x l <-> grads_opt true T x l.
Proof.
  intros HT HA HW x.
  assert (E : limited_optimum T x l <-> forall ws, (exists e, 0 < e /\ within (shift e l ws)) -> 0 <= gsum T x l ws).
  { split; intros H ws He.
    - destruct (H ws He) as (g & G0 & G1). now rewrite (duniq _ _ _ _ (slope T x l ws HT HA) G1).
    - exists (gsum T x l ws). split; [now apply H|now apply slope]. }
  rewrite E. clear E. revert x HW. induction HA as [|(m, u) l Hm HA IH]; intros x HW.
  - split; [intros _; exact I|]. intros _ ws _. cbn [Stop_Proofs.gsum]. lra.
  - inversion HW as [|? ? W1 W2]; subst. cbn [fst snd] in W1. split.
    + intro H. split.
      * intros w Hw. rewrite <- (gsum_one T m u l x w). apply H. exists 1. split; [lra|]. cbn [Stop_Proofs.shift tl]. constructor; [|now apply within_zero].
        cbn [fst snd]. unfold hdv. cbn [hd]. destruct (lims X m) as [(lb, ub)|]; [|exact I]. intros i Hi. rewrite Rmult_1_l. now apply Hw.
      * apply (IH (F X m x u) W2). intros ws (e & He & Hw). rewrite <- (gsum_zero T m u l x ws). apply H. exists e. split; [exact He|].
        cbn [Stop_Proofs.shift tl]. constructor; [|exact Hw]. cbn [fst snd]. unfold hdv. cbn [hd]. destruct (lims X m) as [(lb, ub)|]; [|exact I].
        intros i Hi. rewrite Rmult_0_r, Rplus_0_r. now apply W1.
    + intros (G1 & G2) ws (e & He & Hw). cbn [Stop_Proofs.shift] in Hw. inversion Hw as [|? ? V1 V2]; subst. cbn [fst snd] in V1. cbn [Stop_Proofs.gsum].
      assert (0 <= gsum T (F X m x u) l (tl ws)) by (apply (proj2 (IH (F X m x u) W2) G2); exists e; auto).
      assert (0 <= dot (nu X m) (grad X ndx T m x u l) (fun i => e * hdv ws i)) as D.
      { apply G1. destruct (lims X m) as [(lb, ub)|]; [|exact I]. exact V1. }
      rewrite dot_scal_r in D. assert (0 <= dot (nu X m) (grad X ndx T m x u l) (hdv ws)); [|lra].
      apply (Rmult_le_reg_l e); [exact He|]. lra.
Qed.

(** ** Trials of a pass that stands still *)
Hypothesis D0 : forall x i, sdiff x x i = 0.
Lemma forward_still box a T l : all_smooth l -> (box = true -> within l) -> forall x bs, length bs = length l -> still X l bs ->
  let '(us, xs, c) := forward X ndx sdiff box a T x x l bs in same us l /\ xs = states X x l /\ c = cost T x l.
Proof.
  intros HA. induction HA as [|(m, u) l Hm HA IH]; intros HW x bs Hb Hs.
  - destruct bs; [|discriminate]. cbn [forward states Stop_Model.cost]. repeat split. constructor.
  - destruct bs as [|b bs]; [discriminate|]. destruct Hs as (S1 & S2). cbn [forward states Stop_Model.cost]. cbv zeta. cbn [fst] in Hm.
    assert (W1 : box = true -> match lims X m with None => True | Some (lb, ub) => forall i, (i < nu X m)%nat -> lb i <= u i <= ub i end)
      by (intro B; specialize (HW B); now inversion HW).
    assert (W2 : box = true -> within l) by (intro B; specialize (HW B); now inversion HW).
    set (v := utry X ndx box a m u b (sdiff x x)).
    assert (EV : forall i, (i < nu X m)%nat -> v i = u i).
    { intros i Hi. unfold v, utry, clamp.
      assert (EI : u i - a * bk b i - mulv ndx (bK b) (sdiff x x) i = u i).
      { rewrite (proj1 (S1 i Hi)), mulv_zero by (intros; apply D0). ring. }
      destruct box; [|exact EI]. destruct (lims X m) as [(lb, ub)|]; [|exact EI].
      rewrite EI. specialize (W1 eq_refl i Hi). rewrite Rmax_left, Rmin_left by lra. reflexivity. }
    destruct (sm_reads X ndx moves m Hm x v u EV) as (EF & EL). rewrite EF, EL.
    specialize (IH W2 (F X m x u) bs ltac:(now injection Hb) S2).
    destruct (forward X ndx sdiff box a T (F X m x u) (F X m x u) l bs) as ((us, xs), c).
    destruct IH as (I1 & -> & ->). repeat split. constructor; [|exact I1]. now split.
Qed.
Lemma bpass_length box preg T l : forall x Vx Vxx bs, bpass box preg T x l = Some (Vx, Vxx, bs) -> length bs = length l.
Proof.
  induction l as [|(m, u) l IH]; intros x Vx Vxx bs; cbn [Stop_Model.bpass].
  - intro E. injection E as _ _ <-. reflexivity.
  - destruct (bpass box preg T (F X m x u) l) as [((V1, V2), bs')|] eqn:P; [|discriminate].
    destruct (bstep _ _ _ _ _ _ _ _ _ _ _) as [((v1, v2), b)|]; [|discriminate]. intro E. assert (Eb : b :: bs' = bs) by congruence. subst bs.
    cbn [length]. f_equal. exact (IH _ _ _ _ P).
Qed.
Lemma same_refl l : same l l.
Proof. induction l; constructor; auto. Qed.
Lemma linesearch_still box g a T x l bs d alphas us : all_smooth l -> (box = true -> within l) -> length bs = length l -> still X l bs ->
  linesearch X ndx sdiff box g a T x l bs d alphas = Some us -> same us l /\ states X x us = states X x l.
Proof.
  intros HA HW Hb Hs.
  assert (SS : forall us l0, same us l0 -> all_smooth l0 -> forall x, states X x us = states X x l0).
  { intros us0 l0 H. induction H as [|(m, v) (m', u) l1 l2 (E & Ev) H IH]; intros HA0 y; [reflexivity|].
    cbn [fst snd] in *. subst m'. inversion HA0 as [|? ? H1 H2]; subst. cbn [states]. cbn [fst] in H1.
    rewrite (proj1 (sm_reads X ndx moves m H1 y v u Ev)). f_equal. now apply IH. }
  induction alphas as [|b r IH]; cbn [linesearch]; [discriminate|].
  pose proof (forward_still box b T l HA HW x bs Hb Hs) as FS.
  destruct (forward X ndx sdiff box b T x x l bs) as ((us', xs), c). destruct FS as (F1 & _ & _).
  destruct (passes _ _ _ _ _); [|exact IH]. intro E. injection E as <-. split; [exact F1|]. now apply SS.
Qed.
Lemma same_cost T l l' : all_smooth l -> same l' l -> forall x ws t, cost T x (shift t l' ws) = cost T x (shift t l ws).
Proof.
  intros HA H. revert HA. induction H as [|(m, v) (m', u) l1 l2 (E & Ev) H IH]; intros HA x ws t; [reflexivity|].
  cbn [fst snd] in *. subst m'. inversion HA as [|? ? H1 H2]; subst. cbn [fst] in H1. cbn [Stop_Proofs.shift Stop_Model.cost].
  destruct (sm_reads X ndx moves m H1 x (fun i => v i + t * hdv ws i) (fun i => u i + t * hdv ws i)) as (E1 & E2).
  { intros i Hi. now rewrite Ev. }
  rewrite E1, E2. f_equal. now apply IH.
Qed.

(** ** DDP *)
Lemma free_ok preg T l : forall x, nodes_ok false preg T x l.
Proof. induction l as [|(m, u) l IH]; intro x; [exact I|]. split; [discriminate|apply IH]. Qed.
Lemma free_inside l : forall bs, all_inside false l bs.
Proof. induction l as [|(m, u) l IH]; intros [|b bs]; try exact I. split; [exact I|apply IH]. Qed.
Lemma stop_zero d : 0 <= fst d + / 2 * snd d -> stop_value d = 0 -> fst d + / 2 * snd d = 0.
Proof. unfold stop_value. intros H E. now rewrite Rabs_pos_eq in E. Qed.

(** Whatever the regularization: whenever the backward pass succeeds the stopping value is zero exactly at
    the stationary points of the total cost. *)
Theorem C124_ddp : llt_ok llt -> forall preg T x l Vx Vxx bs, smoothT T -> all_smooth l ->
  bpass false preg T x l = Some (Vx, Vxx, bs) ->
  (stop_value (improvement X l bs) = 0 <-> stationary T x l).
Proof.
  intros HL preg T x l Vx Vxx bs HT HA P. rewrite (stationary_iff T x l HT HA).
  destruct (stop_still X ndx llt boxqp moves HL false preg T l HT HA x Vx Vxx bs P (free_ok preg T l x) (free_inside l bs)) as (S1 & S2).
  split.
  - intro E. apply (still_opt X ndx llt boxqp moves HL false preg T l HT HA x Vx Vxx bs P (free_ok preg T l x)). apply S2. now apply stop_zero.
  - intro G. rewrite (still_stop X l bs); [unfold stop_value; cbn [fst snd]; rewrite Rmult_0_r, Rplus_0_r; apply Rabs_R0|].
    exact (opt_still X ndx llt boxqp moves HL false preg T l HT HA x Vx Vxx bs P (free_ok preg T l x) G).
Qed.

(** The candidate left by an iteration whose stopping value is zero is the stationary point itself. *)
Theorem C124_ddp_returned : llt_ok llt -> forall was preg th_grad th_accept th_stop alphas T x l Vx Vxx bs l' b, smoothT T -> all_smooth l ->
  bpass false preg T x l = Some (Vx, Vxx, bs) -> stop_value (improvement X l bs) = 0 ->
  iteration X ndx sdiff llt boxqp false was preg th_grad th_accept th_stop alphas T x l = Some (l', b) ->
  same l' l /\ states X x l' = states X x l /\ stationary T x l'.
Proof.
  intros HL was preg tg ta ts alphas T x l Vx Vxx bs l' b HT HA P E0.
  pose proof (proj1 (C124_ddp HL preg T x l Vx Vxx bs HT HA P) E0) as ST.
  destruct (stop_still X ndx llt boxqp moves HL false preg T l HT HA x Vx Vxx bs P (free_ok preg T l x) (free_inside l bs)) as (S1 & S2).
  pose proof (S2 (stop_zero _ S1 E0)) as SL.
  unfold iteration. rewrite P. cbv zeta.
  assert (G : same l' l /\ states X x l' = states X x l -> same l' l /\ states X x l' = states X x l /\ stationary T x l').
  { intros (H1 & H2). split; [exact H1|]. split; [exact H2|]. intro ws. apply (dext (fun t => cost T x (shift t l ws))); [|apply ST].
    intro t. symmetry. now apply same_cost. }
  destruct (linesearch X ndx sdiff false tg ta T x l bs (improvement X l bs) alphas) as [us|] eqn:LS; intro E; injection E as <- _; apply G.
  - apply (linesearch_still false tg ta T x l bs (improvement X l bs) alphas us HA); auto; [discriminate|exact (bpass_length _ _ _ _ _ _ _ _ P)].
  - split; [apply same_refl|reflexivity].
Qed.

(** ** Control limits *)
(** At a point that is first-order optimal within the limits, nothing moves and the stopping value is zero. *)
Theorem C124_box_zero : llt_ok llt -> forall preg T x l Vx Vxx bs, smoothT T -> all_smooth l -> within l ->
  bpass true preg T x l = Some (Vx, Vxx, bs) -> nodes_ok true preg T x l ->
  limited_optimum T x l -> stop_value (improvement X l bs) = 0 /\ Forall2 (fun p b => forall i, (i < nu X (fst p))%nat -> bk b i = 0) l bs.
Proof.
  intros HL preg T x l Vx Vxx bs HT HA HW P N LO. apply (limited_iff T l HT HA HW x) in LO.
  pose proof (opt_still X ndx llt boxqp moves HL true preg T l HT HA x Vx Vxx bs P N LO) as S.
  split; [rewrite (still_stop X l bs S); unfold stop_value; cbn [fst snd]; rewrite Rmult_0_r, Rplus_0_r; apply Rabs_R0|].
  pose proof (bpass_length _ _ _ _ _ _ _ _ P) as LL. clear - S LL. revert bs S LL.
  induction l as [|(m, u) l IH]; intros [|b bs] S LL; try discriminate; constructor.
  - intros i Hi. apply (proj1 S i Hi).
  - apply IH; [apply S|now injection LL].
Qed.

(** Conversely if every control that moves ends strictly inside its limits. *)
Theorem C124_box_partial : llt_ok llt -> forall preg T x l Vx Vxx bs, smoothT T -> all_smooth l -> within l ->
  bpass true preg T x l = Some (Vx, Vxx, bs) -> nodes_ok true preg T x l ->
  all_inside true l bs ->
  (stop_value (improvement X l bs) = 0 <-> limited_optimum T x l).
Proof.
  intros HL preg T x l Vx Vxx bs HT HA HW P N AI.
  split; [|intro LO; exact (proj1 (C124_box_zero HL preg T x l Vx Vxx bs HT HA HW P N LO))].
  intro E. apply (limited_iff T l HT HA HW x).
  destruct (stop_still X ndx llt boxqp moves HL true preg T l HT HA x Vx Vxx bs P N AI) as (S1 & S2).
  apply (still_opt X ndx llt boxqp moves HL true preg T l HT HA x Vx Vxx bs P N). apply S2. now apply stop_zero.
Qed.
End P.
