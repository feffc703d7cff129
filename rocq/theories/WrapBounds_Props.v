(** C138: a wrapped model is bound by the limits of the model it wraps.

    Specification: [inner_after] is the model inside after the setters called on it, and
    [last_lb], [last_ub] the control bounds last given to the wrapper itself; a value violates bounds when one of
    its entries lies outside ([violates]). *)
From Coq Require Import QArith List Bool Arith Lia.
From Verif Require Import Common XFloat WrapBounds_Model.
Import ListNotations.
Local Open Scope nat_scope.

Definition violates (v : list xf) (b : box) : Prop :=
  exists i, i < length v /\
    (xlt (nth i v NaN) (nth i (fst b) NaN) = true \/ xlt (nth i (snd b) NaN) (nth i v NaN) = true).

(** The setters on either side. *)
Definition inside (os : list wop) : list bset := flat_map (fun o => match o with Inside o => [o] | _ => [] end) os.
Definition outside (os : list wop) : list bset := flat_map (fun o => match o with Outside o => [o] | _ => [] end) os.
Definition inner_after (b : bmodel) (os : list wop) : bmodel := fold_left bstep (inside os) b.

(** The last bound of the right size, or the one at the start. *)
Fixpoint last_lb (n : nat) (start : list xf) (os : list bset) : list xf :=
  match os with
  | [] => start
  | ULb l :: r => last_lb n (if length l =? n then l else start) r
  | _ :: r => last_lb n start r
  end.
Fixpoint last_ub (n : nat) (start : list xf) (os : list bset) : list xf :=
  match os with
  | [] => start
  | UUb l :: r => last_ub n (if length l =? n then l else start) r
  | _ :: r => last_ub n start r
  end.
Fixpoint last_glb (n : nat) (start : list xf) (os : list bset) : list xf :=
  match os with
  | [] => start
  | GLb l :: r => last_glb n (if length l =? n then l else start) r
  | _ :: r => last_glb n start r
  end.
Fixpoint last_gub (n : nat) (start : list xf) (os : list bset) : list xf :=
  match os with
  | [] => start
  | GUb l :: r => last_gub n (if length l =? n then l else start) r
  | _ :: r => last_gub n start r
  end.

(** What the wrapper should report for the controls when it is made. *)
Definition expected_u (k : wkind) (b : bmodel) : box :=
  match k with Integrated _ conv => conv (b_u b) | _ => b_u b end.
Definition own_nu (k : wkind) (b : bmodel) : nat := match k with Integrated nw _ => nw | _ => b_nu b end.

(** ** Lemmas *)
Lemma runs_split os : forall w,
  w_in (wruns w os) = fold_left bstep (inside os) (w_in w) /\ w_own (wruns w os) = fold_left bstep (outside os) (w_own w).
Proof.
  unfold wruns. induction os as [|[o|o] os IH]; intro w; cbn [fold_left inside outside flat_map app]; auto;
    destruct (IH (wstep w (Inside o))) as [A B]; destruct (IH (wstep w (Outside o))) as [C D]; auto.
Qed.

Lemma steps_u os : forall b,
  b_u (fold_left bstep os b) = (last_lb (b_nu b) (fst (b_u b)) os, last_ub (b_nu b) (snd (b_u b)) os) /\
  b_nu (fold_left bstep os b) = b_nu b.
Proof.
  induction os as [|o os IH]; intro b; cbn [fold_left last_lb last_ub]; [split; [apply surjective_pairing|reflexivity]|].
  destruct (IH (bstep b o)) as [A B]. rewrite A, B.
  destruct o as [l|l|l|l]; cbn [bstep]; destruct (length l =? _); cbn; auto.
Qed.

Lemma steps_g os : forall b,
  b_g (fold_left bstep os b) = (last_glb (b_ng b) (fst (b_g b)) os, last_gub (b_ng b) (snd (b_g b)) os) /\
  b_ng (fold_left bstep os b) = b_ng b.
Proof.
  induction os as [|o os IH]; intro b; cbn [fold_left last_glb last_gub]; [split; [apply surjective_pairing|reflexivity]|].
  destruct (IH (bstep b o)) as [A B]. rewrite A, B.
  destruct o as [l|l|l|l]; cbn [bstep]; destruct (length l =? _); cbn; auto.
Qed.

Lemma wrap_in k b : w_in (wrap k b) = b.
Proof. destruct k; reflexivity. Qed.

(** An integrated model reports the bounds of the inequalities of the model inside, those
    last set there, whatever is set on either. *)
Theorem C138_integrated : forall nw conv b os,
  get_g (Integrated nw conv) (wruns (wrap (Integrated nw conv) b) os) = b_g (inner_after b os) /\
  b_g (inner_after b os) = (last_glb (b_ng b) (fst (b_g b)) (inside os), last_gub (b_ng b) (snd (b_g b)) (inside os)).
Proof.
  intros nw conv b os. unfold get_g, inner_after. split; [now rewrite (proj1 (runs_split os _))|apply steps_g].
Qed.

(** So does a code-generated model. *)
Theorem C138_codegen : forall b os,
  get_g CodeGen (wruns (wrap CodeGen b) os) =
    (last_glb (b_ng b) (fst (b_g b)) (inside os), last_gub (b_ng b) (snd (b_g b)) (inside os)).
Proof. intros b os. unfold get_g. rewrite (proj1 (runs_split os _)). apply steps_g. Qed.

(** Except for differentiated differential and code-generated models, the wrapper reports the control bounds
    of the model inside when it was made, until bounds are set on the wrapper itself. *)
Theorem C138_control_partial : forall k b os, k <> NumDifferential -> k <> CodeGen ->
  get_u k (wruns (wrap k b) os) =
    (last_lb (own_nu k b) (fst (expected_u k b)) (outside os), last_ub (own_nu k b) (snd (expected_u k b)) (outside os)).
Proof.
  intros k b os Hk Hc. unfold get_u. rewrite (proj2 (runs_split os _)).
  rewrite (proj1 (steps_u _ _)). destruct k; try congruence; reflexivity.
Qed.

(** The model inside is not touched by wrapping it or by setters on the wrapper. *)
Theorem C138_inner : forall k b os, w_in (wruns (wrap k b) os) = inner_after b os.
Proof. intros k b os. rewrite (proj1 (runs_split os _)), wrap_in. reflexivity. Qed.

(** Whatever happened before, set_differential is accepted exactly for models with the same
    number of controls, and from then on the integrated model reports what a new one around
    the given model would. *)
Theorem C138_replaced : forall nw conv b b' os os', let k := Integrated nw conv in
  match set_differential conv b' (wruns (wrap k b) os) with
  | Some w => b_nu b' = b_nu b /\
      get_g k (wruns w os') = get_g k (wruns (wrap k b') os') /\ get_u k (wruns w os') = get_u k (wruns (wrap k b') os')
  | None => b_nu b' <> b_nu b
  end.
Proof.
  intros nw conv b b' os os'. cbv zeta. unfold set_differential.
  destruct (runs_split os (wrap (Integrated nw conv) b)) as [A B]. rewrite A, B.
  rewrite (proj2 (steps_u (inside os) _)), (proj2 (steps_u (outside os) _)). cbn [wrap w_in w_own b_nu].
  destruct (Nat.eqb_spec (b_nu b') (b_nu b)) as [E|E]; auto. split; auto.
  unfold get_g, get_u.
  split; [rewrite !(proj1 (runs_split os' _))|rewrite !(proj2 (runs_split os' _)), !(proj1 (steps_u _ _))]; reflexivity.
Qed.

(** ** What fails *)
Lemma unbounded_ok n v : length v = n -> ~ violates v (unbounded n).
Proof.
  intros L (i & Hi & H). cbn [unbounded fst snd] in H.
  assert (Hr : forall a : xf, nth i (repeat a n) NaN = a).
  { intro a. apply (repeat_spec n). apply nth_In. rewrite repeat_length. lia. }
  rewrite !Hr in H. destruct (nth i v NaN); cbn in H; destruct H; discriminate.
Qed.

(** A differentiated model forgets the bounds of the inequalities: no value violates them,
    although it may violate those of the model inside. *)
Theorem C138_numdiff_refuted :
  (forall k b v, k = NumAction \/ k = NumDifferential -> length v = b_ng b -> ~ violates v (get_g k (wrap k b))) /\
  (exists b v, length v = b_ng b /\ violates v (b_g b)).
Proof.
  split.
  - intros k b v [-> | ->] L; exact (unbounded_ok _ _ L).
  - exists (BModel 2 1 ([Fin 0; Fin 0], [PInf; Fin 1]) (unbounded 1)), [Fin 1; Fin 2]. split; [reflexivity|].
    exists 1. split; [cbn; auto|]. right. reflexivity.
Qed.

(** A differentiated differential model forgets those of the controls too, and so does a
    code-generated model. *)
Theorem C138_control_refuted :
  (forall k b u, k = NumDifferential \/ k = CodeGen -> length u = b_nu b -> ~ violates u (get_u k (wrap k b))) /\
  (exists b u, length u = b_nu b /\ violates u (b_u b)).
Proof.
  split.
  - intros k b u [-> | ->] L; exact (unbounded_ok _ _ L).
  - exists (BModel 0 1 (unbounded 0) ([Fin (-1)], [Fin 1])), [Fin 2]. split; [reflexivity|].
    exists 0. split; [cbn; auto|]. right. reflexivity.
Qed.

(** Limits set on the model inside after it was wrapped never reach the wrapper's controls,
    and bounds of the inequalities set on an integrated model are accepted and ignored. *)
Theorem C138_stale_refuted :
  (forall k b os, Forall (fun o => match o with Inside _ => True | _ => False end) os ->
     get_u k (wruns (wrap k b) os) = get_u k (wrap k b)) /\
  (exists b l, b_u (inner_after b [Inside (ULb l)]) <> b_u b) /\
  (exists nw conv b l, length l = b_ng b /\
     fst (get_g (Integrated nw conv) (wruns (wrap (Integrated nw conv) b) [Outside (GLb l)])) <> l).
Proof.
  split; [|split].
  - intros k b os H. unfold get_u. rewrite (proj2 (runs_split os _)).
    replace (outside os) with (@nil bset); [reflexivity|].
    induction H as [|[o|o] os Ho Hos IH]; cbn; auto. destruct Ho.
  - exists (base 0 1), [Fin 0]. cbn. discriminate.
  - exists 1, (fun b => b), (base 1 1), [Fin 0]. split; [reflexivity|]. cbn. discriminate.
Qed.

(** A history with setters on both sides and a rejected one. *)
Example C138_ex :
  let k := Integrated 2 (fun b => (fst b ++ fst b, snd b ++ snd b)) in
  let b := BModel 1 1 ([Fin 0], [PInf]) ([Fin (-1)], [Fin 1]) in
  let w := wruns (wrap k b) [Inside (GUb [Fin 4]); Outside (ULb [Fin 0]); Outside (UUb [Fin 2; Fin 3])] in
  get_g k w = ([Fin 0], [Fin 4]) /\ get_u k w = ([Fin (-1); Fin (-1)], [Fin 2; Fin 3]).
Proof. split; reflexivity. Qed.
Example C138_codegen_ex :
  let b := BModel 1 1 ([Fin 0], [PInf]) ([Fin (-1)], [Fin 1]) in
  let w := wruns (wrap CodeGen b) [Inside (GUb [Fin 4]); Outside (GLb [Fin 3])] in
  get_g CodeGen w = ([Fin 0], [Fin 4]) /\ get_u CodeGen w = ([NInf], [PInf]).
Proof. split; reflexivity. Qed.
Example C138_replaced_ex :
  let k := Integrated 1 (fun b => b) in
  exists w, set_differential (fun b => b) (BModel 2 1 (unbounded 2) ([Fin 0], [Fin 1])) (wruns (wrap k (base 0 1)) [Outside (ULb [Fin 5])]) = Some w /\
    get_u k w = ([Fin 0], [Fin 1]).
Proof. eexists. split; reflexivity. Qed.

Print Assumptions C138_replaced.
Print Assumptions C138_codegen.
Print Assumptions C138_integrated.
Print Assumptions C138_control_partial.
Print Assumptions C138_inner.
Print Assumptions C138_numdiff_refuted.
Print Assumptions C138_control_refuted.
Print Assumptions C138_stale_refuted.
