(** C59, C60, C64: Euclidean states, limits, and copies of action models. *)
From Coquelicot Require Import Coquelicot.
From Coq Require Import QArith Reals List Arith Bool Lia Lra.
From Verif Require Import Deriv VecMat XFloat State_Model.
Import ListNotations.
Open Scope R_scope.

(** ** Specification *)
Definition agree (n : nat) (x : sv) (y : vec) : Prop := sz x = n /\ forall i, (i < n)%nat -> ent x i = y i.
(** [J] is the Jacobian of [f] (from n to n components) at [x]. *)
Definition is_jac (n : nat) (f : vec -> vec) (x : vec) (J : mat) : Prop :=
  forall (c : R -> vec) s v, (forall j, (j < n)%nat -> c s j = x j) ->
    (forall j, (j < n)%nat -> is_derive (fun t => c t j) s (v j)) ->
    forall i, (i < n)%nat -> is_derive (fun t => f (c t) i) s (rsum n (fun j => J i j * v j)).

(** ** C59 *)
Lemma neqb_f a b : a = b -> negb (Nat.eqb a b) = false.
Proof. intros ->. now rewrite Nat.eqb_refl. Qed.

Theorem C59_inverse n x y d ox od : sz x = n -> sz y = n -> sz d = n -> sz ox = n -> sz od = n ->
  (exists dx, sdiff n x y od = Some dx /\ exists z, sintegrate n x dx ox = Some z /\ agree n z (ent y)) /\
  (exists xn, sintegrate n x d ox = Some xn /\ exists dx, sdiff n x xn od = Some dx /\ agree n dx (ent d)) /\
  (exists dx, sdiff n x x od = Some dx /\ agree n dx (fun _ => 0)).
Proof.
  intros Hx Hy Hd Hox Hod. unfold sdiff, sintegrate. rewrite !neqb_f by (cbn [sz]; auto). repeat split; eexists; split; try reflexivity.
  - cbn [sz ent]. rewrite !neqb_f by auto. eexists; split; [reflexivity|]. split; auto. intros; cbn [ent]; ring.
  - cbn [sz ent]. rewrite !neqb_f by auto. eexists; split; [reflexivity|]. split; auto. intros; cbn [ent]; ring.
  - split; auto. intros; cbn [ent]; ring.
Qed.

(** The calls are rejected exactly when a size is wrong. *)
Theorem C59_sizes n a b o :
  (sdiff n a b o = None <-> ~ (sz a = n /\ sz b = n /\ sz o = n)) /\
  (sintegrate n a b o = None <-> ~ (sz a = n /\ sz b = n /\ sz o = n)) /\
  (forall J, sJtransport J both = None /\ sJtransport J first = Some J /\ sJtransport J second = Some J).
Proof.
  split; [|split]; [| |repeat split].
  - unfold sdiff. destruct (Nat.eqb_spec (sz a) n), (Nat.eqb_spec (sz b) n), (Nat.eqb_spec (sz o) n); cbn [negb];
      split; intro H; try discriminate; try reflexivity; try tauto; exfalso; tauto.
  - unfold sintegrate. destruct (Nat.eqb_spec (sz a) n), (Nat.eqb_spec (sz b) n), (Nat.eqb_spec (sz o) n); cbn [negb];
      split; intro H; try discriminate; try reflexivity; try tauto; exfalso; tauto.
Qed.

Lemma jac_scaled n c (b : vec) x J : (forall i j, (i < n)%nat -> (j < n)%nat -> J i j = c * idm i j) ->
  is_jac n (fun x i => b i + c * x i) x J.
Proof.
  intros HJ cu s v _ Hd i Hi. eapply deq; [apply dplus; [apply dconst|apply dscal, (Hd i Hi)]|].
  rewrite (rsum_ext n _ (fun j => c * (idm i j * v j))).
  - rewrite rsum_scal, rsum_id_l by auto. ring.
  - intros j Hj. rewrite HJ by auto. ring.
Qed.
Lemma jac_ext n f g x J : (forall x i, (i < n)%nat -> f x i = g x i) -> is_jac n f x J -> is_jac n g x J.
Proof.
  intros H Hf c s v E D i Hi. apply (dext (fun t => f (c t) i)); [intro; now apply H|]. now apply Hf.
Qed.

(** Jdiff: the requested blocks become the derivatives of diff, whatever they held; the other
    block and the dimensions do not change. *)
Theorem C59_Jdiff n Jf Js c x0 x1 : rows Jf = n -> cols Jf = n -> rows Js = n -> cols Js = n ->
  exists Jf' Js', sJdiff n Jf Js c = Some (Jf', Js') /\
    (rows Jf' = n /\ cols Jf' = n /\ rows Js' = n /\ cols Js' = n) /\
    (c <> second -> is_jac n (fun x i => x1 i - x i) x0 (ment Jf')) /\
    (c <> first -> is_jac n (fun x i => x i - x0 i) x1 (ment Js')) /\
    (c = second -> Jf' = Jf) /\ (c = first -> Js' = Js).
Proof.
  intros H1 H2 H3 H4.
  assert (Qf : square n Jf = true) by (unfold square; now rewrite H1, H2, Nat.eqb_refl).
  assert (Qs : square n Js = true) by (unfold square; now rewrite H3, H4, Nat.eqb_refl).
  assert (F : is_jac n (fun x i => x1 i - x i) x0 (ment (set_diagonal (-1) (set_zero Jf)))).
  { apply (jac_ext n (fun x i => x1 i + -1 * x i)); [intros; ring|]. apply jac_scaled. intros i j _ _. cbn. unfold idm.
    destruct (Nat.eqb i j); ring. }
  assert (S : is_jac n (fun x i => x i - x0 i) x1 (ment (set_diagonal 1 (set_zero Js)))).
  { apply (jac_ext n (fun x i => - x0 i + 1 * x i)); [intros; ring|]. apply (jac_scaled n 1 (fun i => - x0 i)). intros i j _ _. cbn. unfold idm.
    destruct (Nat.eqb i j); ring. }
  unfold sJdiff. destruct c; cbn [wants_first wants_second]; rewrite ?Qf, ?Qs; eexists; eexists; (split; [reflexivity|]);
    (split; [cbn [set_diagonal set_zero rows cols]; auto|]);
    (split; [intro; try congruence; exact F|]); (split; [intro; try congruence; exact S|]); split; intro; congruence.
Qed.

(** Jintegrate: in the addto and rmfrom modes the derivative (the identity) is added or removed. *)
Theorem C59_Jintegrate_partial n Jf Js c op : rows Jf = n -> cols Jf = n -> rows Js = n -> cols Js = n ->
  exists Jf' Js', sJintegrate n Jf Js c op = Some (Jf', Js') /\
    (rows Jf' = n /\ cols Jf' = n /\ rows Js' = n /\ cols Js' = n) /\
    (c <> second -> forall i j, op <> setto \/ i = j -> ment Jf' i j = assign op (ment Jf i j) (idm i j)) /\
    (c <> first -> forall i j, op <> setto \/ i = j -> ment Js' i j = assign op (ment Js i j) (idm i j)) /\
    (c = second -> Jf' = Jf) /\ (c = first -> Js' = Js).
Proof.
  intros H1 H2 H3 H4.
  assert (Qf : square n Jf = true) by (unfold square; now rewrite H1, H2, Nat.eqb_refl).
  assert (Qs : square n Js = true) by (unfold square; now rewrite H3, H4, Nat.eqb_refl).
  assert (D : forall J i j, op <> setto \/ i = j -> ment (diag_op op J) i j = assign op (ment J i j) (idm i j)).
  { intros J i j Ho. cbn [diag_op ment]. unfold idm. destruct (Nat.eqb_spec i j); [reflexivity|].
    destruct op; cbn [assign]; try ring. destruct Ho; congruence. }
  unfold sJintegrate. destruct c; cbn [wants_first wants_second]; rewrite ?Qf, ?Qs; eexists; eexists; (split; [reflexivity|]);
    (split; [cbn [diag_op rows cols]; auto|]);
    (split; [intros ? ? ?; try congruence; apply D|]); (split; [intros ? ? ?; try congruence; apply D|]); split; intro; congruence.
Qed.
(** The identity is the derivative of integrate in both arguments. *)
Theorem C59_identity_is_jacobian n x dx :
  is_jac n (fun x i => x i + dx i) x idm /\ is_jac n (fun d i => x i + d i) dx idm.
Proof.
  split.
  - apply (jac_ext n (fun x i => dx i + 1 * x i)); [intros; ring|]. apply jac_scaled. intros; ring.
  - apply (jac_ext n (fun d i => x i + 1 * d i)); [intros; ring|]. apply jac_scaled. intros; ring.
Qed.
(** The wrapper that allocates the matrices returns the derivatives. *)
(** The calls that return a new vector give the difference and the sum, and throw exactly on wrong sizes. *)
Theorem C59_returning n a b :
  (sz a = n -> sz b = n ->
     (exists dx, diff_dx n a b = Some dx /\ agree n dx (fun i => ent b i - ent a i)) /\
     (exists x, integrate_x n a b = Some x /\ agree n x (fun i => ent a i + ent b i))) /\
  (~ (sz a = n /\ sz b = n) -> diff_dx n a b = None /\ integrate_x n a b = None).
Proof.
  unfold diff_dx, integrate_x, sdiff, sintegrate. cbn [sz]. rewrite !(neqb_f n n eq_refl). split.
  - intros Ha Hb. rewrite (neqb_f _ _ Ha), (neqb_f _ _ Hb). split; eexists; (split; [reflexivity|]); split; intros; reflexivity.
  - intro H. destruct (Nat.eqb_spec (sz a) n) as [Ea|Ea]; cbn [negb]; auto.
    destruct (Nat.eqb_spec (sz b) n) as [Eb|Eb]; cbn [negb]; auto. exfalso; auto.
Qed.
Print Assumptions C59_returning.
Example C59_returning_ex : exists dx, diff_dx 2 (SV 2 (fun _ => 1)) (SV 2 (fun _ => 4)) = Some dx /\ ent dx 1%nat = 4 - 1.
Proof. eexists. split; reflexivity. Qed.

Theorem C59_wrappers n x0 x1 x dx :
  (exists F S, Jdiff_Js n both = Some [F; S] /\ is_jac n (fun x i => x1 i - x i) x0 (ment F) /\ is_jac n (fun x i => x i - x0 i) x1 (ment S)) /\
  (exists F S, Jintegrate_Js n both = Some [F; S] /\ is_jac n (fun x i => x i + dx i) x (ment F) /\ is_jac n (fun d i => x i + d i) dx (ment S)) /\
  (exists F, Jdiff_Js n first = Some [F] /\ is_jac n (fun x i => x1 i - x i) x0 (ment F)) /\
  (exists S, Jdiff_Js n second = Some [S] /\ is_jac n (fun x i => x i - x0 i) x1 (ment S)).
Proof.
  assert (Z : square n (SM n n (fun _ _ => 0)) = true) by (unfold square; cbn; now rewrite Nat.eqb_refl).
  assert (E : forall i j, ment (diag_op setto (SM n n (fun _ _ => 0))) i j = idm i j).
  { intros. cbn [diag_op ment]. unfold idm. now destruct (Nat.eqb i j). }
  pose proof (C59_identity_is_jacobian n x dx) as [I1 I2].
  split; [|split; [|split]].
  - destruct (C59_Jdiff n (SM n n (fun _ _ => 0)) (SM n n (fun _ _ => 0)) both x0 x1) as (F & S & H & _ & HF & HS & _); auto.
    exists F, S. unfold Jdiff_Js. rewrite H. split; [reflexivity|split; [apply HF; discriminate|apply HS; discriminate]].
  - exists (diag_op setto (SM n n (fun _ _ => 0))), (diag_op setto (SM n n (fun _ _ => 0))).
    unfold Jintegrate_Js, sJintegrate. cbn [wants_first wants_second]. rewrite Z. split; [reflexivity|]. split.
    + intros c s v Hc Hd i Hi. eapply deq; [apply (I1 c s v Hc Hd i Hi)|]. apply rsum_ext. reflexivity.
    + intros c s v Hc Hd i Hi. eapply deq; [apply (I2 c s v Hc Hd i Hi)|]. apply rsum_ext. reflexivity.
  - destruct (C59_Jdiff n (SM n n (fun _ _ => 0)) (SM n n (fun _ _ => 0)) first x0 x1) as (F & S & H & _ & HF & HS & _); auto.
    exists F. unfold Jdiff_Js. rewrite H. split; [reflexivity|]. apply HF. discriminate.
  - destruct (C59_Jdiff n (SM n n (fun _ _ => 0)) (SM n n (fun _ _ => 0)) second x0 x1) as (F & S & H & _ & HF & HS & _); auto.
    exists S. unfold Jdiff_Js. rewrite H. split; [reflexivity|]. apply HS. discriminate.
Qed.
(** In the setto mode only the diagonal is written: previous off-diagonal content survives. *)
Theorem C59_Jintegrate_refuted :
  exists n Jf Js Jf' Js' x dx,
    rows Jf = n /\ cols Jf = n /\ rows Js = n /\ cols Js = n /\
    sJintegrate n Jf Js both setto = Some (Jf', Js') /\
    ~ is_jac n (fun x i => x i + dx i) x (ment Jf').
Proof.
  exists 2%nat, (SM 2 2 (fun _ _ => 5)), (SM 2 2 (fun _ _ => 0)).
  eexists; eexists. exists (fun _ => 0), (fun _ => 0).
  do 5 (split; [reflexivity|]).
  intro H. specialize (H (fun t j => if Nat.eqb j 1 then t else 0) 0 (fun j => if Nat.eqb j 1 then 1 else 0)).
  assert (D : is_derive (fun t => (if Nat.eqb 0%nat 1 then t else 0) + 0) 0
    (rsum 2 (fun j => ment (diag_op setto (SM 2 2 (fun _ _ => 5))) 0%nat j * (if Nat.eqb j 1 then 1 else 0)))).
  { apply H; auto with arith.
    - intros j _. now destruct (Nat.eqb j 1).
    - intros j _. destruct (Nat.eqb j 1); [apply did|apply dconst]. }
  pose proof (duniq _ _ _ _ D (dext (fun _ => 0) _ 0 0 (fun t => eq_sym (Rplus_0_r 0)) (dconst 0 0))) as E.
  cbn in E. lra.
Qed.

(** ** C60 *)
Definition some_finite (l : list xf) : Prop := exists b q, In b l /\ b = Fin q.
Lemma existsb_fin l : existsb is_fin l = true <-> some_finite l.
Proof.
  rewrite existsb_exists. split.
  - intros (b & Hb & Hf). destruct b as [| | |q]; try discriminate. now exists (Fin q), q.
  - intros (b & q & Hb & ->). now exists (Fin q).
Qed.
Lemma no_fin_repeat b n : is_fin b = false -> existsb is_fin (repeat b n) = false.
Proof. intro H. induction n; cbn; now rewrite ?H. Qed.

Definition sl_inv (s : slimits) : Prop := l_has s = existsb is_fin (l_lb s) || existsb is_fin (l_ub s).
Definition ul_inv (s : slimits) : Prop := l_has s = existsb is_fin (l_lb s) && existsb is_fin (l_ub s).
Lemma create_inv n : sl_inv (sl_create n) /\ ul_inv (sl_create n).
Proof. unfold sl_inv, ul_inv. cbn. now rewrite !no_fin_repeat. Qed.
Lemma sl_run_inv n l : sl_inv (sl_run n l).
Proof.
  unfold sl_run. assert (H : forall s, sl_inv s -> sl_inv (fold_left (fun s o => match sl_set s o with Some s' => s' | None => s end) l s)).
  { induction l as [|o l IH]; intros s Hs; auto. cbn. apply IH.
    destruct o; cbn [sl_set]; destruct (Nat.eqb (length b) (l_n s)); auto; reflexivity. }
  apply H, create_inv.
Qed.
Lemma ul_run_inv n l : ul_inv (ul_run n l).
Proof.
  unfold ul_run. assert (H : forall s, ul_inv s -> ul_inv (fold_left (fun s o => match ul_set s o with Some s' => s' | None => s end) l s)).
  { induction l as [|o l IH]; intros s Hs; auto. cbn. apply IH.
    destruct o; cbn [ul_set]; destruct (Nat.eqb (length b) (l_n s)); auto; reflexivity. }
  apply H, create_inv.
Qed.
(** The limits in force after a history of calls: the last call with the right size decides, the
    other calls have no effect, and without such a call the limit is the infinite one. *)
Definition in_force (set : list xf -> bop) (b0 : xf) (n : nat) (l : list bop) (b : list xf) : Prop :=
  (exists l1 l2, l = l1 ++ set b :: l2 /\ length b = n /\ forall b', In (set b') l2 -> length b' <> n) \/
  ((forall b', In (set b') l -> length b' <> n) /\ b = repeat b0 n).
Lemma in_force_snoc set b0 n l b o : in_force set b0 n l b -> (forall b', o = set b' -> length b' <> n) ->
  in_force set b0 n (l ++ [o]) b.
Proof.
  intros [(l1 & l2 & -> & Hb & H)|(H & ->)] Ho; [left|right].
  - exists l1, (l2 ++ [o]). rewrite <- app_assoc. split; [reflexivity|]. split; [exact Hb|].
    intros b' Hi. apply in_app_or in Hi as [Hi|[Hi|[]]]; [now apply H|now apply Ho].
  - split; [|reflexivity]. intros b' Hi. apply in_app_or in Hi as [Hi|[Hi|[]]]; [now apply H|now apply Ho].
Qed.
Lemma in_force_last set b0 n l b : length b = n -> in_force set b0 n (l ++ [set b]) b.
Proof. intro H. left. exists l, []. now split; [|split; [|intros b' []]]. Qed.
Lemma run_limits n l :
  (l_n (sl_run n l) = n /\ in_force SetLb NInf n l (l_lb (sl_run n l)) /\ in_force SetUb PInf n l (l_ub (sl_run n l))) /\
  (l_n (ul_run n l) = n /\ in_force SetLb NInf n l (l_lb (ul_run n l)) /\ in_force SetUb PInf n l (l_ub (ul_run n l))).
Proof.
  induction l as [|o l ((An & Al & Au) & (Bn & Bl & Bu))] using rev_ind.
  - repeat split; right; (split; [intros b' []|reflexivity]).
  - unfold sl_run, ul_run in *. rewrite !fold_left_app. cbn [fold_left].
    set (s := fold_left _ l _) in An, Al, Au |- *. set (v := fold_left _ l _) in Bn, Bl, Bu |- *.
    clearbody s v.
    destruct o as [b|b]; cbn [sl_set ul_set]; rewrite An, Bn;
      destruct (Nat.eqb_spec (length b) n) as [E|E];
      cbn [sl_update ul_update l_n l_lb l_ub]; rewrite ?An, ?Bn;
      (split; (split; [reflexivity|split]));
      first [now apply in_force_last
            |apply in_force_snoc; [assumption|]; intros b' Hb'; first [discriminate Hb'|injection Hb' as <-; exact E]].
Qed.
(** For the state limits the flag is as documented. *)
Theorem C60_state_limits n l :
  let s := sl_run n l in
  in_force SetLb NInf n l (l_lb s) /\ in_force SetUb PInf n l (l_ub s) /\
  (l_has s = true <-> some_finite (l_lb s) \/ some_finite (l_ub s)).
Proof.
  intro s. unfold s. split; [apply run_limits|split; [apply run_limits|]].
  rewrite (sl_run_inv n l), orb_true_iff, !existsb_fin. reflexivity.
Qed.
(** For the control limits it is raised only when both sides have a finite entry, ... *)
Theorem C60_control_limits_partial n l :
  let s := ul_run n l in
  in_force SetLb NInf n l (l_lb s) /\ in_force SetUb PInf n l (l_ub s) /\
  (l_has s = true <-> some_finite (l_lb s) /\ some_finite (l_ub s)).
Proof.
  intro s. unfold s. split; [apply run_limits|split; [apply run_limits|]].
  rewrite (ul_run_inv n l), andb_true_iff, !existsb_fin. reflexivity.
Qed.
(** ... so a one-sided limit is not recognised. *)
Theorem C60_one_sided_refuted :
  exists n l, let s := ul_run n l in some_finite (l_ub s) /\ l_has s = false.
Proof.
  exists 1%nat, [SetUb [Fin 1%Q]]. split; [|reflexivity]. exists (Fin 1%Q), 1%Q. split; [now left|reflexivity].
Qed.
(** The bounds kept are the last accepted ones; a rejected call has no effect. *)
Theorem C60_bounds_kept n l o :
  let s := ul_run n l in let s' := ul_run n (l ++ [o]) in
  match o with
  | SetLb b => (length b = n -> l_lb s' = b /\ l_ub s' = l_ub s) /\ (length b <> n -> s' = s)
  | SetUb b => (length b = n -> l_ub s' = b /\ l_lb s' = l_lb s) /\ (length b <> n -> s' = s)
  end.
Proof.
  intros s s'. unfold s', ul_run. rewrite fold_left_app. cbn [fold_left]. fold (ul_run n l). fold s.
  assert (Hn : l_n s = n).
  { unfold s, ul_run. assert (H : forall z, l_n (fold_left (fun s o => match ul_set s o with Some s' => s' | None => s end) l z) = l_n z).
    { induction l as [|o' l IH]; intro z; auto. cbn [fold_left]. rewrite IH. destruct o'; cbn [ul_set]; now destruct (Nat.eqb (length b) (l_n z)). }
    rewrite H. reflexivity. }
  destruct o as [b|b]; cbn [ul_set]; rewrite Hn; split; intro H;
    [rewrite (proj2 (Nat.eqb_eq _ _) H); now split|rewrite (proj2 (Nat.eqb_neq _ _) H); reflexivity|
     rewrite (proj2 (Nat.eqb_eq _ _) H); now split|rewrite (proj2 (Nat.eqb_neq _ _) H); reflexivity].
Qed.

(** ** C64 *)
(** Calls with a control behave alike on a copy; without one, only for models without controls. *)
Theorem C64_copy_partial (A : Type) (run : sv -> vec -> A) nu x u :
  ab_calc run (ab_copy (ab_create nu)) x u = ab_calc run (ab_create nu) x u /\
  ab_calc_x run (ab_create nu) x = Some (run x (fun _ => 0)) /\
  (nu = 0%nat -> ab_calc_x run (ab_copy (ab_create nu)) x = ab_calc_x run (ab_create nu) x).
Proof.
  split; [reflexivity|]. split.
  - unfold ab_calc_x, ab_calc. cbn [ab_create a_unone a_nu sz ent]. now rewrite Nat.eqb_refl.
  - intros ->. reflexivity.
Qed.
Theorem C64_copy_refuted : forall (A : Type) (run : sv -> vec -> A) nu x, (0 < nu)%nat ->
  ab_calc_x run (ab_copy (ab_create nu)) x = None /\ ab_calc_x run (ab_create nu) x <> None.
Proof.
  intros A run nu x H. unfold ab_calc_x, ab_calc. cbn [ab_copy ab_create a_unone a_nu sz ent].
  rewrite Nat.eqb_refl. destruct nu; [lia|]. now split.
Qed.

(** ** Concrete cases *)
Example diff_ex : exists d, sdiff 2 (SV 2 (fun _ => 1)) (SV 2 (fun i => INR i)) (SV 2 (fun _ => 7)) = Some d /\ agree 2 d (fun i => INR i - 1).
Proof. eexists; split; [reflexivity|]. split; auto. Qed.
Example sizes_ex : sdiff 2 (SV 3 (fun _ => 1)) (SV 2 (fun _ => 0)) (SV 2 (fun _ => 0)) = None.
Proof. reflexivity. Qed.
Example limits_ex : l_has (ul_run 2 [SetLb [Fin (-1)%Q; NInf]; SetUb [PInf]; SetUb [PInf; Fin 3%Q]]) = true.
Proof. reflexivity. Qed.
Example limits_kept_ex : l_ub (ul_run 2 [SetLb [Fin (-1)%Q; NInf]; SetUb [PInf]]) = [PInf; PInf].
Proof. reflexivity. Qed.
Example copy_ex : ab_calc_x (fun x _ => ent x 0%nat) (ab_copy (ab_create 2)) (SV 1 (fun _ => 1)) = None.
Proof. reflexivity. Qed.

Print Assumptions C59_inverse.
Print Assumptions C59_sizes.
Print Assumptions C59_Jdiff.
Print Assumptions C59_Jintegrate_partial.
Print Assumptions C59_identity_is_jacobian.
Print Assumptions C59_wrappers.
Print Assumptions C59_Jintegrate_refuted.
Print Assumptions C60_state_limits.
Print Assumptions C60_control_limits_partial.
Print Assumptions C60_one_sided_refuted.
Print Assumptions C60_bounds_kept.
Print Assumptions C64_copy_partial.
Print Assumptions C64_copy_refuted.
