(** C102: constraints built from a residual, their bounds, values and Jacobians. *)
From Coquelicot Require Import Coquelicot.
From Coq Require Import QArith Reals List Arith Bool Lia Lra.
From Verif Require Import XFloat Deriv VecMat ConRes_Model.
Import ListNotations.
Close Scope Q_scope. Close Scope R_scope. Local Open Scope nat_scope.

(** ** Specification *)
(** bounds that some number can meet and that exclude nothing by mistake *)
Definition sane (l u : xf) : Prop := xle l u = true /\ l <> PInf /\ u <> NInf.
Definition no_nan (v : list xf) : Prop := List.Forall (fun a => a <> NaN) v.
(** a value meets its bounds *)
Definition meets (l u : xf) (a : Q) : Prop := xle l (Fin a) = true /\ xle (Fin a) u = true.

(** ** Lemmas *)
Definition bad_pair (l u : xf) : bool := is_fin l && is_fin u && xlt (Fin 0) (xsub l u).
Lemma scan_defined lb ub n : forall i, i + n <= length lb -> i + n <= length ub -> scan lb ub i n <> Undefined.
Proof.
induction n as [|n IH]; intros i Hl Hu; [discriminate|]. cbn [scan].
destruct (nth_error lb i) eqn:El; [|apply nth_error_None in El; lia].
destruct (nth_error ub i) eqn:Eu; [|apply nth_error_None in Eu; lia].
destruct (_ && _ && _); [discriminate|]. apply IH; lia.
Qed.
Lemma scan_ok lb ub n : forall i, i + n <= length lb -> i + n <= length ub ->
  (scan lb ub i n = Ok tt <-> forall k l u, i <= k < i + n -> nth_error lb k = Some l -> nth_error ub k = Some u -> bad_pair l u = false).
Proof.
induction n as [|n IH]; intros i Hl Hu; [split; [intros _ k l u Hk; lia|reflexivity]|]. cbn [scan].
destruct (nth_error lb i) as [l0|] eqn:El; [|apply nth_error_None in El; lia].
destruct (nth_error ub i) as [u0|] eqn:Eu; [|apply nth_error_None in Eu; lia].
fold (bad_pair l0 u0). destruct (bad_pair l0 u0) eqn:B.
- split; [discriminate|]. intro H. rewrite (H i l0 u0) in B by (assumption || lia). discriminate.
- rewrite IH by lia. split; intros H k l u Hk A C.
  + destruct (Nat.eq_dec k i) as [->|N]; [congruence|]. apply (H k l u); [lia|assumption|assumption].
  + apply (H k l u); [lia|assumption|assumption].
Qed.
Lemma Qlt_minus p q : negb (Qle_bool (Qred (p + - q)) 0) = negb (Qle_bool p q).
Proof.
f_equal. apply eq_true_iff_eq. rewrite !Qle_bool_iff, Qred_correct. split; intro H.
- rewrite <- (Qplus_le_l _ _ (- q)). rewrite Qplus_opp_r. exact H.
- rewrite <- (Qplus_le_l _ _ q). rewrite <- Qplus_assoc, (Qplus_comm (- q) q), Qplus_opp_r, Qplus_0_r, Qplus_0_l. exact H.
Qed.
Lemma bad_pair_spec l u : l <> NaN -> u <> NaN -> l <> PInf -> u <> NInf -> (bad_pair l u = false <-> xle l u = true).
Proof.
intros Nl Nu Pl Pu. destruct l, u; try congruence; unfold bad_pair, xsub; cbn [is_fin andb xopp xadd xlt xle]; try tauto.
rewrite Qlt_minus. now rewrite negb_false_iff.
Qed.
Lemma any_eq_inf v c : c = PInf \/ c = NInf -> (any_eq c v = false <-> List.Forall (fun a => a <> c) v).
Proof.
intro Hc. unfold any_eq. rewrite Forall_forall. split.
- intros E a Ha ->. assert (T : existsb (fun a => xeq a c) v = true) by (apply existsb_exists; exists c; split; [exact Ha|destruct Hc as [-> | ->]; reflexivity]). congruence.
- intro H. destruct (existsb (fun a => xeq a c) v) eqn:E; [|reflexivity]. apply existsb_exists in E. destruct E as (a & Ha & X).
  exfalso. apply (H a Ha). destruct Hc as [-> | ->]; destruct a; cbn in X; congruence.
Qed.

Section Bounds.
Variable xmax : Q.

(** ** Creation *)
(** Bounds without NaN and of the size of the residual are accepted exactly if they are sane and
    no lower bound is the largest number; they are then the bounds of the constraint. *)
Theorem C102_create_partial r lower upper T : 0 < r_nr r -> length lower = r_nr r -> length upper = r_nr r ->
  no_nan lower -> no_nan upper ->
  let good := (forall k l u, nth_error lower k = Some l -> nth_error upper k = Some u -> sane l u) /\ any_eq (Fin xmax) lower = false in
  (good -> exists m, new_ineq xmax r lower upper T = Ok m /\ m_type m = Inequality /\ m_lb m = lower /\ m_ub m = upper /\
           m_ng m = r_nr r /\ m_nh m = 0 /\ m_T m = T && (r_q r || r_v r)) /\
  (~ good -> new_ineq xmax r lower upper T = Throws).
Proof.
intros Hr Hl Hu Nl Nu good. unfold new_ineq, new_base.
assert (E1 : (r_nr r <? 0) = false) by (apply Nat.ltb_ge; lia). rewrite E1.
assert (E2 : (2 * (r_nr r - 0) <? r_nr r) = false) by (apply Nat.ltb_ge; lia). rewrite E2.
cbn [m_ngi m_nhi m_type m_ng m_nh m_T].
pose proof (scan_ok lower upper (r_nr r) 0 ltac:(lia) ltac:(lia)) as S. pose proof (scan_defined lower upper (r_nr r) 0 ltac:(lia) ltac:(lia)) as U.
assert (W : wrong_inf xmax lower upper = false <->
  (List.Forall (fun a => a <> PInf) lower /\ List.Forall (fun a => a <> NInf) upper /\ any_eq (Fin xmax) lower = false)).
{ unfold wrong_inf. rewrite !orb_false_iff, (any_eq_inf lower PInf), (any_eq_inf upper NInf) by tauto. tauto. }
assert (G : good <-> scan lower upper 0 (r_nr r) = Ok tt /\ wrong_inf xmax lower upper = false).
{ rewrite S, W. unfold good, no_nan in *. rewrite Forall_forall in Nl, Nu. rewrite !Forall_forall. split.
  - intros (A & B). split; [|split; [|split; [|exact B]]].
    + intros k l u _ X Y. destruct (A k l u X Y) as (P & Q & R). apply bad_pair_spec; try assumption; [apply (Nl l)|apply (Nu u)]; eapply nth_error_In; eassumption.
    + intros a Ha. apply In_nth_error in Ha. destruct Ha as (k & X). destruct (nth_error upper k) as [u|] eqn:Y.
      * now destruct (A k a u X Y) as (_ & Q & _).
      * apply nth_error_None in Y. assert (k < length lower) by (apply nth_error_Some; congruence). lia.
    + intros a Ha. apply In_nth_error in Ha. destruct Ha as (k & Y). destruct (nth_error lower k) as [l|] eqn:X.
      * now destruct (A k l a X Y) as (_ & _ & Q).
      * apply nth_error_None in X. assert (k < length upper) by (apply nth_error_Some; congruence). lia.
  - intros (A & B & D & F). split; [|exact F]. intros k l u X Y. pose proof (nth_error_In _ _ X) as Xi. pose proof (nth_error_In _ _ Y) as Yi.
    split; [|split; [apply (B l Xi)|apply (D u Yi)]].
    apply bad_pair_spec; [apply (Nl l Xi)|apply (Nu u Yi)|apply (B l Xi)|apply (D u Yi)|].
    apply (A k l u); [|assumption|assumption]. assert (k < length lower) by (apply nth_error_Some; congruence). lia. }
split.
- intro H. apply G in H. destruct H as (A & B). rewrite A, B. eexists. split; [reflexivity|]. cbn [m_type m_lb m_ub m_ng m_nh m_T].
  unfold type_of. assert (E3 : (0 <? r_nr r) = true) by (apply Nat.ltb_lt; lia). rewrite E3. cbn [Nat.ltb Nat.leb andb].
  do 5 (split; [reflexivity|]). destruct T; reflexivity.
- intro H. destruct (scan lower upper 0 (r_nr r)) as [[]| |] eqn:E; [|reflexivity|congruence].
  destruct (wrong_inf xmax lower upper) eqn:B; [reflexivity|]. exfalso. apply H, G. now split.
Qed.

(** NaN bounds are accepted: no value meets them *)
Theorem C102_nan_refuted : exists r lower upper m, length lower = r_nr r /\ length upper = r_nr r /\
  new_ineq xmax r lower upper true = Ok m /\ forall a, exists l u, nth_error (m_lb m) 0 = Some l /\ nth_error (m_ub m) 0 = Some u /\ ~ meets l u a.
Proof.
exists (Resid 1 0 true true true), [NaN], [PInf]. eexists. do 2 (split; [reflexivity|]). split; [reflexivity|].
intro a. exists NaN, PInf. do 2 (split; [reflexivity|]). intros (H & _). discriminate.
Qed.
(** the sizes are not checked: too short bounds are read outside *)
Theorem C102_size_refuted : exists r lower upper, length lower < r_nr r /\ new_ineq xmax r lower upper true = Undefined.
Proof. exists (Resid 2 0 true true true), [Fin 0], [Fin 1]. split; [cbn; lia|reflexivity]. Qed.

(** ** Changing and removing the bounds *)
(** If the current bounds are in order, update_bounds accepts exactly the bounds of the right size with
    no upper minus lower at or below zero, and installs them. *)
Theorem C102_update_partial m lower upper : wrong_inf xmax (m_lb m) (m_ub m) = false ->
  (length lower = m_ngi m /\ length upper = m_ngi m /\
     (forall k l u, nth_error lower k = Some l -> nth_error upper k = Some u -> xle (xsub u l) (Fin 0) = false) ->
   exists m', update_bounds xmax lower upper m = Ok m' /\ m_lb m' = lower /\ m_ub m' = upper /\ m_ng m' = m_ngi m /\ m_nh m' = m_nhi m /\
     m_T m' = m_T m /\ m_res m' = m_res m /\ (m_nhi m = 0 -> m_type m' = Inequality)) /\
  (~ (length lower = m_ngi m /\ length upper = m_ngi m /\
     (forall k l u, nth_error lower k = Some l -> nth_error upper k = Some u -> xle (xsub u l) (Fin 0) = false)) ->
   update_bounds xmax lower upper m = Throws).
Proof.
intro W. unfold update_bounds. rewrite W.
assert (A : forall lo up : list xf, length lo = length up -> (any_le0 up lo = false <->
  forall k l u, nth_error lo k = Some l -> nth_error up k = Some u -> xle (xsub u l) (Fin 0) = false)).
{ induction lo as [|a lo IH]; intros [|b up] E; cbn in E; try lia; unfold any_le0; cbn [combine existsb fst snd].
  - split; [intros _ [|k] l u X; discriminate|reflexivity].
  - rewrite orb_false_iff. specialize (IH up ltac:(lia)). unfold any_le0 in IH. rewrite IH. split.
    + intros (P & Q) [|k] l u X Y; [cbn in X, Y; congruence|]. cbn in X, Y. now apply (Q k).
    + intro H. split; [apply (H 0); reflexivity|]. intros k l u X Y. apply (H (S k)); assumption. }
destruct (Nat.eqb_spec (length upper) (m_ngi m)) as [Eu|Nu]; destruct (Nat.eqb_spec (length lower) (m_ngi m)) as [El|Nl]; cbn [negb orb];
  try (split; [intros (X & Y & _); congruence|reflexivity]).
specialize (A lower upper ltac:(lia)). destruct (any_le0 upper lower) eqn:B.
- split; [|reflexivity]. intros (_ & _ & X). apply A in X. discriminate.
- split; [|intro X; exfalso; apply X; split; [exact El|split; [exact Eu|now apply A]]].
  intros _. eexists. split; [reflexivity|]. cbn [m_lb m_ub m_ng m_nh m_T m_type m_res]. do 6 (split; [reflexivity|]). intros ->. reflexivity.
Qed.
(** ... so bounds that the constructor refuses are accepted, and afterwards no update is accepted any more *)
Theorem C102_update_refuted : exists r lower upper m m', new_ineq xmax r lower upper true = Ok m /\
  update_bounds xmax [PInf] [PInf] m = Ok m' /\ new_ineq xmax r [PInf] [PInf] true = Throws /\
  forall l u, update_bounds xmax l u m' = Throws.
Proof.
exists (Resid 1 0 true true true), [NInf], [PInf]. eexists. eexists. split; [reflexivity|]. split; [reflexivity|]. split; [reflexivity|].
intros l u. unfold update_bounds. destruct (_ || _); [reflexivity|]. destruct (any_le0 u l); reflexivity.
Qed.
(** equal bounds: accepted by the constructor, refused by update_bounds *)
Theorem C102_equal_refuted : exists r b m, new_ineq xmax r b b true = Ok m /\ update_bounds xmax b b m = Throws.
Proof.
assert (X : exists q : Q, Qeq_bool q xmax = false).
{ destruct (Qeq_bool 0 xmax) eqn:E; [|now exists 0%Q]. exists 1%Q. apply not_true_iff_false. intro F.
  apply Qeq_bool_iff in E, F. rewrite <- E in F. discriminate F. }
destruct X as (q & X). exists (Resid 1 0 true true true), [Fin q]. eexists. split.
- unfold new_ineq. cbn [new_base r_nr Nat.ltb Nat.leb Nat.mul Nat.sub Nat.add]. cbn [scan nth_error is_fin andb].
  replace (xlt (Fin 0) (xsub (Fin q) (Fin q))) with false.
  + unfold wrong_inf, any_eq. cbn [existsb xeq]. rewrite X. cbn [orb]. reflexivity.
  + unfold xsub. cbn [xlt xadd xopp]. symmetry. rewrite Qlt_minus. apply negb_false_iff. apply Qle_bool_iff, Qle_refl.
- unfold update_bounds. cbn [length m_ngi Nat.eqb negb orb]. unfold any_le0. cbn [combine existsb fst snd].
  replace (xle (xsub (Fin q) (Fin q)) (Fin 0)) with true; [reflexivity|].
  unfold xsub. cbn [xadd xopp xle]. symmetry. apply Qle_bool_iff. rewrite Qred_correct, Qplus_opp_r. apply Qle_refl.
Qed.
Lemma any_map c c' (v : list xf) : xeq c' c = false -> any_eq c (map (fun _ => c') v) = false.
Proof. intro E. unfold any_eq. induction v as [|a v IH]; [reflexivity|]. cbn [map existsb]. now rewrite E, IH. Qed.

(** remove_bounds turns every row into an equality, and update_bounds turns it back *)
Theorem C102_remove m : let n := remove_bounds m in
  m_type n = Equality /\ m_ng n = 0 /\ m_nh n = m_nhi m + m_ngi m /\ m_T n = m_T m /\ m_res n = m_res m /\
  (forall lower upper, length lower = m_ngi m -> length upper = m_ngi m ->
     (forall k l u, nth_error lower k = Some l -> nth_error upper k = Some u -> xle (xsub u l) (Fin 0) = false) ->
     exists m', update_bounds xmax lower upper n = Ok m' /\ m_lb m' = lower /\ m_ub m' = upper /\ m_ng m' = m_ngi m /\ m_nh m' = m_nhi m /\
       (m_nhi m = 0 -> m_type m' = Inequality)).
Proof.
intro n. do 5 (split; [reflexivity|]). intros lower upper Hl Hu H.
destruct (C102_update_partial n lower upper) as (A & _).
- unfold wrong_inf, n. cbn [remove_bounds m_lb m_ub]. now rewrite !any_map.
- destruct (A (conj Hl (conj Hu H))) as (m' & E & F1 & F2 & F3 & F4 & _ & _ & F5). exists m'. now repeat (split; [assumption|]).
Qed.
(** update_bounds with empty bounds on an equality constraint is accepted; afterwards calc leaves the
    old value in the data *)
Theorem C102_both_refuted : exists r m m' d, new_eq r true = Ok m /\ update_bounds xmax [] [] m = Ok m' /\ create m = Ok d /\
  m_nh m' = r_nr r /\ forall v, ct (k_h (k_calc m' v d)) 0 = 0%R.
Proof.
exists (Resid 1 0 true true true). eexists. eexists. eexists. split; [reflexivity|]. split; [reflexivity|]. split; [reflexivity|].
split; [reflexivity|]. intro v. reflexivity.
Qed.
(** a constraint wrapped for finite differences loses its bounds *)
Theorem C102_numdiff_refuted : exists r lower upper m (a : Q), new_ineq xmax r lower upper true = Ok m /\
  nth_error (m_lb m) 0 = Some NInf /\ nth_error (m_ub m) 0 = Some (Fin 0) /\ ~ meets NInf (Fin 0) a /\
  let w := new_numdiff m in exists l u, m_ng w = m_ng m /\ nth_error (m_lb w) 0 = Some l /\ nth_error (m_ub w) 0 = Some u /\ meets l u a.
Proof.
exists (Resid 1 0 true true true), [NInf], [Fin 0]. eexists. exists 1%Q. split; [reflexivity|]. do 2 (split; [reflexivity|]).
split; [intros (_ & H); discriminate|]. exists NInf, PInf. now do 3 (split; [reflexivity|]).
Qed.
(** and is active at the terminal node, although the wrapped one is not *)
Theorem C102_numdiff_terminal_refuted : exists r lower upper m, new_ineq xmax r lower upper false = Ok m /\
  m_T m = false /\ m_T (new_numdiff m) = true.
Proof. exists (Resid 1 0 true true true), [NInf], [Fin 0]. eexists. split; [reflexivity|]. split; reflexivity. Qed.
End Bounds.

(** ** Values and Jacobians *)
Section Eval.
Variables (xmax : Q) (nv : nat).
Local Open Scope R_scope.
(** the columns of a Jacobian that belong to what the residual depends on *)
Definition masked (r : resid) (Rx : mat) : mat := fun i j => if Nat.ltb j nv then (if r_q r then Rx i j else 0) else (if r_v r then Rx i j else 0).
Definition masked_u (r : resid) (Ru : mat) : mat := fun i j => if r_u r || Nat.eqb (r_nu r) 0 then Ru i j else 0.
Definition unmasked_zero (r : resid) (A : mat) : Prop := forall i j, (if Nat.ltb j nv then r_q r else r_v r) = false -> A i j = 0.
Definition unmasked_u_zero (r : resid) (A : mat) : Prop := r_u r || Nat.eqb (r_nu r) 0 = false -> forall i j, A i j = 0.

Lemma put_x_ok r Rx A : sz A = r_nr r -> (r_q r && r_v r = false -> unmasked_zero r (ct A)) ->
  exists B, put_x nv r Rx A = Ok B /\ sz B = r_nr r /\ (r_q r && r_v r = false -> unmasked_zero r (ct B)) /\ forall i j, ct B i j = masked r Rx i j.
Proof.
intros S Z. unfold put_x, left_block, right_block, masked, unmasked_zero in *. rewrite S, Nat.eqb_refl.
destruct (r_q r) eqn:Q, (r_v r) eqn:V; cbn [andb] in *; (eexists; split; [reflexivity|]; cbn [sz ct]; split; [assumption || reflexivity|]).
- split; [discriminate|]. intros i j. now destruct (Nat.ltb j nv).
- split; [|reflexivity]. intros _ i j H. now destruct (Nat.ltb j nv).
- split; [|reflexivity]. intros _ i j H. now destruct (Nat.ltb j nv).
- split; [exact Z|]. intros i j. rewrite (Z eq_refl) by now destruct (Nat.ltb j nv). now destruct (Nat.ltb j nv).
Qed.

(** invariant: the matrices of the current type have the rows of the residual and zeros where it
    does not depend *)
Definition ready (ty : ctype) (r : resid) (s : cmodel * kdata) : Prop :=
  m_type (fst s) = ty /\ m_res (fst s) = r /\
  let '(Ax, Au) := match ty with Inequality => (k_Gx (snd s), k_Gu (snd s)) | _ => (k_Hx (snd s), k_Hu (snd s)) end in
  sz Ax = r_nr r /\ (r_q r && r_v r = false -> unmasked_zero r (ct Ax)) /\ sz Au = r_nr r /\ unmasked_u_zero r (ct Au).
Lemma put_u_ok r Ru A : sz A = r_nr r -> unmasked_u_zero r (ct A) ->
  sz (put_u r Ru A) = r_nr r /\ unmasked_u_zero r (ct (put_u r Ru A)) /\ forall i j, ct (put_u r Ru A) i j = masked_u r Ru i j.
Proof.
intros S Z. unfold put_u, masked_u, unmasked_u_zero in *. destruct (r_u r || Nat.eqb (r_nu r) 0); cbn [sz ct].
- split; [reflexivity|]. split; [discriminate|reflexivity].
- split; [exact S|]. split; [exact Z|]. intros i j. now apply Z.
Qed.
Lemma put_u_zero r Ru A : unmasked_u_zero r (ct A) -> unmasked_u_zero r (ct (put_u r Ru A)).
Proof. intro Z. unfold put_u, unmasked_u_zero in *. destruct (r_u r || Nat.eqb (r_nu r) 0); [discriminate|exact Z]. Qed.

Lemma ineq_step r s o : 0%nat = m_nhi (fst s) -> o <> ORemove -> ready Inequality r s ->
  exists s', cstep nv xmax s o = Ok s' /\ ready Inequality r s' /\ 0%nat = m_nhi (fst s').
Proof.
destruct s as [m d]. cbn [fst snd]. intros N O (T & Rs & A & B & C & D). cbn [fst snd] in *. destruct o as [v|Rx Ru|lo up|]; [| | |congruence]; cbn [cstep].
- eexists. split; [reflexivity|]. unfold k_calc. rewrite T. cbn [fst snd]. split; [|exact N]. now repeat split.
- unfold k_calcDiff. rewrite T, Rs. destruct (put_x_ok r Rx (k_Gx d) A B) as (X & -> & E1 & E2 & _).
  destruct (put_u_ok r Ru (k_Gu d) C D) as (E3 & E4 & _). eexists. split; [reflexivity|]. cbn [fst snd]. split; [|exact N]. now repeat split.
- unfold update_bounds. destruct (_ || _); [eexists; split; [reflexivity|]; split; [now repeat split|exact N]|].
  destruct (any_le0 up lo); [eexists; split; [reflexivity|]; split; [now repeat split|exact N]|].
  destruct (wrong_inf xmax (m_lb m) (m_ub m)); [eexists; split; [reflexivity|]; split; [now repeat split|exact N]|].
  eexists. split; [reflexivity|]. cbn [fst snd m_type m_res m_nhi]. rewrite <- N. split; [|reflexivity]. now repeat split.
Qed.
Lemma eq_step r s o : 0%nat = m_ngi (fst s) -> (forall l u, o = OUpdate l u -> l <> [] \/ u <> []) -> ready Equality r s ->
  exists s', cstep nv xmax s o = Ok s' /\ ready Equality r s' /\ 0%nat = m_ngi (fst s').
Proof.
destruct s as [m d]. cbn [fst snd]. intros N O (T & Rs & A & B & C & D). cbn [fst snd] in *. destruct o as [v|Rx Ru|lo up|]; cbn [cstep].
- eexists. split; [reflexivity|]. unfold k_calc. rewrite T. cbn [fst snd]. split; [|exact N]. now repeat split.
- unfold k_calcDiff. rewrite T, Rs. destruct (put_x_ok r Rx (k_Hx d) A B) as (X & -> & E1 & E2 & _).
  destruct (put_u_ok r Ru (k_Hu d) C D) as (E3 & E4 & _). eexists. split; [reflexivity|]. cbn [fst snd]. split; [|exact N]. now repeat split.
- unfold update_bounds. rewrite <- N. destruct (O lo up eq_refl) as [L|L]; (destruct lo; destruct up; try congruence; cbn [length Nat.eqb negb orb];
    (eexists; split; [reflexivity|]; split; [now repeat split|exact N])).
- eexists. split; [reflexivity|]. cbn [fst snd remove_bounds m_type m_res m_ngi]. split; [|exact N]. now repeat split.
Qed.
Lemma run_app s l1 l2 : crun nv xmax s (l1 ++ l2) = match crun nv xmax s l1 with Ok s => crun nv xmax s l2 | e => e end.
Proof. revert s. induction l1 as [|o l1 IH]; intro s; [reflexivity|]. cbn [app crun]. destruct (cstep nv xmax s o); [apply IH|reflexivity|reflexivity]. Qed.

(** Whatever was called before (values, Jacobians, accepted or refused changes of the bounds), the values
    and Jacobians of an inequality constraint are those of its residual. *)
Theorem C102_inequality r lower upper T m d l v Rx Ru : (0 < r_nr r)%nat -> new_ineq xmax r lower upper T = Ok m -> create m = Ok d ->
  (forall o, In o l -> o <> ORemove) ->
  exists m' d', crun nv xmax (m, d) (l ++ [OCalc v; ODiff Rx Ru]) = Ok (m', d') /\
  sz (k_g d') = m_ng m' /\ m_ng m' = r_nr r /\ m_nh m' = 0%nat /\ ct (k_g d') = v /\
  sz (k_Gx d') = r_nr r /\ (forall i j, ct (k_Gx d') i j = masked r Rx i j) /\
  sz (k_Gu d') = r_nr r /\ (forall i j, ct (k_Gu d') i j = masked_u r Ru i j) /\ k_h d' = zv 0.
Proof.
intros Hr Hm Hd Hl.
assert (M : m_ngi m = r_nr r /\ m_nhi m = 0%nat /\ m_res m = r /\ m_type m = Inequality /\ m_ng m = r_nr r /\ m_nh m = 0%nat).
{ unfold new_ineq, new_base in Hm. destruct (_ <? 0)%nat; [discriminate|]. destruct (2 * _ <? _)%nat; [discriminate|].
  destruct (scan _ _ _ _); [|discriminate|discriminate]. destruct (wrong_inf _ _ _); [discriminate|].
  assert (Hm' := f_equal (fun o => match o with Ok m => m | _ => m end) Hm). cbv beta iota in Hm'. rewrite <- Hm'.
  cbn [m_ngi m_nhi m_res m_type m_ng m_nh]. do 3 (split; [reflexivity|]). split; [|now split]. unfold type_of.
  apply Nat.ltb_lt in Hr. rewrite Hr. reflexivity. }
destruct M as (M1 & M2 & M3 & M4 & M5 & M6).
assert (H0 : ready Inequality r (m, d) /\ k_h d = zv 0).
{ unfold create in Hd. rewrite M5, M6 in Hd. destruct (Nat.eqb_spec (r_nr r) 0) as [Z|_]; [lia|]. cbn [andb] in Hd.
  assert (Hd' := f_equal (fun o => match o with Ok d => d | _ => d end) Hd). cbv beta iota in Hd'. rewrite <- Hd'.
  split; [|reflexivity]. split; [exact M4|]. split; [exact M3|]. cbn [fst snd k_Gx k_Gu]. unfold zm. cbn [sz ct]. split; [reflexivity|].
  split; [intros _ i j _; reflexivity|]. split; [reflexivity|]. intros _ i j. reflexivity. }
destruct H0 as (R0 & Z0).
assert (I : forall l s, (forall o, In o l -> o <> ORemove) -> 0%nat = m_nhi (fst s) -> m_ngi (fst s) = r_nr r -> m_ng (fst s) = r_nr r -> m_nh (fst s) = 0%nat ->
   ready Inequality r s -> k_h (snd s) = zv 0 ->
   exists s', crun nv xmax s l = Ok s' /\ ready Inequality r s' /\ m_ng (fst s') = r_nr r /\ m_nh (fst s') = 0%nat /\ k_h (snd s') = zv 0).
{ clear. induction l as [|o l IH]; intros s O N G G1 G2 Rd Z.
  - exists s. exact (conj eq_refl (conj Rd (conj G1 (conj G2 Z)))).
  - cbn [crun]. destruct (ineq_step r s o N (O o (or_introl eq_refl)) Rd) as (s1 & E & R1 & N1). rewrite E.
    assert (P : m_ngi (fst s1) = r_nr r /\ m_ng (fst s1) = r_nr r /\ m_nh (fst s1) = 0%nat /\ k_h (snd s1) = zv 0).
    { destruct s as [m d]. cbn [fst snd] in *. destruct Rd as (T & Rs & _). cbn [fst] in T, Rs. destruct o as [v|Rx Ru|lo up|]; cbn [cstep] in E.
      - assert (E' : s1 = (m, k_calc m v d)) by congruence. rewrite E'. unfold k_calc. rewrite T. cbn [fst snd k_h]. tauto.
      - unfold k_calcDiff in E. rewrite T in E. destruct (put_x nv _ Rx _) as [X| |]; [|discriminate|discriminate].
        match type of E with Ok ?a = _ => assert (E' : s1 = a) by congruence end. rewrite E'. cbn [fst snd k_h]. tauto.
      - unfold update_bounds in E. destruct (_ || _); [assert (E' : s1 = (m, d)) by congruence; rewrite E'; cbn [fst snd]; tauto|].
        destruct (any_le0 _ _); [assert (E' : s1 = (m, d)) by congruence; rewrite E'; cbn [fst snd]; tauto|].
        destruct (wrong_inf _ _ _); [assert (E' : s1 = (m, d)) by congruence; rewrite E'; cbn [fst snd]; tauto|].
        match type of E with Ok ?a = _ => assert (E' : s1 = a) by congruence end. rewrite E'. cbn [fst snd m_ngi m_ng m_nh]. rewrite <- N. tauto.
      - exfalso. apply (O ORemove); [now left|reflexivity]. }
    apply IH; try tauto. intros o' Ho. apply O. now right. }
destruct (I l (m, d) Hl) as (s' & E & R1 & G1 & G2 & Z1); cbn [fst snd]; try assumption; try congruence.
clear I. destruct s' as [m1 d1]. cbn [fst snd] in *. rewrite run_app, E. clear E. destruct R1 as (T1 & Rs1 & A1 & B1 & C1 & D1). cbn [fst snd] in *.
cbn [crun cstep]. unfold k_calc. rewrite T1. unfold k_calcDiff. rewrite T1, Rs1. cbn [k_g k_h k_Gx k_Gu k_Hx k_Hu].
destruct (put_x_ok r Rx (k_Gx d1) A1 B1) as (X & -> & E1 & E2 & E3). destruct (put_u_ok r Ru (k_Gu d1) C1 D1) as (F1 & F2 & F3).
eexists m1, _. split; [reflexivity|]. cbn [k_g k_h k_Gx k_Gu sz ct]. rewrite G1. now repeat (split; [assumption || reflexivity|]).
Qed.
(** The same for an equality constraint; removing its (absent) bounds changes nothing. *)
Theorem C102_equality r T m d l v Rx Ru : (0 < r_nr r)%nat -> new_eq r T = Ok m -> create m = Ok d ->
  (forall lo up, In (OUpdate lo up) l -> lo <> [] \/ up <> []) ->
  exists m' d', crun nv xmax (m, d) (l ++ [OCalc v; ODiff Rx Ru]) = Ok (m', d') /\
  sz (k_h d') = r_nr r /\ ct (k_h d') = v /\
  sz (k_Hx d') = r_nr r /\ (forall i j, ct (k_Hx d') i j = masked r Rx i j) /\
  sz (k_Hu d') = r_nr r /\ (forall i j, ct (k_Hu d') i j = masked_u r Ru i j).
Proof.
intros Hr Hm Hd Hl.
assert (M : m_ngi m = 0%nat /\ m_res m = r /\ m_type m = Equality /\ m_ng m = 0%nat /\ m_nh m = r_nr r).
{ unfold new_eq, new_base in Hm. destruct (_ <? _)%nat; [discriminate|]. destruct (2 * _ <? _)%nat; [discriminate|].
  assert (Hm' := f_equal (fun o => match o with Ok m => m | _ => m end) Hm). cbv beta iota in Hm'. rewrite <- Hm'.
  cbn [m_ngi m_nhi m_res m_type m_ng m_nh]. now repeat split. }
destruct M as (M1 & M3 & M4 & M5 & M6).
assert (R0 : ready Equality r (m, d)).
{ unfold create in Hd. rewrite M5, M6 in Hd. cbn [Nat.eqb andb] in Hd. destruct (Nat.eqb_spec (r_nr r) 0) as [Z|_]; [lia|].
  assert (Hd' := f_equal (fun o => match o with Ok d => d | _ => d end) Hd). cbv beta iota in Hd'. rewrite <- Hd'.
  split; [exact M4|]. split; [exact M3|]. cbn [fst snd k_Hx k_Hu]. unfold zm. cbn [sz ct]. split; [reflexivity|].
  split; [intros _ i j _; reflexivity|]. split; [reflexivity|]. intros _ i j. reflexivity. }
assert (I : forall l s, (forall lo up, In (OUpdate lo up) l -> lo <> [] \/ up <> []) -> 0%nat = m_ngi (fst s) -> ready Equality r s ->
   exists s', crun nv xmax s l = Ok s' /\ ready Equality r s').
{ clear. induction l as [|o l IH]; intros s O N Rd.
  - exists s. now split.
  - cbn [crun]. destruct (eq_step r s o N) as (s1 & E & R1 & N1); [intros lo up ->; apply O; now left|exact Rd|]. rewrite E.
    apply IH; [|exact N1|exact R1]. intros lo up Ho. apply O. now right. }
destruct (I l (m, d) Hl) as (s' & E & R1); [cbn [fst]; now rewrite M1|exact R0|].
clear I. destruct s' as [m1 d1]. cbn [fst snd] in *. rewrite run_app, E. clear E. destruct R1 as (T1 & Rs1 & A1 & B1 & C1 & D1). cbn [fst snd] in *.
cbn [crun cstep]. unfold k_calc. rewrite T1. unfold k_calcDiff. rewrite T1, Rs1. cbn [k_g k_h k_Gx k_Gu k_Hx k_Hu].
destruct (put_x_ok r Rx (k_Hx d1) A1 B1) as (X & -> & E1 & E2 & E3). destruct (put_u_ok r Ru (k_Hu d1) C1 D1) as (F1 & F2 & F3).
eexists m1, _. split; [reflexivity|]. cbn [k_g k_h k_Hx k_Hu sz ct]. now repeat (split; [assumption || reflexivity|]).
Qed.

(** Jacobians masked in this way are exact: if the derivative of the residual along a curve is given by the
    parts of Rx and Ru that it says it depends on, it is Gx (dq, dv) + Gu du. *)
Theorem C102_exact r nu (Rx Ru Gx Gu : mat) (res : R -> R) i s dq dv du :
  (forall j k, Gx j k = masked r Rx j k) -> (forall j k, Gu j k = masked_u r Ru j k) ->
  (Nat.eqb (r_nu r) 0 = true -> nu = 0%nat) ->
  is_derive res s ((if r_q r then rsum nv (fun j => Rx i j * dq j) else 0) + (if r_v r then rsum nv (fun j => Rx i (nv + j)%nat * dv j) else 0) +
                   (if r_u r then rsum nu (fun j => Ru i j * du j) else 0)) ->
  is_derive res s (rsum nv (fun j => Gx i j * dq j) + rsum nv (fun j => Gx i (nv + j)%nat * dv j) + rsum nu (fun j => Gu i j * du j)).
Proof.
intros E1 E2 E0 D. eapply deq; [exact D|]. f_equal; [f_equal|].
- assert (L : forall j, (j < nv)%nat -> Gx i j = if r_q r then Rx i j else 0) by (intros j Hj; rewrite E1; unfold masked; apply Nat.ltb_lt in Hj; now rewrite Hj).
  destruct (r_q r).
  + apply rsum_ext. intros j Hj. now rewrite L.
  + symmetry. apply (rsum_0 nv). intros j Hj. rewrite L by exact Hj. ring.
- assert (L : forall j, Gx i (nv + j)%nat = if r_v r then Rx i (nv + j)%nat else 0).
  { intro j. rewrite E1. unfold masked. now replace (Nat.ltb (nv + j) nv) with false by (symmetry; apply Nat.ltb_ge; lia). }
  destruct (r_v r).
  + apply rsum_ext. intros j Hj. now rewrite L.
  + symmetry. apply (rsum_0 nv). intros j Hj. rewrite L. ring.
- destruct (r_u r) eqn:U; [apply rsum_ext; intros j Hj; rewrite E2; unfold masked_u; rewrite U; reflexivity|].
  symmetry. destruct (Nat.eqb (r_nu r) 0) eqn:N; [rewrite (E0 eq_refl); reflexivity|].
  apply (rsum_0 nu). intros j Hj. rewrite E2. unfold masked_u. rewrite U, N. cbn [orb]. ring.
Qed.

(** remove_bounds after the data was created: the Jacobian of a residual that depends on the
    configuration only is written outside of the matrix *)
Theorem C102_retype_refuted : exists r m d, new_ineq xmax r [NInf] [PInf] true = Ok m /\ create m = Ok d /\
  forall v Rx Ru, crun nv xmax (m, d) [ORemove; OCalc v; ODiff Rx Ru] = Undefined.
Proof. exists (Resid 1 0 true false false). eexists. eexists. split; [reflexivity|]. split; [reflexivity|]. reflexivity. Qed.
End Eval.

(** ** Cases that meet the hypotheses *)
Example C102_ex_create : exists m, new_ineq (1000 # 1) (Resid 2 1 true false true) [Fin (-1); NInf] [Fin 2; Fin 0] true = Ok m /\ create m <> Throws.
Proof. eexists. split; [reflexivity|]. discriminate. Qed.
Example C102_ex_run (v : vec) (Rx Ru : mat) : exists m d m' d',
  new_ineq (1000 # 1) (Resid 2 1 true false true) [Fin (-1); NInf] [Fin 2; Fin 0] true = Ok m /\ create m = Ok d /\
  crun 3 (1000 # 1) (m, d) ([ODiff Ru Rx; OUpdate [Fin 0; Fin 0] [Fin 1; PInf]; OUpdate [Fin 2; Fin 0] [Fin 1; PInf]] ++ [OCalc v; ODiff Rx Ru]) = Ok (m', d') /\
  m_lb m' = [Fin 0; Fin 0] /\ ct (k_Gx d') 0 4 = 0%R.
Proof. do 4 eexists. split; [reflexivity|]. split; [reflexivity|]. split; [reflexivity|]. now split. Qed.

Print Assumptions C102_create_partial.
Print Assumptions C102_nan_refuted.
Print Assumptions C102_size_refuted.
Print Assumptions C102_update_partial.
Print Assumptions C102_update_refuted.
Print Assumptions C102_equal_refuted.
Print Assumptions C102_remove.
Print Assumptions C102_both_refuted.
Print Assumptions C102_numdiff_refuted.
Print Assumptions C102_inequality.
Print Assumptions C102_equality.
Print Assumptions C102_exact.
Print Assumptions C102_retype_refuted.
