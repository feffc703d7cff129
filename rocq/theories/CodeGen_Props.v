(** C108: the code-generated action model computes what the wrapped model computes.
    C109: its automatic derivatives are the derivatives of calc.
    C110: code-generated models, their copies and the library files. *)
From Coq Require Import String List Bool Arith Lia.
From Verif Require Import CodeGen_Model.
Import ListNotations.
Local Open Scope string_scope.
Local Open Scope list_scope.
Local Open Scope nat_scope.

(** ** Buffers *)
Section Buf.
Context {V : Type} (zero : V).
Implicit Types (buf v pre post rest : list V).

Lemma getv_mid pre v post : getv (pre ++ v ++ post) (length pre) (length v) = Val v.
Proof.
  unfold getv. rewrite !app_length. destruct (Nat.leb_spec (length pre + length v) (length pre + (length v + length post))); [|lia].
  rewrite skipn_app, skipn_all2, Nat.sub_diag, skipn_O by lia. cbn [app].
  rewrite firstn_app, Nat.sub_diag, firstn_O, app_nil_r, firstn_all. reflexivity.
Qed.
Lemma getv_at pre v post o n : o = length pre -> n = length v -> getv (pre ++ v ++ post) o n = Val v.
Proof. intros -> ->. apply getv_mid. Qed.

Lemma put_at pre rest (p : piece) o : o = length pre -> p_fits p = true -> length (p_src p) = p_len p ->
  p_len p <= length rest -> put (pre ++ rest) o p = Val (pre ++ p_src p ++ skipn (p_len p) rest).
Proof.
  intros -> Hf Hl Hr. unfold put. rewrite Hf, app_length. cbn [andb].
  destruct (Nat.leb_spec (length pre + p_len p) (length pre + length rest)); [|lia].
  rewrite firstn_app, Nat.sub_diag, firstn_O, app_nil_r, firstn_all.
  rewrite skipn_app, (skipn_all2 pre) by lia. cbn [app]. replace (length pre + p_len p - length pre) with (p_len p) by lia. reflexivity.
Qed.

Lemma skipn_skipn (l : list V) : forall b a, skipn a (skipn b l) = skipn (a + b) l.
Proof.
  induction l as [|x l IH]; intros b a; [rewrite !skipn_nil; reflexivity|].
  destruct b as [|b]; [rewrite Nat.add_0_r; reflexivity|]. rewrite Nat.add_succ_r. cbn [skipn]. apply IH.
Qed.
Fixpoint total (ps : list (@piece V)) : nat := match ps with [] => 0 | p :: ps => p_len p + total ps end.
(** every source fits and each step leads right behind it *)
Fixpoint tight (ps : list (@piece V)) : Prop :=
  match ps with
  | [] => True
  | p :: ps => p_fits p = true /\ length (p_src p) = p_len p /\ (p_inc p = p_len p \/ ps = []) /\ tight ps
  end.
Lemma fill_tight ps : forall pre rest, tight ps -> total ps <= length rest ->
  fill (pre ++ rest) (length pre) ps = Val (pre ++ concat (map p_src ps) ++ skipn (total ps) rest).
Proof.
  induction ps as [|p ps IH]; intros pre rest Ht Hl; cbn [fill total map concat tight] in *.
  - rewrite skipn_O. reflexivity.
  - destruct Ht as (Hf & Hs & Hi & Ht). rewrite put_at by (auto; lia). cbn [bind].
    destruct Hi as [Hi| ->].
    + rewrite app_assoc. replace (length pre + p_inc p) with (length (pre ++ p_src p)) by (rewrite app_length; lia).
      rewrite IH; [|auto|rewrite skipn_length; lia].
      rewrite skipn_skipn, !app_assoc. replace (total ps + p_len p) with (p_len p + total ps) by lia. reflexivity.
    + cbn [fill total map concat]. rewrite app_nil_r, Nat.add_0_r. reflexivity.
Qed.
Lemma fill_exact n ps : tight ps -> total ps = n -> fill (zeros zero n) 0 ps = Val (concat (map p_src ps)).
Proof.
  intros Ht <-. rewrite <- (app_nil_l (zeros zero (total ps))), <- (@app_nil_l V []).
  pose proof (fill_tight ps [] (zeros zero (total ps)) Ht) as F. cbn [length app] in F.
  unfold zeros in *. rewrite repeat_length in F. cbn [app]. rewrite F by lia.
  rewrite skipn_all2 by (rewrite repeat_length; lia). rewrite app_nil_r. reflexivity.
Qed.
(** a piece that does not fit stops the recording *)
Lemma fill_misfit ps pc : In pc ps -> p_fits pc = false -> forall buf o, fill buf o ps = Undef.
Proof.
  induction ps as [|q ps IH]; intros Hi Hf buf o; [destruct Hi|]. cbn [fill]. destruct Hi as [->|Hi].
  - unfold put. rewrite Hf. reflexivity.
  - unfold put. destruct (_ && _); [|reflexivity]. cbn [bind]. apply IH; assumption.
Qed.
End Buf.

Section C108.
Context {V : Type} (zero one : V).
Variables (jac jac_T : nat -> nat -> list V -> V) (hes hes_T : list V -> nat -> nat -> list V -> V).
Notation action := (@action V).
Implicit Types (m : action) (x u p : list V).

(** ** Specification *)
Definition is_mat (M : @mat V) (r c : nat) : Prop := rows M = r /\ cols M = c /\ length (ent M) = r * c.
(** the functions of the wrapped model give results of the sizes the model declares *)
Record wf (m : action) (np : nat) : Prop := {
  wf_calc : forall p x u, length p = np -> length x = a_nx m -> length u = a_nu m ->
    let o := a_calc m p x u in length (o_xnext o) = a_nx m /\ length (o_g o) = a_ng m /\ length (o_h o) = a_nh m;
  wf_calc_T : forall p x, length p = np -> length x = a_nx m ->
    let o := a_calc_T m p x in length (o_g o) = a_ng_T m /\ length (o_h o) = a_nh_T m;
  wf_diff : forall p x u, length p = np -> length x = a_nx m -> length u = a_nu m ->
    let o := a_diff m p x u in let ndx := a_ndx m in let nu := a_nu m in let ng := a_ng m in let nh := a_nh m in
    is_mat (o_Fx o) ndx ndx /\ is_mat (o_Fu o) ndx nu /\ length (o_Lx o) = ndx /\ length (o_Lu o) = nu /\
    is_mat (o_Lxx o) ndx ndx /\ is_mat (o_Lxu o) ndx nu /\ is_mat (o_Luu o) nu nu /\
    is_mat (o_Gx o) ng ndx /\ is_mat (o_Gu o) ng nu /\ is_mat (o_Hx o) nh ndx /\ is_mat (o_Hu o) nh nu;
  wf_diff_T : forall p x, length p = np -> length x = a_nx m ->
    let o := a_diff_T m p x in let ndx := a_ndx m in
    length (o_Lx o) = ndx /\ is_mat (o_Lxx o) ndx ndx /\ is_mat (o_Gx o) (a_ng_T m) ndx /\ is_mat (o_Hx o) (a_nh_T m) ndx;
  wf_qs : forall p x, length p = np -> length x = a_nx m -> length (a_qs m p x) = a_nu m }.
Definition unconstrained (m : action) : Prop := a_ng m = 0 /\ a_nh m = 0 /\ a_ng_T m = 0 /\ a_nh_T m = 0.

(** the parameters in force after a history of calls: the last ones of the right number, zeros
    before any *)
Definition last_p (np : nat) (os : list (@op V)) : list V :=
  fold_left (fun q o => match o with UpdateP p => if length p =? np then p else q | _ => q end) os (repeat zero np).
(** the states and controls of a call have the model's sizes *)
Definition sized (m : action) (o : @op V) : Prop :=
  match o with
  | UpdateP _ => True
  | Calc x u | CalcDiff x u => length x = a_nx m /\ length u = a_nu m
  | CalcT x | CalcDiffT x | QuasiStatic x => length x = a_nx m
  end.

(** the parts of the data that calc fills, and those that calcDiff fills *)
Definition calc_part (d : @data V) := (d_cost d, d_xnext d, d_g d, d_h d).
Definition diff_part (d : @data V) :=
  ((d_Fx d, d_Fu d, d_Lx d, d_Lu d), (d_Lxx d, d_Lxu d, d_Luu d), (d_Gx d, d_Gu d, d_Hx d, d_Hu d)).
Definition calc_of (o : @cout V) := (o_cost o, o_xnext o, o_g o, o_h o).
Definition diff_of (o : @dout V) :=
  ((o_Fx o, o_Fu o, o_Lx o, o_Lu o), (o_Lxx o, o_Lxu o, o_Luu o), (o_Gx o, o_Gu o, o_Hx o, o_Hu o)).

(** ** Layout *)
Lemma mat_eq (M : @mat V) r c : is_mat M r c -> Mat r c (ent M) = M.
Proof. destruct M as [a b e]. unfold is_mat. cbn. intros (-> & -> & _). reflexivity. Qed.
Lemma vpiece_fits n v : length v = n -> p_fits (@vpiece V n v) = true.
Proof. intro H. apply Nat.eqb_eq. exact H. Qed.
Lemma mpiece_fits r c i (M : @mat V) : is_mat M r c -> p_fits (mpiece r c i M) = true.
Proof. intros (A & B & C). unfold mpiece. cbn [p_fits]. rewrite A, B, C, !Nat.eqb_refl. reflexivity. Qed.
Lemma tight_v n v ps : length v = n -> tight ps -> tight (@vpiece V n v :: ps).
Proof. intros H T. cbn [tight]. rewrite (vpiece_fits _ _ H). cbn. auto. Qed.
Lemma tight_m r c i (M : @mat V) ps : is_mat M r c -> (i = r * c \/ ps = []) -> tight ps -> tight (mpiece r c i M :: ps).
Proof. intros H I T. cbn [tight]. rewrite (mpiece_fits _ _ _ _ H). cbn. destruct H as (_ & _ & H). auto. Qed.

Lemma tape_calc_val m o : length (o_xnext o) = a_nx m -> length (o_g o) = a_ng m -> length (o_h o) = a_nh m ->
  tape_calc zero m o = Val (o_cost o :: o_xnext o ++ o_g o ++ o_h o).
Proof.
  intros Hx Hg Hh. unfold tape_calc. rewrite fill_exact.
  - cbn. rewrite app_nil_r. reflexivity.
  - repeat (apply tight_v; [auto|]). exact I.
  - cbn. unfold nY1. lia.
Qed.
Lemma tape_diff_val m o :
  let ndx := a_ndx m in let nu := a_nu m in let ng := a_ng m in let nh := a_nh m in
  is_mat (o_Fx o) ndx ndx -> is_mat (o_Fu o) ndx nu -> length (o_Lx o) = ndx -> length (o_Lu o) = nu ->
  is_mat (o_Lxx o) ndx ndx -> is_mat (o_Lxu o) ndx nu -> is_mat (o_Luu o) nu nu ->
  is_mat (o_Gx o) ng ndx -> is_mat (o_Gu o) ng nu -> is_mat (o_Hx o) nh ndx -> is_mat (o_Hu o) nh nu ->
  tape_diff zero m o = Val (ent (o_Fx o) ++ ent (o_Fu o) ++ o_Lx o ++ o_Lu o ++ ent (o_Lxx o) ++ ent (o_Lxu o) ++
    ent (o_Luu o) ++ ent (o_Gx o) ++ ent (o_Gu o) ++ ent (o_Hx o) ++ ent (o_Hu o)).
Proof.
  cbv zeta. intros. unfold tape_diff. rewrite fill_exact.
  - cbn. rewrite app_nil_r. reflexivity.
  - repeat first [apply tight_v; [assumption|] | apply tight_m; [assumption|auto|]]. exact I.
  - cbn. unfold nY2. nia.
Qed.
Lemma set_Y1_val m d o : length (o_xnext o) = a_nx m -> length (o_g o) = a_ng m -> length (o_h o) = a_nh m ->
  set_Y1 zero m d (o_cost o :: o_xnext o ++ o_g o ++ o_h o) = Val (set_out d (o_cost o) (o_xnext o) (o_g o) (o_h o)).
Proof.
  intros Hx Hg Hh. unfold set_Y1.
  rewrite (getv_at [] [o_cost o] (o_xnext o ++ o_g o ++ o_h o)) by reflexivity. cbn [bind].
  rewrite (getv_at [o_cost o] (o_xnext o) (o_g o ++ o_h o)) by (auto). cbn [bind].
  rewrite app_comm_cons, (getv_at (o_cost o :: o_xnext o) (o_g o) (o_h o)) by (cbn; lia). cbn [bind].
  rewrite app_assoc, <- (app_nil_r (o_h o)) at 1.
  rewrite (getv_at ((o_cost o :: o_xnext o) ++ o_g o) (o_h o) []) by (rewrite ?app_length; cbn; lia). reflexivity.
Qed.
Lemma getm_at pre (M : @mat V) post o r c : o = length pre -> is_mat M r c -> getm (pre ++ ent M ++ post) o r c = Val M.
Proof.
  intros Ho H. unfold getm. rewrite (getv_at pre (ent M) post) by (auto; symmetry; apply H). cbn [bind].
  rewrite (mat_eq M r c H). reflexivity.
Qed.
Lemma getm_0 (M : @mat V) post r c : is_mat M r c -> getm (ent M ++ post) 0 r c = Val M.
Proof. exact (getm_at [] M post 0 r c eq_refl). Qed.
Ltac len := rewrite ?app_length; cbn [length]; unfold is_mat in *; lia.
Lemma set_Y2_val m d o :
  let ndx := a_ndx m in let nu := a_nu m in let ng := a_ng m in let nh := a_nh m in
  is_mat (o_Fx o) ndx ndx -> is_mat (o_Fu o) ndx nu -> length (o_Lx o) = ndx -> length (o_Lu o) = nu ->
  is_mat (o_Lxx o) ndx ndx -> is_mat (o_Lxu o) ndx nu -> is_mat (o_Luu o) nu nu ->
  is_mat (o_Gx o) ng ndx -> is_mat (o_Gu o) ng nu -> is_mat (o_Hx o) nh ndx -> is_mat (o_Hu o) nh nu ->
  set_Y2 m d (ent (o_Fx o) ++ ent (o_Fu o) ++ o_Lx o ++ o_Lu o ++ ent (o_Lxx o) ++ ent (o_Lxu o) ++
    ent (o_Luu o) ++ ent (o_Gx o) ++ ent (o_Gu o) ++ ent (o_Hx o) ++ ent (o_Hu o)) =
  Val (set_dout d (o_Fx o) (o_Fu o) (o_Lx o) (o_Lu o) (o_Lxx o) (o_Lxu o) (o_Luu o) (o_Gx o) (o_Gu o) (o_Hx o) (o_Hu o)).
Proof.
  cbv zeta. intros. unfold set_Y2.
  rewrite (getm_0 (o_Fx o)) by assumption. cbn [bind].
  rewrite (getm_at (ent (o_Fx o)) (o_Fu o)) by (auto; len). cbn [bind].
  rewrite app_assoc, (getv_at (ent (o_Fx o) ++ ent (o_Fu o)) (o_Lx o)) by len. cbn [bind].
  rewrite app_assoc, (getv_at ((ent (o_Fx o) ++ ent (o_Fu o)) ++ o_Lx o) (o_Lu o)) by len. cbn [bind].
  rewrite app_assoc, (getm_at _ (o_Lxx o)) by (auto; len). cbn [bind].
  rewrite app_assoc, (getm_at _ (o_Lxu o)) by (auto; len). cbn [bind].
  rewrite app_assoc, (getm_at _ (o_Luu o)) by (auto; len). cbn [bind].
  rewrite app_assoc, (getm_at _ (o_Gx o)) by (auto; len). cbn [bind].
  rewrite app_assoc, (getm_at _ (o_Gu o)) by (auto; len). cbn [bind].
  rewrite app_assoc, (getm_at _ (o_Hx o)) by (auto; len). cbn [bind].
  rewrite app_assoc, <- (app_nil_r (ent (o_Hu o))), (getm_at _ (o_Hu o)) by (auto; len). reflexivity.
Qed.

(** What a running node records is what the data read back, for any numbers of constraints. *)
Theorem C108_layout m np p x u d : wf m np -> length p = np -> length x = a_nx m -> length u = a_nu m ->
  (exists Y, tape_calc zero m (a_calc m p x u) = Val Y /\ length Y = nY1 m /\
     exists d', set_Y1 zero m d Y = Val d' /\ calc_part d' = calc_of (a_calc m p x u) /\ diff_part d' = diff_part d) /\
  (exists Y, tape_diff zero m (a_diff m p x u) = Val Y /\ length Y = nY2 m /\
     exists d', set_Y2 m d Y = Val d' /\ diff_part d' = diff_of (a_diff m p x u) /\ calc_part d' = calc_part d).
Proof.
  intros W Hp Hx Hu. split.
  - destruct (wf_calc _ _ W p x u Hp Hx Hu) as (A & B & C). eexists. split; [apply tape_calc_val; assumption|].
    split; [unfold nY1; cbn [length]; rewrite !app_length; lia|].
    eexists. split; [apply set_Y1_val; assumption|]. split; reflexivity.
  - destruct (wf_diff _ _ W p x u Hp Hx Hu) as (A1 & A2 & A3 & A4 & A5 & A6 & A7 & A8 & A9 & A10 & A11).
    eexists. split; [apply tape_diff_val; assumption|].
    split; [unfold is_mat in *; unfold nY2; rewrite !app_length; nia|].
    eexists. split; [apply set_Y2_val; assumption|]. split; reflexivity.
Qed.

(** ** Recording *)
Lemma split3 (a b c : list V) : head (length a) (a ++ b ++ c) = a /\ segment (length a) (length b) (a ++ b ++ c) = b /\
  tail (length c) (a ++ b ++ c) = c.
Proof.
  unfold head, segment, tail. split; [|split].
  - rewrite firstn_app, Nat.sub_diag, firstn_O, app_nil_r, firstn_all. reflexivity.
  - rewrite skipn_app, skipn_all2, Nat.sub_diag, skipn_O by lia. cbn [app].
    rewrite firstn_app, Nat.sub_diag, firstn_O, app_nil_r, firstn_all. reflexivity.
  - rewrite app_assoc, app_length, Nat.add_sub, skipn_app, skipn_all2, Nat.sub_diag, skipn_O by lia. reflexivity.
Qed.
Lemma rec_calc_val m np p x u : wf m np -> length p = np -> length x = a_nx m -> length u = a_nu m ->
  let o := a_calc m p x u in rec_calc zero m np (x ++ u ++ p) = Val (o_cost o :: o_xnext o ++ o_g o ++ o_h o).
Proof.
  intros W Hp Hx Hu. cbv zeta. unfold rec_calc. rewrite <- Hx at 1 2. rewrite <- Hu at 1. rewrite <- Hp at 1.
  destruct (split3 x u p) as (-> & -> & ->). apply tape_calc_val; apply (wf_calc _ _ W p x u Hp Hx Hu).
Qed.
Lemma rec_diff_val m np p x u : wf m np -> length p = np -> length x = a_nx m -> length u = a_nu m ->
  rec_diff zero m np (x ++ u ++ p) = tape_diff zero m (a_diff m p x u).
Proof.
  intros W Hp Hx Hu. unfold rec_diff. rewrite <- Hx at 1 2. rewrite <- Hu at 1. rewrite <- Hp at 1.
  destruct (split3 x u p) as (-> & -> & ->). reflexivity.
Qed.
Lemma split2 (a c : list V) : head (length a) (a ++ c) = a /\ tail (length c) (a ++ c) = c.
Proof. destruct (split3 a [] c) as (A & _ & C). exact (conj A C). Qed.
Lemma tape_calc_T_val o : length (o_g o) = 0 -> length (o_h o) = 0 -> tape_calc_T zero o = Val [o_cost o].
Proof. intros Hg Hh. destruct o as [c xn r [|? ?] [|? ?]]; try discriminate. reflexivity. Qed.
Lemma tape_diff_T_val m o : a_ng m = 0 -> a_nh m = 0 -> length (o_Lx o) = a_ndx m -> is_mat (o_Lxx o) (a_ndx m) (a_ndx m) ->
  is_mat (o_Gx o) 0 (a_ndx m) -> is_mat (o_Hx o) 0 (a_ndx m) -> tape_diff_T zero m o = Val (o_Lx o ++ ent (o_Lxx o)).
Proof.
  intros Hg Hh H1 H2 H3 H4. unfold tape_diff_T. rewrite Hg, Hh, fill_exact.
  - cbn [map concat p_src vpiece mpiece]. destruct H3 as (_ & _ & H3). destruct H4 as (_ & _ & H4).
    apply length_zero_iff_nil in H3. apply length_zero_iff_nil in H4. rewrite H3, H4. cbn [app]. rewrite app_nil_r. reflexivity.
  - apply tight_v; [auto|]. apply tight_m; [auto|auto|]. apply tight_m; [auto|left; reflexivity|].
    apply tight_m; [auto|auto|exact I].
  - cbn. unfold nY2_T, base_ng_T, base_nh_T. lia.
Qed.
Lemma zeros_len n : length (@zeros V zero n) = n.
Proof. apply repeat_length. Qed.
Lemma zeros3 a b c : @zeros V zero (a + b + c) = zeros zero a ++ zeros zero b ++ zeros zero c.
Proof. unfold zeros. rewrite !repeat_app, app_assoc. reflexivity. Qed.
Lemma zeros2 a c : @zeros V zero (a + c) = zeros zero a ++ zeros zero c.
Proof. apply repeat_app. Qed.

Definition lib_of m np : library := Library
  (fun X => match rec_calc zero m np X with Val Y => Y | _ => [] end)
  (fun X => match rec_calc_T zero m np X with Val Y => Y | _ => [] end)
  (fun X => match rec_diff zero m np X with Val Y => Y | _ => [] end)
  (fun X => match rec_diff_T zero m np X with Val Y => Y | _ => [] end)
  (fun X => match rec_qs zero m np X with Val Y => Y | _ => [] end).

Lemma rec_calc_T_eq m np p x : length p = np -> length x = a_nx m ->
  rec_calc_T zero m np (x ++ p) = tape_calc_T zero (a_calc_T m p x).
Proof. intros <- Hx. unfold rec_calc_T. rewrite <- Hx at 1. destruct (split2 x p) as (-> & ->). reflexivity. Qed.
Lemma rec_diff_T_eq m np p x : length p = np -> length x = a_nx m ->
  rec_diff_T zero m np (x ++ p) = tape_diff_T zero m (a_diff_T m p x).
Proof. intros <- Hx. unfold rec_diff_T. rewrite <- Hx at 1. destruct (split2 x p) as (-> & ->). reflexivity. Qed.

Lemma rec_qs_val m np x : wf m np -> length x = a_nx m -> rec_qs zero m np x = Val (a_qs m (zeros zero np) x).
Proof.
  intros W Hx. unfold rec_qs, head. rewrite <- Hx, firstn_all. rewrite fill_exact.
  - cbn. rewrite app_nil_r. reflexivity.
  - apply tight_v; [|exact I]. apply (wf_qs _ _ W); auto using zeros_len.
  - cbn. lia.
Qed.
Lemma rec_calc_T_val m np p x : wf m np -> unconstrained m -> length p = np -> length x = a_nx m ->
  rec_calc_T zero m np (x ++ p) = Val [o_cost (a_calc_T m p x)].
Proof.
  intros W (U1 & U2 & U3 & U4) Hp Hx. rewrite rec_calc_T_eq by auto.
  destruct (wf_calc_T _ _ W p x Hp Hx) as (A & B). apply tape_calc_T_val; congruence.
Qed.
Lemma rec_diff_T_val m np p x : wf m np -> unconstrained m -> length p = np -> length x = a_nx m ->
  rec_diff_T zero m np (x ++ p) = Val (o_Lx (a_diff_T m p x) ++ ent (o_Lxx (a_diff_T m p x))).
Proof.
  intros W (U1 & U2 & U3 & U4) Hp Hx. rewrite rec_diff_T_eq by auto.
  destruct (wf_diff_T _ _ W p x Hp Hx) as (A & B & C & D). rewrite U3 in C. rewrite U4 in D. apply tape_diff_T_val; auto.
Qed.

Lemma generate_val m ad np : wf m np -> unconstrained m ->
  generate zero one m ad np = Val (Cgen m ad np (lib_of m np) (unit_weight zero one (nY1 m)) (unit_weight zero one nY1_T)).
Proof.
  intros W U. unfold generate, init_lib, record. rewrite zeros3, zeros2.
  rewrite rec_calc_val by auto using zeros_len. cbn [bind].
  rewrite rec_calc_T_val by auto using zeros_len. cbn [bind].
  rewrite rec_diff_val by auto using zeros_len.
  destruct (wf_diff _ _ W (zeros zero np) (zeros zero (a_nx m)) (zeros zero (a_nu m)) (zeros_len _) (zeros_len _) (zeros_len _))
    as (A1 & A2 & A3 & A4 & A5 & A6 & A7 & A8 & A9 & A10 & A11).
  rewrite tape_diff_val by assumption. cbn [bind].
  rewrite rec_diff_T_val by auto using zeros_len. cbn [bind].
  rewrite rec_qs_val by auto using zeros_len. reflexivity.
Qed.

(** ** Histories *)
(** the input buffers hold some state and control, and the parameters *)
Definition holds m np p (d : @data V) : Prop :=
  (exists x u, length x = a_nx m /\ length u = a_nu m /\ d_X d = x ++ u ++ p) /\
  (exists x, length x = a_nx m /\ d_X_T d = x ++ p) /\ length p = np.

Lemma put_head a rest n v : length a = n -> length v = n -> put (a ++ rest) 0 (@vpiece V n v) = Val (v ++ rest).
Proof.
  intros Ha Hv. rewrite (put_at [] (a ++ rest)); [|reflexivity|apply vpiece_fits; exact Hv|exact Hv|cbn; rewrite app_length; lia].
  cbn [app p_src p_len vpiece]. rewrite skipn_app, skipn_all2 by lia. replace (n - length a) with 0 by lia. reflexivity.
Qed.
Lemma put_tail pre b v n : length b = n -> length v = n ->
  put (pre ++ b) (length (pre ++ b) - n) (@vpiece V n v) = Val (pre ++ v).
Proof.
  intros Hb Hv. rewrite put_at; [|rewrite app_length; lia|apply vpiece_fits; exact Hv|exact Hv|cbn; lia].
  cbn [p_src p_len vpiece]. rewrite skipn_all2 by lia. rewrite app_nil_r. reflexivity.
Qed.
Lemma put_mid a b rest n v : length b = n -> length v = n -> put (a ++ b ++ rest) (length a) (@vpiece V n v) = Val (a ++ v ++ rest).
Proof.
  intros Hb Hv. rewrite put_at; [|reflexivity|apply vpiece_fits; exact Hv|exact Hv|cbn; rewrite app_length; lia].
  cbn [p_src p_len vpiece]. rewrite skipn_app, skipn_all2 by lia. replace (n - length b) with 0 by lia. reflexivity.
Qed.
Lemma input_val c p d x u : holds (c_model c) (c_np c) p d -> length x = a_nx (c_model c) -> length u = a_nu (c_model c) ->
  input c d x u = Val (set_X d (x ++ u ++ p)).
Proof.
  intros ((x0 & u0 & Hx0 & Hu0 & E) & _ & Hp) Hx Hu. unfold input. rewrite E, put_head by congruence. cbn [bind].
  rewrite <- Hx at 1. rewrite put_mid by congruence. reflexivity.
Qed.
Lemma input_T_val c p d x : holds (c_model c) (c_np c) p d -> length x = a_nx (c_model c) ->
  input_T c d x = Val (set_X_T d (x ++ p)).
Proof. intros (_ & (x0 & Hx0 & E) & Hp) Hx. unfold input_T. rewrite E, put_head by congruence. reflexivity. Qed.
Lemma update_val c p d q : holds (c_model c) (c_np c) p d -> length q = c_np c ->
  exists d', update_p c d q = Val d' /\ holds (c_model c) (c_np c) q d' /\ calc_part d' = calc_part d /\ diff_part d' = diff_part d /\
    d_r d' = d_r d.
Proof.
  intros ((x0 & u0 & Hx0 & Hu0 & E) & (x1 & Hx1 & E1) & Hp) Hq. unfold update_p.
  rewrite (proj2 (Nat.eqb_eq _ _) Hq). cbn [negb]. rewrite E, E1, app_assoc, !put_tail by congruence. cbn [bind].
  eexists. split; [reflexivity|]. split; [|auto]. split; [|split; [|exact Hq]].
  - exists x0, u0. rewrite app_assoc. auto.
  - exists x1. auto.
Qed.

(** what one call gives, from data that hold the parameters *)
Lemma calc_val m ad np p d x u w wT : wf m np -> holds m np p d -> length x = a_nx m -> length u = a_nu m ->
  exists d', calc zero (Cgen m ad np (lib_of m np) w wT) d x u = Val d' /\ holds m np p d' /\
    calc_part d' = calc_of (a_calc m p x u) /\ diff_part d' = diff_part d /\ d_r d' = d_r d.
Proof.
  intros W H Hx Hu. unfold calc. rewrite (input_val (Cgen m ad np (lib_of m np) w wT) p) by assumption.
  pose proof (proj2 (proj2 H)) as Hp. cbn [bind c_model c_lib lib_of l_calc d_X set_X].
  rewrite rec_calc_val by assumption. destruct (wf_calc _ _ W p x u Hp Hx Hu) as (A & B & C).
  rewrite set_Y1_val by assumption. eexists. split; [reflexivity|]. split; [|auto].
  split; [|split; [|exact Hp]]; cbn; [eauto|exact (proj1 (proj2 H))].
Qed.
Lemma calc_T_val m ad np p d x w wT : wf m np -> unconstrained m -> holds m np p d -> length x = a_nx m ->
  exists d', calc_T zero (Cgen m ad np (lib_of m np) w wT) d x = Val d' /\ holds m np p d' /\
    calc_part d' = (o_cost (a_calc_T m p x), x, [], []) /\ diff_part d' = diff_part d /\ d_r d' = d_r d.
Proof.
  intros W U H Hx. unfold calc_T. rewrite (input_T_val (Cgen m ad np (lib_of m np) w wT) p) by assumption.
  pose proof (proj2 (proj2 H)) as Hp. cbn [bind c_model c_lib lib_of l_calc_T d_X_T set_X_T].
  rewrite rec_calc_T_val by assumption. destruct U as (U1 & U2 & U3 & U4).
  unfold set_Y1_T. rewrite U3, U4. cbn. eexists. split; [reflexivity|]. split; [|auto].
  split; [exact (proj1 H)|split; [|exact Hp]]; cbn. eauto.
Qed.
Lemma diff_val m np p d x u w wT : wf m np -> holds m np p d -> length x = a_nx m -> length u = a_nu m ->
  exists d', calcDiff zero jac hes (Cgen m false np (lib_of m np) w wT) d x u = Val d' /\ holds m np p d' /\
    diff_part d' = diff_of (a_diff m p x u) /\ calc_part d' = calc_part d /\ d_r d' = d_r d.
Proof.
  intros W H Hx Hu. unfold calcDiff. rewrite (input_val (Cgen m false np (lib_of m np) w wT) p) by assumption.
  pose proof (proj2 (proj2 H)) as Hp. cbn [bind c_model c_lib c_autodiff lib_of l_diff d_X set_X].
  rewrite rec_diff_val by assumption.
  destruct (wf_diff _ _ W p x u Hp Hx Hu) as (A1 & A2 & A3 & A4 & A5 & A6 & A7 & A8 & A9 & A10 & A11).
  rewrite tape_diff_val, set_Y2_val by assumption. eexists. split; [reflexivity|]. split; [|auto].
  split; [|split; [|exact Hp]]; cbn; [eauto|exact (proj1 (proj2 H))].
Qed.
Lemma diff_T_val m np p d x w wT : wf m np -> unconstrained m -> holds m np p d -> length x = a_nx m ->
  exists d', calcDiff_T zero jac_T hes_T (Cgen m false np (lib_of m np) w wT) d x = Val d' /\ holds m np p d' /\
    diff_part d' = ((d_Fx d, d_Fu d, o_Lx (a_diff_T m p x), d_Lu d), (o_Lxx (a_diff_T m p x), d_Lxu d, d_Luu d),
                    (o_Gx (a_diff_T m p x), d_Gu d, o_Hx (a_diff_T m p x), d_Hu d)) /\
    calc_part d' = calc_part d /\ d_r d' = d_r d.
Proof.
  intros W U H Hx. unfold calcDiff_T. rewrite (input_T_val (Cgen m false np (lib_of m np) w wT) p) by assumption.
  pose proof (proj2 (proj2 H)) as Hp. cbn [bind c_model c_lib c_autodiff lib_of l_diff_T d_X_T set_X_T].
  rewrite rec_diff_T_val by assumption. destruct (wf_diff_T _ _ W p x Hp Hx) as (A & B & C & D).
  destruct U as (U1 & U2 & U3 & U4). unfold set_Y2_T. rewrite U3, U4 in *.
  set (o := a_diff_T m p x) in *.
  rewrite (getv_at [] (o_Lx o) (ent (o_Lxx o))) by auto. cbn [bind].
  assert (GL : getm (o_Lx o ++ ent (o_Lxx o)) (a_ndx m) (a_ndx m) (a_ndx m) = Val (o_Lxx o)).
  { rewrite <- (app_nil_r (ent (o_Lxx o))). apply getm_at; auto. }
  rewrite GL. cbn [bind].
  assert (GG : getm (o_Lx o ++ ent (o_Lxx o)) (a_ndx m + a_ndx m * a_ndx m) 0 (a_ndx m) = Val (o_Gx o)).
  { rewrite <- (app_nil_r (o_Lx o ++ ent (o_Lxx o))).
    assert (E0 : ent (o_Gx o) = []) by (apply length_zero_iff_nil; exact (proj2 (proj2 C))).
    pose proof (getm_at (o_Lx o ++ ent (o_Lxx o)) (o_Gx o) [] (a_ndx m + a_ndx m * a_ndx m) 0 (a_ndx m)) as G.
    rewrite E0 in G. cbn [app] in G. apply G; [|exact C]. rewrite app_length, A, (proj2 (proj2 B)). reflexivity. }
  assert (GH : getm (o_Lx o ++ ent (o_Lxx o)) (a_ndx m + a_ndx m * a_ndx m + 0 * a_ndx m) 0 (a_ndx m) = Val (o_Hx o)).
  { rewrite <- (app_nil_r (o_Lx o ++ ent (o_Lxx o))).
    assert (E0 : ent (o_Hx o) = []) by (apply length_zero_iff_nil; exact (proj2 (proj2 D))).
    pose proof (getm_at (o_Lx o ++ ent (o_Lxx o)) (o_Hx o) [] (a_ndx m + a_ndx m * a_ndx m + 0 * a_ndx m) 0 (a_ndx m)) as G.
    rewrite E0 in G. cbn [app] in G. apply G; [|exact D]. rewrite app_length, A, (proj2 (proj2 B)). cbn. lia. }
  rewrite GG. cbn [bind]. rewrite GH. cbn [bind].
  eexists. split; [reflexivity|]. split; [|auto].
  split; [exact (proj1 H)|split; [|exact Hp]]; cbn. eauto.
Qed.
Lemma qs_val m ad np x w wT : wf m np -> length x = a_nx m ->
  quasiStatic (Cgen m ad np (lib_of m np) w wT) x = Val (a_qs m (zeros zero np) x).
Proof.
  intros W Hx. unfold quasiStatic. cbn [c_model c_lib lib_of l_qs]. rewrite (proj2 (Nat.eqb_eq _ _) Hx), rec_qs_val by auto.
  pose proof (getv_at [] (a_qs m (zeros zero np) x) [] 0 (a_nu m) eq_refl) as G. rewrite app_nil_r in G. apply G.
  symmetry. apply (wf_qs _ _ W); auto using zeros_len.
Qed.

Lemma holds_init m ad np l w wT : holds m np (zeros zero np) (create_data zero (Cgen m ad np l w wT)).
Proof.
  split; [|split; [|apply zeros_len]].
  - exists (zeros zero (a_nx m)), (zeros zero (a_nu m)). rewrite !zeros_len. split; [|split]; auto. apply zeros3.
  - exists (zeros zero (a_nx m)). rewrite zeros_len. split; auto. apply zeros2.
Qed.
Lemma run_holds m np w wT os : wf m np -> unconstrained m -> Forall (sized m) os -> forall p d, holds m np p d ->
  exists d', run zero jac jac_T hes hes_T (Cgen m false np (lib_of m np) w wT) d os = Val d' /\ d_r d' = d_r d /\
    holds m np (fold_left (fun q o => match o with UpdateP p => if length p =? np then p else q | _ => q end) os p) d'.
Proof.
  intros W U F. induction F as [|o os S F IH]; intros p d H; cbn [run fold_left]; [eauto|].
  assert (K : exists d', run_op zero jac jac_T hes hes_T (Cgen m false np (lib_of m np) w wT) d o = Val d' /\ d_r d' = d_r d /\
    holds m np (match o with UpdateP q => if length q =? np then q else p | _ => p end) d').
  { destruct o as [q|x u|x|x u|x|x]; cbn [sized] in S; cbn [run_op].
    - destruct (Nat.eqb_spec (length q) np) as [e|n].
      + destruct (update_val (Cgen m false np (lib_of m np) w wT) p d q H e) as (d' & -> & H' & _ & _ & R). eauto.
      + unfold update_p. cbn [c_np]. rewrite (proj2 (Nat.eqb_neq _ _) n). cbn [negb]. eauto.
    - destruct (calc_val m false np p d x u w wT W H (proj1 S) (proj2 S)) as (d' & -> & H' & _ & _ & R). eauto.
    - destruct (calc_T_val m false np p d x w wT W U H S) as (d' & -> & H' & _ & _ & R). eauto.
    - destruct (diff_val m np p d x u w wT W H (proj1 S) (proj2 S)) as (d' & -> & H' & _ & _ & R). eauto.
    - destruct (diff_T_val m np p d x w wT W U H S) as (d' & -> & H' & _ & _ & R). eauto.
    - rewrite qs_val by auto. cbn [bind]. eauto. }
  destruct K as (d1 & -> & R1 & H1). cbn [bind]. destruct (IH _ _ H1) as (d2 & E & R2 & H2). exists d2. rewrite E, R2. auto.
Qed.

(** C108 (models without constraints, whose derivatives are generated; quasiStatic without
    parameters).  Whatever calls were made on the data before, each call gives what the wrapped
    model gives for the parameters last set, and changes nothing else. *)
Theorem C108_agrees_partial m np os : wf m np -> unconstrained m -> Forall (sized m) os ->
  exists c d, generate zero one m false np = Val c /\
  run zero jac jac_T hes hes_T c (create_data zero c) os = Val d /\
  let p := last_p np os in
  (forall x u, length x = a_nx m -> length u = a_nu m ->
     exists d', calc zero c d x u = Val d' /\ calc_part d' = calc_of (a_calc m p x u) /\ diff_part d' = diff_part d) /\
  (forall x, length x = a_nx m ->
     exists d', calc_T zero c d x = Val d' /\ d_cost d' = o_cost (a_calc_T m p x) /\ d_xnext d' = x /\
       d_g d' = o_g (a_calc_T m p x) /\ d_h d' = o_h (a_calc_T m p x) /\ diff_part d' = diff_part d) /\
  (forall x u, length x = a_nx m -> length u = a_nu m ->
     exists d', calcDiff zero jac hes c d x u = Val d' /\ diff_part d' = diff_of (a_diff m p x u) /\ calc_part d' = calc_part d) /\
  (forall x, length x = a_nx m ->
     exists d', calcDiff_T zero jac_T hes_T c d x = Val d' /\ d_Lx d' = o_Lx (a_diff_T m p x) /\ d_Lxx d' = o_Lxx (a_diff_T m p x) /\
       d_Gx d' = o_Gx (a_diff_T m p x) /\ d_Hx d' = o_Hx (a_diff_T m p x) /\ calc_part d' = calc_part d /\
       d_Fx d' = d_Fx d /\ d_Fu d' = d_Fu d /\ d_Lu d' = d_Lu d /\ d_Lxu d' = d_Lxu d /\ d_Luu d' = d_Luu d /\
       d_Gu d' = d_Gu d /\ d_Hu d' = d_Hu d) /\
  (forall x, length x = a_nx m -> np = 0 -> quasiStatic c x = Val (a_qs m p x)).
Proof.
  intros W U F. eexists. rewrite generate_val by assumption.
  set (w := unit_weight _ _ _). set (wT := unit_weight _ _ _).
  destruct (run_holds m np w wT os W U F (zeros zero np) _ (holds_init m false np (lib_of m np) w wT)) as (d & E & _ & H).
  exists d. split; [reflexivity|]. split; [exact E|]. cbv zeta.
  change (holds m np (last_p np os) d) in H. set (p := last_p np os) in *.
  split; [|split; [|split; [|split]]].
  - intros x u Hx Hu. destruct (calc_val m false np p d x u w wT W H Hx Hu) as (d' & A & _ & B & C & _). eauto.
  - intros x Hx. destruct (calc_T_val m false np p d x w wT W U H Hx) as (d' & A & _ & B & C & _).
    exists d'. unfold calc_part in B. destruct U as (U1 & U2 & U3 & U4).
    destruct (wf_calc_T _ _ W p x (proj2 (proj2 H)) Hx) as (G & K). rewrite U3 in G. rewrite U4 in K.
    apply length_zero_iff_nil in G. apply length_zero_iff_nil in K. rewrite G, K. injection B as -> -> -> ->. auto 10.
  - intros x u Hx Hu. destruct (diff_val m np p d x u w wT W H Hx Hu) as (d' & A & _ & B & C & _). eauto.
  - intros x Hx. destruct (diff_T_val m np p d x w wT W U H Hx) as (d' & A & _ & B & C & _).
    exists d'. unfold diff_part in B. injection B as -> -> -> -> -> -> -> -> -> -> ->. auto 20.
  - intros x Hx N. rewrite qs_val by assumption. f_equal. f_equal.
    pose proof (proj2 (proj2 H)) as L. rewrite N in *. symmetry. apply length_zero_iff_nil. exact L.
Qed.

(** Calls that reject their argument: parameters of another number throw and change nothing. *)
Theorem C108_parameters_checked (c : @cgen V) d q : length q <> c_np c -> update_p c d q = Exn.
Proof. intro n. unfold update_p. rewrite (proj2 (Nat.eqb_neq _ _) n). reflexivity. Qed.

(** Data just created has room for the larger of the running and the terminal constraints, and is zero. *)
Definition all_zero (l : list V) : Prop := forall v, In v l -> v = zero.
Theorem C108_fresh (c : @cgen V) : let m := c_model c in let d := create_data zero c in
  let ndx := a_ndx m in let nu := a_nu m in let ng := Nat.max (a_ng m) (a_ng_T m) in let nh := Nat.max (a_nh m) (a_nh_T m) in
  length (d_xnext d) = a_nx m /\ length (d_r d) = a_nr m /\ length (d_g d) = ng /\ length (d_h d) = nh /\
  length (d_Lx d) = ndx /\ length (d_Lu d) = nu /\
  is_mat (d_Fx d) ndx ndx /\ is_mat (d_Fu d) ndx nu /\ is_mat (d_Lxx d) ndx ndx /\ is_mat (d_Lxu d) ndx nu /\ is_mat (d_Luu d) nu nu /\
  is_mat (d_Gx d) ng ndx /\ is_mat (d_Gu d) ng nu /\ is_mat (d_Hx d) nh ndx /\ is_mat (d_Hu d) nh nu /\
  d_cost d = zero /\
  all_zero (d_xnext d ++ d_r d ++ d_g d ++ d_h d ++ d_Lx d ++ d_Lu d ++ ent (d_Fx d) ++ ent (d_Fu d) ++ ent (d_Lxx d) ++
    ent (d_Lxu d) ++ ent (d_Luu d) ++ ent (d_Gx d) ++ ent (d_Gu d) ++ ent (d_Hx d) ++ ent (d_Hu d)).
Proof.
  assert (M : forall a b : nat, (if b <? a then a else b) = Nat.max a b).
  { intros a b. destruct (Nat.ltb_spec b a); lia. }
  assert (Zm : forall r k, is_mat (zmat zero r k) r k) by (intros r k; repeat split; cbn; apply zeros_len).
  cbv zeta. unfold create_data. cbv zeta. rewrite !M. cbn [d_xnext d_r d_g d_h d_Lx d_Lu d_Fx d_Fu d_Lxx d_Lxu d_Luu d_Gx d_Gu d_Hx d_Hu d_cost].
  rewrite !zeros_len. repeat (split; [reflexivity|]). repeat (split; [apply Zm|]). split; [reflexivity|].
  intros v H. cbn [ent zmat] in H. rewrite !in_app_iff in H. unfold zeros in H.
  repeat (destruct H as [H|H]; [exact (repeat_spec _ _ _ H)|]). exact (repeat_spec _ _ _ H).
Qed.

(** ** Constraints *)
(** Whatever model with constraints of either kind is wrapped, running or terminal, generating its
    code is undefined behaviour. *)
Theorem C108_constraints m ad np : wf m np -> ~ unconstrained m -> generate zero one m ad np = Undef.
Proof.
  intros W N. unfold generate, init_lib, record. rewrite zeros3, zeros2.
  rewrite rec_calc_val by auto using zeros_len. cbn [bind].
  rewrite rec_calc_T_eq by auto using zeros_len.
  destruct (wf_calc_T _ _ W (zeros zero np) (zeros zero (a_nx m)) (zeros_len _) (zeros_len _)) as (G & K).
  set (o := a_calc_T m _ _) in *.
  assert (T : a_ng_T m <> 0 \/ a_nh_T m <> 0 -> tape_calc_T zero o = Undef).
  { intro T. unfold tape_calc_T. unfold nY1_T, base_ng_T, base_nh_T. cbn.
    destruct (o_g o) as [|a g] eqn:Eg; [|reflexivity]. destruct (o_h o) as [|b h] eqn:Eh; [|reflexivity].
    cbn [length] in G, K. lia. }
  destruct (Nat.eq_dec (a_ng_T m) 0) as [Z1|Z1]; [|rewrite T by auto; reflexivity].
  destruct (Nat.eq_dec (a_nh_T m) 0) as [Z2|Z2]; [|rewrite T by auto; reflexivity].
  rewrite tape_calc_T_val by congruence. cbn [bind].
  rewrite rec_diff_val by auto using zeros_len.
  destruct (wf_diff _ _ W (zeros zero np) (zeros zero (a_nx m)) (zeros zero (a_nu m)) (zeros_len _) (zeros_len _) (zeros_len _))
    as (A1 & A2 & A3 & A4 & A5 & A6 & A7 & A8 & A9 & A10 & A11).
  rewrite tape_diff_val by assumption. cbn [bind].
  rewrite rec_diff_T_eq by auto using zeros_len.
  destruct (wf_diff_T _ _ W (zeros zero np) (zeros zero (a_nx m)) (zeros_len _) (zeros_len _)) as (B1 & B2 & B3 & B4).
  set (q := a_diff_T m _ _) in *. rewrite Z1 in B3. rewrite Z2 in B4.
  enough (tape_diff_T zero m q = Undef) as -> by reflexivity.
  unfold tape_diff_T. destruct (Nat.eq_dec (a_ng m) 0) as [Y1|Y1].
  - apply (fill_misfit _ (mpiece (a_nh m) (a_ndx m) 0 (o_Hx q))); [right; right; right; left; reflexivity|].
    cbn [p_fits mpiece]. rewrite (proj1 B4). destruct (Nat.eqb_spec 0 (a_nh m)) as [e|e]; [|reflexivity].
    exfalso. apply N. unfold unconstrained. auto.
  - apply (fill_misfit _ (mpiece (a_ng m) (a_ndx m) (base_ng_T * a_ndx m) (o_Gx q))); [right; right; left; reflexivity|].
    cbn [p_fits mpiece]. rewrite (proj1 B3). destruct (Nat.eqb_spec 0 (a_ng m)) as [e|e]; [lia|reflexivity].
Qed.
End C108.

(** ** Automatic derivatives *)
Section C109.
Context {V : Type} (zero one : V).
Variables (jac jac_T : nat -> nat -> list V -> V) (hes hes_T : list V -> nat -> nat -> list V -> V).
Notation action := (@action V).
Implicit Types (m : action) (x u p : list V).

Lemma by_rows_len r c (f : nat -> nat -> V) : length (by_rows r c f) = r * c.
Proof.
  unfold by_rows. rewrite <- (seq_length r 0) at 2. induction (seq 0 r) as [|i l IH]; [reflexivity|].
  cbn [flat_map length]. rewrite app_length, map_length, seq_length, IH. lia.
Qed.
Lemma nth_rows c (f : nat -> nat -> V) j : forall r s i, i < r -> j < c ->
  nth (i * c + j) (flat_map (fun i => map (fun j => f i j) (seq 0 c)) (seq s r)) zero = f (s + i) j.
Proof.
  induction r as [|r IH]; intros s i Hi Hj; [lia|]. cbn [seq flat_map].
  destruct i as [|i].
  - rewrite app_nth1 by (rewrite map_length, seq_length; lia). cbn [Nat.mul Nat.add].
    rewrite (nth_indep _ zero (f s 0)) by (rewrite map_length, seq_length; lia).
    rewrite (map_nth (fun j => f s j) (seq 0 c) 0 j), seq_nth, Nat.add_0_r by lia. reflexivity.
  - rewrite app_nth2 by (rewrite map_length, seq_length; nia). rewrite map_length, seq_length.
    replace (S i * c + j - c) with (i * c + j) by nia. rewrite IH by lia. f_equal. lia.
Qed.
Lemma nth_by_rows r c (f : nat -> nat -> V) i j : i < r -> j < c -> nth (i * c + j) (by_rows r c f) zero = f i j.
Proof. intros. unfold by_rows. rewrite nth_rows by assumption. reflexivity. Qed.
Lemma sub_nth (l : list V) : forall o n, o + n <= length l -> firstn n (skipn o l) = map (fun k => nth (o + k) l zero) (seq 0 n).
Proof.
  intros o n. revert o. induction n as [|n IH]; intros o H; [reflexivity|].
  rewrite <- cons_seq. cbn [map]. rewrite Nat.add_0_r, <- seq_shift, map_map.
  destruct (skipn o l) as [|a r] eqn:E.
  - pose proof (skipn_length o l) as L. rewrite E in L. cbn in L. lia.
  - cbn [firstn]. f_equal.
    + rewrite <- (firstn_skipn o l), E. rewrite app_nth2; rewrite firstn_length_le by lia; [|lia]. rewrite Nat.sub_diag. reflexivity.
    + replace r with (skipn (S o) l).
      * rewrite IH by lia. apply map_ext. intro k. f_equal. lia.
      * change (S o) with (1 + o). rewrite <- skipn_skipn, E. reflexivity.
Qed.
Lemma mk_ext r c (f g : nat -> nat -> V) : (forall i j, i < r -> j < c -> f i j = g i j) -> mk r c f = mk r c g.
Proof.
  intro H. unfold mk. f_equal. rewrite !flat_map_concat_map. f_equal. apply map_ext_in. intros j Hj. apply in_seq in Hj.
  apply map_ext_in. intros i Hi. apply in_seq in Hi. apply H; lia.
Qed.
Lemma getv_row ny n (f : nat -> nat -> V) i o k : i < ny -> o + k <= n ->
  getv (by_rows ny n f) (i * n + o) k = Val (map (fun j => f i (o + j)) (seq 0 k)).
Proof.
  intros Hi Hk. unfold getv. rewrite by_rows_len. destruct (Nat.leb_spec (i * n + o + k) (ny * n)); [|nia].
  f_equal. rewrite sub_nth by (rewrite by_rows_len; nia). apply map_ext_in. intros j Hj. apply in_seq in Hj.
  rewrite <- Nat.add_assoc. apply nth_by_rows; lia.
Qed.
Lemma getT_rows ny n (f : nat -> nat -> V) i0 k top h : i0 + k <= ny -> top + h <= n ->
  getT zero (by_rows ny n f) (i0 * n) n k top h = Val (mk k h (fun i j => f (i0 + i) (top + j))).
Proof.
  intros Hi Hk. unfold getT. rewrite by_rows_len.
  destruct (Nat.leb_spec (i0 * n + n * k) (ny * n)); [|nia]. destruct (Nat.leb_spec (top + h) n); [|lia]. cbn [andb].
  f_equal. apply mk_ext. intros i j Hi' Hj. rewrite <- Nat.mul_add_distr_r. apply nth_by_rows; lia.
Qed.
Lemma getB_rows n (f : nat -> nat -> V) r0 c0 h w : r0 + h <= n -> c0 + w <= n ->
  getB zero (by_rows n n f) n r0 c0 h w = Val (mk h w (fun i j => f (c0 + j) (r0 + i))).
Proof.
  intros Hr Hc. unfold getB. rewrite by_rows_len. rewrite Nat.leb_refl.
  destruct (Nat.leb_spec (r0 + h) n); [|lia]. destruct (Nat.leb_spec (c0 + w) n); [|lia]. cbn [andb].
  f_equal. apply mk_ext. intros i j Hi Hj. apply nth_by_rows; lia.
Qed.

(** What the derivatives of a running node should be: [J i j] the derivative of entry i of calc's
    output (cost, next state, inequalities, equalities) in entry j of (x, u), [H] the second
    derivatives of the cost. *)
Definition diff_spec (m : action) (J H : nat -> nat -> V) (d : @data V) : Prop :=
  let ndx := a_ndx m in let nu := a_nu m in let ng := a_ng m in let nh := a_nh m in
  d_Lx d = map (fun j => J 0 j) (seq 0 ndx) /\ d_Lu d = map (fun j => J 0 (ndx + j)) (seq 0 nu) /\
  d_Fx d = mk ndx ndx (fun i j => J (1 + i) j) /\ d_Fu d = mk ndx nu (fun i j => J (1 + i) (ndx + j)) /\
  d_Gx d = mk ng ndx (fun i j => J (1 + ndx + i) j) /\ d_Gu d = mk ng nu (fun i j => J (1 + ndx + i) (ndx + j)) /\
  d_Hx d = mk nh ndx (fun i j => J (1 + ndx + ng + i) j) /\ d_Hu d = mk nh nu (fun i j => J (1 + ndx + ng + i) (ndx + j)) /\
  d_Lxx d = mk ndx ndx (fun i j => H i j) /\ d_Lxu d = mk ndx nu (fun i j => H i (ndx + j)) /\
  d_Luu d = mk nu nu (fun i j => H (ndx + i) (ndx + j)).

(** The data of a running node read the Jacobian and the Hessian off the library's arrays, for any
    numbers of constraints, when the state is a vector space. *)
Theorem C109_layout m np d (J H : nat -> nat -> V) : a_nx m = a_ndx m -> (forall j k, H j k = H k j) ->
  let n := a_nx m + a_nu m + np in
  exists d', set_D1 zero m np d (by_rows (nY1 m) n J) (by_rows n n H) = Val d' /\
    diff_spec m J H d' /\ calc_part d' = calc_part d /\ d_X d' = d_X d /\ d_X_T d' = d_X_T d.
Proof.
  intros E Sy n. unfold set_D1. set (ndx := a_ndx m) in *. set (nu := a_nu m) in *. set (ng := a_ng m). set (nh := a_nh m).
  replace (ndx + nu + np) with n by (unfold n; lia).
  assert (Y : nY1 m = 1 + ndx + ng + nh) by (unfold nY1, ng, nh; lia). rewrite Y.
  pose proof (getv_row (1 + ndx + ng + nh) n J 0 0 ndx) as G1. cbn [Nat.mul Nat.add] in G1. cbn [Nat.add]. rewrite G1 by (unfold n; lia). cbn [bind].
  pose proof (getv_row (1 + ndx + ng + nh) n J 0 ndx nu) as G2. cbn [Nat.mul Nat.add] in G2. rewrite G2 by (unfold n; lia). cbn [bind].
  replace (ndx + (nu + np)) with (1 * n) by (unfold n; lia).
  pose proof (getT_rows (1 + ndx + ng + nh) n J 1 ndx 0 ndx) as G3. cbn [Nat.add] in G3. rewrite G3 by (unfold n; lia). cbn [bind].
  pose proof (getT_rows (1 + ndx + ng + nh) n J 1 ndx ndx nu) as G4. cbn [Nat.add] in G4. rewrite G4 by (unfold n; lia). cbn [bind].
  replace (1 * n + ndx * n) with ((1 + ndx) * n) by lia.
  pose proof (getT_rows (1 + ndx + ng + nh) n J (1 + ndx) ng 0 ndx) as G5. cbn [Nat.add] in G5. cbn [Nat.add]. rewrite G5 by (unfold n; lia). cbn [bind].
  pose proof (getT_rows (1 + ndx + ng + nh) n J (1 + ndx) ng ndx nu) as G6. cbn [Nat.add] in G6. rewrite G6 by (unfold n; lia). cbn [bind].
  replace (S ndx * n + ng * n) with (S (ndx + ng) * n) by lia.
  pose proof (getT_rows (1 + ndx + ng + nh) n J (1 + ndx + ng) nh 0 ndx) as G7. cbn [Nat.add] in G7. rewrite G7 by (unfold n; lia). cbn [bind].
  pose proof (getT_rows (1 + ndx + ng + nh) n J (1 + ndx + ng) nh ndx nu) as G8. cbn [Nat.add] in G8. rewrite G8 by (unfold n; lia). cbn [bind].
  rewrite !getB_rows by (unfold n; lia). cbn [bind].
  eexists. split; [reflexivity|]. split; [|auto]. unfold diff_spec. cbn [d_Lx d_Lu d_Fx d_Fu d_Gx d_Gu d_Hx d_Hu d_Lxx d_Lxu d_Luu set_dout].
  fold ndx nu ng nh. cbn [Nat.add]. repeat split; apply mk_ext; intros; apply Sy.
Qed.

(** the calls in this mode *)
Notation cg m np w wT := (Cgen m true np (lib_of zero m np) w wT).
Lemma unit_len n : 0 < n -> length (unit_weight zero one n) = n.
Proof. intro H. unfold unit_weight. cbn [length]. rewrite (zeros_len zero). lia. Qed.
Definition swaps (h : list V -> nat -> nat -> list V -> V) : Prop := forall w X j k, h w j k X = h w k j X.

Lemma holds_out m np p d x u d' : length x = a_nx m -> length u = a_nu m -> length p = np ->
  (exists x1, length x1 = a_nx m /\ d_X_T d = x1 ++ p) -> d_X d' = x ++ u ++ p -> d_X_T d' = d_X_T d -> holds m np p d'.
Proof. intros Hx Hu Hp HT E1 E2. split; [exists x, u; auto|]. split; [rewrite E2; exact HT|exact Hp]. Qed.
Lemma ad_val m np p d x u wT : a_nx m = a_ndx m -> swaps hes -> holds m np p d -> length x = a_nx m -> length u = a_nu m ->
  exists d', calcDiff zero jac hes (cg m np (unit_weight zero one (nY1 m)) wT) d x u = Val d' /\ holds m np p d' /\
    diff_spec m (fun i j => jac i j (x ++ u ++ p)) (fun j k => hes (unit_weight zero one (nY1 m)) j k (x ++ u ++ p)) d' /\
    calc_part d' = calc_part d.
Proof.
  intros E S H Hx Hu. unfold calcDiff. rewrite (input_val (cg m np (unit_weight zero one (nY1 m)) wT) p) by assumption.
  cbn [bind c_model c_autodiff c_np c_w d_X set_X]. unfold Hessian. rewrite unit_len by (unfold nY1; lia). rewrite Nat.eqb_refl. cbn [bind].
  unfold Jacobian. pose proof (proj2 (proj2 H)) as Hp.
  replace (length (x ++ u ++ p)) with (a_nx m + a_nu m + np) by (rewrite !app_length; lia).
  destruct (C109_layout m np (set_X d (x ++ u ++ p)) (fun i j => jac i j (x ++ u ++ p))
    (fun j k => hes (unit_weight zero one (nY1 m)) j k (x ++ u ++ p)) E (fun j k => S _ _ j k)) as (d' & A & B & C & D1 & D2).
  exists d'. split; [exact A|]. split; [|split; [exact B|exact C]].
  exact (holds_out m np p d x u d' Hx Hu Hp (proj1 (proj2 H)) D1 D2).
Qed.
Lemma ad_T_val m np p d x w : unconstrained m -> a_nx m = a_ndx m -> swaps hes_T -> holds m np p d -> length x = a_nx m ->
  exists d', calcDiff_T zero jac_T hes_T (cg m np w (unit_weight zero one nY1_T)) d x = Val d' /\ holds m np p d' /\
    d_Lx d' = map (fun j => jac_T 0 j (x ++ p)) (seq 0 (a_ndx m)) /\
    d_Lxx d' = mk (a_ndx m) (a_ndx m) (fun i j => hes_T (unit_weight zero one nY1_T) i j (x ++ p)) /\
    calc_part d' = calc_part d /\ d_Fx d' = d_Fx d /\ d_Fu d' = d_Fu d /\ d_Lu d' = d_Lu d /\ d_Lxu d' = d_Lxu d /\ d_Luu d' = d_Luu d.
Proof.
  intros U E S H Hx. unfold calcDiff_T. rewrite (input_T_val (cg m np w (unit_weight zero one nY1_T)) p) by assumption.
  cbn [bind c_model c_autodiff c_np c_w_T d_X_T set_X_T]. unfold Hessian. rewrite unit_len by (unfold nY1_T; lia). rewrite Nat.eqb_refl. cbn [bind].
  pose proof (proj2 (proj2 H)) as Hp. unfold Jacobian, set_D1_T. destruct U as (-> & _).
  replace (length (x ++ p)) with (a_ndx m + np) by (rewrite app_length; lia). set (n := a_ndx m + np).
  change nY1_T with 1.
  pose proof (getv_row 1 n (fun i j => jac_T i j (x ++ p)) 0 0 (a_ndx m)) as G1. cbn [Nat.mul Nat.add] in G1. rewrite G1 by (unfold n; lia). cbn [bind].
  pose proof (getT_rows 1 n (fun i j => jac_T i j (x ++ p)) 1 0 0 (a_ndx m)) as G3. rewrite Nat.mul_1_l in G3. rewrite G3 by (unfold n; lia). cbn [bind].
  rewrite Nat.add_0_r, G3 by (unfold n; lia). cbn [bind]. rewrite getB_rows by (unfold n; lia). cbn [bind].
  eexists. split; [reflexivity|]. split; [|cbn; repeat split; apply mk_ext; intros; apply S].
  split; [exact (proj1 H)|split; [|exact Hp]]; cbn. eauto.
Qed.

Lemma ad_run_holds m np os : wf m np -> unconstrained m -> a_nx m = a_ndx m -> swaps hes -> swaps hes_T ->
  Forall (sized m) os -> forall p d, holds m np p d ->
  exists d', run zero jac jac_T hes hes_T (cg m np (unit_weight zero one (nY1 m)) (unit_weight zero one nY1_T)) d os = Val d' /\
    holds m np (fold_left (fun q o => match o with UpdateP p => if length p =? np then p else q | _ => q end) os p) d'.
Proof.
  intros W U E S S' F. induction F as [|o os Z F IH]; intros p d H; cbn [run fold_left]; [eauto|].
  set (w := unit_weight zero one (nY1 m)) in *. set (wT := unit_weight zero one nY1_T) in *.
  assert (K : exists d', run_op zero jac jac_T hes hes_T (cg m np w wT) d o = Val d' /\
    holds m np (match o with UpdateP q => if length q =? np then q else p | _ => p end) d').
  { destruct o as [q|x u|x|x u|x|x]; cbn [sized] in Z; cbn [run_op].
    - destruct (Nat.eqb_spec (length q) np) as [e|n].
      + destruct (update_val (cg m np w wT) p d q H e) as (d' & -> & H' & _). eauto.
      + unfold update_p. cbn [c_np]. rewrite (proj2 (Nat.eqb_neq _ _) n). cbn [negb]. eauto.
    - destruct (calc_val zero m true np p d x u w wT W H (proj1 Z) (proj2 Z)) as (d' & -> & H' & _). eauto.
    - destruct (calc_T_val zero m true np p d x w wT W U H Z) as (d' & -> & H' & _). eauto.
    - destruct (ad_val m np p d x u wT E S H (proj1 Z) (proj2 Z)) as (d' & A & H' & _). fold w in A. rewrite A. eauto.
    - destruct (ad_T_val m np p d x w U E S' H Z) as (d' & A & H' & _). fold wT in A. rewrite A. eauto.
    - rewrite (qs_val zero) by auto. cbn [bind]. eauto. }
  destruct K as (d1 & -> & H1). cbn [bind]. exact (IH _ _ H1).
Qed.

(** C109 (states that are vector spaces, no constraints, the model itself rather than a copy).
    Whatever calls were made before, calcDiff fills the data with the first derivatives of calc's
    outputs and the second derivatives of the cost, at the state, the control and the parameters
    last set. *)
Theorem C109_derivatives_partial m np os : wf m np -> unconstrained m -> a_nx m = a_ndx m -> swaps hes -> swaps hes_T ->
  Forall (sized m) os ->
  exists c d, generate zero one m true np = Val c /\ run zero jac jac_T hes hes_T c (create_data zero c) os = Val d /\
  let p := last_p zero np os in
  (forall x u, length x = a_nx m -> length u = a_nu m ->
     exists d', calcDiff zero jac hes c d x u = Val d' /\ calc_part d' = calc_part d /\
       diff_spec m (fun i j => jac i j (x ++ u ++ p)) (fun j k => hes (one :: repeat zero (a_nx m)) j k (x ++ u ++ p)) d') /\
  (forall x, length x = a_nx m ->
     exists d', calcDiff_T zero jac_T hes_T c d x = Val d' /\ calc_part d' = calc_part d /\
       d_Lx d' = map (fun j => jac_T 0 j (x ++ p)) (seq 0 (a_ndx m)) /\
       d_Lxx d' = mk (a_ndx m) (a_ndx m) (fun i j => hes_T [one] i j (x ++ p)) /\
       d_Fx d' = d_Fx d /\ d_Fu d' = d_Fu d /\ d_Lu d' = d_Lu d /\ d_Lxu d' = d_Lxu d /\ d_Luu d' = d_Luu d).
Proof.
  intros W U E S S' F. eexists. rewrite generate_val by assumption.
  destruct (ad_run_holds m np os W U E S S' F (zeros zero np) _
    (holds_init zero m true np (lib_of zero m np) (unit_weight zero one (nY1 m)) (unit_weight zero one nY1_T))) as (d & R & H).
  exists d. split; [reflexivity|]. split; [exact R|]. cbv zeta. change (holds m np (last_p zero np os) d) in H.
  split.
  - intros x u Hx Hu. destruct (ad_val m np _ d x u (unit_weight zero one nY1_T) E S H Hx Hu) as (d' & A & _ & B & C).
    exists d'. split; [exact A|]. split; [exact C|]. destruct U as (U1 & U2 & _).
    replace (one :: repeat zero (a_nx m)) with (unit_weight zero one (nY1 m)); [exact B|].
    unfold unit_weight, zeros, nY1. rewrite U1, U2. do 2 f_equal. lia.
  - intros x Hx. destruct (ad_T_val m np _ d x (unit_weight zero one (nY1 m)) U E S' H Hx) as (d' & A & _ & B & C & D & D1 & D2 & D3 & D4 & D5).
    exists d'. repeat split; assumption.
Qed.

(** Refuted of copies: the first calcDiff of a copy is undefined behaviour, whatever the model. *)
Theorem C109_copy_refuted m np x u : wf m np -> unconstrained m -> length x = a_nx m -> length u = a_nu m ->
  exists c, generate zero one m true np = Val c /\
    calcDiff zero jac hes (copy c) (create_data zero (copy c)) x u = Undef /\
    calcDiff_T zero jac_T hes_T (copy c) (create_data zero (copy c)) x = Undef.
Proof.
  intros W U Hx Hu. eexists. rewrite generate_val by assumption. split; [reflexivity|].
  unfold copy. cbn [c_model c_autodiff c_np c_lib].
  pose proof (holds_init zero m true np (lib_of zero m np) [] []) as H. split.
  - unfold calcDiff. rewrite (input_val (cg m np [] []) (zeros zero np)) by assumption. reflexivity.
  - unfold calcDiff_T. rewrite (input_T_val (cg m np [] []) (zeros zero np)) by assumption. reflexivity.
Qed.
End C109.

(** ** Refutations and examples *)
Section Ex.
(** two states, a control, a residual and a parameter; the cost is the control plus the parameter,
    the next state is shifted by the control, the equilibrium control is the parameter *)
Definition ex_calc (p x u : list nat) : @cout nat :=
  Cout (nth 0 u 0 + nth 0 p 0) [nth 0 x 0 + nth 0 u 0; nth 1 x 0] [nth 0 x 0] [] [].
Definition ex_diff (p x u : list nat) : @dout nat :=
  Dout (Mat 2 2 [1; 0; 0; 1]) (Mat 2 1 [1; 0]) [0; 0] [1] (Mat 2 2 [nth 0 p 0; 2; 3; 4]) (Mat 2 1 [0; 0]) (Mat 1 1 [7])
       (Mat 0 2 []) (Mat 0 1 []) (Mat 0 2 []) (Mat 0 1 []).
Definition ex : @action nat :=
  Action 2 2 1 1 0 0 0 0 ex_calc (fun p x => ex_calc p x []) ex_diff (fun p x => ex_diff p x []) (fun p x => [nth 0 p 0]).
Lemma ex_wf : wf ex 1.
Proof. constructor; intros; cbn; unfold is_mat; cbn; repeat split. Qed.
(** the model generated, and the value of a call *)
Definition gen_of (m : @action nat) ad np := Cgen m ad np (lib_of 0 m np) (unit_weight 0 1 (nY1 m)) (unit_weight 0 1 nY1_T).
Definition value (r : res (@data nat)) : @data nat := match r with Val d => d | _ => create_data 0 (gen_of ex false 1) end.
Definition nojac : nat -> nat -> list nat -> nat := fun _ _ _ => 0.
Definition nohes : list nat -> nat -> nat -> list nat -> nat := fun _ _ _ _ => 0.
(** a history meeting the hypotheses of C108_agrees_partial, with parameters of a wrong number *)
Example C108_history : let os := [UpdateP [5]; Calc [1; 2] [3]; UpdateP [8; 9]; CalcDiffT [4; 4]] in
  wf ex 1 /\ unconstrained ex /\ Forall (sized ex) os /\ last_p 0 1 os = [5] /\
  exists c d d', generate 0 1 ex false 1 = Val c /\ run 0 nojac nojac nohes nohes c (create_data 0 c) os = Val d /\
    calc 0 c d [6; 7] [2] = Val d' /\ d_cost d' = 7 /\ d_xnext d' = [8; 7] /\ d_Lxx d' = Mat 2 2 [5; 2; 3; 4].
Proof.
  split; [exact ex_wf|]. split; [repeat split|]. split; [repeat constructor|]. split; [reflexivity|].
  set (c := gen_of ex false 1).
  exists c, (value (run 0 nojac nojac nohes nohes c (create_data 0 c) [UpdateP [5]; Calc [1; 2] [3]; UpdateP [8; 9]; CalcDiffT [4; 4]])).
  exists (value (calc 0 c (value (run 0 nojac nojac nohes nohes c (create_data 0 c)
    [UpdateP [5]; Calc [1; 2] [3]; UpdateP [8; 9]; CalcDiffT [4; 4]])) [6; 7] [2])).
  split; [apply generate_val; [exact ex_wf|repeat split]|]. vm_compute. repeat split.
Qed.

(** Refuted: quasiStatic gives the control of the parameters at recording time, not of those set. *)
Theorem C108_quasi_refuted : exists (m : @action nat) np c d p x, wf m np /\ unconstrained m /\ generate 0 1 m false np = Val c /\
  update_p c (create_data 0 c) p = Val d /\ length x = a_nx m /\
  exists u, quasiStatic c x = Val u /\ u <> a_qs m p x.
Proof.
  set (c := gen_of ex false 1). exists ex, 1, c, (value (update_p c (create_data 0 c) [5])), [5], [1; 2].
  split; [exact ex_wf|]. split; [repeat split|]. split; [apply generate_val; [exact ex_wf|repeat split]|].
  split; [vm_compute; reflexivity|]. split; [reflexivity|]. exists [0]. split; [vm_compute; reflexivity|discriminate].
Qed.
(** Refuted: the residual of the wrapped model is not computed. *)
Theorem C108_residual_refuted : exists (m : @action nat) np c d x u, wf m np /\ unconstrained m /\ generate 0 1 m false np = Val c /\
  calc 0 c (create_data 0 c) x u = Val d /\ d_r d <> o_r (a_calc m (repeat 0 np) x u) /\
  length (d_r d) = length (o_r (a_calc m (repeat 0 np) x u)).
Proof.
  set (c := gen_of ex false 1). exists ex, 1, c, (value (calc 0 c (create_data 0 c) [1; 2] [3])), [1; 2], [3].
  split; [exact ex_wf|]. split; [repeat split|]. split; [apply generate_val; [exact ex_wf|repeat split]|].
  split; [vm_compute; reflexivity|]. split; [vm_compute; discriminate|vm_compute; reflexivity].
Qed.
(** Refuted: a state of a wrong size does not throw, it is undefined behaviour. *)
Theorem C108_sizes_refuted : exists (m : @action nat) np c x u, wf m np /\ unconstrained m /\ generate 0 1 m false np = Val c /\
  length x <> a_nx m /\ calc 0 c (create_data 0 c) x u = Undef.
Proof.
  exists ex, 1, (gen_of ex false 1), [1; 2; 3], [3].
  split; [exact ex_wf|]. split; [repeat split|]. split; [apply generate_val; [exact ex_wf|repeat split]|].
  split; [discriminate|vm_compute; reflexivity].
Qed.

(** a model with one running inequality *)
Definition exg_calc (p x u : list nat) : @cout nat := Cout 0 [nth 0 x 0] [] [nth 0 u 0] [].
Definition exg : @action nat :=
  Action 1 1 1 0 1 0 0 0 exg_calc (fun _ _ => Cout 0 [] [] [] [])
    (fun _ _ _ => Dout (Mat 1 1 [1]) (Mat 1 1 [0]) [0] [0] (Mat 1 1 [0]) (Mat 1 1 [0]) (Mat 1 1 [0])
                       (Mat 1 1 [0]) (Mat 1 1 [1]) (Mat 0 1 []) (Mat 0 1 []))
    (fun _ _ => Dout (Mat 1 1 [1]) (Mat 1 1 [0]) [0] [0] (Mat 1 1 [0]) (Mat 1 1 [0]) (Mat 1 1 [0])
                     (Mat 0 1 []) (Mat 0 1 []) (Mat 0 1 []) (Mat 0 1 []))
    (fun _ _ => [0]).
Theorem C108_constraints_refuted : exists (m : @action nat), wf m 0 /\ generate 0 1 m false 0 = Undef /\ generate 0 1 m true 0 = Undef.
Proof.
  exists exg. split; [constructor; intros; cbn; unfold is_mat; cbn; repeat split|].
  split; reflexivity.
Qed.

(** a history meeting the hypotheses of C109_derivatives_partial, and one derivative it gives *)
Definition exj : nat -> nat -> list nat -> nat := fun i j _ => 10 * i + j.
Definition exh : list nat -> nat -> nat -> list nat -> nat := fun w j k _ => nth 0 w 0 * (j * k).
Example C109_history : wf ex 1 /\ unconstrained ex /\ a_nx ex = a_ndx ex /\ swaps exh /\
  exists c d, generate 0 1 ex true 1 = Val c /\ calcDiff 0 exj exh c (create_data 0 c) [1; 2] [3] = Val d /\
    d_Fx d = Mat 2 2 [10; 20; 11; 21] /\ d_Fu d = Mat 2 1 [12; 22] /\ d_Lxu d = Mat 2 1 [0; 2] /\ d_Luu d = Mat 1 1 [4].
Proof.
  split; [exact ex_wf|]. split; [repeat split|]. split; [reflexivity|]. split.
  - intros w X j k. unfold exh. f_equal. apply Nat.mul_comm.
  - set (c := gen_of ex true 1). exists c, (value (calcDiff 0 exj exh c (create_data 0 c) [1; 2] [3])).
    split; [apply generate_val; [exact ex_wf|repeat split]|]. vm_compute. repeat split.
Qed.

(** a state of two coordinates and one dimension; the cost is the control *)
Definition exm : @action nat :=
  Action 2 1 1 0 0 0 0 0 (fun p x u => Cout (nth 0 u 0) x [] [] []) (fun p x => Cout 0 x [] [] [])
    (fun _ _ _ => Dout (Mat 1 1 [1]) (Mat 1 1 [0]) [0] [1] (Mat 1 1 [0]) (Mat 1 1 [0]) (Mat 1 1 [0])
                       (Mat 0 1 []) (Mat 0 1 []) (Mat 0 1 []) (Mat 0 1 []))
    (fun _ _ => Dout (Mat 1 1 [1]) (Mat 1 1 [0]) [0] [0] (Mat 1 1 [0]) (Mat 1 1 [0]) (Mat 1 1 [0])
                     (Mat 0 1 []) (Mat 0 1 []) (Mat 0 1 []) (Mat 0 1 []))
    (fun _ _ => [0]).
(** the derivatives of its outputs (the control, then the state) in (x, u) *)
Definition exm_jac (i j : nat) (X : list nat) : nat := match i with 0 => if j =? 2 then 1 else 0 | S i => if j =? i then 1 else 0 end.
(** Refuted on a manifold: the gradient in the control is read off the state's columns. *)
Theorem C109_manifold_refuted : exists (m : @action nat) c d x u, wf m 0 /\ unconstrained m /\ generate 0 1 m true 0 = Val c /\
  (forall x u, o_cost (a_calc m [] x u) = nth 0 u 0 /\ o_xnext (a_calc m [] x u) = x) /\
  calcDiff 0 exm_jac nohes c (create_data 0 c) x u = Val d /\ d_Lu d <> [exm_jac 0 (a_nx m) (x ++ u)].
Proof.
  set (c := gen_of exm true 0). exists exm, c, (value (calcDiff 0 exm_jac nohes c (create_data 0 c) [0; 1] [3])), [0; 1], [3].
  assert (W : wf exm 0) by (constructor; intros; cbn; unfold is_mat; cbn; repeat split; auto).
  split; [exact W|]. split; [repeat split|]. split; [apply generate_val; [exact W|repeat split]|].
  split; [intros; split; reflexivity|]. split; [vm_compute; reflexivity|]. vm_compute. discriminate.
Qed.
End Ex.

(** ** C110 *)
Section C110.
Context {M : Type} (keeps : bool).
(** the libraries of a history have each a name of their own, and a library is loaded for the model
    it was generated from; [gs]: what was generated *)
Fixpoint proper (gs : list (string * M)) (os : list (@fop M)) : Prop :=
  match os with
  | [] => True
  | Generate n m :: os => ~ In n (map fst gs) /\ proper ((n, m) :: gs) os
  | Load n m :: os => (forall m', In (n, m') gs -> m' = m) /\ proper gs os
  | _ :: os => proper gs os
  end.
Definition good (gs : list (string * M)) (w : @world M) : Prop :=
  w_files w = gs /\ forall i b, nth_error (w_objs w) i = Some (Some b) ->
    b_lib b = b_model b /\ find_file gs (b_name b) = Some (b_lib b).

Lemma find_in gs n m : find_file gs n = Some m -> @In (string * M) (n, m) gs.
Proof.
  induction gs as [|[k a] gs IH]; cbn; [discriminate|]. destruct (String.eqb_spec k n) as [->|]; [intros [= ->]; auto|auto].
Qed.
Lemma loaded_good gs w : good gs w -> forall n l, find_loaded (w_objs w) n = Some l -> find_file gs n = Some l.
Proof.
  intros (_ & G) n. induction (w_objs w) as [|[b|] os IH]; intros l; cbn [find_loaded]; [discriminate| |].
  - destruct (String.eqb_spec (b_name b) n) as [<-|ne]; [intros [= <-]; apply (G 0 b eq_refl)|].
    apply IH. intros i b' H. apply (G (S i) b' H).
  - apply IH. intros i b' H. apply (G (S i) b' H).
Qed.
Lemma open_good gs w : good gs w -> forall n, open_lib keeps w n = find_file gs n.
Proof.
  intros G n. unfold open_lib. rewrite (proj1 G). destruct (find_file gs n) as [f|] eqn:E; [|reflexivity].
  destruct keeps; [|reflexivity]. destruct (find_loaded (w_objs w) n) as [l|] eqn:L; [|reflexivity].
  rewrite (loaded_good gs w G n l L) in E. congruence.
Qed.
Lemma add_good gs w b : good gs w -> b_lib b = b_model b -> find_file gs (b_name b) = Some (b_lib b) -> good gs (add_obj w b).
Proof.
  intros (F & G) E1 E2. split; [exact F|]. intros i b' H. cbn [add_obj w_objs] in H.
  destruct (Nat.lt_ge_cases i (length (w_objs w))) as [l|l].
  - rewrite nth_error_app1 in H by exact l. exact (G i b' H).
  - rewrite nth_error_app2 in H by exact l. destruct (i - length (w_objs w)) as [|[|?]]; cbn in H; [|discriminate|discriminate].
    injection H as <-. auto.
Qed.
Lemma files_good gs w n m : good gs w -> ~ In n (map fst gs) -> good ((n, m) :: gs) (World ((n, m) :: w_files w) (w_objs w)).
Proof.
  intros (F & G) N. split; [cbn; rewrite F; reflexivity|]. intros i b H. destruct (G i b H) as (A & B). split; [exact A|].
  cbn [find_file]. destruct (String.eqb_spec n (b_name b)) as [e|]; [|exact B].
  exfalso. apply N. rewrite e. apply in_map_iff. exists (b_name b, b_lib b). split; [reflexivity|]. apply find_in. exact B.
Qed.
Lemma step_good gs w o os : good gs w -> proper gs (o :: os) ->
  exists gs', good gs' (fstep keeps w o) /\ proper gs' os.
Proof.
  intros G P. destruct o as [n m|i|n m|i]; cbn [proper] in P; cbn [fstep].
  - destruct P as (N & P). pose proof (files_good gs w n m G N) as G'. exists ((n, m) :: gs). split; [|exact P].
    rewrite (open_good _ _ G' n). cbn [find_file]. rewrite String.eqb_refl.
    apply add_good; [exact G'|reflexivity|]. cbn [b_name b_lib find_file]. rewrite String.eqb_refl. reflexivity.
  - exists gs. split; [|exact P]. destruct (nth_error (w_objs w) i) as [[b|]|] eqn:E; [|exact G|exact G].
    destruct (proj2 G i b E) as (A & B). rewrite (open_good gs w G), B. apply add_good; [exact G|exact A|exact B].
  - destruct P as (L & P). exists gs. split; [|exact P]. rewrite (open_good gs w G).
    destruct (find_file gs n) as [f|] eqn:E; [|exact G]. apply add_good; [exact G|exact (L f (find_in _ _ _ E))|exact E].
  - exists gs. split; [|exact P]. split; [exact (proj1 G)|]. intros j b H. cbn [w_objs] in H.
    assert (K : nth_error (w_objs w) j = Some (Some b)).
    { destruct (Nat.lt_ge_cases j (length (firstn i (w_objs w)))) as [l|l].
      - rewrite nth_error_app1 in H by exact l. rewrite <- (firstn_skipn i (w_objs w)), nth_error_app1 by exact l. exact H.
      - rewrite nth_error_app2 in H by exact l. rewrite <- (firstn_skipn i (w_objs w)), nth_error_app2 by exact l.
        destruct (skipn i (w_objs w)) as [|a r]; [exact H|].
        destruct (j - length (firstn i (w_objs w))) as [|k]; [discriminate H|exact H]. }
    exact (proj2 G j b K).
Qed.
Lemma run_good os : forall gs w, good gs w -> proper gs os -> exists gs', good gs' (frun keeps w os).
Proof.
  induction os as [|o os IH]; intros gs w G P; [exists gs; exact G|]. cbn [frun fold_left].
  destruct (step_good gs w o os G P) as (gs' & G' & P'). exact (IH gs' _ G' P').
Qed.

(** C110 (each library has a name of its own).  After any history of generating, copying, loading
    and destroying models, every model alive computes its own wrapped model; a copy can be made of
    each and computes the same; nothing else changes. *)
Theorem C110_own_library_partial os : proper [] os ->
  let w := frun keeps (World [] []) os in
  forall i b, nth_error (w_objs w) i = Some (Some b) -> b_lib b = b_model b /\
    fstep keeps w (Copy i) = World (w_files w) (w_objs w ++ [Some (Obj (b_name b) (b_model b) (b_model b))]).
Proof.
  intros P w i b H. assert (G0 : good [] (World [] [])) by (split; [reflexivity|intros [|j] b'; discriminate]).
  destruct (run_good os [] (World [] []) G0 P) as (gs & G).
  fold w in G. destruct (proj2 G i b H) as (A & B). split; [exact A|]. cbn [fstep]. rewrite H, (open_good gs w G), B, A. reflexivity.
Qed.
End C110.

(** Refuted when a name is used twice, as a cast of the model to another scalar does, whether the
    loader reads the file again or not: some model computes another model's functions. *)
Theorem C110_own_library_refuted : forall keeps, exists (os : list (@fop nat)) i b,
  (forall n m, ~ In (Load n m) os) /\ nth_error (w_objs (frun keeps (World [] []) os)) i = Some (Some b) /\ b_lib b <> b_model b.
Proof.
  intros [|].
  - exists [Generate "lib" 1; Generate "lib" 2], 1, (Obj "lib" 2 1). split; [|split; [reflexivity|discriminate]].
    intros n m [H|[H|[]]]; discriminate.
  - exists [Generate "lib" 1; Generate "lib" 2; Copy 0], 2, (Obj "lib" 1 2). split; [|split; [reflexivity|discriminate]].
    intros n m [H|[H|[H|[]]]]; discriminate.
Qed.
Example C110_history : proper [] [Generate "a" 1; Generate "b" 2; Copy 0; Destroy 0; Load "a" 1] /\
  w_objs (frun true (World [] []) [Generate "a" 1; Generate "b" 2; Copy 0; Destroy 0; Load "a" 1]) =
    [None; Some (Obj "b" 2 2); Some (Obj "a" 1 1); Some (Obj "a" 1 1)].
Proof.
  split; [|reflexivity]. cbn. repeat split; try tauto.
  - intros [H|[]]; discriminate.
  - intros m' [H|[H|[]]]; congruence.
Qed.

Print Assumptions C108_layout.
Print Assumptions C108_agrees_partial.
Print Assumptions C108_parameters_checked.
Print Assumptions C108_constraints.
Print Assumptions C108_fresh.
Print Assumptions C108_constraints_refuted.
Print Assumptions C108_quasi_refuted.
Print Assumptions C108_residual_refuted.
Print Assumptions C108_sizes_refuted.
Print Assumptions C109_layout.
Print Assumptions C109_derivatives_partial.
Print Assumptions C109_copy_refuted.
Print Assumptions C109_manifold_refuted.
Print Assumptions C110_own_library_partial.
Print Assumptions C110_own_library_refuted.
