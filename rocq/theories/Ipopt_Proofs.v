(** Lemmas on the Ipopt interface. *)
From Coquelicot Require Import Coquelicot.
From Coq Require Import Reals Lra Lia List Arith Bool FinFun.
From Verif Require Import Deriv VecMat Integrator_Spec IntegratorPsd_Proofs Ipopt_Model.
Import ListNotations.
Open Scope R_scope.

Section Proofs.
Context {P : Type}.
Implicit Type (p : iproblem P) (s : iface P).

(** ** Layout *)
Fixpoint nsum (n : nat) (f : nat -> nat) : nat := match n with O => O | S k => (nsum k f + f k)%nat end.
(** position of node t among the variables and among the constraints *)
Definition off p (t : nat) : nat := nsum t (fun i => ndx p i + nu p i)%nat.
Definition cix p (t : nat) : nat := nsum t (fun i => ndx p i).
Definition laid p s : Prop := (0 < p_T p)%nat /\ (forall t, (t <= p_T p)%nat -> s_ixu s t = off p t) /\ s_nvar s = (off p (p_T p) + ndx p (p_T p))%nat /\
  (cix p (p_T p) + ndx p 0 <= s_nconst s)%nat.

Lemma nsum_le f a b : (a <= b)%nat -> (nsum a f <= nsum b f)%nat.
Proof. induction 1; cbn [nsum]; lia. Qed.
Lemma layout_loop_spec p k : forall t ixu nc ixu' nc' nv',
  layout_loop p k t ixu nc (off p t) = (ixu', nc', nv') ->
  nv' = off p (t + k) /\ (nc' + cix p t = nc + cix p (t + k))%nat /\
  (forall i, ixu' i = if (t <=? i)%nat && (i <? t + k)%nat then off p i else ixu i).
Proof.
  induction k as [|k IH]; intros t ixu nc ixu' nc' nv' H; cbn [layout_loop] in H.
  - injection H as <- <- <-. rewrite Nat.add_0_r. repeat split; auto. intro i.
    destruct (Nat.leb_spec t i), (Nat.ltb_spec i t); cbn; auto; lia.
  - change (off p t + (ndx p t + nu p t))%nat with (off p (S t)) in H. apply IH in H. destruct H as [H1 [H2 H3]].
    replace (t + S k)%nat with (S t + k)%nat by lia. split; [exact H1|]. split; [change (cix p (S t)) with (cix p t + ndx p t)%nat in H2; lia|].
    intro i. rewrite H3. unfold put. destruct (Nat.leb_spec (S t) i), (Nat.leb_spec t i), (Nat.ltb_spec i (S t + k)), (Nat.eqb_spec i t); cbn [andb]; try lia; subst; auto.
Qed.
Lemma layout_spec p ixu0 nc0 ixu nc nv : layout p ixu0 nc0 = (ixu, nc, nv) ->
  (forall t, (t <= p_T p)%nat -> ixu t = off p t) /\ nc = (nc0 + cix p (p_T p) + ndx p 0)%nat /\ nv = (off p (p_T p) + ndx p (p_T p))%nat.
Proof.
  unfold layout. intro H. change 0%nat with (off p 0) in H at 2.
  destruct (layout_loop p (p_T p) 0 ixu0 nc0 (off p 0)) as [[i1 n1] v1] eqn:E. injection H as <- <- <-.
  apply layout_loop_spec in E. destruct E as [E1 [E2 E3]]. change (cix p 0) with 0%nat in E2. cbn [Nat.add] in *. split; [|split; [lia|now rewrite E1]].
  intros t Ht. unfold put. destruct (Nat.eqb_spec t (p_T p)) as [->|N]; auto.
  rewrite E3. destruct (Nat.leb_spec 0 t), (Nat.ltb_spec t (p_T p)); cbn; auto; lia.
Qed.
Lemma create_laid p z d s : ipopt_create p z d = Some s -> laid p s /\ s_nconst s = (cix p (p_T p) + ndx p 0)%nat.
Proof.
  unfold ipopt_create. destruct (Nat.eqb_spec (p_T p) 0); [discriminate|].
  destruct (layout p (fun _ => 0%nat) 0) as [[i1 n1] v1] eqn:E. intros [= <-]. apply layout_spec in E. destruct E as [E1 [E2 E3]].
  unfold laid. cbn. repeat split; auto; lia.
Qed.
Lemma resize_laid p s s' : ipopt_resize p s = Some s' -> laid p s' /\ s_nconst s' = (s_nconst s + cix p (p_T p) + ndx p 0)%nat.
Proof.
  unfold ipopt_resize. destruct (Nat.eqb_spec (p_T p) 0); [discriminate|].
  destruct (layout p (s_ixu s) (s_nconst s)) as [[i1 n1] v1] eqn:E. intros [= <-]. apply layout_spec in E. destruct E as [E1 [E2 E3]].
  unfold laid. cbn. repeat split; auto; lia.
Qed.
Lemma off_S p t : off p (S t) = (off p t + ndx p t + nu p t)%nat.
Proof. unfold off. cbn [nsum]. lia. Qed.
Lemma cix_S p t : cix p (S t) = (cix p t + ndx p t)%nat.
Proof. reflexivity. Qed.

(** ** Sizes of the structures *)
Lemma flat_map_const {A B} (f : A -> list B) c l : (forall x, In x l -> length (f x) = c) -> length (flat_map f l) = (length l * c)%nat.
Proof. induction l; cbn; intro H; auto. rewrite app_length, H, IHl; auto. Qed.
Lemma length_block r0 c0 rows cols : length (block r0 c0 rows cols) = (rows * cols)%nat.
Proof.
  unfold block. rewrite (flat_map_const _ cols); [now rewrite seq_length|].
  intros r _. now rewrite map_length, seq_length.
Qed.
Lemma until_above_seq r n : forall a, until_above r (seq a n) = seq a (Nat.min n (S r - a)).
Proof.
  induction n as [|n IH]; intro a; cbn [seq until_above]; [reflexivity|].
  destruct (Nat.ltb_spec r a).
  - replace (S r - a)%nat with 0%nat by lia. reflexivity.
  - rewrite IH. replace (Nat.min (S n) (S r - a)) with (S (Nat.min n (S r - S a))) by lia. reflexivity.
Qed.
Lemma until_above_row r n : (r < n)%nat -> until_above r (seq 0 n) = seq 0 (S r).
Proof. intro H. rewrite until_above_seq. f_equal. lia. Qed.
Lemma flat_map_ext_in {A B} (f g : A -> list B) l : (forall x, In x l -> f x = g x) -> flat_map f l = flat_map g l.
Proof. induction l; cbn; intro H; auto. rewrite H, IHl; auto. Qed.
Lemma flat_map_length_seq {B} (f : nat -> list B) n : forall a, length (flat_map f (seq a n)) = nsum n (fun i => length (f (a + i)%nat)).
Proof.
  induction n as [|n IH]; intro a; [reflexivity|]. rewrite seq_S, flat_map_app, app_length, IH. cbn [nsum flat_map]. rewrite app_nil_r. reflexivity.
Qed.
Lemma nsum_ext n f g : (forall i, (i < n)%nat -> f i = g i) -> nsum n f = nsum n g.
Proof. induction n; cbn [nsum]; intro H; auto. rewrite IHn, H; auto. Qed.
Lemma count_lower_nsum n : count_lower n = nsum n (fun i => S i).
Proof. induction n; cbn [count_lower nsum]; auto. Qed.
Lemma lower_seq o n : lower o n = flat_map (fun r => map (fun c => ((o + r)%nat, (o + c)%nat)) (seq 0 (S r))) (seq 0 n).
Proof. apply flat_map_ext_in. intros r Hr. apply in_seq in Hr. rewrite until_above_row; auto. lia. Qed.
Lemma length_lower o n : length (lower o n) = count_lower n.
Proof.
  rewrite lower_seq, flat_map_length_seq, count_lower_nsum. apply nsum_ext. intros i _. now rewrite map_length, seq_length.
Qed.
(** the Jacobian structure as a map over the nodes *)
Lemma jac_struct_flat p s k : forall t, (t + k <= p_T p)%nat ->
  jac_struct_loop p s k t (cix p t) =
  flat_map (fun i => block (cix p i) (s_ixu s i) (ndx p i) (ndx p i + nu p i + ndx p (S i))) (seq t k) ++ block (cix p (t + k)) 0 (ndx p 0) (ndx p 0).
Proof.
  induction k as [|k IH]; intros t H; cbn [jac_struct_loop seq flat_map].
  - now rewrite Nat.add_0_r.
  - change (cix p t + ndx p t)%nat with (cix p (S t)). rewrite IH by lia. rewrite <- app_assoc.
    replace (S t + k)%nat with (t + S k)%nat by lia. reflexivity.
Qed.
Lemma jac_struct_eq p s : jac_struct p s =
  flat_map (fun i => block (cix p i) (s_ixu s i) (ndx p i) (ndx p i + nu p i + ndx p (S i))) (seq 0 (p_T p)) ++ block (cix p (p_T p)) 0 (ndx p 0) (ndx p 0).
Proof. unfold jac_struct. change 0%nat with (cix p 0) at 2. rewrite jac_struct_flat by lia. reflexivity. Qed.
Lemma nnz_spec p k : forall t nj nh, nnz_loop p k t nj nh =
  ((nj + nsum k (fun i => ndx p (t + i) * (ndx p (t + i) + ndx p (S (t + i)) + nu p (t + i))))%nat,
   (nh + nsum k (fun i => count_lower (ndx p (t + i) + nu p (t + i))))%nat).
Proof.
  assert (Hs : forall m f, nsum (S m) f = (f 0%nat + nsum m (fun i => f (S i)))%nat).
  { intros m f. induction m as [|m IHm]; [cbn; lia|]. change (nsum (S (S m)) f) with (nsum (S m) f + f (S m))%nat. rewrite IHm. cbn [nsum]. lia. }
  induction k as [|k IH]; intros t nj nh; cbn [nnz_loop]; [cbn; now rewrite !Nat.add_0_r|].
  rewrite IH, !Hs, !Nat.add_0_r. f_equal; rewrite <- Nat.add_assoc; f_equal; f_equal; apply nsum_ext; intros i _; now replace (t + S i)%nat with (S t + i)%nat by lia.
Qed.
Lemma jac_struct_length p s : (nsum (p_T p) (fun i => ndx p i * (ndx p i + ndx p (S i) + nu p i)) + ndx p 0 * ndx p 0)%nat = length (jac_struct p s).
Proof.
  rewrite jac_struct_eq, app_length, length_block, flat_map_length_seq. f_equal. apply nsum_ext. intros i _. cbn [Nat.add]. rewrite length_block. lia.
Qed.
Lemma hess_struct_length p s : (nsum (p_T p) (fun i => count_lower (ndx p i + nu p i)) + count_lower (ndx p (p_T p)))%nat = length (hess_struct p s).
Proof.
  unfold hess_struct. rewrite app_length, flat_map_length_seq, length_lower. f_equal. apply nsum_ext. intros i _. cbn [Nat.add]. now rewrite length_lower.
Qed.

(** ** Ranges and distinct positions *)
Lemma in_block r0 c0 rows cols r c : In (r, c) (block r0 c0 rows cols) <-> (r0 <= r < r0 + rows)%nat /\ (c0 <= c < c0 + cols)%nat.
Proof.
  unfold block. rewrite in_flat_map. split.
  - intros [i [Hi H]]. apply in_map_iff in H. destruct H as [j [E Hj]]. injection E as <- <-. apply in_seq in Hi, Hj. lia.
  - intros [H1 H2]. exists (r - r0)%nat. split; [apply in_seq; lia|]. apply in_map_iff. exists (c - c0)%nat. split; [f_equal; lia|apply in_seq; lia].
Qed.
Lemma in_lower o n r c : In (r, c) (lower o n) <-> (o <= c <= r)%nat /\ (r < o + n)%nat.
Proof.
  rewrite lower_seq, in_flat_map. split.
  - intros [i [Hi H]]. apply in_map_iff in H. destruct H as [j [E Hj]]. injection E as <- <-. apply in_seq in Hi, Hj. lia.
  - intros [H1 H2]. exists (r - o)%nat. split; [apply in_seq; lia|]. apply in_map_iff. exists (c - o)%nat. split; [f_equal; lia|apply in_seq; lia].
Qed.
Lemma NoDup_app {A} (l1 l2 : list A) : NoDup l1 -> NoDup l2 -> (forall x, In x l1 -> ~ In x l2) -> NoDup (l1 ++ l2).
Proof.
  induction 1 as [|a l Ha Hl IH]; intros H2 H; auto. cbn. constructor.
  - rewrite in_app_iff. intros [K|K]; [auto|]. exact (H a (or_introl eq_refl) K).
  - apply IH; auto. intros x Hx. apply H. now right.
Qed.
Lemma NoDup_flat_map {B} (f : nat -> list B) n : forall a, (forall i, (a <= i < a + n)%nat -> NoDup (f i)) ->
  (forall i j x, (a <= i)%nat -> (i < j < a + n)%nat -> In x (f i) -> ~ In x (f j)) -> NoDup (flat_map f (seq a n)).
Proof.
  induction n as [|n IH]; intros a H1 H2; cbn [seq flat_map]; [constructor|].
  apply NoDup_app.
  - apply H1. lia.
  - apply IH; intros; [apply H1; lia|apply (H2 i); auto; lia].
  - intros x Hx Hx'. apply in_flat_map in Hx'. destruct Hx' as [j [Hj Hx']]. apply in_seq in Hj. apply (H2 a j x); auto; lia.
Qed.
Lemma NoDup_row (r0 c0 cols : nat) : NoDup (map (fun c => (r0, (c0 + c)%nat)) (seq 0 cols)).
Proof. apply Injective_map_NoDup; [|apply seq_NoDup]. intros a b [= H]. lia. Qed.
Lemma NoDup_block r0 c0 rows cols : NoDup (block r0 c0 rows cols).
Proof.
  unfold block. apply NoDup_flat_map.
  - intros i _. apply (NoDup_row (r0 + i) c0).
  - intros i j [r c] _ Hij H1 H2. apply in_map_iff in H1, H2. destruct H1 as [c1 [E1 _]], H2 as [c2 [E2 _]]. injection E1 as E1 _. injection E2 as E2 _. lia.
Qed.
Lemma NoDup_lower o n : NoDup (lower o n).
Proof.
  rewrite lower_seq. apply NoDup_flat_map.
  - intros i _. apply (NoDup_row (o + i) o).
  - intros i j [r c] _ Hij H1 H2. apply in_map_iff in H1, H2. destruct H1 as [c1 [E1 _]], H2 as [c2 [E2 _]]. injection E1 as E1 _. injection E2 as E2 _. lia.
Qed.
Lemma cix_mono p i j : (i < j)%nat -> (cix p i + ndx p i <= cix p j)%nat.
Proof. intro H. rewrite <- cix_S. apply nsum_le. lia. Qed.
Lemma off_mono p i j : (i < j)%nat -> (off p i + ndx p i + nu p i <= off p j)%nat.
Proof. intro H. rewrite <- off_S. apply nsum_le. lia. Qed.
Lemma jac_NoDup p s : NoDup (jac_struct p s).
Proof.
  rewrite jac_struct_eq. apply NoDup_app.
  - apply NoDup_flat_map; [intros; apply NoDup_block|]. intros i j [r c] _ Hij H1 H2. apply in_block in H1, H2. pose proof (cix_mono p i j ltac:(lia)). lia.
  - apply NoDup_block.
  - intros [r c] H1 H2. apply in_flat_map in H1. destruct H1 as [i [Hi H1]]. apply in_seq in Hi. apply in_block in H1, H2. pose proof (cix_mono p i (p_T p) ltac:(lia)). lia.
Qed.
Lemma hess_NoDup p s : laid p s -> NoDup (hess_struct p s).
Proof.
  intros [_ [Hx _]]. unfold hess_struct. apply NoDup_app.
  - apply NoDup_flat_map; [intros; apply NoDup_lower|]. intros i j [r c] _ Hij H1 H2. apply in_lower in H1, H2. rewrite !Hx in * by lia. pose proof (off_mono p i j ltac:(lia)). lia.
  - apply NoDup_lower.
  - intros [r c] H1 H2. apply in_flat_map in H1. destruct H1 as [i [Hi H1]]. apply in_seq in Hi. apply in_lower in H1, H2. rewrite !Hx in * by lia. pose proof (off_mono p i (p_T p) ltac:(lia)). lia.
Qed.
Lemma jac_range p s r c : laid p s -> In (r, c) (jac_struct p s) -> (r < s_nconst s)%nat /\ (c < s_nvar s)%nat.
Proof.
  intros [HT [Hx [Hv Hc]]] H. rewrite jac_struct_eq in H. apply in_app_iff in H. destruct H as [H|H].
  - apply in_flat_map in H. destruct H as [i [Hi H]]. apply in_seq in Hi. apply in_block in H. rewrite Hx in H by lia.
    pose proof (cix_mono p i (p_T p) ltac:(lia)). split; [lia|]. rewrite Hv.
    destruct (Nat.eq_dec (S i) (p_T p)) as [E|N].
    + rewrite <- E, off_S. lia.
    + pose proof (off_mono p (S i) (p_T p) ltac:(lia)). rewrite off_S in *. lia.
  - apply in_block in H. split; [lia|]. pose proof (off_mono p 0 (p_T p) HT). cbn in *. lia.
Qed.
Lemma hess_range p s r c : laid p s -> In (r, c) (hess_struct p s) -> (c <= r)%nat /\ (r < s_nvar s)%nat.
Proof.
  intros [HT [Hx [Hv Hc]]] H. unfold hess_struct in H. apply in_app_iff in H. destruct H as [H|H].
  - apply in_flat_map in H. destruct H as [i [Hi H]]. apply in_seq in Hi. apply in_lower in H. rewrite Hx in H by lia.
    pose proof (off_mono p i (p_T p) ltac:(lia)). lia.
  - apply in_lower in H. rewrite Hx in H by lia. lia.
Qed.

(** ** Values beside their positions *)
Lemma combine_app {A B} (a1 a2 : list A) (b1 b2 : list B) : length a1 = length b1 -> combine (a1 ++ a2) (b1 ++ b2) = combine a1 b1 ++ combine a2 b2.
Proof. revert b1. induction a1 as [|x a1 IH]; intros [|y b1] H; cbn in *; try discriminate; auto. f_equal. apply IH. lia. Qed.
Lemma combine_flat_map {C A B} (f : C -> list A) (g : C -> list B) l : (forall x, In x l -> length (f x) = length (g x)) ->
  combine (flat_map f l) (flat_map g l) = flat_map (fun x => combine (f x) (g x)) l.
Proof. induction l as [|x l IH]; intro H; cbn; auto. rewrite combine_app by (apply H; now left). f_equal. apply IH. intros. apply H. now right. Qed.
Lemma combine_map {C A B} (f : C -> A) (g : C -> B) l : combine (map f l) (map g l) = map (fun x => (f x, g x)) l.
Proof. induction l; cbn; congruence. Qed.
Lemma flat_map_length_eq {C A B} (f : C -> list A) (g : C -> list B) l : (forall x, In x l -> length (f x) = length (g x)) -> length (flat_map f l) = length (flat_map g l).
Proof. induction l as [|x l IH]; intro H; cbn; auto. rewrite !app_length, H, IH; auto; [intros; apply H; now right|now left]. Qed.
Definition two (a : nat) (f g : vec) : vec := fun c => if (c <? a)%nat then f c else g (c - a)%nat.
Lemma map_two a b (f g : vec) : map f (seq 0 a) ++ map g (seq 0 b) = map (two a f g) (seq 0 (a + b)).
Proof.
  rewrite seq_app, map_app. f_equal.
  - apply map_ext_in. intros c Hc. apply in_seq in Hc. unfold two. destruct (Nat.ltb_spec c a); auto; lia.
  - cbn [Nat.add]. replace (seq a b) with (map (fun j => a + j)%nat (seq 0 b)).
    + rewrite map_map. apply map_ext_in. intros c Hc. unfold two. destruct (Nat.ltb_spec (a + c) a); [lia|]. f_equal. lia.
    + clear. revert a. assert (H : forall k a, map (fun j => a + j)%nat (seq k b) = seq (a + k) b).
      { induction b as [|n IH]; intros k a; cbn [seq map]; auto. f_equal. rewrite IH. f_equal. lia. }
      intro a. rewrite H. f_equal. lia.
Qed.
(** sum over a list *)
Definition lsum {A} (F : A -> R) (l : list A) : R := fold_right (fun a r => F a + r) 0 l.
Lemma lsum_app {A} (F : A -> R) l1 l2 : lsum F (l1 ++ l2) = lsum F l1 + lsum F l2.
Proof. unfold lsum. induction l1 as [|a l1 IH]; cbn [app fold_right]; [now rewrite Rplus_0_l|rewrite IH; now rewrite Rplus_assoc]. Qed.
Lemma lsum_map_seq {A} (F : A -> R) (f : nat -> A) n : lsum F (map f (seq 0 n)) = rsum n (fun i => F (f i)).
Proof. induction n; [reflexivity|]. rewrite seq_S, map_app, lsum_app, IHn. cbn [map Nat.add rsum]. unfold lsum. cbn [fold_right]. now rewrite Rplus_0_r. Qed.
Lemma lsum_flat_seq {A} (F : A -> R) (f : nat -> list A) n : lsum F (flat_map f (seq 0 n)) = rsum n (fun i => lsum F (f i)).
Proof. induction n; [reflexivity|]. rewrite seq_S, flat_map_app, lsum_app, IHn. cbn [flat_map rsum Nat.add]. now rewrite app_nil_r. Qed.

(** values of a block row by row *)
Definition vals (rows cols : nat) (M : mat) : list R := flat_map (fun r => map (M r) (seq 0 cols)) (seq 0 rows).
Lemma length_vals rows cols M : length (vals rows cols M) = (rows * cols)%nat.
Proof. unfold vals. rewrite (flat_map_const _ cols); [now rewrite seq_length|]. intros r _. now rewrite map_length, seq_length. Qed.
Lemma block_sum (F : (nat * nat) * R -> R) r0 c0 rows cols M : lsum F (combine (block r0 c0 rows cols) (vals rows cols M)) =
  rsum rows (fun r => rsum cols (fun c => F (((r0 + r)%nat, (c0 + c)%nat), M r c))).
Proof.
  unfold block, vals. rewrite combine_flat_map by (intros; now rewrite !map_length). rewrite lsum_flat_seq. apply rsum_ext. intros r _.
  rewrite combine_map, lsum_map_seq. reflexivity.
Qed.
Definition jac_row p s x t d : mat := fun r => two (ndx p t + nu p t) (two (ndx p t) (Jg_dx p s x t d r) (Jg_u p s x t d r)) (Jg_dxnext p s x t d r).
Lemma jac_vals p s x : fst (eval_jac_g p s x) =
  flat_map (fun t => vals (ndx p t) (ndx p t + nu p t + ndx p (S t)) (jac_row p s x t (s_data (snd (eval_jac_g p s x)) t))) (seq 0 (p_T p)) ++
  vals (ndx p 0) (ndx p 0) (Jg_ic p s x).
Proof.
  unfold eval_jac_g at 1. cbn [fst]. f_equal. apply flat_map_ext_in. intros t _. apply flat_map_ext_in. intros r _.
  rewrite app_assoc, !map_two. reflexivity.
Qed.
Lemma jac_sum (F : (nat * nat) * R -> R) p s x : lsum F (combine (jac_struct p s) (fst (eval_jac_g p s x))) =
  rsum (p_T p) (fun t => rsum (ndx p t) (fun r => rsum (ndx p t + nu p t + ndx p (S t)) (fun c =>
    F (((cix p t + r)%nat, (s_ixu s t + c)%nat), jac_row p s x t (s_data (snd (eval_jac_g p s x)) t) r c)))) +
  rsum (ndx p 0) (fun r => rsum (ndx p 0) (fun c => F (((cix p (p_T p) + r)%nat, c), Jg_ic p s x r c))).
Proof.
  rewrite jac_struct_eq, jac_vals. rewrite combine_app.
  2:{ apply flat_map_length_eq. intros t _. now rewrite length_block, length_vals. }
  rewrite lsum_app, combine_flat_map by (intros; now rewrite length_block, length_vals). rewrite lsum_flat_seq. f_equal.
  - apply rsum_ext. intros t _. now rewrite block_sum.
  - rewrite block_sum. reflexivity.
Qed.
Lemma jac_vals_length p s x : length (fst (eval_jac_g p s x)) = length (jac_struct p s).
Proof.
  rewrite jac_struct_eq, jac_vals, !app_length, length_block, length_vals. f_equal. apply flat_map_length_eq. intros. now rewrite length_block, length_vals.
Qed.
(** sums that test the row number *)
Lemma cix_inj p t r t' r' : (r < ndx p t)%nat -> (r' < ndx p t')%nat -> (cix p t + r = cix p t' + r')%nat -> t = t' /\ r = r'.
Proof.
  intros H H' E. destruct (lt_eq_lt_dec t t') as [[L| ->]|L].
  - pose proof (cix_mono p t t' L). lia.
  - split; lia.
  - pose proof (cix_mono p t' t L). lia.
Qed.
(** Row i of the Jacobian, given as triplets, applied to v. *)
Definition trip_row (i : nat) (v : vec) (e : (nat * nat) * R) : R := if (fst (fst e) =? i)%nat then snd e * v (snd (fst e)) else 0.
Lemma jac_apply_dyn p s x v t r : (t < p_T p)%nat -> (r < ndx p t)%nat ->
  lsum (trip_row (cix p t + r) v) (combine (jac_struct p s) (fst (eval_jac_g p s x))) =
  rsum (ndx p t + nu p t + ndx p (S t)) (fun c => jac_row p s x t (s_data (snd (eval_jac_g p s x)) t) r c * v (s_ixu s t + c)%nat).
Proof.
  intros Ht Hr. rewrite jac_sum. rewrite (rsum_single (p_T p) t); auto.
  - rewrite (rsum_single (ndx p t) r); auto.
    + rewrite (rsum_0 (ndx p 0)).
      * rewrite Rplus_0_r. apply rsum_ext. intros c _. unfold trip_row. cbn [fst snd]. now rewrite Nat.eqb_refl.
      * intros r' Hr'. apply rsum_0. intros c _. unfold trip_row. cbn [fst snd].
        pose proof (cix_mono p t (p_T p) Ht). destruct (Nat.eqb_spec (cix p (p_T p) + r') (cix p t + r)); auto. lia.
    + intros r' Hr' N. apply rsum_0. intros c _. unfold trip_row. cbn [fst snd].
      destruct (Nat.eqb_spec (cix p t + r') (cix p t + r)); auto. lia.
  - intros t' Ht' N. apply rsum_0. intros r' Hr'. apply rsum_0. intros c _.
    unfold trip_row. cbn [fst snd]. destruct (Nat.eqb_spec (cix p t' + r') (cix p t + r)) as [E|]; auto. apply cix_inj in E; auto. lia.
Qed.
Lemma jac_apply_ic p s x v r : (r < ndx p 0)%nat ->
  lsum (trip_row (cix p (p_T p) + r) v) (combine (jac_struct p s) (fst (eval_jac_g p s x))) = rsum (ndx p 0) (fun c => Jg_ic p s x r c * v c).
Proof.
  intros Hr. rewrite jac_sum. rewrite (rsum_0 (p_T p)).
  - rewrite Rplus_0_l. rewrite (rsum_single (ndx p 0) r); auto.
    + apply rsum_ext. intros c _. unfold trip_row. cbn [fst snd]. now rewrite Nat.eqb_refl.
    + intros r' Hr' N. apply rsum_0. intros c _. unfold trip_row. cbn [fst snd].
      destruct (Nat.eqb_spec (cix p (p_T p) + r') (cix p (p_T p) + r)); auto. lia.
  - intros t' Ht'. apply rsum_0. intros r' Hr'. apply rsum_0. intros c _.
    unfold trip_row. cbn [fst snd]. pose proof (cix_mono p t' (p_T p) Ht'). destruct (Nat.eqb_spec (cix p t' + r') (cix p (p_T p) + r)) as [E|]; auto. lia.
Qed.

(** ** Arrays written segment by segment *)
Lemma writes_app a w1 w2 : writes a (w1 ++ w2) = writes (writes a w1) w2.
Proof. apply fold_left_app. Qed.
Lemma writes_other ws : forall a j, (forall w, In w ws -> fst w <> j) -> writes a ws j = a j.
Proof.
  induction ws as [|w ws IH]; intros a j H; auto. cbn. unfold writes in IH. rewrite IH by (intros; apply H; now right).
  unfold write, put. destruct (Nat.eqb_spec j (fst w)) as [E|]; auto. exfalso. apply (H w); [now left|auto].
Qed.
Lemma writes_in ws : forall a j v, NoDup (map fst ws) -> In (j, v) ws -> writes a ws j = v.
Proof.
  induction ws as [|w ws IH]; intros a j v HN H; [easy|]. inversion HN as [|? ? Hn Hd]; subst. cbn. destruct H as [->|H].
  - fold (writes (write a (j, v)) ws). rewrite writes_other.
    + unfold write, put. cbn. now rewrite Nat.eqb_refl.
    + intros w Hw E. apply Hn. cbn. rewrite <- E. now apply in_map.
  - apply (IH _ _ _ Hd H).
Qed.
Lemma map_fst_seg o n f : map fst (write_seg o n f) = seq o n.
Proof.
  unfold write_seg. rewrite map_map. cbn [fst]. revert o. assert (H : forall k o, map (fun j => o + j)%nat (seq k n) = seq (o + k) n).
  { induction n as [|m IH]; intros k o; cbn [seq map]; auto. f_equal. rewrite IH. f_equal. lia. }
  intro o. rewrite H. f_equal. lia.
Qed.
(** the pattern of grad_f, bounds and starting point: every variable is written exactly once *)
Definition per_node p s (fx fu : nat -> vec) : list (nat * R) :=
  flat_map (fun t => write_seg (s_ixu s t) (ndx p t) (fx t) ++ write_seg (s_ixu s t + ndx p t) (nu p t) (fu t)) (seq 0 (p_T p)) ++
  write_seg (s_ixu s (p_T p)) (ndx p (p_T p)) (fx (p_T p)).
Lemma per_node_positions p s fx fu : laid p s -> map fst (per_node p s fx fu) = seq 0 (s_nvar s).
Proof.
  intros [HT [Hx [Hv _]]]. unfold per_node. rewrite map_app, map_fst_seg, Hx, Hv by lia.
  assert (H : forall k, (k <= p_T p)%nat -> map fst (flat_map (fun t => write_seg (s_ixu s t) (ndx p t) (fx t) ++ write_seg (s_ixu s t + ndx p t) (nu p t) (fu t)) (seq 0 k)) = seq 0 (off p k)).
  { induction k as [|k IH]; intro Hk; auto. rewrite seq_S, flat_map_app, map_app, IH by lia. cbn [flat_map Nat.add]. rewrite app_nil_r, map_app, !map_fst_seg, Hx by lia.
    rewrite off_S, !seq_app, <- app_assoc. reflexivity. }
  rewrite H by lia. rewrite seq_app. reflexivity.
Qed.
Lemma in_seg o n f j : (j < n)%nat -> In ((o + j)%nat, f j) (write_seg o n f).
Proof. intro H. unfold write_seg. apply in_map_iff. exists j. split; auto. apply in_seq. lia. Qed.
Lemma per_node_x p s fx fu a t j : laid p s -> (t <= p_T p)%nat -> (j < ndx p t)%nat -> writes a (per_node p s fx fu) (off p t + j)%nat = fx t j.
Proof.
  intros HL Ht Hj. apply writes_in; [rewrite per_node_positions; auto; apply seq_NoDup|].
  unfold per_node. apply in_app_iff. destruct (Nat.eq_dec t (p_T p)) as [->|N].
  - right. destruct HL as [_ [Hx _]]. rewrite Hx by lia. now apply in_seg.
  - left. apply in_flat_map. exists t. split; [apply in_seq; lia|]. apply in_app_iff. left. destruct HL as [_ [Hx _]]. rewrite Hx by lia. now apply in_seg.
Qed.
Lemma per_node_u p s fx fu a t j : laid p s -> (t < p_T p)%nat -> (j < nu p t)%nat -> writes a (per_node p s fx fu) (off p t + ndx p t + j)%nat = fu t j.
Proof.
  intros HL Ht Hj. apply writes_in; [rewrite per_node_positions; auto; apply seq_NoDup|].
  unfold per_node. apply in_app_iff. left. apply in_flat_map. exists t. split; [apply in_seq; lia|]. apply in_app_iff. right. destruct HL as [_ [Hx _]]. rewrite Hx by lia. now apply in_seg.
Qed.
(** the constraint vector *)
Lemma g_loop_spec p xd k : forall t, g_loop p xd k t (cix p t) = (flat_map (fun i => write_seg (cix p i) (ndx p i) (xd i)) (seq t k), cix p (t + k)).
Proof.
  induction k as [|k IH]; intro t; cbn [g_loop seq flat_map]; [now rewrite Nat.add_0_r|].
  change (cix p t + ndx p t)%nat with (cix p (S t)). rewrite IH. replace (S t + k)%nat with (t + S k)%nat by lia. reflexivity.
Qed.
Definition g_writes p s x : list (nat * R) := fst (eval_g p s x).
Definition g_dyn p s x (t : nat) : vec := i_diff (p_node p t) (d_xnext (do_calc p s x t (s_data s t))) (v_xnext p s x t).
Definition g_ic p s x : vec := i_diff (p_node p 0) (i_int (p_node p 0) (s_xs s 0%nat) (seg x 0 (ndx p 0))) (p_x0 p).
Lemma g_writes_eq p s x : g_writes p s x =
  flat_map (fun t => write_seg (cix p t) (ndx p t) (g_dyn p s x t)) (seq 0 (p_T p)) ++ write_seg (cix p (p_T p)) (ndx p 0) (g_ic p s x).
Proof.
  unfold g_writes, eval_g. rewrite (g_loop_spec p _ (p_T p) 0 : g_loop p _ (p_T p) 0 0 = _). cbn [fst Nat.add]. f_equal.
  apply flat_map_ext_in. intros t Ht. apply in_seq in Ht. unfold g_dyn. f_equal. f_equal. cbn [s_data on_nodes set_data].
  destruct (Nat.ltb_spec t (p_T p)); auto; lia.
Qed.
Lemma g_positions p s x : map fst (g_writes p s x) = seq 0 (cix p (p_T p) + ndx p 0).
Proof.
  rewrite g_writes_eq, map_app, map_fst_seg.
  assert (H : forall k, map fst (flat_map (fun t => write_seg (cix p t) (ndx p t) (g_dyn p s x t)) (seq 0 k)) = seq 0 (cix p k)).
  { induction k as [|k IH]; auto. rewrite seq_S, flat_map_app, map_app, IH. cbn [flat_map Nat.add]. rewrite app_nil_r, map_fst_seg. cbn [cix nsum]. now rewrite seq_app. }
  rewrite H, seq_app. reflexivity.
Qed.
Lemma g_value_dyn p s x a t r : (t < p_T p)%nat -> (r < ndx p t)%nat -> writes a (g_writes p s x) (cix p t + r)%nat = g_dyn p s x t r.
Proof.
  intros Ht Hr. apply writes_in; [rewrite g_positions; apply seq_NoDup|]. rewrite g_writes_eq. apply in_app_iff. left. apply in_flat_map. exists t.
  split; [apply in_seq; lia|]. now apply in_seg.
Qed.
Lemma g_value_ic p s x a r : (r < ndx p 0)%nat -> writes a (g_writes p s x) (cix p (p_T p) + r)%nat = g_ic p s x r.
Proof.
  intros Hr. apply writes_in; [rewrite g_positions; apply seq_NoDup|]. rewrite g_writes_eq. apply in_app_iff. right. now apply in_seg.
Qed.

(** ** The Hessian *)
Definition lvals (n : nat) (M : mat) : list R := flat_map (fun r => map (M r) (seq 0 (S r))) (seq 0 n).
Lemma flat_two {B} a b (f g : nat -> list B) : flat_map f (seq 0 a) ++ flat_map g (seq 0 b) = flat_map (fun r => if (r <? a)%nat then f r else g (r - a)%nat) (seq 0 (a + b)).
Proof.
  rewrite seq_app, flat_map_app. f_equal.
  - apply flat_map_ext_in. intros c Hc. apply in_seq in Hc. destruct (Nat.ltb_spec c a); auto; lia.
  - cbn [Nat.add]. assert (H : forall k, flat_map (fun r => if (r <? a)%nat then f r else g (r - a)%nat) (seq (a + k) b) = flat_map g (seq k b)).
    { induction b as [|n IH]; intro k; cbn [seq flat_map]; auto. destruct (Nat.ltb_spec (a + k) a); [lia|]. replace (a + k - a)%nat with k by lia. f_equal.
      replace (S (a + k)) with (a + S k)%nat by lia. apply IH. }
    rewrite <- (H 0%nat). now rewrite Nat.add_0_r.
Qed.
Definition hess_full p s x t (d : idata P) : mat := fun r =>
  if (r <? ndx p t)%nat then two (ndx p t) (Ldxdx p s x t d r) (Ldxu p s x t d r)
  else two (ndx p t) (fun c => Ldxu p s x t d c (r - ndx p t)%nat) (d_Luu d (r - ndx p t)%nat).
Lemma hess_vals p s x sigma : let d := s_data (snd (eval_h p s x sigma)) in fst (eval_h p s x sigma) =
  flat_map (fun t => lvals (ndx p t + nu p t) (fun r c => sigma * hess_full p s x t (d t) r c)) (seq 0 (p_T p)) ++
  lvals (ndx p (p_T p)) (Ldxdx p s x (p_T p) (d (p_T p))).
Proof.
  cbv zeta. unfold eval_h at 1. cbn [fst]. set (d := s_data (snd (eval_h p s x sigma))).
  change (s_data (on_nodes p (do_diff p s x) (fun t dd => do_diff p s x t (do_calc p s x t dd)) s)) with d. clearbody d. f_equal.
  - apply flat_map_ext_in. intros t _. unfold lvals. rewrite flat_two. apply flat_map_ext_in. intros r Hr. apply in_seq in Hr.
    unfold hess_full. destruct (Nat.ltb_spec r (ndx p t)) as [L|L].
    + rewrite until_above_row by lia. apply map_ext_in. intros c Hc. apply in_seq in Hc. unfold two. destruct (Nat.ltb_spec c (ndx p t)); auto; lia.
    + rewrite until_above_row by lia.
      rewrite (map_two (ndx p t) (S (r - ndx p t)) (fun c => sigma * Ldxu p s x t (d t) c (r - ndx p t)%nat) (fun c => sigma * d_Luu (d t) (r - ndx p t)%nat c)).
      replace (ndx p t + S (r - ndx p t))%nat with (S r) by lia. apply map_ext. intro c. unfold two. destruct (c <? ndx p t)%nat; reflexivity.
  - apply flat_map_ext_in. intros r Hr. apply in_seq in Hr. rewrite until_above_row by lia. reflexivity.
Qed.
Lemma lower_sum (F : (nat * nat) * R -> R) o n M : lsum F (combine (lower o n) (lvals n M)) = rsum n (fun r => rsum (S r) (fun c => F (((o + r)%nat, (o + c)%nat), M r c))).
Proof.
  rewrite lower_seq. unfold lvals. rewrite combine_flat_map by (intros; now rewrite !map_length). rewrite lsum_flat_seq. apply rsum_ext. intros r _.
  rewrite combine_map, lsum_map_seq. reflexivity.
Qed.
Lemma length_lvals n M : length (lvals n M) = count_lower n.
Proof. unfold lvals. rewrite flat_map_length_seq, count_lower_nsum. apply nsum_ext. intros i _. now rewrite map_length, seq_length. Qed.
Lemma hess_sum (F : (nat * nat) * R -> R) p s x sigma : let d := s_data (snd (eval_h p s x sigma)) in
  lsum F (combine (hess_struct p s) (fst (eval_h p s x sigma))) =
  rsum (p_T p) (fun t => rsum (ndx p t + nu p t) (fun r => rsum (S r) (fun c => F (((s_ixu s t + r)%nat, (s_ixu s t + c)%nat), sigma * hess_full p s x t (d t) r c)))) +
  rsum (ndx p (p_T p)) (fun r => rsum (S r) (fun c => F (((s_ixu s (p_T p) + r)%nat, (s_ixu s (p_T p) + c)%nat), Ldxdx p s x (p_T p) (d (p_T p)) r c))).
Proof.
  cbv zeta. rewrite hess_vals. cbv zeta. unfold hess_struct. rewrite combine_app.
  2:{ apply flat_map_length_eq. intros t _. now rewrite length_lower, length_lvals. }
  rewrite lsum_app, combine_flat_map by (intros; now rewrite length_lower, length_lvals). rewrite lsum_flat_seq, lower_sum. f_equal.
  apply rsum_ext. intros t _. now rewrite lower_sum.
Qed.
Lemma hess_vals_length p s x sigma : length (fst (eval_h p s x sigma)) = length (hess_struct p s).
Proof.
  rewrite hess_vals. cbv zeta. unfold hess_struct. rewrite !app_length, length_lower, length_lvals. f_equal. apply flat_map_length_eq. intros. now rewrite length_lower, length_lvals.
Qed.
(** The quadratic form of a symmetric matrix given by the triplets of its lower triangle. *)
Definition trip_quad (v : vec) (e : (nat * nat) * R) : R :=
  let '((r, c), m) := e in (if (r =? c)%nat then 1 else 2) * (m * v r * v c).
Lemma tri_quad n M (v : vec) o : sym n M ->
  rsum n (fun r => rsum (S r) (fun c => trip_quad v (((o + r)%nat, (o + c)%nat), M r c))) = bil n n M (fun i => v (o + i)%nat) (fun i => v (o + i)%nat).
Proof.
  induction n as [|n IH]; intro H; [reflexivity|]. 
  change (rsum (S n) (fun r => rsum (S r) (fun c => trip_quad v (((o + r)%nat, (o + c)%nat), M r c)))) with
    (rsum n (fun r => rsum (S r) (fun c => trip_quad v (((o + r)%nat, (o + c)%nat), M r c))) + rsum (S n) (fun c => trip_quad v (((o + n)%nat, (o + c)%nat), M n c))).
  rewrite IH by (intros i j Hi Hj; apply H; lia).
  unfold bil, dot, mulv. cbn [rsum].
  rewrite (rsum_ext n (fun i => v (o + i)%nat * (rsum n (fun j => M i j * v (o + j)%nat) + M i n * v (o + n)%nat))
    (fun i => v (o + i)%nat * rsum n (fun j => M i j * v (o + j)%nat) + v (o + n)%nat * (M n i * v (o + i)%nat))).
  2:{ intros i Hi. rewrite (H i n) by lia. ring. }
  rewrite rsum_plus, rsum_scal. unfold trip_quad. rewrite Nat.eqb_refl.
  rewrite (rsum_ext n (fun c => (if (o + n =? o + c)%nat then 1 else 2) * (M n c * v (o + n)%nat * v (o + c)%nat)) (fun c => 2 * v (o + n)%nat * (M n c * v (o + c)%nat))).
  2:{ intros c Hc. destruct (Nat.eqb_spec (o + n) (o + c)); [lia|]. ring. }
  rewrite rsum_scal. ring.
Qed.
Lemma full_quad p s x t d (v w : vec) (z : vec) : sym (ndx p t) (d_Lxx d) -> sym (nu p t) (d_Luu d) ->
  (forall i, (i < ndx p t)%nat -> z i = v i) -> (forall i, (i < nu p t)%nat -> z (ndx p t + i)%nat = w i) ->
  sym (ndx p t + nu p t) (hess_full p s x t d) /\
  bil (ndx p t + nu p t) (ndx p t + nu p t) (hess_full p s x t d) z z =
  quad (ndx p t) (nu p t) (d_Lxx d) (d_Lxu d) (d_Luu d) (mulv (ndx p t) (i_Jint (p_node p t) (s_xs s t) (v_dx p s x t)) v) w.
Proof.
  intros H1 H2 Hv Hw. set (J := i_Jint (p_node p t) (s_xs s t) (v_dx p s x t)). set (n := ndx p t) in *. set (m := nu p t) in *.
  assert (HX : Ldxdx p s x t d = mulm n (mulm n (tr J) (d_Lxx d)) J) by reflexivity. assert (HU : Ldxu p s x t d = mulm n (tr J) (d_Lxu d)) by reflexivity.
  assert (HXs : forall a b, bil n n (Ldxdx p s x t d) a b = bil n n (d_Lxx d) (mulv n J a) (mulv n J b)).
  { intros a b. rewrite HX, bil_mulr, bil_mull. reflexivity. }
  assert (HS : sym n (Ldxdx p s x t d)).
  { apply sym_bil. intros a b. rewrite !HXs. now apply bil_sym. }
  split.
  - intros i j Hi Hj. unfold hess_full. fold n. unfold two.
    destruct (Nat.ltb_spec i n) as [L|L], (Nat.ltb_spec j n) as [L'|L']; try rewrite (proj2 (Nat.ltb_lt i n) L); try rewrite (proj2 (Nat.ltb_ge i n) L); auto; apply H2; lia.
  - assert (E : bil (n + m) (n + m) (hess_full p s x t d) z z = bil n n (Ldxdx p s x t d) v v + bil n m (Ldxu p s x t d) v w + (bil n m (Ldxu p s x t d) v w + bil m m (d_Luu d) w w)).
    { unfold bil at 1. unfold dot. rewrite rsum_app. f_equal.
      - unfold bil, dot. rewrite <- rsum_plus. apply rsum_ext. intros i Hi. unfold mulv. rewrite rsum_app, Hv by auto.
        rewrite Rmult_plus_distr_l. f_equal; f_equal; apply rsum_ext; intros j Hj; unfold hess_full; fold n; destruct (Nat.ltb_spec i n); try lia; unfold two.
        + destruct (Nat.ltb_spec j n); try lia. now rewrite Hv.
        + destruct (Nat.ltb_spec (n + j) n); try lia. rewrite Hw by auto. now replace (n + j - n)%nat with j by lia.
      - rewrite <- (bil_tr m n). unfold bil, dot. rewrite <- rsum_plus. apply rsum_ext. intros i Hi. unfold mulv. rewrite rsum_app, Hw by auto.
        rewrite Rmult_plus_distr_l. f_equal; f_equal; apply rsum_ext; intros j Hj; unfold hess_full; fold n; destruct (Nat.ltb_spec (n + i) n); try lia; unfold two.
        + destruct (Nat.ltb_spec j n); try lia. rewrite Hv by auto. unfold tr. now replace (n + i - n)%nat with i by lia.
        + destruct (Nat.ltb_spec (n + j) n); try lia. rewrite Hw by auto. replace (n + j - n)%nat with j by lia. now replace (n + i - n)%nat with i by lia. }
    rewrite E, HXs, HU, bil_mull. unfold quad. change (dot n (mulv n J v) (mulv n (d_Lxx d) (mulv n J v))) with (bil n n (d_Lxx d) (mulv n J v) (mulv n J v)).
    change (dot n (mulv n J v) (mulv m (d_Lxu d) w)) with (bil n m (d_Lxu d) (mulv n J v) w). change (dot m w (mulv m (d_Luu d) w)) with (bil m m (d_Luu d) w w). ring.
Qed.
End Proofs.
