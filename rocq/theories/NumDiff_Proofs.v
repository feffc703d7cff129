(** Lemmas about the finite-difference loops of NumDiff_Model. *)
From Coquelicot Require Import Coquelicot.
From Coq Require Import Reals List Arith Bool Lia Lra FunctionalExtensionality.
From Verif Require Import Deriv VecMat NumDiff_Spec NumDiff_Model.
Import ListNotations.
Open Scope R_scope.

Lemma for_ind (T : Type) a n (f : nat -> T -> T) s (P : nat -> T -> Prop) :
  P a s -> (forall i s, (a <= i < a + n)%nat -> P i s -> P (S i) (f i s)) -> P (a + n)%nat (for_ a n f s).
Proof.
unfold for_. revert a s. induction n as [|n IH]; intros a s H0 H.
- cbn [seq fold_left]. now rewrite Nat.add_0_r.
- cbn [seq fold_left]. replace (a + S n)%nat with (S a + n)%nat by lia. apply IH.
  + apply H; [lia|exact H0].
  + intros i t Hi. apply H. lia.
Qed.

(** x + h e_i *)
Definition bump (i : nat) (h : R) : vec := fun k => if Nat.eqb k i then h else 0.

Lemma setv_zero i h : setv i h zerov = bump i h.
Proof. reflexivity. Qed.
Lemma setv_back i h : setv i 0 (bump i h) = zerov.
Proof. apply functional_extensionality; intro k. unfold setv, bump, zerov. now destruct (Nat.eqb k i). Qed.
Lemma bump2_ij i j h : i <> j -> setv i 0 (setv j h (bump i h)) = bump j h.
Proof.
intro H. apply functional_extensionality; intro k. unfold setv, bump.
destruct (Nat.eqb_spec k i); destruct (Nat.eqb_spec k j); subst; try reflexivity. now elim H.
Qed.
Lemma bump2_back i j h : i <> j -> setv j 0 (setv i h (bump j h)) = bump i h.
Proof. intro H. apply functional_extensionality; intro k. unfold setv, bump.
destruct (Nat.eqb_spec k i); destruct (Nat.eqb_spec k j); subst; try reflexivity. now elim H.
Qed.
Lemma bump_neg i h : (fun k => - bump i h k) = bump i (- h).
Proof. apply functional_extensionality; intro k. unfold bump. destruct (Nat.eqb k i); lra. Qed.

Section Loops.
Variables (cf : nconf) (n : nat) (f : vec -> outs) (o0 : outs) (g0 : vec) (h : R).

Lemma jac_loop_spec F L Rr G :
  let '(dx, F', L', R', G') := jac_loop cf n f o0 g0 h zerov F L Rr G in
  dx = zerov /\ forall j, (j < n)%nat ->
    (forall k, F' k j = o_next (f (bump j h)) k - o_next o0 k) /\
    L' j = (o_cost (f (bump j h)) - o_cost o0) / h /\
    (gauss cf = true -> forall k, R' k j = (o_res (f (bump j h)) k - o_res o0 k) / h) /\
    (forall k, G' k j = (o_con (f (bump j h)) k - g0 k) / h).
Proof.
pose (P := fun (i : nat) (s : vec * mat * vec * mat * mat) =>
  let '(dx, F', L', R', G') := s in
  dx = zerov /\ forall j, (j < i)%nat ->
    (forall k, F' k j = o_next (f (bump j h)) k - o_next o0 k) /\
    L' j = (o_cost (f (bump j h)) - o_cost o0) / h /\
    (gauss cf = true -> forall k, R' k j = (o_res (f (bump j h)) k - o_res o0 k) / h) /\
    (forall k, G' k j = (o_con (f (bump j h)) k - g0 k) / h)).
change (P n (jac_loop cf n f o0 g0 h zerov F L Rr G)).
unfold jac_loop. change n with (0 + n)%nat at 1. apply for_ind.
- split; [reflexivity|intros; lia].
- intros i [[[[dx F'] L'] R'] G'] Hi [Hd H]. subst dx. unfold jac_step. rewrite setv_zero. split; [apply setv_back|].
  intros j Hj. unfold setcol, setv. destruct (Nat.eqb_spec j i) as [->|Ne].
  + split; [|split; [|split]]; try reflexivity. intros Hg k. rewrite Hg. now rewrite Nat.eqb_refl.
  + destruct (H j) as (H1 & H2 & H3 & H4); [lia|]. split; [|split; [|split]]; auto.
    intros Hg k. rewrite Hg. destruct (Nat.eqb_spec j i); [now elim Ne|]. apply H3, Hg.
Qed.

Definition dhess i := (o_cost (f (bump i h)) - 2 * o_cost o0 + o_cost (f (bump i (- h)))) / (h * h).
Definition ohess i j := (o_cost (f (setv j h (bump i h))) - o_cost (f (bump j h)) - o_cost (f (bump i h)) + o_cost o0) / (h * h).

Lemma hess_loop_spec H :
  let '(dx, H') := hess_loop n f o0 h zerov H in
  dx = zerov /\ (forall i, (i < n)%nat -> H' i i = dhess i) /\
  (forall i j, (i < j)%nat -> (j < n)%nat -> H' i j = ohess i j /\ H' j i = ohess i j).
Proof.
pose (P := fun (m : nat) (s : vec * mat) => let '(dx, H') := s in
  dx = zerov /\ (forall i, (i < m)%nat -> H' i i = dhess i) /\
  (forall i j, (i < m)%nat -> (i < j)%nat -> (j < n)%nat -> H' i j = ohess i j /\ H' j i = ohess i j)).
assert (HP : P n (hess_loop n f o0 h zerov H)).
{ unfold hess_loop. change n with (0 + n)%nat at 1. apply for_ind.
  - split; [reflexivity|]. split; intros; lia.
  - intros i [dx M] Hi (Hd & HD & HO). subst dx. unfold hess_step. rewrite setv_zero, bump_neg.
    pose (Q := fun (m : nat) (s : vec * mat) => let '(dx, M') := s in
      dx = bump i h /\ (forall k, (k < S i)%nat -> M' k k = dhess k) /\
      (forall k l, (k < i)%nat -> (k < l)%nat -> (l < n)%nat -> M' k l = ohess k l /\ M' l k = ohess k l) /\
      (forall l, (i < l)%nat -> (l < m)%nat -> M' i l = ohess i l /\ M' l i = ohess i l)).
    assert (HQ : Q (i + 1 + (n - (i + 1)))%nat
      (for_ (i + 1) (n - (i + 1)) (hess_inner f o0 h i (o_cost (f (bump i h))))
         (bump i h, setm i i ((o_cost (f (bump i h)) - 2 * o_cost o0 + o_cost (f (bump i (- h)))) / (h * h)) M))).
    { apply for_ind.
      - split; [reflexivity|]. split; [|split].
        + intros k Hk. unfold setm. destruct (Nat.eqb_spec k i) as [->|Ne]; [reflexivity|]. apply HD. lia.
        + intros k l Hk Hl Hn. destruct (HO k l Hk Hl Hn) as [A B]. unfold setm.
          destruct (Nat.eqb_spec k i); [lia|]. cbn [andb]. rewrite andb_false_r. now split.
        + intros l A B. lia.
      - intros j [dx M'] Hj (Hd & H1 & H2 & H3). subst dx. unfold hess_inner.
        assert (Hij : i <> j) by lia. rewrite (bump2_ij i j h Hij), (bump2_back i j h Hij). split; [reflexivity|].
        split; [|split].
        + intros k Hk. unfold setm. destruct (Nat.eqb_spec k i), (Nat.eqb_spec k j); try lia; cbn [andb]; apply H1; lia.
        + intros k l Hk Hl Hn. destruct (H2 k l Hk Hl Hn) as [A B]. unfold setm.
          destruct (Nat.eqb_spec k i), (Nat.eqb_spec k j), (Nat.eqb_spec l i), (Nat.eqb_spec l j); try lia; cbn [andb]; now split.
        + intros l A B. unfold setm. destruct (Nat.eqb_spec l j) as [->|Ne].
          * rewrite !Nat.eqb_refl. destruct (Nat.eqb_spec i j), (Nat.eqb_spec j i); try lia. cbn [andb]. now split.
          * destruct (H3 l A) as [C D]; [lia|].
            destruct (Nat.eqb_spec l i), (Nat.eqb_spec i i), (Nat.eqb_spec i j); try lia; cbn [andb]; now split. }
    destruct (for_ _ _ _ _) as [dx M'] eqn:E. destruct HQ as (Hd & H1 & H2 & H3). subst dx. rewrite setv_back.
    split; [reflexivity|]. split; [exact H1|].
    intros k l Hk Hl Hn. destruct (Nat.eq_dec k i) as [->|Ne]; [apply H3; lia|apply H2; lia]. }
unfold P in HP. destruct (hess_loop _ _ _ _ _ _) as [dx M]. destruct HP as (Hd & HD & HO).
split; [exact Hd|]. split; [exact HD|]. intros i j Hi Hj. apply HO; lia.
Qed.
End Loops.

Lemma mixed_loop_spec nx nu m x u hx hu H :
  let '(dx, du, H') := mixed_loop nx nu m x u hx hu (zerov, zerov, H) in
  dx = zerov /\ du = zerov /\ forall i j, (i < nx)%nat -> (j < nu)%nat -> H' i j =
    (o_cost (n_calc m (vplus x (bump i hx)) (vplus u (bump j hu))) - o_cost (n_calc m (vplus x (bump i hx)) (vminus u (bump j hu)))
     - o_cost (n_calc m (vplus x (bump i (- hx))) (vplus u (bump j hu))) + o_cost (n_calc m (vplus x (bump i (- hx))) (vminus u (bump j hu))))
    / (4 * hx * hu).
Proof.
set (e := fun i j => (o_cost (n_calc m (vplus x (bump i hx)) (vplus u (bump j hu))) - o_cost (n_calc m (vplus x (bump i hx)) (vminus u (bump j hu)))
     - o_cost (n_calc m (vplus x (bump i (- hx))) (vplus u (bump j hu))) + o_cost (n_calc m (vplus x (bump i (- hx))) (vminus u (bump j hu))))
    / (4 * hx * hu)).
pose (P := fun (r : nat) (s : vec * vec * mat) => let '(dx, du, H') := s in
  dx = zerov /\ du = zerov /\ forall i j, (i < r)%nat -> (j < nu)%nat -> H' i j = e i j).
change (P nx (mixed_loop nx nu m x u hx hu (zerov, zerov, H))).
unfold mixed_loop. change nx with (0 + nx)%nat at 1. apply for_ind.
- split; [reflexivity|]. split; [reflexivity|]. intros; lia.
- intros i [[dx du] M] Hi (Hx & Hu & HM). subst dx du.
  pose (Q := fun (r : nat) (s : vec * vec * mat) => let '(dx, du, H') := s in
    dx = zerov /\ du = zerov /\ (forall k j, (k < i)%nat -> (j < nu)%nat -> H' k j = e k j) /\ (forall j, (j < r)%nat -> H' i j = e i j)).
  assert (HQ : Q nu (for_ 0 nu (fun j s => mixed_step m x u hx hu i j s) (zerov, zerov, M))).
  { change nu with (0 + nu)%nat at 1. apply for_ind.
    - split; [reflexivity|]. split; [reflexivity|]. split; [exact HM|]. intros; lia.
    - intros j [[dx du] M'] Hj (Hx & Hu & H1 & H2). subst dx du. unfold mixed_step. rewrite !setv_zero, !setv_back, bump_neg.
      split; [reflexivity|]. split; [reflexivity|]. split.
      + intros k l Hk Hl. unfold setm. destruct (Nat.eqb_spec k i); [lia|]. cbn [andb]. now apply H1.
      + intros l Hl. unfold setm. rewrite Nat.eqb_refl. cbn [andb]. destruct (Nat.eqb_spec l j) as [->|Ne]; [reflexivity|].
        apply H2. lia. }
  cbv beta. destruct (for_ 0 nu _ _) as [[dx du] M']. destruct HQ as (Hx & Hu & H1 & H2).
  split; [exact Hx|]. split; [exact Hu|]. intros k j Hk Hj. destruct (Nat.eq_dec k i) as [->|Ne]; [now apply H2|apply H1; lia].
Qed.

Lemma act_loop_spec nr a h a0 r Ar0 :
  let '(rp, Ar) := for_ 0 nr (act_step a h a0) (r, Ar0) in
  rp = r /\ forall i, (i < nr)%nat -> Ar i = (a (vplus r (bump i h)) - a0) / h.
Proof.
pose (P := fun (m : nat) (s : vec * vec) => let '(rp, Ar) := s in
  rp = r /\ forall i, (i < m)%nat -> Ar i = (a (vplus r (bump i h)) - a0) / h).
change (P nr (for_ 0 nr (act_step a h a0) (r, Ar0))). change nr with (0 + nr)%nat at 1. apply for_ind.
- split; [reflexivity|intros; lia].
- intros i [rp Ar] Hi [Hr HA]. subst rp. unfold act_step.
  assert (E : setv i (r i + h) r = vplus r (bump i h)).
  { apply functional_extensionality; intro k. unfold setv, vplus, bump. destruct (Nat.eqb_spec k i); subst; lra. }
  rewrite E. split.
  + apply functional_extensionality; intro k. unfold setv, vplus, bump. destruct (Nat.eqb_spec k i); subst; [rewrite Nat.eqb_refl|]; lra.
  + intros j Hj. unfold setv. destruct (Nat.eqb_spec j i) as [->|Ne]; [reflexivity|]. apply HA. lia.
Qed.

Lemma col_loop_spec n h (f : vec -> vec) :
  let '(_, J) := for_ 0 n (fun i s => let '(dx, J) := s in let dx := setv i h dx in
      (setv i 0 dx, setcol i (f dx) J)) (zerov, fun _ _ => 0) in
  forall i j, (j < n)%nat -> J i j = f (bump j h) i.
Proof.
pose (P := fun (m : nat) (s : vec * mat) => let '(dx, J) := s in
  dx = zerov /\ forall i j, (j < m)%nat -> (J : mat) i j = f (bump j h) i).
assert (HP : P n (for_ 0 n (fun i s => let '(dx, J) := s in let dx := setv i h dx in
      (setv i 0 dx, setcol i (f dx) J)) (zerov, fun _ _ => 0))).
{ change n with (0 + n)%nat at 1. apply for_ind.
  - split; [reflexivity|intros; lia].
  - intros i [dx J] Hi [Hd HJ]. subst dx. cbv zeta. rewrite setv_zero. split; [apply setv_back|].
    intros k j Hj. unfold setcol. destruct (Nat.eqb_spec j i) as [->|Ne]; [reflexivity|]. apply HJ. lia. }
destruct (for_ _ _ _ _) as [dx J]. apply HP.
Qed.

Lemma step_pos e v : 0 < e -> 0 < e * Rmax 1 v.
Proof. intro H. apply Rmult_lt_0_compat; [exact H|]. pose proof (Rmax_l 1 v). lra. Qed.

(** ** Displacing one coordinate. *)
Lemma vplus_bump x i h : vplus x (bump i h) = shift x i h.
Proof. apply functional_extensionality; intro k. unfold vplus, bump, shift. destruct (Nat.eqb k i); lra. Qed.
Lemma vminus_bump x i h : vminus x (bump i h) = shift x i (- h).
Proof. apply functional_extensionality; intro k. unfold vminus, bump, shift. destruct (Nat.eqb k i); lra. Qed.
Lemma vplus_bump2 x i j h : i <> j -> vplus x (setv j h (bump i h)) = shift (shift x i h) j h.
Proof.
intro H. apply functional_extensionality; intro k. unfold vplus, setv, bump, shift.
destruct (Nat.eqb_spec k i), (Nat.eqb_spec k j); subst; try lra. now elim H.
Qed.
Lemma shift_comm x i j h h' : shift (shift x i h) j h' = shift (shift x j h') i h.
Proof. apply functional_extensionality; intro k. unfold shift. destruct (Nat.eqb k i), (Nat.eqb k j); lra. Qed.
Lemma shift_back x i h : shift (shift x i h) i (- h) = x.
Proof. apply functional_extensionality; intro k. unfold shift. destruct (Nat.eqb k i); lra. Qed.
Lemma shift_0 x i : shift x i 0 = x.
Proof. apply functional_extensionality; intro k. unfold shift. destruct (Nat.eqb k i); lra. Qed.

Lemma mulv_shift n A x j h i : (j < n)%nat -> mulv n A (shift x j h) i = mulv n A x i + h * A i j.
Proof.
intro Hj. unfold mulv. rewrite (rsum_split n j (fun k => A i k * shift x j h k) (fun k => A i k * x k) Hj).
- unfold shift. rewrite Nat.eqb_refl. ring.
- intros k Hk Ne. unfold shift. destruct (Nat.eqb_spec k j); [now elim Ne|reflexivity].
Qed.
Lemma dot_shift_l n x b i h : (i < n)%nat -> dot n (shift x i h) b = dot n x b + h * b i.
Proof.
intro Hi. unfold dot. rewrite (rsum_split n i (fun k => shift x i h k * b k) (fun k => x k * b k) Hi).
- unfold shift. rewrite Nat.eqb_refl. ring.
- intros k Hk Ne. unfold shift. destruct (Nat.eqb_spec k i); [now elim Ne|reflexivity].
Qed.
Lemma dot_shift_r n a x i h : (i < n)%nat -> dot n a (shift x i h) = dot n a x + h * a i.
Proof.
intro Hi. unfold dot. rewrite (rsum_split n i (fun k => a k * shift x i h k) (fun k => a k * x k) Hi).
- unfold shift. rewrite Nat.eqb_refl. ring.
- intros k Hk Ne. unfold shift. destruct (Nat.eqb_spec k i); [now elim Ne|reflexivity].
Qed.
Lemma dot_mulv_shift n m a A x j h : (j < m)%nat -> dot n a (mulv m A (shift x j h)) = dot n a (mulv m A x) + h * mulv n (tr A) a j.
Proof.
intro Hj. unfold dot, mulv at 3. unfold tr. rewrite <- rsum_scal, <- rsum_plus. apply rsum_ext. intros k Hk.
rewrite mulv_shift by exact Hj. ring.
Qed.

(** ** Mean values: a difference over a rectangle is its area times a mixed derivative inside. *)
Lemma mvt (f df : R -> R) a b : a < b -> (forall t, a <= t <= b -> is_derive f t (df t)) ->
  exists c, a < c < b /\ f b - f a = df c * (b - a).
Proof.
intros H D. destruct (MVT_cor2 f df a b H) as (c & E & Hc).
- intros c Hc. apply is_derive_Reals, D, Hc.
- now exists c.
Qed.

Lemma rectangle g l : mixed_at g l -> forall eps, 0 < eps -> exists d, 0 < d /\
  forall s0 s1 t0 t1, s0 < s1 -> t0 < t1 -> - d < s0 -> s1 < d -> - d < t0 -> t1 < d ->
  Rabs ((g s1 t1 - g s1 t0 - g s0 t1 + g s0 t0) / ((s1 - s0) * (t1 - t0)) - l) < eps.
Proof.
intros (r & gs & gst & Hr & HD & HC) eps He. destruct (HC eps He) as (d & Hd & Hc).
exists (Rmin d r). split; [now apply Rmin_glb_lt|].
intros s0 s1 t0 t1 Hs Ht A1 A2 A3 A4. pose proof (Rmin_l d r). pose proof (Rmin_r d r).
assert (B : forall t z, - Rmin d r < z -> t < Rmin d r -> forall c, z <= c <= t -> Rabs c < r /\ Rabs c < d).
{ intros t z Z1 Z2 c Hcc. split; apply Rabs_def1; lra. }
destruct (mvt (fun s => g s t1 - g s t0) (fun s => gs s t1 - gs s t0) s0 s1 Hs) as (c & Hcs & E).
{ intros s Hss. apply dminus; apply HD; try (apply (B s1 s0); lra); apply (B t1 t0); lra. }
destruct (mvt (fun t => gs c t) (fun t => gst c t) t0 t1 Ht) as (e & Hte & E').
{ intros t Htt. apply HD; [apply (B s1 s0); lra|apply (B t1 t0); lra]. }
cbv beta in E, E'. rewrite E' in E.
replace (g s1 t1 - g s1 t0 - g s0 t1 + g s0 t0) with (gst c e * (t1 - t0) * (s1 - s0)) by lra.
replace (gst c e * (t1 - t0) * (s1 - s0) / ((s1 - s0) * (t1 - t0)) - l) with (gst c e - l) by (field; lra).
apply Hc; [apply (B s1 s0); lra|apply (B t1 t0); lra].
Qed.

Lemma quotient g l : is_derive g 0 l -> forall eps, 0 < eps -> exists d, 0 < d /\ forall h, 0 < h < d -> Rabs ((g h - g 0) / h - l) < eps.
Proof.
intros H eps He. apply is_derive_Reals in H. destruct (H eps He) as (d & Hd). exists d. split; [apply cond_pos|].
intros h Hh. specialize (Hd h). rewrite Rplus_0_l in Hd. apply Hd; [lra|]. rewrite Rabs_right; lra.
Qed.
Lemma step_small e v d : 0 < d -> 0 < e < d / Rmax 1 v -> 0 < e * Rmax 1 v < d.
Proof.
intros Hd He. assert (Hm : 0 < Rmax 1 v) by (pose proof (Rmax_l 1 v); lra). split; [apply step_pos; lra|].
replace d with (d / Rmax 1 v * Rmax 1 v) by (field; lra). apply Rmult_lt_compat_r; lra.
Qed.
Lemma step_small_hess e v d : 0 < d -> 0 < e < (d / Rmax 1 v) * (d / Rmax 1 v) / 2 -> 0 < sqrt (2 * e) * Rmax 1 v < d.
Proof.
intros Hd He. apply step_small; [exact Hd|]. assert (Hm : 0 < Rmax 1 v) by (pose proof (Rmax_l 1 v); lra).
assert (0 < d / Rmax 1 v) by (now apply Rdiv_lt_0_compat).
split; [apply sqrt_lt_R0; lra|]. rewrite <- (sqrt_square (d / Rmax 1 v)) by lra. apply sqrt_lt_1; lra.
Qed.

(** ** The loops compute the difference quotients of the specification. *)
Lemma hess_fd2 n (c : vec -> outs) x h H :
  let '(dx, H') := hess_loop n (fun dx => c (vplus x dx)) (c x) h zerov H in
  dx = zerov /\ forall i j, (i < n)%nat -> (j < n)%nat -> H' i j = fd2 (fun y => o_cost (c y)) x i j h.
Proof.
pose proof (hess_loop_spec n (fun dx => c (vplus x dx)) (c x) h H) as S.
destruct (hess_loop _ _ _ _ _ _) as [dx M]. destruct S as (Hd & HD & HO). split; [exact Hd|].
intros i j Hi Hj. unfold fd2. destruct (Nat.eqb_spec i j) as [->|Ne].
- rewrite HD by exact Hj. unfold dhess. now rewrite !vplus_bump.
- destruct (Nat.lt_total i j) as [L|[L|L]]; [|now elim Ne|].
  + destruct (HO i j L Hj) as [E _]. rewrite E. unfold ohess. rewrite vplus_bump2, !vplus_bump by exact Ne. f_equal. ring.
  + destruct (HO j i L Hi) as [_ E]. rewrite E. unfold ohess. rewrite vplus_bump2, !vplus_bump by lia.
    rewrite (shift_comm x j i). reflexivity.
Qed.
Lemma jac_fd cf n (c : vec -> outs) x h F L Rr G :
  let '(dx, F', L', R', G') := jac_loop cf n (fun dx => c (vplus x dx)) (c x) (o_con (c x)) h zerov F L Rr G in
  dx = zerov /\ forall j, (j < n)%nat ->
    (forall k, divm F' h k j = fd (fun y => o_next (c y) k) x j h) /\
    L' j = fd (fun y => o_cost (c y)) x j h /\
    (gauss cf = true -> forall k, R' k j = fd (fun y => o_res (c y) k) x j h) /\
    (forall k, G' k j = fd (fun y => o_con (c y) k) x j h).
Proof.
pose proof (jac_loop_spec cf n (fun dx => c (vplus x dx)) (c x) (o_con (c x)) h F L Rr G) as S.
destruct (jac_loop _ _ _ _ _ _ _ _ _ _) as [[[[dx F'] L'] R'] G']. destruct S as (Hd & HS). split; [exact Hd|].
intros j Hj. destruct (HS j Hj) as (H1 & H2 & H3 & H4). rewrite !vplus_bump in *. unfold fd, divm.
split; [intro k; now rewrite H1|]. split; [exact H2|]. split; [exact H3|exact H4].
Qed.
Lemma mixed_fdm nx nu m x u hx hu H :
  let '(dx, du, H') := mixed_loop nx nu m x u hx hu (zerov, zerov, H) in
  dx = zerov /\ du = zerov /\ forall i j, (i < nx)%nat -> (j < nu)%nat -> H' i j = fdm (fun y v => o_cost (n_calc m y v)) x u i j hx hu.
Proof.
pose proof (mixed_loop_spec nx nu m x u hx hu H) as S.
destruct (mixed_loop _ _ _ _ _ _ _ _) as [[dx du] M]. destruct S as (Hx & Hu & S). split; [exact Hx|]. split; [exact Hu|].
intros i j Hi Hj. rewrite S by assumption. rewrite !vplus_bump, !vminus_bump. unfold fdm. f_equal; ring.
Qed.

(** All outputs of calcDiff after calc at the same point. *)
Lemma calcDiff_all nx nu nr m cf x u d :
  let hx := e_jac cf * Rmax 1 (norm nx x) in let hu := e_jac cf * Rmax 1 (norm nu u) in
  let kx := e_hess cf * Rmax 1 (norm nx x) in let ku := e_hess cf * Rmax 1 (norm nu u) in
  let o := nd_calcDiff nx nu nr m cf x u (nd_calc m x u d) in
  nd_next o = o_next (n_calc m x u) /\ nd_cost o = o_cost (n_calc m x u) /\ nd_con o = o_con (n_calc m x u) /\
  (forall i, (i < nx)%nat ->
     (forall k, nd_Fx o k i = fd (fun y => o_next (n_calc m y u) k) x i hx) /\
     nd_Lx o i = fd (fun y => o_cost (n_calc m y u)) x i hx /\
     (forall k, nd_Gx o k i = fd (fun y => o_con (n_calc m y u) k) x i hx)) /\
  (forall i, (i < nu)%nat ->
     (forall k, nd_Fu o k i = fd (fun v => o_next (n_calc m x v) k) u i hu) /\
     nd_Lu o i = fd (fun v => o_cost (n_calc m x v)) u i hu /\
     (forall k, nd_Gu o k i = fd (fun v => o_con (n_calc m x v) k) u i hu)) /\
  (gauss cf = false ->
    (forall i j, (i < nx)%nat -> (j < nx)%nat -> nd_Lxx o i j = fd2 (fun y => o_cost (n_calc m y u)) x i j kx) /\
    (forall i j, (i < nx)%nat -> (j < nu)%nat -> nd_Lxu o i j = fdm (fun y v => o_cost (n_calc m y v)) x u i j kx ku) /\
    (forall i j, (i < nu)%nat -> (j < nu)%nat -> nd_Luu o i j = fd2 (fun v => o_cost (n_calc m x v)) u i j ku)) /\
  (gauss cf = true ->
    (forall i j, (i < nx)%nat -> (j < nx)%nat -> nd_Lxx o i j = rsum nr (fun k =>
       fd (fun y => o_res (n_calc m y u) k) x i hx * fd (fun y => o_res (n_calc m y u) k) x j hx)) /\
    (forall i j, (i < nx)%nat -> (j < nu)%nat -> nd_Lxu o i j = rsum nr (fun k =>
       fd (fun y => o_res (n_calc m y u) k) x i hx * fd (fun v => o_res (n_calc m x v) k) u j hu)) /\
    (forall i j, (i < nu)%nat -> (j < nu)%nat -> nd_Luu o i j = rsum nr (fun k =>
       fd (fun v => o_res (n_calc m x v) k) u i hu * fd (fun v => o_res (n_calc m x v) k) u j hu))).
Proof.
intros hx hu kx ku o. unfold o, nd_calcDiff, nd_calc, store0. cbn [nd_0 nd_con nd_Fx nd_Fu nd_Lx nd_Lu nd_Lxx nd_Lxu nd_Luu nd_Gx nd_Gu nd_Rx nd_Ru].
fold hx hu kx ku.
pose proof (jac_fd cf nx (fun y => n_calc m y u) x hx (nd_Fx d) (nd_Lx d) (nd_Rx d) (nd_Gx d)) as SX.
destruct (jac_loop cf nx _ _ _ _ _ _ _ _ _) as [[[[dx F] L] RX] G]. destruct SX as (-> & SX).
pose proof (jac_fd cf nu (fun v => n_calc m x v) u hu (nd_Fu d) (nd_Lu d) (nd_Ru d) (nd_Gu d)) as SU.
destruct (jac_loop cf nu _ _ _ _ _ _ _ _ _) as [[[[du F'] L'] RU] G']. destruct SU as (-> & SU).
pose proof (hess_fd2 nx (fun y => n_calc m y u) x kx (nd_Lxx d)) as HX.
destruct (hess_loop nx _ _ _ _ _) as [dx Hx]. destruct HX as (-> & HX).
pose proof (hess_fd2 nu (fun v => n_calc m x v) u ku (nd_Luu d)) as HU.
destruct (hess_loop nu _ _ _ _ _) as [du Hu]. destruct HU as (-> & HU).
pose proof (mixed_fdm nx nu m x u kx ku (nd_Lxu d)) as HM.
destruct (mixed_loop _ _ _ _ _ _ _ _) as [[dx du] Hm]. destruct HM as (-> & -> & HM).
destruct (gauss cf) eqn:Eg; cbn [nd_next nd_cost nd_con nd_Fx nd_Fu nd_Lx nd_Lu nd_Lxx nd_Lxu nd_Luu nd_Gx nd_Gu nd_Rx nd_Ru];
  (split; [reflexivity|]; split; [reflexivity|]; split; [reflexivity|]; split; [|split; [|split]]).
- intros i Hi. destruct (SX i Hi) as (H1 & H2 & H3 & H4). now split; [|split].
- intros i Hi. destruct (SU i Hi) as (H1 & H2 & H3 & H4). now split; [|split].
- discriminate.
- intros _. assert (RX' : forall i k, (i < nx)%nat -> RX k i = fd (fun y => o_res (n_calc m y u) k) x i hx) by (intros i k Hi; now apply SX).
  assert (RU' : forall i k, (i < nu)%nat -> RU k i = fd (fun v => o_res (n_calc m x v) k) u i hu) by (intros i k Hi; now apply SU).
  split; [|split]; intros i j Hi Hj; unfold mulm, tr; apply rsum_ext; intros k _.
  + now rewrite !RX'.
  + now rewrite RX', RU'.
  + now rewrite !RU'.
- intros i Hi. destruct (SX i Hi) as (H1 & H2 & H3 & H4). now split; [|split].
- intros i Hi. destruct (SU i Hi) as (H1 & H2 & H3 & H4). now split; [|split].
- intros _. split; [exact HX|]. split; [exact HM|exact HU].
- discriminate.
Qed.

Lemma calcDiffT_all nx nr m cf x d :
  let hx := e_jac cf * Rmax 1 (norm nx x) in let kx := e_hess cf * Rmax 1 (norm nx x) in
  let o := nd_calcDiffT nx nr m cf x (nd_calcT m x d) in
  nd_next o = o_next (n_calcT m x) /\ nd_cost o = o_cost (n_calcT m x) /\ nd_con o = o_con (n_calcT m x) /\
  (forall i, (i < nx)%nat ->
     nd_Lx o i = fd (fun y => o_cost (n_calcT m y)) x i hx /\
     (forall k, nd_Gx o k i = fd (fun y => o_con (n_calcT m y) k) x i hx)) /\
  (gauss cf = false -> forall i j, (i < nx)%nat -> (j < nx)%nat -> nd_Lxx o i j = fd2 (fun y => o_cost (n_calcT m y)) x i j kx) /\
  (gauss cf = true -> forall i j, (i < nx)%nat -> (j < nx)%nat -> nd_Lxx o i j = rsum nr (fun k =>
       fd (fun y => o_res (n_calcT m y) k) x i hx * fd (fun y => o_res (n_calcT m y) k) x j hx)) /\
  nd_Fx o = nd_Fx d /\ nd_Fu o = nd_Fu d /\ nd_Lu o = nd_Lu d /\ nd_Lxu o = nd_Lxu d /\ nd_Luu o = nd_Luu d /\ nd_Gu o = nd_Gu d.
Proof.
intros hx kx o. unfold o, nd_calcDiffT, nd_calcT, store0. cbn [nd_0 nd_con nd_Fx nd_Fu nd_Lx nd_Lu nd_Lxx nd_Lxu nd_Luu nd_Gx nd_Gu nd_Rx nd_Ru].
fold hx kx.
pose proof (jac_fd cf nx (fun y => n_calcT m y) x hx (nd_Fx d) (nd_Lx d) (nd_Rx d) (nd_Gx d)) as SX.
destruct (jac_loop cf nx _ _ _ _ _ _ _ _ _) as [[[[dx F] L] RX] G]. destruct SX as (-> & SX).
pose proof (hess_fd2 nx (fun y => n_calcT m y) x kx (nd_Lxx d)) as HX.
destruct (hess_loop nx _ _ _ _ _) as [dx Hx]. destruct HX as (-> & HX).
cbn [nd_next nd_cost nd_con nd_Fx nd_Fu nd_Lx nd_Lu nd_Lxx nd_Lxu nd_Luu nd_Gx nd_Gu nd_Rx nd_Ru].
split; [reflexivity|]; split; [reflexivity|]; split; [reflexivity|]; split; [|split; [|split; [|now repeat split]]].
- intros i Hi. destruct (SX i Hi) as (H1 & H2 & H3 & H4). now split.
- intros ->. exact HX.
- intros Eg i j Hi Hj. rewrite Eg. unfold mulm, tr. apply rsum_ext; intros k _.
  destruct (SX i Hi) as (_ & _ & H3 & _), (SX j Hj) as (_ & _ & H4 & _). now rewrite H3, H4.
Qed.
