(** C47, C66, C67, C68: finite-difference models (C69, casts, at the end). *)
From Coquelicot Require Import Coquelicot.
From Coq Require Import Reals List Arith Bool Lia Lra FunctionalExtensionality.
From Verif Require Import Deriv VecMat NumDiff_Spec NumDiff_Model NumDiff_Proofs Unicycle_Model.
Import ListNotations.
Open Scope R_scope.

Section Action.
Variables (nx nu nr : nat).

(** ** C47: every output of calcDiff is a difference quotient of the wrapped calc, whatever the
    data contained before, and the outputs of calc stay in place. *)
Theorem C47_quotients m cf x u d : 0 < e_jac cf -> 0 < e_hess cf ->
  let hx := e_jac cf * Rmax 1 (norm nx x) in let hu := e_jac cf * Rmax 1 (norm nu u) in
  let kx := e_hess cf * Rmax 1 (norm nx x) in let ku := e_hess cf * Rmax 1 (norm nu u) in
  let o := nd_calcDiff nx nu nr m cf x u (nd_calc m x u d) in
  (0 < hx /\ 0 < hu /\ 0 < kx /\ 0 < ku) /\
  nd_next o = o_next (n_calc m x u) /\ nd_cost o = o_cost (n_calc m x u) /\ nd_con o = o_con (n_calc m x u) /\
  (forall i, (i < nx)%nat ->
     (forall k, nd_Fx o k i = fd (fun y => o_next (n_calc m y u) k) x i hx) /\
     nd_Lx o i = fd (fun y => o_cost (n_calc m y u)) x i hx /\
     (forall k, nd_Gx o k i = fd (fun y => o_con (n_calc m y u) k) x i hx)) /\
  (forall i, (i < nu)%nat ->
     (forall k, nd_Fu o k i = fd (fun v => o_next (n_calc m x v) k) u i hu) /\
     nd_Lu o i = fd (fun v => o_cost (n_calc m x v)) u i hu /\
     (forall k, nd_Gu o k i = fd (fun v => o_con (n_calc m x v) k) u i hu)) /\
  (gauss cf = false ->
    (forall i j, (i < nx)%nat -> (j < nx)%nat -> nd_Lxx o i j = fd2 (fun y => o_cost (n_calc m y u)) x i j kx) /\
    (forall i j, (i < nx)%nat -> (j < nu)%nat -> nd_Lxu o i j = fdm (fun y v => o_cost (n_calc m y v)) x u i j kx ku) /\
    (forall i j, (i < nu)%nat -> (j < nu)%nat -> nd_Luu o i j = fd2 (fun v => o_cost (n_calc m x v)) u i j ku)).
Proof.
intros H1 H2 hx hu kx ku o. split; [now repeat split; apply step_pos|].
destruct (calcDiff_all nx nu nr m cf x u d) as (A1 & A2 & A3 & A4 & A5 & A6 & _).
split; [exact A1|]. split; [exact A2|]. split; [exact A3|]. split; [exact A4|]. split; [exact A5|exact A6].
Qed.

(** ** C47 on linear-quadratic data *)
Definition lq_model (p : lq) : nmodel :=
  NModel (fun x u => Outs (affine nx nu (qA p) (qB p) (qf p) x u) (lq_cost nx nu p x u) (affine nx nu (qC p) (qD p) (qe p) x u)
            (affine nx nu (qRx p) (qRu p) (qr0 p) x u))
         (fun x => Outs x (lq_cost nx nu p x (fun _ => 0)) (affine nx nu (qC p) (qD p) (qe p) x (fun _ => 0))
            (affine nx nu (qRx p) (qRu p) (qr0 p) x (fun _ => 0))).

Ltac shifts := repeat (rewrite ?mulv_shift, ?dot_mulv_shift, ?dot_shift_l, ?dot_shift_r, ?mulv_shift by assumption).

Theorem C47_exact p cf x u d : 0 < e_jac cf -> 0 < e_hess cf ->
  let o := nd_calcDiff nx nu nr (lq_model p) cf x u (nd_calc (lq_model p) x u d) in
  (forall k i, (i < nx)%nat -> nd_Fx o k i = qA p k i /\ nd_Gx o k i = qC p k i) /\
  (forall k i, (i < nu)%nat -> nd_Fu o k i = qB p k i /\ nd_Gu o k i = qD p k i) /\
  (forall i, (i < nx)%nat -> nd_Lx o i = lq_gx nx nu p x u i + e_jac cf * Rmax 1 (norm nx x) / 2 * qQ p i i) /\
  (forall i, (i < nu)%nat -> nd_Lu o i = lq_gu nx nu p x u i + e_jac cf * Rmax 1 (norm nu u) / 2 * qR p i i) /\
  (gauss cf = false ->
    (forall i j, (i < nx)%nat -> (j < nx)%nat -> nd_Lxx o i j = (qQ p i j + qQ p j i) / 2) /\
    (forall i j, (i < nx)%nat -> (j < nu)%nat -> nd_Lxu o i j = qN p i j) /\
    (forall i j, (i < nu)%nat -> (j < nu)%nat -> nd_Luu o i j = (qR p i j + qR p j i) / 2)) /\
  (gauss cf = true ->
    (forall i j, (i < nx)%nat -> (j < nx)%nat -> nd_Lxx o i j = mulm nr (tr (qRx p)) (qRx p) i j) /\
    (forall i j, (i < nx)%nat -> (j < nu)%nat -> nd_Lxu o i j = mulm nr (tr (qRx p)) (qRu p) i j) /\
    (forall i j, (i < nu)%nat -> (j < nu)%nat -> nd_Luu o i j = mulm nr (tr (qRu p)) (qRu p) i j)).
Proof.
intros E1 E2 o.
destruct (calcDiff_all nx nu nr (lq_model p) cf x u d) as (_ & _ & _ & A4 & A5 & A6 & A7). fold o in A4, A5, A6, A7.
pose proof (step_pos _ (norm nx x) E1) as P1. pose proof (step_pos _ (norm nu u) E1) as P2.
pose proof (step_pos _ (norm nx x) E2) as P3. pose proof (step_pos _ (norm nu u) E2) as P4.
set (hx := e_jac cf * Rmax 1 (norm nx x)) in *. set (hu := e_jac cf * Rmax 1 (norm nu u)) in *.
set (kx := e_hess cf * Rmax 1 (norm nx x)) in *. set (ku := e_hess cf * Rmax 1 (norm nu u)) in *.
clearbody hx hu kx ku o. cbn [lq_model n_calc o_next o_cost o_con o_res] in *.
split; [|split; [|split; [|split; [|split]]]].
- intros k i Hi. destruct (A4 i Hi) as (B1 & _ & B3). rewrite B1, B3. unfold fd, affine. shifts. split; field; lra.
- intros k i Hi. destruct (A5 i Hi) as (B1 & _ & B3). rewrite B1, B3. unfold fd, affine. shifts. split; field; lra.
- intros i Hi. destruct (A4 i Hi) as (_ & B2 & _). rewrite B2. unfold fd, lq_cost, lq_gx. shifts. unfold tr. field. lra.
- intros i Hi. destruct (A5 i Hi) as (_ & B2 & _). rewrite B2. unfold fd, lq_cost, lq_gu. shifts. unfold tr. field. lra.
- intro Hg. destruct (A6 Hg) as (B1 & B2 & B3). split; [|split]; intros i j Hi Hj.
  + rewrite B1 by assumption. unfold fd2, lq_cost. destruct (Nat.eqb_spec i j) as [->|Ne]; shifts; unfold tr; field; lra.
  + rewrite B2 by assumption. unfold fdm, lq_cost. shifts. unfold tr. field. lra.
  + rewrite B3 by assumption. unfold fd2, lq_cost. destruct (Nat.eqb_spec i j) as [->|Ne]; shifts; unfold tr; field; lra.
- intro Hg. destruct (A7 Hg) as (B1 & B2 & B3).
  split; [|split]; intros i j Hi Hj; rewrite ?B1, ?B2, ?B3 by assumption; unfold mulm, tr; apply rsum_ext; intros k _;
    unfold fd, affine; shifts; field; lra.
Qed.

(** [lq_gx] and [lq_gu] are the partial derivatives of the cost, and the entries above its second
    derivatives. *)
Lemma quad_curve (a b c : R) : is_derive (fun t : R => a + b * t + c * (t * t)) 0 b.
Proof.
eapply deq.
- apply dplus; [apply dplus; [apply dconst|apply dscal; apply did]|apply dscal; apply dmult; apply did].
- cbv beta. ring.
Qed.
Theorem C47_gradient p x u :
  (forall i, (i < nx)%nat -> partial (fun y => lq_cost nx nu p y u) x i (lq_gx nx nu p x u i)) /\
  (forall i, (i < nu)%nat -> partial (fun v => lq_cost nx nu p x v) u i (lq_gu nx nu p x u i)) /\
  (forall i j, (i < nx)%nat -> (j < nx)%nat -> partial (fun y => lq_gx nx nu p y u i) x j ((qQ p i j + qQ p j i) / 2)) /\
  (forall i j, (i < nx)%nat -> (j < nu)%nat -> partial (fun v => lq_gx nx nu p x v i) u j (qN p i j)) /\
  (forall i j, (i < nu)%nat -> (j < nu)%nat -> partial (fun v => lq_gu nx nu p x v i) u j ((qR p i j + qR p j i) / 2)).
Proof.
split; [|split; [|split; [|split]]].
- intros i Hi. unfold partial. refine (dext _ _ _ _ _ (quad_curve (lq_cost nx nu p x u) _ (qQ p i i / 2))).
  intro t. unfold lq_cost, lq_gx. shifts. unfold tr. field.
- intros i Hi. unfold partial. refine (dext _ _ _ _ _ (quad_curve (lq_cost nx nu p x u) _ (qR p i i / 2))).
  intro t. unfold lq_cost, lq_gu. shifts. unfold tr. field.
- intros i j Hi Hj. unfold partial. refine (dext _ _ _ _ _ (quad_curve (lq_gx nx nu p x u i) _ 0)).
  intro t. unfold lq_gx. shifts. unfold tr. field.
- intros i j Hi Hj. unfold partial. refine (dext _ _ _ _ _ (quad_curve (lq_gx nx nu p x u i) _ 0)).
  intro t. unfold lq_gx. shifts. unfold tr. field.
- intros i j Hi Hj. unfold partial. refine (dext _ _ _ _ _ (quad_curve (lq_gu nx nu p x u i) _ 0)).
  intro t. unfold lq_gu. shifts. unfold tr. field.
Qed.

(** Without a control: the terminal cost; the outputs that depend on the control are left alone. *)
Theorem C47_terminal p cf x d : 0 < e_jac cf -> 0 < e_hess cf ->
  let z := (fun _ => 0) : vec in
  let o := nd_calcDiffT nx nr (lq_model p) cf x (nd_calcT (lq_model p) x d) in
  nd_next o = x /\ nd_cost o = lq_cost nx nu p x z /\
  (forall k i, (i < nx)%nat -> nd_Gx o k i = qC p k i) /\
  (forall i, (i < nx)%nat -> nd_Lx o i = lq_gx nx nu p x z i + e_jac cf * Rmax 1 (norm nx x) / 2 * qQ p i i) /\
  (gauss cf = false -> forall i j, (i < nx)%nat -> (j < nx)%nat -> nd_Lxx o i j = (qQ p i j + qQ p j i) / 2) /\
  (gauss cf = true -> forall i j, (i < nx)%nat -> (j < nx)%nat -> nd_Lxx o i j = mulm nr (tr (qRx p)) (qRx p) i j) /\
  nd_Fx o = nd_Fx d /\ nd_Fu o = nd_Fu d /\ nd_Lu o = nd_Lu d /\ nd_Lxu o = nd_Lxu d /\ nd_Luu o = nd_Luu d /\ nd_Gu o = nd_Gu d.
Proof.
intros E1 E2 z o.
destruct (calcDiffT_all nx nr (lq_model p) cf x d) as (A1 & A2 & _ & A4 & A5 & A6 & A7). fold o in A1, A2, A4, A5, A6, A7.
pose proof (step_pos _ (norm nx x) E1) as P1. pose proof (step_pos _ (norm nx x) E2) as P3.
set (hx := e_jac cf * Rmax 1 (norm nx x)) in *. set (kx := e_hess cf * Rmax 1 (norm nx x)) in *.
clearbody hx kx o. cbn [lq_model n_calcT o_next o_cost o_con o_res] in *. fold z in A2, A4, A5, A6. clearbody z.
split; [exact A1|]. split; [exact A2|]. split; [|split; [|split; [|split; [|exact A7]]]].
- intros k i Hi. destruct (A4 i Hi) as (_ & B). rewrite B. unfold fd, affine. shifts. field. lra.
- intros i Hi. destruct (A4 i Hi) as (B & _). rewrite B. unfold fd, lq_cost, lq_gx. shifts. unfold tr. field. lra.
- intros Hg i j Hi Hj. rewrite (A5 Hg) by assumption. unfold fd2, lq_cost. destruct (Nat.eqb_spec i j) as [->|Ne]; shifts; unfold tr; field; lra.
- intros Hg i j Hi Hj. rewrite (A6 Hg) by assumption. unfold mulm, tr; apply rsum_ext; intros k _; unfold fd, affine; shifts; field; lra.
Qed.

(** ** C47: for a smooth model the outputs tend to the derivatives with the disturbance. *)
Definition tends (q : nconf -> R) (l : R) : Prop := forall eps, 0 < eps -> exists delta, 0 < delta /\
  forall cf e cf', gauss cf = false -> 0 < e < delta -> nd_set_disturbance e cf = Some cf' -> Rabs (q cf' - l) < eps.

Lemma set_dist e cf cf' : 0 < e -> nd_set_disturbance e cf = Some cf' -> e_jac cf' = e /\ e_hess cf' = sqrt (2 * e) /\ gauss cf' = gauss cf.
Proof. unfold nd_set_disturbance. intro H. destruct (Rlt_dec e 0); [lra|]. intro E. injection E as <-. now split; [|split]. Qed.

Lemma tends_fd (q : nconf -> R) F x i l v : partial F x i l ->
  (forall cf, gauss cf = false -> q cf = fd F x i (e_jac cf * Rmax 1 v)) -> tends q l.
Proof.
intros D Q eps He. destruct (quotient _ _ D eps He) as (d & Hd & H). cbv beta in H. rewrite shift_0 in H.
exists (d / Rmax 1 v). split; [apply Rdiv_lt_0_compat; [exact Hd|]; pose proof (Rmax_l 1 v); lra|].
intros cf e cf' Hg He' E. destruct (set_dist e cf cf') as (E1 & E2 & E3); [lra|exact E|].
rewrite Q by congruence. rewrite E1. unfold fd. apply H. now apply step_small.
Qed.
Lemma half_pos (d v : R) : 0 < d -> 0 < d / Rmax 1 v * (d / Rmax 1 v) / 2.
Proof.
intro Hd. assert (Hm : 0 < Rmax 1 v) by (pose proof (Rmax_l 1 v); lra).
assert (0 < d / Rmax 1 v) by (now apply Rdiv_lt_0_compat). assert (0 < d / Rmax 1 v * (d / Rmax 1 v)) by (now apply Rmult_lt_0_compat). lra.
Qed.
Lemma tends_fd2 (q : nconf -> R) F x i j l v : mixed_at (fun s t => F (shift (shift x i s) j t)) l ->
  (forall cf, gauss cf = false -> q cf = fd2 F x i j (e_hess cf * Rmax 1 v)) -> tends q l.
Proof.
intros D Q eps He. destruct (rectangle _ _ D eps He) as (d & Hd & H). cbv beta in H.
exists (d / Rmax 1 v * (d / Rmax 1 v) / 2). split; [now apply half_pos|].
intros cf e cf' Hg He' E. destruct (set_dist e cf cf') as (E1 & E2 & E3); [lra|exact E|].
rewrite Q by congruence. rewrite E2. pose proof (step_small_hess e v d Hd He') as Hk.
set (k := sqrt (2 * e) * Rmax 1 v) in *. clearbody k. unfold fd2. destruct (Nat.eqb_spec i j) as [->|Ne].
- specialize (H 0 k (- k) 0). rewrite !shift_0, shift_back in H.
  replace (F (shift x j k) - 2 * F x + F (shift x j (- k))) with (F (shift x j k) - F x - F x + F (shift x j (- k))) by ring.
  replace (k * k) with ((k - 0) * (0 - - k)) by ring. apply H; lra.
- specialize (H 0 k 0 k). rewrite !shift_0 in H. replace (k * k) with ((k - 0) * (k - 0)) by ring. apply H; lra.
Qed.
Lemma tends_fdm (q : nconf -> R) F x u i j l v w : mixed_at (fun s t => F (shift x i s) (shift u j t)) l ->
  (forall cf, gauss cf = false -> q cf = fdm F x u i j (e_hess cf * Rmax 1 v) (e_hess cf * Rmax 1 w)) -> tends q l.
Proof.
intros D Q eps He. destruct (rectangle _ _ D eps He) as (d & Hd & H). cbv beta in H.
exists (Rmin (d / Rmax 1 v * (d / Rmax 1 v) / 2) (d / Rmax 1 w * (d / Rmax 1 w) / 2)).
split; [apply Rmin_glb_lt; now apply half_pos|].
intros cf e cf' Hg He' E. destruct (set_dist e cf cf') as (E1 & E2 & E3); [lra|exact E|].
rewrite Q by congruence. rewrite E2.
pose proof (Rmin_l (d / Rmax 1 v * (d / Rmax 1 v) / 2) (d / Rmax 1 w * (d / Rmax 1 w) / 2)) as M1.
pose proof (Rmin_r (d / Rmax 1 v * (d / Rmax 1 v) / 2) (d / Rmax 1 w * (d / Rmax 1 w) / 2)) as M2.
assert (Hk : 0 < sqrt (2 * e) * Rmax 1 v < d) by (apply step_small_hess; [exact Hd|lra]).
assert (Hl : 0 < sqrt (2 * e) * Rmax 1 w < d) by (apply step_small_hess; [exact Hd|lra]).
set (k := sqrt (2 * e) * Rmax 1 v) in *. set (kk := sqrt (2 * e) * Rmax 1 w) in *. clearbody k kk. unfold fdm.
specialize (H (- k) k (- kk) kk).
replace (2 * k * (2 * kk)) with ((k - - k) * (kk - - kk)) by ring.
match goal with |- Rabs (?a / _ - _) < _ => match type of H with context [(?b / _)] => replace a with b by ring end end.
apply H; lra.
Qed.

Theorem C47_limit m x u d :
  let o := fun cf => nd_calcDiff nx nu nr m cf x u (nd_calc m x u d) in
  (forall i l, (i < nx)%nat -> partial (fun y => o_cost (n_calc m y u)) x i l -> tends (fun cf => nd_Lx (o cf) i) l) /\
  (forall i l, (i < nu)%nat -> partial (fun v => o_cost (n_calc m x v)) u i l -> tends (fun cf => nd_Lu (o cf) i) l) /\
  (forall k i l, (i < nx)%nat -> partial (fun y => o_next (n_calc m y u) k) x i l -> tends (fun cf => nd_Fx (o cf) k i) l) /\
  (forall k i l, (i < nu)%nat -> partial (fun v => o_next (n_calc m x v) k) u i l -> tends (fun cf => nd_Fu (o cf) k i) l) /\
  (forall k i l, (i < nx)%nat -> partial (fun y => o_con (n_calc m y u) k) x i l -> tends (fun cf => nd_Gx (o cf) k i) l) /\
  (forall k i l, (i < nu)%nat -> partial (fun v => o_con (n_calc m x v) k) u i l -> tends (fun cf => nd_Gu (o cf) k i) l) /\
  (forall i j l, (i < nx)%nat -> (j < nx)%nat ->
     mixed_at (fun s t => o_cost (n_calc m (shift (shift x i s) j t) u)) l -> tends (fun cf => nd_Lxx (o cf) i j) l) /\
  (forall i j l, (i < nu)%nat -> (j < nu)%nat ->
     mixed_at (fun s t => o_cost (n_calc m x (shift (shift u i s) j t))) l -> tends (fun cf => nd_Luu (o cf) i j) l) /\
  (forall i j l, (i < nx)%nat -> (j < nu)%nat ->
     mixed_at (fun s t => o_cost (n_calc m (shift x i s) (shift u j t))) l -> tends (fun cf => nd_Lxu (o cf) i j) l).
Proof.
intro o.
assert (A : forall cf, _) by (intro cf; exact (calcDiff_all nx nu nr m cf x u d)). cbv zeta in A. fold o in A.
change (fun cf => nd_calcDiff nx nu nr m cf x u (nd_calc m x u d)) with o in A.
split; [|split; [|split; [|split; [|split; [|split; [|split; [|split]]]]]]].
- intros i l Hi D. apply (tends_fd _ _ _ _ _ (norm nx x) D). intros cf _. apply (A cf), Hi.
- intros i l Hi D. apply (tends_fd _ _ _ _ _ (norm nu u) D). intros cf _. destruct (A cf) as (_ & _ & _ & _ & B & _). apply B, Hi.
- intros k i l Hi D. apply (tends_fd _ _ _ _ _ (norm nx x) D). intros cf _. destruct (A cf) as (_ & _ & _ & B & _). apply B, Hi.
- intros k i l Hi D. apply (tends_fd _ _ _ _ _ (norm nu u) D). intros cf _. destruct (A cf) as (_ & _ & _ & _ & B & _). apply B, Hi.
- intros k i l Hi D. apply (tends_fd _ _ _ _ _ (norm nx x) D). intros cf _. destruct (A cf) as (_ & _ & _ & B & _). apply B, Hi.
- intros k i l Hi D. apply (tends_fd _ _ _ _ _ (norm nu u) D). intros cf _. destruct (A cf) as (_ & _ & _ & _ & B & _). apply B, Hi.
- intros i j l Hi Hj D. apply (tends_fd2 _ (fun y => o_cost (n_calc m y u)) _ _ _ _ (norm nx x) D). intros cf Hg. destruct (A cf) as (_ & _ & _ & _ & _ & B & _). now apply B.
- intros i j l Hi Hj D. apply (tends_fd2 _ (fun v => o_cost (n_calc m x v)) _ _ _ _ (norm nu u) D). intros cf Hg. destruct (A cf) as (_ & _ & _ & _ & _ & B & _). now apply B.
- intros i j l Hi Hj D. apply (tends_fdm _ (fun y v => o_cost (n_calc m y v)) _ _ _ _ _ (norm nx x) (norm nu u) D). intros cf Hg. destruct (A cf) as (_ & _ & _ & _ & _ & B & _). now apply B.
Qed.
End Action.

(** A case that meets the hypotheses: default settings, one state, one control. *)
Definition lq1 : lq := Lq (fun _ _ => 2) (fun _ _ => 3) (fun _ => 1) (fun _ _ => 4) (fun _ _ => 5) (fun _ _ => 6) (fun _ => 0) (fun _ => 0) 0
  (fun _ _ => 7) (fun _ _ => 8) (fun _ => 0) (fun _ _ => 0) (fun _ _ => 0) (fun _ => 0).
Definition data0 : ndata := let Z : mat := fun _ _ => 9 in let z : vec := fun _ => 9 in
  NData z 9 z Z Z z z Z Z Z Z Z Z Z z z (Outs z 9 z z).
Lemma create_pos eps g : 0 < eps -> 0 < e_jac (nd_create eps g) /\ 0 < e_hess (nd_create eps g).
Proof. intro H. cbn [nd_create e_jac e_hess]. assert (0 < sqrt (2 * eps)) by (apply sqrt_lt_R0; lra). split; [assumption|apply sqrt_lt_R0; lra]. Qed.
Example C47_example : let cf := nd_create (/ 1000) false in
  let o := nd_calcDiff 1 1 0 (lq_model 1 1 lq1) cf (fun _ => 1) (fun _ => 1) (nd_calc (lq_model 1 1 lq1) (fun _ => 1) (fun _ => 1) data0) in
  nd_Fx o 0%nat 0%nat = 2 /\ nd_Fu o 0%nat 0%nat = 3 /\ nd_Lxx o 0%nat 0%nat = 4 /\ nd_Lxu o 0%nat 0%nat = 5 /\ nd_Luu o 0%nat 0%nat = 6 /\ nd_Gx o 0%nat 0%nat = 7 /\ nd_Gu o 0%nat 0%nat = 8.
Proof.
intros cf o. destruct (create_pos (/ 1000) false ltac:(lra)) as [E1 E2].
destruct (C47_exact 1 1 0 lq1 cf (fun _ => 1) (fun _ => 1) data0 E1 E2) as (A & B & _ & _ & C & _). fold o in A, B, C.
destruct (C eq_refl) as (C1 & C2 & C3). clearbody o.
destruct (A 0%nat 0%nat Nat.lt_0_1) as [-> ->]. destruct (B 0%nat 0%nat Nat.lt_0_1) as [-> ->].
rewrite C1, C2, C3 by exact Nat.lt_0_1. cbn [qA qB qQ qN qR qC qD lq1]. repeat split; lra.
Qed.
(** ... and a cost that is not quadratic: x^3 at x = 1 has second derivative 6. *)
Lemma cubic_mixed a : mixed_at (fun s t => (a + s + t) * ((a + s + t) * (a + s + t))) (6 * a).
Proof.
exists 1, (fun s t => 3 * ((a + s + t) * (a + s + t))), (fun s t => 6 * (a + s + t)). split; [lra|]. split.
- intros s t _ _.
  assert (Ds : is_derive (fun s : R => a + s + t) s 1).
  { eapply deq; [apply dplus; [apply dplus; [apply dconst|apply did]|apply dconst]|ring]. }
  assert (Dt : is_derive (fun t : R => a + s + t) t 1).
  { eapply deq; [apply dplus; [apply dplus; [apply dconst|apply dconst]|apply did]|ring]. }
  split.
  + eapply deq; [apply dmult; [exact Ds|apply dmult; exact Ds]|cbv beta; ring].
  + eapply deq; [apply dscal; apply dmult; exact Dt|cbv beta; ring].
- intros eps He. exists (eps / 12). split; [lra|]. intros s t Hs Ht.
  replace (6 * (a + s + t) - 6 * a) with (6 * s + 6 * t) by ring.
  apply Rabs_def2 in Hs. apply Rabs_def2 in Ht. apply Rabs_def1; lra.
Qed.
Example C47_limit_example : let m := NModel (fun x u => Outs x (x 0%nat * (x 0%nat * x 0%nat)) (fun _ => 0) (fun _ => 0)) (fun x => Outs x 0 (fun _ => 0) (fun _ => 0)) in
  tends (fun cf => nd_Lxx (nd_calcDiff 1 1 0 m cf (fun _ => 1) (fun _ => 0) (nd_calc m (fun _ => 1) (fun _ => 0) data0)) 0%nat 0%nat) 6.
Proof.
intro m. destruct (C47_limit 1 1 0 m (fun _ => 1) (fun _ => 0) data0) as (_ & _ & _ & _ & _ & _ & H & _).
apply H; [exact Nat.lt_0_1|exact Nat.lt_0_1|]. cbn [m n_calc o_cost]. unfold shift. cbn [Nat.eqb].
replace 6 with (6 * 1) by ring. apply cubic_mixed.
Qed.

(** ** C66: the disturbance. *)
Inductive reach (eps : R) : nconf -> Prop :=
| r_new g : reach eps (nd_create eps g)
| r_set d c c' : reach eps c -> nd_set_disturbance d c = Some c' -> reach eps c'.
Theorem C66_disturbance_partial eps c : 0 < eps -> reach eps c ->
  0 <= e_jac c /\ (e_jac c <> 0 -> 0 < e_jac c /\ 0 < e_hess c) /\ e_hess c = sqrt (2 * e_jac c) /\
  (forall d, d < 0 -> nd_set_disturbance d c = None) /\
  (forall d, 0 <= d -> exists c', nd_set_disturbance d c = Some c' /\ e_jac c' = d /\ gauss c' = gauss c).
Proof.
intros He H.
assert (E : 0 <= e_jac c /\ e_hess c = sqrt (2 * e_jac c)).
{ induction H as [g|d c c' H IH E].
  - cbn [nd_create e_jac e_hess]. split; [apply sqrt_pos|reflexivity].
  - unfold nd_set_disturbance in E. destruct (Rlt_dec d 0); [discriminate|]. injection E as <-. cbn [e_jac e_hess]. split; [lra|reflexivity]. }
destruct E as [E1 E2]. split; [exact E1|]. split; [|split; [exact E2|split]].
- intro N. assert (0 < e_jac c) by lra. split; [assumption|]. rewrite E2. apply sqrt_lt_R0. lra.
- intros d Hd. unfold nd_set_disturbance. destruct (Rlt_dec d 0); [reflexivity|lra].
- intros d Hd. unfold nd_set_disturbance. destruct (Rlt_dec d 0); [lra|]. eexists. split; [reflexivity|]. now split.
Qed.
(** A zero disturbance is accepted, and then every step size, hence every denominator, is zero. *)
Theorem C66_zero_refuted : exists c, reach (/ 1000) c /\ forall n v, e_jac c * Rmax 1 (norm n v) = 0 /\ e_hess c * Rmax 1 (norm n v) = 0.
Proof.
destruct (C66_disturbance_partial (/ 1000) (nd_create (/ 1000) false)) as (_ & _ & _ & _ & H); [lra|constructor|].
destruct (H 0) as (c & E & E1 & _); [lra|]. exists c. split; [exact (r_set _ _ _ _ (r_new _ _) E)|].
unfold nd_set_disturbance in E. destruct (Rlt_dec 0 0); [lra|]. injection E as <-. cbn [e_jac e_hess] in *.
intros m v. rewrite Rmult_0_r, sqrt_0. split; ring.
Qed.

(** ** C67: activation by finite differences. *)
Theorem C67_gradient_partial nr e a r d : 0 < e ->
  let h := e * Rmax 1 (norm nr r) in
  let o := act_calcDiff nr e a r (act_calc a r d) in
  0 < h /\ ad_value o = a r /\ forall i, (i < nr)%nat -> ad_Ar o i = fd a r i h.
Proof.
intros He h o. split; [now apply step_pos|]. unfold o, act_calcDiff, act_calc. cbn [ad_0 ad_Ar]. fold h.
pose proof (act_loop_spec nr a h (a r) r (ad_Ar d)) as S. destruct (for_ _ _ _ _) as [rp Ar]. destruct S as (_ & S).
split; [reflexivity|]. intros i Hi. cbn [ad_Ar]. rewrite S by exact Hi. unfold fd. now rewrite vplus_bump.
Qed.
Theorem C67_limit_partial nr a r d i l : (i < nr)%nat -> partial a r i l ->
  forall eps, 0 < eps -> exists delta, 0 < delta /\ forall e, 0 < e < delta ->
    Rabs (ad_Ar (act_calcDiff nr e a r (act_calc a r d)) i - l) < eps.
Proof.
intros Hi D eps He. destruct (quotient _ _ D eps He) as (dd & Hd & H). cbv beta in H. rewrite shift_0 in H.
exists (dd / Rmax 1 (norm nr r)). split; [apply Rdiv_lt_0_compat; [exact Hd|]; pose proof (Rmax_l 1 (norm nr r)); lra|].
intros e He'. destruct (C67_gradient_partial nr e a r d) as (_ & _ & G); [lra|]. rewrite G by exact Hi. unfold fd. apply H. now apply step_small.
Qed.
(** The quadratic activation r^2 / 2 has second derivative 1; the reported one is the squared
    gradient, so it is 0 at the origin (up to the step) and does not improve with the disturbance. *)
Definition quad1 (r : vec) : R := r 0%nat * r 0%nat / 2.
Theorem C67_hessian_refuted d : forall e, 0 < e < 1 ->
  0 <= ad_Arr (act_calcDiff 1 e quad1 zerov (act_calc quad1 zerov d)) 0%nat < 1 / 2.
Proof.
intros e He. destruct (C67_gradient_partial 1 e quad1 zerov d) as (_ & _ & G); [lra|]. specialize (G 0%nat Nat.lt_0_1).
assert (E : forall x, ad_Arr (act_calcDiff 1 e quad1 zerov x) 0%nat =
   ad_Ar (act_calcDiff 1 e quad1 zerov x) 0%nat * ad_Ar (act_calcDiff 1 e quad1 zerov x) 0%nat).
{ intro x. unfold act_calcDiff. destruct (for_ _ _ _ _) as [rp Ar]. reflexivity. }
rewrite E, G.
assert (N : norm 1 zerov = 0). { unfold norm, dot, zerov. cbn [rsum]. rewrite Rmult_0_l, Rplus_0_r || rewrite Rmult_0_l, Rplus_0_l. apply sqrt_0. }
rewrite N. rewrite Rmax_left by lra. unfold fd, quad1, shift, zerov. cbn [Nat.eqb]. 
replace (((0 + e * 1) * (0 + e * 1) / 2 - 0 * 0 / 2) / (e * 1)) with (e / 2) by (field; lra).
assert (0 < e * e < 1) by (split; [apply Rmult_lt_0_compat; lra|rewrite <- (Rmult_1_l 1); apply Rmult_gt_0_lt_compat; lra]). lra.
Qed.

(** ** C68: Jacobians of a Euclidean state by finite differences are exact. *)
Theorem C68_Jdiff n e x0 x1 i j : 0 < e -> (i < n)%nat -> (j < n)%nat ->
  nd_Jdiff_first n e x0 x1 i j = - idm i j /\ nd_Jdiff_second n e x0 x1 i j = idm i j.
Proof.
intros He Hi Hj. split.
- unfold nd_Jdiff_first. pose proof (step_pos e (norm n x0) He) as Hh. set (h := e * Rmax 1 (norm n x0)) in *. clearbody h.
  pose proof (col_loop_spec n h (fun dx => vminus (sdiffE (sintE x0 dx) x1) (sdiffE x0 x1))) as S. cbv beta zeta in S |- *.
  destruct (for_ _ _ _ _) as [dx J]. unfold divm. rewrite S by exact Hj. unfold vminus, sdiffE, sintE, vminus, vplus, bump, idm.
  destruct (Nat.eqb i j); field; lra.
- unfold nd_Jdiff_second. pose proof (step_pos e (norm n x1) He) as Hh. set (h := e * Rmax 1 (norm n x1)) in *. clearbody h.
  pose proof (col_loop_spec n h (fun dx => vminus (sdiffE x0 (sintE x1 dx)) (sdiffE x0 x1))) as S. cbv beta zeta in S |- *.
  destruct (for_ _ _ _ _) as [dx J]. unfold divm. rewrite S by exact Hj. unfold vminus, sdiffE, sintE, vminus, vplus, bump, idm.
  destruct (Nat.eqb i j); field; lra.
Qed.
Lemma Jint_idm n e x dx op J0 i j : 0 < e -> (i < n)%nat -> (j < n)%nat ->
  nd_Jint_first n e x dx op J0 i j = idm i j /\ nd_Jint_second n e x dx op J0 i j = idm i j.
Proof.
intros He Hi Hj. split.
- unfold nd_Jint_first. pose proof (step_pos e (norm n x) He) as Hh. set (h := e * Rmax 1 (norm n x)) in *. clearbody h.
  pose proof (col_loop_spec n h (fun d => sdiffE (sintE x dx) (sintE (sintE x d) dx))) as S. cbv beta zeta in S |- *.
  destruct (for_ _ _ _ _) as [d J]. unfold divm. rewrite S by exact Hj. unfold vminus, sdiffE, sintE, vminus, vplus, bump, idm.
  destruct (Nat.eqb i j); field; lra.
- unfold nd_Jint_second. pose proof (step_pos e (norm n dx) He) as Hh. set (h := e * Rmax 1 (norm n dx)) in *. clearbody h.
  pose proof (col_loop_spec n h (fun d => sdiffE (sintE x dx) (sintE x (vplus dx d)))) as S. cbv beta zeta in S |- *.
  destruct (for_ _ _ _ _) as [d J]. unfold divm. rewrite S by exact Hj. unfold vminus, sdiffE, sintE, vminus, vplus, bump, idm.
  destruct (Nat.eqb i j); field; lra.
Qed.
(** With the default assignment the result is the Jacobian of x + dx, the identity. *)
Theorem C68_Jintegrate_partial n e x dx J0 i j : 0 < e -> (i < n)%nat -> (j < n)%nat ->
  nd_Jint_first n e x dx setto J0 i j = assign setto (J0 i j) (idm i j) /\
  nd_Jint_second n e x dx setto J0 i j = assign setto (J0 i j) (idm i j).
Proof. intros He Hi Hj. cbn [assign]. now apply Jint_idm. Qed.
(** The other assignments are ignored. *)
Theorem C68_Jintegrate_refuted : exists op J0, forall e x dx, 0 < e ->
  nd_Jint_first 1 e x dx op J0 0%nat 0%nat <> assign op (J0 0%nat 0%nat) (idm 0%nat 0%nat).
Proof.
exists addto, (fun _ _ => 1). intros e x dx He. destruct (Jint_idm 1 e x dx addto (fun _ _ => 1) 0%nat 0%nat He Nat.lt_0_1 Nat.lt_0_1) as [-> _].
cbn [assign]. unfold idm. cbn [Nat.eqb]. lra.
Qed.

(** ** C69: casts.  Casting to the same scalar type should give an equivalent model. *)
Theorem C69_numdiff_partial eps c : 0 < eps -> reach eps c ->
  nd_cast eps c = c <-> gauss c = false /\ e_jac c = sqrt (2 * eps).
Proof.
intros He H. destruct (C66_disturbance_partial eps c He H) as (_ & _ & E & _). destruct c as [j k g]. cbn [e_jac e_hess gauss] in *. subst k.
unfold nd_cast, nd_create. split.
- intro E. injection E as E1 E2 E3. now split.
- intros [-> ->]. reflexivity.
Qed.
Theorem C69_numdiff_refuted : exists c, reach (/ 1000) c /\ gauss (nd_cast (/ 1000) c) <> gauss c /\ e_jac (nd_cast (/ 1000) c) <> e_jac c.
Proof.
destruct (C66_disturbance_partial (/ 1000) (nd_create (/ 1000) true)) as (_ & _ & _ & _ & H); [lra|constructor|].
destruct (H 0) as (c & E & E1 & E2); [lra|]. exists c. split; [exact (r_set _ _ _ _ (r_new _ _) E)|].
rewrite E1, E2. split; [discriminate|]. cbn [nd_cast nd_create e_jac]. pose proof (sqrt_lt_R0 (2 * / 1000)). lra.
Qed.
Theorem C69_unicycle_partial m :
  (forall x u d i, (i < 3)%nat -> uxnext (u_calc (u_cast m) x u d) i = uxnext (u_calc m x u d) i) <-> u_dt m = 1 / 10.
Proof.
split.
- intro H. specialize (H (fun _ => 0) (fun _ => 1) u_createData 2%nat). unfold u_cast, u_create, u_calc, v3 in H. cbn [uxnext u_dt] in H.
  specialize (H ltac:(lia)). lra.
- intros E x u d i Hi. unfold u_cast, u_create, u_calc. cbn [uxnext u_dt]. now rewrite E.
Qed.
Theorem C69_unicycle_refuted : exists m m' x u d, u_set_dt 1 m = Some m' /\ uxnext (u_calc (u_cast m') x u d) 2%nat <> uxnext (u_calc m' x u d) 2%nat.
Proof.
exists u_create. unfold u_set_dt. destruct (Rle_dec 1 0); [lra|]. eexists. exists (fun _ => 0), (fun _ => 1), u_createData. split; [reflexivity|].
unfold u_cast, u_create, u_calc, v3. cbn [uxnext u_dt]. lra.
Qed.

Print Assumptions C47_quotients.
Print Assumptions C47_exact.
Print Assumptions C47_gradient.
Print Assumptions C47_terminal.
Print Assumptions C47_limit.
Print Assumptions C66_disturbance_partial.
Print Assumptions C66_zero_refuted.
Print Assumptions C67_gradient_partial.
Print Assumptions C67_limit_partial.
Print Assumptions C67_hessian_refuted.
Print Assumptions C68_Jdiff.
Print Assumptions C68_Jintegrate_partial.
Print Assumptions C68_Jintegrate_refuted.
Print Assumptions C69_numdiff_refuted.
Print Assumptions C69_unicycle_refuted.
