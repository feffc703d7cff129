(** C104: the collision residual. *)
From Coquelicot Require Import Coquelicot.
From Coq Require Import Reals List Arith Bool Lra Lia.
From Verif Require Import Deriv VecMat Spatial Spatial_Proofs PairCol_Model.
Import ListNotations.
Open Scope R_scope.

(** ** Specification *)
Definition solid := v3 -> Prop.
(** a solid fixed to a body placed at [M] *)
Definition place (M : se3) (A : solid) : solid := fun p => exists a, A a /\ p = add3 (trans M) (mv (rot M) a).
Definition dist2 (a b : v3) : R := dot3 (sub3 a b) (sub3 a b).
Definition nearest (A B : solid) (n : v3 * v3) : Prop :=
  A (fst n) /\ B (snd n) /\ forall a b, A a -> B b -> dist2 (fst n) (snd n) <= dist2 a b.
Definition cont3 (f : R -> v3) (s : R) : Prop := continuous (fun t => c1 (f t)) s /\ continuous (fun t => c2 (f t)) s /\ continuous (fun t => c3 (f t)) s.
(** The robot along a curve with tangent dq: the first solid is fixed to the joint, the second one to the
    world; the Jacobian gives the velocity of the origin of the joint and its angular velocity, in the
    axes of the world; the nearest points do not jump at [s]. *)
Record ccurve (nv id : nat) (A B : solid) (k : R -> csnap) (s : R) (dq : vec) : Prop := {
  cc_rot : forall t, rotation (rot (k_oMi (k t) id));
  cc_lin : is_d3 (fun t => trans (k_oMi (k t) id)) s (comb3 nv (fun j => lin (k_J (k s) id j)) dq);
  cc_ang : is_dm (fun t => rot (k_oMi (k t) id)) s (mm (skew (comb3 nv (fun j => ang (k_J (k s) id j)) dq)) (rot (k_oMi (k s) id)));
  cc_near : forall t, nearest (place (k_oMi (k t) id) A) B (k_near (k t));
  cc_cont : cont3 (fun t => fst (k_near (k t))) s /\ cont3 (fun t => snd (k_near (k t))) s }.

(** ** Calculus *)
Lemma dcont (f : R -> R) s l : is_derive f s l -> continuous f s.
Proof. intro D. apply (ex_derive_continuous (K := R_AbsRing) (V := R_NormedModule)). now exists l. Qed.
(** a function that vanishes at s, times a continuous one *)
Lemma dvanish (f g : R -> R) s l : is_derive f s l -> f s = 0 -> continuous g s -> is_derive (fun t => f t * g t) s (l * g s).
Proof.
intros D Z C. apply is_derive_Reals in D. apply is_derive_Reals. intros e He.
(* |f(s+h) g(s+h) / h - l g(s)| <= |f(s+h)/h - l| |g(s+h)| + |l| |g(s+h) - g(s)| *)
assert (C' : forall e, 0 < e -> exists d : posreal, forall h, Rabs h < d -> Rabs (g (s + h) - g s) < e).
{ intros e0 H0. destruct (proj1 (filterlim_locally g (g s)) C (mkposreal e0 H0)) as (d & Hd). exists d. intros h Hh.
  assert (Q : ball s d (s + h)). { change (Rabs ((s + h) - s) < d). now replace (s + h - s) with h by ring. }
  specialize (Hd (s + h) Q). exact Hd. }
set (G := Rabs (g s) + 1). assert (G0 : 0 < G) by (unfold G; pose proof (Rabs_pos (g s)); lra).
set (L := Rabs l + 1). assert (L0 : 0 < L) by (unfold L; pose proof (Rabs_pos l); lra).
destruct (C' (Rmin 1 (e / 2 / L))) as (d1 & H1). { apply Rmin_pos; [lra|]. apply Rdiv_lt_0_compat; lra. }
assert (E2 : 0 < e / 2 / G) by (apply Rdiv_lt_0_compat; lra).
destruct (D (e / 2 / G) E2) as (d2 & H2).
assert (M : 0 < Rmin d1 d2) by (apply Rmin_pos; [apply cond_pos|apply cond_pos]).
exists (mkposreal _ M). intros h Hn Hh. cbn [pos] in Hh.
specialize (H1 h (Rlt_le_trans _ _ _ Hh (Rmin_l _ _))). specialize (H2 h Hn (Rlt_le_trans _ _ _ Hh (Rmin_r _ _))).
rewrite Z in H2. rewrite Z.
replace ((f (s + h) * g (s + h) - 0 * g s) / h - l * g s) with (((f (s + h) - 0) / h - l) * g (s + h) + l * (g (s + h) - g s)) by (field; exact Hn).
assert (B1 : Rabs (g (s + h)) < G).
{ replace (g (s + h)) with ((g (s + h) - g s) + g s) by ring. eapply Rle_lt_trans; [apply Rabs_triang|]. unfold G.
  pose proof (Rlt_le_trans _ _ _ H1 (Rmin_l _ _)). lra. }
assert (B2 := Rlt_le_trans _ _ _ H1 (Rmin_r _ _)).
eapply Rle_lt_trans; [apply Rabs_triang|]. rewrite !Rabs_mult.
assert (T1 : Rabs ((f (s + h) - 0) / h - l) * Rabs (g (s + h)) <= e / 2 / G * G).
{ apply Rmult_le_compat; [apply Rabs_pos|apply Rabs_pos|lra|lra]. }
assert (T2 : Rabs l * Rabs (g (s + h) - g s) < L * (e / 2 / L)).
{ apply Rle_lt_trans with (Rabs l * (e / 2 / L)); [apply Rmult_le_compat_l; [apply Rabs_pos|lra]|].
  apply Rmult_lt_compat_r; [apply Rdiv_lt_0_compat; lra|unfold L; lra]. }
replace (e / 2 / G * G) with (e / 2) in T1 by (field; lra). replace (L * (e / 2 / L)) with (e / 2) in T2 by (field; lra). lra.
Qed.
(** a function squeezed between two with the same value and derivative at s *)
Lemma dsqueeze (f g h : R -> R) s l : is_derive g s l -> is_derive h s l -> g s = f s -> h s = f s ->
  (forall t, g t <= f t) -> (forall t, f t <= h t) -> is_derive f s l.
Proof.
intros Dg Dh Eg Eh Hg Hh. apply is_derive_Reals in Dg, Dh. apply is_derive_Reals. intros e He.
destruct (Dg e He) as (d1 & H1). destruct (Dh e He) as (d2 & H2).
assert (M : 0 < Rmin d1 d2) by (apply Rmin_pos; apply cond_pos).
exists (mkposreal _ M). intros x Nx Hx. cbn [pos] in Hx.
specialize (H1 x Nx (Rlt_le_trans _ _ _ Hx (Rmin_l _ _))). specialize (H2 x Nx (Rlt_le_trans _ _ _ Hx (Rmin_r _ _))).
specialize (Hg (s + x)). specialize (Hh (s + x)). rewrite Eg in H1. rewrite Eh in H2.
apply Rabs_def2 in H1. apply Rabs_def2 in H2. apply Rabs_def1;
(destruct (Rtotal_order x 0) as [N|[N|N]]; [|lra|]).
- assert ((f (s + x) - f s) / x <= (g (s + x) - f s) / x); [|lra]. unfold Rdiv. rewrite !(Rmult_comm _ (/ x)). apply Rmult_le_compat_neg_l; [left; now apply Rinv_lt_0_compat|lra].
- assert ((f (s + x) - f s) / x <= (h (s + x) - f s) / x); [|lra]. unfold Rdiv. apply Rmult_le_compat_r; [left; now apply Rinv_0_lt_compat|lra].
- assert ((h (s + x) - f s) / x <= (f (s + x) - f s) / x); [|lra]. unfold Rdiv. rewrite !(Rmult_comm _ (/ x)). apply Rmult_le_compat_neg_l; [left; now apply Rinv_lt_0_compat|lra].
- assert ((g (s + x) - f s) / x <= (f (s + x) - f s) / x); [|lra]. unfold Rdiv. apply Rmult_le_compat_r; [left; now apply Rinv_0_lt_compat|lra].
Qed.

Definition contm (f : R -> m3) (s : R) : Prop := cont3 (fun t => row1 (f t)) s /\ cont3 (fun t => row2 (f t)) s /\ cont3 (fun t => row3 (f t)) s.
Lemma cplus (f g : R -> R) s : continuous f s -> continuous g s -> continuous (fun t => f t + g t) s.
Proof. intros. now apply (continuous_plus (V := R_NormedModule)). Qed.
Lemma cminus (f g : R -> R) s : continuous f s -> continuous g s -> continuous (fun t => f t - g t) s.
Proof. intros. now apply (continuous_minus (V := R_NormedModule)). Qed.
Lemma cmult (f g : R -> R) s : continuous f s -> continuous g s -> continuous (fun t => f t * g t) s.
Proof. intros. now apply (continuous_mult (K := R_AbsRing)). Qed.
Lemma cont3_add f g s : cont3 f s -> cont3 g s -> cont3 (fun t => add3 (f t) (g t)) s.
Proof. intros (A & B & C) (D & E & F). unfold add3. split; [|split]; cbn [c1 c2 c3]; now apply cplus. Qed.
Lemma cont3_sub f g s : cont3 f s -> cont3 g s -> cont3 (fun t => sub3 (f t) (g t)) s.
Proof. intros (A & B & C) (D & E & F). unfold sub3. split; [|split]; cbn [c1 c2 c3]; now apply cminus. Qed.
Lemma cont_dot f g s : cont3 f s -> cont3 g s -> continuous (fun t => dot3 (f t) (g t)) s.
Proof. intros (A & B & C) (D & E & F). unfold dot3. repeat apply cplus; now apply cmult. Qed.
Lemma cont3_mv M f s : contm M s -> cont3 f s -> cont3 (fun t => mv (M t) (f t)) s.
Proof. intros (A & B & C) D. unfold mv. split; [|split]; cbn [c1 c2 c3]; now apply cont_dot. Qed.
Lemma contm_mt M s : contm M s -> contm (fun t => mt (M t)) s.
Proof. intros ((A1 & A2 & A3) & (B1 & B2 & B3) & (C1 & C2 & C3)). unfold mt. split; [|split]; (split; [|split]); assumption. Qed.
Lemma cont3_const c s : cont3 (fun _ => c) s.
Proof. split; [|split]; apply continuous_const. Qed.
Lemma d3_cont f s d : is_d3 f s d -> cont3 f s.
Proof. intros (A & B & C). split; [|split]; eapply dcont; eassumption. Qed.
Lemma dm_cont f s d : is_dm f s d -> contm f s.
Proof. intros (A & B & C). split; [|split]; eapply d3_cont; eassumption. Qed.
Lemma dot_vanish f g s d : is_d3 f s d -> f s = z3 -> cont3 g s -> is_derive (fun t => dot3 (f t) (g t)) s (dot3 d (g s)).
Proof.
intros (A & B & C) Z (D & E & F). unfold dot3.
assert (Z1 : c1 (f s) = 0) by now rewrite Z. assert (Z2 : c2 (f s) = 0) by now rewrite Z. assert (Z3 : c3 (f s) = 0) by now rewrite Z.
apply dplus; [apply dplus|]; now apply (dvanish (fun t => _ (f t)) (fun t => _ (g t))).
Qed.
Definition subm (M N : m3) : m3 := M3 (sub3 (row1 M) (row1 N)) (sub3 (row2 M) (row2 N)) (sub3 (row3 M) (row3 N)).
Lemma d3subc f c s d : is_d3 f s d -> is_d3 (fun t => sub3 (f t) c) s d.
Proof. intro D. eapply d3eq; [apply d3sub; [exact D|apply d3const]|]. v3r. Qed.
Lemma mv_vanish M g s D : is_dm M s D -> cont3 g s -> is_d3 (fun t => mv (subm (M t) (M s)) (g t)) s (mv D (g s)).
Proof.
intros (A & B & C) G. unfold mv, subm. split; [|split]; cbn [c1 c2 c3 row1 row2 row3];
apply (dot_vanish (fun t => sub3 _ _)); try assumption; try (apply d3subc; assumption); v3r.
Qed.

(** ** The gradient of the distance *)
Section Distance.
Variables (nv id : nat) (A B : solid) (k : R -> csnap) (s : R) (dq : vec).
Hypothesis C : ccurve nv id A B k s dq.
Let p t := trans (k_oMi (k t) id).
Let M t := rot (k_oMi (k t) id).
Let p0 t := fst (k_near (k t)).
Let p1 t := snd (k_near (k t)).
(** the nearest point of the first solid, seen from its body *)
Let a t := mv (mt (M t)) (sub3 (p0 t) (p t)).
Let w := comb3 nv (fun j => ang (k_J (k s) id j)) dq.
Let v := comb3 nv (fun j => lin (k_J (k s) id j)) dq.

Lemma body t : A (a t) /\ p0 t = add3 (p t) (mv (M t) (a t)).
Proof.
destruct (cc_near _ _ _ _ _ _ _ C t) as ((b & Hb & E) & _). change (p0 t = add3 (p t) (mv (M t) b)) in E.
assert (F : a t = b). { unfold a. rewrite E. replace (sub3 (add3 (p t) (mv (M t) b)) (p t)) with (mv (M t) b) by v3r. apply rot_inv_l, (cc_rot _ _ _ _ _ _ _ C). }
now rewrite F.
Qed.
Lemma below t u : dist2 (p0 t) (p1 t) <= dist2 (add3 (p t) (mv (M t) (a u))) (p1 u).
Proof.
destruct (cc_near _ _ _ _ _ _ _ C t) as (_ & _ & H). apply H; [|apply (cc_near _ _ _ _ _ _ _ C u)].
exists (a u). split; [apply body|reflexivity].
Qed.
Lemma a_cont : cont3 a s.
Proof.
apply cont3_mv; [apply contm_mt; eapply dm_cont, (cc_ang _ _ _ _ _ _ _ C)|].
apply cont3_sub; [apply (cc_cont _ _ _ _ _ _ _ C)|eapply d3_cont, (cc_lin _ _ _ _ _ _ _ C)].
Qed.
Let V := add3 v (cross w (sub3 (p0 s) (p s))).
Lemma V_body : add3 v (mv (mm (skew w) (M s)) (a s)) = V.
Proof.
unfold V. rewrite mv_mm, mv_skew. destruct (body s) as (_ & E). rewrite E.
replace (sub3 (add3 (p s) (mv (M s) (a s))) (p s)) with (mv (M s) (a s)) by v3r. reflexivity.
Qed.
Lemma dist_derive : is_derive (fun t => / 2 * dist2 (p0 t) (p1 t)) s (dot3 V (sub3 (p0 s) (p1 s))).
Proof.
pose proof (cc_lin _ _ _ _ _ _ _ C) as Dp. change (is_d3 p s v) in Dp.
pose proof (cc_ang _ _ _ _ _ _ _ C) as DM. change (is_dm M s (mm (skew w) (M s))) in DM.
destruct (cc_cont _ _ _ _ _ _ _ C) as (_ & C1). change (cont3 p1 s) in C1.
set (q t := add3 (sub3 (p t) (p s)) (mv (subm (M t) (M s)) (a t))).
set (g t := add3 (sub3 (add3 (p t) (mv (M t) (a t))) (p1 t)) (sub3 (add3 (p s) (mv (M s) (a t))) (p1 t))).
apply (dsqueeze _ (fun t => / 2 * dist2 (p0 s) (p1 s) + / 2 * dot3 (q t) (g t)) (fun t => / 2 * dist2 (add3 (p t) (mv (M t) (a s))) (p1 s))).
- assert (Dq : is_d3 q s V).
  { eapply d3eq; [apply d3add; [apply d3subc; exact Dp|apply mv_vanish; [exact DM|exact a_cont]]|]. apply V_body. }
  eapply deq; [apply dplus; [exact (dconst _ s)|apply dscal; apply (dot_vanish q g s V Dq)]|].
  + unfold q, subm. v3r.
  + unfold g. pose proof (d3_cont _ _ _ Dp) as Cp. pose proof (dm_cont _ _ _ DM) as CM. pose proof a_cont as Ca.
    apply cont3_add; apply cont3_sub; try exact C1; apply cont3_add; try exact Cp; try apply cont3_const; apply cont3_mv; try exact Ca; try exact CM.
    repeat split; apply continuous_const.
  + unfold g. destruct (body s) as (_ & E). rewrite <- E. v3u. field.
- eapply deq; [apply dscal; unfold dist2; apply ddot3; (apply d3subc; apply d3add; [exact Dp|apply d3mv; [exact DM|apply d3const]])|].
  destruct (body s) as (_ & E). replace (add3 (mv (mm (skew w) (M s)) (a s)) (mv (M s) z3)) with (mv (mm (skew w) (M s)) (a s)) by v3r.
  rewrite V_body, <- E. v3u. field.
- unfold q, subm. cbv beta. v3u. field.
- destruct (body s) as (_ & E). now rewrite <- E.
- intro t. pose proof (below s t) as L. destruct (body t) as (_ & E).
  assert (X : dist2 (p0 t) (p1 t) = dist2 (add3 (p s) (mv (M s) (a t))) (p1 t) + dot3 (q t) (g t)).
  { rewrite E. unfold q, g, subm, dist2. clear. generalize (p t) (p s) (M t) (M s) (a t) (p1 t). intros. v3u. ring. }
  rewrite X. lra.
- intro t. pose proof (below t s). lra.
Qed.
End Distance.

(** The residual is the vector between the nearest points; whatever was called before, the gradient that a
    cost computes from the published Jacobian is the one of any function of the distance. *)
Theorem C104_gradient_partial : forall nv id A B k s dq near l (h : R -> R) h',
  ccurve nv id A B k s dq ->
  let r t := cd_r (crun nv id near (l ++ [CCalc (k t)])) in
  let d := crun nv id near (l ++ [CCalc (k s); CDiff (k s)]) in
  (forall t, nearest (place (k_oMi (k t) id) A) B (k_near (k t)) /\ r t = sub3 (fst (k_near (k t))) (snd (k_near (k t)))) /\
  (is_derive h (/ 2 * dot3 (r s) (r s)) h' ->
   is_derive (fun t => h (/ 2 * dot3 (r t) (r t))) s (rsum nv (fun j => dot3 (cd_Rx d j) (scal3 h' (cd_r d)) * dq j))) /\
  (forall j, (nv <= j)%nat -> cd_Rx d j = z3).
Proof.
intros nv id A B k s dq near l h h' C r d.
assert (Er : forall t, r t = sub3 (fst (k_near (k t))) (snd (k_near (k t)))).
{ intro t. unfold r, crun. rewrite fold_left_app. reflexivity. }
split; [intro t; split; [apply (cc_near _ _ _ _ _ _ _ C)|apply Er]|].
assert (Ed : d = pc_diff nv id (k s) (pc_calc (k s) (crun nv id near l))).
{ unfold d, crun. rewrite fold_left_app. reflexivity. }
split.
- intro Dh. pose proof (dist_derive nv id A B k s dq C) as D. unfold dist2 in D.
  assert (X : forall t, / 2 * dot3 (r t) (r t) = / 2 * dot3 (sub3 (fst (k_near (k t))) (snd (k_near (k t)))) (sub3 (fst (k_near (k t))) (snd (k_near (k t))))) by (intro t; now rewrite Er).
  eapply deq; [eapply dext; [|apply (dcomp h (fun t => / 2 * dot3 (sub3 (fst (k_near (k t))) (snd (k_near (k t)))) (sub3 (fst (k_near (k t))) (snd (k_near (k t))))) s h'); [|exact D]]|].
  + intro t. cbv beta. now rewrite <- X.
  + cbv beta. rewrite <- X. exact Dh.
  + rewrite <- dot3_comb. rewrite Ed. cbn [pc_diff pc_calc cd_near cd_r cd_Rx].
    rewrite (comb3_ext nv (fun j => if Nat.ltb j nv then _ else _) (fun j => add3 (lin (k_J (k s) id j)) (mv (mt (skew (sub3 (fst (k_near (k s))) (trans (k_oMi (k s) id))))) (ang (k_J (k s) id j)))))
      by (intros j Hj; apply Nat.ltb_lt in Hj; now rewrite Hj).
    rewrite comb3_add, comb3_mv. generalize (comb3 nv (fun j => lin (k_J (k s) id j)) dq) (comb3 nv (fun j => ang (k_J (k s) id j)) dq).
    intros v w. v3u. ring.
- assert (Z : forall l j, (nv <= j)%nat -> cd_Rx (crun nv id near l) j = z3).
  { clear. intros l j Hj. unfold crun. induction l as [|o l IH] using rev_ind; [reflexivity|]. rewrite fold_left_app. cbn [fold_left].
    destruct o as [k|k]; cbn [cstep pc_calc pc_diff cd_Rx]; [exact IH|]. destruct (Nat.ltb_spec j nv); [lia|exact IH]. }
  intros j Hj. apply Z. exact Hj.
Qed.

(** ** What fails *)
Definition point (a : v3) : solid := fun p => p = a.
Definition floor : solid := fun p => c3 p = - 1.
(** A point above a floor, moved along it by one prismatic joint. *)
Definition slide (t : R) : csnap := CSnap (fun _ => SE3 I3 (V3 t 0 0)) (fun _ _ => V6 (V3 1 0 0) z3) (V3 t 0 0, V3 t 0 (- 1)).
Lemma slide_curve s : ccurve 1 0 (point z3) floor slide s (fun _ => 1).
Proof.
split.
- intro t. apply rot_I.
- unfold is_d3, comb3. cbn [slide k_oMi k_J trans lin c1 c2 c3 rsum].
  split; [|split]; (eapply deq; [|symmetry; ring_simplify; reflexivity]); [exact (did s)|exact (dconst 0 s)|exact (dconst 0 s)].
- assert (E : mm (skew (comb3 1 (fun j => ang (k_J (slide s) 0 j)) (fun _ => 1))) (rot (k_oMi (slide s) 0)) = M3 z3 z3 z3).
  { unfold comb3. cbn [slide k_J ang rsum k_oMi rot]. apply m3_ext; v3r. }
  rewrite E. exact (dmconst I3 s).
- intro t. split; [|split].
  + exists z3. split; [reflexivity|]. cbn [slide k_near fst k_oMi trans rot]. v3r.
  + reflexivity.
  + intros a b (c & -> & ->) F. unfold floor in F. cbn [slide k_near fst snd k_oMi trans rot]. unfold dist2. v3u.
    rewrite F. pose proof (Rle_0_sqr (t - c1 b)) as Q1. pose proof (Rle_0_sqr (c2 b)) as Q2. unfold Rsqr in Q1, Q2. lra.
- split; cbn [slide k_near fst snd]; (split; [|split]); cbn [c1 c2 c3]; try apply continuous_id; apply continuous_const.
Qed.
(** The published Jacobian is not the derivative of the residual. *)
Theorem C104_jacobian_refuted : forall near s, exists A B k dq, ccurve 1 0 A B k s dq /\
  let d := crun 1 0 near [CCalc (k s); CDiff (k s)] in
  ~ is_d3 (fun t => cd_r (crun 1 0 near [CCalc (k t)])) s (comb3 1 (cd_Rx d) dq).
Proof.
intros near s. exists (point z3), floor, slide, (fun _ => 1). split; [apply slide_curve|]. cbv zeta. intros (D & _).
cbn [crun fold_left cstep pc_calc pc_diff cd_r cd_Rx slide k_near fst snd comb3 rsum Nat.ltb Nat.leb c1 k_J lin ang cd_near k_oMi trans] in D.
assert (D0 : is_derive (fun t => c1 (sub3 (V3 t 0 0) (V3 t 0 (- 1)))) s 0).
{ apply (dext (fun _ => 0)); [intro t; v3u; ring|]. exact (dconst 0 s). }
pose proof (duniq _ _ _ _ D D0) as E. revert E. v3u. lra.
Qed.
(** Two points on two links of the robot, at q0 and 5 + q0 + q1 on the x axis: the gradient of the squared distance
    is not the published one. *)
Definition links (q0 q1 : R) : csnap :=
  CSnap (fun i => SE3 I3 (V3 (if Nat.eqb i 0 then q0 else 5 + q0 + q1) 0 0))
        (fun i j => V6 (V3 (if Nat.eqb i 0 then (if Nat.eqb j 0 then 1 else 0) else 1) 0 0) z3) (V3 q0 0 0, V3 (5 + q0 + q1) 0 0).
Theorem C104_links_refuted : forall near, exists (k : R -> csnap) s dq,
  (forall t, nearest (place (k_oMi (k t) 0) (point z3)) (place (k_oMi (k t) 1) (point z3)) (k_near (k t))) /\
  (forall i, is_d3 (fun t => trans (k_oMi (k t) i)) s (comb3 2 (fun j => lin (k_J (k s) i j)) dq)) /\
  let d := crun 2 0 near [CCalc (k s); CDiff (k s)] in
  let r t := cd_r (crun 2 0 near [CCalc (k t)]) in
  ~ is_derive (fun t => / 2 * dot3 (r t) (r t)) s (rsum 2 (fun j => dot3 (cd_Rx d j) (cd_r d) * dq j)).
Proof.
intro near. exists (fun t => links t 0), 0, (fun j => if Nat.eqb j 0 then 1 else 0). split; [|split].
- intro t. split; [|split].
  + exists z3. split; [reflexivity|]. cbn [links k_near fst k_oMi trans rot Nat.eqb]. v3r.
  + exists z3. split; [reflexivity|]. cbn [links k_near snd k_oMi trans rot Nat.eqb]. v3r.
  + intros a b (c & -> & ->) (c' & -> & ->). cbn [links k_near fst snd k_oMi trans rot Nat.eqb]. unfold dist2. v3u. apply Req_le. ring.
- intro i. unfold is_d3, comb3. cbn [links k_oMi k_J trans lin c1 c2 c3 rsum Nat.eqb]. destruct (Nat.eqb i 0).
  + split; [|split]; (eapply deq; [|symmetry; ring_simplify; reflexivity]); [exact (did 0)|exact (dconst 0 0)|exact (dconst 0 0)].
  + split; [|split]; (eapply deq; [|symmetry; ring_simplify; reflexivity]); [|exact (dconst 0 0)|exact (dconst 0 0)].
    eapply deq; [apply dplus; [apply dplus; [exact (dconst 5 0)|exact (did 0)]|exact (dconst 0 0)]|ring].
- cbv zeta. intro D.
  cbn [crun fold_left cstep pc_calc pc_diff cd_r cd_Rx links k_near fst snd rsum Nat.ltb Nat.leb k_J lin ang cd_near k_oMi trans Nat.eqb] in D.
  assert (D0 : is_derive (fun t => / 2 * dot3 (sub3 (V3 t 0 0) (V3 (5 + t + 0) 0 0)) (sub3 (V3 t 0 0) (V3 (5 + t + 0) 0 0))) 0 0).
  { apply (dext (fun _ => 25 / 2)); [intro t; v3u; field|]. exact (dconst (25 / 2) 0). }
  pose proof (duniq _ _ _ _ D D0) as E. revert E. v3u. lra.
Qed.

(** ** A case that meets the hypotheses: a point lowered onto the floor *)
Definition lower (t : R) : csnap := CSnap (fun _ => SE3 I3 (V3 0 0 t)) (fun _ _ => V6 (V3 0 0 1) z3) (V3 0 0 t, V3 0 0 (- 1)).
Example C104_ex_lower s : ccurve 1 0 (point z3) floor lower s (fun _ => 1).
Proof.
split.
- intro t. apply rot_I.
- unfold is_d3, comb3. cbn [lower k_oMi k_J trans lin c1 c2 c3 rsum].
  split; [|split]; (eapply deq; [|symmetry; ring_simplify; reflexivity]); [exact (dconst 0 s)|exact (dconst 0 s)|exact (did s)].
- assert (E : mm (skew (comb3 1 (fun j => ang (k_J (lower s) 0 j)) (fun _ => 1))) (rot (k_oMi (lower s) 0)) = M3 z3 z3 z3).
  { unfold comb3. cbn [lower k_J ang rsum k_oMi rot]. apply m3_ext; v3r. }
  rewrite E. exact (dmconst I3 s).
- intro t. split; [|split].
  + exists z3. split; [reflexivity|]. cbn [lower k_near fst k_oMi trans rot]. v3r.
  + reflexivity.
  + intros a b (c & -> & ->) F. unfold floor in F. cbn [lower k_near fst snd k_oMi trans rot]. unfold dist2. v3u.
    rewrite F. pose proof (Rle_0_sqr (c1 b)) as Q1. pose proof (Rle_0_sqr (c2 b)) as Q2. unfold Rsqr in Q1, Q2. lra.
- split; cbn [lower k_near fst snd]; (split; [|split]); cbn [c1 c2 c3]; try apply continuous_id; apply continuous_const.
Qed.
(** half the squared distance and its published gradient *)
Example C104_ex_value near s : let d := crun 1 0 near [CCalc (lower s); CDiff (lower s)] in
  dot3 (cd_r d) (cd_r d) = (s + 1) * (s + 1) /\ dot3 (cd_Rx d 0%nat) (cd_r d) = s + 1.
Proof. cbn [crun fold_left cstep pc_calc pc_diff cd_r cd_Rx lower k_near fst snd Nat.ltb Nat.leb k_J lin ang cd_near k_oMi trans]. v3u. split; ring. Qed.

Print Assumptions C104_gradient_partial.
Print Assumptions C104_jacobian_refuted.
Print Assumptions C104_links_refuted.
