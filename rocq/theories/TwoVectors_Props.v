(** C112: the rotation between two vectors. *)
From Coq Require Import Reals Lra.
From Verif Require Import Spatial TwoVectors_Model.
Open Scope R_scope.

(** Specification: two vectors point the same way when they are positive multiples of each other,
    in opposite ways when they are negative ones. *)
Definition same_way (a b : v3) : Prop := exists k, 0 < k /\ b = scal3 k a.
Definition opposite (a b : v3) : Prop := exists k, k < 0 /\ b = scal3 k a.

Lemma v3_ext a b : c1 a = c1 b -> c2 a = c2 b -> c3 a = c3 b -> a = b.
Proof. destruct a, b; cbn. now intros -> -> ->. Qed.
Lemma m3_ext A B : row1 A = row1 B -> row2 A = row2 B -> row3 A = row3 B -> A = B.
Proof. destruct A, B; cbn. now intros -> -> ->. Qed.
Lemma dot3_pos a : 0 <= dot3 a a.
Proof. unfold dot3. nra. Qed.
Lemma norm3_sq a : norm3 a * norm3 a = dot3 a a.
Proof. apply sqrt_sqrt, dot3_pos. Qed.
Lemma norm3_zero a : norm3 a = 0 <-> a = z3.
Proof.
  split.
  - intro H. pose proof (norm3_sq a) as E. rewrite H in E. unfold dot3 in E.
    apply v3_ext; cbn; nra.
  - intros ->. unfold norm3, dot3, z3. cbn. replace (0 * 0 + 0 * 0 + 0 * 0) with 0 by ring. apply sqrt_0.
Qed.
Lemma norm3_nonneg a : 0 <= norm3 a. Proof. apply sqrt_pos. Qed.
Lemma unit_div a : norm3 a <> 0 -> dot3 (div3 a (norm3 a)) (div3 a (norm3 a)) = 1.
Proof.
  intro H. transitivity (dot3 a a / (norm3 a * norm3 a)); [|rewrite norm3_sq; field; rewrite <- norm3_sq; nra].
  unfold dot3, div3. cbn. field. exact H.
Qed.
(** |u x v|^2 + (u . v)^2 = |u|^2 |v|^2 *)
Lemma lagrange u v : dot3 (cross u v) (cross u v) + dot3 u v * dot3 u v = dot3 u u * dot3 v v.
Proof. unfold dot3, cross. cbn. ring. Qed.

Lemma rodrigues_rotation k h : h * h * dot3 k k - 2 * h + 1 = 0 ->
  rotation (madd (madd I3 (skew k)) (mscal h (mm (skew k) (skew k)))).
Proof.
  intro E. destruct k as [x y z]. unfold dot3 in E. cbn in E.
  assert (E0 : h * h * (x * x + y * y + z * z) = 2 * h - 1) by lra. clear E.
  assert (L : forall p q w, p = q + w * (h * h * (x * x + y * y + z * z) - (2 * h - 1)) -> p = q).
  { intros p q w ->. rewrite E0. ring. }
  split; [|split].
  - apply m3_ext; apply v3_ext; cbn; repeat (unfold dot3; cbn);
    [apply (L _ _ (- (0 - z * z - y * y)))|apply (L _ _ (- (x * y)))|apply (L _ _ (- (x * z)))
    |apply (L _ _ (- (x * y)))|apply (L _ _ (- (0 - z * z - x * x)))|apply (L _ _ (- (y * z)))
    |apply (L _ _ (- (x * z)))|apply (L _ _ (- (y * z)))|apply (L _ _ (- (0 - x * x - y * y)))]; ring.
  - apply m3_ext; apply v3_ext; cbn; repeat (unfold dot3; cbn);
    [apply (L _ _ (- (0 - z * z - y * y)))|apply (L _ _ (- (x * y)))|apply (L _ _ (- (x * z)))
    |apply (L _ _ (- (x * y)))|apply (L _ _ (- (0 - z * z - x * x)))|apply (L _ _ (- (y * z)))
    |apply (L _ _ (- (x * z)))|apply (L _ _ (- (y * z)))|apply (L _ _ (- (0 - x * x - y * y)))]; ring.
  - unfold det3, dot3, cross. cbn. repeat (unfold dot3; cbn). apply (L _ _ (x * x + y * y + z * z)). ring.
Qed.
Lemma rodrigues_axis k h : mv (madd (madd I3 (skew k)) (mscal h (mm (skew k) (skew k)))) k = k.
Proof. destruct k as [x y z]. apply v3_ext; cbn; unfold dot3; cbn; unfold dot3; cbn; ring. Qed.
Lemma rodrigues_maps u v h : dot3 u u = 1 -> h * dot3 (cross u v) (cross u v) = 1 - dot3 u v ->
  mv (madd (madd I3 (skew (cross u v))) (mscal h (mm (skew (cross u v)) (skew (cross u v))))) u = v.
Proof.
  intros Hu Hh.
  assert (A : forall k w, mv (madd (madd I3 (skew k)) (mscal h (mm (skew k) (skew k)))) w =
            add3 (add3 w (cross k w)) (scal3 h (cross k (cross k w)))).
  { intros [x y z] [p q r]. apply v3_ext; cbn; unfold dot3; cbn; unfold dot3; cbn; ring. }
  rewrite A. clear A.
  assert (B : cross (cross u v) u = sub3 (scal3 (dot3 u u) v) (scal3 (dot3 u v) u)).
  { destruct u, v. apply v3_ext; cbn; unfold dot3; cbn; ring. }
  assert (C : cross (cross u v) (cross (cross u v) u) = scal3 (- dot3 (cross u v) (cross u v)) u).
  { destruct u, v. apply v3_ext; cbn; unfold dot3; cbn; ring. }
  rewrite C, B, Hu. set (q := dot3 (cross u v) (cross u v)) in *. set (c := dot3 u v) in *. clearbody q c.
  destruct u as [u1 u2 u3], v as [w1 w2 w3]. apply v3_ext; cbn.
  - replace (h * (- q * u1)) with (- (h * q) * u1) by ring. rewrite Hh. ring.
  - replace (h * (- q * u2)) with (- (h * q) * u2) by ring. rewrite Hh. ring.
  - replace (h * (- q * u3)) with (- (h * q) * u3) by ring. rewrite Hh. ring.
Qed.
Lemma I3_rotation : rotation I3.
Proof.
  split; [|split]; [apply m3_ext; apply v3_ext; cbn; unfold dot3; cbn; ring..|].
  unfold det3, cross, dot3. cbn. ring.
Qed.
Lemma mv_I3 a : mv I3 a = a.
Proof. destruct a. apply v3_ext; cbn; unfold dot3; cbn; ring. Qed.
Lemma mscal_mscal p q A : mscal p (mscal q A) = mscal (p * q) A.
Proof. destruct A as [[] [] []]. unfold mscal, scal3. cbn. now rewrite !Rmult_assoc. Qed.

(** Parallel unit vectors are equal or opposite. *)
Lemma cross_zero_unit u v : dot3 u u = 1 -> dot3 v v = 1 -> cross u v = z3 -> v = scal3 (dot3 u v) u.
Proof.
  intros Hu Hv H. injection H as H1 H2 H3. destruct u as [a b c], v as [x y z]. cbn in *. unfold dot3 in *. cbn in *.
  apply v3_ext; cbn.
  - replace x with (x * (a * a + b * b + c * c)) at 1 by (rewrite Hu; ring).
    transitivity ((a * x + b * y + c * z) * a - b * (a * y - b * x) + c * (c * x - a * z)); [ring|].
    rewrite H2, H3. ring.
  - replace y with (y * (a * a + b * b + c * c)) at 1 by (rewrite Hu; ring).
    transitivity ((a * x + b * y + c * z) * b + a * (a * y - b * x) - c * (b * z - c * y)); [ring|].
    rewrite H1, H3. ring.
  - replace z with (z * (a * a + b * b + c * c)) at 1 by (rewrite Hu; ring).
    transitivity ((a * x + b * y + c * z) * c + b * (b * z - c * y) - a * (c * x - a * z)); [ring|].
    rewrite H1, H2. ring.
Qed.

(** A rotation is returned for any two vectors, ... *)
Theorem C112_rotation a b : rotation (two_vectors a b).
Proof.
  unfold two_vectors. destruct (Req_EM_T (norm3 a) 0) as [|Ha]; [apply I3_rotation|].
  destruct (Req_EM_T (norm3 b) 0) as [|Hb]; [apply I3_rotation|].
  set (u := div3 a (norm3 a)). set (v := div3 b (norm3 b)).
  destruct (Req_EM_T (norm3 (cross u v)) 0) as [|Hs]; [apply I3_rotation|].
  pose proof (unit_div a Ha) as Hu. pose proof (unit_div b Hb) as Hv. fold u in Hu. fold v in Hv.
  pose proof (lagrange u v) as L. rewrite Hu, Hv in L. rewrite mscal_mscal.
  apply rodrigues_rotation. rewrite <- norm3_sq in *. set (s := norm3 (cross u v)) in *. clearbody s.
  set (c := dot3 u v) in *. clearbody c. field_simplify_eq; [|exact Hs]. nra.
Qed.
(** ... and it turns the direction of the first into that of the second, about the axis orthogonal to
    both, unless they are opposite. *)
Theorem C112_maps_partial a b : a <> z3 -> b <> z3 -> ~ opposite a b ->
  mv (two_vectors a b) (div3 a (norm3 a)) = div3 b (norm3 b) /\
  mv (two_vectors a b) (cross a b) = cross a b.
Proof.
  intros Ha Hb Ho. unfold two_vectors.
  destruct (Req_EM_T (norm3 a) 0) as [E|Na]; [now apply norm3_zero in E|].
  destruct (Req_EM_T (norm3 b) 0) as [E|Nb]; [now apply norm3_zero in E|].
  pose proof (unit_div a Na) as Hu. pose proof (unit_div b Nb) as Hv.
  assert (X : cross a b = scal3 (norm3 a * norm3 b) (cross (div3 a (norm3 a)) (div3 b (norm3 b)))).
  { destruct a, b. apply v3_ext; cbn; field; split; assumption. }
  assert (Bu : b = scal3 (norm3 b) (div3 b (norm3 b))) by (destruct b; apply v3_ext; cbn; field; assumption).
  assert (Au : div3 a (norm3 a) = scal3 (/ norm3 a) a) by (destruct a; apply v3_ext; cbn; field; assumption).
  set (u := div3 a (norm3 a)) in *. set (v := div3 b (norm3 b)) in *.
  destruct (Req_EM_T (norm3 (cross u v)) 0) as [E|Ns].
  - apply norm3_zero in E. rewrite !mv_I3. split; [|reflexivity].
    pose proof (cross_zero_unit u v Hu Hv E) as F. pose proof (lagrange u v) as L.
    rewrite E, Hu, Hv in L. unfold dot3 at 1, z3 in L. cbn in L.
    set (c := dot3 u v) in *. clearbody c.
    assert (C : c = 1 \/ c = -1) by (assert ((c - 1) * (c + 1) = 0) by nra; destruct (Rmult_integral _ _ H); lra).
    destruct C as [-> | ->]; [rewrite F; destruct u; apply v3_ext; cbn; ring|].
    exfalso. apply Ho. pose proof (norm3_nonneg a). pose proof (norm3_nonneg b).
    exists (- (norm3 b / norm3 a)). split.
    + assert (0 < norm3 b / norm3 a); [|lra]. apply Rdiv_lt_0_compat; lra.
    + rewrite Bu at 1. rewrite F, Au. destruct a. apply v3_ext; cbn; field; assumption.
  - rewrite mscal_mscal. split.
    + apply rodrigues_maps; [exact Hu|]. rewrite <- norm3_sq. field. exact Ns.
    + rewrite X. set (k := cross u v). set (M := madd _ _).
      assert (P : mv M k = k) by apply rodrigues_axis. clearbody M. revert P. generalize (norm3 a * norm3 b) as w.
      intros w P. transitivity (scal3 w (mv M k)); [|now rewrite P].
      destruct M as [[] [] []], k. apply v3_ext; cbn; unfold dot3; cbn; ring.
Qed.
(** Opposite vectors get the identity, which leaves the first where it is. *)
Theorem C112_opposite_refuted a b : a <> z3 -> opposite a b ->
  two_vectors a b = I3 /\ mv (two_vectors a b) (div3 a (norm3 a)) <> div3 b (norm3 b).
Proof.
  intros Ha (k & Hk & ->).
  assert (Na : norm3 a <> 0) by now rewrite norm3_zero.
  assert (Nb : norm3 (scal3 k a) = - k * norm3 a).
  { unfold norm3. replace (dot3 (scal3 k a) (scal3 k a)) with ((k * k) * dot3 a a) by (destruct a; unfold dot3; cbn; ring).
    rewrite sqrt_mult; [|nra|apply dot3_pos]. f_equal.
    replace (k * k) with ((- k) * (- k)) by ring. apply sqrt_square. lra. }
  assert (E : two_vectors a (scal3 k a) = I3).
  { unfold two_vectors. destruct (Req_EM_T (norm3 a) 0) as [|_]; [reflexivity|].
    destruct (Req_EM_T _ 0) as [|_]; [reflexivity|].
    destruct (Req_EM_T _ 0) as [|N]; [reflexivity|]. destruct N. apply norm3_zero. rewrite Nb.
    revert Na. clear - Hk. generalize (norm3 a). intros n Na. destruct a. apply v3_ext; cbn; field; split; lra. }
  split; [exact E|]. rewrite E, mv_I3, Nb. intro F.
  assert (G : dot3 (div3 a (norm3 a)) (div3 a (norm3 a)) = - dot3 (div3 a (norm3 a)) (div3 a (norm3 a))).
  { rewrite F at 2. revert Na. clear - Hk. generalize (norm3 a). intros n Na.
    destruct a. unfold dot3, div3, scal3. cbn. field. split; lra. }
  rewrite unit_div in G by assumption. lra.
Qed.
(** A zero vector has no direction; the identity is returned. *)
Theorem C112_zero a b : a = z3 \/ b = z3 -> two_vectors a b = I3.
Proof.
  intro H. unfold two_vectors. destruct (Req_EM_T (norm3 a) 0) as [|Na]; [reflexivity|].
  destruct (Req_EM_T (norm3 b) 0) as [|Nb]; [reflexivity|].
  destruct H as [H|H]; apply norm3_zero in H; contradiction.
Qed.

Example maps_ex : mv (two_vectors (V3 2 0 0) (V3 0 3 0)) (V3 1 0 0) = V3 0 1 0 /\ ~ opposite (V3 2 0 0) (V3 0 3 0).
Proof.
  assert (O : ~ opposite (V3 2 0 0) (V3 0 3 0)).
  { intros (k & Hk & E). injection E as E1 E2 E3. lra. }
  split; [|exact O].
  assert (A : norm3 (V3 2 0 0) = 2).
  { unfold norm3, dot3. cbn. replace (2 * 2 + 0 * 0 + 0 * 0) with (2 * 2) by ring. apply sqrt_square. lra. }
  assert (B : norm3 (V3 0 3 0) = 3).
  { unfold norm3, dot3. cbn. replace (0 * 0 + 3 * 3 + 0 * 0) with (3 * 3) by ring. apply sqrt_square. lra. }
  destruct (C112_maps_partial (V3 2 0 0) (V3 0 3 0)) as [M _]; [intro H; injection H as H1; lra|intro H; injection H as H1; lra|exact O|].
  rewrite A, B in M. unfold div3 in M. cbn [c1 c2 c3] in M.
  replace (2 / 2) with 1 in M by field. replace (0 / 2) with 0 in M by field.
  replace (0 / 3) with 0 in M by field. replace (3 / 3) with 1 in M by field. exact M.
Qed.
Example opposite_ex : V3 1 0 0 <> z3 /\ opposite (V3 1 0 0) (V3 (-2) 0 0).
Proof.
  split; [intro H; injection H as H1; lra|]. exists (-2). split; [lra|]. apply v3_ext; cbn; ring.
Qed.

Print Assumptions C112_rotation.
Print Assumptions C112_maps_partial.
Print Assumptions C112_opposite_refuted.
Print Assumptions C112_zero.
