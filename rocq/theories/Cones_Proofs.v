(** Lemmas for the friction and wrench cones. *)
From Coquelicot Require Import Coquelicot.
From Coq Require Import QArith Reals Lra Lia List Arith Bool.
From Verif Require Import XFloat Deriv VecMat Cones_Model.
Import ListNotations.
Open Scope R_scope.

(** ** Angles *)
Lemma polar x y : exists phi, 0 <= phi <= 2 * PI /\ x = sqrt (x ^ 2 + y ^ 2) * cos phi /\ y = sqrt (x ^ 2 + y ^ 2) * sin phi.
Proof.
  set (rho := sqrt (x ^ 2 + y ^ 2)).
  assert (Hr2 : rho * rho = x ^ 2 + y ^ 2) by (apply sqrt_sqrt; pose proof (pow2_ge_0 x); pose proof (pow2_ge_0 y); lra).
  assert (Hr0 : 0 <= rho) by apply sqrt_pos.
  pose proof PI_RGT_0 as Hpi.
  destruct (Req_dec rho 0) as [E|N].
  - exists 0. assert (x = 0) by (rewrite E in Hr2; nra). assert (y = 0) by (rewrite E in Hr2; nra). rewrite E. lra.
  - assert (Hr : 0 < rho) by lra.
    assert (Hb : -1 <= x / rho <= 1).
    { split; [apply Rle_div_r|apply Rle_div_l]; auto; nra. }
    assert (Hc : cos (acos (x / rho)) = x / rho) by (apply cos_acos; auto).
    assert (Hs : sin (acos (x / rho)) = Rabs y / rho).
    { rewrite sin_acos by auto. replace (1 - (x / rho)²) with (Rsqr (Rabs y / rho)).
      - apply sqrt_Rsqr. apply Rdiv_le_0_compat; auto. apply Rabs_pos.
      - unfold Rsqr. assert (Ha : Rabs y * Rabs y = y * y) by (symmetry; apply (Rsqr_abs y)).
        replace (Rabs y / rho * (Rabs y / rho)) with ((Rabs y * Rabs y) / (rho * rho)) by (field; lra). rewrite Ha. rewrite Hr2.
        replace (x / rho * (x / rho)) with (x * x / (rho * rho)) by (field; lra). rewrite Hr2. field. rewrite <- Hr2. nra. }
    pose proof (acos_bound (x / rho)) as Hab.
    destruct (Rle_dec 0 y) as [Hy|Hy].
    + exists (acos (x / rho)). rewrite Hc, Hs. rewrite Rabs_pos_eq by auto. repeat split; try lra; field; lra.
    + exists (2 * PI - acos (x / rho)). rewrite cos_minus, sin_minus, cos_2PI, sin_2PI, Hc, Hs.
      rewrite Rabs_left by lra. repeat split; try lra; field; lra.
Qed.
(** some multiple of the facet angle lies within half a facet *)
Lemma nearest_facet nf phi : (2 <= nf)%nat -> 0 <= phi <= 2 * PI ->
  exists k, (k <= nf)%nat /\ Rabs (phi - cone_theta nf * INR k) <= PI / INR nf.
Proof.
  intros Hn Hphi. pose proof PI_RGT_0 as Hpi.
  assert (Hnf : 2 <= INR nf) by (replace 2 with (INR 2) by (simpl; ring); now apply le_INR).
  set (d := 2 * PI / INR nf). assert (Hd : 0 < d) by (unfold d; apply Rdiv_lt_0_compat; lra).
  assert (Hdn : d * INR nf = 2 * PI) by (unfold d; field; lra).
  destruct (nfloor_ex (phi / d + 1 / 2)) as [k Hk].
  { assert (0 <= phi / d) by (apply Rdiv_le_0_compat; lra). lra. }
  assert (Hp : phi = phi / d * d) by (field; lra). set (q := phi / d) in *. clearbody q.
  exists k. split.
  - apply INR_le. destruct (Rle_dec (INR k) (INR nf)); auto. exfalso.
    assert (INR nf + 1 <= INR k).
    { rewrite <- S_INR. apply le_INR. apply INR_lt. lra. }
    assert (q <= INR nf) by (apply (Rmult_le_reg_r d); auto; lra). lra.
  - unfold cone_theta. fold d. replace (PI / INR nf) with (d / 2) by (unfold d; field; lra). rewrite Hp.
    apply Rabs_le. nra.
Qed.
Lemma cos_near x b : Rabs x <= b -> b <= PI -> cos b <= cos x.
Proof.
  intros H Hb. replace (cos x) with (cos (Rabs x)).
  - apply cos_decr_1; auto; try apply Rabs_pos; try lra. pose proof (Rabs_pos x). lra.
  - unfold Rabs. destruct (Rcase_abs x); auto. apply cos_neg.
Qed.
Lemma best_facet nf x y : (2 <= nf)%nat -> exists k, (k <= nf)%nat /\
  cos (PI / INR nf) * sqrt (x ^ 2 + y ^ 2) <= cos (cone_theta nf * INR k) * x + sin (cone_theta nf * INR k) * y.
Proof.
  intro Hn. destruct (polar x y) as [phi [Hphi [Hx Hy]]]. destruct (nearest_facet nf phi Hn Hphi) as [k [Hk Hd]].
  exists k. split; auto. set (rho := sqrt (x ^ 2 + y ^ 2)) in *. assert (Hr : 0 <= rho) by apply sqrt_pos. clearbody rho.
  rewrite Hx, Hy. replace (_ + _) with (cos (phi - cone_theta nf * INR k) * rho) by (rewrite cos_minus; ring).
  apply Rmult_le_compat_r; auto. apply cos_near; auto.
  assert (Hnf : 2 <= INR nf) by (replace 2 with (INR 2) by (simpl; ring); now apply le_INR).
  pose proof PI_RGT_0. apply Rle_div_l; [lra|]. nra.
Qed.
Lemma cs2 c s x y : c ^ 2 + s ^ 2 = 1 -> c * x + s * y <= sqrt (x ^ 2 + y ^ 2).
Proof.
  intro H. destruct (Rle_dec (c * x + s * y) 0) as [L|L]; [pose proof (sqrt_pos (x ^ 2 + y ^ 2)); lra|].
  rewrite <- (sqrt_square (c * x + s * y)) by lra. apply sqrt_le_1_alt.
  assert (0 <= (c * y - s * x) ^ 2) by apply pow2_ge_0. 
  replace (x ^ 2 + y ^ 2) with ((c ^ 2 + s ^ 2) * (x ^ 2 + y ^ 2)) by (rewrite H; ring). nra.
Qed.
Lemma cos_half_pos nf : (4 <= nf)%nat -> 0 < cos (PI / INR nf).
Proof.
  intro Hn. assert (Hnf : 4 <= INR nf) by (replace 4 with (INR 4) by (simpl; ring); now apply le_INR).
  pose proof PI_RGT_0. apply cos_gt_0.
  - assert (0 < PI / INR nf) by (apply Rdiv_lt_0_compat; lra). lra.
  - apply Rlt_div_l; [lra|]. nra.
Qed.
Lemma theta_half nf : (0 < nf)%nat -> cone_theta nf * (1 / 2) = PI / INR nf.
Proof. intro H. unfold cone_theta. field. apply not_0_INR. lia. Qed.
Lemma theta_turn nf m : (0 < nf)%nat -> nf = (2 * m)%nat -> forall i, cone_theta nf * INR (m + i) = cone_theta nf * INR i + PI.
Proof.
  intros H E i. unfold cone_theta. rewrite plus_INR.
  assert (EI : INR nf = 2 * INR m) by (rewrite E, mult_INR; simpl; ring). rewrite EI. field. apply not_0_INR. lia.
Qed.

(** ** Rows *)
Lemma set_head_other r v A i j : i <> r -> set_head r v A i j = A i j.
Proof. intro H. unfold set_head. apply Nat.eqb_neq in H. now rewrite H. Qed.
Lemma set_head_same r v A j : (j < 3)%nat -> set_head r v A r j = v j.
Proof. intro H. unfold set_head. apply Nat.ltb_lt in H. now rewrite Nat.eqb_refl, H. Qed.
Lemma set_head_right r v A i j : (3 <= j)%nat -> set_head r v A i j = A i j.
Proof. intro H. unfold set_head. apply Nat.ltb_ge in H. now rewrite H, andb_false_r. Qed.
Lemma set_tail_other r v A i j : i <> r -> set_tail r v A i j = A i j.
Proof. intro H. unfold set_tail. apply Nat.eqb_neq in H. now rewrite H. Qed.
Lemma set_tail_same r v A j : (3 <= j)%nat -> set_tail r v A r j = v (j - 3)%nat.
Proof. intro H. unfold set_tail. apply Nat.leb_le in H. now rewrite Nat.eqb_refl, H. Qed.
Lemma set_tail_left r v A i j : (j < 3)%nat -> set_tail r v A i j = A i j.
Proof. intro H. unfold set_tail. apply Nat.leb_gt in H. now rewrite H, andb_false_r. Qed.

Section Facets.
Variables (nf : nat) (mu : R) (rot : mat).
Definition up (i : nat) : vec := let th := cone_theta nf * INR i in row_Rt (vec3 (0 + cos th) (0 + sin th) (- mu + 0)) rot.
Definition down (i : nat) : vec := let th := cone_theta nf * INR i in row_Rt (vec3 (0 - cos th) (0 - sin th) (- mu - 0)) rot.
Lemma facets_below k : forall i row A r j, (r < row)%nat -> facets k i row nf mu rot A r j = A r j.
Proof. induction k; intros; cbn [facets]; auto. rewrite IHk by lia. rewrite !set_head_other by lia. reflexivity. Qed.
Lemma facets_above k : forall i row A r j, (row + 2 * k <= r)%nat -> facets k i row nf mu rot A r j = A r j.
Proof. induction k; intros; cbn [facets]; auto. rewrite IHk by lia. rewrite !set_head_other by lia. reflexivity. Qed.
Lemma facets_right k : forall i row A r j, (3 <= j)%nat -> facets k i row nf mu rot A r j = A r j.
Proof. induction k; intros; cbn [facets]; auto. rewrite IHk by lia. rewrite !set_head_right by lia. reflexivity. Qed.
Lemma facets_even k : forall i row A l j, (l < k)%nat -> (j < 3)%nat -> facets k i row nf mu rot A (row + 2 * l)%nat j = up (i + l) j.
Proof.
  induction k; intros i row A l j Hl Hj; [lia|]. cbn [facets]. destruct l.
  - rewrite facets_below by lia. rewrite set_head_other by lia. replace (row + 2 * 0)%nat with row by lia. rewrite set_head_same by auto.
    rewrite Nat.add_0_r. reflexivity.
  - replace (row + 2 * S l)%nat with (S (S row) + 2 * l)%nat by lia. rewrite IHk by lia. f_equal. lia.
Qed.
Lemma facets_odd k : forall i row A l j, (l < k)%nat -> (j < 3)%nat -> facets k i row nf mu rot A (row + 2 * l + 1)%nat j = down (i + l) j.
Proof.
  induction k; intros i row A l j Hl Hj; [lia|]. cbn [facets]. destruct l.
  - rewrite facets_below by lia. replace (row + 2 * 0 + 1)%nat with (S row) by lia. rewrite set_head_same by auto.
    rewrite Nat.add_0_r. reflexivity.
  - replace (row + 2 * S l + 1)%nat with (S (S row) + 2 * l + 1)%nat by lia. rewrite IHk by lia. f_equal. lia.
Qed.
End Facets.

(** coordinates of a vector in the frame of the columns of [rot] *)
Definition loc (rot : mat) (f : vec) : vec := mulv 3 (tr rot) f.
Lemma row_eval v rot f : rsum 3 (fun j => row_Rt v rot j * f j) = v 0%nat * loc rot f 0%nat + v 1%nat * loc rot f 1%nat + v 2%nat * loc rot f 2%nat.
Proof. unfold row_Rt, loc, mulv, tr. cbn [rsum]. ring. Qed.
Lemma up_eval nf mu rot i f : rsum 3 (fun j => up nf mu rot i j * f j) =
  cos (cone_theta nf * INR i) * loc rot f 0%nat + sin (cone_theta nf * INR i) * loc rot f 1%nat - mu * loc rot f 2%nat.
Proof. unfold up. cbv zeta. rewrite row_eval. cbn [vec3]. ring. Qed.
Lemma down_eval nf mu rot i f : rsum 3 (fun j => down nf mu rot i j * f j) =
  - (cos (cone_theta nf * INR i) * loc rot f 0%nat + sin (cone_theta nf * INR i) * loc rot f 1%nat) - mu * loc rot f 2%nat.
Proof. unfold down. cbv zeta. rewrite row_eval. cbn [vec3]. ring. Qed.

(** The facet inequalities of a cone, by angle. *)
Definition facet_ok (nf : nat) (mu : R) (g : vec) : Prop :=
  forall k, (k <= nf)%nat -> cos (cone_theta nf * INR k) * g 0%nat + sin (cone_theta nf * INR k) * g 1%nat <= mu * g 2%nat.
Lemma facets_iff nf m mu rot (A : mat) f : (0 < nf)%nat -> nf = (2 * m)%nat ->
  (forall l j, (l < m)%nat -> (j < 3)%nat -> A (2 * l)%nat j = up nf mu rot l j /\ A (2 * l + 1)%nat j = down nf mu rot l j) ->
  ((forall r, (r < nf)%nat -> rsum 3 (fun j => A r j * f j) <= 0) <-> facet_ok nf mu (loc rot f)).
Proof.
  intros H0 Em HA. pose proof (theta_turn nf m H0 Em) as Ht.
  assert (He : forall l, (l < m)%nat -> rsum 3 (fun j => A (2 * l)%nat j * f j) = rsum 3 (fun j => up nf mu rot l j * f j))
    by (intros l Hl; apply rsum_ext; intros j Hj; now rewrite (proj1 (HA l j Hl Hj))).
  assert (Ho : forall l, (l < m)%nat -> rsum 3 (fun j => A (2 * l + 1)%nat j * f j) = rsum 3 (fun j => down nf mu rot l j * f j))
    by (intros l Hl; apply rsum_ext; intros j Hj; now rewrite (proj2 (HA l j Hl Hj))).
  split; intro H.
  - intros k Hk. assert (Hm : (0 < m)%nat) by lia.
    assert (Hup : forall l, (l < m)%nat -> cos (cone_theta nf * INR l) * loc rot f 0%nat + sin (cone_theta nf * INR l) * loc rot f 1%nat <= mu * loc rot f 2%nat).
    { intros l Hl. pose proof (H (2 * l)%nat ltac:(lia)) as Hr. rewrite (He l Hl), up_eval in Hr. lra. }
    assert (Hdn : forall l, (l < m)%nat -> - (cos (cone_theta nf * INR l) * loc rot f 0%nat + sin (cone_theta nf * INR l) * loc rot f 1%nat) <= mu * loc rot f 2%nat).
    { intros l Hl. pose proof (H (2 * l + 1)%nat ltac:(lia)) as Hr. rewrite (Ho l Hl), down_eval in Hr. lra. }
    destruct (lt_dec k m) as [L|L]; [now apply Hup|].
    destruct (Nat.eq_dec k nf) as [->|N].
    + replace (cone_theta nf * INR nf) with (0 + 2 * INR 1 * PI) by (unfold cone_theta; simpl INR at 1; field; apply not_0_INR; lia).
      rewrite cos_period, sin_period. specialize (Hup 0%nat Hm). simpl INR in Hup. rewrite Rmult_0_r in Hup. exact Hup.
    + replace k with (m + (k - m))%nat by lia. rewrite Ht, neg_cos, neg_sin. specialize (Hdn (k - m)%nat ltac:(lia)). lra.
  - intros r Hr. destruct (Nat.even r) eqn:E.
    + apply Nat.even_spec in E as [l ->]. rewrite He, up_eval by lia. specialize (H l ltac:(lia)). lra.
    + assert (Hod : Nat.odd r = true) by (unfold Nat.odd; now rewrite E). apply Nat.odd_spec in Hod as [l ->]. rewrite Ho, down_eval by lia.
      specialize (H (m + l)%nat ltac:(lia)). rewrite Ht, neg_cos, neg_sin in H. lra.
Qed.
Lemma facet_ok_sound nf mu g : (2 <= nf)%nat -> facet_ok nf mu g -> cos (PI / INR nf) * sqrt (g 0%nat ^ 2 + g 1%nat ^ 2) <= mu * g 2%nat.
Proof.
  intros Hn H. destruct (best_facet nf (g 0%nat) (g 1%nat) Hn) as [k [Hk Hb]]. specialize (H k Hk). lra.
Qed.
Lemma facet_ok_complete nf mu g : sqrt (g 0%nat ^ 2 + g 1%nat ^ 2) <= mu * g 2%nat -> facet_ok nf mu g.
Proof.
  intros H k _. eapply Rle_trans; [apply cs2|exact H].
  pose proof (sin2_cos2 (cone_theta nf * INR k)) as E. unfold Rsqr in E. simpl. lra.
Qed.

(** ** The friction cone *)
Lemma fc_run_nf c ks : c_nf (fc_run c ks) = c_nf c.
Proof.
  revert c. induction ks as [|k ks IH]; intro c; auto. unfold fc_run in *. cbn [fold_left]. rewrite IH.
  destruct k; cbn; auto; unfold fc_set_mu, fc_set_min, fc_set_max; cbv zeta;
    repeat match goal with |- context [if ?b then _ else _] => destruct b end; reflexivity.
Qed.
Lemma nf_even nf : exists m, (if negb (nf mod 2 =? 0)%nat then 4%nat else nf) = (2 * m)%nat.
Proof.
  destruct (Nat.eqb_spec (nf mod 2) 0) as [E|E]; cbn [negb]; [|now exists 2%nat].
  exists (nf / 2)%nat. rewrite (Nat.div_mod nf 2) at 1 by lia. lia.
Qed.
Lemma fc_rows c m : c_nf c = (2 * m)%nat -> let c' := fc_update c in
  (forall l j, (l < m)%nat -> (j < 3)%nat -> c_A c' (2 * l)%nat j = up (c_nf c) (cone_mu (c_nf c) (c_inner c) (c_mu c)) (c_R c) l j /\
     c_A c' (2 * l + 1)%nat j = down (c_nf c) (cone_mu (c_nf c) (c_inner c) (c_mu c)) (c_R c) l j) /\
  (forall j, (j < 3)%nat -> c_A c' (c_nf c) j = c_R c j 2%nat).
Proof.
  intros E. cbv zeta. unfold fc_update. cbn [c_A]. split.
  - intros l j Hl Hj. rewrite !set_head_other by lia. replace (c_nf c / 2)%nat with m by (rewrite E, Nat.mul_comm, Nat.div_mul; lia).
    split.
    + pose proof (facets_even (c_nf c) (cone_mu (c_nf c) (c_inner c) (c_mu c)) (c_R c) m 0 0 (fun _ _ => 0) l j Hl Hj) as H. cbn [Nat.add] in H.
      exact H.
    + pose proof (facets_odd (c_nf c) (cone_mu (c_nf c) (c_inner c) (c_mu c)) (c_R c) m 0 0 (fun _ _ => 0) l j Hl Hj) as H. exact H.
  - intros j Hj. rewrite set_head_same by auto. reflexivity.
Qed.

(** ** The wrench cone *)
Lemma mulv6 (A : mat) (w : vec) r : mulv 6 A w r = rsum 3 (fun j => A r j * w j) + rsum 3 (fun j => A r (3 + j)%nat * w (3 + j)%nat).
Proof. unfold mulv. cbn [rsum Nat.add]. ring. Qed.
Definition wloc (rot : mat) (w : vec) : vec := loc rot (fun j => w (3 + j)%nat).
Definition w_mu_used (c : wcone) : R := cone_mu (w_nf c) (w_inner c) (w_mu c).
Lemma wc_A_rows c : let A := w_A (wc_update c) in let rot := w_R c in let nf := w_nf c in let mu := w_mu_used c in
  let L := w_L2 c / 2 in let W := w_W2 c / 2 in
  (forall r j, (r < nf)%nat -> (j < 3)%nat -> A r j = facets (nf / 2) 0 0 nf mu rot (fun _ _ => 0) r j) /\
  (forall r j, (r <= nf)%nat -> (j < 3)%nat -> A r (3 + j)%nat = 0) /\
  (forall j, (j < 3)%nat ->
    A nf j = rot j 2%nat /\
    (A (nf + 1)%nat j = - W * rot j 2%nat /\ A (nf + 1)%nat (3 + j)%nat = rot j 0%nat) /\
    (A (nf + 2)%nat j = - W * rot j 2%nat /\ A (nf + 2)%nat (3 + j)%nat = - rot j 0%nat) /\
    (A (nf + 3)%nat j = - L * rot j 2%nat /\ A (nf + 3)%nat (3 + j)%nat = rot j 1%nat) /\
    (A (nf + 4)%nat j = - L * rot j 2%nat /\ A (nf + 4)%nat (3 + j)%nat = - rot j 1%nat) /\
    (A (nf + 5)%nat j = row_Rt (vec3 W L (- mu * (L + W))) rot j /\ A (nf + 5)%nat (3 + j)%nat = row_Rt (vec3 (- mu) (- mu) (-1)) rot j) /\
    (A (nf + 6)%nat j = row_Rt (vec3 W (- L) (- mu * (L + W))) rot j /\ A (nf + 6)%nat (3 + j)%nat = row_Rt (vec3 (- mu) mu (-1)) rot j) /\
    (A (nf + 7)%nat j = row_Rt (vec3 (- W) L (- mu * (L + W))) rot j /\ A (nf + 7)%nat (3 + j)%nat = row_Rt (vec3 mu (- mu) (-1)) rot j) /\
    (A (nf + 8)%nat j = row_Rt (vec3 (- W) (- L) (- mu * (L + W))) rot j /\ A (nf + 8)%nat (3 + j)%nat = row_Rt (vec3 mu mu (-1)) rot j) /\
    (A (nf + 9)%nat j = row_Rt (vec3 W L (- mu * (L + W))) rot j /\ A (nf + 9)%nat (3 + j)%nat = - row_Rt (vec3 (- mu) (- mu) (-1)) rot j) /\
    (A (nf + 10)%nat j = row_Rt (vec3 W (- L) (- mu * (L + W))) rot j /\ A (nf + 10)%nat (3 + j)%nat = - row_Rt (vec3 (- mu) mu (-1)) rot j) /\
    (A (nf + 11)%nat j = row_Rt (vec3 (- W) L (- mu * (L + W))) rot j /\ A (nf + 11)%nat (3 + j)%nat = - row_Rt (vec3 mu (- mu) (-1)) rot j) /\
    (A (nf + 12)%nat j = row_Rt (vec3 (- W) (- L) (- mu * (L + W))) rot j /\ A (nf + 12)%nat (3 + j)%nat = - row_Rt (vec3 mu mu (-1)) rot j)).
Proof.
  cbv zeta.
  assert (EL : w_L2 c * (1 / 2) = w_L2 c / 2) by field. assert (EW : w_W2 c * (1 / 2) = w_W2 c / 2) by field.
  pose (nf := w_nf c). pose (rot := w_R c). pose (mu := w_mu_used c). pose (L := w_L2 c * (1 / 2)). pose (W := w_W2 c * (1 / 2)).
  pose (A0 := set_head nf (fun j => tr rot 2%nat j) (facets (nf / 2) 0 0 nf mu rot (fun _ _ => 0))).
  pose (A1 := set_tail (nf + 1) (fun j => tr rot 0%nat j) (set_head (nf + 1) (fun j => - W * tr rot 2%nat j) A0)).
  pose (A2 := set_tail (nf + 2) (fun j => - tr rot 0%nat j) (set_head (nf + 2) (fun j => A1 (nf + 1)%nat j) A1)).
  pose (A3 := set_tail (nf + 3) (fun j => tr rot 1%nat j) (set_head (nf + 3) (fun j => - L * tr rot 2%nat j) A2)).
  pose (A4 := set_tail (nf + 4) (fun j => - tr rot 1%nat j) (set_head (nf + 4) (fun j => A3 (nf + 3)%nat j) A3)).
  pose (mu_LW := - mu * (L + W)).
  pose (A5 := set_tail (nf + 5) (row_Rt (vec3 (- mu) (- mu) (-1)) rot) (set_head (nf + 5) (row_Rt (vec3 W L mu_LW) rot) A4)).
  pose (A6 := set_tail (nf + 6) (row_Rt (vec3 (- mu) mu (-1)) rot) (set_head (nf + 6) (row_Rt (vec3 W (- L) mu_LW) rot) A5)).
  pose (A7 := set_tail (nf + 7) (row_Rt (vec3 mu (- mu) (-1)) rot) (set_head (nf + 7) (row_Rt (vec3 (- W) L mu_LW) rot) A6)).
  pose (A8 := set_tail (nf + 8) (row_Rt (vec3 mu mu (-1)) rot) (set_head (nf + 8) (row_Rt (vec3 (- W) (- L) mu_LW) rot) A7)).
  pose (A9 := set_tail (nf + 9) (fun j => - A8 (nf + 5)%nat (3 + j)%nat) (set_head (nf + 9) (fun j => A8 (nf + 5)%nat j) A8)).
  pose (A10 := set_tail (nf + 10) (fun j => - A9 (nf + 6)%nat (3 + j)%nat) (set_head (nf + 10) (fun j => A9 (nf + 6)%nat j) A9)).
  pose (A11 := set_tail (nf + 11) (fun j => - A10 (nf + 7)%nat (3 + j)%nat) (set_head (nf + 11) (fun j => A10 (nf + 7)%nat j) A10)).
  pose (A12 := set_tail (nf + 12) (fun j => - A11 (nf + 8)%nat (3 + j)%nat) (set_head (nf + 12) (fun j => A11 (nf + 8)%nat j) A11)).
  change (w_A (wc_update c)) with A12. change (w_nf c) with nf. change (w_R c) with rot. change (w_mu_used c) with mu.
  rewrite <- EL, <- EW. change (w_L2 c * (1 / 2)) with L. change (w_W2 c * (1 / 2)) with W. change (- mu * (L + W)) with mu_LW.
  clearbody nf rot mu L W mu_LW. clear EL EW.
  Ltac peel A12 A11 A10 A9 A8 A7 A6 A5 A4 A3 A2 A1 A0 := repeat first
    [ rewrite set_head_right by lia | rewrite set_tail_left by lia | rewrite set_head_same by lia | rewrite set_tail_same by lia
    | rewrite set_head_other by lia | rewrite set_tail_other by lia
    | progress unfold A12 | progress unfold A11 | progress unfold A10 | progress unfold A9 | progress unfold A8 | progress unfold A7
    | progress unfold A6 | progress unfold A5 | progress unfold A4 | progress unfold A3 | progress unfold A2 | progress unfold A1 | progress unfold A0 ].
  split; [|split].
  - intros r j Hr Hj. peel A12 A11 A10 A9 A8 A7 A6 A5 A4 A3 A2 A1 A0. reflexivity.
  - intros r j Hr Hj. peel A12 A11 A10 A9 A8 A7 A6 A5 A4 A3 A2 A1 A0. rewrite facets_right by lia. reflexivity.
  - intros j Hj. assert (E : (3 + j - 3)%nat = j) by lia.
    repeat split; peel A12 A11 A10 A9 A8 A7 A6 A5 A4 A3 A2 A1 A0; cbv beta; try rewrite E; peel A12 A11 A10 A9 A8 A7 A6 A5 A4 A3 A2 A1 A0; cbv beta; try rewrite E; reflexivity.
Qed.
Lemma loc_eq rot f k : loc rot f k = rot 0%nat k * f 0%nat + rot 1%nat k * f 1%nat + rot 2%nat k * f 2%nat.
Proof. unfold loc, mulv, tr. cbn [rsum]. ring. Qed.
(** The 13 rows below the facets, evaluated on a wrench. *)
Definition wrow (mu L W : R) (f t : vec) (r : nat) : R :=
  match r with
  | 0%nat => f 2%nat
  | 1%nat => t 0%nat - W * f 2%nat
  | 2%nat => - t 0%nat - W * f 2%nat
  | 3%nat => t 1%nat - L * f 2%nat
  | 4%nat => - t 1%nat - L * f 2%nat
  | 5%nat => (W * f 0%nat - mu * t 0%nat) + (L * f 1%nat - mu * t 1%nat) - mu * (L + W) * f 2%nat - t 2%nat
  | 6%nat => (W * f 0%nat - mu * t 0%nat) - (L * f 1%nat - mu * t 1%nat) - mu * (L + W) * f 2%nat - t 2%nat
  | 7%nat => - (W * f 0%nat - mu * t 0%nat) + (L * f 1%nat - mu * t 1%nat) - mu * (L + W) * f 2%nat - t 2%nat
  | 8%nat => - (W * f 0%nat - mu * t 0%nat) - (L * f 1%nat - mu * t 1%nat) - mu * (L + W) * f 2%nat - t 2%nat
  | 9%nat => (W * f 0%nat + mu * t 0%nat) + (L * f 1%nat + mu * t 1%nat) - mu * (L + W) * f 2%nat + t 2%nat
  | 10%nat => (W * f 0%nat + mu * t 0%nat) - (L * f 1%nat + mu * t 1%nat) - mu * (L + W) * f 2%nat + t 2%nat
  | 11%nat => - (W * f 0%nat + mu * t 0%nat) + (L * f 1%nat + mu * t 1%nat) - mu * (L + W) * f 2%nat + t 2%nat
  | _ => - (W * f 0%nat + mu * t 0%nat) - (L * f 1%nat + mu * t 1%nat) - mu * (L + W) * f 2%nat + t 2%nat
  end.
Lemma wrow_eval c w r : (r < 13)%nat ->
  mulv 6 (w_A (wc_update c)) w (w_nf c + r)%nat = wrow (w_mu_used c) (w_L2 c / 2) (w_W2 c / 2) (loc (w_R c) w) (wloc (w_R c) w) r.
Proof.
  intro Hr. rewrite mulv6. destruct (wc_A_rows c) as [_ [HZ HR]].
  pose proof (HR 0%nat ltac:(lia)) as R0. pose proof (HR 1%nat ltac:(lia)) as R1. pose proof (HR 2%nat ltac:(lia)) as R2.
  pose proof (HZ (w_nf c) 0%nat ltac:(lia) ltac:(lia)) as Z0. pose proof (HZ (w_nf c) 1%nat ltac:(lia) ltac:(lia)) as Z1. pose proof (HZ (w_nf c) 2%nat ltac:(lia) ltac:(lia)) as Z2.
  clear HZ HR. unfold wloc. cbn [rsum].
  set (A := w_A (wc_update c)) in *. clearbody A. cbn [Nat.add] in *.
  decompose [and] R0; decompose [and] R1; decompose [and] R2. clear R0 R1 R2.
  do 13 (destruct r as [|r]; [ rewrite ?Nat.add_0_r;
    repeat match goal with H : A ?i ?j = _ |- context [A ?i ?j] => rewrite H end;
    unfold row_Rt, tr; cbn [rsum wrow vec3]; rewrite !loc_eq; ring |]). lia.
Qed.
(** The CoP rows are those of the CoP support. *)
Lemma cop_rows c r j : (r < 4)%nat -> (j < 6)%nat -> w_A (wc_update c) (w_nf c + 1 + r)%nat j = cop_A (w_R c) (w_L2 c) (w_W2 c) r j.
Proof.
  intros Hr Hj. destruct (wc_A_rows c) as [_ [_ HR]]. unfold cop_A. cbv zeta. destruct (Nat.ltb_spec j 3) as [L|L].
  - destruct (HR j L) as [_ [R1 [R2 [R3 [R4 _]]]]].
    destruct r as [|[|[|[|r]]]]; try lia; cbn [Nat.ltb Nat.leb]; rewrite ?Nat.add_0_r, <- ?Nat.add_assoc; cbn [Nat.add]; [apply R1|apply R2|apply R3|apply R4].
  - destruct (HR (j - 3)%nat ltac:(lia)) as [_ [R1 [R2 [R3 [R4 _]]]]]. replace (3 + (j - 3))%nat with j in * by lia.
    destruct r as [|[|[|[|r]]]]; try lia; rewrite ?Nat.add_0_r, <- ?Nat.add_assoc; cbn [Nat.add]; [apply R1|apply R2|apply R3|apply R4].
Qed.
Lemma wc_facets c m w : w_nf c = (2 * m)%nat -> (0 < m)%nat ->
  ((forall r, (r < w_nf c)%nat -> mulv 6 (w_A (wc_update c)) w r <= 0) <-> facet_ok (w_nf c) (w_mu_used c) (loc (w_R c) w)).
Proof.
  intros E Hm. destruct (wc_A_rows c) as [HF [HZ _]].
  assert (Hr : forall r, (r < w_nf c)%nat -> mulv 6 (w_A (wc_update c)) w r = rsum 3 (fun j => facets (w_nf c / 2) 0 0 (w_nf c) (w_mu_used c) (w_R c) (fun _ _ => 0) r j * w j)).
  { intros r Hr. rewrite mulv6. rewrite (rsum_ext 3 (fun j => w_A (wc_update c) r (3 + j)%nat * _) (fun _ => 0)).
    - replace (rsum 3 (fun _ => 0)) with 0 by (cbn [rsum]; ring). rewrite Rplus_0_r. apply rsum_ext. intros j Hj. now rewrite HF.
    - intros j Hj. rewrite HZ by lia. ring. }
  rewrite <- (facets_iff (w_nf c) m (w_mu_used c) (w_R c) (facets (w_nf c / 2) 0 0 (w_nf c) (w_mu_used c) (w_R c) (fun _ _ => 0)) w); [|lia|auto|].
  - split; intros H r Hlt; specialize (H r Hlt); [rewrite Hr in H|rewrite Hr]; auto.
  - intros l j Hl Hj. replace (w_nf c / 2)%nat with m by (rewrite E, Nat.mul_comm, Nat.div_mul; lia). split.
    + pose proof (facets_even (w_nf c) (w_mu_used c) (w_R c) m 0 0 (fun _ _ => 0) l j Hl Hj) as H. exact H.
    + pose proof (facets_odd (w_nf c) (w_mu_used c) (w_R c) m 0 0 (fun _ _ => 0) l j Hl Hj) as H. exact H.
Qed.
(** facets of a number divisible by 4 contain the square pyramid's; with 4 they are these *)
Definition square_ok (mu : R) (g : vec) : Prop := Rabs (g 0%nat) <= mu * g 2%nat /\ Rabs (g 1%nat) <= mu * g 2%nat.
Lemma theta_quarter nf q : (0 < q)%nat -> nf = (4 * q)%nat -> forall k, cone_theta nf * INR (k * q) = INR k * (PI / 2).
Proof.
  intros Hq E k. unfold cone_theta. assert (EI : INR nf = 4 * INR q) by (rewrite E, mult_INR; simpl; ring).
  rewrite mult_INR, EI. field. apply not_0_INR. lia.
Qed.
Lemma facet_square nf q mu g : (0 < q)%nat -> nf = (4 * q)%nat -> facet_ok nf mu g -> square_ok mu g.
Proof.
  intros Hq E H. pose proof (theta_quarter nf q Hq E) as T.
  pose proof (H (0 * q)%nat ltac:(lia)) as H0. pose proof (H (1 * q)%nat ltac:(lia)) as H1. pose proof (H (2 * q)%nat ltac:(lia)) as H2. pose proof (H (3 * q)%nat ltac:(lia)) as H3.
  rewrite T in H0, H1, H2, H3.
  replace (INR 0 * (PI / 2)) with 0 in H0 by (simpl; ring). replace (INR 1 * (PI / 2)) with (PI / 2) in H1 by (simpl; ring).
  replace (INR 2 * (PI / 2)) with PI in H2 by (simpl; field). replace (INR 3 * (PI / 2)) with (3 * (PI / 2)) in H3 by (simpl; field).
  rewrite cos_0, sin_0 in H0. rewrite cos_PI2, sin_PI2 in H1. rewrite cos_PI, sin_PI in H2. rewrite cos_3PI2, sin_3PI2 in H3.
  split; apply Rabs_le; lra.
Qed.
Lemma square_facet4 mu g : square_ok mu g -> facet_ok 4 mu g.
Proof.
  intros [H1 H2] k Hk. apply Rabs_le_between in H1. apply Rabs_le_between in H2.
  pose proof (theta_quarter 4 1 ltac:(lia) ltac:(lia) k) as T. replace (k * 1)%nat with k in T by lia. rewrite T.
  destruct k as [|[|[|[|[|k]]]]]; try lia.
  - replace (INR 0 * (PI / 2)) with 0 by (simpl; ring). rewrite cos_0, sin_0. lra.
  - replace (INR 1 * (PI / 2)) with (PI / 2) by (simpl; ring). rewrite cos_PI2, sin_PI2. lra.
  - replace (INR 2 * (PI / 2)) with PI by (simpl; field). rewrite cos_PI, sin_PI. lra.
  - replace (INR 3 * (PI / 2)) with (3 * (PI / 2)) by (simpl; field). rewrite cos_3PI2, sin_3PI2. lra.
  - replace (INR 4 * (PI / 2)) with (2 * PI) by (simpl; field). rewrite cos_2PI, sin_2PI. lra.
Qed.
