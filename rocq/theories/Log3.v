(** Pinocchio's log3, Jlog3, log6 and Jlog6 (away from the angle pi) satisfy the contracts the contact
    and residual theorems assume.  The formulas are the documented ones without the series for small
    angles; nothing here models crocoddyl. *)
From Coquelicot Require Import Coquelicot.
From Coq Require Import Reals Lra Lia.
From Verif Require Import Deriv Spatial Spatial_Proofs Contact_Model Contact_Spec Contact_Proofs.
Open Scope R_scope.

Definition tr3 (M : m3) : R := c1 (row1 M) + c2 (row2 M) + c3 (row3 M).
Definition vee (M : m3) : v3 :=
  V3 (c2 (row3 M) - c3 (row2 M)) (c3 (row1 M) - c1 (row3 M)) (c1 (row2 M) - c2 (row1 M)).
Definition angle (M : m3) : R := acos ((tr3 M - 1) / 2).
Definition log3 (M : m3) : v3 := scal3 (angle M / (2 * sin (angle M))) (vee M).
(** beta(theta), and Jlog3 = theta sin / (2 (1 - cos)) I + 1/2 [w] + beta w w^T *)
Definition beta (th : R) : R := / (th * th) - sin th / (2 * th * (1 - cos th)).
Definition gam (th : R) : R := th * sin th / (2 * (1 - cos th)).
Definition outer (a b : v3) : m3 := M3 (scal3 (c1 a) b) (scal3 (c2 a) b) (scal3 (c3 a) b).
Definition addm (A B : m3) : m3 := M3 (add3 (row1 A) (row1 B)) (add3 (row2 A) (row2 B)) (add3 (row3 A) (row3 B)).
Definition scalm (k : R) (A : m3) : m3 := M3 (scal3 k (row1 A)) (scal3 k (row2 A)) (scal3 k (row3 A)).
Definition Jlog3 (M : m3) : m3 :=
  let w := log3 M in let th := angle M in
  addm (addm (scalm (gam th) I3) (scalm (1 / 2) (skew w))) (scalm (beta th) (outer w w)).

(** ** Rotations *)
Lemma rot_eqs M : rotation M ->
  let '(M3 (V3 a b c) (V3 d e f) (V3 g h i)) := M in
  (a*a+b*b+c*c=1 /\ d*d+e*e+f*f=1 /\ g*g+h*h+i*i=1 /\ a*d+b*e+c*f=0 /\ a*g+b*h+c*i=0 /\ d*g+e*h+f*i=0) /\
  (a*a+d*d+g*g=1 /\ b*b+e*e+h*h=1 /\ c*c+f*f+i*i=1 /\ a*b+d*e+g*h=0 /\ a*c+d*f+g*i=0 /\ b*c+e*f+h*i=0) /\
  (e*i-f*h=a /\ f*g-d*i=b /\ d*h-e*g=c /\ h*c-i*b=d /\ i*a-g*c=e /\ g*b-h*a=f /\ b*f-c*e=g /\ c*d-a*f=h /\ a*e-b*d=i).
Proof.
intro H. pose proof (cof_rot M H) as C. destruct H as (H1 & H2 & _). destruct M as [[a b c] [d e f] [g h i]].
unfold mm, mt, mv, dot3, I3, col1, col2, col3 in H1, H2. cbn in H1, H2.
injection H1 as A1 A2 A3 A4 A5 A6 A7 A8 A9. injection H2 as B1 B2 B3 B4 B5 B6 B7 B8 B9.
unfold cof, cross in C. cbn in C. injection C as D1 D2 D3 D4 D5 D6 D7 D8 D9.
repeat split; lra.
Qed.
(** (tr + 1) (M + M^T - (tr - 1) I) = vee vee^T *)
Lemma rodrigues M w : rotation M ->
  scal3 (2 * (tr3 M + 1)) (mv (mt M) w) =
  sub3 (add3 (scal3 ((tr3 M - 1) * (tr3 M + 1)) w) (scal3 (dot3 (vee M) w) (vee M))) (scal3 (tr3 M + 1) (cross (vee M) w)).
Proof.
intro H. pose proof (rot_eqs M H) as E. destruct M as [[a b c] [d e f] [g h i]]. destruct w as [x y z].
destruct E as ((A1 & A2 & A3 & A4 & A5 & A6) & (B1 & B2 & B3 & B4 & B5 & B6) & (D1 & D2 & D3 & D4 & D5 & D6 & D7 & D8 & D9)).
(* quadratic forms of the entries *)
assert (P11 : (a+e+i+1)*(2*a-(a+e+i)+1) = (h-f)*(h-f)) by (generalize D1 A2 A3 B1; clear; intros; ring_simplify; lra).
assert (P22 : (a+e+i+1)*(2*e-(a+e+i)+1) = (c-g)*(c-g)) by (generalize D5 A1 A3 B2; clear; intros; ring_simplify; lra).
assert (P33 : (a+e+i+1)*(2*i-(a+e+i)+1) = (d-b)*(d-b)) by (generalize D9 A1 A2 B3; clear; intros; ring_simplify; lra).
assert (P12 : (a+e+i+1)*(b+d) = (h-f)*(c-g)) by (generalize D2 D4 B4 A4; clear; intros; ring_simplify; lra).
assert (P13 : (a+e+i+1)*(c+g) = (h-f)*(d-b)) by (generalize D3 D7 B5 A5; clear; intros; ring_simplify; lra).
assert (P23 : (a+e+i+1)*(f+h) = (c-g)*(d-b)) by (generalize D6 D8 B6 A6; clear; intros; ring_simplify; lra).
unfold tr3, vee. apply v3_ext; v3u; apply Rminus_diag_uniq.
- transitivity (x*((a+e+i+1)*(2*a-(a+e+i)+1) - (h-f)*(h-f)) + y*((a+e+i+1)*(b+d) - (h-f)*(c-g)) + z*((a+e+i+1)*(c+g) - (h-f)*(d-b)));
  [ring|rewrite P11, P12, P13; ring].
- transitivity (x*((a+e+i+1)*(b+d) - (h-f)*(c-g)) + y*((a+e+i+1)*(2*e-(a+e+i)+1) - (c-g)*(c-g)) + z*((a+e+i+1)*(f+h) - (c-g)*(d-b)));
  [ring|rewrite P12, P22, P23; ring].
- transitivity (x*((a+e+i+1)*(c+g) - (h-f)*(d-b)) + y*((a+e+i+1)*(f+h) - (c-g)*(d-b)) + z*((a+e+i+1)*(2*i-(a+e+i)+1) - (d-b)*(d-b)));
  [ring|rewrite P13, P23, P33; ring].
Qed.
(** |vee|^2 = (tr + 1) (3 - tr) *)
Lemma vee_norm M : rotation M -> dot3 (vee M) (vee M) = (tr3 M + 1) * (3 - tr3 M).
Proof.
intro H. pose proof (rot_eqs M H) as E. destruct M as [[a b c] [d e f] [g h i]].
destruct E as ((A1 & A2 & A3 & A4 & A5 & A6) & (B1 & B2 & B3 & B4 & B5 & B6) & (D1 & D2 & D3 & D4 & D5 & D6 & D7 & D8 & D9)).
assert (P11 : (a+e+i+1)*(2*a-(a+e+i)+1) = (h-f)*(h-f)) by (generalize D1 A2 A3 B1; clear; intros; ring_simplify; lra).
assert (P22 : (a+e+i+1)*(2*e-(a+e+i)+1) = (c-g)*(c-g)) by (generalize D5 A1 A3 B2; clear; intros; ring_simplify; lra).
assert (P33 : (a+e+i+1)*(2*i-(a+e+i)+1) = (d-b)*(d-b)) by (generalize D9 A1 A2 B3; clear; intros; ring_simplify; lra).
unfold tr3, vee. v3u. rewrite <- P11, <- P22, <- P33. ring.
Qed.

(** ** Derivatives *)
Section Curve.
Variables (M : R -> m3) (s : R) (w : v3).
Hypothesis D : is_dm M s (mm (M s) (skew w)).
Lemma d_tr : is_derive (fun t => tr3 (M t)) s (- dot3 (vee (M s)) w).
Proof.
destruct D as ((A & _ & _) & (_ & B & _) & (_ & _ & C)).
eapply deq; [exact (dplus _ _ s _ _ (dplus _ _ s _ _ A B) C)|]. unfold vee. v3u. ring.
Qed.
Lemma d_vee : is_d3 (fun t => vee (M t)) s (sub3 (scal3 (tr3 (M s)) w) (mv (mt (M s)) w)).
Proof.
destruct D as ((A1 & A2 & A3) & (B1 & B2 & B3) & (C1 & C2 & C3)). unfold vee, tr3. split; [|split]; v3c.
- eapply deq; [exact (dminus _ _ s _ _ C2 B3)|]. v3u. ring.
- eapply deq; [exact (dminus _ _ s _ _ A3 C1)|]. v3u. ring.
- eapply deq; [exact (dminus _ _ s _ _ B1 A2)|]. v3u. ring.
Qed.
End Curve.

Lemma d_acos x : -1 < x < 1 -> is_derive acos x (- / sin (acos x)).
Proof.
intro H. apply is_derive_Reals. pose proof (derive_pt_acos x H) as E.
apply derive_pt_eq_1 in E. rewrite sin_acos by lra.
replace (- / sqrt (1 - x²)) with (-1 / sqrt (1 - x²)) by (unfold Rdiv; ring). exact E.
Qed.

(** angles strictly between 0 and pi *)
Definition proper (M : m3) : Prop := rotation M /\ -1 < tr3 M < 3.
Lemma proper_trig M : proper M ->
  let c := cos (angle M) in let S := sin (angle M) in
  tr3 M = 1 + 2 * c /\ -1 < c < 1 /\ 0 < S /\ S * S = (1 - c) * (1 + c) /\ 0 < angle M.
Proof.
intros [H T]. cbv zeta. unfold angle. rewrite cos_acos by lra.
pose proof (acos_bound_lt ((tr3 M - 1) / 2)) as B. specialize (B ltac:(lra)).
pose proof (sin_gt_0 _ (proj1 B) (proj2 B)) as P.
pose proof (sin2_cos2 (acos ((tr3 M - 1) / 2))) as Q. rewrite cos_acos in Q by lra. unfold Rsqr in Q.
repeat split; try lra.
Qed.
Lemma rodrigues' M w : proper M ->
  mv (mt M) w = sub3 (add3 (scal3 (cos (angle M)) w) (scal3 (dot3 (vee M) w / (4 * (1 + cos (angle M)))) (vee M)))
    (scal3 (1 / 2) (cross (vee M) w)).
Proof.
intro H. pose proof (proper_trig M H) as (T & C & _). pose proof (rodrigues M w (proj1 H)) as E.
set (u := mv (mt M) w) in *. set (v := vee M) in *. set (x := cross v w) in *. set (q := dot3 v w) in *. set (c := cos (angle M)) in *.
assert (N : 2 * (tr3 M + 1) <> 0) by lra. rewrite T in E, N.
pose proof (f_equal c1 E) as E1. pose proof (f_equal c2 E) as E2. pose proof (f_equal c3 E) as E3.
unfold sub3, add3, scal3 in *. cbn [c1 c2 c3] in E1, E2, E3.
apply v3_ext; cbn [c1 c2 c3]; (apply (Rmult_eq_reg_l (2 * (1 + 2 * c + 1))); [|exact N]);
[rewrite E1|rewrite E2|rewrite E3]; field; lra.
Qed.
Lemma d_angle M s w : is_dm M s (mm (M s) (skew w)) -> -1 < tr3 (M s) < 3 ->
  is_derive (fun t => angle (M t)) s (dot3 (vee (M s)) w / (2 * sin (angle (M s)))).
Proof.
intros D H. unfold angle.
assert (B : -1 < (tr3 (M s) - 1) / 2 < 1) by lra.
pose proof (ddiv _ 2 s _ (dminus _ _ s _ _ (d_tr M s w D) (dconst 1 s))) as E.
pose proof (dcomp acos (fun t => (tr3 (M t) - 1) / 2) s _ _ (d_acos _ B) E) as G.
pose proof (acos_bound_lt _ B) as BB. pose proof (sin_gt_0 _ (proj1 BB) (proj2 BB)).
refine (deq _ _ _ _ G _). field. lra.
Qed.
Lemma d_half_sinc th : sin th <> 0 -> is_derive (fun t => t / (2 * sin t)) th ((sin th - th * cos th) / (2 * (sin th * sin th))).
Proof. intro H. auto_derive; [lra|]. field. exact H. Qed.

(** coefficients *)
Lemma coef_v th c S : th <> 0 -> S <> 0 -> 1 - c <> 0 -> 1 + c <> 0 -> S * S = (1 - c) * (1 + c) ->
  (S - th * c) / (2 * (S * S)) / (2 * S) - th / (2 * S) / (4 * (1 + c)) =
  (/ (th * th) - S / (2 * th * (1 - c))) * (th / (2 * S)) * (th / (2 * S)).
Proof.
intros A B C E Q. assert (P : 1 + c = S * S / (1 - c)) by (rewrite Q; field; exact C).
assert (G : S * S <> 0) by (intro X; apply B; nra).
rewrite P. assert (cc : c = S * S / (1 - c) - 1) by lra.
apply (Rmult_eq_reg_l (8 * (S * S * S))); [|intro X; apply B; nra].
transitivity (2 * (S - th * c) - th * (1 - c)); [field; repeat split; assumption|].
transitivity (2 * S - th * (S * S / (1 - c))); [rewrite cc at 1; rewrite <- P; ring_simplify; lra|].
field. repeat split; assumption.
Qed.
Lemma coef_w th c S : S <> 0 -> 1 - c <> 0 -> S * S = (1 - c) * (1 + c) ->
  th / (2 * S) * (1 + c) = th * S / (2 * (1 - c)).
Proof.
intros B C Q. assert (P : 1 + c = S * S / (1 - c)) by (rewrite Q; field; exact C). rewrite P. field. split; assumption.
Qed.

Theorem log3_ok : forall P, proper P ->
  forall (M : R -> m3) s w, M s = P -> is_dm M s (mm (M s) (skew w)) -> is_d3 (fun t => log3 (M t)) s (mv (Jlog3 P) w).
Proof.
intros P H M s w <- D. pose proof (proper_trig _ H) as (T & C & S0 & Q & A0).
pose proof (d_angle M s w D (proj2 H)) as DA. pose proof (d_vee M s w D) as DV.
rewrite (rodrigues' _ _ H) in DV. rewrite T in DV.
pose proof (dcomp (fun t => t / (2 * sin t)) (fun t => angle (M t)) s _ _ (d_half_sinc _ (Rgt_not_eq _ _ S0)) DA) as DP.
unfold log3 at 1. unfold Jlog3. cbv zeta.
set (th := angle (M s)) in *. set (c := cos th) in *. set (S := sin th) in *. set (v := vee (M s)) in *.
pose proof (coef_v th c S ltac:(lra) ltac:(lra) ltac:(lra) ltac:(lra) Q) as CV.
pose proof (coef_w th c S ltac:(lra) ltac:(lra) Q) as CW.
assert (X : mv (addm (addm (scalm (gam th) I3) (scalm (1 / 2) (skew (log3 (M s))))) (scalm (beta th) (outer (log3 (M s)) (log3 (M s))))) w =
  add3 (add3 (scal3 (th / (2 * S) * (1 + c)) w) (scal3 (th / (2 * S) / 2) (cross v w)))
    (scal3 (((S - th * c) / (2 * (S * S)) / (2 * S) - th / (2 * S) / (4 * (1 + c))) * dot3 v w) v)).
{ rewrite CV, CW. unfold log3, gam, beta. fold th. fold v. fold c. fold S.
  apply v3_ext; unfold addm, scalm, outer; v3u; field; lra. }
rewrite X. clear X CV CW.
destruct DV as (D1 & D2 & D3).
split; [|split]; cbn [scal3 c1 c2 c3].
- eapply deq; [exact (dmult (fun t => angle (M t) / (2 * sin (angle (M t)))) _ s _ _ DP D1)|].
  cbv beta. fold th c S v. v3u. field. lra.
- eapply deq; [exact (dmult (fun t => angle (M t) / (2 * sin (angle (M t)))) _ s _ _ DP D2)|].
  cbv beta. fold th c S v. v3u. field. lra.
- eapply deq; [exact (dmult (fun t => angle (M t) / (2 * sin (angle (M t)))) _ s _ _ DP D3)|].
  cbv beta. fold th c S v. v3u. field. lra.
Qed.

(** ** Placements *)
Definition log6 (M : se3) : v6 :=
  let w := log3 (rot M) in let p := trans M in let th := angle (rot M) in
  V6 (add3 (sub3 (scal3 (gam th) p) (scal3 (1 / 2) (cross w p))) (scal3 (beta th * dot3 w p) w)) w.
(** derivative of beta divided by theta *)
Definition beta_dot (th : R) : R := - 2 / (th * th * th * th) + (1 + sin th / th) / (th * th) / (2 * (1 - cos th)).
Definition zm3 : m3 := M3 z3 z3 z3.
Definition Jlog6 (M : se3) : m6 :=
  let w := log3 (rot M) in let p := trans M in let th := angle (rot M) in
  let A := Jlog3 (rot M) in
  let tmp := sub3 (scal3 (beta_dot th * dot3 w p) w) (scal3 (th * th * beta_dot th + 2 * beta th) p) in
  let C := addm (addm (addm (outer tmp w) (scalm (beta th) (outer w p))) (scalm (dot3 w p * beta th) I3)) (scalm (1 / 2) (skew p)) in
  M6 A (mm C A) zm3 A.

Lemma vee_mt M : vee (mt M) = opp3 (vee M).
Proof. unfold vee. v3r. Qed.
Lemma tr_mt M : tr3 (mt M) = tr3 M.
Proof. unfold tr3. v3u. reflexivity. Qed.
Lemma angle_mt M : angle (mt M) = angle M.
Proof. unfold angle. now rewrite tr_mt. Qed.
Lemma proper_mt M : proper M -> proper (mt M).
Proof. intros [A B]. split; [now apply rot_mt|now rewrite tr_mt]. Qed.
Lemma cross_cross a b : cross a (cross a b) = sub3 (scal3 (dot3 a b) a) (scal3 (dot3 a a) b).
Proof. v3r. Qed.
Lemma vee_sin M : proper M -> dot3 (vee M) (vee M) = 4 * (sin (angle M) * sin (angle M)).
Proof. intro H. pose proof (proper_trig M H) as (T & _ & _ & Q & _). rewrite vee_norm by apply H. rewrite T, Q. ring. Qed.
Lemma vee_log M : proper M -> vee M = scal3 (2 * sin (angle M) / angle M) (log3 M).
Proof.
intro H. pose proof (proper_trig M H) as (T & _ & S0 & Q & A0). unfold log3.
apply v3_ext; unfold scal3; cbn [c1 c2 c3]; field; lra.
Qed.
Lemma log3_norm M : proper M -> dot3 (log3 M) (log3 M) = angle M * angle M.
Proof.
intro H. pose proof (proper_trig M H) as (T & _ & S0 & Q & A0). pose proof (vee_sin M H) as V.
unfold log3. set (k := angle M / (2 * sin (angle M))).
transitivity (k * k * dot3 (vee M) (vee M)); [v3u; ring|]. rewrite V. unfold k. field. lra.
Qed.
(** M v in terms of the logarithm *)
Lemma rodrigues_log M v : proper M -> let th := angle M in let w := log3 M in
  mv M v = add3 (add3 (scal3 (cos th) v) (scal3 ((1 - cos th) / (th * th) * dot3 w v) w)) (scal3 (sin th / th) (cross w v)).
Proof.
intros H th w. pose proof (proper_trig M H) as (T & C & S0 & Q & A0). fold th in T, C, S0, Q, A0.
rewrite <- (mt_mt M) at 1. rewrite (rodrigues' _ v (proper_mt M H)), angle_mt, vee_mt, (vee_log M H). fold th w.
set (c := cos th) in *. set (S := sin th) in *.
assert (K : (1 - c) / (th * th) = 2 * S / th * (2 * S / th) / (4 * (1 + c))).
{ transitivity (S * S / (th * th * (1 + c))); [rewrite Q|]; field; lra. }
rewrite K. apply v3_ext; v3u; field; lra.
Qed.
(** the inverse of the left Jacobian times the rotation is the inverse of the right one *)
Lemma left_right M v : proper M -> let th := angle M in let w := log3 M in
  add3 (sub3 (scal3 (gam th) (mv M v)) (scal3 (1 / 2) (cross w (mv M v)))) (scal3 (beta th * dot3 w (mv M v)) w) = mv (Jlog3 M) v.
Proof.
intros H th w. pose proof (proper_trig M H) as (T & C & S0 & Q & A0). fold th in T, C, S0, Q, A0.
pose proof (log3_norm M H) as N. fold th w in N.
rewrite (rodrigues_log M v H). fold th w.
set (c := cos th) in *. set (S := sin th) in *. set (k1 := (1 - c) / (th * th)). set (k2 := S / th).
set (q := dot3 w v). set (x := cross w v).
assert (W1 : dot3 w (add3 (add3 (scal3 c v) (scal3 (k1 * q) w)) (scal3 k2 x)) = q).
{ transitivity (c * q + k1 * q * dot3 w w); [unfold q, x; v3u; ring|]. rewrite N. unfold k1. field. lra. }
assert (W2 : cross w (add3 (add3 (scal3 c v) (scal3 (k1 * q) w)) (scal3 k2 x)) = add3 (scal3 c x) (scal3 k2 (sub3 (scal3 q w) (scal3 (th * th) v)))).
{ rewrite <- N. transitivity (add3 (scal3 c x) (scal3 k2 (cross w x))); [unfold x; v3r|]. unfold x. rewrite cross_cross. reflexivity. }
rewrite W1, W2. unfold Jlog3. cbv zeta. fold th w.
assert (G1 : gam th * c + k2 * (th * th) / 2 = gam th).
{ unfold gam, k2. fold c S. field. lra. }
assert (G2 : gam th * k2 - c / 2 = 1 / 2).
{ unfold gam, k2. fold c S. transitivity (S * S / (2 * (1 - c)) - c / 2); [field; lra|]. rewrite Q. field. lra. }
assert (G3 : gam th * k1 = k2 / 2).
{ unfold gam, k1, k2. fold c S. field. lra. }
transitivity (add3 (add3 (scal3 (gam th * c + k2 * (th * th) / 2) v) (scal3 (gam th * k2 - c / 2) x)) (scal3 ((gam th * k1 - k2 / 2 + beta th) * q) w)).
{ apply v3_ext; unfold add3, sub3, scal3; cbn [c1 c2 c3]; field. }
rewrite G1, G2, G3. unfold x, q. apply v3_ext; unfold addm, scalm, outer; v3u; field.
Qed.
Lemma d_gam th : th <> 0 -> 1 - cos th <> 0 ->
  is_derive gam th (- (th * (th * th * beta_dot th + 2 * beta th))).
Proof.
intros A B. pose proof (sin2_cos2 th) as Q. unfold Rsqr in Q. unfold gam. auto_derive; [lra|].
unfold beta_dot, beta. set (c := cos th) in *. set (S := sin th) in *.
apply (Rmult_eq_reg_l (2 * (1 - c) * (1 - c))); [|intro X; apply B; nra].
assert (SS : S * S = 1 - c * c) by lra.
transitivity ((S + th * c) * (1 - c) - th * (S * S)); [field; lra|].
transitivity ((1 - c) * (S - th)); [rewrite SS; ring|]. field. split; lra.
Qed.
Lemma d_beta th : th <> 0 -> 1 - cos th <> 0 -> is_derive beta th (th * beta_dot th).
Proof.
intros A B. pose proof (sin2_cos2 th) as Q. unfold Rsqr in Q. unfold beta. auto_derive; [repeat split; try lra; intro X; apply A; nra|].
unfold beta_dot. set (c := cos th) in *. set (S := sin th) in *.
apply (Rmult_eq_reg_l (2 * th * th * th * (1 - c) * (1 - c)));
  [|repeat (apply Rmult_integral_contrapositive_currified; try assumption); lra].
assert (SS : S * S = 1 - c * c) by lra.
transitivity (- 4 * ((1 - c) * (1 - c)) - th * (th * c * (1 - c) - S * (1 - c) - th * (S * S))); [field; lra|].
rewrite SS. field. lra.
Qed.

Lemma mv_addm A B u : mv (addm A B) u = add3 (mv A u) (mv B u).
Proof. unfold addm. v3r. Qed.
Lemma mv_scalm k A u : mv (scalm k A) u = scal3 k (mv A u).
Proof. unfold scalm. v3r. Qed.
Lemma mv_outer a b u : mv (outer a b) u = scal3 (dot3 b u) a.
Proof. unfold outer. v3r. Qed.
Lemma dot3_sym a b : dot3 a b = dot3 b a.
Proof. v3u. ring. Qed.
Lemma d3scalf (k : R -> R) f s dk d : is_derive k s dk -> is_d3 f s d ->
  is_d3 (fun t => scal3 (k t) (f t)) s (add3 (scal3 dk (f s)) (scal3 (k s) d)).
Proof. intros A (B & C & D). split; [|split]; cbn [scal3 add3 c1 c2 c3]; apply dmult; assumption. Qed.
Theorem log6_ok : forall P, proper (rot P) -> log6_contract log6 Jlog6 P.
Proof.
intros P H M s w <- DR DP. set (rt := rot (M s)) in *.
pose proof (proper_trig _ H) as (T & C & S0 & Q & A0).
assert (DL : is_d3 (fun t => log3 (rot (M t))) s (mv (Jlog3 rt) (ang w))) by exact (log3_ok rt H (fun t => rot (M t)) s (ang w) eq_refl DR).
assert (DA : is_derive (fun t => angle (rot (M t))) s (dot3 (log3 rt) (mv (Jlog3 rt) (ang w)) / angle rt)).
{ eapply deq; [exact (d_angle (fun t => rot (M t)) s (ang w) DR (proj2 H))|]. cbv beta. fold rt. rewrite (vee_log rt H).
  pose proof (log3_norm rt H) as N. unfold Jlog3. cbv zeta. set (l := log3 rt) in *. set (th := angle rt) in *.
  transitivity (dot3 l (ang w) / th); [v3u; field; lra|].
  transitivity ((gam th + beta th * dot3 l l) * dot3 l (ang w) / th); [|unfold addm, scalm, outer; v3u; field; lra].
  rewrite N. replace (gam th + beta th * (th * th)) with 1; [field; lra|]. unfold gam, beta. field. lra. }
pose proof (dcomp gam (fun t => angle (rot (M t))) s _ _ (d_gam (angle rt) ltac:(lra) ltac:(lra)) DA) as DG.
pose proof (dcomp beta (fun t => angle (rot (M t))) s _ _ (d_beta (angle rt) ltac:(lra) ltac:(lra)) DA) as DB.
cbv beta in DG, DB.
split; [|refine (d3eq _ _ _ _ DL _); unfold Jlog6, mv6; cbv zeta; cbn [ang bal baa]; fold rt;
  destruct (mv (Jlog3 rt) (ang w)) as [x y z]; apply v3_ext; unfold zm3, mv, dot3, add3, z3; cbn [row1 row2 row3 c1 c2 c3]; ring].
unfold Jlog6, mv6, log6. cbv zeta. cbn [lin bll bla]. rewrite mv_mm. fold rt.
rewrite <- (left_right rt (lin w) H).
set (u := mv (Jlog3 rt) (ang w)) in *. set (l := log3 rt) in *. set (th := angle rt) in *. set (p := trans (M s)) in *. set (pd := mv rt (lin w)) in *.
pose proof (d3cross _ _ s _ _ DL DP) as DX. pose proof (ddot3 _ _ s _ _ DL DP) as DD. cbv beta in DX, DD. fold rt l p in DX, DD.
pose proof (d3add _ _ s _ _ (d3sub _ _ s _ _ (d3scalf _ _ s _ _ DG DP) (d3scal (1 / 2) _ s _ DX)) (d3scalf _ _ s _ _ (dmult _ _ s _ _ DB DD) DL)) as E.
cbv beta in E. fold rt l th p in E. refine (d3eq _ _ _ _ E _). clear E DX DD DL DG DB DA DP DR.
rewrite !mv_addm, !mv_scalm, !mv_outer, mv_I, mv_skew.
assert (K : dot3 l u = th * (dot3 l u / th)) by (field; lra).
set (q := dot3 l u / th) in *. rewrite K. rewrite (cross_anti u p), (dot3_sym p u).
generalize (beta th) (beta_dot th) (gam th) (dot3 l p) (dot3 u p) (dot3 l pd) (cross p u) (cross l pd) (cross l p).
intros b bd g d2 d3 d4 x1 x2 x3. clearbody q pd u l p th. clear.
apply v3_ext; unfold add3, sub3, scal3, opp3; cbn [c1 c2 c3]; field.
Qed.
