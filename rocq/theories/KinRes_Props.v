(** C98: kinematic residuals. *)
From Coquelicot Require Import Coquelicot.
From Coq Require Import Reals List Arith Bool Lra Lia.
From Verif Require Import Deriv VecMat Spatial Spatial_Proofs Contact_Model Contact_Spec Contact_Proofs Contact_Props ForceRes_Model Log3 KinRes_Model.
Import ListNotations.
Open Scope R_scope.

(** ** Specification *)
(** What the user asked for. *)
Inductive wish :=
  | Translation (id : nat) (xref : v3) | Rotation (id : nat) (Rref : m3) | Placement (id : nat) (pref : se3)
  | Velocity (id : nat) (vref : v6) (type : ftype) | CoM (cref : v3) | ImpulseCoM.
Definition build (w : wish) : kmodel :=
  match w with
  | Translation i a => MTranslation i a | Rotation i A => new_rotation i A | Placement i P => new_placement i P
  | Velocity i v ty => MVelocity i v ty | CoM c => MCoM c | ImpulseCoM => MImpulseCoM
  end.
(** The frame, reference and type set last. *)
Definition follow (w : wish) (o : kop) : wish :=
  match o, w with
  | KSetRef (Ref3 a), Translation i _ => Translation i a
  | KSetRef (RefR A), Rotation i _ => Rotation i A
  | KSetRef (RefM P), Placement i _ => Placement i P
  | KSetRef (Ref6 v), Velocity i _ ty => Velocity i v ty
  | KSetRef (Ref3 a), CoM _ => CoM a
  | KSetId i, Translation _ a => Translation i a
  | KSetId i, Rotation _ A => Rotation i A
  | KSetId i, Placement _ P => Placement i P
  | KSetId i, Velocity _ v ty => Velocity i v ty
  | KSetType ty, Velocity i v _ => Velocity i v ty
  | _, _ => w
  end.
Definition latest (w : wish) (l : list kop) : wish := fold_left follow l w.

Section Spec.
Variables (nv : nat) (log3 : m3 -> v3) (Jlog3 : m3 -> m3) (log6 : se3 -> v6) (Jlog6 : se3 -> m6).
(** The residual at a state: position, rotation or placement of the frame seen from the reference, its
    velocity minus the reference, the centre of mass, the jump of its velocity. *)
Definition rows (w : wish) : nat := match w with Placement _ _ | Velocity _ _ _ => 6 | _ => 3 end.
Definition residual (w : wish) (n : snap) : vec :=
  match w with
  | Translation i a => tov3 (sub3 (trans (oMf (n_kin n i))) a)
  | Rotation i A => tov3 (log3 (mm (mt A) (rot (oMf (n_kin n i)))))
  | Placement i P => tov (log6 (actinv_se3 P (oMf (n_kin n i))))
  | Velocity i v ty => tov (sub6 (frame_velocity ty (n_kin n i)) v)
  | CoM c => tov3 (sub3 (n_com n) c)
  | ImpulseCoM => tov3 (n_vcom n (fun i => n_vnext n i - n_v n i))
  end.
(** log3 is differentiable at [P] with right Jacobian Jlog3. *)
Definition log3_contract (P : m3) : Prop :=
  forall (M : R -> m3) s w, M s = P -> is_dm M s (mm (M s) (skew w)) ->
    is_d3 (fun t => log3 (M t)) s (mv (Jlog3 P) w).
(** Pinocchio along a curve of states with tangent (dq, dv). *)
Record pcurve (n : R -> snap) (s : R) (dq dv : vec) : Prop := {
  pc_frames : forall i, exists jMf, moves nv jMf (fun t => n_kin (n t) i) s dq dv;
  pc_vd : forall i ty, is_d6 (fun t => frame_velocity ty (n_kin (n t) i)) s
    (add6 (comb6 nv (fst (n_vd (n s) i ty)) dq) (comb6 nv (snd (n_vd (n s) i ty)) dv));
  pc_com : is_d3 (fun t => n_com (n t)) s (comb3 nv (n_Jcom (n s)) dq);
  pc_v : forall i, (i < nv)%nat -> is_derive (fun t => n_v (n t) i) s (dv i);
  pc_vnext : forall i, (i < nv)%nat -> is_derive (fun t => n_vnext (n t) i) s
    (rsum nv (fun j => n_dvnext (n s) i j * dq j) + rsum nv (fun j => n_dvnext (n s) i (nv + j)%nat * dv j));
  (* along any curve of velocities *)
  pc_vcom : forall (w : R -> vec) dw, (forall i, (i < nv)%nat -> is_derive (fun t => w t i) s (dw i)) ->
    is_d3 (fun t => n_vcom (n t) (w t)) s (add3 (comb3 nv (n_dvc (n s) (w s)) dq) (comb3 nv (n_Jcom (n s)) dw)) }.
(** the errors for which the logarithms are differentiable *)
Definition smooth_at (w : wish) (n : snap) : Prop :=
  match w with
  | Rotation i A => log3_contract (mm (mt A) (rot (oMf (n_kin n i))))
  | Placement i P => log6_contract log6 Jlog6 (actinv_se3 P (oMf (n_kin n i)))
  | _ => True
  end.

(** ** Proofs *)
Notation run := (krun nv log3 Jlog3 log6 Jlog6).
Lemma run_snoc m l o : run m (l ++ [o]) = kstep nv log3 Jlog3 log6 Jlog6 (run m l) o.
Proof. unfold krun. now rewrite fold_left_app. Qed.
Lemma follows w l : fst (run (build w) l) = build (latest w l).
Proof.
induction l as [|o l IH] using rev_ind; [reflexivity|].
rewrite run_snoc. unfold latest in *. rewrite fold_left_app. cbn [fold_left].
set (w' := fold_left follow l w) in *. clearbody w'.
destruct o as [r|i|ty|n|n]; cbn [kstep fst]; try (rewrite IH; destruct w'; try destruct r; reflexivity).
Qed.
Lemma inv_mul P M : mul_se3 (inv_se3 P) M = actinv_se3 P M.
Proof. unfold mul_se3, inv_se3, actinv_se3. cbn [rot trans]. f_equal. rewrite mv_sub. apply v3_ext; cbn; ring. Qed.
Lemma calc_value w d n : kd_r (k_calc log3 log6 (build w) n d) = residual w n.
Proof. destruct w; cbn [build new_rotation new_placement k_calc kd_r residual]; try reflexivity. now rewrite inv_mul. Qed.

(** The columns of velocities stay zero but for the residuals that depend on the velocity. *)
Definition vfree (w : wish) : bool := match w with Velocity _ _ _ | ImpulseCoM => false | _ => true end.
Lemma vfree_latest w l : vfree (latest w l) = vfree w.
Proof.
unfold latest. revert w. induction l as [|o l IH]; intro w; [reflexivity|]. cbn [fold_left]. rewrite IH.
destruct o as [[]| | | |], w; reflexivity.
Qed.
Lemma right_zero w l : vfree w = true -> forall i j, (nv <= j)%nat -> kd_Rx (snd (run (build w) l)) i j = 0.
Proof.
intros V i j H. induction l as [|o l IH] using rev_ind; [reflexivity|].
rewrite run_snoc. destruct o as [r|k|ty|n|n]; cbn [kstep snd]; try exact IH.
- rewrite follows. destruct (latest w l); exact IH.
- rewrite follows. pose proof (vfree_latest w l) as E. rewrite V in E.
  destruct (latest w l); try discriminate E; cbn [build new_rotation new_placement k_diff kd_Rx]; unfold left;
  (destruct (Nat.ltb_spec j nv); [lia|exact IH]).
Qed.
End Spec.

(** calc, after any use of the model and the data, gives the residual of the frame, reference and type
    set last. *)
Theorem C98_value : forall nv log3 Jlog3 log6 Jlog6 w l n,
  kd_r (snd (krun nv log3 Jlog3 log6 Jlog6 (build w) (l ++ [KCalc n]))) = residual log3 log6 (latest w l) n.
Proof. intros. rewrite run_snoc. cbn [kstep snd]. rewrite follows. apply calc_value. Qed.

Lemma tov3_d f s d i : is_d3 f s d -> is_derive (fun t => tov3 (f t) i) s (tov3 d i).
Proof. intros (A & B & D). destruct i as [|[|]]; cbn [tov3]; assumption. Qed.
Lemma tov_d f s d i : is_d6 f s d -> is_derive (fun t => tov (f t) i) s (tov d i).
Proof. intros ((A & B & D) & (A' & B' & D')). destruct i as [|[|[|[|[|]]]]]; cbn [tov]; assumption. Qed.
Lemma tov3_comb n J u i : rsum n (fun j => cols3 J i j * u j) = tov3 (comb3 n J u) i.
Proof. destruct i as [|[|]]; reflexivity. Qed.
Lemma tov_comb n J u i : rsum n (fun j => cols6 J i j * u j) = tov (comb6 n J u) i.
Proof. destruct i as [|[|[|[|[|]]]]]; reflexivity. Qed.
Lemma rsum_left nv D Rx i u : rsum nv (fun j => left nv D Rx i j * u j) = rsum nv (fun j => D i j * u j).
Proof. apply rsum_ext. intros j H. unfold left. destruct (Nat.ltb_spec j nv); [reflexivity|lia]. Qed.
Lemma rsum_right nv D Rx i u : rsum nv (fun j => right nv D Rx i (nv + j)%nat * u j) = rsum nv (fun j => D i j * u j).
Proof.
apply rsum_ext. intros j H. unfold right. destruct (Nat.leb_spec nv (nv + j)); [|lia].
now replace (nv + j - nv)%nat with j by lia.
Qed.
Lemma rsum_left_right nv D Rx i u : rsum nv (fun j => right nv D Rx i j * u j) = rsum nv (fun j => Rx i j * u j).
Proof. apply rsum_ext. intros j H. unfold right. destruct (Nat.leb_spec nv j); [lia|reflexivity]. Qed.
Lemma add3_comm0 a : add3 a z3 = a.
Proof. destruct a; unfold add3, z3; cbn; f_equal; ring. Qed.

(** calcDiff after calc at the same state gives the exact derivative: Rx (dq, dv) is the derivative of
    the residual along every curve of states. *)
Theorem C98_derivative : forall nv log3 Jlog3 log6 Jlog6 w l n s dq dv,
  pcurve nv n s dq dv -> smooth_at log3 Jlog3 log6 Jlog6 (latest w l) (n s) ->
  let Rx := kd_Rx (snd (krun nv log3 Jlog3 log6 Jlog6 (build w) (l ++ [KCalc (n s); KDiff (n s)]))) in
  forall i, (i < rows (latest w l))%nat ->
  is_derive (fun t => residual log3 log6 (latest w l) (n t) i) s
    (rsum nv (fun j => Rx i j * dq j) + rsum nv (fun j => Rx i (nv + j)%nat * dv j)).
Proof.
intros nv log3 Jlog3 log6 Jlog6 w l n s dq dv C SM Rx i Hi.
assert (Z : vfree w = true -> rsum nv (fun j => Rx i (nv + j)%nat * dv j) = 0).
{ intro V. apply (rsum_0 nv). intros j _. unfold Rx. rewrite right_zero by (assumption || lia). ring. }
rewrite <- (vfree_latest w l) in Z.
unfold Rx in *. clear Rx. change [KCalc (n s); KDiff (n s)] with ([KCalc (n s)] ++ [KDiff (n s)]) in *.
rewrite app_assoc, !run_snoc in *. cbn [kstep snd fst] in *. rewrite follows in *.
set (u := latest w l) in *. clearbody u.
set (d := snd (krun nv log3 Jlog3 log6 Jlog6 (build w) l)) in *. clearbody d.
destruct u as [f a|f A|f P|f v ty|c|]; cbn [vfree] in Z; cbn [residual].
- rewrite Z by reflexivity. cbn [build k_calc k_diff kd_Rx]. rewrite rsum_left, tov3_comb, comb3_mv.
  destruct (pc_frames _ _ _ _ _ C f) as [jMf M].
  eapply deq; [apply tov3_d; exact (d3sub _ _ s _ _ (mv_p _ _ _ _ _ _ M) (d3const a s))|].
  unfold comb6. cbn [lin]. destruct (mv _ _); destruct i as [|[|]]; cbn; ring.
- rewrite Z by reflexivity. cbn [build new_rotation k_calc k_diff kd_Rx kd_rRf]. rewrite rsum_left, tov3_comb, comb3_mv, Rplus_0_r.
  destruct (pc_frames _ _ _ _ _ C f) as [jMf M].
  apply tov3_d. refine (SM (fun t => mm (mt A) (rot (oMf (n_kin (n t) f)))) s (ang (comb6 nv (fJf (n_kin (n s) f)) dq)) eq_refl _).
  rewrite mm_assoc. pose proof (dmt _ _ _ (mv_R _ _ _ _ _ _ M)) as D.
  set (E := mm (rot (oMf (n_kin (n s) f))) (skew (ang (comb6 nv (fJf (n_kin (n s) f)) dq)))) in *.
  assert (X : forall r, is_d3 (fun t => mv (mt (rot (oMf (n_kin (n t) f)))) r) s (mv (mt E) r)).
  { intro r. eapply d3eq; [exact (d3mv _ _ s _ _ D (d3const r s))|]. v3r. }
  split; [|split]; cbn [mm row1 row2 row3]; apply X.
- rewrite Z by reflexivity. cbn [build new_placement k_calc k_diff kd_Rx kd_rMf]. rewrite rsum_left, tov_comb, comb6_mv6, inv_mul, Rplus_0_r.
  destruct (pc_frames _ _ _ _ _ C f) as [jMf M].
  apply tov_d. exact (d_rMf _ _ _ _ _ _ M log6 Jlog6 P SM).
- clear Z. cbn [build k_calc k_diff kd_Rx]. rewrite rsum_left_right, rsum_left, rsum_right, !tov_comb.
  pose proof (pc_vd _ _ _ _ _ C f ty) as [D1 D2].
  set (X := add6 (comb6 nv (fst (n_vd (n s) f ty)) dq) (comb6 nv (snd (n_vd (n s) f ty)) dv)) in *.
  eapply deq; [exact (tov_d (fun t => sub6 (frame_velocity ty (n_kin (n t) f)) v) s (sub6 X z6) i
    (conj (d3sub _ _ s _ _ D1 (d3const (lin v) s)) (d3sub _ _ s _ _ D2 (d3const (ang v) s))))|].
  unfold X.
  destruct i as [|[|[|[|[|]]]]]; cbn; ring.
- rewrite Z by reflexivity. cbn [build k_calc k_diff kd_Rx]. rewrite rsum_left, tov3_comb.
  eapply deq; [apply tov3_d; exact (d3sub _ _ s _ _ (pc_com _ _ _ _ _ C) (d3const c s))|].
  destruct i as [|[|]]; cbn; ring.
- clear Z. cbn [build k_calc k_diff kd_Rx kd_Jcom kd_dvc]. rewrite rsum_left_right, rsum_left, rsum_right.
  set (dw := fun i => (rsum nv (fun j => n_dvnext (n s) i j * dq j) + rsum nv (fun j => n_dvnext (n s) i (nv + j)%nat * dv j)) - dv i).
  eapply deq; [apply tov3_d; refine (pc_vcom _ _ _ _ _ C (fun t i => n_vnext (n t) i - n_v (n t) i) dw _)|].
  { intros k Hk. exact (dminus _ _ s _ _ (pc_vnext _ _ _ _ _ C k Hk) (pc_v _ _ _ _ _ C k Hk)). }
  cbv beta. set (wv := fun i0 => n_vnext (n s) i0 - n_v (n s) i0).
  transitivity (rsum nv (fun j => cols3 (n_dvc (n s) wv) i j * dq j) + rsum nv (fun k => cols3 (n_Jcom (n s)) i k * dw k)).
  { rewrite !tov3_comb. destruct i as [|[|]]; reflexivity. }
  set (J := cols3 (n_Jcom (n s))). set (D := n_dvnext (n s)) in *.
  assert (S1 : rsum nv (fun k => J i k * dw k) =
    rsum nv (fun k => J i k * rsum nv (fun j => D k j * dq j)) +
    (rsum nv (fun k => J i k * rsum nv (fun j => D k (nv + j)%nat * dv j)) - rsum nv (fun k => J i k * dv k))).
  { rewrite <- rsum_minus, <- rsum_plus. apply rsum_ext. intros. unfold dw. ring. }
  assert (S2 : forall E u, rsum nv (fun k => J i k * rsum nv (fun j => E k j * u j)) = rsum nv (fun j => mulm nv J E i j * u j)).
  { intros E u. transitivity (rsum nv (fun k => rsum nv (fun j => J i k * E k j * u j))).
    - apply rsum_ext. intros. rewrite <- rsum_scal. apply rsum_ext. intros. ring.
    - rewrite rsum_swap. apply rsum_ext. intros j _. unfold mulm.
      rewrite (Rmult_comm (rsum _ _)), <- rsum_scal. apply rsum_ext. intros. ring. }
  rewrite S1, (S2 D dq), (S2 (fun k j => D k (nv + j)%nat) dv).
  assert (S3 : rsum nv (fun j => mulm nv J (fun i0 j0 => D i0 (nv + j0)%nat - (if (i0 =? j0)%nat then 1 else 0)) i j * dv j) =
    rsum nv (fun j => mulm nv J (fun k j => D k (nv + j)%nat) i j * dv j) - rsum nv (fun k => J i k * dv k)).
  { rewrite <- rsum_minus. apply rsum_ext. intros j Hj. unfold mulm.
    assert (E : rsum nv (fun k => J i k * (D k (nv + j)%nat - (if (k =? j)%nat then 1 else 0))) =
      rsum nv (fun k => J i k * D k (nv + j)%nat) - J i j).
    { transitivity (rsum nv (fun k => J i k * D k (nv + j)%nat) - rsum nv (fun k => J i k * (if (k =? j)%nat then 1 else 0))).
      - rewrite <- rsum_minus. apply rsum_ext. intros. ring.
      - f_equal. rewrite (rsum_single nv j); [rewrite Nat.eqb_refl; ring|exact Hj|].
        intros k _ N. apply Nat.eqb_neq in N. rewrite N. ring. }
    rewrite E. ring. }
  rewrite S3.
  assert (S4 : rsum nv (fun j => (cols3 (n_dvc (n s) wv) i j + mulm nv J D i j) * dq j) =
    rsum nv (fun j => cols3 (n_dvc (n s) wv) i j * dq j) + rsum nv (fun j => mulm nv J D i j * dq j)).
  { rewrite <- rsum_plus. apply rsum_ext. intros. ring. }
  fold J. rewrite S4. ring.
Qed.

(** With the documented logarithms the hypothesis holds whenever the rotation of the frame seen from the
    reference has an angle strictly between 0 and pi. *)
Theorem C98_logarithms : forall w n,
  (forall i A, w = Rotation i A -> proper (mm (mt A) (rot (oMf (n_kin n i))))) ->
  (forall i P, w = Placement i P -> proper (mm (mt (rot P)) (rot (oMf (n_kin n i))))) ->
  smooth_at Log3.log3 Log3.Jlog3 Log3.log6 Log3.Jlog6 w n.
Proof.
intros w n H1 H2. destruct w as [| i A | i P | | |]; try exact I.
- intros M s w E D. exact (log3_ok _ (H1 i A eq_refl) M s w E D).
- exact (log6_ok (actinv_se3 P (oMf (n_kin n i))) (H2 i P eq_refl)).
Qed.

(** The velocity of a frame in each reference: while the robot moves with its velocity, the point of the
    body with coordinates [c] in the frame moves with the linear velocity plus the angular velocity
    times its position seen from the frame (LOCAL, LOCAL_WORLD_ALIGNED) or from the world (WORLD). *)
Theorem C98_velocity : forall nv jMf k s v a, moves nv jMf k s v a -> vel (k s) = comb6 nv (fJf (k s)) v ->
  let R := rot (oMf (k s)) in
  forall c, let pt := fun t => add3 (mv (rot (oMf (k t))) c) (trans (oMf (k t))) in
  (let m := frame_velocity LOCAL (k s) in is_d3 pt s (mv R (add3 (lin m) (cross (ang m) c)))) /\
  (let m := frame_velocity LOCAL_WORLD_ALIGNED (k s) in is_d3 pt s (add3 (lin m) (cross (ang m) (mv R c)))) /\
  (let m := frame_velocity WORLD (k s) in is_d3 pt s (add3 (lin m) (cross (ang m) (pt s)))).
Proof.
intros nv jMf k s v a M E R c pt. pose proof (mv_rot _ _ _ _ _ _ M) as HR. fold R in HR.
assert (D : is_d3 pt s (mv R (add3 (lin (vel (k s))) (cross (ang (vel (k s))) c)))).
{ eapply d3eq; [exact (d3add _ _ s _ _ (d3mv _ _ s _ _ (mv_R _ _ _ _ _ _ M) (d3const c s)) (mv_p _ _ _ _ _ _ M))|].
  rewrite <- E. fold R. rewrite mv_mm, mv_skew, mv_add. generalize (mv R (cross (ang (vel (k s))) c)) (mv R (lin (vel (k s)))).
  intros p q. unfold z3. destruct R as [r1 r2 r3]. destruct p, q, r1, r2, r3. v3r. }
split; [exact D|]. split; cbv zeta; (eapply d3eq; [exact D|]); cbn [frame_velocity]; unfold rot6, act_motion; cbn [lin ang]; fold R;
  rewrite mv_add, (rot_cross R _ _ HR).
- reflexivity.
- unfold pt. fold R. generalize (mv R (lin (vel (k s)))) (mv R (ang (vel (k s)))) (mv R c) (trans (oMf (k s))).
  intros x y z t. destruct x, y, z, t. v3r.
Qed.

(** The turning body of C79 with all quantities; an impact halves its velocity. *)
Definition turn_snap (v t : R) : snap :=
  Snap (fun _ => turn v t)
    (fun _ ty => match ty with
       | LOCAL => (fun _ => z6, fun _ => V6 (V3 0 1 0) (V3 0 0 1))
       | WORLD => (fun _ => z6, fun _ => V6 z3 (V3 0 0 1))
       | LOCAL_WORLD_ALIGNED => (fun _ => V6 (V3 (- v * cos t) (- v * sin t) 0) z3, fun _ => V6 (V3 (- sin t) (cos t) 0) (V3 0 0 1))
       end)
    (V3 (cos t) (sin t) 0) (fun _ => V3 (- sin t) (cos t) 0) (fun _ => v) (fun _ => v / 2) (fun _ j => if Nat.eqb j 1 then 1 / 2 else 0)
    (fun w => scal3 (w 0%nat) (V3 (- sin t) (cos t) 0)) (fun w _ => scal3 (w 0%nat) (V3 (- cos t) (- sin t) 0)).
Lemma turn_curve v s : pcurve 1 (turn_snap v) s (fun _ => 1) (fun _ => 0).
Proof.
constructor.
- intro i. exists turn_jMf. exact (C79_ex v s).
- intros i ty. destruct ty; cbn [turn_snap n_vd n_kin fst snd frame_velocity].
  + unfold turn. cbn [vel]. split; (split; [|split]); unfold comb6, comb3; v3u; cbn [rsum]; (eapply deq; [apply dconst|ring]).
  + assert (E : forall t, act_motion (oMf (turn v t)) (vel (turn v t)) = V6 z3 (V3 0 0 v)).
    { intro t. unfold turn, act_motion, rz. cbn [oMf vel]. apply v6_ext; v3r. }
    split; (split; [|split]); (eapply dext; [intro t; rewrite E; reflexivity|]); unfold comb6, comb3; v3u; cbn [rsum]; (eapply deq; [apply dconst|ring]).
  + assert (E : forall t, rot6 (rot (oMf (turn v t))) (vel (turn v t)) = V6 (V3 (v * - sin t) (v * cos t) 0) (V3 0 0 v)).
    { intro t. unfold turn, rz. cbn [oMf vel]. apply v6_ext; v3r. }
    split; (split; [|split]); (eapply dext; [intro t; rewrite E; reflexivity|]); unfold comb6, comb3; v3u; cbn [rsum];
      (eapply deq; [first [exact (dconst 0 s)|exact (dconst v s)|exact (dscal v _ s _ (dopp sin s _ (dsin s)))|exact (dscal v cos s _ (dcos s))]|ring]).
- cbn [turn_snap n_com n_Jcom]. split; [|split]; unfold comb3; v3u; cbn [rsum];
    (eapply deq; [first [exact (dcos s)|exact (dsin s)|apply dconst]|ring]).
- intros i _. cbn [turn_snap n_v]. exact (dconst v s).
- intros i Hi. cbn [turn_snap n_vnext n_dvnext]. eapply deq; [exact (dconst (v / 2) s)|]. cbn. ring.
- intros w dw H. cbn [turn_snap n_vcom n_dvc n_Jcom]. specialize (H 0%nat ltac:(lia)).
  split; [|split]; unfold comb3; v3u; cbn [rsum].
  + eapply deq; [exact (dmult _ _ s _ _ H (dopp sin s _ (dsin s)))|]. cbv beta. ring.
  + eapply deq; [exact (dmult _ _ s _ _ H (dcos s))|]. cbv beta. ring.
  + eapply deq; [exact (dmult _ _ s _ _ H (dconst 0 s))|]. cbv beta. ring.
Qed.
(** Rotation residual of this body, seen from the identity, after other uses of the model. *)
Example C98_ex v : let l := [KCalc (turn_snap 3 2); KSetRef (RefR I3); KDiff (turn_snap 3 2); KSetId 4] in
  let Rx := kd_Rx (snd (krun 1 Log3.log3 Log3.Jlog3 Log3.log6 Log3.Jlog6 (build (Rotation 0 (rz 5)))
    (l ++ [KCalc (turn_snap v 1); KDiff (turn_snap v 1)]))) in
  forall i, (i < 3)%nat -> is_derive (fun t => tov3 (Log3.log3 (mm (mt I3) (rz t))) i) 1 (Rx i 0%nat).
Proof.
intros l Rx i Hi.
assert (T : -1 < tr3 (mm (mt I3) (rz 1)) < 3).
{ assert (0 < 1 < PI / 2) by (pose proof PI2_1; lra). pose proof PI_RGT_0.
  pose proof (cos_gt_0 1 ltac:(lra) ltac:(lra)). pose proof (cos_decreasing_1 0 1 ltac:(lra) ltac:(lra) ltac:(lra) ltac:(lra) ltac:(lra)) as L.
  rewrite cos_0 in L. unfold tr3, rz. v3u. lra. }
pose proof (C98_derivative 1 Log3.log3 Log3.Jlog3 Log3.log6 Log3.Jlog6 (Rotation 0 (rz 5)) l (turn_snap v) 1 _ _ (turn_curve v 1)) as H.
assert (SM : smooth_at Log3.log3 Log3.Jlog3 Log3.log6 Log3.Jlog6 (Rotation 4 I3) (turn_snap v 1)).
{ apply C98_logarithms; [|discriminate]. intros j A [= <- <-]. split; [|exact T]. apply rot_mm; [apply rot_mt, rot_I|apply rz_rot]. }
specialize (H SM i Hi). eapply deq; [exact H|]. cbn [rsum]. fold Rx. ring.
Qed.
(** C79 for the 6d contact with these logarithms. *)
Theorem C79_contact6_log : forall nv jMf k s dq dv type g0 g1 pref, moves nv jMf k s dq dv ->
  g0 = 0 \/ proper (mm (mt (rot pref)) (rot (oMf (k s)))) ->
  is_d6 (fun t => a06 Log3.log6 type g0 g1 pref (k t)) s
    (add6 (comb6 nv (da06_dq Log3.log6 Log3.Jlog6 type jMf g0 g1 pref (k s)) dq) (comb6 nv (da06_dv type jMf g1 (k s)) dv)).
Proof.
intros nv jMf k s dq dv type g0 g1 pref M H. apply C79_contact6; [exact M|]. intro G. destruct H as [H|H]; [contradiction|].
apply log6_ok. exact H.
Qed.
Print Assumptions C79_contact6_log.
Print Assumptions C98_value.
Print Assumptions C98_derivative.
Print Assumptions C98_logarithms.
Print Assumptions C98_velocity.
