(** Facts about three-dimensional algebra, derivatives and combinations of columns. *)
From Coquelicot Require Import Coquelicot.
From Coq Require Import Reals Lra Lia.
From Verif Require Import Deriv Spatial.
Open Scope R_scope.

Ltac v3c := cbn [c1 c2 c3 row1 row2 row3 lin ang rot trans].
Ltac v3u := unfold det3, act_force, actinv_motion, actinv_se3, rot6, dot6, add6, sub6, scal6, z6, mm, mv, mt,
  col1, col2, col3, skew, cross, dot3, add3, sub3, opp3, scal3, I3, z3, ez in *; v3c.
Lemma v3_ext a b : c1 a = c1 b -> c2 a = c2 b -> c3 a = c3 b -> a = b.
Proof. destruct a, b; cbn; intros; subst; reflexivity. Qed.
Lemma v6_ext a b : lin a = lin b -> ang a = ang b -> a = b.
Proof. destruct a, b; cbn; intros; subst; reflexivity. Qed.
Lemma m3_ext a b : row1 a = row1 b -> row2 a = row2 b -> row3 a = row3 b -> a = b.
Proof. destruct a, b; cbn; intros; subst; reflexivity. Qed.
Ltac v3r := apply v3_ext; v3u; ring.
Ltac v6r := apply v6_ext; apply v3_ext; v3u; ring.

Lemma mv_mm M N a : mv (mm M N) a = mv M (mv N a).
Proof. v3r. Qed.
Lemma mv_add M a b : mv M (add3 a b) = add3 (mv M a) (mv M b).
Proof. v3r. Qed.
Lemma mv_sub M a b : mv M (sub3 a b) = sub3 (mv M a) (mv M b).
Proof. v3r. Qed.
Lemma mv_scal M k a : mv M (scal3 k a) = scal3 k (mv M a).
Proof. v3r. Qed.
Lemma mv_I a : mv I3 a = a.
Proof. v3r. Qed.
Lemma mv_skew a b : mv (skew a) b = cross a b.
Proof. v3r. Qed.
Lemma dot3_mt M a b : dot3 (mv (mt M) a) b = dot3 a (mv M b).
Proof. v3u; ring. Qed.
Lemma dot3_mv M a b : dot3 (mv M a) b = dot3 a (mv (mt M) b).
Proof. v3u; ring. Qed.
Lemma cross_anti a b : cross a b = opp3 (cross b a).
Proof. v3r. Qed.
Lemma mt_mm M N : mt (mm M N) = mm (mt N) (mt M).
Proof. apply m3_ext; v3r. Qed.
Lemma mm_assoc M N P : mm (mm M N) P = mm M (mm N P).
Proof. apply m3_ext; v3r. Qed.
Lemma mt_mt M : mt (mt M) = M.
Proof. destruct M as [[] [] []]; reflexivity. Qed.
Lemma rot_inv_l M a : rotation M -> mv (mt M) (mv M a) = a.
Proof. intros (_ & H & _). rewrite <- mv_mm, H. apply mv_I. Qed.
Lemma rot_inv_r M a : rotation M -> mv M (mv (mt M) a) = a.
Proof. intros (H & _ & _). rewrite <- mv_mm, H. apply mv_I. Qed.

(** A rotation equals its cofactor matrix, hence it commutes with the cross product. *)
Definition cof M := M3 (cross (row2 M) (row3 M)) (cross (row3 M) (row1 M)) (cross (row1 M) (row2 M)).
Lemma cross_cof M a b : cross (mv M a) (mv M b) = mv (cof M) (cross a b).
Proof. unfold cof. v3r. Qed.
Lemma cof_mt M : mm (cof M) (mt M) = M3 (V3 (det3 M) 0 0) (V3 0 (det3 M) 0) (V3 0 0 (det3 M)).
Proof. unfold cof. apply m3_ext; v3r. Qed.
Lemma mm_I M : mm M I3 = M.
Proof. apply m3_ext; v3r. Qed.
Lemma mm_I_l M : mm I3 M = M.
Proof. apply m3_ext; v3r. Qed.
Lemma cof_rot M : rotation M -> cof M = M.
Proof.
  intros (_ & H & D). rewrite <- (mm_I (cof M)), <- H, <- mm_assoc, cof_mt, D.
  apply m3_ext; v3r.
Qed.
Lemma rot_cross M a b : rotation M -> mv M (cross a b) = cross (mv M a) (mv M b).
Proof. intro H. now rewrite cross_cof, (cof_rot M H). Qed.
Lemma rot_mt M : rotation M -> rotation (mt M).
Proof.
  intros (H1 & H2 & H3). unfold rotation. rewrite mt_mt. split; [exact H2|]. split; [exact H1|].
  rewrite <- H3. v3u. ring.
Qed.
Lemma rot_mm M N : rotation M -> rotation N -> rotation (mm M N).
Proof.
  intros (H1 & H2 & H3) (G1 & G2 & G3). unfold rotation. rewrite mt_mm. repeat split.
  - rewrite mm_assoc, <- (mm_assoc N), G1, mm_I_l. exact H1.
  - rewrite mm_assoc, <- (mm_assoc (mt M)), H2, mm_I_l. exact G2.
  - transitivity (det3 M * det3 N); [v3u; ring|rewrite H3, G3; ring].
Qed.
Lemma rot_I : rotation I3.
Proof. repeat split; try (v3u; ring); apply m3_ext; v3r. Qed.
Lemma rot_inj M a b : rotation M -> mv M a = mv M b -> a = b.
Proof. intros H E. rewrite <- (rot_inv_l M a H), E. now apply rot_inv_l. Qed.

(** Derivatives. *)
Lemma d3eq f t d d' : is_d3 f t d -> d = d' -> is_d3 f t d'.
Proof. now intros H <-. Qed.
Lemma d3ext f g t d : (forall s, f s = g s) -> is_d3 f t d -> is_d3 g t d.
Proof.
  intros E (A & B & C). split; [|split]; (eapply dext; [|eassumption]); intro s; cbv beta; now rewrite E.
Qed.
Lemma d3const c t : is_d3 (fun _ => c) t z3.
Proof. split; [|split]; apply dconst. Qed.
Lemma d3add f g t a b : is_d3 f t a -> is_d3 g t b -> is_d3 (fun s => add3 (f s) (g s)) t (add3 a b).
Proof. intros (A & B & C) (A' & B' & C'). split; [|split]; v3u; apply dplus; assumption. Qed.
Lemma d3sub f g t a b : is_d3 f t a -> is_d3 g t b -> is_d3 (fun s => sub3 (f s) (g s)) t (sub3 a b).
Proof. intros (A & B & C) (A' & B' & C'). split; [|split]; v3u; apply dminus; assumption. Qed.
Lemma d3scal k f t a : is_d3 f t a -> is_d3 (fun s => scal3 k (f s)) t (scal3 k a).
Proof. intros (A & B & C). split; [|split]; v3u; apply dscal; assumption. Qed.
Lemma ddot3 f g t a b : is_d3 f t a -> is_d3 g t b ->
  is_derive (fun s => dot3 (f s) (g s)) t (dot3 a (g t) + dot3 (f t) b).
Proof.
  intros (A & B & C) (A' & B' & C'). unfold dot3.
  eapply deq.
  - apply (dplus (fun s => c1 (f s) * c1 (g s) + c2 (f s) * c2 (g s)) (fun s => c3 (f s) * c3 (g s))).
    + apply (dplus (fun s => c1 (f s) * c1 (g s)) (fun s => c2 (f s) * c2 (g s))); apply dmult; eassumption.
    + apply dmult; eassumption.
  - cbv beta. ring.
Qed.
Lemma d3mv F f t D d : is_dm F t D -> is_d3 f t d ->
  is_d3 (fun s => mv (F s) (f s)) t (add3 (mv D (f t)) (mv (F t) d)).
Proof.
  intros (A & B & C) H. split; [|split]; cbn [mv add3 c1 c2 c3].
  - exact (ddot3 (fun s => row1 (F s)) f t (row1 D) d A H).
  - exact (ddot3 (fun s => row2 (F s)) f t (row2 D) d B H).
  - exact (ddot3 (fun s => row3 (F s)) f t (row3 D) d C H).
Qed.
Lemma dmconst M t : is_dm (fun _ => M) t (M3 z3 z3 z3).
Proof. split; [|split]; apply d3const. Qed.
Lemma d3mvc M f t d : is_d3 f t d -> is_d3 (fun s => mv M (f s)) t (mv M d).
Proof.
  intro H. eapply d3eq; [exact (d3mv _ _ t _ _ (dmconst M t) H)|]. v3r.
Qed.
Lemma d3cross f g t a b : is_d3 f t a -> is_d3 g t b ->
  is_d3 (fun s => cross (f s) (g s)) t (add3 (cross a (g t)) (cross (f t) b)).
Proof.
  intros (A & B & C) (A' & B' & C').
  split; [|split]; cbn [cross add3 c1 c2 c3].
  - eapply deq; [apply (dminus (fun s => c2 (f s) * c3 (g s)) (fun s => c3 (f s) * c2 (g s))); apply dmult; eassumption|cbv beta; ring].
  - eapply deq; [apply (dminus (fun s => c3 (f s) * c1 (g s)) (fun s => c1 (f s) * c3 (g s))); apply dmult; eassumption|cbv beta; ring].
  - eapply deq; [apply (dminus (fun s => c1 (f s) * c2 (g s)) (fun s => c2 (f s) * c1 (g s))); apply dmult; eassumption|cbv beta; ring].
Qed.
Lemma dmt F t D : is_dm F t D -> is_dm (fun s => mt (F s)) t (mt D).
Proof.
  intros ((A1 & A2 & A3) & (B1 & B2 & B3) & (C1 & C2 & C3)).
  split; [|split]; (split; [|split]; assumption).
Qed.

(** Combinations of columns. *)
Lemma comb3_ext n J J' w : (forall j, (j < n)%nat -> J j = J' j) -> comb3 n J w = comb3 n J' w.
Proof. intro H. apply v3_ext; cbn [comb3 c1 c2 c3]; apply rsum_ext; intros; rewrite H; auto. Qed.
Lemma comb3_add n J K w : comb3 n (fun j => add3 (J j) (K j)) w = add3 (comb3 n J w) (comb3 n K w).
Proof.
  apply v3_ext; cbn [comb3 add3 c1 c2 c3]; rewrite <- rsum_plus; apply rsum_ext; intros; ring.
Qed.
Lemma comb3_sub n J K w : comb3 n (fun j => sub3 (J j) (K j)) w = sub3 (comb3 n J w) (comb3 n K w).
Proof.
  apply v3_ext; cbn [comb3 sub3 c1 c2 c3]; rewrite <- rsum_minus; apply rsum_ext; intros; ring.
Qed.
Lemma comb3_mv n M J w : comb3 n (fun j => mv M (J j)) w = mv M (comb3 n J w).
Proof.
  apply v3_ext; unfold mv, dot3; cbn [comb3 c1 c2 c3]; rewrite <- !rsum_scal, <- !rsum_plus;
    apply rsum_ext; intros; ring.
Qed.
Lemma comb3_scal n k J w : comb3 n (fun j => scal3 k (J j)) w = scal3 k (comb3 n J w).
Proof.
  apply v3_ext; cbn [comb3 scal3 c1 c2 c3]; rewrite <- rsum_scal; apply rsum_ext; intros; ring.
Qed.
Lemma comb3_z n w : comb3 n (fun _ => z3) w = z3.
Proof. apply v3_ext; cbn [comb3 z3 c1 c2 c3]; apply rsum_0; intros; ring. Qed.
Lemma comb6_actinv n M J w : comb6 n (fun j => actinv_motion M (J j)) w = actinv_motion M (comb6 n J w).
Proof.
  unfold comb6, actinv_motion. v3c. f_equal.
  - rewrite comb3_mv. f_equal. rewrite comb3_sub. f_equal.
    rewrite (comb3_ext _ _ (fun j => mv (skew (trans M)) (ang (J j)))) by (intros; now rewrite mv_skew).
    rewrite comb3_mv. apply mv_skew.
  - apply comb3_mv.
Qed.
Lemma dot3_comb n J w a : dot3 (comb3 n J w) a = rsum n (fun j => dot3 (J j) a * w j).
Proof.
  unfold dot3. cbn [comb3 c1 c2 c3]. rewrite !(Rmult_comm (rsum _ _)), <- !rsum_scal, <- !rsum_plus.
  apply rsum_ext. intros; ring.
Qed.
