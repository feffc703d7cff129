(** Proofs about the contact and impulse models. *)
From Coquelicot Require Import Coquelicot.
From Coq Require Import Reals Lra Lia.
From Verif Require Import Deriv VecMat Spatial Spatial_Proofs Contact_Model Contact_Spec.
Open Scope R_scope.

Lemma d6eq f t d d' : is_d6 f t d -> d = d' -> is_d6 f t d'.
Proof. now intros H <-. Qed.
Lemma d6add f g t a b : is_d6 f t a -> is_d6 g t b -> is_d6 (fun s => add6 (f s) (g s)) t (add6 a b).
Proof. intros (A & B) (C & D). split; cbn [add6 lin ang]; apply d3add; assumption. Qed.
Lemma d6scal k f t a : is_d6 f t a -> is_d6 (fun s => scal6 k (f s)) t (scal6 k a).
Proof. intros (A & B). split; cbn [scal6 lin ang]; apply d3scal; assumption. Qed.
Lemma d3when g f h t a b : is_d3 f t a -> is_d3 h t b -> is_d3 (fun s => when g (f s) (h s)) t (when g a b).
Proof. intros A B. unfold when. destruct (Req_EM_T g 0); [assumption|now apply d3add]. Qed.
Lemma d6when g f h t a b : is_d6 f t a -> is_d6 h t b -> is_d6 (fun s => when6 g (f s) (h s)) t (when6 g a b).
Proof. intros A B. unfold when6. destruct (Req_EM_T g 0); [assumption|now apply d6add]. Qed.

(** Derivative of a vector seen from / brought to the world by the moving rotation. *)
Lemma d3_from F f t w d : is_dm F t (mm (F t) (skew w)) -> is_d3 f t d ->
  is_d3 (fun s => mv (F s) (f s)) t (mv (F t) (add3 d (cross w (f t)))).
Proof.
  intros HF Hf. eapply d3eq; [exact (d3mv F f t _ _ HF Hf)|].
  rewrite mv_mm, mv_skew, mv_add. v3r.
Qed.
Lemma d3_to F f t w d : is_dm F t (mm (F t) (skew w)) -> is_d3 f t d ->
  is_d3 (fun s => mv (mt (F s)) (f s)) t (add3 (mv (mt (F t)) d) (cross (mv (mt (F t)) (f t)) w)).
Proof.
  intros HF Hf. eapply d3eq; [exact (d3mv (fun s => mt (F s)) f t _ _ (dmt _ _ _ HF) Hf)|].
  rewrite mt_mm, mv_mm. v3r.
Qed.

Section P.
Context (nv : nat) (jMf : se3) (k : R -> kin) (s : R) (dq dv : vec) (M : moves nv jMf k s dq dv).
Notation w := (comb6 nv (fJf (k s)) dq).
Notation F := (rot (oMf (k s))).

Lemma comb3_lin_actinv J : comb3 nv (fun j => lin (actinv_motion jMf (J j))) dq = lin (actinv_motion jMf (comb6 nv J dq)).
Proof. rewrite <- comb6_actinv. reflexivity. Qed.
Lemma comb3_ang_actinv J : comb3 nv (fun j => ang (actinv_motion jMf (J j))) dq = ang (actinv_motion jMf (comb6 nv J dq)).
Proof. rewrite <- comb6_actinv. reflexivity. Qed.
Lemma comb3_lin_actinv' J : comb3 nv (fun j => lin (actinv_motion jMf (J j))) dv = lin (actinv_motion jMf (comb6 nv J dv)).
Proof. rewrite <- comb6_actinv. reflexivity. Qed.
Lemma comb3_when g J K u : comb3 nv (fun j => when g (J j) (K j)) u = when g (comb3 nv J u) (comb3 nv K u).
Proof. unfold when. destruct (Req_EM_T g 0); [reflexivity|apply comb3_add]. Qed.
Lemma comb6_add J K u : comb6 nv (fun j => add6 (J j) (K j)) u = add6 (comb6 nv J u) (comb6 nv K u).
Proof. apply v6_ext; cbn [comb6 lin ang add6]; apply comb3_add. Qed.
Lemma comb6_when g J K u : comb6 nv (fun j => when6 g (J j) (K j)) u = when6 g (comb6 nv J u) (comb6 nv K u).
Proof. unfold when6. destruct (Req_EM_T g 0); [reflexivity|apply comb6_add]. Qed.
Lemma comb6_scal g J u : comb6 nv (fun j => scal6 g (J j)) u = scal6 g (comb6 nv J u).
Proof. apply v6_ext; cbn [comb6 lin ang scal6]; apply comb3_scal. Qed.
Lemma comb6_mv6 A J u : comb6 nv (fun j => mv6 A (J j)) u = mv6 A (comb6 nv J u).
Proof. apply v6_ext; cbn [comb6 lin ang mv6]; rewrite comb3_add, !comb3_mv; reflexivity. Qed.

Lemma d_classical : is_d3 (fun t => classical (k t)) s
  (let Vq := actinv_motion jMf (comb6 nv (v_dq (k s)) dq) in
   let V := add6 Vq (comb6 nv (fJf (k s)) dv) in
   let A := add6 (actinv_motion jMf (comb6 nv (a_dq (k s)) dq)) (actinv_motion jMf (comb6 nv (a_dv (k s)) dv)) in
   add3 (lin A) (add3 (cross (ang V) (lin (vel (k s)))) (cross (ang (vel (k s))) (lin V)))).
Proof.
  destruct (mv_v _ _ _ _ _ _ M) as [Vl Va], (mv_a _ _ _ _ _ _ M) as [Al Aa].
  unfold classical. apply d3add; [exact Al|]. exact (d3cross _ _ s _ _ Va Vl).
Qed.
Lemma d_dp pref : is_d3 (fun t => dp_local pref (k t)) s (add3 (lin w) (cross (dp_local pref (k s)) (ang w))).
Proof.
  unfold dp_local, oRf.
  eapply d3eq; [exact (d3_to (fun t => rot (oMf (k t))) (fun t => sub3 (trans (oMf (k t))) pref) s _ _ (mv_R _ _ _ _ _ _ M)
    (d3sub _ _ s _ _ (mv_p _ _ _ _ _ _ M) (d3const pref s)))|].
  cbv beta. f_equal. rewrite mv_sub, (rot_inv_l F); [|exact (mv_rot _ _ _ _ _ _ M)]. v3r.
Qed.

(** The 3d part common to 1d and 3d contacts. *)
Lemma d_a0_local g0 g1 pref : is_d3 (fun t => a0_local g0 g1 pref (k t)) s
  (add3 (comb3 nv (da0_local_dq jMf g0 g1 pref (k s)) dq) (comb3 nv (da0_local_dv jMf g1 (k s)) dv)).
Proof.
  eapply d3eq.
  - unfold a0_local. apply d3when; [apply d3when|].
    + exact d_classical.
    + apply d3scal. exact (d_dp pref).
    + apply d3scal. exact (proj1 (mv_v _ _ _ _ _ _ M)).
  - unfold da0_local_dq, da0_local_dv, fXj. cbv zeta.
    rewrite !comb3_when, !comb3_scal, !comb3_sub, !comb3_add, !comb3_mv.
    rewrite !comb3_lin_actinv, comb3_lin_actinv', comb3_ang_actinv, !mv_skew.
    change (comb3 nv (fun j => lin (fJf (k s) j)) dq) with (lin w).
    change (comb3 nv (fun j => ang (fJf (k s) j)) dq) with (ang w).
    change (comb3 nv (fun j => lin (fJf (k s) j)) dv) with (lin (comb6 nv (fJf (k s)) dv)).
    change (comb3 nv (fun j => ang (fJf (k s) j)) dv) with (ang (comb6 nv (fJf (k s)) dv)).
    generalize (actinv_motion jMf (comb6 nv (a_dq (k s)) dq)) (actinv_motion jMf (comb6 nv (a_dv (k s)) dv))
      (actinv_motion jMf (comb6 nv (v_dq (k s)) dq)) w (comb6 nv (fJf (k s)) dv) (vel (k s)) (dp_local pref (k s)).
    clear. intros [[] []] [[] []] [[] []] [[] []] [[] []] [[] []] []. cbv zeta.
    unfold when. destruct (Req_EM_T g0 0), (Req_EM_T g1 0); apply v3_ext; v3u; ring.
Qed.

Lemma comb3_skew n A J u : comb3 n (fun j => mv (mm (skew A) F) (ang (J j))) u = cross A (mv F (ang (comb6 n J u))).
Proof. rewrite comb3_mv, mv_mm, mv_skew. reflexivity. Qed.

(** Bringing a local quantity to the world. *)
Lemma d_world f dl dr : is_d3 f s (add3 (comb3 nv dl dq) (comb3 nv dr dv)) ->
  is_d3 (fun t => mv (rot (oMf (k t))) (f t)) s
    (add3 (comb3 nv (fun j => sub3 (mv F (dl j)) (mv (mm (skew (mv F (f s))) F) (ang (fJf (k s) j)))) dq)
          (comb3 nv (fun j => mv F (dr j)) dv)).
Proof.
  intro H. eapply d3eq; [exact (d3_from (fun t => rot (oMf (k t))) f s _ _ (mv_R _ _ _ _ _ _ M) H)|].
  rewrite comb3_sub, comb3_skew, !comb3_mv, !mv_add, (rot_cross F) by exact (mv_rot _ _ _ _ _ _ M).
  generalize (mv F (comb3 nv dl dq)) (mv F (comb3 nv dr dv)) (mv F (ang w)) (mv F (f s)). clear.
  intros [] [] [] []. v3r.
Qed.

Lemma d_a03 type g0 g1 xref : is_d3 (fun t => a03 type g0 g1 xref (k t)) s
  (add3 (comb3 nv (da03_dq type jMf g0 g1 xref (k s)) dq) (comb3 nv (da03_dv type jMf g1 (k s)) dv)).
Proof.
  pose proof (d_a0_local g0 g1 xref) as H.
  destruct type; cbn [a03 da03_dq da03_dv]; [exact H| |]; exact (d_world _ _ _ H).
Qed.

Lemma c3_comb n J u : c3 (comb3 n J u) = rsum n (fun j => c3 (J j) * u j).
Proof. reflexivity. Qed.
Lemma rsum_c3_mv n A J u : rsum n (fun j => c3 (mv A (J j)) * u j) = c3 (mv A (comb3 n J u)).
Proof. rewrite <- comb3_mv. reflexivity. Qed.

Lemma d_a01 type g0 g1 xref Ra : rotation Ra -> is_derive (fun t => a01 type g0 g1 xref Ra (k t)) s
  (rsum nv (fun j => da01_dq type jMf g0 g1 xref Ra (k s) j * dq j) +
   rsum nv (fun j => da01_dv type jMf g1 Ra (k s) j * dv j)).
Proof.
  intro HR. pose proof (d_a0_local g0 g1 (pref1 xref Ra)) as H.
  assert (L : is_derive (fun t => c3 (mv Ra (a0_local g0 g1 (pref1 xref Ra) (k t)))) s
    (rsum nv (fun j => c3 (mv Ra (da0_local_dq jMf g0 g1 (pref1 xref Ra) (k s) j)) * dq j) +
     rsum nv (fun j => c3 (mv Ra (da0_local_dv jMf g1 (k s) j)) * dv j))).
  { rewrite !rsum_c3_mv. destruct (d3mvc Ra _ s _ H) as (_ & _ & C).
    eapply deq; [exact C|]. rewrite mv_add. reflexivity. }
  assert (G : is_derive (fun t => c3 (mv (mm Ra (oRf (k t))) (a0_local g0 g1 (pref1 xref Ra) (k t)))) s
    (rsum nv (fun j => (c3 (mv (mm Ra (oRf (k s))) (da0_local_dq jMf g0 g1 (pref1 xref Ra) (k s) j)) -
       c3 (mv (mm (mm (skew (mv (mm Ra (oRf (k s))) (a0_local g0 g1 (pref1 xref Ra) (k s)))) Ra) (oRf (k s)))
          (ang (fJf (k s) j)))) * dq j) +
     rsum nv (fun j => c3 (mv (mm Ra (oRf (k s))) (da0_local_dv jMf g1 (k s) j)) * dv j))).
  { rewrite rsum_c3_mv.
    rewrite (rsum_ext nv _ (fun j => c3 (mv (mm Ra (oRf (k s))) (da0_local_dq jMf g0 g1 (pref1 xref Ra) (k s) j)) * dq j -
      c3 (mv (mm (mm (skew (mv (mm Ra (oRf (k s))) (a0_local g0 g1 (pref1 xref Ra) (k s)))) Ra) (oRf (k s)))
          (ang (fJf (k s) j))) * dq j)) by (intros; ring).
    rewrite rsum_minus, !rsum_c3_mv.
    destruct (d3mvc Ra _ s _ (d3_from (fun t => rot (oMf (k t))) _ s _ _ (mv_R _ _ _ _ _ _ M) H)) as (_ & _ & C).
    cbv beta in C. eapply deq; [eapply dext; [|exact C]|].
    - intro t. cbv beta. now rewrite mv_mm.
    - change (comb3 nv (fun j => ang (fJf (k s) j)) dq) with (ang w). rewrite !mv_mm. unfold oRf.
      rewrite !mv_add, !mv_skew, (rot_cross F) by exact (mv_rot _ _ _ _ _ _ M).
      rewrite (rot_cross Ra) by exact HR.
      generalize (mv Ra (mv F (comb3 nv (da0_local_dq jMf g0 g1 (pref1 xref Ra) (k s)) dq)))
        (mv Ra (mv F (comb3 nv (da0_local_dv jMf g1 (k s)) dv))) (mv Ra (mv F (ang w)))
        (mv Ra (mv F (a0_local g0 g1 (pref1 xref Ra) (k s)))). clear.
      intros [] [] [] []. v3u. ring. }
  destruct type; cbn [a01 da01_dq da01_dv]; [exact L|exact G|exact G].
Qed.

(** The 2d contact drops the y components of the orientation in the position term. *)
Lemma d_a02 g0 g1 xref :
  (g0 <> 0 -> c2 (row1 F) * c2 (lin w) = 0 /\ c2 (row3 F) * c2 (lin w) = 0) ->
  is_d2 (fun t => a02 g0 g1 xref (k t)) s
    (add2 (comb2 nv (da02_dq jMf g0 g1 (k s)) dq) (comb2 nv (da02_dv jMf g1 (k s)) dv)).
Proof.
  intro Hy.
  destruct d_classical as (K1 & _ & K3), (mv_p _ _ _ _ _ _ M) as (P1 & _ & P3), (proj1 (mv_v _ _ _ _ _ _ M)) as (W1 & _ & W3).
  assert (Q : is_d2 (fun t => xz (classical (k t))) s
    (add2 (comb2 nv (da02_dq jMf 0 0 (k s)) dq) (comb2 nv (da02_dv jMf 0 (k s)) dv))).
  { unfold da02_dq, da02_dv, when2. destruct (Req_EM_T 0 0) as [_|N]; [|now elim N].
    unfold comb2, add2, is_d2, xz. cbn [fst snd].
    assert (E : forall (row : m3 -> v3) (c : v3 -> R),
      (forall A a, dot3 (row A) a = c (mv A a)) -> (forall a b, c (add3 a b) = c a + c b) -> (forall a b, c (sub3 a b) = c a - c b) ->
      (forall n J u, c (comb3 n J u) = rsum n (fun j => c (J j) * u j)) ->
      rsum nv (fun j => (c (lin (actinv_motion jMf (a_dq (k s) j))) +
        dot3 (row (skew (ang (vel (k s))))) (lin (actinv_motion jMf (v_dq (k s) j))) -
        dot3 (row (skew (lin (vel (k s))))) (ang (actinv_motion jMf (v_dq (k s) j)))) * dq j) +
      rsum nv (fun j => (c (lin (actinv_motion jMf (a_dv (k s) j))) +
        dot3 (row (skew (ang (vel (k s))))) (lin (fJf (k s) j)) -
        dot3 (row (skew (lin (vel (k s))))) (ang (fJf (k s) j))) * dv j) =
      c (add3 (comb3 nv (fun j => sub3 (add3 (lin (actinv_motion jMf (a_dq (k s) j)))
               (mv (skew (ang (vel (k s)))) (lin (actinv_motion jMf (v_dq (k s) j)))))
               (mv (skew (lin (vel (k s)))) (ang (actinv_motion jMf (v_dq (k s) j))))) dq)
              (comb3 nv (fun j => sub3 (add3 (lin (actinv_motion jMf (a_dv (k s) j)))
               (mv (skew (ang (vel (k s)))) (lin (fJf (k s) j))))
               (mv (skew (lin (vel (k s)))) (ang (fJf (k s) j)))) dv))).
    { intros row c H1 H2 H3 H4. rewrite H2, !H4. f_equal; apply rsum_ext; intros; rewrite !H1, H3, H2; reflexivity. }
    split.
    - rewrite (E row1 c1) by reflexivity. eapply deq; [exact K1|]. clear K1 K3 P1 P3 W1 W3 E Hy.
      rewrite !comb3_sub, !comb3_add, !comb3_mv, !comb3_lin_actinv, comb3_lin_actinv', comb3_ang_actinv, !mv_skew.
      change (comb3 nv (fun j => lin (fJf (k s) j)) dv) with (lin (comb6 nv (fJf (k s)) dv)).
      change (comb3 nv (fun j => ang (fJf (k s) j)) dv) with (ang (comb6 nv (fJf (k s)) dv)).
      generalize (actinv_motion jMf (comb6 nv (a_dq (k s)) dq)) (actinv_motion jMf (comb6 nv (a_dv (k s)) dv))
        (actinv_motion jMf (comb6 nv (v_dq (k s)) dq)) (comb6 nv (fJf (k s)) dv) (vel (k s)).
      clear. intros [[] []] [[] []] [[] []] [[] []] [[] []]. v3u. ring.
    - rewrite (E row3 c3) by reflexivity. eapply deq; [exact K3|]. clear K1 K3 P1 P3 W1 W3 E Hy.
      rewrite !comb3_sub, !comb3_add, !comb3_mv, !comb3_lin_actinv, comb3_lin_actinv', comb3_ang_actinv, !mv_skew.
      change (comb3 nv (fun j => lin (fJf (k s) j)) dv) with (lin (comb6 nv (fJf (k s)) dv)).
      change (comb3 nv (fun j => ang (fJf (k s) j)) dv) with (ang (comb6 nv (fJf (k s)) dv)).
      generalize (actinv_motion jMf (comb6 nv (a_dq (k s)) dq)) (actinv_motion jMf (comb6 nv (a_dv (k s)) dv))
        (actinv_motion jMf (comb6 nv (v_dq (k s)) dq)) (comb6 nv (fJf (k s)) dv) (vel (k s)).
      clear. intros [[] []] [[] []] [[] []] [[] []] [[] []]. v3u. ring. }
  assert (D2 : forall g f h a b a' b', is_d2 f s (add2 a b) -> (g <> 0 -> is_d2 h s (add2 a' b')) ->
    is_d2 (fun t => when2 g (f t) (h t)) s (add2 (when2 g a a') (when2 g b b'))).
  { clear. intros g f h a b a' b' [X Y] Z. unfold when2. destruct (Req_EM_T g 0) as [e|ne]; [split; assumption|].
    destruct (Z ne) as [X' Y']. unfold add2 in *. split; cbn [fst snd] in *.
    - eapply deq; [exact (dplus _ _ s _ _ X X')|ring].
    - eapply deq; [exact (dplus _ _ s _ _ Y Y')|ring]. }
  assert (CW : forall g J K u, comb2 nv (fun j => when2 g (J j) (K j)) u = when2 g (comb2 nv J u) (comb2 nv K u)).
  { clear. intros. unfold when2. destruct (Req_EM_T g 0); [reflexivity|].
    unfold comb2, add2. cbn [fst snd]. f_equal; rewrite <- rsum_plus; apply rsum_ext; intros; ring. }
  assert (W0 : forall a b, when2 0 a b = a).
  { intros. unfold when2. destruct (Req_EM_T 0 0) as [_|N]; [reflexivity|now elim N]. }
  set (Jp := fun j => (g0 * (c1 (row1 F) * fst (Jc2 (k s) j) + c3 (row1 F) * snd (Jc2 (k s) j)),
                       g0 * (c1 (row3 F) * fst (Jc2 (k s) j) + c3 (row3 F) * snd (Jc2 (k s) j)))).
  set (Jv := fun j => (g1 * c1 (lin (actinv_motion jMf (v_dq (k s) j))), g1 * c3 (lin (actinv_motion jMf (v_dq (k s) j))))).
  set (Jw := fun j => (g1 * c1 (lin (actinv_motion jMf (a_da (k s) j))), g1 * c3 (lin (actinv_motion jMf (a_da (k s) j))))).
  assert (Eq : comb2 nv (da02_dq jMf g0 g1 (k s)) dq = when2 g1 (when2 g0 (comb2 nv (da02_dq jMf 0 0 (k s)) dq) (comb2 nv Jp dq)) (comb2 nv Jv dq)).
  { rewrite <- !CW. assert (X : forall j, da02_dq jMf g0 g1 (k s) j = when2 g1 (when2 g0 (da02_dq jMf 0 0 (k s) j) (Jp j)) (Jv j)).
    { intro j. unfold da02_dq, Jp, Jv. cbv zeta. rewrite !W0. reflexivity. }
    unfold comb2. f_equal; apply rsum_ext; intros; now rewrite X. }
  assert (Ev : comb2 nv (da02_dv jMf g1 (k s)) dv = when2 g1 (when2 g0 (comb2 nv (da02_dv jMf 0 (k s)) dv) (0, 0)) (comb2 nv Jw dv)).
  { assert (Z : when2 g0 (comb2 nv (da02_dv jMf 0 (k s)) dv) (0, 0) = comb2 nv (da02_dv jMf 0 (k s)) dv).
    { unfold when2, add2. destruct (Req_EM_T g0 0); [reflexivity|]. unfold comb2. cbn [fst snd]. f_equal; ring. }
    rewrite Z, <- CW. assert (X : forall j, da02_dv jMf g1 (k s) j = when2 g1 (da02_dv jMf 0 (k s) j) (Jw j)).
    { intro j. unfold da02_dv, Jw. cbv zeta. rewrite !W0. reflexivity. }
    unfold comb2. f_equal; apply rsum_ext; intros; now rewrite X. }
  rewrite Eq, Ev. unfold a02. apply D2; [apply D2|].
  - exact Q.
  - intro ne. destruct (Hy ne) as [y1 y3]. unfold is_d2, comb2, add2, Jp, Jc2, xz. cbn [fst snd].
    assert (S : forall a b, rsum nv (fun j => g0 * (a * c1 (lin (fJf (k s) j)) + b * c3 (lin (fJf (k s) j))) * dq j) =
      g0 * (a * c1 (lin w) + b * c3 (lin w))).
    { intros. cbn [comb6 lin comb3 c1 c3]. rewrite <- !rsum_scal, <- rsum_plus, <- rsum_scal. apply rsum_ext; intros; ring. }
    rewrite !S. split.
    + eapply deq; [exact (dscal g0 (fun t => c1 (trans (oMf (k t))) - fst xref) s _ (dminus _ _ s _ _ P1 (dconst (fst xref) s)))|].
      unfold mv, dot3. cbn [c1]. rewrite y1. ring.
    + eapply deq; [exact (dscal g0 (fun t => c3 (trans (oMf (k t))) - snd xref) s _ (dminus _ _ s _ _ P3 (dconst (snd xref) s)))|].
      unfold mv, dot3. cbn [c3]. rewrite y3. ring.
  - intros _. unfold is_d2, comb2, add2, Jv, Jw. cbn [fst snd].
    assert (S1 : rsum nv (fun j => g1 * c1 (lin (actinv_motion jMf (v_dq (k s) j))) * dq j) =
      g1 * c1 (lin (actinv_motion jMf (comb6 nv (v_dq (k s)) dq)))).
    { rewrite <- comb3_lin_actinv. cbn [comb3 c1]. rewrite <- rsum_scal. apply rsum_ext; intros; ring. }
    assert (S3 : rsum nv (fun j => g1 * c3 (lin (actinv_motion jMf (v_dq (k s) j))) * dq j) =
      g1 * c3 (lin (actinv_motion jMf (comb6 nv (v_dq (k s)) dq)))).
    { rewrite <- comb3_lin_actinv. cbn [comb3 c3]. rewrite <- rsum_scal. apply rsum_ext; intros; ring. }
    assert (T1 : rsum nv (fun j => g1 * c1 (lin (actinv_motion jMf (a_da (k s) j))) * dv j) =
      g1 * c1 (lin (comb6 nv (fJf (k s)) dv))).
    { cbn [comb6 lin comb3 c1]. rewrite <- rsum_scal. apply rsum_ext; intros. rewrite (mv_da _ _ _ _ _ _ M) by assumption. ring. }
    assert (T3 : rsum nv (fun j => g1 * c3 (lin (actinv_motion jMf (a_da (k s) j))) * dv j) =
      g1 * c3 (lin (comb6 nv (fJf (k s)) dv))).
    { cbn [comb6 lin comb3 c3]. rewrite <- rsum_scal. apply rsum_ext; intros. rewrite (mv_da _ _ _ _ _ _ M) by assumption. ring. }
    rewrite S1, S3, T1, T3. split.
    + eapply deq; [exact (dscal g1 _ s _ W1)|]. cbn [add6 lin add3 c1]. ring.
    + eapply deq; [exact (dscal g1 _ s _ W3)|]. cbn [add6 lin add3 c3]. ring.
Qed.

(** 6d contacts *)
Lemma d_rMf log6 Jlog6 pref : log6_contract log6 Jlog6 (rMf pref (k s)) ->
  is_d6 (fun t => log6 (rMf pref (k t))) s (mv6 (Jlog6 (rMf pref (k s))) w).
Proof.
  intro H. apply (H (fun t => rMf pref (k t)) s w eq_refl).
  - unfold rMf, actinv_se3. cbn [rot]. rewrite mm_assoc.
    pose proof (dmt _ _ _ (mv_R _ _ _ _ _ _ M)) as D. set (E := mm F (skew (ang w))) in *.
    assert (X : forall r, is_d3 (fun t => mv (mt (rot (oMf (k t)))) r) s (mv (mt E) r)).
    { intro r. eapply d3eq; [exact (d3mv _ _ s _ _ D (d3const r s))|]. v3r. }
    split; [|split]; cbn [mm row1 row2 row3]; apply X.
  - unfold rMf, actinv_se3. cbn [rot trans]. rewrite mv_mm.
    eapply d3eq; [exact (d3mvc (mt (rot pref)) _ s _ (d3sub _ _ s _ _ (mv_p _ _ _ _ _ _ M) (d3const (trans pref) s)))|].
    f_equal. v3r.
Qed.
Lemma d_a06_local log6 Jlog6 g0 g1 pref : (g0 <> 0 -> log6_contract log6 Jlog6 (rMf pref (k s))) ->
  is_d6 (fun t => a06_local log6 g0 g1 pref (k t)) s
    (add6 (comb6 nv (da06_local_dq Jlog6 jMf g0 g1 pref (k s)) dq) (comb6 nv (da06_local_dv jMf g1 (k s)) dv)).
Proof.
  intro HL. unfold a06_local, da06_local_dq, da06_local_dv. cbv zeta.
  rewrite !comb6_when, !comb6_scal, comb6_mv6, !comb6_actinv.
  pose proof (mv_v _ _ _ _ _ _ M) as V. pose proof (mv_a _ _ _ _ _ _ M) as A.
  destruct (Req_EM_T g0 0) as [e|ne].
  - assert (W0 : forall a b, when6 g0 a b = a) by (intros; unfold when6; destruct (Req_EM_T g0 0); [reflexivity|contradiction]).
    eapply d6eq; [apply d6when; [|apply d6scal; exact V]|].
    + eapply d6eq; [|reflexivity]. unfold is_d6. rewrite (W0 (add6 _ _) (scal6 0 z6)) || idtac.
      instantiate (1 := add6 (actinv_motion jMf (comb6 nv (a_dq (k s)) dq)) (actinv_motion jMf (comb6 nv (a_dv (k s)) dv))).
      destruct A as [A1 A2]. split; (eapply d3ext; [|eassumption]); intro t; cbv beta; now rewrite W0.
    + rewrite W0. unfold when6. destruct (Req_EM_T g1 0); [reflexivity|].
      generalize (actinv_motion jMf (comb6 nv (a_dq (k s)) dq)) (actinv_motion jMf (comb6 nv (a_dv (k s)) dv))
        (actinv_motion jMf (comb6 nv (v_dq (k s)) dq)) (comb6 nv (fJf (k s)) dv).
      clear. intros [[] []] [[] []] [[] []] [[] []]. v6r.
  - eapply d6eq; [apply d6when; [apply d6when; [exact A|apply d6scal; exact (d_rMf _ _ _ (HL ne))]|apply d6scal; exact V]|].
    unfold when6. destruct (Req_EM_T g0 0); [contradiction|].
    generalize (actinv_motion jMf (comb6 nv (a_dq (k s)) dq)) (actinv_motion jMf (comb6 nv (a_dv (k s)) dv))
      (actinv_motion jMf (comb6 nv (v_dq (k s)) dq)) (comb6 nv (fJf (k s)) dv) (mv6 (Jlog6 (rMf pref (k s))) w).
    clear. intros [[] []] [[] []] [[] []] [[] []] [[] []]. destruct (Req_EM_T g1 0); v6r.
Qed.
Lemma d_world6 f dl dr : is_d6 f s (add6 (comb6 nv dl dq) (comb6 nv dr dv)) ->
  is_d6 (fun t => rot6 (rot (oMf (k t))) (f t)) s
    (add6 (comb6 nv (fun j => V6
        (sub3 (mv F (lin (dl j))) (mv (mm (skew (mv F (lin (f s)))) F) (ang (fJf (k s) j))))
        (sub3 (mv F (ang (dl j))) (mv (mm (skew (mv F (ang (f s)))) F) (ang (fJf (k s) j))))) dq)
      (comb6 nv (fun j => rot6 F (dr j)) dv)).
Proof.
  intros [A B]. split; cbn [rot6 lin ang add6 comb6].
  - exact (d_world (fun t => lin (f t)) (fun j => lin (dl j)) (fun j => lin (dr j)) A).
  - exact (d_world (fun t => ang (f t)) (fun j => ang (dl j)) (fun j => ang (dr j)) B).
Qed.
Lemma d_a06 log6 Jlog6 type g0 g1 pref : (g0 <> 0 -> log6_contract log6 Jlog6 (rMf pref (k s))) ->
  is_d6 (fun t => a06 log6 type g0 g1 pref (k t)) s
    (add6 (comb6 nv (da06_dq log6 Jlog6 type jMf g0 g1 pref (k s)) dq) (comb6 nv (da06_dv type jMf g1 (k s)) dv)).
Proof.
  intro HL. pose proof (d_a06_local log6 Jlog6 g0 g1 pref HL) as H.
  destruct type; cbn [a06 da06_dq da06_dv]; [exact H| |]; exact (d_world6 _ _ _ H).
Qed.

(** Impulses: only the position dependence of the velocity is asked for. *)
Lemma comb3_0 n J : comb3 n J (fun _ => 0) = z3.
Proof. apply v3_ext; cbn [comb3 c1 c2 c3 z3]; apply rsum_0; intros; ring. Qed.
Lemma comb6_0 n J : comb6 n J (fun _ => 0) = z6.
Proof. apply v6_ext; cbn [comb6 lin ang z6]; apply comb3_0. Qed.
Lemma add6_z a : add6 a z6 = a.
Proof. v6r. Qed.
Lemma add3_z a : add3 a z3 = a.
Proof. v3r. Qed.
Lemma d_v0 : (forall j, (j < nv)%nat -> dv j = 0) ->
  is_d6 (fun t => vel (k t)) s (comb6 nv (fun j => actinv_motion jMf (v_dq (k s) j)) dq).
Proof.
  intro Z. eapply d6eq; [exact (mv_v _ _ _ _ _ _ M)|].
  rewrite <- comb6_actinv. rewrite <- (add6_z (comb6 nv (fun j => actinv_motion jMf (v_dq (k s) j)) dq)) at 2.
  f_equal. rewrite <- (comb6_0 nv (fJf (k s))).
  apply v6_ext; apply v3_ext; cbn [comb6 lin ang comb3 c1 c2 c3]; apply rsum_ext; intros; rewrite Z by assumption; ring.
Qed.
Lemma d_world_q f dl : is_d3 f s (comb3 nv dl dq) ->
  is_d3 (fun t => mv (rot (oMf (k t))) (f t)) s
    (comb3 nv (fun j => sub3 (mv F (dl j)) (mv (mm (skew (mv F (f s))) F) (ang (fJf (k s) j)))) dq).
Proof.
  intro H. eapply d3eq; [apply (d_world f dl (fun _ => z3)); eapply d3eq; [exact H|]|].
  - rewrite comb3_z, add3_z. reflexivity.
  - rewrite comb3_mv, comb3_z. v3r.
Qed.
Lemma d_v03 type : (forall j, (j < nv)%nat -> dv j = 0) ->
  is_d3 (fun t => v03 type (k t)) s (comb3 nv (dv03_dq type jMf (k s)) dq).
Proof.
  intro Z. destruct (d_v0 Z) as [A _].
  destruct type; cbn [v03 dv03_dq]; [exact A| |]; exact (d_world_q _ _ A).
Qed.
Lemma d_v06 type : type <> WORLD -> (forall j, (j < nv)%nat -> dv j = 0) ->
  is_d6 (fun t => v06 type (k t)) s (comb6 nv (dv06_dq type jMf (k s)) dq).
Proof.
  intros T Z. destruct (d_v0 Z) as [A B].
  destruct type; cbn [v06 dv06_dq]; [split; assumption|contradiction|].
  split; cbn [rot6 lin ang comb6 frame_velocity].
  - exact (d_world_q _ _ A).
  - exact (d_world_q _ _ B).
Qed.
End P.

(** ** Forces *)
Lemma power jMf f m : dot6 (act_force jMf f) m = dot6 f (actinv_motion jMf m).
Proof. destruct jMf as [[[] [] []] []], f as [[] []], m as [[] []]. v3u. ring. Qed.

Section Force.
Context (jMf : se3) (k : kin) (Jj : nat -> v6) (HJ : forall j, fJf k j = actinv_motion jMf (Jj j)).
Lemma torque3 type force j : dot6 (fext3 type jMf k force) (Jj j) = dot3 force (Jc3 type k j).
Proof.
  destruct type; cbn [fext3 Jc3]; rewrite power, <- HJ; unfold f3, f3_local, dot6; cbn [lin ang];
    rewrite ?dot3_mt; unfold oRf; generalize (fJf k j); intros [[] []]; v3u; ring.
Qed.
Lemma torque6 type force j : dot6 (fext6 type jMf k force) (Jj j) = dot6 force (Jc6 type k j).
Proof.
  destruct type; cbn [fext6 Jc6]; rewrite power, <- HJ; [reflexivity| |];
    unfold f6_local, dot6, rot6; cbn [lin ang]; rewrite !dot3_mt; reflexivity.
Qed.
Lemma col3_ez A : col3 A = mv A ez.
Proof. v3r. Qed.
Lemma torque1 type Ra force j : dot6 (fext1 type jMf Ra k force) (Jj j) = force * Jc1 type Ra k j.
Proof.
  assert (E : forall A a, c3 (mv A a) = dot3 (mv (mt A) ez) a) by (intros; v3u; ring).
  destruct type; cbn [fext1 Jc1]; rewrite E.
  - cbv zeta. rewrite HJ, col3_ez.
    replace (scal3 force (mv (mm (rot jMf) (mt Ra)) ez)) with (mv (rot jMf) (scal3 force (mv (mt Ra) ez)))
      by (rewrite mv_scal, mv_mm; reflexivity).
    replace (V6 (mv (rot jMf) (scal3 force (mv (mt Ra) ez))) (cross (trans jMf) (mv (rot jMf) (scal3 force (mv (mt Ra) ez)))))
      with (act_force jMf (V6 (scal3 force (mv (mt Ra) ez)) z3)).
    2:{ unfold act_force. cbn [lin ang]. f_equal. generalize (cross (trans jMf) (mv (rot jMf) (scal3 force (mv (mt Ra) ez)))).
        intros []. v3r. }
    rewrite power. unfold dot6. cbn [lin ang]. generalize (actinv_motion jMf (Jj j)) (mv (mt Ra) ez). intros [[] []] []. v3u. ring.
  - rewrite power, <- HJ. unfold f1_local, dot6. cbn [lin ang]. rewrite col3_ez, mt_mm.
    generalize (fJf k j) (mv (mm (mt (oRf k)) (mt Ra)) ez). intros [[] []] []. v3u. ring.
  - rewrite power, <- HJ. unfold f1_local, dot6. cbn [lin ang]. rewrite col3_ez, mt_mm.
    generalize (fJf k j) (mv (mm (mt (oRf k)) (mt Ra)) ez). intros [[] []] []. v3u. ring.
Qed.
Lemma torque2 force j : dot6 (fext2 jMf force) (Jj j) = fst force * fst (Jc2 k j) + snd force * snd (Jc2 k j).
Proof.
  unfold Jc2, xz. cbn [fst snd]. rewrite HJ. destruct jMf as [[[] [] []] []]. generalize (Jj j). intros [[] []].
  unfold fext2. cbv zeta. v3u. ring.
Qed.
End Force.

(** The part of the torque derivative due to the rotation of a force given in world axes. *)
Section ForceDiff.
Context (nv : nat) (jMf : se3) (k : R -> kin) (s : R) (dq dv : vec) (M : moves nv jMf k s dq dv).
Context (Jj : nat -> v6) (HJ : forall j, fJf (k s) j = actinv_motion jMf (Jj j)).
Notation w := (comb6 nv (fJf (k s)) dq).
Notation F := (rot (oMf (k s))).
Lemma d_flocal c : is_d3 (fun t => mv (mt (rot (oMf (k t)))) c) s (mv (skew (mv (mt F) c)) (ang w)).
Proof.
  eapply d3eq; [exact (d3_to (fun t => rot (oMf (k t))) _ s _ _ (mv_R _ _ _ _ _ _ M) (d3const c s))|].
  cbv beta. rewrite mv_skew. generalize (cross (mv (mt F) c) (ang w)). intros []. v3r.
Qed.
Lemma rsum_dtau a n A (J : nat -> v6) u : rsum n (fun j => - dot3 a (mv A (ang (J j))) * u j) = - dot3 a (mv A (ang (comb6 n J u))).
Proof.
  transitivity (- dot3 (comb3 n (fun j => mv A (ang (J j))) u) a).
  - rewrite dot3_comb. replace (- rsum n (fun j => dot3 (mv A (ang (J j))) a * u j)) with
      (-1 * rsum n (fun j => dot3 (mv A (ang (J j))) a * u j)) by ring.
    rewrite <- rsum_scal. apply rsum_ext. intros. unfold dot3. ring.
  - rewrite comb3_mv. cbn [comb6 ang]. unfold dot3. ring.
Qed.
Lemma ddotc a f t d : is_d3 f t d -> is_derive (fun x => dot3 (f x) a) t (dot3 d a).
Proof. intro H. eapply deq; [exact (ddot3 _ _ t _ _ H (d3const a t))|]. v3u. ring. Qed.
Lemma dotz a : dot3 z3 a = 0. Proof. v3u; ring. Qed.
Lemma dtau3_ok type force i : is_derive (fun t => - dot6 (fext3 type jMf (k t) force) (Jj i)) s
  (rsum nv (fun j => dtau3 type (k s) force i j * dq j)).
Proof.
  assert (G : is_derive (fun t => - dot6 (act_force jMf (f3_local (k t) force)) (Jj i)) s
    (rsum nv (fun j => - dot3 (lin (fJf (k s) i)) (mv (skew (lin (f3_local (k s) force))) (ang (fJf (k s) j))) * dq j))).
  { rewrite rsum_dtau. apply dopp. apply (dext (fun t => dot6 (f3_local (k t) force) (fJf (k s) i))); [intro t; rewrite power, <- HJ; reflexivity|].
    unfold f3_local, dot6, oRf. cbn [lin ang].
    eapply deq; [eapply dext; [|exact (ddotc (lin (fJf (k s) i)) _ s _ (d_flocal force))]|].
    - intro t. cbv beta. rewrite dotz. ring.
    - unfold dot3. ring. }
  destruct type; cbn [fext3 dtau3]; [|exact G|exact G].
  rewrite rsum_0 by (intros; ring). apply dconst.
Qed.
Lemma dtau1_ok type Ra force i : is_derive (fun t => - dot6 (fext1 type jMf Ra (k t) force) (Jj i)) s
  (rsum nv (fun j => dtau1 type Ra (k s) force i j * dq j)).
Proof.
  assert (E : forall t, lin (f1_local Ra (k t) force) = mv (mt (rot (oMf (k t)))) (scal3 force (mv (mt Ra) ez))).
  { intro t. unfold f1_local, oRf. cbn [lin]. rewrite col3_ez, mv_mm, mv_scal. reflexivity. }
  assert (G : is_derive (fun t => - dot6 (act_force jMf (f1_local Ra (k t) force)) (Jj i)) s
    (rsum nv (fun j => - dot3 (lin (fJf (k s) i)) (mv (skew (lin (f1_local Ra (k s) force))) (ang (fJf (k s) j))) * dq j))).
  { rewrite rsum_dtau, E. apply dopp. apply (dext (fun t => dot6 (f1_local Ra (k t) force) (fJf (k s) i))); [intro t; rewrite power, <- HJ; reflexivity|].
    unfold dot6.
    eapply deq; [eapply dext; [|exact (ddotc (lin (fJf (k s) i)) _ s _ (d_flocal (scal3 force (mv (mt Ra) ez))))]|].
    - intro t. cbv beta. rewrite E. unfold f1_local. cbn [ang]. rewrite dotz. ring.
    - unfold dot3. ring. }
  destruct type; cbn [fext1 dtau1]; [|exact G|exact G].
  rewrite rsum_0 by (intros; ring). apply dconst.
Qed.
Lemma dtau6_ok type force i : is_derive (fun t => - dot6 (fext6 type jMf (k t) force) (Jj i)) s
  (rsum nv (fun j => dtau6 type (k s) force i j * dq j)).
Proof.
  assert (G : is_derive (fun t => - dot6 (act_force jMf (f6_local (k t) force)) (Jj i)) s
    (rsum nv (fun j => - dot6 (fJf (k s) i) (V6 (mv (skew (lin (f6_local (k s) force))) (ang (fJf (k s) j)))
        (mv (skew (ang (f6_local (k s) force))) (ang (fJf (k s) j)))) * dq j))).
  { rewrite (rsum_ext nv _ (fun j => - dot3 (lin (fJf (k s) i)) (mv (skew (lin (f6_local (k s) force))) (ang (fJf (k s) j))) * dq j +
      - dot3 (ang (fJf (k s) i)) (mv (skew (ang (f6_local (k s) force))) (ang (fJf (k s) j))) * dq j)).
    2:{ intros. unfold dot6. cbn [lin ang]. ring. }
    rewrite rsum_plus, !rsum_dtau. apply (dext (fun t => - dot6 (f6_local (k t) force) (fJf (k s) i))); [intro t; rewrite power, <- HJ; reflexivity|].
    unfold dot6, f6_local, rot6, oRf. cbn [lin ang].
    eapply deq; [apply dopp, dplus; (eapply ddotc; apply d_flocal)|]. unfold dot3. ring. }
  destruct type; cbn [fext6 dtau6]; [|exact G|exact G].
  rewrite rsum_0 by (intros; ring). apply dconst.
Qed.
End ForceDiff.
