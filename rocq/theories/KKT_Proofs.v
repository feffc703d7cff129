(** Lemmas for C28: entries of the KKT matrix by stage, and its product with a vector. *)
From Coq Require Import Reals Lra Lia Arith Bool.
From Verif Require Import Deriv VecMat KKT_Model.
Open Scope R_scope.

Lemma ib_true o n i : (o <= i)%nat -> (i < o + n)%nat -> ib o n i = true.
Proof. intros. unfold ib. apply andb_true_intro. split; [now apply Nat.leb_le|now apply Nat.ltb_lt]. Qed.
Lemma ib_false o n i : (i < o)%nat \/ (o + n <= i)%nat -> ib o n i = false.
Proof. intros [H|H]; unfold ib; [apply andb_false_intro1; now apply Nat.leb_gt|apply andb_false_intro2; now apply Nat.ltb_ge]. Qed.

Section Positions.
Variables (T nd : nat) (nu : nat -> nat).
Notation kix := (kix nd). Notation kiu := (kiu nu).
Notation ND := (ndx_ T nd). Notation NU := (nu_ T nu).
Lemma kix_mul t : kix t = (t * nd)%nat.
Proof. induction t; cbn [KKT_Model.kix]; lia. Qed.
Lemma kix_mono a b : (a <= b)%nat -> (kix a <= kix b)%nat.
Proof. rewrite !kix_mul. nia. Qed.
Lemma kiu_mono a b : (a <= b)%nat -> (kiu a <= kiu b)%nat.
Proof. induction 1; cbn [KKT_Model.kiu]; lia. Qed.
Lemma ND_S : ND = kix (S T).
Proof. reflexivity. Qed.
Lemma kix_lt t i : (t <= T)%nat -> (i < nd)%nat -> (kix t + i < ND)%nat.
Proof. intros. pose proof (kix_mono t T ltac:(lia)). unfold ndx_. lia. Qed.
Lemma kiu_lt t j : (t < T)%nat -> (j < nu t)%nat -> (kiu t + j < NU)%nat.
Proof. intros. pose proof (kiu_mono (S t) T ltac:(lia)). cbn [KKT_Model.kiu] in *. unfold nu_. lia. Qed.

(** Position of a coordinate of the unknown: state of node t, control of node t, multiplier t. *)
Inductive pos := PX (t i : nat) | PU (t j : nat) | PL (t i : nat).
Definition valid (p : pos) : Prop := match p with
  | PX t i => (t <= T)%nat /\ (i < nd)%nat | PU t j => (t < T)%nat /\ (j < nu t)%nat | PL t i => (t <= T)%nat /\ (i < nd)%nat end.
Definition at_ (p : pos) : nat := match p with PX t i => kix t + i | PU t j => ND + (kiu t + j) | PL t i => ND + NU + (kix t + i) end%nat.
Definition idx (p : pos) : nat := match p with PX _ i | PU _ i | PL _ i => i end.
Definition isX k p := match p with PX t _ => (t =? k)%nat | _ => false end.
Definition isU k p := match p with PU t _ => (t =? k)%nat | _ => false end.
Definition isL k p := match p with PL t _ => (t =? k)%nat | _ => false end.
Lemma at_lt p : valid p -> (at_ p < ksize T nd nu)%nat.
Proof.
  unfold ksize. destruct p as [t i|t j|t i]; cbn [valid at_]; intros [H1 H2].
  - pose proof (kix_lt t i H1 H2). lia.
  - pose proof (kiu_lt t j H1 H2). lia.
  - pose proof (kix_lt t i H1 H2). lia.
Qed.
Lemma ib_x k p : valid p -> (k <= T)%nat -> ib (kix k) nd (at_ p) = isX k p.
Proof.
  destruct p as [t i|t j|t i]; cbn [valid at_ isX]; intros [H1 H2] Hk.
  - destruct (Nat.eqb_spec t k) as [->|E]; [apply ib_true; lia|]. apply ib_false. rewrite !kix_mul. destruct (Nat.lt_ge_cases t k); [left|right]; nia.
  - apply ib_false. right. pose proof (kix_mono k T Hk). unfold ndx_. lia.
  - apply ib_false. right. pose proof (kix_mono k T Hk). unfold ndx_. lia.
Qed.
Lemma ib_u k p : valid p -> (k < T)%nat -> ib (ND + kiu k) (nu k) (at_ p) = isU k p.
Proof.
  destruct p as [t i|t j|t i]; cbn [valid at_ isU]; intros [H1 H2] Hk.
  - apply ib_false. left. pose proof (kix_lt t i H1 H2). lia.
  - destruct (Nat.eqb_spec t k) as [->|E]; [apply ib_true; lia|]. apply ib_false. destruct (Nat.lt_ge_cases t k) as [L|L]; [left|right].
    + pose proof (kiu_mono (S t) k L). cbn [KKT_Model.kiu] in *. lia.
    + pose proof (kiu_mono (S k) t ltac:(lia)). cbn [KKT_Model.kiu] in *. lia.
  - apply ib_false. right. pose proof (kiu_mono (S k) T ltac:(lia)). cbn [KKT_Model.kiu] in *. unfold nu_. lia.
Qed.
Lemma ib_l k p : valid p -> (k < T)%nat -> ib (ND + NU + nd + kix k) nd (at_ p) = isL (S k) p.
Proof.
  destruct p as [t i|t j|t i]; cbn [valid at_ isL]; intros [H1 H2] Hk.
  - apply ib_false. left. pose proof (kix_lt t i H1 H2). lia.
  - apply ib_false. left. pose proof (kiu_lt t j H1 H2). lia.
  - destruct (Nat.eqb_spec t (S k)) as [->|E]; [apply ib_true; cbn [KKT_Model.kix]; lia|]. apply ib_false. rewrite !kix_mul. destruct (Nat.lt_ge_cases t (S k)); [left|right]; nia.
Qed.
Lemma ib_l0 p : valid p -> ib (ND + NU) nd (at_ p) = isL 0 p.
Proof.
  destruct p as [t i|t j|t i]; cbn [valid at_ isL]; intros [H1 H2].
  - apply ib_false. left. pose proof (kix_lt t i H1 H2). lia.
  - apply ib_false. left. pose proof (kiu_lt t j H1 H2). lia.
  - destruct (Nat.eqb_spec t 0) as [->|E]; [apply ib_true; cbn [KKT_Model.kix]; lia|]. apply ib_false. right. rewrite kix_mul. nia.
Qed.
Lemma at_idx_x k p : isX k p = true -> (at_ p - kix k)%nat = idx p.
Proof. destruct p; cbn [isX at_ idx]; try discriminate. intro H. apply Nat.eqb_eq in H. subst. lia. Qed.
Lemma at_idx_u k p : isU k p = true -> (at_ p - (ND + kiu k))%nat = idx p.
Proof. destruct p; cbn [isU at_ idx]; try discriminate. intro H. apply Nat.eqb_eq in H. subst. lia. Qed.
Lemma at_idx_l k p : isL (S k) p = true -> (at_ p - (ND + NU + nd + kix k))%nat = idx p.
Proof. destruct p; cbn [isL at_ idx]; try discriminate. intro H. apply Nat.eqb_eq in H. subst. cbn [KKT_Model.kix]. lia. Qed.
Lemma at_idx_l0 p : isL 0 p = true -> (at_ p - (ND + NU))%nat = idx p.
Proof. destruct p; cbn [isL at_ idx]; try discriminate. intro H. apply Nat.eqb_eq in H. subst. cbn [KKT_Model.kix]. lia. Qed.

(** The entries written by the loop. *)
Section Data.
Variable d : kdata.
Let S_ t := k_run d t.
Definition written (k : nat) (p q : pos) : option R :=
  match p, q with
  | PX t i, PX s j => if (t =? s)%nat && (t <? k)%nat then Some (k_Lxx (S_ t) i j) else None
  | PX t i, PU s j => if (t =? s)%nat && (t <? k)%nat then Some (k_Lxu (S_ t) i j) else None
  | PU t i, PX s j => if (t =? s)%nat && (t <? k)%nat then Some (k_Lxu (S_ t) j i) else None
  | PU t i, PU s j => if (t =? s)%nat && (t <? k)%nat then Some (k_Luu (S_ t) i j) else None
  | PL t i, PX s j => if (t =? S s)%nat && (s <? k)%nat then Some (- k_Fx (S_ s) i j) else None
  | PL t i, PU s j => if (t =? S s)%nat && (s <? k)%nat then Some (- k_Fu (S_ s) i j) else None
  | _, _ => None end.
Definition or_else (o : option R) (r : R) : R := match o with Some v => v | None => r end.
Lemma ltb_S s k : (s <? S k)%nat = (s =? k)%nat || (s <? k)%nat.
Proof. destruct (Nat.ltb_spec s (S k)), (Nat.eqb_spec s k), (Nat.ltb_spec s k); cbn; auto; lia. Qed.
Lemma loop_fst k M r p q : (k <= T)%nat -> valid p -> valid q -> fst (kloop T nd nu d k (M, r)) (at_ p) (at_ q) = or_else (written k p q) (M (at_ p) (at_ q)).
Proof.
  intros Hk Hp Hq. induction k as [|k IH].
  - cbn [kloop fst]. destruct p, q; cbn [written]; rewrite ?andb_false_r; reflexivity.
  - cbn [kloop]. specialize (IH ltac:(lia)). unfold kstep. destruct (kloop T nd nu d k (M, r)) as [M' r']. cbn [fst] in IH |- *. unfold blk.
    rewrite !ib_x, !ib_u, !ib_l by (auto; lia). rewrite IH.
    destruct p as [t i|t i|t i], q as [s j|s j|s j]; cbn [isX isU isL written]; rewrite ?andb_false_r, ?andb_false_l; cbn [andb]; auto; rewrite ?ltb_S.
    + destruct (Nat.eqb_spec t k) as [->|E1], (Nat.eqb_spec s k) as [->|E2]; cbn [andb orb].
      * rewrite !Nat.eqb_refl. cbn [andb or_else]. rewrite (at_idx_x k (PX k i)), (at_idx_x k (PX k j)) by (cbn; apply Nat.eqb_refl). reflexivity.
      * rewrite (proj2 (Nat.eqb_neq k s)) by auto. reflexivity.
      * rewrite (proj2 (Nat.eqb_neq t k)) by auto. reflexivity.
      * reflexivity.
    + destruct (Nat.eqb_spec t k) as [->|E1], (Nat.eqb_spec s k) as [->|E2]; cbn [andb orb].
      * rewrite !Nat.eqb_refl. cbn [andb or_else]. rewrite (at_idx_x k (PX k i)), (at_idx_u k (PU k j)) by (cbn; apply Nat.eqb_refl). reflexivity.
      * rewrite (proj2 (Nat.eqb_neq k s)) by auto. reflexivity.
      * rewrite (proj2 (Nat.eqb_neq t k)) by auto. reflexivity.
      * reflexivity.
    + destruct (Nat.eqb_spec t k) as [->|E1], (Nat.eqb_spec s k) as [->|E2]; cbn [andb orb].
      * rewrite !Nat.eqb_refl. cbn [andb or_else]. rewrite (at_idx_u k (PU k i)), (at_idx_x k (PX k j)) by (cbn; apply Nat.eqb_refl). reflexivity.
      * rewrite (proj2 (Nat.eqb_neq k s)) by auto. reflexivity.
      * rewrite (proj2 (Nat.eqb_neq t k)) by auto. reflexivity.
      * reflexivity.
    + destruct (Nat.eqb_spec t k) as [->|E1], (Nat.eqb_spec s k) as [->|E2]; cbn [andb orb].
      * rewrite !Nat.eqb_refl. cbn [andb or_else]. rewrite (at_idx_u k (PU k i)), (at_idx_u k (PU k j)) by (cbn; apply Nat.eqb_refl). reflexivity.
      * rewrite (proj2 (Nat.eqb_neq k s)) by auto. reflexivity.
      * rewrite (proj2 (Nat.eqb_neq t k)) by auto. reflexivity.
      * reflexivity.
    + destruct (Nat.eqb_spec s k) as [->|E2].
      * destruct (Nat.eqb_spec t (S k)) as [->|E1]; cbn [andb orb or_else]; auto.
        rewrite (at_idx_l k (PL (S k) i)), (at_idx_x k (PX k j)) by (cbn; apply Nat.eqb_refl). reflexivity.
      * rewrite andb_false_r. reflexivity.
    + destruct (Nat.eqb_spec s k) as [->|E2].
      * destruct (Nat.eqb_spec t (S k)) as [->|E1]; cbn [andb orb or_else]; auto.
        rewrite (at_idx_l k (PL (S k) i)), (at_idx_u k (PU k j)) by (cbn; apply Nat.eqb_refl). reflexivity.
      * rewrite andb_false_r. reflexivity.
Qed.
Definition rwritten (k : nat) (p : pos) : option R :=
  match p with
  | PX t i => if (t <? k)%nat then Some (k_Lx (S_ t) i) else None
  | PU t i => if (t <? k)%nat then Some (k_Lu (S_ t) i) else None
  | PL O i => if (0 <? k)%nat then Some (k_gap0 d i) else None
  | PL (S t) i => if (t <? k)%nat then Some (k_gap (S_ t) i) else None end.
Lemma loop_snd k M r p : (k <= T)%nat -> valid p -> snd (kloop T nd nu d k (M, r)) (at_ p) = or_else (rwritten k p) (r (at_ p)).
Proof.
  intros Hk Hp. induction k as [|k IH].
  - cbn [kloop snd]. destruct p as [| |[|t] i]; reflexivity.
  - cbn [kloop]. specialize (IH ltac:(lia)). unfold kstep. destruct (kloop T nd nu d k (M, r)) as [M' r']. cbn [snd] in IH |- *. unfold sgm.
    rewrite !ib_x, !ib_u, !ib_l by (auto; lia).
    destruct p as [t i|t i|t i]; cbn [isX isU isL rwritten] in IH |- *; rewrite ?ltb_S.
    + destruct (Nat.eqb_spec t k) as [->|E]; cbn [orb or_else].
      * rewrite (at_idx_x k (PX k i)) by (cbn; apply Nat.eqb_refl). reflexivity.
      * rewrite <- IH. destruct (k =? 0)%nat; auto. rewrite ib_l0 by auto. reflexivity.
    + destruct (Nat.eqb_spec t k) as [->|E]; cbn [orb or_else].
      * rewrite (at_idx_u k (PU k i)) by (cbn; apply Nat.eqb_refl). reflexivity.
      * rewrite <- IH. destruct (k =? 0)%nat; auto. rewrite ib_l0 by auto. reflexivity.
    + destruct (Nat.eqb_spec t (S k)) as [->|E]; cbn [orb or_else].
      * rewrite ltb_S, Nat.eqb_refl. cbn [orb or_else]. rewrite (at_idx_l k (PL (S k) i)) by (cbn; apply Nat.eqb_refl). reflexivity.
      * destruct t as [|t].
        -- change (0 <? S k)%nat with true. cbn [or_else]. destruct (Nat.eqb_spec k 0) as [->|E0].
           ++ rewrite ib_l0 by auto. cbn [isL Nat.eqb]. rewrite (at_idx_l0 (PL 0 i)) by reflexivity. reflexivity.
           ++ rewrite IH. rewrite (proj2 (Nat.ltb_lt 0 k)) by lia. now rewrite ?orb_true_r.
        -- rewrite ltb_S, (proj2 (Nat.eqb_neq t k)) by lia. cbn [orb]. rewrite <- IH. destruct (k =? 0)%nat; auto. rewrite ib_l0 by auto. reflexivity.
Qed.

(** The whole matrix. *)
Definition HX (p q : pos) : R := match p, q with
  | PX t i, PX s j => if (t =? s)%nat then (if (t <? T)%nat then k_Lxx (S_ t) i j else k_LxxT d i j) else 0
  | PX t i, PU s j => if (t =? s)%nat then k_Lxu (S_ t) i j else 0
  | PU t i, PX s j => if (t =? s)%nat then k_Lxu (S_ t) j i else 0
  | PU t i, PU s j => if (t =? s)%nat then k_Luu (S_ t) i j else 0
  | _, _ => 0 end.
Definition AX (p q : pos) : R := match p, q with
  | PL t i, PX s j => if (t =? s)%nat then idm i j else if (t =? S s)%nat then - k_Fx (S_ s) i j else 0
  | PL t i, PU s j => if (t =? S s)%nat then - k_Fu (S_ s) i j else 0
  | _, _ => 0 end.
Definition kent (p q : pos) : R := match p, q with
  | PL _ _, PL _ _ => 0
  | PL _ _, _ => AX p q
  | _, PL _ _ => AX q p
  | _, _ => HX p q end.
Definition kref (p : pos) : R := match p with
  | PX t i => if (t <? T)%nat then k_Lx (S_ t) i else k_LxT d i
  | PU t i => k_Lu (S_ t) i
  | PL O i => k_gap0 d i
  | PL (S t) i => k_gap (S_ t) i end.
(** positions never written *)
Definition free (p q : pos) : bool := match p, q with
  | PX t _, PX s _ | PX t _, PU s _ | PU t _, PX s _ | PU t _, PU s _ => negb (t =? s)%nat
  | PL t _, PU s _ => negb (t =? S s)%nat
  | PL _ _, PL _ _ => true
  | _, _ => false end.
Definition clean (M : mat) : Prop := forall p q, valid p -> valid q -> free p q = true -> M (at_ p) (at_ q) = 0.
Lemma ib_xu p : valid p -> ib 0 (ND + NU) (at_ p) = match p with PL _ _ => false | _ => true end.
Proof.
  destruct p as [t i|t j|t i]; cbn [valid at_]; intros [H1 H2]; [apply ib_true|apply ib_true|apply ib_false]; try lia.
  - pose proof (kix_lt t i H1 H2). lia.
  - pose proof (kiu_lt t j H1 H2). lia.
Qed.
Lemma ib_allx p : valid p -> ib 0 ND (at_ p) = match p with PX _ _ => true | _ => false end.
Proof.
  destruct p as [t i|t j|t i]; cbn [valid at_]; intros [H1 H2]; [apply ib_true|apply ib_false|apply ib_false]; try lia.
  pose proof (kix_lt t i H1 H2). lia.
Qed.
Lemma ib_alll p : valid p -> ib (ND + NU) ND (at_ p) = match p with PL _ _ => true | _ => false end.
Proof.
  destruct p as [t i|t j|t i]; cbn [valid at_]; intros [H1 H2]; [apply ib_false|apply ib_false|apply ib_true]; try lia.
  - pose proof (kix_lt t i H1 H2). lia.
  - pose proof (kiu_lt t j H1 H2). lia.
  - pose proof (kix_lt t i H1 H2). lia.
Qed.
Lemma id_at t i s j : (i < nd)%nat -> (j < nd)%nat -> idm (kix t + i)%nat (kix s + j)%nat = if (t =? s)%nat then idm i j else 0.
Proof.
  intros Hi Hj. rewrite !kix_mul. unfold idm. destruct (Nat.eqb_spec t s) as [->|E].
  - destruct (Nat.eqb_spec (s * nd + i) (s * nd + j)), (Nat.eqb_spec i j); auto; lia.
  - destruct (Nat.eqb_spec (t * nd + i) (s * nd + j)); auto. exfalso. assert (t < s \/ s < t)%nat as [H|H] by lia; nia.
Qed.
Lemma calcDiff_ent M r M' r' : kcalcDiff T nd nu d (M, r) = Some (M', r') -> clean M ->
  (forall p q, valid p -> valid q -> M' (at_ p) (at_ q) = kent p q) /\ (forall p, valid p -> r' (at_ p) = kref p).
Proof.
  unfold kcalcDiff. destruct (Nat.eqb_spec T 0) as [|HT]; [discriminate|].
  set (M1 := blk M (ND + NU) 0 ND ND idm). intros H Hc.
  pose proof (fun p q => loop_fst T M1 r p q (Nat.le_refl _)) as L1. pose proof (fun p => loop_snd T M1 r p (Nat.le_refl _)) as L2.
  destruct (kloop T nd nu d T (M1, r)) as [M2 r2]. cbn [fst snd] in L1, L2. injection H as <- <-.
  set (M3 := blk M2 (kix T) (kix T) nd nd (k_LxxT d)).
  assert (G : forall p q, valid p -> valid q -> match q with PL _ _ => False | _ => True end -> M3 (at_ p) (at_ q) = kent p q).
  { intros p q Hp Hq Hl. unfold M3, blk. rewrite !ib_x by auto. rewrite L1 by auto. unfold M1, blk. rewrite ib_alll, ib_allx by auto.
    pose proof (Hc p q Hp Hq) as Hf.
    destruct p as [t i|t i|t i], q as [s j|s j|s j]; try contradiction; cbn [isX andb written kent HX AX free negb] in *; rewrite ?andb_false_r; cbn [valid] in Hp, Hq.
    - destruct (Nat.eqb_spec t s) as [->|E]; cbn [negb andb] in *.
      + destruct (Nat.eqb_spec s T) as [->|E]; cbn [andb].
        * rewrite Nat.ltb_irrefl, (at_idx_x T (PX T i)), (at_idx_x T (PX T j)) by (cbn; apply Nat.eqb_refl). reflexivity.
        * rewrite (proj2 (Nat.ltb_lt s T)) by lia. reflexivity.
      + destruct (Nat.eqb_spec t T), (Nat.eqb_spec s T); cbn [andb or_else]; auto; lia.
    - destruct (Nat.eqb_spec t s) as [->|E]; cbn [negb andb or_else] in *; auto. now rewrite (proj2 (Nat.ltb_lt s T)) by lia.
    - destruct (Nat.eqb_spec t s) as [->|E]; cbn [negb andb or_else] in *; auto. now rewrite (proj2 (Nat.ltb_lt s T)) by lia.
    - destruct (Nat.eqb_spec t s) as [->|E]; cbn [negb andb or_else] in *; auto. now rewrite (proj2 (Nat.ltb_lt s T)) by lia.
    - destruct (Nat.eqb_spec t (S s)) as [->|E]; cbn [andb].
      + rewrite (proj2 (Nat.ltb_lt s T)) by lia. cbn [or_else]. now rewrite (proj2 (Nat.eqb_neq (S s) s)) by lia.
      + cbn [or_else]. replace (at_ (PL t i) - (ND + NU))%nat with (kix t + i)%nat by (cbn [at_]; lia). rewrite Nat.sub_0_r. cbn [at_]. now apply id_at.
    - destruct (Nat.eqb_spec t (S s)) as [->|E]; cbn [negb andb or_else] in *; auto. now rewrite (proj2 (Nat.ltb_lt s T)) by lia. }
  split.
  - intros p q Hp Hq. unfold blk. rewrite ib_xu, ib_alll by auto.
    destruct q as [s j|s j|s j]; try (rewrite andb_false_r; now apply G).
    rewrite andb_true_r. replace (ND + NU + (at_ (PL s j) - (ND + NU)))%nat with (at_ (PL s j)) by (cbn [at_]; lia). rewrite Nat.sub_0_r.
    destruct p as [t i|t i|t i].
    + rewrite G by (auto; exact I). reflexivity.
    + rewrite G by (auto; exact I). reflexivity.
    + unfold M3, blk. rewrite !ib_x by auto. cbn [isX andb]. rewrite L1 by auto. cbn [written or_else]. unfold M1, blk. rewrite ib_alll, ib_allx by auto. cbn [andb]. now apply Hc.
  - intros p Hp. unfold sgm. rewrite ib_x by auto. rewrite L2 by auto. destruct p as [t i|t i|[|t] i]; cbn [isX rwritten kref valid] in *.
    + destruct (Nat.eqb_spec t T) as [->|E].
      * rewrite Nat.ltb_irrefl, (at_idx_x T (PX T i)) by (cbn; apply Nat.eqb_refl). reflexivity.
      * rewrite (proj2 (Nat.ltb_lt t T)) by lia. reflexivity.
    + rewrite (proj2 (Nat.ltb_lt t T)) by lia. reflexivity.
    + rewrite (proj2 (Nat.ltb_lt 0 T)) by lia. reflexivity.
    + rewrite (proj2 (Nat.ltb_lt t T)) by lia. reflexivity.
Qed.
Lemma kent_free p q : valid p -> valid q -> free p q = true -> kent p q = 0.
Proof. destruct p, q; cbn [free kent HX AX]; intros _ _ H; try discriminate; auto; apply negb_true_iff in H; now rewrite H. Qed.
Lemma calcDiff_clean m m' : kcalcDiff T nd nu d m = Some m' -> clean (fst m) -> clean (fst m').
Proof.
  destruct m as [M r], m' as [M' r']. cbn [fst]. intros H Hc. destruct (calcDiff_ent M r M' r' H Hc) as [G _]. intros p q Hp Hq Hf. rewrite G by auto. now apply kent_free.
Qed.
Lemma kent_sym p q : (forall t, (t < T)%nat -> (forall i j, (i < nd)%nat -> (j < nd)%nat -> k_Lxx (S_ t) i j = k_Lxx (S_ t) j i) /\ (forall i j, (i < nu t)%nat -> (j < nu t)%nat -> k_Luu (S_ t) i j = k_Luu (S_ t) j i)) ->
  (forall i j, (i < nd)%nat -> (j < nd)%nat -> k_LxxT d i j = k_LxxT d j i) -> valid p -> valid q -> kent p q = kent q p.
Proof.
  intros HS HT Hp Hq. destruct p as [t i|t i|t i], q as [s j|s j|s j]; cbn [kent HX valid] in *; auto.
  - rewrite (Nat.eqb_sym t s). destruct (Nat.eqb_spec s t) as [->|E]; auto. destruct (Nat.ltb_spec t T); [apply HS; lia|apply HT; lia].
  - rewrite (Nat.eqb_sym t s). destruct (Nat.eqb_spec s t) as [->|E]; auto.
  - rewrite (Nat.eqb_sym t s). destruct (Nat.eqb_spec s t) as [->|E]; auto.
  - rewrite (Nat.eqb_sym t s). destruct (Nat.eqb_spec s t) as [->|E]; auto. apply HS; lia.
Qed.
End Data.

(** Every index is a position, and sums over the indices are sums over the positions. *)
Lemma sum_x f k : rsum (kix k) f = rsum k (fun t => rsum nd (fun i => f (kix t + i)%nat)).
Proof. induction k; [reflexivity|]. cbn [KKT_Model.kix]. rewrite rsum_app, IHk. reflexivity. Qed.
Lemma sum_u f k : rsum (kiu k) f = rsum k (fun t => rsum (nu t) (fun i => f (kiu t + i)%nat)).
Proof. induction k; [reflexivity|]. cbn [KKT_Model.kiu]. rewrite rsum_app, IHk. reflexivity. Qed.
Lemma sum_primal f : rsum (ND + NU) f = rsum (S T) (fun t => rsum nd (fun i => f (at_ (PX t i)))) + rsum T (fun t => rsum (nu t) (fun j => f (at_ (PU t j)))).
Proof. rewrite rsum_app. rewrite ND_S at 1. unfold nu_ at 1. rewrite sum_x, sum_u. reflexivity. Qed.
Lemma sum_all f : rsum (ksize T nd nu) f = rsum (S T) (fun t => rsum nd (fun i => f (at_ (PX t i)))) + rsum T (fun t => rsum (nu t) (fun j => f (at_ (PU t j)))) + rsum (S T) (fun t => rsum nd (fun i => f (at_ (PL t i)))).
Proof.
  unfold ksize. replace (2 * ND + NU)%nat with ((ND + NU) + ND)%nat by lia. rewrite rsum_app, sum_primal.
  assert (E : forall g, rsum ND g = rsum (S T) (fun t => rsum nd (fun i => g (kix t + i)%nat))) by (intro g; exact (sum_x g (S T))). rewrite E. reflexivity.
Qed.
Lemma split_x n k : (n < kix k)%nat -> exists t i, (t < k)%nat /\ (i < nd)%nat /\ n = (kix t + i)%nat.
Proof.
  induction k as [|k IH]; cbn [KKT_Model.kix]; intro H; [lia|]. destruct (Nat.lt_ge_cases n (kix k)) as [L|L].
  - destruct (IH L) as [t [i [H1 [H2 H3]]]]. exists t, i. repeat split; auto; lia.
  - exists k, (n - kix k)%nat. repeat split; lia.
Qed.
Lemma split_u n k : (n < kiu k)%nat -> exists t i, (t < k)%nat /\ (i < nu t)%nat /\ n = (kiu t + i)%nat.
Proof.
  induction k as [|k IH]; cbn [KKT_Model.kiu]; intro H; [lia|]. destruct (Nat.lt_ge_cases n (kiu k)) as [L|L].
  - destruct (IH L) as [t [i [H1 [H2 H3]]]]. exists t, i. repeat split; auto; lia.
  - exists k, (n - kiu k)%nat. repeat split; lia.
Qed.
Lemma is_pos n : (n < ksize T nd nu)%nat -> exists p, valid p /\ n = at_ p.
Proof.
  unfold ksize. intro H. destruct (Nat.lt_ge_cases n ND) as [L|L].
  - destruct (split_x n (S T) L) as [t [i [H1 [H2 H3]]]]. exists (PX t i). cbn. repeat split; auto; lia.
  - destruct (Nat.lt_ge_cases (n - ND) NU) as [L'|L'].
    + destruct (split_u (n - ND) T L') as [t [i [H1 [H2 H3]]]]. exists (PU t i). cbn [valid at_]. repeat split; auto; lia.
    + destruct (split_x (n - ND - NU) (S T) ltac:(rewrite <- ND_S; lia)) as [t [i [H1 [H2 H3]]]]. exists (PL t i). cbn [valid at_]. repeat split; auto; lia.
Qed.
End Positions.

(** Sums with one contributing node. *)
Lemma pick n t (m : nat -> nat) (A z : nat -> nat -> R) :
  rsum n (fun s => rsum (m s) (fun j => (if (t =? s)%nat then A s j else 0) * z s j)) = if (t <? n)%nat then rsum (m t) (fun j => A t j * z t j) else 0.
Proof.
  destruct (Nat.ltb_spec t n) as [L|L].
  - rewrite (rsum_single n t) by (auto; intros s _ Hs; apply rsum_0; intros j _; rewrite (proj2 (Nat.eqb_neq t s)) by auto; ring).
    apply rsum_ext. intros j _. now rewrite Nat.eqb_refl.
  - apply rsum_0. intros s Hs. apply rsum_0. intros j _. rewrite (proj2 (Nat.eqb_neq t s)) by lia. ring.
Qed.
Lemma rsum_zero_mul n (f : nat -> R) : rsum n (fun j => 0 * f j) = 0.
Proof. apply rsum_0. intros. ring. Qed.

Section Rows.
Variables (T nd : nat) (nu : nat -> nat) (d : kdata) (m m' : mat * vec) (z : vec).
Hypothesis Hm : kcalcDiff T nd nu d m = Some m'.
Hypothesis Hc : clean T nd nu (fst m).
Notation kix := (kix nd). Notation kiu := (kiu nu).
Let x := dxs nd z.
Let u := dus T nd nu z.
Let l := lambdas T nd nu z.
Notation at_ := (at_ T nd nu). Notation valid := (valid T nd nu).
Lemma ent p q : valid p -> valid q -> fst m' (at_ p) (at_ q) = kent T d p q.
Proof. destruct m as [M r], m' as [M' r']. cbn [fst] in *. intros. now apply (calcDiff_ent T nd nu d M r M' r'). Qed.
Lemma ref p : valid p -> snd m' (at_ p) = kref T d p.
Proof. destruct m as [M r], m' as [M' r']. cbn [fst snd] in *. intros. now apply (calcDiff_ent T nd nu d M r M' r'). Qed.
Lemma row p : valid p -> mulv (ksize T nd nu) (fst m') z (at_ p) =
  rsum (S T) (fun t => rsum nd (fun i => kent T d p (PX t i) * x t i)) + rsum T (fun t => rsum (nu t) (fun j => kent T d p (PU t j) * u t j)) +
  rsum (S T) (fun t => rsum nd (fun i => kent T d p (PL t i) * l t i)).
Proof.
  intro Hp. unfold mulv. rewrite sum_all. f_equal; [f_equal|]; apply rsum_ext; intros t Ht; apply rsum_ext; intros i Hi; (rewrite ent; [reflexivity|exact Hp|]); cbn; split; auto; lia.
Qed.
Lemma row_h p : valid p -> match p with PL _ _ => False | _ => True end -> mulv (ndx_ T nd + nu_ T nu) (fst m') z (at_ p) =
  rsum (S T) (fun t => rsum nd (fun i => kent T d p (PX t i) * x t i)) + rsum T (fun t => rsum (nu t) (fun j => kent T d p (PU t j) * u t j)).
Proof.
  intros Hp _. unfold mulv. rewrite sum_primal. f_equal; apply rsum_ext; intros t Ht; apply rsum_ext; intros i Hi; (rewrite ent; [reflexivity|exact Hp|]); cbn; split; auto; lia.
Qed.
Definition hx t i : R := if (t <? T)%nat then mulv nd (k_Lxx (k_run d t)) (x t) i + mulv (nu t) (k_Lxu (k_run d t)) (u t) i else mulv nd (k_LxxT d) (x t) i.
Definition hu t j : R := mulv nd (tr (k_Lxu (k_run d t))) (x t) j + mulv (nu t) (k_Luu (k_run d t)) (u t) j.
Definition ax (l : nat -> vec) t i : R := if (t <? T)%nat then l t i - mulv nd (tr (k_Fx (k_run d t))) (l (S t)) i else l t i.
Definition au (l : nat -> vec) t j : R := - mulv nd (tr (k_Fu (k_run d t))) (l (S t)) j.
Lemma part_xx t i : (t <= T)%nat -> (i < nd)%nat ->
  rsum (S T) (fun s => rsum nd (fun j => kent T d (PX t i) (PX s j) * x s j)) + rsum T (fun s => rsum (nu s) (fun j => kent T d (PX t i) (PU s j) * u s j)) = hx t i.
Proof.
  intros Ht Hi. cbn [kent HX]. rewrite (pick (S T) t (fun _ => nd) (fun s j => if (t <? T)%nat then k_Lxx (k_run d t) i j else k_LxxT d i j) x).
  rewrite (pick T t nu (fun s j => k_Lxu (k_run d t) i j) u). rewrite (proj2 (Nat.ltb_lt t (S T))) by lia. unfold hx, mulv. destruct (t <? T)%nat; ring.
Qed.
Lemma part_ux t i : (t < T)%nat -> (i < nu t)%nat ->
  rsum (S T) (fun s => rsum nd (fun j => kent T d (PU t i) (PX s j) * x s j)) + rsum T (fun s => rsum (nu s) (fun j => kent T d (PU t i) (PU s j) * u s j)) = hu t i.
Proof.
  intros Ht Hi. cbn [kent HX]. rewrite (pick (S T) t (fun _ => nd) (fun s j => k_Lxu (k_run d t) j i) x).
  rewrite (pick T t nu (fun s j => k_Luu (k_run d t) i j) u). rewrite (proj2 (Nat.ltb_lt t (S T))), (proj2 (Nat.ltb_lt t T)) by lia. reflexivity.
Qed.
Lemma part_xl t i : (t <= T)%nat -> (i < nd)%nat -> rsum (S T) (fun s => rsum nd (fun j => kent T d (PX t i) (PL s j) * l s j)) = ax l t i.
Proof.
  intros Ht Hi. cbn [kent AX].
  rewrite (rsum_ext (S T) _ (fun s => rsum nd (fun j => (if (t =? s)%nat then idm j i else 0) * l s j) + rsum nd (fun j => (if (S t =? s)%nat then - k_Fx (k_run d t) j i else 0) * l s j))).
  - rewrite rsum_plus, (pick (S T) t (fun _ => nd) (fun s j => idm j i) l), (pick (S T) (S t) (fun _ => nd) (fun s j => - k_Fx (k_run d t) j i) l).
    rewrite (proj2 (Nat.ltb_lt t (S T))) by lia. change (S t <? S T)%nat with (t <? T)%nat.
    assert (E : rsum nd (fun j => idm j i * l t j) = l t i) by (rewrite (rsum_ext nd _ (fun j => l t j * idm j i)) by (intros; ring); now apply rsum_id_r).
    rewrite E. unfold ax, mulv, tr. destruct (t <? T)%nat; [|ring].
    rewrite (rsum_ext nd (fun j => - k_Fx (k_run d t) j i * l (S t) j) (fun j => (-1) * (k_Fx (k_run d t) j i * l (S t) j))) by (intros; ring). rewrite rsum_scal. ring.
  - intros s Hs. rewrite <- rsum_plus. apply rsum_ext. intros j Hj. rewrite (Nat.eqb_sym s t), (Nat.eqb_sym s (S t)).
    destruct (Nat.eqb_spec t s) as [->|E]; [rewrite (proj2 (Nat.eqb_neq (S s) s)) by lia; ring|]. destruct (S t =? s)%nat; ring.
Qed.
Lemma part_ul t i : (t < T)%nat -> (i < nu t)%nat -> rsum (S T) (fun s => rsum nd (fun j => kent T d (PU t i) (PL s j) * l s j)) = au l t i.
Proof.
  intros Ht Hi. cbn [kent AX].
  rewrite (rsum_ext (S T) _ (fun s => rsum nd (fun j => (if (S t =? s)%nat then - k_Fu (k_run d t) j i else 0) * l s j))).
  - rewrite (pick (S T) (S t) (fun _ => nd) (fun s j => - k_Fu (k_run d t) j i) l). change (S t <? S T)%nat with (t <? T)%nat. rewrite (proj2 (Nat.ltb_lt t T)) by lia.
    unfold au, mulv, tr. rewrite (rsum_ext nd (fun j => - k_Fu (k_run d t) j i * l (S t) j) (fun j => (-1) * (k_Fu (k_run d t) j i * l (S t) j))) by (intros; ring). rewrite rsum_scal. ring.
  - intros s Hs. apply rsum_ext. intros j Hj. now rewrite (Nat.eqb_sym s (S t)).
Qed.
Lemma row_x t i : (t <= T)%nat -> (i < nd)%nat -> mulv (ksize T nd nu) (fst m') z (at_ (PX t i)) = hx t i + ax l t i.
Proof. intros Ht Hi. rewrite row by (cbn; auto). now rewrite part_xx, part_xl. Qed.
Lemma row_u t i : (t < T)%nat -> (i < nu t)%nat -> mulv (ksize T nd nu) (fst m') z (at_ (PU t i)) = hu t i + au l t i.
Proof. intros Ht Hi. rewrite row by (cbn; auto). now rewrite part_ux, part_ul. Qed.
Lemma zero_l t i : (i < nd)%nat -> rsum (S T) (fun s => rsum nd (fun j => kent T d (PL t i) (PL s j) * l s j)) = 0.
Proof. intros Hi. cbn [kent]. apply rsum_0. intros. apply rsum_zero_mul. Qed.
Lemma id_l t i : (t <= T)%nat -> (i < nd)%nat -> rsum (S T) (fun s => rsum nd (fun j => (if (t =? s)%nat then idm i j else 0) * x s j)) = x t i.
Proof. intros Ht Hi. rewrite (pick (S T) t (fun _ => nd) (fun s j => idm i j) x). rewrite (proj2 (Nat.ltb_lt t (S T))) by lia. now apply rsum_id_l. Qed.
Lemma row_0 i : (i < nd)%nat -> mulv (ksize T nd nu) (fst m') z (at_ (PL 0 i)) = x 0%nat i.
Proof.
  intros Hi. rewrite row by (cbn; split; auto; lia). rewrite zero_l by auto. cbn [kent AX].
  rewrite (rsum_ext (S T) _ (fun s => rsum nd (fun j => (if (0 =? s)%nat then idm i j else 0) * x s j))) by (intros s _; apply rsum_ext; intros j _; now destruct s).
  rewrite id_l by (auto; lia). rewrite (rsum_0 T); [ring|]. intros s _. apply rsum_zero_mul.
Qed.
Lemma row_l t i : (t < T)%nat -> (i < nd)%nat -> mulv (ksize T nd nu) (fst m') z (at_ (PL (S t) i)) =
  x (S t) i - mulv nd (k_Fx (k_run d t)) (x t) i - mulv (nu t) (k_Fu (k_run d t)) (u t) i.
Proof.
  intros Ht Hi. rewrite row by (cbn; split; auto; lia). rewrite zero_l by auto. cbn [kent AX].
  rewrite (rsum_ext (S T) _ (fun s => rsum nd (fun j => (if (S t =? s)%nat then idm i j else 0) * x s j) + rsum nd (fun j => (if (t =? s)%nat then - k_Fx (k_run d s) i j else 0) * x s j))).
  - rewrite rsum_plus, id_l by (auto; lia). rewrite (pick (S T) t (fun _ => nd) (fun s j => - k_Fx (k_run d s) i j) x).
    rewrite (rsum_ext T _ (fun s => rsum (nu s) (fun j => (if (t =? s)%nat then - k_Fu (k_run d s) i j else 0) * u s j))) by reflexivity.
    rewrite (pick T t nu (fun s j => - k_Fu (k_run d s) i j) u). rewrite (proj2 (Nat.ltb_lt t (S T))), (proj2 (Nat.ltb_lt t T)) by lia. unfold mulv.
    rewrite (rsum_ext nd (fun j => - k_Fx (k_run d t) i j * x t j) (fun j => (-1) * (k_Fx (k_run d t) i j * x t j))) by (intros; ring).
    rewrite (rsum_ext (nu t) (fun j => - k_Fu (k_run d t) i j * u t j) (fun j => (-1) * (k_Fu (k_run d t) i j * u t j))) by (intros; ring).
    rewrite !rsum_scal. ring.
  - intros s Hs. rewrite <- rsum_plus. apply rsum_ext. intros j Hj. change (S t =? S s)%nat with (t =? s)%nat.
    destruct (Nat.eqb_spec (S t) s) as [<-|E]; [rewrite (proj2 (Nat.eqb_neq t (S t))) by lia; ring|]. destruct (t =? s)%nat; ring.
Qed.
(** dF *)
Lemma dF_loop_x (L : nat -> vec) v k t i : (k <= T)%nat -> (t < k)%nat -> (i < nd)%nat -> kdF_loop T nd nu d L k v (at_ (PX t i)) = L t i - mulv nd (tr (k_Fx (k_run d t))) (L (S t)) i.
Proof.
  intros Hk Ht Hi. induction k as [|k IH]; [lia|]. cbn [kdF_loop]. unfold kdF_step. unfold sgm at 1. rewrite ib_u by (auto; cbn; lia). cbn [isU].
  unfold sgm at 1. rewrite ib_x by (cbn; lia). cbn [isX]. destruct (Nat.eqb_spec t k) as [->|E].
  - rewrite (at_idx_x T nd nu k (PX k i)) by (cbn; apply Nat.eqb_refl). cbn [idx]. unfold sgm. rewrite ib_true by lia. now replace (kix k + i - kix k)%nat with i by lia.
  - unfold sgm. rewrite ib_x by (cbn; lia). cbn [isX]. rewrite (proj2 (Nat.eqb_neq t k)) by auto. apply IH; lia.
Qed.
Lemma dF_loop_u (L : nat -> vec) v k t i : (k <= T)%nat -> (t < k)%nat -> (i < nu t)%nat -> kdF_loop T nd nu d L k v (at_ (PU t i)) = au L t i.
Proof.
  intros Hk Ht Hi. induction k as [|k IH]; [lia|]. cbn [kdF_loop]. unfold kdF_step. unfold sgm at 1. rewrite ib_u by (auto; cbn; lia). cbn [isU].
  destruct (Nat.eqb_spec t k) as [->|E].
  - rewrite (at_idx_u T nd nu k (PU k i)) by (cbn; apply Nat.eqb_refl). cbn [idx]. unfold au, mulv, tr. f_equal. apply rsum_ext. intros. ring.
  - unfold sgm. rewrite !ib_x by (cbn; lia). cbn [isX]. apply IH; lia.
Qed.
Lemma dF_x (L : nat -> vec) v t i : (t <= T)%nat -> (i < nd)%nat -> kdF T nd nu d L v (at_ (PX t i)) = ax L t i.
Proof.
  intros Ht Hi. unfold kdF, sgm, ax. rewrite ib_x by (cbn; auto). cbn [isX]. destruct (Nat.eqb_spec t T) as [->|E].
  - rewrite (at_idx_x T nd nu T (PX T i)) by (cbn; apply Nat.eqb_refl). now rewrite Nat.ltb_irrefl.
  - rewrite (proj2 (Nat.ltb_lt t T)) by lia. apply dF_loop_x; auto; lia.
Qed.
Lemma dF_u (L : nat -> vec) v t i : (t < T)%nat -> (i < nu t)%nat -> kdF T nd nu d L v (at_ (PU t i)) = au L t i.
Proof. intros Ht Hi. unfold kdF, sgm. rewrite ib_x by (cbn; auto). cbn [isX]. now apply dF_loop_u. Qed.
End Rows.
