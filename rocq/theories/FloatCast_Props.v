(** * C129: numbers and integrated models survive a cast

    Specification.  [holds f x] says that the value [x] exists in the format
    [f] and [below] is the order of the
    extended numbers. *)

From Coq Require Import Reals ZArith List Bool Lra Lia Psatz.
From Flocq Require Import Core Relative.
From Verif Require Import FloatCast_Model.
Import ListNotations.
Open Scope R_scope.

(** A value of the format: [m * 2^e] with few enough digits and an exponent in
    range, stated without the rounding function. *)
Definition holds (f : format) (x : fp) : Prop :=
  match x with
  | FFin r =>
      exists m e : Z,
        r = IZR m * bpow radix2 e /\
        (Z.abs m < 2 ^ f_prec f)%Z /\
        (f_emin f <= e)%Z /\
        Rabs r < bpow radix2 (f_emax f)
  | _ => True
  end.

Definition below (x y : fp) : Prop :=
  match x, y with
  | FNan, _ | _, FNan => False
  | FInf true, _ => True
  | _, FInf false => True
  | FFin a, FFin b => a <= b
  | _, _ => False
  end.

(** Every number of a model exists in the format. *)
Definition model_holds (f : format) (m : imodel) : Prop :=
  holds f (i_dt m) /\
  Forall (holds f) (d_lb (i_diff m)) /\ Forall (holds f) (d_ub (i_diff m)).

(** ** Facts about the formats *)

Definition good (f : format) : Prop := (1 < f_prec f)%Z /\ (f_prec f < f_emax f)%Z.

Lemma good32 : good float32. Proof. split; cbn; lia. Qed.
Lemma good64 : good float64. Proof. split; cbn; lia. Qed.

Lemma prec_pos f : good f -> Prec_gt_0 (f_prec f).
Proof. intros [h _]. unfold Prec_gt_0. lia. Qed.

Lemma holds_format f r : good f ->
  holds f (FFin r) <->
  generic_format radix2 (FLT_exp (f_emin f) (f_prec f)) r /\
  Rabs r < bpow radix2 (f_emax f).
Proof.
  intros g. pose proof (prec_pos f g) as hp. split.
  - intros (m & e & hr & hm & he & hb). split; [|exact hb].
    apply generic_format_FLT. exists (Float radix2 m e).
    + rewrite hr. reflexivity.
    + cbn [Fnum]. exact hm.
    + cbn [Fexp]. exact he.
  - intros [hg hb]. apply FLT_format_generic in hg; [|exact hp].
    destruct hg as [[m e] h1 h2 h3]. exists m, e.
    split; [exact h1|]. split; [exact h2|]. split; [exact h3|exact hb].
Qed.

Lemma round_holds f r : good f -> holds f (FFin r) -> f_round f r = r.
Proof.
  intros g h. apply holds_format in h; [|exact g].
  apply round_generic; [apply valid_rnd_N|exact (proj1 h)].
Qed.

(** A value of the format is not changed by the cast to it. *)
Lemma cast_holds f x : good f -> holds f x -> scalar_cast f x = x.
Proof.
  intros g h. destruct x as [|n|r]; try reflexivity.
  unfold scalar_cast. rewrite (round_holds f r g h).
  destruct (Rlt_dec (Rabs r) (bpow radix2 (f_emax f))) as [_|n]; [reflexivity|].
  apply holds_format in h; [|exact g]. destruct n. exact (proj2 h).
Qed.

(** The result of a cast is a value of the format. *)
Lemma holds_cast f x : good f -> holds f (scalar_cast f x).
Proof.
  intros g. destruct x as [|n|r]; [exact I|exact I|].
  unfold scalar_cast.
  destruct (Rlt_dec (Rabs (f_round f r)) (bpow radix2 (f_emax f))) as [h|_]; [|exact I].
  apply holds_format; [exact g|]. split; [|exact h].
  pose proof (prec_pos f g) as hp.
  apply generic_format_round; [apply FLT_exp_valid; exact hp|apply valid_rnd_N].
Qed.

Lemma holds_wider x : holds float32 x -> holds float64 x.
Proof.
  destruct x as [|n|r]; try (intros _; exact I).
  intros (m & e & h1 & h2 & h3 & h4). exists m, e.
  split; [exact h1|].
  split; [cbn [f_prec float32 float64] in *; lia|].
  split; [unfold f_emin in *; cbn [f_prec f_emax float32 float64] in *; lia|].
  eapply Rlt_trans; [exact h4|]. apply bpow_lt. cbn. lia.
Qed.

Lemma vec_holds f v : good f -> Forall (holds f) v -> vec_cast f v = v.
Proof.
  intros g h. unfold vec_cast. induction h as [|x v hx _ IH]; [reflexivity|].
  cbn [map]. rewrite (cast_holds f x g hx), IH. reflexivity.
Qed.

Lemma vec_holds_cast f v : good f -> Forall (holds f) (vec_cast f v).
Proof.
  intros g. unfold vec_cast. induction v as [|x v IH]; constructor.
  - exact (holds_cast f x g).
  - exact IH.
Qed.

Lemma vec_wider v : Forall (holds float32) v -> Forall (holds float64) v.
Proof. intros h. eapply Forall_impl; [|exact h]. exact holds_wider. Qed.

Lemma round_mono f a b : good f -> a <= b -> f_round f a <= f_round f b.
Proof.
  intros g h. pose proof (prec_pos f g) as hp.
  apply round_le; [apply FLT_exp_valid; exact hp|apply valid_rnd_N|exact h].
Qed.

Lemma round_zero f : f_round f 0 = 0.
Proof. unfold f_round. apply round_0. apply valid_rnd_N. Qed.

Lemma round_pos f a : good f -> 0 <= a -> 0 <= f_round f a.
Proof. intros g h. rewrite <- (round_zero f). apply round_mono; assumption. Qed.

Lemma round_neg f a : good f -> a <= 0 -> f_round f a <= 0.
Proof. intros g h. rewrite <- (round_zero f). apply round_mono; assumption. Qed.

(** ** Exactness *)

(** Every value of [float] is the same number as a [double]. *)
Theorem C129_widen : forall x,
  holds float32 x -> scalar_cast float64 x = x /\ holds float64 x.
Proof.
  intros x h. pose proof (holds_wider x h) as hw.
  split; [exact (cast_holds float64 x good64 hw)|exact hw].
Qed.

(** Going from [float] to [double] and back changes nothing, for numbers,
    vectors and whole vectors of limits. *)
Theorem C129_roundtrip : forall v,
  Forall (holds float32) v -> vec_cast float32 (vec_cast float64 v) = v.
Proof.
  intros v h.
  rewrite (vec_holds float64 v good64 (vec_wider v h)).
  exact (vec_holds float32 v good32 h).
Qed.

(** The copy in [float] of any double vector holds numbers of [float]; casting
    it further, to either type, changes nothing more. *)
Theorem C129_stable : forall v,
  Forall (holds float32) (vec_cast float32 v) /\
  vec_cast float32 (vec_cast float32 v) = vec_cast float32 v /\
  vec_cast float64 (vec_cast float32 v) = vec_cast float32 v.
Proof.
  intros v. pose proof (vec_holds_cast float32 v good32) as h.
  split; [exact h|]. split.
  - exact (vec_holds float32 _ good32 h).
  - exact (vec_holds float64 _ good64 (vec_wider _ h)).
Qed.

(** ** Order *)

Lemma cast_below f x y : good f -> below x y -> below (scalar_cast f x) (scalar_cast f y).
Proof.
  intros g h. pose proof (bpow_gt_0 radix2 (f_emax f)) as hb.
  destruct x as [|n|a]; [destruct h| |].
  - destruct y as [|n'|b]; [destruct n; destruct h| |].
    + destruct n, n'; try exact I; destruct h.
    + destruct n; [|destruct h]. cbn [scalar_cast].
      unfold scalar_cast. destruct (Rlt_dec (Rabs (f_round f b)) _); exact I.
  - destruct y as [|n'|b]; [destruct h| |].
    + destruct n'; [destruct h|].
      unfold scalar_cast at 1. destruct (Rlt_dec (Rabs (f_round f a)) _); [exact I|].
      destruct (Rlt_dec a 0); exact I.
    + cbn [below] in h. pose proof (round_mono f a b g h) as hm.
      unfold scalar_cast.
      destruct (Rlt_dec (Rabs (f_round f a)) (bpow radix2 (f_emax f))) as [ha|ha];
      destruct (Rlt_dec (Rabs (f_round f b)) (bpow radix2 (f_emax f))) as [hb'|hb'].
      * exact hm.
      * destruct (Rlt_dec b 0) as [hn|hn]; [|exact I]. exfalso. apply hb'.
        pose proof (round_neg f b g ltac:(lra)) as h1.
        apply Rabs_lt. apply Rabs_lt_inv in ha. lra.
      * destruct (Rlt_dec a 0) as [hn|hn]; [exact I|]. exfalso. apply ha.
        pose proof (round_pos f a g ltac:(lra)) as h1.
        apply Rabs_lt. apply Rabs_lt_inv in hb'. lra.
      * destruct (Rlt_dec a 0) as [hn|hn]; [exact I|].
        destruct (Rlt_dec b 0) as [hn'|hn']; [lra|exact I].
Qed.

(** Lower limits stay below upper limits, component by component, in any
    vectors and for either type. *)
Theorem C129_order : forall f lb ub,
  f = float32 \/ f = float64 ->
  Forall2 below lb ub -> Forall2 below (vec_cast f lb) (vec_cast f ub).
Proof.
  intros f lb ub hf h.
  assert (g : good f) by (destruct hf as [-> | ->]; [exact good32|exact good64]).
  unfold vec_cast. induction h as [|x y lb ub hxy _ IH]; constructor.
  - exact (cast_below f x y g hxy).
  - exact IH.
Qed.

(** ** Accuracy *)

(** Away from underflow and overflow, the number in [float] differs from the
    one in [double] by a relative error of at most [2^-24]. *)
Theorem C129_accuracy_partial : forall r,
  / 2 ^ 126 <= Rabs r <= 2 ^ 127 ->
  exists y, scalar_cast float32 (FFin r) = FFin y /\
            Rabs (y - r) <= / 2 ^ 24 * Rabs r.
Proof.
  intros r [h1 h2].
  assert (e1 : bpow radix2 (f_emin float32 + f_prec float32 - 1) = / 2 ^ 126).
  { change (f_emin float32 + f_prec float32 - 1)%Z with (- (126))%Z.
    rewrite bpow_opp, <- (IZR_Zpower radix2 126) by lia.
    change (2 ^ 126) with (IZR 2 ^ 126). rewrite pow_IZR. reflexivity. }
  assert (e2 : bpow radix2 127 = 2 ^ 127).
  { rewrite <- (IZR_Zpower radix2 127) by lia.
    change (2 ^ 127) with (IZR 2 ^ 127). rewrite pow_IZR. reflexivity. }
  pose proof (prec_pos float32 good32) as hp.
  assert (hr : Rabs (f_round float32 r - r) <= / 2 ^ 24 * Rabs r).
  { pose proof (relative_error_N_FLT radix2 (f_emin float32) (f_prec float32) hp
                  (fun x => negb (Z.even x)) r) as h.
    rewrite e1 in h. specialize (h h1).
    assert (e3 : / 2 * bpow radix2 (- f_prec float32 + 1) = / 2 ^ 24).
    { change (- f_prec float32 + 1)%Z with (- (23))%Z.
      rewrite bpow_opp, <- (IZR_Zpower radix2 23) by lia.
      change (Zpower radix2 23) with 8388608%Z. lra. }
    rewrite e3 in h. exact h. }
  assert (hb : Rabs (f_round float32 r) < bpow radix2 (f_emax float32)).
  { change (f_emax float32) with (127 + 1)%Z. rewrite bpow_plus, e2.
    change (bpow radix2 1) with 2.
    assert (hpos : 0 < 2 ^ 127) by (apply pow_lt; lra).
    assert (h3 : Rabs (f_round float32 r) <= Rabs (f_round float32 r - r) + Rabs r).
    { replace (f_round float32 r) with ((f_round float32 r - r) + r) at 1 by ring.
      apply Rabs_triang. }
    assert (h4 : / 2 ^ 24 <= / 2) by lra.
    assert (h5 : / 2 ^ 24 * Rabs r <= / 2 * Rabs r).
    { apply Rmult_le_compat_r; [apply Rabs_pos|exact h4]. }
    lra. }
  exists (f_round float32 r). split; [|exact hr].
  unfold scalar_cast. destruct (Rlt_dec _ _) as [_|n]; [reflexivity|].
  destruct n. exact hb.
Qed.

(** ** Integrated models *)

Lemma cast_nonneg f x : good f -> fp_ltb x (FFin 0) = false ->
  fp_ltb (scalar_cast f x) (FFin 0) = false.
Proof.
  intros g h. destruct x as [|n|r]; [reflexivity|exact h|].
  cbn [fp_ltb] in h. destruct (Rlt_dec r 0) as [|hn]; [discriminate|].
  unfold scalar_cast.
  destruct (Rlt_dec (Rabs (f_round f r)) _) as [ha|ha].
  - cbn [fp_ltb]. destruct (Rlt_dec (f_round f r) 0) as [h0|]; [|reflexivity].
    pose proof (round_pos f r g ltac:(lra)). lra.
  - destruct (Rlt_dec r 0); [contradiction|reflexivity].
Qed.

Lemma thousandth f : good f -> fp_ltb (scalar_cast f (FFin (/ 1000))) (FFin 0) = false.
Proof.
  intros g. apply cast_nonneg; [exact g|]. cbn [fp_ltb].
  destruct (Rlt_dec (/ 1000) 0); [lra|reflexivity].
Qed.

Lemma dt_kept os : forall m, fp_ltb (i_dt m) (FFin 0) = false ->
  fp_ltb (i_dt (iruns os m)) (FFin 0) = false /\
  i_diff (iruns os m) = i_diff m /\
  i_kind (iruns os m) = i_kind m /\ i_wcr (iruns os m) = i_wcr m.
Proof.
  induction os as [|o os IH]; intros m h; [repeat split; exact h|].
  cbn [iruns].
  set (m' := match iapply o m with Some m' => m' | None => m end).
  assert (hm : fp_ltb (i_dt m') (FFin 0) = false /\ i_diff m' = i_diff m /\
               i_kind m' = i_kind m /\ i_wcr m' = i_wcr m).
  { unfold m'. destruct o as [dt|v|v]; cbn [iapply].
    - unfold set_dt. destruct (fp_ltb dt (FFin 0)) eqn:e; [repeat split; exact h|].
      cbn. repeat split. exact e.
    - unfold set_u_lb. destruct (Nat.eqb _ _); cbn; repeat split; exact h.
    - unfold set_u_ub. destruct (Nat.eqb _ _); cbn; repeat split; exact h. }
  destruct hm as (h1 & h2 & h3 & h4).
  destruct (IH m' h1) as (g1 & g2 & g3 & g4).
  rewrite g2, g3, g4, h2, h3, h4. repeat split. exact g1.
Qed.

Lemma built_nonneg f d k dt w : good f ->
  fp_ltb (i_dt (integrated f d k dt w)) (FFin 0) = false.
Proof.
  intros g. cbn [integrated i_dt].
  destruct (fp_ltb dt (FFin 0)) eqn:e; [exact (thousandth f g)|exact e].
Qed.

(** Whatever the history of an integrated model, the cast has the cast of its
    time step (the warning branch of the constructor is never taken), its
    scheme, its flag and the cast limits of its differential model. *)
Theorem C129_settings : forall f g d k dt w os,
  (f = float32 \/ f = float64) -> (g = float32 \/ g = float64) ->
  let m := iruns os (integrated f d k dt w) in
  let c := integrated_cast g m in
  i_dt c = scalar_cast g (i_dt m) /\ i_kind c = k /\ i_wcr c = w /\
  i_lb c = vec_cast g (d_lb d) /\ i_ub c = vec_cast g (d_ub d) /\
  d_lb (i_diff c) = vec_cast g (d_lb d) /\ d_ub (i_diff c) = vec_cast g (d_ub d).
Proof.
  intros f g d k dt w os hf hg m c.
  assert (gf : good f) by (destruct hf as [-> | ->]; [exact good32|exact good64]).
  assert (gg : good g) by (destruct hg as [-> | ->]; [exact good32|exact good64]).
  destruct (dt_kept os (integrated f d k dt w) (built_nonneg f d k dt w gf))
    as (h1 & h2 & h3 & h4).
  fold m in h1, h2, h3, h4. unfold c, integrated_cast.
  rewrite h2, h3, h4. cbn [integrated i_dt i_kind i_wcr i_lb i_ub i_diff diff_cast d_lb d_ub].
  rewrite (cast_nonneg g (i_dt m) gg h1). repeat split.
Qed.

(** A [float] model whose control limits are those of its differential model
    comes back identical from [double]. *)
Theorem C129_model_partial : forall d k dt w os,
  let m := iruns os (integrated float32 d k dt w) in
  model_holds float32 m -> i_lb m = d_lb d -> i_ub m = d_ub d ->
  integrated_cast float32 (integrated_cast float64 m) = m.
Proof.
  intros d k dt w os m (h1 & h2 & h3) hl hu.
  destruct (dt_kept os (integrated float32 d k dt w)
              (built_nonneg float32 d k dt w good32)) as (q1 & q2 & q3 & q4).
  fold m in q1, q2, q3, q4. cbn [integrated i_diff i_kind i_wcr] in q2, q3, q4.
  rewrite q2 in h2, h3.
  assert (e1 : scalar_cast float64 (i_dt m) = i_dt m) by apply (C129_widen _ h1).
  assert (e2 : scalar_cast float32 (i_dt m) = i_dt m) by apply (cast_holds _ _ good32 h1).
  unfold integrated_cast. cbn [integrated i_diff i_kind i_wcr i_dt].
  rewrite e1, q1, e2, q2. unfold diff_cast. cbn [d_lb d_ub].
  rewrite (C129_roundtrip _ h2), (C129_roundtrip _ h3).
  unfold integrated. rewrite q1. cbn [d_lb d_ub].
  destruct m as [md mk mdt mw ml mu]; cbn in *. subst. destruct d; reflexivity.
Qed.

(** ** What is lost *)

Lemma tiny : f_round float32 (bpow radix2 (-151)) = 0.
Proof.
  unfold f_round. pose proof (prec_pos float32 good32) as hp.
  apply (round_N_small_pos radix2 (FLT_exp (f_emin float32) (f_prec float32))
           (fun x => negb (Z.even x)) (bpow radix2 (-151)) (-150)).
  - split; [right; reflexivity|apply bpow_lt; lia].
  - unfold FLT_exp, f_emin. cbn. lia.
Qed.

(** A positive time step of a double model can become zero: the cast model no
    longer moves. *)
Theorem C129_positive_refuted :
  exists d k dt w,
    let m := integrated float64 d k dt w in
    holds float64 dt /\ fp_ltb (FFin 0) (i_dt m) = true /\
    i_dt (integrated_cast float32 m) = FFin 0.
Proof.
  exists {| d_lb := []; d_ub := [] |}, Euler, (FFin (bpow radix2 (-151))), false.
  cbn zeta. pose proof (bpow_gt_0 radix2 (-151)) as hp.
  assert (hn : fp_ltb (FFin (bpow radix2 (-151))) (FFin 0) = false).
  { cbn [fp_ltb]. destruct (Rlt_dec _ 0); [lra|reflexivity]. }
  split.
  - exists 1%Z, (-151)%Z. split; [ring|]. split; [cbn; lia|].
    split; [unfold f_emin; cbn; lia|]. rewrite Rabs_pos_eq by lra.
    apply bpow_lt. cbn. lia.
  - unfold integrated_cast, integrated at 1. cbn [i_dt]. rewrite hn. split.
    + cbn [fp_ltb]. destruct (Rlt_dec 0 _); [reflexivity|contradiction].
    + unfold integrated. cbn [i_dt]. rewrite hn.
      assert (e : scalar_cast float32 (FFin (bpow radix2 (-151))) = FFin 0).
      { unfold scalar_cast. rewrite tiny, Rabs_R0.
        destruct (Rlt_dec 0 _) as [_|n]; [reflexivity|]. destruct n. apply bpow_gt_0. }
      rewrite e. cbn [fp_ltb]. destruct (Rlt_dec 0 0); [lra|reflexivity].
Qed.

(** A finite limit can become infinite. *)
Theorem C129_finite_refuted :
  exists r, holds float64 (FFin r) /\ scalar_cast float32 (FFin r) = FInf false /\
            scalar_cast float32 (FFin (- r)) = FInf true.
Proof.
  exists (bpow radix2 128). pose proof (bpow_gt_0 radix2 128) as hp.
  assert (e : forall s, Rabs s = 1 -> f_round float32 (s * bpow radix2 128) = s * bpow radix2 128).
  { intros s hs. unfold f_round. apply round_generic; [apply valid_rnd_N|].
    apply generic_format_FLT.
    assert (hz : exists z : Z, s = IZR z /\ (Z.abs z < 2 ^ 24)%Z).
    { unfold Rabs in hs. destruct (Rcase_abs s).
      - exists (-1)%Z. split; [lra|cbn; lia].
      - exists 1%Z. split; [lra|cbn; lia]. }
    destruct hz as (z & hz & hz'). exists (Float radix2 z 128).
    - rewrite hz. reflexivity.
    - exact hz'.
    - unfold f_emin. cbn. lia. }
  split; [|split].
  - exists 1%Z, 128%Z. split; [ring|]. split; [cbn; lia|].
    split; [unfold f_emin; cbn; lia|]. rewrite Rabs_pos_eq by lra.
    apply bpow_lt. cbn. lia.
  - assert (e1 : f_round float32 (bpow radix2 128) = bpow radix2 128).
    { pose proof (e 1 ltac:(rewrite Rabs_pos_eq; lra)) as h.
      rewrite Rmult_1_l in h. exact h. }
    unfold scalar_cast. rewrite e1. change (f_emax float32) with 128%Z.
    destruct (Rlt_dec _ _) as [h|_].
    + exfalso. rewrite Rabs_pos_eq in h; lra.
    + destruct (Rlt_dec _ 0) as [h|_]; [lra|reflexivity].
  - unfold scalar_cast. replace (- bpow radix2 128) with (-1 * bpow radix2 128) by ring.
    rewrite e by (rewrite Rabs_left; lra).
    change (f_emax float32) with 128%Z.
    destruct (Rlt_dec _ _) as [h|_].
    + exfalso. rewrite Rabs_left in h; lra.
    + destruct (Rlt_dec _ 0) as [_|h]; [reflexivity|lra].
Qed.

(** Control limits set on the integrated model are lost by the cast, even to
    its own type. *)
Theorem C129_limits_refuted :
  exists d k dt w v m,
    set_u_ub v (integrated float64 d k dt w) = Some m /\
    model_holds float64 m /\ Forall (holds float64) v /\
    i_ub m = v /\ i_ub (integrated_cast float64 m) <> v.
Proof.
  set (d := {| d_lb := [FInf true]; d_ub := [FInf false] |}).
  assert (h0 : fp_ltb (FFin 1) (FFin 0) = false).
  { cbn [fp_ltb]. destruct (Rlt_dec 1 0); [lra|reflexivity]. }
  assert (h1 : holds float64 (FFin 1)).
  { exists 1%Z, 0%Z. split; [cbn; ring|]. split; [cbn; lia|].
    split; [unfold f_emin; cbn; lia|]. rewrite Rabs_R1.
    change 1 with (bpow radix2 0). apply bpow_lt. cbn. lia. }
  exists d, RK4, (FFin 1), true, [FFin 1].
  eexists. split; [reflexivity|]. unfold model_holds.
  cbn [i_dt i_diff i_ub integrated d_lb d_ub d].
  rewrite h0. split; [split; [exact h1|]; split; constructor; try exact I; constructor|].
  split; [constructor; [exact h1|constructor]|].
  split; [reflexivity|]. cbn. discriminate.
Qed.

(** A model meeting the hypotheses: one half as time step, limits -1 and an
    infinity, in [float]. *)
Lemma holds_small f z e : good f -> (Z.abs z < 2)%Z -> (-1 <= e <= 0)%Z ->
  holds f (FFin (IZR z * bpow radix2 e)).
Proof.
  intros [g1 g2] hz he. exists z, e. split; [reflexivity|]. split.
  - assert (2 ^ 1 < 2 ^ f_prec f)%Z by (apply Z.pow_lt_mono_r; lia). lia.
  - split; [unfold f_emin; lia|].
    rewrite Rabs_mult, <- abs_IZR, (Rabs_pos_eq (bpow radix2 e)) by apply bpow_ge_0.
    assert (IZR (Z.abs z) <= 1) by (apply IZR_le; lia).
    assert (0 <= IZR (Z.abs z)) by (apply IZR_le; lia).
    assert (h : bpow radix2 e < bpow radix2 (f_emax f)) by (apply bpow_lt; lia).
    pose proof (bpow_gt_0 radix2 e). nra.
Qed.

Example C129_ex :
  let d := {| d_lb := [FFin (IZR (-1) * bpow radix2 0)]; d_ub := [FInf false] |} in
  let m := iruns [SetDt (FFin (IZR 1 * bpow radix2 (-1)))]
                 (integrated float32 d RK3 (FFin (-1)) true) in
  model_holds float32 m /\ i_lb m = d_lb d /\ i_ub m = d_ub d /\
  i_dt m = FFin (IZR 1 * bpow radix2 (-1)) /\
  Forall2 below (d_lb d) (d_ub d).
Proof.
  intros d m.
  assert (hs : fp_ltb (FFin (IZR 1 * bpow radix2 (-1))) (FFin 0) = false).
  { cbn [fp_ltb]. pose proof (bpow_gt_0 radix2 (-1)).
    destruct (Rlt_dec _ 0); [lra|reflexivity]. }
  assert (e : m = {| i_diff := d; i_kind := RK3; i_dt := FFin (IZR 1 * bpow radix2 (-1));
                     i_wcr := true; i_lb := d_lb d; i_ub := d_ub d |}).
  { unfold m. cbn [iruns iapply]. unfold set_dt. rewrite hs. reflexivity. }
  rewrite e. unfold model_holds. cbn [i_dt i_diff i_lb i_ub].
  split; [split; [apply holds_small; [exact good32|cbn; lia|lia]|split]|].
  - constructor; [|constructor]. apply holds_small; [exact good32|cbn; lia|lia].
  - constructor; [exact I|constructor].
  - repeat split. constructor; [exact I|constructor].
Qed.

Example C129_ex_accuracy : / 2 ^ 126 <= Rabs (/ 10) <= 2 ^ 127.
Proof.
  rewrite Rabs_pos_eq by lra. split.
  - assert (h : 10 <= 2 ^ 126) by lra.
    apply Rinv_le_contravar; lra.
  - lra.
Qed.

Print Assumptions C129_widen.
Print Assumptions C129_roundtrip.
Print Assumptions C129_stable.
Print Assumptions C129_order.
Print Assumptions C129_accuracy_partial.
Print Assumptions C129_settings.
Print Assumptions C129_model_partial.
Print Assumptions C129_positive_refuted.
Print Assumptions C129_finite_refuted.
Print Assumptions C129_limits_refuted.
