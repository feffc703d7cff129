(** C12-C19, C27: termination, counterexamples and concrete runs. *)
From Coq Require Import QArith Qcanon Qabs List Bool Arith Lia Lqa.
From Verif Require Import Common XFloat XFloatFacts Params_Model Params_Spec
  Solver_Model Solver_Spec Solver_Proofs SolverLoop_Proofs SolverReg_Proofs Solver_Props Solver_Scalar.
Import ListNotations.
Local Open Scope nat_scope.

(** * C13: termination *)
(** Number of calls of computeDirection in a log. *)
Definition directions {X U V} (l : list (event X U V)) : nat :=
  length (filter (fun e => match e with EDir _ _ _ _ _ _ _ => true | _ => false end) l).

Section Dirs.
Context {X U V G : Type}.
Variables (vscale : V -> xf -> V) (clamp : U -> U -> U -> U) (xnorm : X -> xf)
          (pol : G -> nat -> xf -> U -> V -> U)
          (bwd : list X -> list U -> list V -> bool -> xf -> option G)
          (eiD : G -> xf * xf) (eiF : G -> list X -> list V -> bool -> list X -> xf * xf)
          (pb : sproblem X U V) (par : params).
Notation retry := (@retry X U V G bwd pb par).
Notation iteration := (@iteration X U V G vscale clamp xnorm pol bwd eiD eiF pb par).
Notation iterations := (@iterations X U V G vscale clamp xnorm pol bwd eiD eiF pb par).
Definition more (n : nat) (s : st X U V G) (r : res X U V G) : Prop :=
  match r with
  | Fuel => True
  | Next s' _ | Ret _ s' => directions (s_log s') <= n + directions (s_log s)
  end.
Lemma retry_dirs f : forall i recalc s, more f s (retry f i recalc s).
Proof.
  induction f as [|f IH]; intros i recalc s; cbn [Solver_Model.retry]; [exact I|].
  set (s1 := linearise _ _ recalc s).
  assert (directions (s_log s1) = S (directions (s_log s))) as E1 by (unfold s1; destruct recalc; reflexivity).
  clearbody s1. cbv zeta. destruct (bwd _ _ _ _ _); [cbn [more set_g s_log]; lia|].
  destruct (xeq _ _); [cbn [more set_reg s_log]; lia|].
  specialize (IH i false (set_reg (inc_reg par (s_preg s1)) s1)).
  destruct (retry f i false _); cbn [more set_reg s_log] in *; auto; lia.
Qed.
Lemma iteration_dirs k f i recalc s : more f s (iteration k f i recalc s).
Proof.
  unfold Solver_Model.iteration. pose proof (retry_dirs f i recalc s) as H.
  destruct (retry f i recalc s) as [s1 b|b s1|]; auto. destruct (s_g s1) as [g|]; [|exact I].
  destruct (line_search _ _ _ _ _ _ _ k g _ _) as [s3 rc] eqn:E.
  destruct (line_search_reg _ _ _ _ _ _ _ _ _ _ _ _ _ E) as (_ & _ & L).
  assert (directions (s_log s3) = directions (s_log s1)) as E3.
  { assert (s_log (if fddp_loop k then s1 else set_d (eiD g) s1) = s_log s1) as E1 by (destruct (fddp_loop k); reflexivity).
    destruct L as [L|(? & ? & ? & ? & ? & L)]; rewrite L, E1; reflexivity. }
  cbn [more] in H. cbv zeta.
  destruct (xlt (p_val par ThStepDec) _); cbn [set_reg s_alpha];
  destruct (xle _ (p_val par ThStepInc)); cbn [andb];
  repeat match goal with |- context [if ?c then Ret _ _ else _] => destruct c end;
  cbn [more s_log emit set_stop set_reg directions filter length];
  try (change (directions (s_log s3) <= f + directions (s_log s)); lia);
  repeat match goal with |- context [if ?c then Ret _ _ else _] => destruct c end;
  cbn [more s_log emit set_stop set_reg directions filter length];
  change (directions (s_log s3) <= f + directions (s_log s)); lia.
Qed.
Lemma iterations_dirs k f : forall n i recalc s, more (n * f) s (iterations k f n i recalc s).
Proof.
  induction n as [|n IH]; intros i recalc s; cbn [Solver_Model.iterations]; [cbn; lia|].
  pose proof (iteration_dirs k f i recalc s) as H.
  destruct (iteration k f i recalc s) as [s' rc|b s'|]; cbn [more] in *; [|lia|auto].
  specialize (IH (S i) rc s'). destruct (iterations k f n (S i) rc s'); cbn [more] in *; auto; lia.
Qed.
End Dirs.

(** With finite factors above one, a positive minimum and a positive initial value, the
    number of attempts per iteration is bounded by a number [N] that depends only on the
    parameters: for every problem, every behaviour of the backward pass and every
    maxiter, the run ends, makes at most [maxiter] iterations and at most
    [maxiter * N] calls of computeDirection. *)
Theorem C13_terminates_partial par r q qd mn mx :
  p_val par RegInc = Fin q -> (1 < q)%Q -> p_val par RegDec = Fin qd -> (1 < qd)%Q ->
  p_val par RegMin = Fin mn -> (0 < mn)%Q -> p_val par RegMax = Fin mx ->
  (r = NaN \/ exists p, r = Fin p /\ (0 < p)%Q) ->
  exists N, forall (X U V G : Type) vscale clamp xnorm pol bwd eiD eiF (pb : sproblem X U V)
    k maxiter xs us feas (s : st X U V G),
    exists b s',
    (forall fuel, N <= fuel ->
       solve vscale clamp xnorm pol bwd eiD eiF pb par k fuel maxiter r xs us feas s = Ret b s') /\
    directions (s_log s') <= maxiter * N.
Proof.
  intros Hi Hq Hd Hqd Hm Hmn Hx Hr.
  set (lo := match r with Fin p => if Qlt_le_dec p mn then p else mn | _ => mn end).
  assert ((0 < lo)%Q /\ (lo <= mn)%Q) as [Hlo Hle].
  { unfold lo. destruct Hr as [->|(p & -> & Hp)]; [split; lra|]. destruct (Qlt_le_dec p mn); split; lra. }
  destruct (qpow_unbounded q (mx / lo) Hq) as [n Hn].
  assert (forall p, (lo <= p -> mx < p * qpow q n)%Q) as M.
  { intros p Hp. pose proof (qpow_pos q n ltac:(lra)) as P.
    assert (mx < lo * qpow q n)%Q.
    { assert (mx == lo * (mx / lo))%Q as -> by (field; lra).
      assert (0 < lo * (qpow q n - mx / lo))%Q by (apply Qmult_lt_0_compat; lra). lra. }
    assert (0 <= (p - lo) * qpow q n)%Q by (apply Qmult_le_0_compat; lra). lra. }
  exists (S n). intros X U V G vscale clamp xnorm pol bwd eiD eiF pb k maxiter xs us feas s.
  set (s0 := start pb par r xs us feas s).
  assert (above lo s0) as A.
  { unfold above, s0. cbn [start s_preg]. unfold lo. destruct Hr as [->|(p & -> & Hp)].
    - exists mn. simpl. rewrite Hm. split; [reflexivity|lra].
    - exists p. simpl. split; [reflexivity|]. destruct (Qlt_le_dec p mn); lra. }
  pose proof (iterations_fuel vscale clamp xnorm pol bwd eiD eiF pb par lo q mx Hi Hx Hq Hlo mn qd Hm Hd Hqd Hle
                k n M maxiter 0 true s0 A) as NF.
  pose proof (iterations_dirs vscale clamp xnorm pol bwd eiD eiF pb par k (S n) maxiter 0 true s0) as Dr.
  destruct (iterations vscale clamp xnorm pol bwd eiD eiF pb par k (S n) maxiter 0 true s0) as [s'|b s'|] eqn:E; [|exists b, s'|congruence].
  { exfalso. clearbody s0. clear - E. remember 0 as i. clear Heqi. revert E. generalize true as rc. revert i s0.
    induction maxiter as [|m IH]; intros i s0 rc E; cbn [iterations] in E; [discriminate|].
    destruct (iteration _ _ _ _ _ _ _ _ _ _ _ _ _ s0); [eapply IH; exact E|discriminate|discriminate]. }
  split.
  - intros fuel Hf. unfold solve. fold s0. rewrite <- E.
    apply iterations_mono; [exact Hf|congruence].
  - cbn [more] in Dr. unfold s0 in Dr at 1. cbn [start s_log directions filter length] in Dr. lia.
Qed.

(** The default parameters qualify. *)
Example C13_terminates_applies :
  p_val default_params RegInc = Fin 10 /\ (1 < 10)%Q /\ p_val default_params RegDec = Fin 10 /\
  p_val default_params RegMin = Fin (1 # 1000000000) /\ (0 < 1 # 1000000000)%Q /\
  p_val default_params RegMax = Fin 1000000000.
Proof. repeat split; reflexivity. Qed.

(** Starting with regularization zero the retry loop never ends: a concave running cost
    [-u²/2], dynamics [xnext = x].  The call [solve(xs, us, 1, true, 0.)] with default
    parameters runs out of any fuel. *)
Definition concave : snode :=
  SNode (fun x u => x) (fun x u => (- (1 # 2) * u * u)%Q) (fun _ _ => 1%Q) (fun _ _ => 0%Q)
        (fun _ _ => 0%Q) (fun _ u => (- u)%Q) (fun _ _ => 0%Q) (fun _ _ => 0%Q) (fun _ _ => (-1)%Q)
        (fun _ => 0%Q) (fun _ => 0%Q) (fun _ => 0%Q).

Theorem C13_zero_regularization_refuted :
  p_val default_params RegMax <> Fin 0 /\
  forall k fuel, ssolve k default_params 0 concave fuel 1 (Fin 0) [0%Q; 0%Q] [0%Q] true = Fuel.
Proof.
  split; [discriminate|]. intros k fuel. unfold ssolve, solve. cbn [iterations]. unfold iteration.
  match goal with |- context [retry ?B ?P ?R fuel 0 true ?s] => assert (retry B P R fuel 0 true s = Fuel) as ->; auto end.
  assert (forall recalc (s : st Q Q Q sgain), s_xs s = [0%Q; 0%Q] -> s_us s = [0%Q] -> s_preg s = Fin 0 ->
          (recalc = true \/ s_lx s = [0%Q; 0%Q] /\ s_lu s = [0%Q] /\ exists f0 f, s_fs s = [f0; f]) ->
          retry (sbwd concave) (sprob 0 concave) default_params fuel 0 recalc s = Fuel) as H.
  { induction fuel as [|fuel IH]; intros recalc s E1 E2 E3 E4; cbn [retry]; auto.
    set (s1 := linearise _ _ recalc s).
    assert (s_xs s1 = [0%Q; 0%Q] /\ s_us s1 = [0%Q] /\ s_preg s1 = Fin 0 /\
            s_lx s1 = [0%Q; 0%Q] /\ s_lu s1 = [0%Q] /\ exists f0 f, s_fs s1 = [f0; f])
      as (H1 & H2 & H3 & H5 & H6 & f0 & f & H4).
    { unfold s1, linearise. destruct recalc.
      - cbn [calc_diff s_xs s_us s_preg s_fs s_lx s_lu emit]. rewrite E1, E2. repeat split; auto. simpl. eauto.
      - cbn [s_xs s_us s_preg s_fs s_lx s_lu emit]. destruct E4 as [E4|(E4 & E5 & E6)]; [discriminate|]. repeat split; auto. }
    clearbody s1. rewrite H3, H4, H5, H6.
    assert (sbwd concave [0%Q; 0%Q] [0%Q] [f0; f] (s_feas s1) (Fin 0) = None) as ->.
    { unfold sbwd. assert (Qle_bool (Qred (sluu concave 0 0 + sfu concave 0 0 * Qred (stlxx concave 0 + 0) * sfu concave 0 0 + 0)) 0 = true) as ->
        by (vm_compute; reflexivity). reflexivity. }
    assert (inc_reg default_params (Fin 0) = Fin 0) as -> by (vm_compute; reflexivity).
    assert (xeq (s_preg (set_reg (Fin 0) s1)) (p_val default_params RegMax) = false) as -> by (vm_compute; reflexivity).
    cbv zeta. apply IH; cbn [set_reg s_xs s_us s_preg s_fs s_lx s_lu]; eauto 8. }
  apply H; cbn [start s_xs s_us s_preg is_nan]; auto.
Qed.

(** The same problem with the default initial regularization ends: the value climbs to
    the first power of ten that makes the Hessian positive definite. *)
Example C13_default_regularization_run :
  exists b s', ssolve DDP default_params 0 concave 30 1 NaN [0%Q; 0%Q] [0%Q] true = Ret b s' /\
               directions (s_log s') = 11.
Proof. vm_compute. do 2 eexists. split; reflexivity. Qed.

(** * C14 *)
(** Start at a point of small gradient of a steep quartic: [l(u) = 1e-7 u + u²/2 + 1e20 u⁴],
    dynamics [xnext = x].  The expected improvement is about 1e-14, below th_grad, so the
    full step is accepted and the cost goes up. *)
Definition steep : snode :=
  SNode (fun x u => x)
        (fun x u => Qred ((1 # 10000000) * u + (1 # 2) * u * u + 100000000000000000000 * u * u * u * u)%Q)
        (fun _ _ => 1%Q) (fun _ _ => 0%Q) (fun _ _ => 0%Q)
        (fun x u => Qred ((1 # 10000000) + u + 400000000000000000000 * u * u * u)%Q)
        (fun _ _ => 0%Q) (fun _ _ => 0%Q)
        (fun x u => Qred (1 + 1200000000000000000000 * u * u)%Q)
        (fun _ => 0%Q) (fun _ => 0%Q) (fun _ => 0%Q).

Theorem C14_cost_increases_refuted :
  good_call (sprob 0 steep) [0%Q; 0%Q] [0%Q] true sst0 /\
  exists s' c, ssolve DDP default_params 0 steep 30 1 NaN [0%Q; 0%Q] [0%Q] true = Ret true s' /\
    s_cost s' = Fin c /\
    total_cost (q_term (sprob 0 steep)) (Fin 0) (q_run (sprob 0 steep)) [0%Q; 0%Q] [0%Q] = Fin 0 /\
    total_cost (q_term (sprob 0 steep)) (Fin 0) (q_run (sprob 0 steep)) (s_xs s') (s_us s') = Fin c /\
    (0 < c)%Q.
Proof.
  split.
  - repeat split; try discriminate; simpl; auto.
  - vm_compute. do 2 eexists. repeat split; reflexivity.
Qed.

(** A run on which the cost goes down: [l(u) = (u-1)²/2], dynamics [xnext = x]. *)
Definition quad : snode :=
  SNode (fun x u => x) (fun x u => Qred ((1 # 2) * (u - 1) * (u - 1))%Q) (fun _ _ => 1%Q) (fun _ _ => 0%Q)
        (fun _ _ => 0%Q) (fun _ u => Qred (u - 1)%Q) (fun _ _ => 0%Q) (fun _ _ => 0%Q) (fun _ _ => 1%Q)
        (fun _ => 0%Q) (fun _ => 0%Q) (fun _ => 0%Q).
Definition par0 : params := put ThGrad (Fin 0) default_params.

Example C14_C15_C16_run :
  good_call (sprob 0 quad) [0%Q; 0%Q] [0%Q] true sst0 /\
  exists s', ssolve DDP par0 0 quad 30 10 NaN [0%Q; 0%Q] [0%Q] true = Ret true s' /\
             rev (calls (s_log s')) = [0; 1] /\ xlt (s_cost s') (Fin (1 # 2)) = true.
Proof.
  split; [repeat split; try discriminate; simpl; auto|].
  vm_compute. eexists. repeat split; reflexivity.
Qed.
Example C14_par0 : p_val par0 ThGrad = Fin 0 /\ positive (p_val par0 ThAcceptStep).
Proof. split; reflexivity. Qed.

(** * C12: the window along that run *)
Example C12_run :
  factors_ok default_params /\ in_window default_params (p_val default_params RegMin) /\
  (forall p, (1 # 1000000000 <= p)%Q -> (p <= 100000000)%Q ->
     xeq (dec_reg default_params (inc_reg default_params (Fin p))) (Fin p) = true).
Proof.
  split; [|split].
  - repeat split; reflexivity.
  - split; vm_compute; reflexivity.
  - intros p H1 H2. apply (C12_inverse default_params 10 p); try reflexivity.
    + now apply xle_fin.
    + cbn [xmul]. apply xle_fin. rewrite Qred_correct. lra.
Qed.
(** Without the finiteness of the factor the claim fails: zero times infinity. *)
Theorem C12_infinite_factor_refuted :
  exists par, above1 (p_val par RegInc) /\ above1 (p_val par RegDec) /\ nonneg (p_val par RegMin) /\
    in_window par (Fin 0) /\ ~ in_window par (inc_reg par (Fin 0)).
Proof.
  exists (put RegInc PInf (put RegMin (Fin 0) default_params)).
  split; [reflexivity|]. split; [reflexivity|]. split; [reflexivity|].
  split; [split; vm_compute; reflexivity|]. intros [H _]. vm_compute in H. discriminate.
Qed.

(** * C17 *)
(** SolverBoxDDP on an infeasible guess: [xnext = u], running cost [u²/2], terminal cost
    [x²/2], guess [xs = (0, 5)], [us = (1)], step lengths [{1/2}].  The accepted trial is
    flagged feasible although its last state is not the successor of the first. *)
Definition reach : snode :=
  SNode (fun x u => u) (fun x u => Qred ((1 # 2) * u * u)%Q) (fun _ _ => 0%Q) (fun _ _ => 1%Q)
        (fun _ _ => 0%Q) (fun _ u => u) (fun _ _ => 0%Q) (fun _ _ => 0%Q) (fun _ _ => 1%Q)
        (fun x => Qred ((1 # 2) * x * x)%Q) (fun x => x) (fun _ => 1%Q).
Definition par_half : params := Params (p_val default_params) [Fin (1 # 2)] (p_qp_alphas default_params).

Theorem C17_box_ddp_refuted :
  pstep (SetAlphas [Fin (1 # 2)]) default_params = Ok par_half tt /\
  good_call (sprob 0 reach) [0%Q; 5%Q] [1%Q] false sst0 /\
  exists s', ssolve BoxDDP par_half 0 reach 30 1 NaN [0%Q; 5%Q] [1%Q] false = Ret false s' /\
    s_feas s' = true /\ ~ follows (q_x0 (sprob 0 reach)) (q_run (sprob 0 reach)) (s_xs s') (s_us s').
Proof.
  split; [reflexivity|]. split; [repeat split; try discriminate; simpl; auto|].
  vm_compute. eexists. split; [reflexivity|]. split; [reflexivity|].
  intros [_ H]. discriminate.
Qed.

(** The same call of SolverDDP ends with a rollout. *)
Example C17_ddp_run :
  exists s', ssolve DDP par_half 0 reach 30 1 NaN [0%Q; 5%Q] [1%Q] false = Ret false s' /\
    s_feas s' = true /\ follows (q_x0 (sprob 0 reach)) (q_run (sprob 0 reach)) (s_xs s') (s_us s').
Proof. vm_compute. eexists. repeat split; reflexivity. Qed.

(** * C18: the laws hold for planar states with exact coordinates *)
Definition v2 : Type := (Qc * Qc)%type.
Definition v2scale (v : v2) (c : xf) : v2 :=
  match c with Fin c => (fst v * Q2Qc c, snd v * Q2Qc c)%Qc | _ => v end.
Definition v2opp (v : v2) : v2 := (- fst v, - snd v)%Qc.
Definition v2diff (x y : v2) : v2 := (fst y - fst x, snd y - snd x)%Qc.
Definition v2int (x v : v2) : v2 := (fst x + fst v, snd x + snd v)%Qc.
Definition v2node : node v2 v2 v2 :=
  Node true (fun x u => (v2int x u, Fin (this (fst u * fst u)))) (fun x => (x, Fin 0)) v2diff v2int false (0%Qc, 0%Qc) (0%Qc, 0%Qc).
Definition v2prob (x0 : v2) (T : nat) : sproblem v2 v2 v2 :=
  SProblem x0 (repeat v2node T) (TNode (fun x => Fin (this (fst x))) v2diff v2int).

Lemma v2_laws x0 T q : state_laws v2scale (v2prob x0 T) v2opp (Fin q).
Proof.
  assert (forall x v, v2diff (v2int x v) x = v2opp v) as H.
  { intros [x1 x2] [v1 v2]. unfold v2diff, v2int, v2opp. simpl. f_equal; ring. }
  split; [|split].
  - intros m n x v Hm Hn. apply repeat_spec in Hm, Hn. subst. apply H.
  - intros m x v Hm. apply repeat_spec in Hm. subst. apply H.
  - intros [f1 f2]. unfold xsub, xopp, xadd, v2scale, v2opp. cbn [fst snd].
    assert (Q2Qc (Qred (1 + - q)) = (- Q2Qc (Qred (q + - (1))))%Qc) as ->.
    { apply Qc_is_canon. unfold Qcopp, Q2Qc. cbn [this]. rewrite !Qred_correct. ring. }
    f_equal; ring.
Qed.

(** One node, gap (0, 3) at the end, half a step with zero gains: the gap is halved. *)
Example C18_half_step :
  let z : v2 := (0%Qc, 0%Qc) in
  let x1 : v2 := (0%Qc, Q2Qc 3) in
  let pb := v2prob z 1 in
  let tr := forward v2scale (fun _ _ u => u) (fun _ => Fin 0) (fun (_ : unit) _ _ u _ => u) pb
              FDDP tt (Fin (1 # 2)) false z [z; x1] [z] [z] (gaps z (q_run pb) [z; x1] [z]) [(z, Fin 0)] (Fin 0) in
  f_ok tr = true /\ map (fun p : v2 => (this (fst p), this (snd p))) (f_xs tr) = [(0, 0); (0, 3 # 2)]%Q.
Proof. vm_compute. split; reflexivity. Qed.

(** * C27: limits *)
(** Controls with their bounds: one extended number per coordinate. *)
Definition xmax (a b : xf) : xf := if xlt a b then b else a.   (* std::max / cwiseMax *)
Definition xmin (a b : xf) : xf := if xlt b a then b else a.
(** [u.cwiseMax(lb).cwiseMin(ub)], box-ddp.cpp:135, box-fddp.cpp:126 and 164. *)
Fixpoint cwclamp (lb ub u : list xf) : list xf :=
  match u, lb, ub with
  | v :: u', l :: lb', h :: ub' => xmin (xmax v l) h :: cwclamp lb' ub' u'
  | _, _, _ => []
  end.
(** [update_has_control_limits], action-base.hxx:242-246. *)
Definition has_limits (lb ub : list xf) : bool := existsb is_fin lb && existsb is_fin ub.

(** Specification: every coordinate is between its bounds, or not a number. *)
Definition in_limits (lb ub u : list xf) : Prop :=
  forall i l h v, nth_error lb i = Some l -> nth_error ub i = Some h -> nth_error u i = Some v ->
    is_nan v = true \/ (xle l v = true /\ xle v h = true).
Definition bounds_ok (lb ub : list xf) : Prop :=
  forall i l h, nth_error lb i = Some l -> nth_error ub i = Some h -> xle l h = true.

Lemma clamp_in lb : forall ub u, bounds_ok lb ub -> in_limits lb ub (cwclamp lb ub u).
Proof.
  induction lb as [|l lb IH]; intros [|h ub] [|v u] B [|i] l1 h1 v1; simpl; try discriminate.
  - intros [= <-] [= <-] [= <-]. assert (xle l h = true) as Hb by (apply (B 0); reflexivity).
    destruct (xle_nan_l _ _ Hb) as [Nl Nh].
    unfold xmin, xmax. destruct (xlt v l) eqn:E.
    + destruct (xlt h l) eqn:E2.
      * right. split; auto. now apply xle_refl.
      * right. split; auto. now apply xle_refl.
    + destruct (is_nan v) eqn:Nv; [destruct v; try discriminate; auto|].
      * left. destruct h; reflexivity.
      * assert (xle l v = true) as Hl by (rewrite xle_not_lt by auto; now rewrite E).
        destruct (xlt h v) eqn:E2.
        -- right. split; auto. now apply xle_refl.
        -- right. split; auto. rewrite xle_not_lt by auto. now rewrite E2.
  - apply (IH ub u). intros j l2 h2. apply (B (S j)).
Qed.

Section Limits.
Context {X V G : Type}.
Variables (vscale : V -> xf -> V) (xnorm : X -> xf)
          (pol : G -> nat -> xf -> list xf -> V -> list xf)
          (bwd : list X -> list (list xf) -> list V -> bool -> xf -> option G)
          (eiD : G -> xf * xf) (eiF : G -> list X -> list V -> bool -> list X -> xf * xf)
          (pb : sproblem X (list xf) V) (par : params).

(** The nodes compute their flag as the code does and have ordered bounds. *)
Definition limits_ok : Prop :=
  forall n, In n (q_run pb) -> n_lim n = has_limits (n_lb n) (n_ub n) /\ bounds_ok (n_lb n) (n_ub n).
(** Controls inside the limits, at the nodes whose bounds have a finite entry on both
    sides. *)
Definition controls_in (us : list (list xf)) : Prop :=
  Forall2 (fun n u => n_u n = true -> has_limits (n_lb n) (n_ub n) = true ->
                      in_limits (n_lb n) (n_ub n) u) (q_run pb) us.

Lemma clamped_in us : limits_ok ->
  Forall2 (fun n u => n_u n = true -> n_lim n = true -> exists v, u = cwclamp (n_lb n) (n_ub n) v) (q_run pb) us ->
  controls_in us.
Proof.
  unfold limits_ok, controls_in. intros L H. generalize (q_run pb) L us H. clear.
  induction 2 as [|n u ns us R F IH]; constructor.
  - intros Hu Hl. destruct (L n (or_introl eq_refl)) as [E B]. destruct (R Hu ltac:(congruence)) as [v ->].
    now apply clamp_in.
  - apply IH. intros m Hm. apply L. now right.
Qed.

Theorem C27_trial_controls_partial k g a feas xt0 xs us uo fs ds dT :
  k = BoxDDP \/ k = BoxFDDP -> limits_ok ->
  arrays (q_run pb) xs us uo fs ds ->
  let tr := forward vscale cwclamp xnorm pol pb k g a feas xt0 xs us uo fs ds dT in
  f_ok tr = true -> controls_in (f_us tr).
Proof.
  intros Hk L Ar tr Ok. apply clamped_in; auto.
  apply (forward_box vscale cwclamp xnorm pol pb k g a feas xt0 xs us uo fs ds dT Hk Ar Ok).
Qed.

(** Hence every candidate seen by a callback or held at the end of a run that started
    from controls inside the limits is inside them. *)
Theorem C27_run_controls_partial k fuel maxiter r xs us feas s b s' :
  k = BoxDDP \/ k = BoxFDDP -> limits_ok -> controls_in us ->
  good_call pb xs us feas s ->
  solve vscale cwclamp xnorm pol bwd eiD eiF pb par k fuel maxiter r xs us feas s = Ret b s' ->
  controls_in (s_us s') /\
  Forall (fun e => match e with ECall _ _ us _ _ _ _ _ _ => controls_in us | _ => True end) (s_log s').
Proof.
  intros Hk L H0 Hc E.
  destruct (solve_final _ _ _ _ _ _ _ _ _ _ _ _ _ _ _ _ _ _ _ Hc E) as ((_ & _ & H & _ & _ & B) & _).
  split.
  - destruct (B Hk) as [->|B']; auto. now apply clamped_in.
  - eapply Forall_impl; [|exact H]. intros [| |i xs' us' f w c v p d]; simpl; auto.
    intros (_ & _ & _ & B'). destruct (B' Hk) as [->|B'']; auto. now apply clamped_in.
Qed.
End Limits.

(** One-sided limits are not enforced: lower bound 0, no upper bound, a policy that asks
    for -1. *)
Definition one_sided : node Q (list xf) Q :=
  Node true (fun x u => (x, Fin 0)) (fun x => (x, Fin 0)) qdiff qint
       (has_limits [Fin 0] [PInf]) [Fin 0] [PInf].
Definition one_sided_pb : sproblem Q (list xf) Q := SProblem 0%Q [one_sided] (TNode (fun _ => Fin 0) qdiff qint).
Definition ask (l : list xf) (g : unit) (t : nat) (a : xf) (u : list xf) (dx : Q) : list xf := l.

Theorem C27_one_sided_refuted :
  limits_ok one_sided_pb /\
  forall k, k = BoxDDP \/ k = BoxFDDP ->
  let tr := forward qscale cwclamp qnorm (ask [Fin (-1)]) one_sided_pb k tt (Fin 1) true 0%Q
              [0%Q; 0%Q] [[Fin 0]] [[Fin 0]] [0%Q; 0%Q] [(0%Q, Fin 0)] (Fin 0) in
  f_ok tr = true /\ f_us tr = [[Fin (-1)]] /\ ~ in_limits [Fin 0] [PInf] [Fin (-1)].
Proof.
  split.
  - intros n [<-|[]]. split; [reflexivity|]. intros [|[|i]]; simpl; intros l h; try discriminate.
    intros [= <-] [= <-]. reflexivity.
  - intros k Hk. destruct Hk as [->| ->]; cbv zeta;
      (split; [vm_compute; reflexivity|]; split; [vm_compute; reflexivity|];
       intro H; destruct (H 0 (Fin 0) PInf (Fin (-1)) eq_refl eq_refl eq_refl) as [H1|[H1 _]];
       vm_compute in H1; discriminate).
Qed.

(** Two-sided limits in two dimensions: the request is clipped. *)
Example C27_clipped :
  let n := Node true (fun x u => (x, Fin 0)) (fun x => (x, Fin 0)) qdiff qint
             (has_limits [Fin (-1); NInf] [Fin 1; Fin 2]) [Fin (-1); NInf] [Fin 1; Fin 2] in
  let pb := SProblem 0%Q [n] (TNode (fun _ => Fin 0) qdiff qint) in
  limits_ok pb /\
  let tr := forward qscale cwclamp qnorm (ask [Fin (-7); Fin 5]) pb BoxFDDP tt (Fin 1) true 0%Q
              [0%Q; 0%Q] [[Fin 0; Fin 0]] [[Fin 0; Fin 0]] [0%Q; 0%Q] [(0%Q, Fin 0)] (Fin 0) in
  f_ok tr = true /\ f_us tr = [[Fin (-1); Fin 2]].
Proof.
  split.
  - intros n [<-|[]]. split; [reflexivity|]. intros [|[|[|i]]]; simpl; intros l h; try discriminate;
    intros [= <-] [= <-]; vm_compute; reflexivity.
  - vm_compute. split; reflexivity.
Qed.

Print Assumptions C13_terminates_partial.
Print Assumptions C13_zero_regularization_refuted.
Print Assumptions C14_cost_increases_refuted.
Print Assumptions C12_infinite_factor_refuted.
Print Assumptions C17_box_ddp_refuted.
Print Assumptions C27_trial_controls_partial.
Print Assumptions C27_run_controls_partial.
Print Assumptions C27_one_sided_refuted.
