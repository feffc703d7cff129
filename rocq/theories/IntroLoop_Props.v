(** C12, C13, C15-C17, C30, C75, C77: the main loop of SolverIntro. *)
From Coq Require Import QArith Qabs Qfield List Bool Arith Lia Lqa.
From Verif Require Import Common XFloat XFloatFacts Params_Model Params_Spec Solver_Model Solver_Spec
  Solver_Proofs SolverLoop_Proofs SolverReg_Proofs SolverSync_Proofs Solver_Props Solver_Scalar
  SolverWitness_Props IntroLoop_Model IntroLoop_Proofs.
Import ListNotations.
Local Open Scope nat_scope.

Lemma list_eq_nil_dec {A} (l : list A) : {l = []} + {l <> []}.
Proof. destruct l; [left|right]; congruence. Qed.

Section General.
Context {X U V G : Type}.
Variables
  (vscale : V -> xf -> V) (clamp : U -> U -> U -> U) (xnorm : X -> xf)
  (pol : G -> nat -> xf -> U -> V -> U)
  (bwd : list X -> list U -> list V -> bool -> xf -> option G)
  (eiP : G -> st X U V G -> xf * xf)
  (eiF : G -> list X -> list V -> bool -> list X -> xf * xf)
  (hf : list X -> list U -> xf)
  (pb : sproblem X U V) (par : params) (th_feas rho : xf).
Notation ist := (ist X U V G).
Notation solve := (i_solve vscale clamp xnorm pol bwd eiP eiF hf pb par th_feas rho).
Notation cost_of := (total_cost (q_term pb) (Fin 0) (q_run pb)).
Notation rollout := (follows (q_x0 pb) (q_run pb)).

Lemma i_solve_final zero fuel maxiter r xs us feas (s : ist) b s' :
  good_call pb xs us feas (t_s s) -> solve zero fuel maxiter r xs us feas s = IRet b s' ->
  ifinal hf pb par rho (if zero then Fin 0 else t_ups s) maxiter b s'.
Proof.
  intros (N & Sz & Lu & Hf) E. change maxiter with (0 + maxiter).
  eapply (i_iterations_spec vscale clamp xnorm pol bwd eiP eiF hf pb par th_feas rho fuel);
    [exact N| | | | |exact E].
  - split; [split; [split; [exact Sz|split; [exact Lu|reflexivity]]|left; auto]|].
    split; [exact Hf|]. split; [discriminate|]. split; [apply Forall_nil|]. split; [left; auto|apply Forall_nil].
  - intro H. lia.
  - split; [reflexivity|]. split; [apply Forall_nil|]. split; [exact I|]. split; [reflexivity|].
    split; [apply Forall_nil|]. split; reflexivity.
  - apply Forall_nil.
Qed.

(** * C12 *)
Theorem C12_intro_window zero fuel maxiter r xs us feas (s : ist) b s' :
  factors_ok par -> in_window par (if is_nan r then p_val par RegMin else r) ->
  solve zero fuel maxiter r xs us feas s = IRet b s' ->
  s_preg (t_s s') = s_dreg (t_s s') /\ in_window par (s_preg (t_s s')).
Proof.
  intros F W E. unfold i_solve in E. match type of E with IntroLoop_Model.i_iterations _ _ _ _ _ _ _ _ _ _ _ _ _ _ _ _ ?s0 = _ =>
    pose proof (i_iterations_window vscale clamp xnorm pol bwd eiP eiF hf pb par th_feas rho fuel F maxiter 0 true s0) as H end.
  rewrite E in H. destruct H as (H1 & H2 & _); [|split; assumption].
  split; [reflexivity|]. split; [exact W|apply Forall_nil].
Qed.

(** * C15 *)
(** Success: the candidate is a rollout, its equality infeasibility is below th_stop, and
    so is the expected improvement of the last trial unless it is NaN. *)
Theorem C15_intro_success zero fuel maxiter r xs us feas (s : ist) s' :
  good_call pb xs us feas (t_s s) -> solve zero fuel maxiter r xs us feas s = IRet true s' ->
  s_feas (t_s s') = true /\ rollout (s_xs (t_s s')) (s_us (t_s s')) /\
  xlt (hf (s_xs (t_s s')) (s_us (t_s s'))) (p_val par ThStop) = true /\
  let imp := xabs (xadd (s_d0 (t_s s')) (xmul (Fin (1 # 2)) (s_d1 (t_s s')))) in
  (is_nan imp = true \/ xlt imp (p_val par ThStop) = true).
Proof.
  intros Hc E. destruct (i_solve_final _ _ _ _ _ _ _ _ _ _ Hc E)
    as (j & _ & (_ & Fc & _) & _ & _ & _ & _ & c & l & Hl & _ & St & E1 & E2 & E3 & E4 & E5 & E6).
  rewrite Hl in Fc. apply Forall_inv in Fc. destruct Fc as (F1 & _ & F3 & F4).
  unfold stops in St. apply andb_true_iff in St. destruct St as [S1 S2].
  rewrite <- E3, <- E1, <- E2. split; [exact S1|]. split; [exact (F1 S1)|].
  rewrite E6 in F4. cbn [fst snd] in F4. rewrite <- F3. cbv zeta.
  set (imp := xabs _) in *. rewrite F4 in S2.
  assert (is_nan imp = true \/ xle imp (cmax (c_hf c) imp) = true) as Hi.
  { destruct (is_nan imp) eqn:Ni; auto. right. destruct (cmax_cases (c_hf c) imp) as [[H H0]|[H H0]]; rewrite H in S2 |- *.
    - assert (is_nan (c_hf c) = false) as Nh by (destruct (c_hf c); auto; destruct (p_val par ThStop); discriminate).
      rewrite xle_not_lt; auto. now rewrite H0.
    - now apply xle_refl. }
  assert (xlt (c_hf c) (p_val par ThStop) = true) as Hh.
  { destruct (cmax_cases (c_hf c) imp) as [[H H0]|[H H0]]; rewrite H in S2; [exact S2|].
    eapply xlt_le_trans; [exact H0|]. now apply xlt_le. }
  split; [exact Hh|]. destruct Hi as [Hi|Hi]; [left; exact Hi|right; eapply xle_lt_trans; eauto].
Qed.

(** Failure: maxiter iterations, or the regularization is at its maximum. *)
Theorem C15_intro_failure zero fuel maxiter r xs us feas (s : ist) s' :
  good_call pb xs us feas (t_s s) -> solve zero fuel maxiter r xs us feas s = IRet false s' ->
  length (t_calls s') = maxiter \/ xeq (s_preg (t_s s')) (p_val par RegMax) = true.
Proof.
  intros Hc E. destruct (i_solve_final _ _ _ _ _ _ _ _ _ _ Hc E) as (j & _ & (R1 & _) & _ & _ & _ & _ & H).
  destruct H as [->|H]; auto. left. rewrite <- (map_length (@c_i X U)), R1, rev_length, seq_length. reflexivity.
Qed.

(** * C16 *)
Theorem C16_intro_callbacks zero fuel maxiter r xs us feas (s : ist) b s' :
  good_call pb xs us feas (t_s s) -> solve zero fuel maxiter r xs us feas s = IRet b s' ->
  exists j, rev (map (@c_i X U) (t_calls s')) = seq 0 j /\ j <= maxiter /\
    (b = false -> j = maxiter \/ xeq (s_preg (t_s s')) (p_val par RegMax) = true).
Proof.
  intros Hc E. destruct (i_solve_final _ _ _ _ _ _ _ _ _ _ Hc E) as (j & Hj & (R1 & _) & _ & _ & _ & _ & H).
  exists j. rewrite R1, rev_involutive. split; [reflexivity|]. split; [exact Hj|]. intros ->. exact H.
Qed.

(** * C17 and C75 *)
Theorem C17_intro_flag zero fuel maxiter r xs us feas (s : ist) b s' :
  good_call pb xs us feas (t_s s) -> solve zero fuel maxiter r xs us feas s = IRet b s' ->
  (s_feas (t_s s') = true -> rollout (s_xs (t_s s')) (s_us (t_s s'))) /\
  Forall (fun c => c_feas c = true -> rollout (c_xs c) (c_us c)) (t_calls s').
Proof.
  intros Hc E. destruct (i_solve_final _ _ _ _ _ _ _ _ _ _ Hc E) as (j & _ & (_ & R2 & _) & _ & Fe & _).
  split; [exact Fe|]. eapply Forall_impl; [|exact R2]. intros c H. exact (proj1 H).
Qed.

(** Cost and equality infeasibility seen by the callbacks and left by the call are those
    of the candidate; every direction is computed at the candidate. *)
Theorem C75_intro_partial zero fuel maxiter r xs us feas (s : ist) b s' :
  good_call pb xs us feas (t_s s) -> solve zero fuel maxiter r xs us feas s = IRet b s' ->
  Forall (fun c => c_cost c = cost_of (c_xs c) (c_us c) /\ c_hf c = hf (c_xs c) (c_us c)) (t_calls s') /\
  (maxiter <> 0 -> s_cost (t_s s') = cost_of (s_xs (t_s s')) (s_us (t_s s')) /\
                   t_hf s' = hf (s_xs (t_s s')) (s_us (t_s s'))) /\
  Forall (fun e => match e with
    | EDir _ _ lx lu fs cx cu => lx = cx /\ lu = cu /\ fs = gaps (q_x0 pb) (q_run pb) cx cu
    | _ => True end) (s_log (t_s s')).
Proof.
  intros Hc E. destruct (i_solve_final _ _ _ _ _ _ _ _ _ _ Hc E) as (j & _ & (_ & R2 & _) & _ & _ & Lg & Sd & _).
  split; [|split; [|exact Lg]].
  - eapply Forall_impl; [|exact R2]. intros c (_ & H1 & H2 & _). auto.
  - intro Hm. destruct (Sd Hm) as (_ & H1 & _ & H2 & _). auto.
Qed.

(** * C30 *)
(** The weight seen by the callbacks never decreases; it starts from 0 or from the value
    left by the previous call. *)
Theorem C30_weight_monotone zero fuel maxiter r xs us feas (s : ist) b s' :
  good_call pb xs us feas (t_s s) -> solve zero fuel maxiter r xs us feas s = IRet b s' ->
  let u0 := if zero then Fin 0 else t_ups s in
  let us := rev (map (@c_ups X U) (t_calls s')) in
  (forall i u v, nth_error (u0 :: us) i = Some u -> nth_error us i = Some v -> v = u \/ xlt u v = true) /\
  t_ups s' = last us u0.
Proof.
  intros Hc E u0 l. destruct (i_solve_final _ _ _ _ _ _ _ _ _ _ Hc E) as (j & _ & (_ & _ & R3 & R4 & _) & _).
  fold u0 in R3, R4. rewrite R4. clear R4.
  assert (forall m, rising u0 m -> (forall i u v, nth_error (u0 :: rev m) i = Some u -> nth_error (rev m) i = Some v ->
            v = u \/ xlt u v = true) /\ hd u0 m = last (rev m) u0) as H; [|exact (H _ R3)].
  clear. induction m as [|a m IH]; intro R.
  - split; [intros [|i] u v _ H; discriminate|reflexivity].
  - destruct R as [R1 R2]. destruct (IH R2) as [H1 H2]. cbn [rev hd]. rewrite last_last. split; [|reflexivity].
    intros i u v Hu Hv. destruct (Nat.lt_trichotomy i (length (rev m))) as [L|[L|L]].
    + rewrite nth_error_app1 in Hv by exact L. apply (H1 i); [|exact Hv].
      destruct i; [exact Hu|]. cbn [nth_error] in Hu |- *. rewrite nth_error_app1 in Hu by lia. exact Hu.
    + subst i. rewrite nth_error_app2, Nat.sub_diag in Hv by lia. injection Hv as <-.
      assert (u = hd u0 m) as ->; [|destruct R1; auto].
      rewrite H2. destruct (list_eq_nil_dec (rev m)) as [Ez|Ne]; [rewrite Ez in Hu |- *; injection Hu as <-; reflexivity|].
      destruct (exists_last Ne) as (t & z & Ez). rewrite Ez in Hu |- *. rewrite last_last.
      rewrite app_length in Hu. cbn [length] in Hu. rewrite Nat.add_1_r in Hu. cbn [nth_error] in Hu.
      rewrite <- app_assoc, nth_error_app2, Nat.sub_diag in Hu by lia. injection Hu as ->. reflexivity.
    + assert (nth_error (rev m ++ [a]) i = None) as Hn by (apply nth_error_None; rewrite app_length; cbn [length]; lia). congruence.
Qed.

(** What an update guarantees for a finite infeasibility and 0 < rho < 1: the weight is at
    least the expected improvement over [(1 - rho) hfeas], and when the expected
    improvement is not negative the predicted decrease of the merit function is at least
    [rho upsilon hfeas]. *)
Theorem C30_predicted_partial zero fuel maxiter r xs us feas (s : ist) b s' u h p d0 d1 w0 :
  good_call pb xs us feas (t_s s) -> solve zero fuel maxiter r xs us feas s = IRet b s' ->
  In u (t_uplog s') -> u_i u <> 0 -> u_hf u = Fin h -> (0 < h)%Q -> rho = Fin p -> (0 < p < 1)%Q ->
  u_d u = (Fin d0, Fin d1) -> u_old u = Fin w0 -> (0 <= w0)%Q ->
  exists w, u_new u = Fin w /\ (w0 <= w)%Q /\
    (d0 + (1 # 2) * d1 <= (1 - p) * w * h)%Q /\
    ((0 <= d0 + (1 # 2) * d1)%Q -> (p * w * h <= (d0 + (1 # 2) * d1) + w * h)%Q).
Proof.
  intros Hc E Hin Hi Hh Ph Hr Pr Hd Hw Pw.
  destruct (i_solve_final _ _ _ _ _ _ _ _ _ _ Hc E) as (j & _ & (_ & _ & _ & _ & R5 & _) & _).
  rewrite Forall_forall in R5. specialize (R5 _ Hin). unfold iup_ok, update_upsilon in R5.
  rewrite Hh, Hd, Hw, Hr in R5. cbn [fst snd] in R5.
  assert (xeq (Fin h) (Fin 0) = false) as Ex.
  { destruct (xeq (Fin h) (Fin 0)) eqn:Ex; auto. apply xeq_fin in Ex. lra. }
  assert (Nat.eqb (u_i u) 0 = false) as Ei by (apply Nat.eqb_neq; exact Hi).
  rewrite Ex, Ei in R5. cbn [negb andb] in R5.
  unfold xsub, xopp, xadd in R5. cbn [xmul] in R5.
  set (num := Qred (d0 + Qred ((1 # 2) * d1))) in R5. set (den := Qred (Qred (1 + - p) * h)) in R5.
  assert (num == d0 + (1 # 2) * d1)%Q as En by (unfold num; rewrite !Qred_correct; reflexivity).
  assert (den == (1 - p) * h)%Q as Ed by (unfold den; rewrite !Qred_correct; ring).
  assert (0 < (1 - p) * h)%Q as Pd by (apply Qmult_lt_0_compat; lra).
  cbn [xdiv] in R5. destruct (Qeq_bool den 0) eqn:Eq; [apply Qeq_bool_iff in Eq; lra|].
  set (v := Qred (num / den)) in R5.
  assert (v * ((1 - p) * h) == d0 + (1 # 2) * d1)%Q as Ev.
  { unfold v. rewrite Qred_correct, Ed, En. field. split; lra. }
  assert (exists w, u_new u = Fin w /\ (w0 <= w)%Q /\ (v <= w)%Q) as (w & Ew & L1 & L2).
  { unfold cmax in R5. destruct (xlt (Fin w0) (Fin v)) eqn:El.
    - apply xlt_fin in El. exists v. split; [exact R5|]. split; lra.
    - apply xlt_fin_false in El. exists w0. split; [exact R5|]. split; [lra|exact El]. }
  exists w. split; [exact Ew|]. split; [exact L1|].
  assert (0 <= (w - v) * ((1 - p) * h))%Q as P1 by (apply Qmult_le_0_compat; lra).
  split; [lra|]. intro Hp.
  assert (0 <= w * ((1 - p) * h))%Q as P2 by (apply Qmult_le_0_compat; lra). lra.
Qed.

(** * C77 *)
(** An accepted step whose predicted merit decrease is not negative lowers the merit
    [cost + upsilon * hfeas], unless [d0] is below th_grad. *)
Definition merit (c w h : Q) : Q := (c + w * h)%Q.
Theorem C77_merit_decrease_partial zero fuel maxiter r xs us feas (s : ist) b s' e w c0 h0 c1 h1 :
  good_call pb xs us feas (t_s s) -> solve zero fuel maxiter r xs us feas s = IRet b s' ->
  positive (p_val par ThAcceptStep) -> In e (t_acc s') ->
  a_ups e = Fin w -> a_c0 e = Fin c0 -> a_h0 e = Fin h0 -> a_c1 e = Fin c1 -> a_h1 e = Fin h1 ->
  xle (Fin 0) (xadd (xmul (a_alpha e) (xadd (fst (a_d e)) (xmul (xmul (Fin (1 # 2)) (a_alpha e)) (snd (a_d e)))))
                    (xmul (xmul (a_alpha e) (Fin w)) (xsub (Fin h0) (Fin h1)))) = true ->
  xlt (xabs (fst (a_d e))) (p_val par ThGrad) = false ->
  (merit c1 w h1 < merit c0 w h0)%Q.
Proof.
  intros Hc E Hp Hin Ew Ec0 Eh0 Ec1 Eh1 Pred Ng.
  destruct (i_solve_final _ _ _ _ _ _ _ _ _ _ Hc E) as (j & _ & _ & Ac & _).
  rewrite Forall_forall in Ac. specialize (Ac _ Hin). unfold acc_ok in Ac.
  rewrite Ew, Ec0, Eh0, Ec1, Eh1, Pred, Ng in Ac. destruct Ac as [Ac|Ac]; [discriminate|].
  set (pe := xadd _ _) in Pred, Ac.
  destruct (xmul_nonneg _ _ Hp Pred) as [Hn|Hn].
  { fold pe in Hn. destruct (xmul (p_val par ThAcceptStep) pe); discriminate. }
  fold pe in Hn. pose proof (xle_lt_trans _ _ _ Hn Ac) as H. clear - H.
  unfold xsub, xopp, xadd in H. cbn [xmul] in H. apply xlt_fin in H.
  rewrite !Qred_correct in H. unfold merit. lra.
Qed.
End General.

(** * C13 *)
Theorem C13_intro_terminates_partial par r q qd mn mx :
  p_val par RegInc = Fin q -> (1 < q)%Q -> p_val par RegDec = Fin qd -> (1 < qd)%Q ->
  p_val par RegMin = Fin mn -> (0 < mn)%Q -> p_val par RegMax = Fin mx -> (0 < mx)%Q ->
  (r = NaN \/ exists p, r = Fin p /\ (0 < p)%Q) ->
  exists N, forall (X U V G : Type) vscale clamp xnorm pol bwd eiP eiF hf (pb : sproblem X U V) th_feas rho
    zero maxiter xs us feas (s : ist X U V G),
    exists b s', forall fuel, N <= fuel ->
       i_solve vscale clamp xnorm pol bwd eiP eiF hf pb par th_feas rho zero fuel maxiter r xs us feas s = IRet b s'.
Proof.
  intros Hi Hq Hd Hqd Hm Hmn Hx Hmx Hr.
  set (lo0 := if Qlt_le_dec mx mn then mx else mn).
  set (lo := match r with Fin p => if Qlt_le_dec p lo0 then p else lo0 | _ => lo0 end).
  assert ((0 < lo0)%Q /\ (lo0 <= mn)%Q /\ (lo0 <= mx)%Q) as (H01 & H02 & H03)
    by (unfold lo0; destruct (Qlt_le_dec mx mn); split; [|split| |split]; lra).
  assert ((0 < lo)%Q /\ (lo <= lo0)%Q) as [Hlo Hle].
  { unfold lo. destruct Hr as [->|(p & -> & Hp)]; [split; lra|]. destruct (Qlt_le_dec p lo0); split; lra. }
  destruct (qpow_unbounded q (mx / lo) Hq) as [n Hn].
  assert (forall p, (lo <= p -> mx < p * qpow q n)%Q) as M.
  { intros p Hp. pose proof (qpow_pos q n ltac:(lra)) as P.
    assert (mx < lo * qpow q n)%Q.
    { assert (mx == lo * (mx / lo))%Q as -> by (field; lra).
      assert (0 < lo * (qpow q n - mx / lo))%Q by (apply Qmult_lt_0_compat; lra). lra. }
    assert (0 <= (p - lo) * qpow q n)%Q by (apply Qmult_le_0_compat; lra). lra. }
  exists (S n). intros X U V G vscale clamp xnorm pol bwd eiP eiF hf pb th_feas rho zero maxiter xs us feas s.
  unfold i_solve. set (s0 := ISt (start pb par r xs us feas (t_s s)) _ _ _ _ _ _ _).
  assert (above lo (t_s s0)) as A.
  { unfold above, s0. cbn [t_s start s_preg]. unfold lo. destruct Hr as [->|(p & -> & Hp)].
    - exists mn. simpl. rewrite Hm. split; [reflexivity|lra].
    - exists p. simpl. split; [reflexivity|]. destruct (Qlt_le_dec p lo0); lra. }
  pose proof (i_iterations_fuel vscale clamp xnorm pol bwd eiP eiF hf pb par th_feas rho lo q mx Hi Hx Hq Hlo mn qd Hm Hd Hqd
                ltac:(lra) ltac:(lra) n M maxiter 0 true s0 A) as NF.
  destruct (i_iterations vscale clamp xnorm pol bwd eiP eiF hf pb par th_feas rho (S n) maxiter 0 true s0) as [s' rc|b s'|] eqn:E;
    [exfalso; now apply i_iterations_ret in E|exists b, s'|congruence].
  intros fuel Hf. rewrite <- E. apply i_iterations_mono; [exact Hf|congruence].
Qed.

(** * A scalar instance: one node, one control, one equality constraint *)
Local Open Scope Q_scope.
Record sconstr := SConstr { ch : Q -> Q -> Q; chx : Q -> Q -> Q; chu : Q -> Q -> Q }.

(** With as many constraints as controls the gains solve [Hu k = h], [Hu K = Hx]
    (intro.cpp:226-295 with an empty null space); [Qu], [Quu] as in SolverDDP. *)
Definition ibwd (d : snode) (c : sconstr) (xs us fs : list Q) (feas : bool) (preg : xf) : option sgain :=
  match xs, us, fs, preg with
  | [x; xT], [u], [_; f], Fin p =>
      let Vxx := Qred (stlxx d xT + p) in
      let Vx := if feas then stlx d xT else Qred (stlx d xT + Vxx * f) in
      let Qu := Qred (slu d x u + sfu d x u * Vx) in
      let Quu := Qred (sluu d x u + sfu d x u * Vxx * sfu d x u + p) in
      if Qeq_bool (chu c x u) 0 then None
      else Some (SGain (Qred (ch c x u / chu c x u)) (Qred (chx c x u / chu c x u)) Qu Quu)
  | _, _, _, _ => None
  end.
Definition ihf (c : sconstr) (xs us : list Q) : xf :=
  match xs, us with x :: _, u :: _ => Fin (Qabs (Qred (ch c x u))) | _, _ => Fin 0 end.
Definition isolve (par : params) (rho : xf) (x0 : Q) (d : snode) (c : sconstr) (fuel maxiter : nat) (r : xf)
    (xs us : list Q) (feas : bool) : ires Q Q Q sgain :=
  i_solve qscale qclamp qnorm spol (ibwd d c) (fun g _ => sei g) (fun g _ _ _ _ => sei g) (ihf c) (sprob x0 d) par
    (Fin (1 # 10000)) rho true fuel maxiter r xs us feas
    (ISt sst0 (Fin 0) (Fin 0) (Fin 0) (Fin 0) [] [] []).

(** [x' = x], cost [(u - t)²/2], constraint [u² = 2]. *)
Definition still (t : Q) : snode :=
  SNode (fun x _ => x) (fun _ u => Qred ((1 # 2) * (u - t) * (u - t))) (fun _ _ => 1) (fun _ _ => 0)
        (fun _ _ => 0) (fun _ u => Qred (u - t)) (fun _ _ => 0) (fun _ _ => 0) (fun _ _ => 1)
        (fun _ => 0) (fun _ => 0) (fun _ => 0).
Definition root2 : sconstr := SConstr (fun _ u => Qred (u * u - 2)) (fun _ _ => 0) (fun _ u => Qred (2 * u)).
Lemma still_call t : good_call (sprob 0 (still t)) [0; 0] [1] true sst0.
Proof.
  split; [discriminate|]. split; [split; reflexivity|]. split; [reflexivity|]. intros _.
  repeat split; reflexivity.
Qed.

(** The update uses the expected improvement with the sign of an increase: moving
    towards the constraint raises the cost, the weight stays at zero and the predicted
    merit decrease is negative (default parameters, rho = 0.3). *)
Theorem C30_predicted_refuted :
  exists s' u w h d0 d1,
    isolve default_params (Fin (3 # 10)) 0 (still 3) root2 30 2 NaN [0; 0] [1] true = IRet false s' /\
    In u (t_uplog s') /\ u_i u = 1%nat /\ u_new u = Fin w /\ u_hf u = Fin h /\ 0 < h /\
    u_d u = (Fin d0, Fin d1) /\
    (d0 + (1 # 2) * d1) + w * h < (3 # 10) * w * h.
Proof.
  destruct (isolve default_params (Fin (3 # 10)) 0 (still 3) root2 30 2 NaN [0; 0] [1] true) as [s' rc|b s'|] eqn:E;
    vm_compute in E; try discriminate.
  injection E as <- <-. do 6 eexists. split; [reflexivity|]. cbn [t_uplog].
  split; [left; reflexivity|]. cbn [u_i u_new u_hf u_d]. repeat (split; [reflexivity|]). reflexivity.
Qed.

(** set_rho accepts the numbers in (0, 1], and NaN. *)
Theorem C30_rho rho : rho_valid rho = true <-> rho = NaN \/ exists q, rho = Fin q /\ (0 < q)%Q /\ (q <= 1)%Q.
Proof.
  unfold rho_valid. split.
  - destruct rho as [| | |q]; [left; reflexivity|discriminate|discriminate|]. intro H. right. exists q. split; [reflexivity|].
    apply negb_true_iff, orb_false_iff in H as (H1 & H2). xq. split; assumption.
  - intros [->|(q & -> & H1 & H2)]; [reflexivity|]. apply negb_true_iff, orb_false_iff. split; [apply xle_fin_false|apply xlt_fin_false]; assumption.
Qed.

(** [rho = 1] is accepted by set_rho; the first update with a positive expected
    improvement then makes the weight infinite. *)
Theorem C30_weight_infinite_refuted :
  rho_valid (Fin 1) = true /\
  exists s', isolve default_params (Fin 1) 0 (still 0) root2 30 2 NaN [0; 0] [1] true = IRet false s' /\ t_ups s' = PInf.
Proof.
  split; [reflexivity|].
  destruct (isolve default_params (Fin 1) 0 (still 0) root2 30 2 NaN [0; 0] [1] true) as [s' rc|b s'|] eqn:E;
    vm_compute in E; try discriminate.
  injection E as <- <-. eexists. split; reflexivity.
Qed.

(** With a negative predicted decrease the test looks at the cost only: an accepted step
    raises the merit function. *)
Theorem C77_merit_refuted :
  exists s' e w c0 h0 c1 h1,
    isolve default_params (Fin (3 # 10)) 0 (still 0) root2 30 1 NaN [0; 0] [1] true = IRet false s' /\
    In e (t_acc s') /\ a_ups e = Fin w /\ a_c0 e = Fin c0 /\ a_h0 e = Fin h0 /\ a_c1 e = Fin c1 /\ a_h1 e = Fin h1 /\
    merit c0 w h0 < merit c1 w h1.
Proof.
  destruct (isolve default_params (Fin (3 # 10)) 0 (still 0) root2 30 1 NaN [0; 0] [1] true) as [s' rc|b s'|] eqn:E;
    vm_compute in E; try discriminate.
  injection E as <- <-. do 7 eexists. split; [reflexivity|]. cbn [t_acc].
  split; [left; reflexivity|]. cbn [a_ups a_c0 a_h0 a_c1 a_h1]. repeat (split; [reflexivity|]). reflexivity.
Qed.

(** Runs that meet the hypotheses: the second weight update of [still 0] is positive, the
    second accepted step has a positive prediction, and the run on a linear constraint
    succeeds. *)
Example C30_run :
  good_call (sprob 0 (still 0)) [0; 0] [1] true sst0 /\
  match isolve default_params (Fin (3 # 10)) 0 (still 0) root2 30 2 NaN [0; 0] [1] true with
  | IRet false s' => map (fun u => (u_i u, u_old u, u_hf u)) (t_uplog s') =
      [(1%nat, Fin 0, Fin (1 # 4)); (0%nat, Fin 0, Fin 1)] /\
      match t_acc s' with
      | [e; _] => xle (Fin 0) (xadd (xmul (a_alpha e) (xadd (fst (a_d e)) (xmul (xmul (Fin (1 # 2)) (a_alpha e)) (snd (a_d e)))))
                    (xmul (xmul (a_alpha e) (a_ups e)) (xsub (a_h0 e) (a_h1 e)))) = true /\
                  xlt (xabs (fst (a_d e))) (p_val default_params ThGrad) = false
      | _ => False end
  | _ => False end.
Proof. split; [apply still_call|]. vm_compute. repeat split. Qed.
Definition line1 : sconstr := SConstr (fun _ u => Qred (u - 2)) (fun _ _ => 0) (fun _ _ => 1).
Example C15_intro_run :
  match isolve default_params (Fin (3 # 10)) 0 (still 2) line1 30 5 NaN [0; 0] [1] true with
  | IRet true s' => s_us (t_s s') = [2] /\ map (@c_i Q Q) (t_calls s') = [1%nat; 0%nat]
  | _ => False end.
Proof. vm_compute. split; reflexivity. Qed.

Print Assumptions C12_intro_window.
Print Assumptions C15_intro_success.
Print Assumptions C15_intro_failure.
Print Assumptions C16_intro_callbacks.
Print Assumptions C17_intro_flag.
Print Assumptions C75_intro_partial.
Print Assumptions C30_weight_monotone.
Print Assumptions C30_predicted_partial.
Print Assumptions C77_merit_decrease_partial.
Print Assumptions C13_intro_terminates_partial.
Print Assumptions C30_predicted_refuted.
Print Assumptions C30_weight_infinite_refuted.
Print Assumptions C77_merit_refuted.
Print Assumptions C30_rho.
