(** C13, C17, C75, C76: the main loop of SolverKKT. *)
From Coq Require Import QArith Qabs Qfield List Bool Arith Lia Lqa.
From Verif Require Import Common XFloat XFloatFacts Params_Model Solver_Model Solver_Spec
  Solver_Proofs SolverLoop_Proofs Solver_Scalar KKTLoop_Model KKTLoop_Proofs.
Import ListNotations.
Local Open Scope nat_scope.

Section General.
Context {X U V K L : Type}.
Variables
  (vscale : V -> xf -> V) (ustep : U -> xf -> U -> U)
  (tcalc tdiff : list X -> list U -> bool)
  (sys : list X -> list U -> K)
  (dir : K -> list V * list U * L)
  (ei : K -> list V * list U * L -> xf * xf)
  (stopc : K -> list V * list U * L -> xf)
  (pb : sproblem X U V)
  (reg_max th_grad : xf) (alphas : list xf) (th_acceptstep th_stop : xf).
Notation kst := (kst X U V K L).
Notation solve := (@k_solve X U V K L vscale ustep tcalc tdiff sys dir ei stopc pb
                         reg_max th_grad alphas th_acceptstep th_stop).
Notation T := (length (q_run pb)).
Notation cost_of := (total_cost (q_term pb) (Fin 0) (q_run pb)).

(** A well-sized call: guess, work arrays and the pieces of the direction. *)
Definition kcall (xs : list X) (us : list U) (s : kst) : Prop :=
  sized (q_run pb) xs us /\ length (k_uo s) = T /\
  forall k, length (fst (fst (dir k))) = S T /\ length (snd (fst (dir k))) = T.

(** The retry loop makes at most two attempts, so the call ends for every pattern of
    exceptions raised by the models. *)
Theorem C13_kkt_terminates maxiter xs us feas (s : kst) :
  exists b s', forall fuel, 2 <= fuel -> solve fuel maxiter xs us feas s = KRet b s'.
Proof.
  unfold k_solve. set (s0 := KSt xs us _ _ _ _ _ _ _ _ _ _ _ _ _ _).
  pose proof (iterations_ends vscale ustep tcalc tdiff sys dir ei stopc pb reg_max th_grad alphas
                th_acceptstep th_stop maxiter 0 true s0) as H.
  pose proof (fun f => iterations_two vscale ustep tcalc tdiff sys dir ei stopc pb reg_max th_grad alphas
                th_acceptstep th_stop f maxiter 0 true s0) as H2.
  destruct (k_iterations _ _ _ _ _ _ _ _ _ _ _ _ _ _ 2 maxiter 0 true s0) as [s'|b s'|] eqn:E; [|exists b, s'|congruence].
  - now apply iterations_ret in E.
  - intros [|[|f]] Hf; [lia|lia|]. apply H2.
Qed.

Lemma solve_kfinal fuel maxiter xs us feas s b s' :
  kcall xs us s -> solve fuel maxiter xs us feas s = KRet b s' ->
  kfinal vscale ustep tcalc tdiff sys dir stopc pb reg_max alphas th_stop (k_was s) feas maxiter b s'.
Proof.
  intros (Sz & Lu & Ds) E. change maxiter with (0 + maxiter).
  eapply (iterations_spec vscale ustep tcalc tdiff sys dir ei stopc pb reg_max th_grad alphas
            th_acceptstep th_stop Ds); [|exact E].
  split; [split; [exact Sz|exact Lu]|]. split; [reflexivity|]. split; [reflexivity|]. split; reflexivity.
Qed.

(** Callbacks and directions: one each per completed iteration, in order, at most
    maxiter; fewer only on success or after an exception with [preg] at its maximum. *)
Theorem C76_callbacks fuel maxiter xs us feas s b s' :
  kcall xs us s -> solve fuel maxiter xs us feas s = KRet b s' ->
  exists j, j <= maxiter /\ kcalls (k_log s') = rev (seq 0 j) /\ kdirs (k_log s') = rev (seq 0 j) /\
    (b = true -> 0 < j) /\
    (b = false -> j = maxiter \/
       xeq (k_preg s') reg_max = true /\ tcalc (k_xs s') (k_us s') || tdiff (k_xs s') (k_us s') = true).
Proof.
  intros Hc E. destruct (solve_kfinal _ _ _ _ _ _ _ _ Hc E) as (j & (_ & I1 & I2 & _) & Hj & H1 & H2).
  exists j. split; [exact Hj|]. split; [exact I1|]. split; [exact I2|]. split.
  - intro Hb. destruct (H1 Hb) as (i & ? & ? & ? & -> & _). lia.
  - intro Hb. destruct (H2 Hb) as [H|(_ & H)]; auto.
Qed.

(** The flags: [is_feasible_] is true after any accepted step; [was_feasible_] tells how
    the latest step started, or is what an earlier call left if no step was accepted. *)
Theorem C76_flags fuel maxiter xs us feas s b s' :
  kcall xs us s -> solve fuel maxiter xs us feas s = KRet b s' ->
  match last_taken (k_log s') with
  | Some f => k_was s' = f /\ k_feas s' = true
  | None => k_was s' = k_was s /\ k_feas s' = feas
  end.
Proof.
  intros Hc E. destruct (solve_kfinal _ _ _ _ _ _ _ _ Hc E) as (j & (_ & _ & _ & I) & _). exact I.
Qed.

(** Success: the stopping criterion of the last system is below th_stop and the flag
    says the last step started from a feasible candidate. *)
Theorem C76_success fuel maxiter xs us feas s s' :
  kcall xs us s -> solve fuel maxiter xs us feas s = KRet true s' ->
  k_was s' = true /\ xlt (stopc (k_sys s') (dir (k_sys s'))) th_stop = true /\
  k_stop s' = stopc (k_sys s') (dir (k_sys s')).
Proof.
  intros Hc E. destruct (solve_kfinal _ _ _ _ _ _ _ _ Hc E) as (j & _ & _ & H & _).
  destruct (H eq_refl) as (i & rc & e & s0 & _ & _ & (acc & _ & _ & D & St & _) & W & S1).
  split; [exact W|]. rewrite D in St. rewrite <- St. split; [exact S1|reflexivity].
Qed.

(** When calcDiff does not throw (trials may), the certified system is that of a
    candidate of this run, and the trajectory returned is this candidate or one step
    along its direction. *)
Theorem C76_success_point_partial fuel maxiter xs us feas s s' :
  kcall xs us s -> (forall xs us, tdiff xs us = false) -> tcalc xs us = false ->
  solve fuel maxiter xs us feas s = KRet true s' ->
  exists cx cu, let d := dir (sys cx cu) in
  sized (q_run pb) cx cu /\ xlt (stopc (sys cx cu) d) th_stop = true /\
  ((k_xs s' = cx /\ k_us s' = cu) \/
   exists a uo, In a alphas /\ length uo = T /\
     (k_xs s', k_us s') = trial_loop vscale ustep pb a (q_run pb) cx cu uo (fst (fst d)) (snd (fst d))).
Proof.
  intros Hc Nd Nc E. pose proof (C76_success _ _ _ _ _ _ _ Hc E) as (_ & S1 & _).
  destruct Hc as (Sz & Lu & Ds).
  unfold k_solve in E. set (s0 := KSt xs us _ _ _ _ _ _ _ _ _ _ _ _ _ _) in E.
  destruct (iterations_clean vscale ustep tcalc tdiff sys dir ei stopc pb reg_max th_grad alphas
            th_acceptstep th_stop Ds fuel Nd maxiter 0 s0 true s' (conj Sz Lu : lens pb s0) Nc (Forall_nil _) E) as (_ & _ & H).
  clear s0 E. destruct (H eq_refl) as (i & s0 & L0 & (acc & _ & _ & D & _ & _ & (P1 & P2 & P3) & T2)). cbn [andb negb] in P1, P2, P3.
  exists (k_xs s0), (k_us s0). cbv zeta. rewrite <- P3, <- D. split; [apply L0|].
  split; [rewrite D; exact S1|].
  destruct T2 as [(_ & E1 & E2 & _)|(a & uo & d0 & c & _ & Hin & L1 & E1 & _)].
  - left. split; assumption.
  - right. exists a, uo. auto.
Qed.

(** C75 for this solver, when calcDiff does not throw. *)
Theorem C75_kkt_partial fuel maxiter xs us feas s b s' :
  kcall xs us s -> (forall xs us, tdiff xs us = false) -> tcalc xs us = false ->
  solve fuel maxiter xs us feas s = KRet b s' ->
  Forall (fun e => match e with
    | KDir _ lx lu cx cu => lx = cx /\ lu = cu
    | KCall _ cx cu _ _ cost _ => cost = cost_of cx cu
    | _ => True end) (k_log s') /\
  (maxiter <> 0 -> k_cost s' = cost_of (k_xs s') (k_us s')).
Proof.
  intros (Sz & Lu & Ds) Nd Nc E.
  unfold k_solve in E. set (s0 := KSt xs us _ _ _ _ _ _ _ _ _ _ _ _ _ _) in E.
  destruct (iterations_clean vscale ustep tcalc tdiff sys dir ei stopc pb reg_max th_grad alphas
            th_acceptstep th_stop Ds fuel Nd maxiter 0 s0 b s' (conj Sz Lu : lens pb s0) Nc (Forall_nil _) E) as (H1 & H2 & _).
  split; [eapply Forall_impl; [|exact H1]; intros [?|?|?]; cbn; tauto|].
  intro Hm. apply H2. left. lia.
Qed.

(** Every accepted step uses a step length of the list and either was predicted by its
    own system to improve by less than th_grad, or started from a candidate marked
    infeasible, or decreases the cost by more than th_acceptstep times the prediction. *)
Theorem C87_accepted fuel maxiter xs us feas s b s' :
  solve fuel maxiter xs us feas s = KRet b s' ->
  Forall (fun e => match e with
    | KAccept f a d0 before after => In a alphas /\ exists k d1,
        (k = k_sys s \/ exists cx cu, k = sys cx cu) /\ ei k (dir k) = (d0, d1) /\
        (xlt d0 th_grad = true \/ f = false \/
         xlt (xmul th_acceptstep (xadd (xmul a d0) (xmul (xmul (xmul (Fin (1 # 2)) a) a) d1)))
             (xsub before after) = true)
    | _ => True end) (k_log s').
Proof.
  intro E. unfold k_solve in E. set (s0 := KSt xs us _ _ _ _ _ _ _ _ _ _ _ _ _ _) in E.
  pose proof (iterations_acc vscale ustep tcalc tdiff sys dir ei stopc pb reg_max th_grad alphas
                th_acceptstep th_stop (k_sys s) fuel maxiter 0 true s0 (or_introl eq_refl) (Forall_nil _)) as H.
  rewrite E in H. exact H.
Qed.

(** So the cost goes down unless d0 is below th_grad, as soon as the predictions of the
    systems met are not negative. *)
Definition predicts_decrease (k : K) : Prop := forall a, In a alphas ->
  let '(d0, d1) := ei k (dir k) in xlt d0 th_grad = false ->
  exists p, xadd (xmul a d0) (xmul (xmul (xmul (Fin (1 # 2)) a) a) d1) = Fin p /\ (0 <= p)%Q.

Theorem C87_decrease_partial t fuel maxiter xs us feas s b s' :
  th_acceptstep = Fin t -> (0 <= t)%Q ->
  predicts_decrease (k_sys s) -> (forall cx cu, predicts_decrease (sys cx cu)) ->
  solve fuel maxiter xs us feas s = KRet b s' ->
  Forall (fun e => match e with
    | KAccept true _ d0 before after => xlt d0 th_grad = true \/ xlt after before = true
    | _ => True end) (k_log s').
Proof.
  intros Ht H0 Hs Hp E. eapply Forall_impl; [|exact (C87_accepted _ _ _ _ _ _ _ _ E)].
  intros [?|[|] a d0 c c'|?]; auto. intros (Hin & k & d1 & Hr & Hk & H).
  assert (predicts_decrease k) as P by (destruct Hr as [->|(cx & cu & ->)]; auto).
  specialize (P a Hin). rewrite Hk in P. destruct (xlt d0 th_grad); [now left|right].
  destruct (P eq_refl) as (p & Ep & Pp). destruct H as [H|[H|H]]; [discriminate|discriminate|].
  rewrite Ep, Ht in H.
  apply xsub_above with (xmul (Fin t) (Fin p)); [|exact H].
  cbn [xmul]. apply xle_fin. rewrite Qred_correct. now apply Qmult_le_0_compat.
Qed.
End General.

(** * A scalar instance: one running node, one-dimensional state and control *)
Local Open Scope Q_scope.
(** Gaps and derivatives at a point. *)
Record ksys := KSys {
  y_g0 : Q; y_g1 : Q;                       (* x0 - xs[0], f(xs[0], us[0]) - xs[1] *)
  y_fx : Q; y_fu : Q; y_lx : Q; y_lu : Q; y_lxx : Q; y_lxu : Q; y_luu : Q; y_tx : Q; y_txx : Q }.
Definition ksys0 : ksys := KSys 0 0 0 0 0 0 0 0 0 0 0.
Definition kkt_at (x0 : Q) (d : snode) (xs us : list Q) : ksys :=
  match xs, us with
  | [x; y], [u] => KSys (Qred (x0 - x)) (Qred (sf d x u - y)) (sfx d x u) (sfu d x u) (slx d x u) (slu d x u)
                        (slxx d x u) (slxu d x u) (sluu d x u) (stlx d y) (stlxx d y)
  | _, _ => ksys0
  end.
(** The solution of the linear system. *)
Definition kkt_dir (k : ksys) : list Q * list Q * (Q * Q) :=
  let dx0 := y_g0 k in
  let du := Qred (- (y_lu k + y_lxu k * dx0 + y_fu k * (y_tx k + y_txx k * (y_fx k * dx0 + y_g1 k)))
                  / (y_luu k + y_fu k * y_fu k * y_txx k)) in
  let dx1 := Qred (y_fx k * dx0 + y_fu k * du + y_g1 k) in
  let l1 := Qred (- (y_txx k * dx1 + y_tx k)) in
  let l0 := Qred (y_fx k * l1 - y_lxx k * dx0 - y_lxu k * du - y_lx k) in
  ([dx0; dx1], [du], (l0, l1)).
(** It is the solution: the five rows of [kkt * primaldual = -kktref]. *)
Lemma kkt_dir_solves k : ~ y_luu k + y_fu k * y_fu k * y_txx k == 0 ->
  match kkt_dir k with
  | ([dx0; dx1], [du], (l0, l1)) =>
      y_lxx k * dx0 + y_lxu k * du + l0 - y_fx k * l1 == - y_lx k /\
      y_txx k * dx1 + l1 == - y_tx k /\
      y_lxu k * dx0 + y_luu k * du - y_fu k * l1 == - y_lu k /\
      dx0 == y_g0 k /\ dx1 - y_fx k * dx0 - y_fu k * du == y_g1 k
  | _ => False
  end.
Proof.
  intro H. unfold kkt_dir. rewrite !Qred_correct.
  split; [ring|]. split; [ring|]. split; [|split; [reflexivity|ring]]. field. exact H.
Qed.
(** kkt.cpp:164-173 and 143-162 *)
Definition kkt_ei (k : ksys) (d : list Q * list Q * (Q * Q)) : xf * xf :=
  match d with
  | ([dx0; dx1], [du], _) =>
      (Fin (Qred (- (y_lx k * dx0 + y_tx k * dx1 + y_lu k * du))),
       Fin (Qred (- (y_lxx k * dx0 * dx0 + 2 * y_lxu k * dx0 * du + y_luu k * du * du + y_txx k * dx1 * dx1))))
  | _ => (NaN, NaN)
  end.
Definition kkt_stop (k : ksys) (d : list Q * list Q * (Q * Q)) : xf :=
  let '(l0, l1) := snd d in
  let sq (q : Q) := q * q in
  Fin (Qred (sq (y_lx k + l0 - y_fx k * l1) + sq (y_tx k + l1) + sq (y_lu k - y_fu k * l1) +
             sq (y_g0 k) + sq (y_g1 k))).
Definition kkt_ustep (u : Q) (a : xf) (v : Q) : Q := match a with Fin a => Qred (u + a * v) | _ => 0 end.
Definition kst0 (was : bool) : kst Q Q Q ksys (Q * Q) :=
  KSt [] [] false was [0] [] [] ksys0 ([], [], (0, 0)) (Fin 0) (Fin 0) (Fin 1) (Fin 0) (Fin 0) (Fin 0) [].
(** The constants of kkt.cpp:17-32 and solver-base.cpp. *)
Definition halves : list xf := map (fun n => Fin (Qred (1 # (2 ^ N.succ_pos n)))) [0; 1; 2; 3; 4; 5; 6; 7; 8]%N.
Definition kalphas : list xf := Fin 1 :: halves.
Definition skkt (tcalc tdiff : list Q -> list Q -> bool) (x0 : Q) (d : snode) (fuel maxiter : nat)
    (xs us : list Q) (feas was : bool) :=
  k_solve qscale kkt_ustep tcalc tdiff (kkt_at x0 d) kkt_dir kkt_ei kkt_stop (sprob x0 d)
          (Fin 1000000000) (Fin (1 # 1000000000000)) kalphas (Fin (1 # 10)) (Fin (1 # 1000000000))
          fuel maxiter xs us feas (kst0 was).
Definition never (_ _ : list Q) : bool := false.

(** C17: [x' = x² + u], cost [u²/2 + x_T²/2], [x0 = 0], guess [xs = (1, 0)], [us = (0)].
    One iteration; the candidate [(0, -1/2), (1/2)] is marked feasible, the dynamics give
    [1/2] instead of [-1/2]. *)
Definition square : snode :=
  SNode (fun x u => x * x + u) (fun _ u => (1 # 2) * u * u) (fun x _ => 2 * x) (fun _ _ => 1)
        (fun _ _ => 0) (fun _ u => u) (fun _ _ => 0) (fun _ _ => 0) (fun _ _ => 1)
        (fun x => (1 # 2) * x * x) (fun x => x) (fun _ => 1).

Theorem C17_kkt_flag_refuted :
  exists b s' x y u, skkt never never 0 square 2 1 [1; 0] [0] false false = KRet b s' /\
  k_feas s' = true /\ k_xs s' = [x; y] /\ k_us s' = [u] /\ ~ y == sf square x u.
Proof.
  vm_compute. do 5 eexists. split; [reflexivity|]. split; [reflexivity|]. split; [reflexivity|].
  split; [reflexivity|]. discriminate.
Qed.

(** The run goes on and succeeds: three iterations, three accepted steps. *)
Example C76_run :
  kcall kkt_dir (sprob 0 square) [1; 0] [0] (kst0 false) /\
  exists s', skkt never never 0 square 2 10 [1; 0] [0] false false = KRet true s' /\
  kcalls (k_log s') = [2; 1; 0]%nat /\ last_taken (k_log s') = Some true /\
  k_lx s' = [0; 0] /\ k_xs s' = [0; 0].
Proof.
  split; [split; [split; reflexivity|]; split; [reflexivity|]; intro k; split; reflexivity|].
  vm_compute. eexists. repeat split.
Qed.

(** Every model evaluation may throw: the call still ends. *)
Example C13_kkt_throws :
  skkt (fun _ _ => true) never 0 square 1 3 [1; 0] [0] false false = KFuel /\
  exists s', skkt (fun _ _ => true) never 0 square 2 3 [1; 0] [0] false false = KRet false s' /\
             kcalls (k_log s') = [2; 1; 0]%nat.
Proof. split; [vm_compute; reflexivity|]. vm_compute. eexists. split; reflexivity. Qed.

(** C75: calcDiff throws once, at the candidate [(0, -1/2)] of the second iteration.  In
    the third iteration the candidate is [(-1, -1)], where nothing throws, yet the
    direction is that of the system of the initial guess. *)
Definition once (xs _ : list Q) : bool :=
  match xs with [_; y] => Qeq_bool y (-1 # 2) | _ => false end.

Theorem C75_kkt_stale_refuted :
  exists b s' lx lu x y cu, skkt never once 0 square 2 3 [1; 0] [0] false false = KRet b s' /\
  In (KDir 2 lx lu [x; y] cu) (k_log s') /\ lx = [1; 0] /\ ~ x == 1 /\
  once [x; y] cu = false.
Proof.
  vm_compute. do 7 eexists. split; [reflexivity|]. split; [do 2 right; left; reflexivity|].
  split; [reflexivity|]. split; [discriminate|reflexivity].
Qed.

(** C76: [was_feasible_] is left true by an earlier call.  The guess
    [xs = (0, 1e-5)], [us = (0)] is announced infeasible and has a gap; every trial throws.
    The call returns true with the guess, still marked infeasible. *)
Definition elsewhere (xs _ : list Q) : bool :=
  match xs with [_; y] => negb (Qeq_bool y (1 # 100000)) | _ => false end.

Theorem C76_stale_flag_refuted :
  exists s' x y u, skkt elsewhere never 0 square 2 1 [0; 1 # 100000] [0] false true = KRet true s' /\
  last_taken (k_log s') = None /\ k_feas s' = false /\
  k_xs s' = [x; y] /\ k_us s' = [u] /\ ~ y == sf square x u.
Proof.
  vm_compute. do 4 eexists. split; [reflexivity|]. split; [reflexivity|]. split; [reflexivity|].
  split; [reflexivity|]. split; [reflexivity|]. discriminate.
Qed.

(** C87: [l(u) = -u²/2], guess [u = 1], feasible.  The Newton direction leads to the
    maximum; d0 is negative, hence below th_grad, and the cost goes from -1/2 to 0. *)
Definition concave : snode :=
  SNode (fun x u => x) (fun _ u => (-1 # 2) * u * u) (fun _ _ => 1) (fun _ _ => 0)
        (fun _ _ => 0) (fun _ u => - u) (fun _ _ => 0) (fun _ _ => 0) (fun _ _ => -1)
        (fun x => 0) (fun x => 0) (fun _ => 0).

Theorem C87_increase_refuted :
  exists b s' a d0 before after, skkt never never 0 concave 2 1 [0; 0] [1] true true = KRet b s' /\
  In (KAccept true a (Fin d0) (Fin before) (Fin after)) (k_log s') /\ before < after.
Proof.
  vm_compute. do 6 eexists. split; [reflexivity|]. split; [right; left; reflexivity|]. reflexivity.
Qed.

(** A step accepted because the cost went down: [l(u) = (u-1)²/2]. *)
Definition bowl : snode :=
  SNode (fun x u => x) (fun _ u => Qred ((1 # 2) * (u - 1) * (u - 1))) (fun _ _ => 1) (fun _ _ => 0)
        (fun _ _ => 0) (fun _ u => u - 1) (fun _ _ => 0) (fun _ _ => 0) (fun _ _ => 1)
        (fun x => 0) (fun x => 0) (fun _ => 0).
Lemma bowl_predicts xs us :
  predicts_decrease kkt_dir kkt_ei (Fin (1 # 1000000000000)) kalphas (kkt_at 0 bowl xs us).
Proof.
  assert (forall k a, (0 <= a)%Q -> a <= 1 -> y_lx k = 0 -> y_tx k = 0 -> y_lxx k = 0 -> y_lxu k = 0 -> y_txx k = 0 ->
    y_fu k = 0 -> y_luu k = 1 \/ y_luu k = 0 /\ y_lu k = 0 ->
    let '(d0, d1) := kkt_ei k (kkt_dir k) in xlt d0 (Fin (1 # 1000000000000)) = false ->
    exists p, xadd (xmul (Fin a) d0) (xmul (xmul (xmul (Fin (1 # 2)) (Fin a)) (Fin a)) d1) = Fin p /\ (0 <= p)%Q) as H.
  { intros k a A0 A1 E1 E2 E3 E4 E5 E6 E7. unfold kkt_ei, kkt_dir. rewrite E1, E2, E3, E4, E5, E6.
    intros _. cbn [xmul xadd]. eexists. split; [reflexivity|]. rewrite !Qred_correct.
    set (l := y_lu k) in *. set (g := y_g0 k). set (h := y_g1 k). set (fx := y_fx k).
    destruct E7 as [->|[-> E7]].
    - setoid_replace (a * - (0 * g + 0 * (fx * g + 0 * (- (l + 0 * g + 0 * (0 + 0 * (fx * g + h))) / (1 + 0 * 0 * 0)) + h) +
          l * (- (l + 0 * g + 0 * (0 + 0 * (fx * g + h))) / (1 + 0 * 0 * 0))) +
        (1 # 2) * a * a * - (0 * g * g + 2 * 0 * g * (- (l + 0 * g + 0 * (0 + 0 * (fx * g + h))) / (1 + 0 * 0 * 0)) +
          1 * (- (l + 0 * g + 0 * (0 + 0 * (fx * g + h))) / (1 + 0 * 0 * 0)) * (- (l + 0 * g + 0 * (0 + 0 * (fx * g + h))) / (1 + 0 * 0 * 0)) +
          0 * (fx * g + 0 * (- (l + 0 * g + 0 * (0 + 0 * (fx * g + h))) / (1 + 0 * 0 * 0)) + h) *
          (fx * g + 0 * (- (l + 0 * g + 0 * (0 + 0 * (fx * g + h))) / (1 + 0 * 0 * 0)) + h)))
        with (a * (1 - (1 # 2) * a) * (l * l)) by (field; discriminate).
      apply Qmult_le_0_compat; [|nra]. nra.
    - rewrite E7. match goal with |- 0 <= ?e => setoid_replace e with 0; [apply Qle_refl|] end.
      unfold Qdiv. change (/ (0 + 0 * 0 * 0)) with 0. ring. }
  assert (forall a, In a kalphas -> exists q, a = Fin q /\ (0 <= q)%Q /\ q <= 1) as A.
  { intros a Ha. cbv in Ha. repeat (destruct Ha as [<- | Ha]; [eexists; split; [reflexivity|]; split; discriminate|]). destruct Ha. }
  intros a Ha. destruct (A a Ha) as (q & -> & Q0 & Q1).
  apply H; auto; destruct xs as [|x [|y [|z xs]]]; try reflexivity; destruct us as [|u [|v us]]; try reflexivity;
    cbn [kkt_at y_luu y_lu ksys0]; auto.
Qed.
Lemma ksys0_predicts : predicts_decrease kkt_dir kkt_ei (Fin (1 # 1000000000000)) kalphas ksys0.
Proof. exact (bowl_predicts [] []). Qed.
Example C87_run :
  predicts_decrease kkt_dir kkt_ei (Fin (1 # 1000000000000)) kalphas (k_sys (kst0 true)) /\
  (forall xs us, predicts_decrease kkt_dir kkt_ei (Fin (1 # 1000000000000)) kalphas (kkt_at 0 bowl xs us)) /\
  exists b s', skkt never never 0 bowl 2 1 [0; 0] [0] true true = KRet b s' /\
  In (KAccept true (Fin 1) (Fin 1) (Fin (1 # 2)) (Fin 0)) (k_log s').
Proof.
  split; [exact ksys0_predicts|]. split; [exact bowl_predicts|].
  vm_compute. do 2 eexists. split; [reflexivity|]. right; left; reflexivity.
Qed.

Print Assumptions C87_accepted.
Print Assumptions C87_decrease_partial.
Print Assumptions C87_increase_refuted.
Print Assumptions C13_kkt_terminates.
Print Assumptions C76_callbacks.
Print Assumptions C76_flags.
Print Assumptions C76_success.
Print Assumptions C76_success_point_partial.
Print Assumptions C75_kkt_partial.
Print Assumptions C17_kkt_flag_refuted.
Print Assumptions C75_kkt_stale_refuted.
Print Assumptions C76_stale_flag_refuted.
