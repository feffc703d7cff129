(** Property C07: installing a candidate. *)
From Coq Require Import List Arith Bool ZArith.
From Verif Require Import Common SolverBase_Model SolverBase_Spec SolverBase_Proofs.
Import ListNotations.

(** Example: a two-node problem with one-dimensional states; the second node has
    two controls. *)
Definition xdims : dims (list Z) :=
  Dims [1; 1] 1 [1; 2] 1 [[0%Z]; [0%Z]] [0%Z].
Definition xzero (n : nat) : list Z := repeat 0%Z n.
Example C07_sample_wf : dims_wf (@length Z) xzero xdims.
Proof.
  repeat split; simpl; auto; repeat constructor. intro n. apply repeat_length.
Qed.

(** Valid states with invalid controls: the call throws after the states have been
    overwritten. *)
Theorem C07_rejected_call_changes_states_refuted :
  exists (d : dims (list Z)) c xs us f c',
    dims_wf (@length Z) xzero d /\ cand_reachable (@length Z) xzero d c /\
    set_candidate (@length Z) xzero d xs us f c = Throw c' /\ c_xs c' <> c_xs c.
Proof.
  exists xdims, (new_cand xzero xdims), [[1%Z]; [2%Z]; [3%Z]], [[5%Z]; [6%Z]], true. eexists.
  split; [exact C07_sample_wf|]. split; [exists []; reflexivity|]. split; [reflexivity|]. discriminate.
Qed.
Print Assumptions C07_rejected_call_changes_states_refuted.

(** What holds: a valid guess is stored exactly, together with the flag; an invalid
    one is rejected, never touches the controls nor the flag, and touches the states
    only if they were valid themselves.
    Missing with respect to C07: the states are not restored in that last case. *)
Theorem C07_set_candidate_partial :
  forall V vsize vzero (d : dims V) c xs us f,
  dims_wf vsize vzero d -> cand_reachable vsize vzero d c ->
  (valid_guess vsize d xs us ->
   set_candidate vsize vzero d xs us f c = Ok (Cand (meant_x d xs) (meant_u vzero d us) f) tt) /\
  (~ valid_guess vsize d xs us ->
   exists xs', set_candidate vsize vzero d xs us f c = Throw (Cand xs' (c_us c) (c_feas c)) /\
     ((xs = [] \/ fits_x vsize d xs) /\ xs' = meant_x d xs \/
      ~ (xs = [] \/ fits_x vsize d xs) /\ xs' = c_xs c)).
Proof. intros. apply set_candidate_spec; auto. now apply (cand_reachable_fits vsize vzero). Qed.
Print Assumptions C07_set_candidate_partial.

(** set_xs and set_us do reject without side effect. *)
Theorem C07_set_xs_atomic :
  forall V vsize vzero (d : dims V) c xs,
  dims_wf vsize vzero d ->
  (fits_x vsize d xs -> set_xs vsize d xs c = Ok (Cand xs (c_us c) (c_feas c)) tt) /\
  (~ fits_x vsize d xs -> set_xs vsize d xs c = Throw c).
Proof. intros. now apply (set_xs_spec vsize vzero). Qed.
Print Assumptions C07_set_xs_atomic.

Theorem C07_set_us_atomic :
  forall V vsize vzero (d : dims V) c us,
  dims_wf vsize vzero d ->
  (fits_u vsize d us -> set_us vsize d us c = Ok (Cand (c_xs c) us (c_feas c)) tt) /\
  (~ fits_u vsize d us -> set_us vsize d us c = Throw c).
Proof. intros. now apply (set_us_spec vsize vzero). Qed.
Print Assumptions C07_set_us_atomic.

(** After any history, exceptions included, the stored trajectory has one state per
    node (terminal included) and one control per running node, of the dimensions of
    the nodes, and nothing undefined has happened. *)
Theorem C07_histories_well_sized :
  forall V vsize vzero (d : dims V) os,
  dims_wf vsize vzero d ->
  exists c, cand_run vsize vzero d os (new_cand vzero d) = Some c /\
    fits_x vsize d (c_xs c) /\ fits_u vsize d (c_us c).
Proof.
  intros V vsize vzero d os W.
  exact (cand_run_fits vsize vzero d os _ W (new_cand_fits vsize vzero d W)).
Qed.
Print Assumptions C07_histories_well_sized.

Example C07_sample :
  set_candidate (@length Z) xzero xdims [[1%Z]; [2%Z]; [3%Z]] [] true (new_cand xzero xdims) =
  Ok (Cand [[1%Z]; [2%Z]; [3%Z]] [[0%Z]; [0%Z; 0%Z]] true) tt.
Proof. reflexivity. Qed.

(** A solver that has not been run calls its candidate feasible only if the last valid guess was given as such. *)
Definition flag_of V (vsize : V -> nat) (d : dims V) (os : list (cand_op V)) (b : bool) : Prop :=
  (b = false /\ forall xs us f, In (OpCandidate xs us f) os -> ~ valid_guess vsize d xs us) \/
  (exists pre xs us post, os = pre ++ OpCandidate xs us b :: post /\ valid_guess vsize d xs us /\
     forall xs us f, In (OpCandidate xs us f) post -> ~ valid_guess vsize d xs us).
Lemma flag_run V vsize vzero (d : dims V) os : dims_wf vsize vzero d -> forall c c', fits_c vsize d c -> cand_run vsize vzero d os c = Some c' ->
  (c_feas c' = c_feas c /\ forall xs us f, In (OpCandidate xs us f) os -> ~ valid_guess vsize d xs us) \/
  (exists pre xs us post, os = pre ++ OpCandidate xs us (c_feas c') :: post /\ valid_guess vsize d xs us /\
     forall xs us f, In (OpCandidate xs us f) post -> ~ valid_guess vsize d xs us).
Proof.
  intro W. induction os as [|o os IH]; intros c c' F H; cbn [cand_run] in H.
  - injection H as <-. left. split; auto.
  - destruct (cand_step_fits vsize vzero d o c W F) as (c1 & E & F1). rewrite E in H.
    destruct (IH c1 c' F1 H) as [[Hc Hn]|(pre & xs & us & post & -> & Hv & Hn)].
    2:{ right. exists (o :: pre), xs, us, post. auto. }
    destruct o as [xs us f|xs|us]; cbn [cand_step] in E.
    + destruct (set_candidate_spec vsize vzero d xs us f c W F) as [H1 H2]. destruct (valid_dec vsize d xs us) as [Hv|Hv].
      * rewrite (H1 Hv) in E. injection E as <-. cbn [c_feas] in Hc. right. exists [], xs, us, os. rewrite Hc. auto.
      * destruct (H2 Hv) as (xs' & E2 & _). rewrite E2 in E. injection E as <-. cbn [c_feas] in Hc. left. split; auto.
        intros xs0 us0 f0 [[= <- <- <-]|Hi]; eauto.
    + left. split; [|intros xs0 us0 f0 [[=]|Hi]; eauto]. rewrite Hc. destruct (set_xs_spec vsize vzero d xs c W) as [H1 H2].
      destruct (guess_dec vsize (d_nx d ++ [d_nxT d]) xs) as [Hv|Hv]; [rewrite (H1 Hv) in E|rewrite (H2 Hv) in E]; injection E as <-; reflexivity.
    + left. split; [|intros xs0 us0 f0 [[=]|Hi]; eauto]. rewrite Hc. destruct (set_us_spec vsize vzero d us c W) as [H1 H2].
      destruct (guess_dec vsize (d_nu d) us) as [Hv|Hv]; [rewrite (H1 Hv) in E|rewrite (H2 Hv) in E]; injection E as <-; reflexivity.
Qed.
Theorem C07_flag : forall V vsize vzero (d : dims V) os,
  dims_wf vsize vzero d ->
  exists c, cand_run vsize vzero d os (new_cand vzero d) = Some c /\ flag_of V vsize d os (c_feas c).
Proof.
  intros V vsize vzero d os W. destruct (cand_run_fits vsize vzero d os _ W (new_cand_fits vsize vzero d W)) as (c & E & _).
  exists c. split; auto. exact (flag_run V vsize vzero d os W _ c (new_cand_fits vsize vzero d W) E).
Qed.
Print Assumptions C07_flag.
(** A valid guess given as feasible, then a rejected one given as infeasible *)
Example C07_flag_ex : exists c,
  cand_run (@length Z) xzero xdims [OpCandidate [] [] true; OpUs [[5%Z]; [6%Z; 7%Z]]; OpCandidate [] [[1%Z]] false] (new_cand xzero xdims) = Some c /\ c_feas c = true.
Proof. eexists. split; [vm_compute; reflexivity|reflexivity]. Qed.
