(** C97: residuals evaluated inside an action see the state passed to it. *)
From Coq Require Import List Bool Arith Lia.
From Verif Require Import Fresh_Model.
Import ListNotations.

(** ** Specification *)
(** Pinocchio's routines: what the fields depend on, and fields computed from fields of one state are
    those of that state. *)
Record contract (P : pin) : Prop := {
  k_q : forall f q v v', In f [LiMi; OMi; OMf; Jac; Com; JCom] -> F P f q v = F P f q v';
  k_global : forall q v, up_global P (F P LiMi q v) = F P OMi q v;
  k_frame : forall q v, up_frame P (F P OMi q v) = F P OMf q v;
  k_jac : forall q v, joint_jac P (F P OMi q v) = F P Jac q v;
  k_jcom : forall q v, jac_com P (F P OMi q v) = F P JCom q v;
  k_com : forall q v, pos_com P (F P OMi q v) = F P Com q v;
  k_mom : forall q v, momentum P (F P LiMi q v) (F P Vel q v) = F P Hg q v }.
(** The residual and its Jacobian at a state. *)
Definition true_r (P : pin) (k : residual) (q : pq P) (v : pv P) : out P :=
  val_r P (map (fun f => F P f q v) (reads_calc k)).
Definition true_Rx (P : pin) (k : residual) (q : pq P) (v : pv P) : out P :=
  val_d P (map (fun f => F P f q v) (reads_diff k)).
(** calc and calcDiff at (q, v), after any history on data with any initial content, give both. *)
Definition sees (a : action) (k : residual) (P : pin) (d0 : pdata P) (l : list (op P)) (q : pq P) (v : pv P) : Prop :=
  w_r P (run P a k d0 (l ++ [Calc P q v])) = Some (true_r P k q v) /\
  let w := run P a k d0 (l ++ [Calc P q v; Diff P q v]) in
  w_r P w = Some (true_r P k q v) /\ w_Rx P w = Some (true_Rx P k q v).
Definition sees_terminal (a : action) (k : residual) (P : pin) (d0 : pdata P) (l : list (op P)) (q : pq P) (v : pv P) : Prop :=
  w_r P (run P a k d0 (l ++ [CalcT P q v])) = Some (true_r P k q v) /\
  let w := run P a k d0 (l ++ [CalcT P q v; DiffT P q v]) in
  w_r P w = Some (true_r P k q v) /\ w_Rx P w = Some (true_Rx P k q v).

(** The combinations that work: running nodes and terminal nodes. *)
Definition works (a : action) (k : residual) : bool :=
  match k, a with
  | (Frame | PairCollision), _ => true
  | FrameVelocity, Impulse => false
  | FrameVelocity, _ => true
  | CoMPosition, (FreeFwd | FreeInv) => false
  | CoMPosition, _ => true
  | CentroidalMomentum, (FreeFwdArmature | ContactFwd) => true
  | CentroidalMomentum, _ => false
  end.
Definition works_terminal (a : action) (k : residual) : bool :=
  match k, a with
  | CentroidalMomentum, _ => false
  | FrameVelocity, Impulse => false
  | _, _ => true
  end.

Lemma run_snoc P a k d0 l o : run P a k d0 (l ++ [o]) = step P a k (run P a k d0 l) o.
Proof. unfold run. now rewrite fold_left_app. Qed.

Ltac upd_all C :=
  unfold true_r, true_Rx; cbn;
  rewrite ?(k_global _ C), ?(k_frame _ C), ?(k_jac _ C), ?(k_jcom _ C), ?(k_com _ C), ?(k_mom _ C); try reflexivity.

Theorem C97_running_partial : forall a k, works a k = true ->
  forall P, contract P -> forall d0 l q v, sees a k P d0 l q v.
Proof.
intros a k H P C d0 l q v. unfold sees.
change [Calc P q v; Diff P q v] with ([Calc P q v] ++ [Diff P q v]). rewrite app_assoc, !run_snoc.
set (w := run P a k d0 l). clearbody w.
destruct k, a; try discriminate H; (split; [|split]); upd_all C.
all: now rewrite ?(k_q _ C Jac q _ v), ?(k_q _ C OMi q _ v) by (cbn; tauto).
Qed.
Theorem C97_terminal_partial : forall a k, works_terminal a k = true ->
  forall P, contract P -> forall d0 l q v, sees_terminal a k P d0 l q v.
Proof.
intros a k H P C d0 l q v. unfold sees_terminal.
change [CalcT P q v; DiffT P q v] with ([CalcT P q v] ++ [DiffT P q v]). rewrite app_assoc, !run_snoc.
set (w := run P a k d0 l). clearbody w.
destruct k, a; try discriminate H; (split; [|split]); upd_all C.
all: now rewrite ?(k_q _ C Jac q _ v), ?(k_q _ C OMi q _ v) by (cbn; tauto).
Qed.

(** ** The other combinations do not work *)
(** A robot where every field shows what it was computed from. *)
Definition qonly (f : field) : bool := match f with Vel | OVel | Hg | DHg => false | _ => true end.
Definition toy : pin := Pin nat nat nat nat (fun f q v => if qonly f then q else q + v)
  (fun x => x) (fun x => x) (fun x => x) (fun x => x) (fun x => x) (fun _ x => x) 0 (fun q v => S v)
  (fun l => fold_right Nat.add 0 l) (fun l => fold_right Nat.add 0 l).
Lemma toy_contract : contract toy.
Proof.
constructor; try reflexivity. intros f q v v' H. cbn in H.
destruct H as [<-|[<-|[<-|[<-|[<-|[<-|[]]]]]]]; reflexivity.
Qed.
(** Whatever a new data contains, some state is evaluated wrongly at once. *)
Theorem C97_running_refuted : forall a k, works a k = false ->
  exists P, contract P /\ forall d0, exists q v, ~ sees a k P d0 [] q v.
Proof.
intros a k H. exists toy. split; [exact toy_contract|]. intro d0.
exists (S (fld toy d0 Com + fld toy d0 Hg)), 1. unfold sees.
destruct k, a; try discriminate H; cbn; intros (A & B & D); try (injection A as A); try (injection D as D); lia.
Qed.
Theorem C97_terminal_refuted : forall a k, works_terminal a k = false ->
  exists P, contract P /\ forall d0, exists q v, ~ sees_terminal a k P d0 [] q v.
Proof.
intros a k H. exists toy. split; [exact toy_contract|]. intro d0.
exists (S (fld toy d0 DHg)), 1. unfold sees_terminal.
destruct k, a; try discriminate H; cbn; intros (A & B & D); try (injection A as A); try (injection D as D); lia.
Qed.

(** A running history with wrong and right residuals. *)
Example C97_ex : let d0 : pdata toy := PData toy (fun _ => 0) 0 in
  sees ContactInv CoMPosition toy d0 [Calc toy 9 9; DiffT toy 8 8] 3 4 /\
  w_r toy (run toy FreeFwd CoMPosition d0 [CalcT toy 9 9; Calc toy 3 4]) = Some 9 /\
  true_r toy CoMPosition 3 4 = 3.
Proof. split; [apply C97_running_partial; [reflexivity|exact toy_contract]|]. split; reflexivity. Qed.
Print Assumptions C97_running_partial.
Print Assumptions C97_terminal_partial.
Print Assumptions C97_running_refuted.
Print Assumptions C97_terminal_refuted.
