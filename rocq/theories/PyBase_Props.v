(** C115-C117: models, states and parametrizations written in Python (model: PyBase_Model.v). *)
From Coq Require Import List Arith Bool Lia.
From Verif Require Import PyBase_Model.
Import ListNotations.

Section Props.
Context {V : Type} (zero nan : V) (plus minus : V -> V -> V) (isnan : V -> bool) (norm_nan : list V -> bool).

(** ** C115 *)
(** What is assumed of Eigen's norm: of an empty vector it is 0, without NaN it is not NaN, of NaNs
    only it is NaN.  (Vectors that are partly NaN: nothing.) *)
Record eigen_norm : Prop := {
  norm_nil : norm_nan [] = false;
  norm_clean : forall u, (forall v, In v u -> isnan v = false) -> norm_nan u = false;
  norm_nans : forall u, u <> [] -> (forall v, In v u -> isnan v = true) -> norm_nan u = true }.
Hypothesis nan_is : isnan nan = true.
Hypothesis EN : eigen_norm.

Definition clean (u : list V) : Prop := forall v, In v u -> isnan v = false.

(** A call with a control reaches the Python method with that control, a call without reaches it
    without, once, for every kind of model. *)
Theorem C115_calls_partial k nx nu f x u : k <> KIntegrated -> k <> KActuation -> nu <> 0 ->
  length x = nx -> length u = nu -> clean u ->
  m_run norm_nan (m_create zero nan k nx nu) f x u = Val [PyRun f x u] /\
  m_term norm_nan (m_create zero nan k nx nu) f x = Val [PyTerm f x].
Proof.
  intros K1 K2 N Hx Hu C. assert (B : sees_nan k = true) by (destruct k; cbn; congruence).
  assert (L : length (repeat nan nu) = nu) by apply repeat_length.
  assert (NN : norm_nan (repeat nan nu) = true).
  { apply (norm_nans EN).
    - destruct nu; [congruence|discriminate].
    - intros v Hv. now rewrite (repeat_spec _ _ _ Hv). }
  split.
  - unfold m_run, m_create. cbn [m_kind m_nx m_nu]. rewrite Hx, Hu, !Nat.eqb_refl, B, (norm_clean EN u C). reflexivity.
  - unfold m_term, m_run, m_create. rewrite B. cbn [m_kind m_nx m_nu m_unone].
    rewrite Hx, L, !Nat.eqb_refl, B, NN. destruct k; try congruence; reflexivity.
Qed.
(** Integrated actions and actuations get every control as it is. *)
Theorem C115_any_control k nx nu f x u : k = KIntegrated \/ k = KActuation -> length x = nx -> length u = nu ->
  m_run norm_nan (m_create zero nan k nx nu) f x u = Val [PyRun f x u].
Proof.
  intros K Hx Hu. unfold m_run, m_create. cbn [m_kind m_nx m_nu]. rewrite Hx, Hu, !Nat.eqb_refl. now destruct K as [-> | ->].
Qed.
(** Vectors of a wrong size throw and the Python object is not called. *)
Theorem C115_sizes k nx nu f x u : length x <> nx \/ length u <> nu ->
  m_run norm_nan (m_create zero nan k nx nu) f x u = Exn.
Proof.
  intro H. unfold m_run, m_create. cbn [m_kind m_nx m_nu].
  destruct (Nat.eqb_spec (length x) nx); [|reflexivity]. destruct (Nat.eqb_spec (length u) nu); [|reflexivity]. lia.
Qed.
(** Refuted: without controls (nu = 0) a terminal call comes as a call with an (empty) control. *)
Theorem C115_no_control_refuted k nx f x : k <> KActuation -> length x = nx ->
  m_term norm_nan (m_create zero nan k nx 0) f x = Val [PyRun f x []].
Proof.
  intros K Hx. unfold m_term, m_run, m_create. destruct k; try congruence; cbn; rewrite Hx, Nat.eqb_refl, ?(norm_nil EN); reflexivity.
Qed.
(** Refuted: a control of NaNs is dropped, the node is evaluated as if it were terminal. *)
Theorem C115_nan_refuted k nx nu f x : sees_nan k = true -> nu <> 0 -> length x = nx ->
  m_run norm_nan (m_create zero nan k nx nu) f x (repeat nan nu) = Val [PyTerm f x].
Proof.
  intros K N Hx. unfold m_run, m_create. cbn [m_kind m_nx m_nu]. rewrite Hx, repeat_length, !Nat.eqb_refl, K.
  rewrite (norm_nans EN); [reflexivity| |].
  - destruct nu; [congruence|discriminate].
  - intros v Hv. now rewrite (repeat_spec _ _ _ Hv).
Qed.
(** Refuted: for integrated actions a terminal call comes as a call with the control zero. *)
Theorem C115_integrated_refuted nx nu f x : length x = nx ->
  m_term norm_nan (m_create zero nan KIntegrated nx nu) f x = Val [PyRun f x (repeat zero nu)].
Proof. intro Hx. unfold m_term, m_run, m_create. cbn. now rewrite Hx, repeat_length, !Nat.eqb_refl. Qed.

(** Casting: an action keeps its numbers of controls, residuals and constraints; a differential action
    only when it has as many controls as residuals. *)
Theorem C115_cast_action d : cast_action d = d.
Proof. now destruct d. Qed.
Theorem C115_cast_diff_partial d : cast_diff d = d <-> d_nu d = d_nr d.
Proof.
  destruct d as [nu nr ng nh a b]. unfold cast_diff, make. cbn. split.
  - intro H. injection H as ->. reflexivity.
  - intros ->. reflexivity.
Qed.

(** ** C116 *)
(** The Jacobians of a state whose method returns A for the first argument, B for the second, and both
    in a list. *)
Definition gives (call : comp -> @pyobj V) (n : nat) (A B : mat) : Prop :=
  call first = PyMat A /\ call second = PyMat B /\ call both = PyList [PyMat A; PyMat B] /\
  rows A = n /\ cols A = n /\ rows B = n /\ cols B = n.
Definition square (n : nat) (J : @mat V) : Prop := rows J = n /\ cols J = n.
(** J' is J after the assignment of A *)
Definition updated (o : op) (J A J' : @mat V) : Prop := rows J' = rows J /\ cols J' = cols J /\
  forall i j, i < rows J -> j < cols J ->
    ent J' i j = match o with setto => ent A i j | addto => plus (ent J i j) (ent A i j) | rmfrom => minus (ent J i j) (ent A i j) end.
(** The Jacobians asked for are updated, each with its own matrix, and the other one is untouched. *)
Definition jacobians (c : comp) (o : op) (J : @mat V * @mat V) (A B : mat) (J' : mat * mat) : Prop :=
  (match c with second => fst J' = fst J | _ => updated o (fst J) A (fst J') end) /\
  (match c with first => snd J' = snd J | _ => updated o (snd J) B (snd J') end).

Lemma assign_val o (J A : @mat V) n : square n J -> square n A ->
  exists J', assign plus minus o J A = Val J' /\ updated o J A J'.
Proof.
  intros [H1 H2] [H3 H4]. unfold assign. rewrite H1, H2, H3, H4, !Nat.eqb_refl. cbn [andb]. eexists. split; [reflexivity|].
  split; [cbn; congruence|split; [cbn; congruence|]]. intros i j _ _. cbn [ent]. now destruct o.
Qed.

Theorem C116_Jdiff s x0 x1 A B J c : length x0 = s_nx s -> length x1 = s_nx s -> gives (py_Jdiff s x0 x1) (s_ndx s) A B ->
  square (s_ndx s) (fst J) -> square (s_ndx s) (snd J) ->
  exists J', s_Jdiff plus minus s x0 x1 J c = Val J' /\ jacobians c setto J A B J'.
Proof.
  intros H0 H1 (E1 & E2 & E3 & R1 & C1 & R2 & C2) Q1 Q2. unfold s_Jdiff, s_Jdiff_wrap. rewrite H0, H1, !Nat.eqb_refl. cbn [negb].
  destruct (assign_val setto (fst J) A (s_ndx s) Q1 (conj R1 C1)) as (J1 & F1 & U1).
  destruct (assign_val setto (snd J) B (s_ndx s) Q2 (conj R2 C2)) as (J2 & F2 & U2).
  destruct c; unfold jacs; rewrite ?E1, ?E2, ?E3; cbn [to_mat to_list bind item nth_error]; rewrite ?F1, ?F2; cbn [bind]; rewrite ?F2; cbn [bind];
    eexists; (split; [reflexivity|split; [assumption || reflexivity|assumption || reflexivity]]).
Qed.

Lemma jint_val s x dx A B J c o : length x = s_nx s -> length dx = s_ndx s -> gives (py_Jintegrate s x dx) (s_ndx s) A B ->
  square (s_ndx s) (fst J) -> square (s_ndx s) (snd J) ->
  exists J', s_Jintegrate plus minus s x dx J c o = Val J' /\ jacobians c o J A (match c with both => A | _ => B end) J'.
Proof.
  intros H0 H1 (E1 & E2 & E3 & R1 & C1 & R2 & C2) Q1 Q2. unfold s_Jintegrate, s_Jintegrate_wrap. rewrite H0, H1, !Nat.eqb_refl. cbn [negb].
  destruct (assign_val o (fst J) A (s_ndx s) Q1 (conj R1 C1)) as (J1 & F1 & U1).
  destruct (assign_val o (snd J) B (s_ndx s) Q2 (conj R2 C2)) as (J2 & F2 & U2).
  destruct (assign_val o (snd J) A (s_ndx s) Q2 (conj R1 C1)) as (J3 & F3 & U3).
  assert (Z1 : right_size s (fst J) = true) by (unfold right_size; destruct Q1 as [-> ->]; now rewrite Nat.eqb_refl).
  assert (Z2 : right_size s (snd J) = true) by (unfold right_size; destruct Q2 as [-> ->]; now rewrite Nat.eqb_refl).
  destruct c; unfold jacs; rewrite ?E1, ?E2, ?E3; cbn [to_mat to_list bind item nth_error wants_first wants_second]; rewrite ?Z1, ?Z2; cbn [negb];
    rewrite ?F1; cbn [bind]; rewrite ?Z2; cbn [negb]; rewrite ?F2, ?F3; cbn [bind];
    eexists; (split; [reflexivity|split; [assumption || reflexivity|assumption || reflexivity]]).
Qed.
(** One Jacobian at a time, or two that are equal. *)
Theorem C116_Jintegrate_partial s x dx A B J c o : length x = s_nx s -> length dx = s_ndx s ->
  gives (py_Jintegrate s x dx) (s_ndx s) A B -> square (s_ndx s) (fst J) -> square (s_ndx s) (snd J) ->
  c <> both \/ A = B ->
  exists J', s_Jintegrate plus minus s x dx J c o = Val J' /\ jacobians c o J A B J'.
Proof.
  intros H0 H1 G Q1 Q2 [N|<-]; destruct (jint_val s x dx A _ J c o H0 H1 G Q1 Q2) as (J' & E & U); exists J'; (split; [exact E|]).
  - destruct c; [congruence|exact U|exact U].
  - destruct c; exact U.
Qed.
(** Refuted whenever they differ: with both, the second Jacobian is updated with the first matrix. *)
Theorem C116_Jintegrate_refuted s x dx A B J i j : length x = s_nx s -> length dx = s_ndx s ->
  gives (py_Jintegrate s x dx) (s_ndx s) A B -> square (s_ndx s) (fst J) -> square (s_ndx s) (snd J) ->
  i < s_ndx s -> j < s_ndx s -> ent A i j <> ent B i j ->
  (exists J', s_Jintegrate plus minus s x dx J both setto = Val J' /\ jacobians both setto J A A J' /\ ~ jacobians both setto J A B J') /\
  (exists l, s_Jintegrate_Js zero plus minus s x dx both = Val l /\
     (exists M, nth_error l 1 = Some M /\ ent M i j = ent A i j)).
Proof.
  intros H0 H1 G Q1 Q2 Hi Hj D. split.
  - destruct (jint_val s x dx A B J both setto H0 H1 G Q1 Q2) as (J' & E & U). exists J'. split; [exact E|split; [exact U|]].
    intros [_ (_ & _ & K)]. destruct U as [_ (_ & _ & K')]. destruct Q2 as [R2 C2].
    specialize (K i j ltac:(lia) ltac:(lia)). specialize (K' i j ltac:(lia) ltac:(lia)). congruence.
  - destruct (jint_val s x dx A B (zmat zero s, zmat zero s) both setto H0 H1 G) as (J' & E & U); [now split|now split|].
    unfold s_Jintegrate_Js. rewrite E. cbn [bind picked]. exists [fst J'; snd J']. split; [reflexivity|].
    exists (snd J'). split; [reflexivity|]. destruct U as [_ (_ & _ & K)]. cbn in K. auto.
Qed.
(** The lists of Jacobians returned to a caller. *)
Theorem C116_lists s x y A B c : length x = s_nx s ->
  (length y = s_nx s -> gives (py_Jdiff s x y) (s_ndx s) A B ->
   exists l, s_Jdiff_Js zero plus minus s x y c = Val l /\
     Forall2 (fun M N => square (s_ndx s) M /\ forall i j, i < s_ndx s -> j < s_ndx s -> ent M i j = ent N i j) l
       (match c with both => [A; B] | first => [A] | second => [B] end)) /\
  (length y = s_ndx s -> gives (py_Jintegrate s x y) (s_ndx s) A B -> c <> both ->
   exists l, s_Jintegrate_Js zero plus minus s x y c = Val l /\
     Forall2 (fun M N => square (s_ndx s) M /\ forall i j, i < s_ndx s -> j < s_ndx s -> ent M i j = ent N i j) l
       (match c with both => [A; B] | first => [A] | second => [B] end)).
Proof.
  intro H0.
  assert (P : forall J', jacobians c setto (zmat zero s, zmat zero s) A B J' ->
    Forall2 (fun M N => square (s_ndx s) M /\ forall i j, i < s_ndx s -> j < s_ndx s -> ent M i j = ent N i j) (picked J' c)
       (match c with both => [A; B] | first => [A] | second => [B] end)).
  { intros J' [U1 U2]. destruct c; cbn [picked]; repeat constructor;
      solve [ destruct U1 as (a & b & K); cbn in *; auto | destruct U2 as (a & b & K); cbn in *; auto ]. }
  split; intros H1 G.
  - destruct (C116_Jdiff s x y A B (zmat zero s, zmat zero s) c H0 H1 G) as (J' & E & U); [now split|now split|].
    unfold s_Jdiff_Js. rewrite E. cbn [bind]. eauto.
  - intro N. destruct (C116_Jintegrate_partial s x y A B (zmat zero s, zmat zero s) c setto H0 H1 G) as (J' & E & U); [now split|now split|auto|].
    unfold s_Jintegrate_Js. rewrite E. cbn [bind]. eauto.
Qed.
(** Values: what the methods return, when it has the size of the output; arguments of wrong sizes throw. *)
Theorem C116_values s x y v n : length x = s_nx s ->
  (length y = s_nx s -> py_diff s x y = PyVec v -> length v = n -> s_diff s x y n = Val v) /\
  (length y = s_ndx s -> py_integrate s x y = PyVec v -> length v = n -> s_integrate s x y n = Val v) /\
  (forall J c M, length y = s_ndx s -> py_transport s x y J c = PyMat M -> rows M = rows J -> cols M = cols J ->
     exists J', s_transport plus minus s x y J c = Val J' /\ updated setto J M J').
Proof.
  intro H0. split; [|split].
  - intros H1 E L. unfold s_diff. rewrite H0, H1, !Nat.eqb_refl, E. cbn. unfold assign_vec. now rewrite L, Nat.eqb_refl.
  - intros H1 E L. unfold s_integrate. rewrite H0, H1, !Nat.eqb_refl, E. cbn. unfold assign_vec. now rewrite L, Nat.eqb_refl.
  - intros J c M H1 E R1 C1. unfold s_transport. rewrite H0, H1, !Nat.eqb_refl, E. cbn [negb to_mat bind].
    unfold assign. rewrite R1, C1, !Nat.eqb_refl. cbn [andb]. eexists. split; [reflexivity|]. split; [reflexivity|split; [reflexivity|]]. auto.
Qed.
Theorem C116_sizes s x y J K c o n :
  (length x <> s_nx s \/ length y <> s_nx s -> s_diff s x y n = Exn /\ s_Jdiff plus minus s x y K c = Exn) /\
  (length x <> s_nx s \/ length y <> s_ndx s ->
     s_integrate s x y n = Exn /\ s_Jintegrate plus minus s x y K c o = Exn /\ s_transport plus minus s x y J c = Exn).
Proof.
  split; intro H.
  - unfold s_diff, s_Jdiff, s_Jdiff_wrap. destruct (Nat.eqb_spec (length x) (s_nx s)); [|now split].
    destruct (Nat.eqb_spec (length y) (s_nx s)); [lia|now split].
  - unfold s_integrate, s_Jintegrate, s_Jintegrate_wrap, s_transport. destruct (Nat.eqb_spec (length x) (s_nx s)); [|now repeat split].
    destruct (Nat.eqb_spec (length y) (s_ndx s)); [lia|now repeat split].
Qed.

(** ** C117 *)
(** The bounds and the products of a parametrization written in Python are those of its methods. *)
Theorem C117_param (p : @pyparam V) lb ub a b n A M out o :
  (py_bounds p lb ub = PyList [PyVec a; PyVec b] -> length a = n -> length b = n -> c_bounds p lb ub n = Val (a, b)) /\
  (rows M = rows out -> cols M = cols out ->
    (py_mul p A = PyMat M -> exists out', c_mul plus minus p A out o = Val out' /\ updated o out M out') /\
    (py_mulT p A = PyMat M -> exists out', c_mulT plus minus p A out o = Val out' /\ updated o out M out')).
Proof.
  split.
  - intros E La Lb. unfold c_bounds. rewrite E. cbn. unfold assign_vec. now rewrite La, Lb, !Nat.eqb_refl.
  - intros R C.
    assert (P : exists out', assign plus minus o out M = Val out' /\ updated o out M out').
    { unfold assign. rewrite R, C, !Nat.eqb_refl. cbn [andb]. eexists. split; [reflexivity|]. split; [reflexivity|split; [reflexivity|]].
      intros i j _ _. now destruct o. }
    split; intro E; unfold c_mul, c_mulT; rewrite E; exact P.
Qed.
(** The products returned by value: right when the operator sets. *)
Theorem C117_product_partial (p : @pyparam V) A M junk : py_mul p A = PyMat M -> rows M = rows A -> cols M = c_nu p ->
  exists P, c_mul_J plus minus p A setto junk = Val P /\ rows P = rows A /\ cols P = c_nu p /\ forall i j, ent P i j = ent M i j.
Proof.
  intros E R C. unfold c_mul_J, c_mul. rewrite E. cbn [to_mat bind]. unfold assign. cbn [rows cols]. rewrite R, C, !Nat.eqb_refl.
  cbn [andb]. eexists. repeat split.
Qed.
Theorem C117_transpose_partial (p : @pyparam V) A M junk : py_mulT p A = PyMat M -> rows M = c_nu p -> cols M = cols A ->
  exists P, c_mulT_J plus minus p A setto junk = Val P /\ rows P = c_nu p /\ cols P = cols A /\ forall i j, ent P i j = ent M i j.
Proof.
  intros E R C. unfold c_mulT_J, c_mulT. rewrite E. cbn [to_mat bind]. unfold assign. cbn [rows cols]. rewrite R, C, !Nat.eqb_refl.
  cbn [andb]. eexists. repeat split.
Qed.
End Props.

(** Refuted for the other operators: the result depends on the memory it was put in. *)
Theorem C117_product_refuted : exists (p : @pyparam nat) A o junk junk' P P',
  c_mul_J Nat.add Nat.sub p A o junk = Val P /\ c_mul_J Nat.add Nat.sub p A o junk' = Val P' /\ ent P 0 0 <> ent P' 0 0.
Proof.
  set (p := PyParam 1 1 (fun _ _ => PyOther) (fun A : @mat nat => PyMat A) (fun A => PyMat A)).
  exists p, (Mat 1 1 (fun _ _ => 3)), addto, (fun _ _ => 0), (fun _ _ => 1), (Mat 1 1 (fun _ _ => 3)), (Mat 1 1 (fun _ _ => 4)).
  split; [reflexivity|split; [reflexivity|discriminate]].
Qed.
(** Refuted: casting a differential action swaps its numbers of controls and residuals. *)
Theorem C115_cast_refuted : exists d, d_nu (cast_diff d) <> d_nu d /\ d_nr (cast_diff d) <> d_nr d.
Proof. exists (make 2 1 0 0 0 0). split; discriminate. Qed.

(** ** Cases meeting the hypotheses: scalars are numbers or None for NaN *)
Definition onan (v : option nat) : bool := match v with None => true | _ => false end.
Definition max_nan (u : list (option nat)) : bool := existsb onan u.
Example norm_ex : eigen_norm onan max_nan.
Proof.
  split; [reflexivity| |].
  - intros u H. unfold max_nan. apply not_true_iff_false. intro E. apply existsb_exists in E. destruct E as (v & A & B). rewrite (H v A) in B. discriminate.
  - intros [|v u] N H; [congruence|]. cbn. rewrite (H v); [reflexivity|now left].
Qed.
Example calls_ex : m_run max_nan (m_create (Some 0) None KCost 2 1) Calc [Some 1; Some 2] [Some 3] = Val [PyRun Calc [Some 1; Some 2] [Some 3]] /\
  m_term max_nan (m_create (Some 0) None KCost 2 1) CalcDiff [Some 1; Some 2] = Val [PyTerm CalcDiff [Some 1; Some 2]].
Proof. now split. Qed.
Definition exA : @mat nat := Mat 2 2 (fun i j => i + j).
Definition exB : @mat nat := Mat 2 2 (fun i j => 7 * i + 2 * j + 1).
Definition exs : pystate := PyState 3 2 (fun _ _ => PyVec [1; 2]) (fun x _ => PyVec x)
  (fun _ _ c => match c with first => PyMat exA | second => PyMat exB | both => PyList [PyMat exA; PyMat exB] end)
  (fun _ _ c => match c with first => PyMat exA | second => PyMat exB | both => PyList [PyMat exA; PyMat exB] end)
  (fun _ _ J _ => PyMat J).
Example gives_ex : gives (py_Jintegrate exs [1; 2; 3] [4; 5]) (s_ndx exs) exA exB /\ ent exA 0 0 <> ent exB 0 0.
Proof. split; [now repeat split|discriminate]. Qed.
Example both_ex : exists J1 J2, s_Jintegrate Nat.add Nat.sub exs [1; 2; 3] [4; 5] (exA, exA) both addto = Val (J1, J2) /\ ent J2 1 1 = 4.
Proof. eexists _, _. split; reflexivity. Qed.

Print Assumptions C115_calls_partial.
Print Assumptions C115_any_control.
Print Assumptions C115_sizes.
Print Assumptions C115_no_control_refuted.
Print Assumptions C115_nan_refuted.
Print Assumptions C115_integrated_refuted.
Print Assumptions C115_cast_action.
Print Assumptions C115_cast_diff_partial.
Print Assumptions C115_cast_refuted.
Print Assumptions C116_Jdiff.
Print Assumptions C116_Jintegrate_partial.
Print Assumptions C116_Jintegrate_refuted.
Print Assumptions C116_lists.
Print Assumptions C116_values.
Print Assumptions C116_sizes.
Print Assumptions C117_param.
Print Assumptions C117_product_partial.
Print Assumptions C117_transpose_partial.
Print Assumptions C117_product_refuted.
