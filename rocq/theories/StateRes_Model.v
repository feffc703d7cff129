(** The costs of the state and control residuals: ResidualModelState
    (include/crocoddyl/multibody/residuals/state.hxx) and ResidualModelControl
    (include/crocoddyl/core/residuals/control.hxx) inside CostModelResidual (core/costs/residual.hxx).
    Both override calcCostDiff of residual-base.hxx. *)
From Coq Require Import Reals List Arith Bool.
From Verif Require Import Deriv VecMat State_Model StateMB_Model Residual_Model.
Import ListNotations.
Open Scope list_scope.
Open Scope R_scope.

(** A state as the residual uses it: diff, Jdiff with the component second (which updates the matrix it
    is given) and, if the object is a StateMultibody, nv of the joints (pin_model_, state.hxx:22-27). *)
Record astate := AState {
  pt : Type; a_ndx : nat; a_diff : pt -> pt -> vec; a_Jdiff : pt -> pt -> mat -> mat; a_pin : option (list nat) }.
Definition of_multibody (sp : space) : astate :=
  AState (mstate sp) (ndx sp) (m_diff sp) (fun x0 x1 J => snd (m_Jdiff sp second x0 x1 (J, J))) (Some (nvs sp)).
(** StateVector (C59): all of the matrix is written. *)
Definition of_vector (n : nat) : astate :=
  AState vec n (fun a b i => b i - a i) (fun _ _ _ => idm) None.

(** Residual, activation and cost data; everything is created as zero
    (residual-base.hpp:255-273, cost-base.hpp:296-313). *)
Record scdata := SCData {
  s_r : vec; s_Rx : mat; s_a : R; s_Ar : vec; s_Arr : vec;
  s_cost : R; s_Lx : vec; s_Lu : vec; s_Lxx : mat; s_Lxu : mat; s_Luu : mat }.
Definition z1 : vec := fun _ => 0.
Definition z2 : mat := fun _ _ => 0.
Definition sc_create : scdata := SCData z1 z2 0 z1 z1 0 z1 z1 z2 z2 z2.

(** The loop over the joints, state.hxx:105-123: segment of Lx and block of Lxx of a joint. *)
Definition inb (o n i : nat) : bool := (o <=? i)%nat && (i <? o + n)%nat.
Definition seg (Rx : mat) (Ar : vec) (b : nat * nat) (L : vec) : vec :=
  fun i => if inb (fst b) (snd b) i then rsum (snd b) (fun k => Rx (fst b + k)%nat i * Ar (fst b + k)%nat) else L i.
Definition blk (Rx : mat) (Arr : vec) (b : nat * nat) (L : mat) : mat :=
  fun i j => if inb (fst b) (snd b) i && inb (fst b) (snd b) j
    then rsum (snd b) (fun k => Rx (fst b + k)%nat i * Arr (fst b + k)%nat * Rx (fst b + k)%nat j) else L i j.
Definition tail_v (N n : nat) (v : vec) (L : vec) : vec := fun i => if (N - n <=? i)%nat then v i else L i.
Definition tail_d (N n : nat) (v : vec) (L : mat) : mat :=
  fun i j => if (N - n <=? i)%nat && Nat.eqb i j then v i else L i j.

Section StateCost.
Variables (st : astate) (a : amodel).
Let N := a_ndx st.
(** state-base.hxx: nv = ndx / 2 *)
Let n := (N / 2)%nat.

(** state.hxx:73-83 and costs/residual.hxx:17-33, 35-54 *)
Definition sc_calc (xref x : pt st) (d : scdata) : scdata :=
  let r := a_diff st xref x in
  SCData r (s_Rx d) (a_val a r) (s_Ar d) (s_Arr d) (a_val a r) (s_Lx d) (s_Lu d) (s_Lxx d) (s_Lxu d) (s_Luu d).
(** state.hxx:85-129 and costs/residual.hxx:56-67, 69-87 *)
Definition sc_diff (xref x : pt st) (d : scdata) : scdata :=
  let Rx := a_Jdiff st xref x (s_Rx d) in
  let Ar := a_grad a (s_r d) in let Arr := a_hess a (s_r d) in
  match a_pin st with
  | Some l =>
      SCData (s_r d) Rx (s_a d) Ar Arr (s_cost d)
        (tail_v N n Ar (fold_left (fun L b => seg Rx Ar b L) (blocks 0 l) (s_Lx d))) (s_Lu d)
        (tail_d N n Arr (fold_left (fun L b => blk Rx Arr b L) (blocks 0 l) (s_Lxx d))) (s_Lxu d) (s_Luu d)
  | None =>
      SCData (s_r d) Rx (s_a d) Ar Arr (s_cost d) Ar (s_Lu d)
        (fun i j => if Nat.eqb i j then Arr i else s_Lxx d i j) (s_Lxu d) (s_Luu d)
  end.
(** A cost (with its reference) and one data; calls with and without a control are the same. *)
Inductive scop := SCCalc (x : pt st) | SCDiff (x : pt st) | SCRef (xref : pt st).
Definition sc_step (w : pt st * scdata) (o : scop) : pt st * scdata :=
  match o with
  | SCCalc x => (fst w, sc_calc (fst w) x (snd w))
  | SCDiff x => (fst w, sc_diff (fst w) x (snd w))
  | SCRef xref => (xref, snd w)
  end.
Definition sc_run (xref : pt st) (l : list scop) : pt st * scdata := fold_left sc_step l (xref, sc_create).
End StateCost.

(** ** Control residual.  Ru is the identity from createData on (control.hxx:79-88). *)
Section ControlCost.
Variable a : amodel.
(** control.hxx:44-55 *)
Definition cc_calc (uref u : vec) (d : scdata) : scdata :=
  let r : vec := fun i => u i - uref i in
  SCData r (s_Rx d) (a_val a r) (s_Ar d) (s_Arr d) (a_val a r) (s_Lx d) (s_Lu d) (s_Lxx d) (s_Lxu d) (s_Luu d).
(** costs/residual.hxx:35-45: the residual does not depend on the state *)
Definition cc_calcT (d : scdata) : scdata :=
  SCData (s_r d) (s_Rx d) 0 (s_Ar d) (s_Arr d) 0 (s_Lx d) (s_Lu d) (s_Lxx d) (s_Lxu d) (s_Luu d).
(** control.hxx:64-77 (no effect), 90-97 *)
Definition cc_diff (d : scdata) : scdata :=
  let Ar := a_grad a (s_r d) in let Arr := a_hess a (s_r d) in
  SCData (s_r d) (s_Rx d) (s_a d) Ar Arr (s_cost d) (s_Lx d) Ar (s_Lxx d) (s_Lxu d)
    (fun i j => if Nat.eqb i j then Arr i else 0).
(** costs/residual.hxx:69-80 *)
Definition cc_diffT (d : scdata) : scdata :=
  SCData (s_r d) (s_Rx d) (s_a d) (s_Ar d) (s_Arr d) (s_cost d) z1 (s_Lu d) z2 (s_Lxu d) (s_Luu d).
Inductive ccop := CCCalc (u : vec) | CCDiff (u : vec) | CCCalcT | CCDiffT | CCRef (uref : vec).
Definition cc_step (w : vec * scdata) (o : ccop) : vec * scdata :=
  match o with
  | CCCalc u => (fst w, cc_calc (fst w) u (snd w))
  | CCDiff _ => (fst w, cc_diff (snd w))
  | CCCalcT => (fst w, cc_calcT (snd w))
  | CCDiffT => (fst w, cc_diffT (snd w))
  | CCRef uref => (uref, snd w)
  end.
Definition cc_run (uref : vec) (l : list ccop) : vec * scdata := fold_left cc_step l (uref, sc_create).
End ControlCost.
