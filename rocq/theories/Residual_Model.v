(** Costs made of a residual and an activation: CostModelResidual
    (include/crocoddyl/core/costs/residual.hxx), ResidualModelAbstract::calcCostDiff
    (core/residual-base.hxx).

    The residual and the activation are given by the functions they compute.  calcDiff of a
    residual is modelled as writing the columns of Rx and Ru it declares to depend on, and leaving
    the others as they were (created as zero); several residuals of the library do so. *)
From Coq Require Import Reals List Arith Bool.
From Verif Require Import Deriv VecMat.
Import ListNotations.
Open Scope R_scope.

(** Residual: dimensions and declared dependences (residual-base.hxx:12-34), value and Jacobians
    with a control and without (residual-base.hxx:41-58, where the default passes a zero control). *)
Record rmodel := RModel {
  r_ndx : nat; r_nu : nat; r_nr : nat;
  q_dep : bool; v_dep : bool; u_dep : bool;
  r_val : vec -> vec -> vec; r_Rx : vec -> vec -> mat; r_Ru : vec -> vec -> mat }.
(** state-base.hxx: nv = ndx / 2 *)
Definition r_nv (m : rmodel) : nat := (r_ndx m / 2)%nat.
Definition unone : vec := fun _ => 0.

(** Activation: value, gradient and diagonal of the Hessian. *)
Record amodel := AModel { a_val : vec -> R; a_grad : vec -> vec; a_hess : vec -> vec }.

(** residual-base.hpp:255-273, activation data, cost-base.hpp:296-313 *)
Record cdata := CData {
  d_r : vec; d_Rx : mat; d_Ru : mat; d_ArrRx : mat; d_ArrRu : mat;
  d_a : R; d_Ar : vec; d_Arr : vec;
  d_cost : R; d_Lx : vec; d_Lu : vec; d_Lxx : mat; d_Lxu : mat; d_Luu : mat }.
Definition c_create : cdata :=
  let Z : mat := fun _ _ => 0 in let z : vec := fun _ => 0 in CData z Z Z Z Z 0 z z 0 z z Z Z Z.

Section Cost.
Variables (m : rmodel) (a : amodel).

(** The rows/columns of a tangent vector written by the residual *)
Definition is_q (i : nat) : bool := i <? r_ndx m - r_nv m.
Definition dep_col (i : nat) : bool := if is_q i then q_dep m else v_dep m.

Definition res_calc (x u : vec) (d : cdata) : cdata :=
  CData (r_val m x u) (d_Rx d) (d_Ru d) (d_ArrRx d) (d_ArrRu d) (d_a d) (d_Ar d) (d_Arr d)
    (d_cost d) (d_Lx d) (d_Lu d) (d_Lxx d) (d_Lxu d) (d_Luu d).
Definition res_calcDiff (x u : vec) (d : cdata) : cdata :=
  CData (d_r d) (fun k i => if dep_col i then r_Rx m x u k i else d_Rx d k i)
    (if u_dep m then r_Ru m x u else d_Ru d) (d_ArrRx d) (d_ArrRu d) (d_a d) (d_Ar d) (d_Arr d)
    (d_cost d) (d_Lx d) (d_Lu d) (d_Lxx d) (d_Lxu d) (d_Luu d).
Definition act_calc (d : cdata) : cdata :=
  CData (d_r d) (d_Rx d) (d_Ru d) (d_ArrRx d) (d_ArrRu d) (a_val a (d_r d)) (d_Ar d) (d_Arr d)
    (d_cost d) (d_Lx d) (d_Lu d) (d_Lxx d) (d_Lxu d) (d_Luu d).
Definition act_calcDiff (d : cdata) : cdata :=
  CData (d_r d) (d_Rx d) (d_Ru d) (d_ArrRx d) (d_ArrRu d) (d_a d) (a_grad a (d_r d)) (a_hess a (d_r d))
    (d_cost d) (d_Lx d) (d_Lu d) (d_Lxx d) (d_Lxu d) (d_Luu d).
Definition set_cost (c : R) (d : cdata) : cdata :=
  CData (d_r d) (d_Rx d) (d_Ru d) (d_ArrRx d) (d_ArrRu d) c (d_Ar d) (d_Arr d)
    c (d_Lx d) (d_Lu d) (d_Lxx d) (d_Lxu d) (d_Luu d).

Definition diagm (v : vec) (M : mat) : mat := fun k i => v k * M k i.
Definition mulTv (M : mat) (v : vec) : vec := fun i => rsum (r_nr m) (fun k => M k i * v k).
(** assignments to the blocks of columns/rows [lo, hi) *)
Definition inb (lo hi i : nat) : bool := (lo <=? i) && (i <? hi).
Definition blkv (lo hi : nat) (new old : vec) : vec := fun i => if inb lo hi i then new i else old i.
Definition blkc (lo hi : nat) (new old : mat) : mat := fun k i => if inb lo hi i then new k i else old k i.
Definition blkr (lo hi : nat) (new old : mat) : mat := fun i k => if inb lo hi i then new i k else old i k.
Definition blk2 (lo hi : nat) (new old : mat) : mat := fun i j => if inb lo hi i && inb lo hi j then new i j else old i j.

(** residual-base.hxx:77-81 *)
Definition cost_u (d : cdata) : cdata :=
  let Lu := mulTv (d_Ru d) (d_Ar d) in
  let ArrRu := diagm (d_Arr d) (d_Ru d) in
  let Luu := mulm (r_nr m) (tr (d_Ru d)) ArrRu in
  CData (d_r d) (d_Rx d) (d_Ru d) (d_ArrRx d) ArrRu (d_a d) (d_Ar d) (d_Arr d)
    (d_cost d) (d_Lx d) Lu (d_Lxx d) (d_Lxu d) Luu.
(** residual-base.hxx:82-88 with the columns [0, ndx), 89-99 with [0, nv), 100-111 with
    [ndx - nv, ndx) *)
Definition cost_x (is_ru : bool) (lo hi : nat) (d : cdata) : cdata :=
  let Lx := blkv lo hi (mulTv (d_Rx d) (d_Ar d)) (d_Lx d) in
  let ArrRx := blkc lo hi (diagm (d_Arr d) (d_Rx d)) (d_ArrRx d) in
  let Lxx := blk2 lo hi (mulm (r_nr m) (tr (d_Rx d)) ArrRx) (d_Lxx d) in
  let Lxu := if is_ru then blkr lo hi (mulm (r_nr m) (tr (d_Rx d)) (d_ArrRu d)) (d_Lxu d) else d_Lxu d in
  CData (d_r d) (d_Rx d) (d_Ru d) ArrRx (d_ArrRu d) (d_a d) (d_Ar d) (d_Arr d)
    (d_cost d) Lx (d_Lu d) Lxx Lxu (d_Luu d).
(** residual-base.hxx:68-112 *)
Definition calcCostDiff (update_u : bool) (d : cdata) : cdata :=
  let is_ru := u_dep m && negb (r_nu m =? 0) && update_u in
  let d := if is_ru then cost_u d else d in
  if q_dep m && v_dep m then cost_x is_ru 0 (r_ndx m) d
  else if q_dep m then cost_x is_ru 0 (r_nv m) d
  else if v_dep m then cost_x is_ru (r_ndx m - r_nv m) (r_ndx m) d
  else d.

(** costs/residual.hxx:24-34 *)
Definition c_calc (x u : vec) (d : cdata) : cdata := let d := act_calc (res_calc x u d) in set_cost (d_a d) d.
(** costs/residual.hxx:36-54 *)
Definition c_calcT (x : vec) (d : cdata) : cdata :=
  if negb (q_dep m) && negb (v_dep m) then set_cost 0 d
  else let d := act_calc (res_calc x unone d) in set_cost (d_a d) d.
(** costs/residual.hxx:56-68 *)
Definition c_calcDiff (x u : vec) (d : cdata) : cdata := calcCostDiff true (act_calcDiff (res_calcDiff x u d)).
(** costs/residual.hxx:70-89 *)
Definition c_calcDiffT (x : vec) (d : cdata) : cdata :=
  if negb (q_dep m) && negb (v_dep m) then
    CData (d_r d) (d_Rx d) (d_Ru d) (d_ArrRx d) (d_ArrRu d) (d_a d) (d_Ar d) (d_Arr d)
      (d_cost d) (fun _ => 0) (d_Lu d) (fun _ _ => 0) (d_Lxu d) (d_Luu d)
  else calcCostDiff false (act_calcDiff (res_calcDiff x unone d)).

Inductive ccall := CCalc (x u : vec) | CCalcT (x : vec) | CDiff (x u : vec) | CDiffT (x : vec).
Definition c_step (d : cdata) (c : ccall) : cdata :=
  match c with
  | CCalc x u => c_calc x u d | CCalcT x => c_calcT x d
  | CDiff x u => c_calcDiff x u d | CDiffT x => c_calcDiffT x d
  end.
Definition c_run (cs : list ccall) (d : cdata) : cdata := fold_left c_step cs d.
End Cost.
