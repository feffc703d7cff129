(** The double pendulum of bindings/python/crocoddyl/utils/pendulum.py: the cost 6-46 and the
    actuation 49-85, over the reals.  The arrays of the data are those of the C++ objects (the
    bindings return references), so that an entry which is not assigned keeps its value. *)
From Coq Require Import Reals Arith Bool.
From Verif Require Import Deriv VecMat.
Open Scope R_scope.

(** An activation: number of residuals, value, gradient and diagonal of the Hessian. *)
Record act := Act { act_nr : nat; act_a : vec -> R; act_Ar : vec -> vec; act_Arr : vec -> vec }.
(** data.residual.r, data.residual.Rx, data.cost, data.Lx, data.Lxx and data.Rxx *)
Record pdata := PData { p_r : vec; p_Rx : mat; p_cost : R; p_Lx : vec; p_Lxx : mat; p_Rxx : mat }.
(** createData: the C++ data and, line 46, Rxx = np.zeros((6, 4)) *)
Definition p_create : pdata :=
  PData (fun _ => 0) (fun _ _ => 0) 0 (fun _ => 0) (fun _ _ => 0) (fun _ _ => 0).
(** 7-13: the activation defaults to ActivationModelQuad(state.ndx), ndx = 4; the residual has as
    many components as the activation *)
Definition quad (n : nat) : act := Act n (fun r => 1 / 2 * rsum n (fun i => r i * r i)) (fun r => r) (fun _ _ => 1).
Definition p_init (a : option act) : act := match a with Some a => a | None => quad 4 end.

(** data.residual.r[:] = np.array([...]): an exception unless the sizes agree *)
Definition residual (x : vec) : vec := fun i =>
  match i with
  | 0%nat => sin (x 0%nat) | 1%nat => sin (x 1%nat) | 2%nat => 1 - cos (x 0%nat) | 3%nat => 1 - cos (x 1%nat)
  | 4%nat => x 2%nat | _ => x 3%nat
  end.
(** 15-20; [None]: ValueError *)
Definition p_calc (A : act) (d : pdata) (x : vec) : option pdata :=
  if Nat.eqb (act_nr A) 6 then
    let r := residual x in
    Some (PData r (p_Rx d) (act_a A r) (p_Lx d) (p_Lxx d) (p_Rxx d))
  else None.
(** M[i0:i0+2, j0:j0+2] = np.diag([a, b]) *)
Definition set_diag2 (i0 j0 : nat) (a b : R) (M : mat) : mat := fun i j =>
  if (i0 <=? i)%nat && (i <? i0 + 2)%nat && (j0 <=? j)%nat && (j <? j0 + 2)%nat
  then (if (i - i0 =? j - j0)%nat then (if (i - i0 =? 0)%nat then a else b) else 0)
  else M i j.
(** 22-36 *)
Definition p_calcDiff (A : act) (d : pdata) (x : vec) : option pdata :=
  if Nat.eqb (act_nr A) 6 then
    let c1 := cos (x 0%nat) in let c2 := cos (x 1%nat) in
    let s1 := sin (x 0%nat) in let s2 := sin (x 1%nat) in
    let Ar := act_Ar A (p_r d) in
    let Arr := act_Arr A (p_r d) in
    let Rx := set_diag2 4 2 1 1 (set_diag2 2 0 s1 s2 (set_diag2 0 0 c1 c2 (p_Rx d))) in
    let Lx := fun j => rsum 6 (fun i => Rx i j * Ar i) in
    let Rxx := set_diag2 4 2 1 1
                 (set_diag2 2 0 (s1 * s1 + (1 - c1) * c1) (s2 * s2 + (1 - c2) * c2)
                   (set_diag2 0 0 (c1 * c1 - s1 * s1) (c2 * c2 - s2 * s2) (p_Rxx d))) in
    let Lxx := fun i j => if Nat.eqb i j then rsum 6 (fun k => Rxx k i * Arr k) else 0 in
    Some (PData (p_r d) Rx (p_cost d) Lx Lxx Rxx)
  else None.

Inductive pcall := PCalc (x : vec) | PCalcDiff (x : vec).
Definition p_step (A : act) (d : pdata) (k : pcall) : pdata :=
  match (match k with PCalc x => p_calc A d x | PCalcDiff x => p_calcDiff A d x end) with Some d' => d' | None => d end.
Definition p_run (A : act) (d : pdata) (l : list pcall) : pdata := List.fold_left (p_step A) l d.

(** The actuation: 49-85, nv = 2.  [link] is actLink == 1. *)
Record adata := AData { a_dtau_du : vec; a_tau : vec; a_u : R }.
(** 71-85 *)
Definition a_create (link : bool) : adata :=
  AData (fun i => if Nat.eqb i (if link then 0 else 1) then 1 else 0) (fun _ => 0) 0.
(** 55-56 *)
Definition a_calc (d : adata) (u : R) : adata := AData (a_dtau_du d) (fun i => a_dtau_du d i * u) (a_u d).
(** 61-65 *)
Definition a_commands (link : bool) (d : adata) (tau : vec) : adata :=
  AData (a_dtau_du d) (a_tau d) (if link then tau 0%nat else tau 1%nat).
