(** ActionModelUnicycle (include/crocoddyl/core/actions/unicycle.hxx, unicycle.hpp): one model
    shared by several datas.  Real arithmetic; x and u have the right size. *)
From Coq Require Import Reals List Arith Bool.
From Verif Require Import Deriv VecMat.
Import ListNotations.
Open Scope R_scope.

Record umodel := UModel { u_dt : R; u_w0 : R; u_w1 : R }.
Record udata := UData {
  uxnext : vec; ur : vec; ucost : R; uFx : mat; uFu : mat; uLx : vec; uLu : vec; uLxx : mat; uLxu : mat; uLuu : mat }.

(** unicycle.hxx:13-18 *)
Definition u_create : umodel := UModel (1 / 10) 10 1.
(** unicycle.hxx:144-148, 155-160; [None] is the exception *)
Definition u_set_weights (w0 w1 : R) (m : umodel) : umodel := UModel (u_dt m) w0 w1.
Definition u_set_dt (h : R) (m : umodel) : option umodel :=
  if Rle_dec h 0 then None else Some (UModel h (u_w0 m) (u_w1 m)).
(** unicycle.hxx:113-119 *)
Definition u_cast (m : umodel) : umodel := u_create.

(** unicycle.hpp:103-105 over the zeroed base data (action-base.hpp:358-407) *)
Definition u_createData : udata :=
  let Z : mat := fun _ _ => 0 in
  UData (fun _ => 0) (fun _ => 0) 0 (fun i j => if Nat.eqb i j then 1 else 0) Z (fun _ => 0) (fun _ => 0) Z Z Z.

Definition v3 (a b c : R) : vec := fun i => match i with 0%nat => a | 1%nat => b | _ => c end.
(** M(i, j) = a *)
Definition put (i j : nat) (a : R) (M : mat) : mat := fun i' j' => if Nat.eqb i' i && Nat.eqb j' j then a else M i' j'.
Definition diag (a : R) (M : mat) : mat := fun i j => if Nat.eqb i j then a else M i j.

(** unicycle.hxx:20-42 *)
Definition u_calc (m : umodel) (x u : vec) (d : udata) : udata :=
  let c := cos (x 2%nat) in
  let s := sin (x 2%nat) in
  let r := fun i => if i <? 3 then u_w0 m * x i else u_w1 m * u (i - 3)%nat in
  UData (v3 (x 0%nat + c * u 0%nat * u_dt m) (x 1%nat + s * u 0%nat * u_dt m) (x 2%nat + u 1%nat * u_dt m))
    r (5 / 10 * dot 5 r r) (uFx d) (uFu d) (uLx d) (uLu d) (uLxx d) (uLxu d) (uLuu d).
(** unicycle.hxx:44-58 *)
Definition u_calc_x (m : umodel) (x : vec) (d : udata) : udata :=
  let r := fun i => if i <? 3 then u_w0 m * x i else 0 in
  UData x r (5 / 10 * dot 3 r r) (uFx d) (uFu d) (uLx d) (uLu d) (uLxx d) (uLxu d) (uLuu d).
(** unicycle.hxx:60-90 *)
Definition u_calcDiff (m : umodel) (x u : vec) (d : udata) : udata :=
  let c := cos (x 2%nat) in
  let s := sin (x 2%nat) in
  let w_x := u_w0 m * u_w0 m in
  let w_u := u_w1 m * u_w1 m in
  let fx := put 1 2 (c * u 0%nat * u_dt m) (put 0 2 (- s * u 0%nat * u_dt m) (uFx d)) in
  let fu := put 2 1 (u_dt m) (put 1 0 (s * u_dt m) (put 0 0 (c * u_dt m) (uFu d))) in
  UData (uxnext d) (ur d) (ucost d) fx fu (fun i => x i * w_x) (fun i => u i * w_u)
    (diag w_x (uLxx d)) (uLxu d) (diag w_u (uLuu d)).
(** unicycle.hxx:92-105 *)
Definition u_calcDiff_x (m : umodel) (x : vec) (d : udata) : udata :=
  let w_x := u_w0 m * u_w0 m in
  UData (uxnext d) (ur d) (ucost d) (uFx d) (uFu d) (fun i => x i * w_x) (uLu d) (diag w_x (uLxx d)) (uLxu d) (uLuu d).

(** Histories of one data; the model may change between the calls. *)
Inductive ucall :=
| UCalc (x u : vec) | UCalcT (x : vec) | UDiff (x u : vec) | UDiffT (x : vec) | UDt (h : R) | UWeights (w0 w1 : R).
Definition u_step (c : ucall) (md : umodel * udata) : umodel * udata :=
  let (m, d) := md in
  match c with
  | UCalc x u => (m, u_calc m x u d)
  | UCalcT x => (m, u_calc_x m x d)
  | UDiff x u => (m, u_calcDiff m x u d)
  | UDiffT x => (m, u_calcDiff_x m x d)
  | UDt h => (match u_set_dt h m with Some m' => m' | None => m end, d)
  | UWeights w0 w1 => (u_set_weights w0 w1 m, d)
  end.
Definition u_run : list ucall -> umodel * udata -> umodel * udata := fold_left (fun md c => u_step c md).
