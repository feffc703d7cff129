(** Terminal evaluation (no control) of the integrated action models, and histories of calls
    on one data (include/crocoddyl/core/integrator/euler.hxx, rk.hxx).  Same conventions as
    Integrator_Model.v. *)
From Coq Require Import Reals List Arith Bool.
From Verif Require Import Deriv VecMat ControlParam_Model Integrator_Model.
Import ListNotations.
Open Scope R_scope.

(** What calc(data, x) and calcDiff(data, x) of the differential model write. *)
Record termmodel := TermModel {
  t_cost : vec -> R; t_con : vec -> vec; t_Lx : vec -> vec; t_Lxx : vec -> mat; t_Gx : vec -> mat }.

Section Term.
Variables (nv nw : nat) (p : param) (dm : diffmodel) (tm : termmodel) (ts : tstep) (rk : rktype).

(** euler.hxx:60-79 *)
Definition euler_calc_x (x : vec) (d : edata) : edata :=
  let o := e_act d in
  EData (ActData x (t_cost tm x) (t_con tm x)
           (Fx o) (Fu o) (Lx o) (Lu o) (Lxx o) (Lxu o) (Luu o) (Gx o) (Gu o))
        (e_cp d) (fun _ => 0) (e_da_du d) (e_Lwu d).

(** euler.hxx:131-147; Jintegrate(x, dx, Fx, Fx) with the default arguments (both, setto)
    writes ones on the diagonal of Fx, twice (euclidean.hxx:109-168). *)
Definition euler_calcDiff_x (x : vec) (d : edata) : edata :=
  let o := e_act d in
  let fx : mat := fun i j => if Nat.eqb i j then 1 else Fx o i j in
  EData (ActData (xnext o) (cost o) (cons o) fx (Fu o)
           (t_Lx tm x) (Lu o) (t_Lxx tm x) (Lxu o) (Luu o) (t_Gx tm x) (Gu o))
        (e_cp d) (e_dx d) (e_da_du d) (e_Lwu d).

(** rk.hxx:95-117 *)
Definition rk_calc_x (x : vec) (d : rkdata) : rkdata :=
  let o := r_act d in
  RKData (ActData x (t_cost tm x) (t_con tm x)
           (Fx o) (Fu o) (Lx o) (Lu o) (Lxx o) (Lxu o) (Luu o) (Gx o) (Gu o))
        (r_y d) (r_w d) (r_cp d).

(** rk.hxx:314-331 *)
Definition rk_calcDiff_x (x : vec) (d : rkdata) : rkdata :=
  let o := r_act d in
  RKData (ActData (xnext o) (cost o) (cons o) (Fx o) (Fu o)
           (t_Lx tm x) (Lu o) (t_Lxx tm x) (Lxu o) (Luu o) (t_Gx tm x) (Gu o))
        (r_y d) (r_w d) (r_cp d).

(** Calls on one data. *)
Inductive icall :=
| ICalc (x u : vec) | ICalcDiff (x u : vec) | ICalcT (x : vec) | ICalcDiffT (x : vec).
Definition euler_call (d : edata) (c : icall) : edata :=
  match c with
  | ICalc x u => euler_calc nv nw p dm ts x u d
  | ICalcDiff x u => euler_calcDiff nv nw p dm ts x u d
  | ICalcT x => euler_calc_x x d
  | ICalcDiffT x => euler_calcDiff_x x d
  end.
Definition rk_call (d : rkdata) (c : icall) : rkdata :=
  match c with
  | ICalc x u => rk_calc nv nw p dm ts rk x u d
  | ICalcDiff _ _ => rk_calcDiff nv nw p dm ts rk d
  | ICalcT x => rk_calc_x x d
  | ICalcDiffT x => rk_calcDiff_x x d
  end.
Definition euler_run : list icall -> edata -> edata := fun cs d => fold_left euler_call cs d.
Definition rk_run : list icall -> rkdata -> rkdata := fun cs d => fold_left rk_call cs d.
End Term.

(** action-base.hpp:350-380: the matrices of a new data are zero; other fields are arbitrary here. *)
Definition new_matrices (o : actdata) : Prop := forall i j, Fx o i j = 0 /\ Fu o i j = 0.
