(** Integrated action models (include/crocoddyl/core/integrator/euler.hxx, rk.hxx,
    integ-action-base.hxx) on a Euclidean state of dimension 2 nv (StateVector: integrate is
    x + dx, Jintegrate adds the identity, JintegrateTransport does nothing; see State_Model.v).

    Size checks are in the arguments.  The differential model is a record of functions: its
    calc and calcDiff overwrite the outputs completely (simplification).  One constraint
    vector [con] stands for both g and h, which are treated by the same lines. *)
From Coq Require Import Reals List Arith Bool.
From Verif Require Import Deriv VecMat ControlParam_Model.
Open Scope R_scope.

Record diffmodel := DiffModel {
  acc : vec -> vec -> vec;       (* xout *)
  lcost : vec -> vec -> R;       (* cost *)
  con : vec -> vec -> vec;       (* g, h *)
  dFx : vec -> vec -> mat; dFu : vec -> vec -> mat;
  dLx : vec -> vec -> vec; dLu : vec -> vec -> vec;
  dLxx : vec -> vec -> mat; dLxu : vec -> vec -> mat; dLuu : vec -> vec -> mat;
  dGx : vec -> vec -> mat; dGu : vec -> vec -> mat }.

(** time_step_ and time_step2_ *)
Record tstep := TStep { dt : R; dt2 : R }.
(** integ-action-base.hxx:51-63 (init) *)
Definition mk_step (h : R) : tstep :=
  let s := TStep h (h * h) in
  if Rlt_dec (dt s) 0 then TStep (1 / 1000) (1 / 1000 * (1 / 1000)) else s.
(** integ-action-base.hxx:125-131 (set_dt); [None] is the exception, the model is unchanged *)
Definition set_dt (h : R) (s : tstep) : option tstep :=
  if Rlt_dec h 0 then None else Some (TStep h (h * h)).

(** Common part of the action data. *)
Record actdata := ActData {
  xnext : vec; cost : R; cons : vec;
  Fx : mat; Fu : mat; Lx : vec; Lu : vec; Lxx : mat; Lxu : mat; Luu : mat; Gx : mat; Gu : mat }.

Section Integrator.
Variables (nv nw : nat) (p : param) (dm : diffmodel) (ts : tstep).
Let nu := np p nw.

(** ** Euler *)
Record edata := EData { e_act : actdata; e_cp : cpdata; e_dx : vec; e_da_du : mat; e_Lwu : mat }.

(** euler.hxx:27-57 *)
Definition euler_calc (x u : vec) (d : edata) : edata :=
  let cp := cp_calc p nw 0 u (e_cp d) in
  let w := cp_w cp in
  let a := acc dm x w in
  let dx := fun i => if i <? nv then x (nv + i)%nat * dt ts + a i * dt2 ts else a (i - nv)%nat * dt ts in
  let o := e_act d in
  EData (ActData (fun i => x i + dx i) (dt ts * lcost dm x w) (con dm x w)
           (Fx o) (Fu o) (Lx o) (Lu o) (Lxx o) (Lxu o) (Luu o) (Gx o) (Gu o))
        cp dx (e_da_du d) (e_Lwu d).

(** A vector seen as a one-column matrix (Eigen::Ref<MatrixXs> bound to a vector). *)
Definition col (v : vec) : mat := fun i _ => v i.

(** euler.hxx:82-128 *)
Definition euler_calcDiff (x u : vec) (d : edata) : edata :=
  let cp := cp_calc p nw 0 u (e_cp d) in
  let w := cp_w cp in
  let da_dx := dFx dm x w in
  let da_du := mulJ p nw cp (dFu dm x w) (e_da_du d) setto in
  let o := e_act d in
  let fx0 : mat := fun i j => if i <? nv then da_dx i j * dt2 ts else da_dx (i - nv)%nat j * dt ts in
  let fx1 : mat := fun i j => if (i <? nv) && Nat.eqb j (nv + i) then fx0 i j + dt ts else fx0 i j in
  let fx2 : mat := fun i j => if Nat.eqb i j then fx1 i j + 1 else fx1 i j in
  let fu : mat := fun i j => if i <? nv then dt2 ts * da_du i j else dt ts * da_du (i - nv)%nat j in
  let lu := fun i => mulJT p nw cp (col (dLu dm x w)) (col (Lu o)) setto i 0%nat * dt ts in
  let lxu := fun i j => mulJ p nw cp (dLxu dm x w) (Lxu o) setto i j * dt ts in
  let lwu := mulJ p nw cp (dLuu dm x w) (e_Lwu d) setto in
  let luu := fun i j => mulJT p nw cp lwu (Luu o) setto i j * dt ts in
  EData (ActData (xnext o) (cost o) (cons o) fx2 fu
           (fun i => dt ts * dLx dm x w i) lu (fun i j => dt ts * dLxx dm x w i j) lxu luu
           (dGx dm x w) (mulJ p nw cp (dGu dm x w) (Gu o) setto))
        cp (e_dx d) da_du lwu.

(** ** Runge-Kutta *)
Variable rk : rktype.

(** rk.hxx:409-433 (set_rk_type); entries at or beyond [rk_n] do not exist. *)
Definition rk_n : nat := match rk with two => 2 | three => 3 | four => 4 end.
Definition rk_c (i : nat) : R :=
  match rk, i with
  | _, O => 0
  | two, _ => 5 / 10
  | three, 1%nat => 1 / 3
  | three, _ => 2 / 3
  | four, 1%nat => 5 / 10
  | four, 2%nat => 5 / 10
  | four, _ => 1
  end.

(** Arrays indexed by the stage: y, ws and the control datas. *)
Record rkdata := RKData { r_act : actdata; r_y : nat -> vec; r_w : nat -> vec; r_cp : nat -> cpdata }.

(** rk.hxx:51-70: y[0] = x, k[i] = (v of y[i], xout), y[i+1] = x + dt c k[i]. *)
Section Stages.
Variables (x : vec) (w : nat -> vec).
Definition rk_k_of (i : nat) (y : vec) : vec :=
  fun j => if j <? nv then y (nv + j)%nat else acc dm y (w i) (j - nv)%nat.
Fixpoint rk_y (i : nat) : vec :=
  match i with
  | O => x
  | S i' => fun j => x j + dt ts * rk_c (S i') * rk_k_of i' (rk_y i') j
  end.
Definition rk_k (i : nat) : vec := rk_k_of i (rk_y i).
End Stages.

(** rk.hxx:72-88: the weighted sums; [f i] is the value at stage [i]. *)
Definition combo (f : nat -> R) : R :=
  match rk with
  | two => f 1%nat * dt ts
  | three => (f 0%nat + 3 * f 2%nat) * dt ts / 4
  | four => (f 0%nat + 2 * f 1%nat + 2 * f 2%nat + f 3%nat) * dt ts / 6
  end.

(** rk.hxx:30-93 *)
Definition rk_calc (x u : vec) (d : rkdata) : rkdata :=
  let cp := fun i => cp_calc p nw (rk_c i) u (r_cp d i) in
  let w := fun i => cp_w (cp i) in
  let y := rk_y x w in
  let dx := fun j => combo (fun i => rk_k x w i j) in
  let o := r_act d in
  RKData (ActData (fun j => x j + dx j) (combo (fun i => lcost dm (y i) (w i))) (con dm (y 0%nat) (w 0%nat))
            (Fx o) (Fu o) (Lx o) (Lu o) (Lxx o) (Lxu o) (Luu o) (Gx o) (Gu o)) y w cp.

(** rk.hxx:255-299: the weighted sums of the derivatives. *)
Definition dcombo (f : nat -> R) : R :=
  match rk with
  | two => dt ts * f 1%nat
  | three => dt ts / 4 * (f 0%nat + 3 * f 2%nat)
  | four => dt ts / 6 * (f 0%nat + 2 * f 1%nat + 2 * f 2%nat + f 3%nat)
  end.

Section Diff.
Variables (y w : nat -> vec) (cp : nat -> cpdata).
Let fx i := dFx dm (y i) (w i).
Let fu i := dFu dm (y i) (w i).

(** rk.hxx:182-188 for [i > 0]: dk[i-1] c dt, transported, plus the identity for dy/dx;
    the constructor (rk.hpp:290-291) sets dy[0]/dx to the identity and dy[0]/du to zero. *)
Definition dy_of (i : nat) (dk : mat) : mat := fun a b => dk a b * rk_c i * dt ts.
Definition plus_id (M : mat) : mat := fun a b => if Nat.eqb a b then M a b + 1 else M a b.

(** rk.hxx:206-215: the product of ki_data->Fx with dy/dx, exploiting the structure; at i = 1
    the block dq/dv is taken to be dt/2 times the identity. *)
Definition dkdx_of (i : nat) (dy : mat) : mat := fun a b =>
  if a <? nv then dy (nv + a)%nat b
  else
    let r := (a - nv)%nat in
    let q :=
      if b <? nv then rsum nv (fun k => fx i r k * dy k b)
      else if Nat.eqb i 1 then dt ts / 2 * fx i r (b - nv)%nat
      else rsum nv (fun k => fx i r k * dy k b) in
    q + rsum nv (fun k => fx i r (nv + k)%nat * dy (nv + k)%nat b).

(** rk.hxx:218-224 *)
Definition dkdu_of (i : nat) (dy : mat) : mat := fun a b =>
  if a <? nv then dy (nv + a)%nat b
  else
    let r := (a - nv)%nat in
    mulJ p nw (cp i) (fu i)
      (fun r b => rsum nv (fun k => fx i r k * dy k b) + rsum nv (fun k => fx i r (nv + k)%nat * dy (nv + k)%nat b))
      addto r b.

(** rk.hxx:153-157 and the constructor's constant blocks *)
Definition dkdx0 : mat := fun a b =>
  if a <? nv then (if Nat.eqb b (nv + a) then 1 else 0) else fx 0%nat (a - nv)%nat b.
Definition dkdu0 : mat := fun a b =>
  if a <? nv then 0 else mulJ p nw (cp 0%nat) (fu 0%nat) (fun _ _ => 0) setto (a - nv)%nat b.

Fixpoint dk_dx (i : nat) : mat :=
  match i with O => dkdx0 | S i' => dkdx_of (S i') (plus_id (dy_of (S i') (dk_dx i'))) end.
Fixpoint dk_du (i : nat) : mat :=
  match i with O => dkdu0 | S i' => dkdu_of (S i') (dy_of (S i') (dk_du i')) end.
Definition dy_dx (i : nat) : mat := match i with O => idm | S i' => plus_id (dy_of i (dk_dx i')) end.
Definition dy_du (i : nat) : mat := match i with O => fun _ _ => 0 | S i' => dy_of i (dk_du i') end.

(** Cost derivatives: rk.hxx:159-174 for stage 0, 226-252 for the others.  [mulm] with the
    dimension 2 nv is Eigen's product. *)
Let ndx := (2 * nv)%nat.
Let lx i := dLx dm (y i) (w i).
Let lu i := dLu dm (y i) (w i).
Let lxx i := dLxx dm (y i) (w i).
Let lxu i := dLxu dm (y i) (w i).
Let luu i := dLuu dm (y i) (w i).
Let O0 : mat := fun _ _ => 0.     (* previous content, overwritten *)
Definition dl_dx (i : nat) : vec :=
  match i with O => lx 0%nat | _ => fun b => rsum ndx (fun k => lx i k * dy_dx i k b) end.
Definition dl_du (i : nat) : vec :=
  let a := fun b => mulJT p nw (cp i) (col (lu i)) O0 setto b 0%nat in
  match i with O => a | _ => fun b => a b + rsum ndx (fun k => lx i k * dy_du i k b) end.
Definition ddl_ddx (i : nat) : mat :=
  match i with O => lxx 0%nat | _ => mulm ndx (tr (dy_dx i)) (mulm ndx (lxx i) (dy_dx i)) end.
Definition ddl_ddu (i : nat) : mat :=
  let a := mulJT p nw (cp i) (mulJ p nw (cp i) (luu i) O0 setto) O0 setto in
  match i with
  | O => a
  | _ =>
      let pu := mulm ndx (tr (mulJ p nw (cp i) (lxu i) O0 setto)) (dy_du i) in
      let q := mulm ndx (tr (dy_du i)) (mulm ndx (lxx i) (dy_du i)) in
      fun b c => a b c + (tr pu b c + pu b c + q b c)
  end.
Definition ddl_dxdu (i : nat) : mat :=
  match i with
  | O => mulJ p nw (cp 0%nat) (lxu 0%nat) O0 setto
  | _ => let a := mulJ p nw (cp i) (mulm ndx (tr (dy_dx i)) (lxu i)) O0 setto in
         let q := mulm ndx (tr (dy_dx i)) (mulm ndx (lxx i) (dy_du i)) in
         fun b c => a b c + q b c
  end.
End Diff.

(** rk.hxx:120-311 *)
Definition rk_calcDiff (d : rkdata) : rkdata :=
  let y := r_y d in let w := r_w d in let cp := r_cp d in
  let o := r_act d in
  RKData (ActData (xnext o) (cost o) (cons o)
            (plus_id (fun a b => dcombo (fun i => dk_dx y w i a b)))
            (fun a b => dcombo (fun i => dk_du y w cp i a b))
            (fun a => dcombo (fun i => dl_dx y w i a))
            (fun a => dcombo (fun i => dl_du y w cp i a))
            (fun a b => dcombo (fun i => ddl_ddx y w i a b))
            (fun a b => dcombo (fun i => ddl_dxdu y w cp i a b))
            (fun a b => dcombo (fun i => ddl_ddu y w cp i a b))
            (dGx dm (y 0%nat) (w 0%nat))
            (mulJ p nw (cp 0%nat) (dGu dm (y 0%nat) (w 0%nat)) (Gu o) setto)) y w cp.
End Integrator.
