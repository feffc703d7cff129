(** quasiStatic: the control that keeps a state at rest (include/crocoddyl/core/action-base.hxx:66-99,
    diff-action-base.hxx:48-78, integrator/euler.hxx:188-209, integrator/rk.hxx:373-395,
    multibody/actions/free-fwddyn.hxx:222-256, contact-fwddyn.hxx:296-341, contact-invdyn.hxx:277-338).

    [pinv] is pseudoInverse (core/utils/math.hpp:42-63).  The debug-only test that the velocity is zero
    is left out.  Vectors and matrices as in VecMat.v. *)
From Coq Require Import Reals List Arith Bool.
From Verif Require Import Deriv VecMat MultiContact_Model ControlParam_Model Integrator_Model.
Import ListNotations.
Open Scope R_scope.

(** *** The default: Newton's method *)
Section Newton.
(** [r u] is diff(x, xnext) of an action model or xout of a differential model after calc(x, u), [Fu u]
    the Jacobian after calcDiff(x, u); [m] their number of rows. *)
Variables (m nu : nat) (pinv : mat -> mat) (r : vec -> vec) (Fu : vec -> mat).
Definition qs_du (u : vec) : vec := fun i => - mulv m (pinv (Fu u)) (r u) i.
Definition norm (n : nat) (v : vec) : R := sqrt (rsum n (fun i => v i * v i)).
Fixpoint qs_loop (maxiter : nat) (tol : R) (u : vec) : vec :=
  match maxiter with
  | O => u
  | S k =>
      let du := qs_du u in
      let u' := fun i => u i + du i in
      if Rle_dec (norm nu du) tol then u' else qs_loop k tol u'
  end.
(** [None]: the sizes of u and x are wrong *)
Definition quasi_static (nx usize xsize : nat) (maxiter : nat) (tol : R) (u : vec) : option vec :=
  if negb (usize =? nu) then None else if negb (xsize =? nx) then None
  else Some (if nu =? 0 then u else qs_loop maxiter tol u).
End Newton.

(** *** Forward dynamics *)
(** [B] is dtau_du of the actuation at (q, 0) and u = 0, [g] is rnea(q, 0, 0). *)
Definition free_qs (nv : nat) (pinv : mat -> mat) (B : mat) (g : vec) : vec := mulv nv (pinv B) g.
(** tmp_Jstatic: the columns of the actuation and of the transposed contact rows *)
Definition jstatic (na : nat) (B J : mat) : mat := fun i j => if j <? na then B i j else J (j - na)%nat i.
Definition contact_qs (nv na : nat) (pinv : mat -> mat) (B J : mat) (g : vec) : vec := mulv nv (pinv (jstatic na B J)) g.

(** *** Contact inverse dynamics *)
(** The rows of Jc are computed with the active contacts only, in the buffer [bufJ]; all its nc_total
    rows are used. *)
Fixpoint qs_scatter (na nv : nat) (cs : list citem) (nc nc_r : nat) (z u : vec) : vec :=
  match cs with
  | [] => u
  | c :: cs' =>
      if c_active c
      then qs_scatter na nv cs' (nc + c_nc c) (nc_r + c_nc c) z (setseg (nv + nc) (c_nc c) (fun k => z (na + nc_r + k)%nat) u)
      else qs_scatter na nv cs' (nc + c_nc c) nc_r z (setseg (nv + nc) (c_nc c) (fun _ => 0) u)
  end.
Definition inv_qs (nv na : nat) (pinv : mat -> mat) (B : mat) (g : vec) (rows : list (citem * (nat -> vec))) (bufJ : mat) : vec :=
  let Jc := stack (fun _ => 0) false rows 0 bufJ in
  qs_scatter na nv (map fst rows) 0 0 (mulv nv (pinv (jstatic na B Jc)) g) (fun _ => 0).

(** *** Integrated models *)
(** [qs w] is quasiStatic of the differential model with the initial control [w]. *)
Definition euler_qs (p : param) (nw : nat) (qs : vec -> vec) (d : edata) : vec * edata :=
  let w := qs (fun _ => 0) in
  let cp := e_cp d in
  let cp' := cp_params p nw w (CPData w (cp_u cp) (dw_du cp) (cc cp)) in
  (cp_u cp', EData (e_act d) cp' (e_dx d) (e_da_du d) (e_Lwu d)).
(** rk.hxx: w *= 0 on the data of the first stage *)
Definition rk_qs (p : param) (nw : nat) (qs : vec -> vec) (d : rkdata) : vec * rkdata :=
  let cp := r_cp d 0%nat in
  let w := qs (fun i => cp_w cp i * 0) in
  let cp' := cp_params p nw w (CPData w (cp_u cp) (dw_du cp) (cc cp)) in
  (cp_u cp', RKData (r_act d) (r_y d) (r_w d) (fun i => if Nat.eqb i 0 then cp' else r_cp d i)).
