(** Specification for the forward dynamics: the equations of motion and what Pinocchio and the
    individual contacts promise along a curve of states and controls. *)
From Coquelicot Require Import Coquelicot.
From Coq Require Import Reals List Arith Bool.
From Verif Require Import Deriv VecMat Spatial MultiContact_Model.
Import ListNotations.
Open Scope R_scope.

(** *** Equations of motion *)
(** A body with inertia [M] + diag [arm], bias [nle], torque [tau] and contact rows [J]. *)
Definition inertia (arm : option vec) (M : mat) : mat :=
  match arm with None => M | Some ar => fun i j => M i j + (if Nat.eqb i j then ar i else 0) end.
(** M a + nle = tau + J^T f and J a + a0 + mu f = 0 *)
Definition constrained_motion (nv nc : nat) (M : mat) (nle tau : vec) (J : mat) (a0 : vec) (mu : R) (a f : vec) : Prop :=
  (forall i, (i < nv)%nat -> rsum nv (fun j => M i j * a j) + nle i = tau i + rsum nc (fun r => J r i * f r)) /\
  (forall r, (r < nc)%nat -> rsum nv (fun j => J r j * a j) + a0 r + mu * f r = 0).
(** M (v' - v) = J^T f and J v' + e J v + mu f = 0 *)
Definition impact (nv nc : nat) (M J : mat) (e mu : R) (v v' f : vec) : Prop :=
  (forall i, (i < nv)%nat -> rsum nv (fun j => M i j * (v' j - v j)) = rsum nc (fun r => J r i * f r)) /\
  (forall r, (r < nc)%nat -> rsum nv (fun j => J r j * v' j) + e * rsum nv (fun j => J r j * v j) + mu * f r = 0).
(** The matrix of both systems, for the unknown (a, -f). *)
Definition kkt (nv : nat) (M J : mat) (mu : R) : mat := fun i j =>
  if i <? nv then (if j <? nv then M i j else J (j - nv)%nat i)
  else if j <? nv then J (i - nv)%nat j else if Nat.eqb i j then - mu else 0.
Definition left_inverse (n : nat) (A B : mat) : Prop := forall i j, (i < n)%nat -> (j < n)%nat -> mulm n A B i j = idm i j.

(** *** Derivatives along a curve *)
Definition differentiable (f : R -> R) (s : R) : Prop := exists l, is_derive f s l.
(** [f] is a function on a curve whose tangent at [s] is (dx, du), with Jacobians [Fx], [Fu]. *)
Definition jac (nx nu m : nat) (f : R -> vec) (s : R) (dx du : vec) (Fx Fu : mat) : Prop :=
  forall i, (i < m)%nat -> is_derive (fun t => f t i) s (rsum nx (fun j => Fx i j * dx j) + rsum nu (fun j => Fu i j * du j)).

(** The robot along a curve: mass matrix, bias forces, and the motion [G joint dof] of each joint in its
    own frame. *)
Record robot := Robot { r_M : R -> mat; r_nle : R -> vec; r_G : R -> nat -> nat -> v6 }.
Definition d6able (f : R -> v6) (s : R) : Prop := exists d, is_d6 f s d.
Definition smooth (nv : nat) (r : robot) (s : R) : Prop :=
  (forall i j, (i < nv)%nat -> (j < nv)%nat -> differentiable (fun t => r_M r t i j) s) /\
  (forall i, (i < nv)%nat -> differentiable (fun t => r_nle r t i) s) /\
  (forall joint i, (i < nv)%nat -> d6able (fun t => r_G r t joint i) s).
(** computeRNEADerivatives(q, v, a, fext): derivatives of M a + nle - sum of the joint forces, with the
    acceleration and the joint forces frozen. *)
Definition rnea_contract (nv nj : nat) (r : robot) (s : R) (dx : vec) (a : vec) (fext : nat -> v6) (rq rv : mat) : Prop :=
  forall i, (i < nv)%nat ->
    is_derive (fun t => rsum nv (fun j => r_M r t i j * a j) + r_nle r t i - rsum nj (fun j => dot6 (fext j) (r_G r t j i))) s
      (rsum nv (fun j => rq i j * dx j) + rsum nv (fun j => rv i j * dx (nv + j)%nat)).

(** A contact along the curve: rows of its Jacobian, acceleration, joint force. *)
Record ccurve := CCurve { cc_item : citem; cc_J : R -> nat -> vec; cc_a0 : R -> vec; cc_fx : R -> vec -> v6 }.
(** What it must satisfy at [s] for the force [f] and the acceleration [a] of the motion, with the
    derivatives [da0] (2 nv columns) and [dtau] it publishes. *)
Record contact_ok (nv : nat) (G : R -> nat -> nat -> v6) (s : R) (dx : vec) (c : ccurve) (f a : vec) (da0 dtau : mat) : Prop := {
  ok_dual : forall t g i, (i < nv)%nat ->
    dot6 (cc_fx c t g) (G t (c_joint (cc_item c)) i) = rsum (c_nc (cc_item c)) (fun k => g k * cc_J c t k i);
  ok_fx : d6able (fun t => cc_fx c t f) s;
  ok_dtau : forall i, (i < nv)%nat ->
    is_derive (fun t => - dot6 (cc_fx c t f) (G s (c_joint (cc_item c)) i)) s (rsum nv (fun j => dtau i j * dx j));
  ok_local : c_local (cc_item c) = true -> forall i j, dtau i j = 0;
  ok_J : forall k i, (k < c_nc (cc_item c))%nat -> (i < nv)%nat -> differentiable (fun t => cc_J c t k i) s;
  ok_a0 : forall k, (k < c_nc (cc_item c))%nat ->
    is_derive (fun t => cc_a0 c t k + rsum nv (fun j => cc_J c t k j * a j)) s
      (rsum (nv + nv) (fun j => da0 k j * dx j)) }.
