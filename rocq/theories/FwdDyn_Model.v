(** Forward dynamics: DifferentialActionModelFreeFwdDynamics
    (include/crocoddyl/multibody/actions/free-fwddyn.hxx), DifferentialActionModelContactFwdDynamics
    (contact-fwddyn.hxx) and ActionModelImpulseFwdDynamics (impulse-fwddyn.hxx): what calc and calcDiff
    write into xout/xnext, Fx, Fu, the forces and their derivatives.

    The rigid-body algorithms of Pinocchio are inputs (mass matrix, bias forces, derivatives of the
    inverse dynamics) or oracles (linear solvers); FwdDyn_Spec.v states what they promise.  calcDiff is
    modelled after a calc at the same point, as the interface demands; the size checks of x and u pass;
    costs and constraints are in other files.  [dx] coordinates: the first nv columns belong to the
    configuration, the next nv to the velocity. *)
From Coq Require Import Reals List Arith Bool.
From Verif Require Import Deriv VecMat Spatial MultiContact_Model.
Import ListNotations.
Open Scope R_scope.

Section Dyn.
Variables (nv : nat).

(** pinocchio.M.diagonal() += armature_, after set_armature (free-fwddyn.hxx:70, 354-364;
    contact-fwddyn.hxx:108-110, 465-474; impulse-fwddyn.hxx:213-215); [None]: set_armature was not called. *)
Definition add_armature (arm : option vec) (M : mat) : mat :=
  match arm with None => M | Some ar => fun i j => if Nat.eqb i j then M i j + ar i else M i j end.
(** leftCols(nv) and rightCols(nv) of a matrix with 2 nv columns *)
Definition hcat (A B : mat) : mat := fun i j => if j <? nv then A i j else B i (j - nv)%nat.

(** *** Free *)
Section Free.
(** [aba tau] is pinocchio::aba at (q, v), [minv M] the inverse computed from the Cholesky
    decomposition (cholesky::decompose, cholesky::computeMinv). *)
Variables (aba : vec -> vec) (minv : mat -> mat).
(** free-fwddyn.hxx:61-76 *)
Definition free_xout (arm : option vec) (M : mat) (nle tau : vec) : vec :=
  match arm with
  | None => aba tau
  | Some _ => mulv nv (minv (add_armature arm M)) (fun i => tau i - nle i)
  end.
(** free-fwddyn.hxx:136-153.  [aba_dx], [aba_dtau] come from computeABADerivatives, [rq], [rv] from
    computeRNEADerivatives at xout, [adx], [adu] from the actuation. *)
Definition free_Fx (arm : option vec) (M : mat) (aba_dx aba_dtau rq rv adx : mat) : mat :=
  match arm with
  | None => fun i j => aba_dx i j + mulm nv aba_dtau adx i j
  | Some _ => mulm nv (minv (add_armature arm M)) (hcat (fun i j => adx i j - rq i j) (fun i j => adx i (nv + j)%nat - rv i j))
  end.
Definition free_Fu (arm : option vec) (M : mat) (aba_dtau adu : mat) : mat :=
  match arm with
  | None => mulm nv aba_dtau adu
  | Some _ => mulm nv (minv (add_armature arm M)) adu
  end.
End Free.

(** *** Contact *)
Section Contact.
(** pinocchio::forwardDynamics(tau, J, gamma, mu): acceleration and contact force. *)
Variable fd : mat -> mat -> vec -> vec -> R -> vec * vec.
(** contact-fwddyn.hxx:105-130: M and nle from computeAllTerms, the rows in use of the stacked contact
    Jacobian and acceleration, the actuation torque. *)
Definition contact_calc (arm : option vec) (mu : R) (M : mat) (nle tau : vec) (J : mat) (a0 : vec) : vec * vec :=
  fd (add_armature arm M) J (fun i => tau i - nle i) a0 mu.
(** contact-fwddyn.hxx:196-216; [Kinv] is what getKKTContactDynamicMatrixInverse returns, [rq] is
    dtau_dq after updateRneaDiff. *)
Definition contact_Fx (nc : nat) (Kinv rq rv da0 adx : mat) : mat := fun i j =>
  (if j <? nv then - rsum nv (fun k => Kinv i k * rq k j) else - rsum nv (fun k => Kinv i k * rv k (j - nv)%nat))
  - rsum nc (fun r => Kinv i (nv + r)%nat * da0 r j)
  + rsum nv (fun k => Kinv i k * adx k j).
Definition contact_Fu (Kinv adu : mat) : mat := fun i j => rsum nv (fun k => Kinv i k * adu k j).
(** contact-fwddyn.hxx:221-231 (with enable_force_) *)
Definition contact_df_dx (nc : nat) (Kinv rq rv da0 adx : mat) : mat := fun r j =>
  (if j <? nv then rsum nv (fun k => Kinv (nv + r)%nat k * rq k j)
   else rsum nv (fun k => Kinv (nv + r)%nat k * rv k (j - nv)%nat))
  + rsum nc (fun r' => Kinv (nv + r)%nat (nv + r')%nat * da0 r' j)
  - rsum nv (fun k => Kinv (nv + r)%nat k * adx k j).
Definition contact_df_du (Kinv adu : mat) : mat := fun r j => - rsum nv (fun k => Kinv (nv + r)%nat k * adu k j).
End Contact.

(** *** Impulse *)
Section Impulse.
(** pinocchio::impulseDynamics(v, J, r_coeff, mu): velocity after the impact and impulse. *)
Variable imp : mat -> mat -> vec -> R -> R -> vec * vec.
(** impulse-fwddyn.hxx:210-235 *)
Definition impulse_calc (arm : option vec) (e mu : R) (M J : mat) (v : vec) : vec * vec :=
  imp (add_armature arm M) J v e mu.
(** impulse-fwddyn.hxx:258-289, the rows of Fx that belong to the velocity; the upper half is the
    identity on the configuration.  [rq] is dtau_dq of computeRNEADerivatives(q, 0, vnext - v, fext)
    after updateRneaDiff, [dg] that of the gravity, [M] the mass matrix computeRNEADerivatives wrote:
    it has no armature. *)
Definition impulse_Fx_top (i j : nat) : R := if j <? nv then (if Nat.eqb i j then 1 else 0) else 0.
Definition impulse_Fx (nc : nat) (Kinv rq dg dv0 M : mat) : mat := fun i j =>
  if j <? nv then - rsum nv (fun k => Kinv i k * (rq k j - dg k j)) - rsum nc (fun r => Kinv i (nv + r)%nat * dv0 r j)
  else rsum nv (fun k => Kinv i k * M k (j - nv)%nat).
(** impulse-fwddyn.hxx:292-298 *)
Definition impulse_df_dx (nc : nat) (Kinv rq dg dv0 J : mat) : mat := fun r j =>
  if j <? nv then rsum nv (fun k => Kinv (nv + r)%nat k * (rq k j - dg k j)) +
                  rsum nc (fun r' => Kinv (nv + r)%nat (nv + r')%nat * dv0 r' j)
  else rsum nc (fun r' => Kinv (nv + r)%nat (nv + r')%nat * J r' (j - nv)%nat).
End Impulse.
End Dyn.
