(** Settings and cast of DifferentialActionModelFreeFwdDynamics (free-fwddyn.hxx), DifferentialActionModelContactFwdDynamics
    (contact-fwddyn.hxx) and ActionModelImpulseFwdDynamics (impulse-fwddyn.hxx).

    The scalar type is the same on both sides.  State, actuation, contacts, costs and constraints are in other files:
    here they are the same for the model and its copy.  Vectors given to a setter carry their size. *)
From Coq Require Import Reals List Arith Bool.
From Verif Require Import Deriv VecMat FwdDyn_Model.
Import ListNotations.
Open Scope R_scope.

Inductive kind := Free | Contact | Impulse.
(** armature_ (None: set_armature was not called, see FwdDyn_Model), r_coeff_, JMinvJt_damping_, enable_force_,
    u_lb_, u_ub_ *)
Record dset := DSet { y_arm : option vec; y_e : R; y_mu : R; y_force : bool; y_lb : vec; y_ub : vec }.

Section CastDyn.
(** Dimensions and effort limits of the actuated joints (pinocchio_->effortLimit.tail(nu_)) *)
Variables (nv nu : nat) (lim : vec).

(** Constructors: free-fwddyn.hxx:14-37, contact-fwddyn.hxx:14-79, impulse-fwddyn.hxx:13-67.  [None] is the exception.
    The free dynamics have neither restitution, damping nor force flag; contacts have no restitution. *)
Definition d_new (k : kind) (e mu : R) (force : bool) : option dset :=
  match k with
  | Free => Some (DSet None 0 0 false (fun i => - lim i) lim)
  | Contact => Some (DSet None 0 (Rabs mu) force (fun i => - lim i) lim)
  | Impulse => if Rlt_dec e 0 then None else if Rlt_dec mu 0 then None else Some (DSet None e mu force (fun _ => 0) (fun _ => 0))
  end.

Inductive dop :=
| SetArmature (n : nat) (v : vec)
| SetRestitution (e : R)
| SetDamping (mu : R)
| SetLower (n : nat) (v : vec)
| SetUpper (n : nat) (v : vec).
(** free-fwddyn.hxx:354-364, contact-fwddyn.hxx:465-483, impulse-fwddyn.hxx:411-440, diff-action-base.hxx (set_u_lb,
    set_u_ub).  A call that throws, or that the class does not have, changes nothing. *)
Definition d_step (k : kind) (m : dset) (o : dop) : dset :=
  match o with
  | SetArmature n v => if Nat.eqb n nv then DSet (Some v) (y_e m) (y_mu m) (y_force m) (y_lb m) (y_ub m) else m
  | SetRestitution e =>
      match k with Impulse => if Rlt_dec e 0 then m else DSet (y_arm m) e (y_mu m) (y_force m) (y_lb m) (y_ub m) | _ => m end
  | SetDamping mu =>
      match k with Free => m | _ => if Rlt_dec mu 0 then m else DSet (y_arm m) (y_e m) mu (y_force m) (y_lb m) (y_ub m) end
  | SetLower n v => if Nat.eqb n nu then DSet (y_arm m) (y_e m) (y_mu m) (y_force m) v (y_ub m) else m
  | SetUpper n v => if Nat.eqb n nu then DSet (y_arm m) (y_e m) (y_mu m) (y_force m) (y_lb m) v else m
  end.
Definition d_run (k : kind) (m : dset) (l : list dop) : dset := fold_left (d_step k) l m.
(** free-fwddyn.hxx:186-208, contact-fwddyn.hxx:266-292, impulse-fwddyn.hxx:144-170 *)
Definition d_cast (k : kind) (m : dset) : option dset := d_new k (y_e m) (y_mu m) (y_force m).

(** The results of calc with the settings of a model *)
Definition free_motion (aba : vec -> vec) (minv : mat -> mat) (m : dset) (M : mat) (nle tau : vec) : vec :=
  free_xout nv aba minv (y_arm m) M nle tau.
Definition contact_motion (fd : mat -> mat -> vec -> vec -> R -> vec * vec) (m : dset) (M : mat) (nle tau : vec) (J : mat) (a0 : vec) : vec * vec :=
  contact_calc fd (y_arm m) (y_mu m) M nle tau J a0.
Definition impulse_motion (imp : mat -> mat -> vec -> R -> R -> vec * vec) (m : dset) (M J : mat) (v : vec) : vec * vec :=
  impulse_calc imp (y_arm m) (y_e m) (y_mu m) M J v.
End CastDyn.
