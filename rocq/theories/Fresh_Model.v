(** Which kinematic quantities of pinocchio::Data an action refreshes and which of them the residuals
    of its costs and constraints read:
    include/crocoddyl/multibody/actions/{free,contact}-{fwddyn,invdyn}.hxx, impulse-fwddyn.hxx and
    multibody/residuals/{frame-translation,frame-rotation,frame-placement,frame-velocity,com-position,
    centroidal-momentum,pair-collision}.hxx.

    A field of pinocchio::Data holds a value; each Pinocchio call overwrites the fields listed for it
    with their values at its arguments, or computes them from other fields.  Fields no residual reads
    (forces, mass matrix, ...) are left out. *)
From Coq Require Import List Bool.
Import ListNotations.

Inductive field := LiMi | OMi | OMf | Vel | OVel | Jac | Com | JCom | Hg | DHg.
Definition feq_dec (f g : field) : {f = g} + {f <> g}.
Proof. decide equality. Defined.

(** The robot: configurations, velocities, values of the fields at (q, v), the routines computing fields
    from other fields, the velocity after an impact, and the functions residuals apply to what they read. *)
Record pin := Pin {
  pq : Type; pv : Type; val : Type; out : Type;
  F : field -> pq -> pv -> val;
  up_global : val -> val;            (* updateGlobalPlacements: oMi from liMi *)
  up_frame : val -> val;             (* updateFramePlacement: oMf from oMi *)
  joint_jac : val -> val;            (* computeJointJacobians(model, data): J from oMi *)
  jac_com : val -> val; pos_com : val -> val;  (* jacobianCenterOfMass(model, data, false) *)
  momentum : val -> val -> val;      (* computeCentroidalMomentum(model, data): hg from liMi and v *)
  v_zero : pv; v_after : pq -> pv -> pv;       (* impulseDynamics *)
  val_r : list val -> out; val_d : list val -> out }.

Section Run.
Variable P : pin.
(** pinocchio::Data: the fields and dq_after *)
Record pdata := PData { fld : field -> val P; dq_after : pv P }.
Definition put (d : pdata) (fs : list field) (new : field -> val P) : pdata :=
  PData (fun f => if in_dec feq_dec f fs then new f else fld d f) (dq_after d).
Definition at_ (d : pdata) (fs : list field) (q : pq P) (v : pv P) : pdata := put d fs (fun f => F P f q v).

(** Pinocchio's routines *)
Definition aba (q : pq P) (v : pv P) (d : pdata) := at_ d [LiMi; Vel] q v.
Definition rnea (q : pq P) (v : pv P) (d : pdata) := at_ d [LiMi; Vel] q v.
Definition updateGlobalPlacements (d : pdata) := put d [OMi] (fun _ => up_global P (fld d LiMi)).
Definition computeAllTerms (q : pq P) (v : pv P) (d : pdata) := at_ d [LiMi; OMi; Vel; OVel; Jac; Com; JCom; Hg] q v.
Definition computeCentroidalMomentum (d : pdata) := put d [Hg] (fun _ => momentum P (fld d LiMi) (fld d Vel)).
Definition forwardKinematics (q : pq P) (v : pv P) (d : pdata) := at_ d [LiMi; OMi; Vel] q v.
Definition computeJointJacobians (d : pdata) := put d [Jac] (fun _ => joint_jac P (fld d OMi)).
Definition centerOfMass (q : pq P) (v : pv P) (d : pdata) := at_ d [LiMi; OMi; Vel; Com] q v.
Definition jacobianCenterOfMass (d : pdata) :=
  put d [Com; JCom] (fun f => if feq_dec f Com then pos_com P (fld d OMi) else jac_com P (fld d OMi)).
Definition computeABADerivatives (q : pq P) (v : pv P) (d : pdata) := at_ d [LiMi; OMi; Vel; OVel; Jac] q v.
Definition computeRNEADerivatives (q : pq P) (v : pv P) (d : pdata) := at_ d [LiMi; OMi; Vel; OVel; Jac; DHg] q v.
Definition computeForwardKinematicsDerivatives (q : pq P) (v : pv P) (d : pdata) := at_ d [LiMi; OMi; Vel; OVel; Jac] q v.
Definition computeGeneralizedGravityDerivatives (q : pq P) (d : pdata) :=
  put d [LiMi; OMi; Jac] (fun f => F P f q (v_zero P)).
Definition impulseDynamics (q : pq P) (v : pv P) (d : pdata) := PData (fld d) (v_after P q v).

(** The actions; FreeFwd is the case without armature (ABA). *)
Inductive action := FreeFwd | FreeFwdArmature | FreeInv | ContactFwd | ContactInv | Impulse.
(** free-fwddyn.hxx:62-76, free-invdyn.hxx:101-102, contact-fwddyn.hxx:105-130,
    contact-invdyn.hxx:147-154, impulse-fwddyn.hxx:210-235 *)
Definition calc (a : action) (q : pq P) (v : pv P) (d : pdata) : pdata :=
  match a with
  | FreeFwd => updateGlobalPlacements (aba q v d)
  | FreeFwdArmature => computeAllTerms q v d
  | FreeInv => updateGlobalPlacements (rnea q v d)
  | ContactFwd => computeCentroidalMomentum (computeAllTerms q v d)
  | ContactInv =>
      centerOfMass q v (updateGlobalPlacements (rnea q v (computeJointJacobians (forwardKinematics q v d))))
  | Impulse => impulseDynamics q v (computeCentroidalMomentum (computeAllTerms q v d))
  end.
(** free-fwddyn.hxx:139-156, free-invdyn.hxx:158, contact-fwddyn.hxx:196, contact-invdyn.hxx:221-227,
    impulse-fwddyn.hxx:259-269 *)
Definition calcDiff (a : action) (q : pq P) (v : pv P) (d : pdata) : pdata :=
  match a with
  | FreeFwd => computeABADerivatives q v d
  | FreeFwdArmature | FreeInv | ContactFwd => computeRNEADerivatives q v d
  | ContactInv => jacobianCenterOfMass (computeRNEADerivatives q v d)
  | Impulse =>
      computeForwardKinematicsDerivatives q (dq_after d)
        (computeGeneralizedGravityDerivatives q (computeRNEADerivatives q (v_zero P) d))
  end.
(** calc(data, x): free-fwddyn.hxx:103, free-invdyn.hxx:129, contact-fwddyn.hxx:157-158,
    contact-invdyn.hxx:189-190, impulse-fwddyn.hxx:88-103 *)
Definition calc_terminal (a : action) (q : pq P) (v : pv P) (d : pdata) : pdata :=
  match a with
  | FreeFwd | FreeFwdArmature | FreeInv => computeAllTerms q v d
  | ContactFwd | ContactInv => computeCentroidalMomentum (computeAllTerms q v d)
  | Impulse => calc Impulse q v d
  end.
(** calcDiff(data, x): nothing but for the impulse action, impulse-fwddyn.hxx:122-136 *)
Definition calcDiff_terminal (a : action) (q : pq P) (v : pv P) (d : pdata) : pdata :=
  match a with Impulse => calcDiff Impulse q v d | _ => d end.

(** The residuals; Frame is translation, rotation and placement. *)
Inductive residual := Frame | FrameVelocity | CoMPosition | CentroidalMomentum | PairCollision.
(** what calc does to the data (updateFramePlacement, updateGeometryPlacements with the forward
    kinematics of the configuration) and reads *)
Definition res_calc (k : residual) (q : pq P) (d : pdata) : pdata :=
  match k with
  | Frame => put d [OMf] (fun _ => up_frame P (fld d OMi))
  | PairCollision => put d [LiMi; OMi] (fun f => F P f q (v_zero P))
  | _ => d
  end.
Definition reads_calc (k : residual) : list field :=
  match k with
  | Frame => [OMf] | FrameVelocity => [Vel; OMi] | CoMPosition => [Com] | CentroidalMomentum => [Hg] | PairCollision => [OMi]
  end.
(** getFrameJacobian, getFrameVelocityDerivatives, Jcom, getCentroidalDynamicsDerivatives, getJointJacobian *)
Definition reads_diff (k : residual) : list field :=
  match k with
  | Frame => [OMf; OMi; Jac] | FrameVelocity => [OMi; OVel; Jac] | CoMPosition => [JCom] | CentroidalMomentum => [DHg]
  | PairCollision => [OMi; Jac]
  end.

(** Evaluations of an action with one such residual: the residual r after calc, the Jacobian Rx after
    calcDiff. *)
Inductive op := Calc (q : pq P) (v : pv P) | Diff (q : pq P) (v : pv P)
  | CalcT (q : pq P) (v : pv P) | DiffT (q : pq P) (v : pv P).
Record world := World { w_pin : pdata; w_r : option (out P); w_Rx : option (out P) }.
Definition step (a : action) (k : residual) (w : world) (o : op) : world :=
  match o with
  | Calc q v => let d := res_calc k q (calc a q v (w_pin w)) in
      World d (Some (val_r P (map (fld d) (reads_calc k)))) (w_Rx w)
  | CalcT q v => let d := res_calc k q (calc_terminal a q v (w_pin w)) in
      World d (Some (val_r P (map (fld d) (reads_calc k)))) (w_Rx w)
  | Diff q v => let d := calcDiff a q v (w_pin w) in World d (w_r w) (Some (val_d P (map (fld d) (reads_diff k))))
  | DiffT q v => let d := calcDiff_terminal a q v (w_pin w) in World d (w_r w) (Some (val_d P (map (fld d) (reads_diff k))))
  end.
Definition run (a : action) (k : residual) (d0 : pdata) (l : list op) : world :=
  fold_left (step a k) l (World d0 None None).
End Run.
