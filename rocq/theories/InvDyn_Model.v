(** Inverse dynamics: DifferentialActionModelFreeInvDynamics
    (include/crocoddyl/multibody/actions/free-invdyn.hxx, free-invdyn.hpp) and
    DifferentialActionModelContactInvDynamics (contact-invdyn.hxx, contact-invdyn.hpp): the torques, the
    equality constraints "tau", "<contact>_acc" and "<contact>_force" and their derivatives.

    The control is (a, f): the generalised acceleration and the forces of all the contacts, active or
    not.  pinocchio::rnea and computeRNEADerivatives are inputs ([tau]; [rq], [rv], [M]);
    FwdDyn_Spec.v and InvDyn_Spec.v state what they promise.  The size checks of x and u pass.  Costs and
    user constraints are in other files.  The free model is the case of no contacts. *)
From Coq Require Import Reals List Arith Bool.
From Verif Require Import Deriv VecMat Spatial Actuation_Model MultiContact_Model FwdDyn_Model.
Import ListNotations.
Open Scope R_scope.

(** *** Actuation *)
(** An actuation model whose torque does not depend on the state: calc and commands, and the number of
    controls. *)
Record actuator := Actuator { a_na : nat; a_calc : vec -> actdata -> actdata; a_commands : vec -> actdata -> actdata }.
Definition fb_actuator (nfb nu : nat) : actuator := Actuator nu (fb_calc nfb) (fb_commands nfb).
Definition full_actuator (nv : nat) : actuator := Actuator nv full_calc full_commands.
(** Thrusters, floating-base-thrusters.hpp:200-212, 235-239, 353-361: [nv] coordinates, [na] controls.
    The data are up to date; tau_set is taken from the diagonal of S = W pinv(W) (323), and [eps] is
    the machine epsilon. *)
Definition th_actuator (nv na : nat) : actuator :=
  Actuator na (fun u d => with_tau (mulv na (t_du d) u) d) (fun tau d => with_u (mulv nv (t_M d) tau) d).
Definition th_data (na : nat) (eps : R) (m : thmodel) : actdata :=
  ActData (fun _ => 0) (fun _ => 0) (fun _ _ => 0) (m_W m) (m_Mtau m)
    (fun k => if Rlt_dec (Rabs (mulm na (m_W m) (m_Mtau m) k k)) eps then false else true).

(** free-invdyn.hxx:98-102, contact-invdyn.hxx:152-155: [tau] is the result of rnea.  The result is
    joint.tau and the actuation data after calc. *)
Definition inv_calc (ac : actuator) (tau : vec) (d : actdata) : vec * actdata :=
  let d := a_commands ac tau d in
  let jt := t_u d in
  (jt, a_calc ac jt d).

(** *** The constraint "tau" *)
Section Under.
Context {T : Type}.
(** free-invdyn.hpp:310-317 and 346-353 (contact-invdyn.hpp:329-336, 365-373): the entries [k] with
    !tau_set[k] are copied to consecutive rows of a matrix with [nr] rows; [None] is an access out of
    range.  [n] is tau_set.size() - [k]. *)
Fixpoint under (set : nat -> bool) (src : nat -> T) (nr n k nrow : nat) (buf : nat -> T) : option (nat -> T) :=
  match n with
  | O => Some buf
  | S n =>
      if set k then under set src nr n (S k) nrow buf
      else if nrow <? nr then under set src nr n (S k) (S nrow) (setseg nrow 1 (fun _ => src k) buf)
      else None
  end.
End Under.

Section Inv.
Variable nv : nat.
(** calc and calcDiff of ResidualModelActuation; [buf] is what the matrix held before.  [nr] is
    nv - na (free-invdyn.hpp:293, contact-invdyn.hpp:310), [nc] is nc_total. *)
Definition tau_r (nr : nat) (d : actdata) (tau : vec) (buf : vec) : option vec := under (t_set d) tau nr nv 0 0 buf.
Definition tau_Rx (nr : nat) (d : actdata) (rq rv : mat) (buf : mat) : option mat :=
  under (t_set d) (fun k j => hcat nv rq rv k j - t_dx d k j) nr nv 0 0 buf.
Definition tau_Ru (nr : nat) (d : actdata) (M Jc : mat) (buf : mat) : option mat :=
  under (t_set d) (hcat nv M (fun k r => - Jc r k)) nr nv 0 0 buf.
(** free-invdyn.hxx:159-164, contact-invdyn.hxx:229-237: joint.dtau_dx and joint.dtau_du *)
Definition joint_dtau_dx (d : actdata) (rq rv : mat) : mat := hcat nv (mulm nv (t_M d) rq) (mulm nv (t_M d) rv).
Definition joint_dtau_du (d : actdata) (M Jc : mat) : mat :=
  hcat nv (mulm nv (t_M d) M) (fun i r => - mulm nv (t_M d) (tr Jc) i r).

(** *** The constraints of the contacts *)
(** What the residuals read of the data of a contact: its frame and dimension, its acceleration a0 with
    the Jacobian Jc and the derivative da0_dx, and its force f.  An inactive contact keeps the a0, Jc
    and da0_dx it had; its force is zero (setZeroForce). *)
Record cdata := CData { cd_frame : nat; cd_nc : nat; cd_a0 : vec; cd_J : mat; cd_da0 : mat; cd_f : vec }.
(** Both residuals search the contacts for their frame and take the first one found
    (contact-invdyn.hpp:768-777, residuals/contact-force.hpp:288-321). *)
Definition of_frame (ds : list cdata) (frame : nat) : option cdata := find (fun d => cd_frame d =? frame)%nat ds.
(** A block of equality constraints: size, value, derivatives.  [None] in place of a block: the contact
    that was found has another dimension. *)
Record block := Block { b_n : nat; b_r : vec; b_Rx : mat; b_Ru : mat }.
Definition with_nc (n : nat) (d : option cdata) (f : cdata -> block) : option block :=
  match d with Some d => if (cd_nc d =? n)%nat then Some (f d) else None | None => None end.
(** ResidualModelContact: calc and calcDiff (contact-invdyn.hpp:501-506, 525-533): r = a0,
    Rx = da0_dx, Ru.leftCols(nv) = Jc; the rest of Ru was set to zero. *)
Definition acc_block (ds : list cdata) (d : cdata) : option block :=
  with_nc (cd_nc d) (of_frame ds (cd_frame d)) (fun e =>
    Block (cd_nc d) (cd_a0 e) (cd_da0 e) (hcat nv (cd_J e) (fun _ _ => 0))).
(** ResidualModelContactForce with zero reference and fwddyn = false (residuals/contact-force.hxx:57-78,
    106-150): r = f; Rx and Ru are the df_dx and df_du the constructor of the data set for every contact
    (contact-invdyn.hpp:640-658): zero and the identity on the columns of the contact, which start at
    [nv + o]. *)
Definition force_block (ds : list cdata) (d : cdata) (o : nat) : option block :=
  with_nc (cd_nc d) (of_frame ds (cd_frame d)) (fun e =>
    Block (cd_nc d) (cd_f e) (fun _ _ => 0) (fun i j => if (j =? nv + o + i)%nat then 1 else 0)).
(** The active ones of the constraints init adds for the contacts (contact-invdyn.hxx:77-115), with the
    statuses set in calc and calcDiff (159-168, 243-251); C90 relates them to the constraint manager.
    [acts] are the statuses of the contacts, [o] the offset of the next contact in the forces. *)
Fixpoint contact_blocks (ds : list cdata) (rest : list (bool * cdata)) (o : nat) : list (option block) :=
  match rest with
  | [] => []
  | (act, d) :: rest' => (if act then acc_block ds d else force_block ds d o) :: contact_blocks ds rest' (o + cd_nc d)
  end.
Definition contact_constraints (cs : list (bool * cdata)) : list (option block) := contact_blocks (map snd cs) cs 0.

(** All equality constraints of the model: "tau" is only added when nv - na > 0 (free-invdyn.hxx:68-77,
    contact-invdyn.hxx:79-87; na <= nv, the subtraction does not wrap).  [None]: an access out of range
    or a dimension mismatch. *)
Fixpoint collect (bs : list (option block)) : option (list block) :=
  match bs with
  | [] => Some []
  | Some b :: bs => match collect bs with Some l => Some (b :: l) | None => None end
  | None :: _ => None
  end.
Definition tau_block (nr : nat) (d : actdata) (tau : vec) (rq rv M Jc : mat) (br : vec) (bRx bRu : mat) : option block :=
  match tau_r nr d tau br, tau_Rx nr d rq rv bRx, tau_Ru nr d M Jc bRu with
  | Some r, Some Rx, Some Ru => Some (Block nr r Rx Ru)
  | _, _, _ => None
  end.
Definition inv_constraints (na : nat) (d : actdata) (tau : vec) (rq rv M Jc : mat) (br : vec) (bRx bRu : mat) (cs : list (bool * cdata))
  : option (list block) :=
  let nr := (nv - na)%nat in
  collect ((if 0 <? nr then [tau_block nr d tau rq rv M Jc br bRx bRu] else []) ++ contact_constraints cs).
End Inv.
