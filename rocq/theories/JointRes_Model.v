(** Joint-effort and joint-acceleration residuals inside an action:
    ResidualModelJointEffort (include/crocoddyl/core/residuals/joint-effort.hxx),
    ResidualModelJointAcceleration (core/residuals/joint-acceleration.hxx), the joint data they read
    (core/data/joint.hpp) and what the four differential actions write there
    (multibody/actions/free-fwddyn.hxx:77-78, 154-155, free-fwddyn.hpp:262, contact-fwddyn.hxx:131-132,
    217-218, contact-fwddyn.hpp:371, free-invdyn.hxx:104-106, 162-170, free-invdyn.hpp:448,
    contact-invdyn.hxx:156-158, 228-238, contact-invdyn.hpp:639).

    One action with one residual of each kind.  The dynamics are given by what they compute: the
    acceleration of forward dynamics and the commands of inverse dynamics, with the Jacobians they
    publish.  The size checks of x and u pass.  Vectors and matrices are real; only the reference of the
    effort carries its size, because its constructors do not check it. *)
From Coq Require Import Reals List Arith Bool.
From Verif Require Import Deriv VecMat.
Import ListNotations.
Open Scope R_scope.

(** core/data/joint.hpp:31-65 *)
Record joint := Joint { j_tau : vec; j_a : vec; j_tau_x : mat; j_tau_u : mat; j_a_x : mat; j_a_u : mat }.
(** [d_val], [d_x], [d_u]: xout, Fx, Fu of forward dynamics; actuation->u after commands and the products
    with Mtau of inverse dynamics *)
Record dyn (X : Type) := Dyn { d_fwd : bool; d_val : X -> vec -> vec; d_x : X -> vec -> mat; d_u : X -> vec -> mat }.
Arguments Dyn {X}. Arguments d_fwd {X}. Arguments d_val {X}. Arguments d_x {X}. Arguments d_u {X}.

(** joint-effort.hpp: [e_fwd] is [None] if the constructor leaves it uninitialised *)
Record emodel := EModel { e_nu : nat; e_dep : bool; e_ref : nat * vec; e_fwd : option bool }.
Record rdata := RData { r_val : vec; r_x : mat; r_u : mat }.

Section JointRes.
Context {X : Type}.
(** nv of the state, nu of the actuation *)
Variables (nv na : nat).

(** the four constructors, joint-effort.hxx:13-60 *)
Inductive ector := CFull (uref : nat * vec) (nu : nat) (fwd : bool) | CRef (uref : nat * vec) | CNu (nu : nat) | CDefault.
Definition e_new (c : ector) : option emodel :=
  match c with
  | CFull uref nu fwd => if Nat.eqb nu 0 then None else Some (EModel nu (negb fwd) uref (Some fwd))
  | CRef uref => Some (EModel nv true uref (Some false))
  | CNu nu => if Nat.eqb nu 0 then None else Some (EModel nu true (na, fun _ => 0) (Some false))
  | CDefault => Some (EModel nv true (na, fun _ => 0) None)
  end.
(** joint-effort.hxx:148-158; the exception leaves the model as it was *)
Definition e_set (uref : nat * vec) (m : emodel) : emodel :=
  if Nat.eqb (fst uref) na then EModel (e_nu m) (e_dep m) uref (e_fwd m) else m.

(** joint->tau - uref_ (undefined for different sizes) *)
Definition e_diff (m : emodel) (j : joint) : option vec :=
  if Nat.eqb (fst (e_ref m)) na then Some (fun i => j_tau j i - snd (e_ref m) i) else None.
(** joint-effort.hxx:62-80 *)
Definition e_calc (m : emodel) (j : joint) (d : rdata) : option rdata :=
  match e_diff m j with Some r => Some (RData r (r_x d) (r_u d)) | None => None end.
Definition e_calcT (m : emodel) (j : joint) (d : rdata) : option rdata :=
  match e_fwd m with
  | None => None
  | Some true => Some (RData (fun _ => 0) (r_x d) (r_u d))
  | Some false => e_calc m j d
  end.
(** joint-effort.hxx:82-104 *)
Definition e_diffR (m : emodel) (j : joint) (d : rdata) : rdata :=
  RData (r_val d) (if e_dep m then j_tau_x j else r_x d) (j_tau_u j).
Definition e_diffT (m : emodel) (j : joint) (d : rdata) : option rdata :=
  match e_fwd m with
  | None => None
  | Some true => Some (RData (r_val d) (fun _ _ => 0) (r_u d))
  | Some false => Some (RData (r_val d) (j_tau_x j) (j_tau_u j))
  end.

(** joint-acceleration.hxx:49-71, with residual-base.hxx:52-57: calcDiff(x) is calcDiff(x, unone) *)
Definition a_calc (aref : vec) (j : joint) (d : rdata) : rdata := RData (fun i => j_a j i - aref i) (r_x d) (r_u d).
Definition a_calcT (d : rdata) : rdata := RData (fun _ => 0) (r_x d) (r_u d).
Definition a_diff (j : joint) (d : rdata) : rdata := RData (r_val d) (j_a_x j) (j_a_u j).

Variable dm : dyn X.
(** createData of the actions *)
Definition eye : mat := fun i j => if Nat.eqb i j then 1 else 0.
(** the first n columns of the identity: da_du.leftCols(nv).diagonal().setOnes() *)
Definition j_create : joint :=
  let z : mat := fun _ _ => 0 in
  if d_fwd dm then Joint (fun _ => 0) (fun _ => 0) z eye z z
  else Joint (fun _ => 0) (fun _ => 0) z z z (fun i j => if Nat.ltb j nv then eye i j else 0).
Definition j_calc (x : X) (u : vec) (j : joint) : joint :=
  if d_fwd dm then Joint u (d_val dm x u) (j_tau_x j) (j_tau_u j) (j_a_x j) (j_a_u j)
  else Joint (d_val dm x u) u (j_tau_x j) (j_tau_u j) (j_a_x j) (j_a_u j).
Definition j_diff (x : X) (u : vec) (j : joint) : joint :=
  if d_fwd dm then Joint (j_tau j) (j_a j) (j_tau_x j) (j_tau_u j) (d_x dm x u) (d_u dm x u)
  else Joint (j_tau j) (j_a j) (d_x dm x u) (d_u dm x u) (j_a_x j) (j_a_u j).

(** the action data with the two residuals, and the public calls *)
Record state := St { s_j : joint; s_em : emodel; s_aref : vec; s_e : rdata; s_a : rdata }.
Inductive op := Calc (x : X) (u : vec) | CalcT (x : X) | Diff (x : X) (u : vec) | DiffT (x : X) | SetE (uref : nat * vec) | SetA (aref : nat * vec).
Definition zr : rdata := RData (fun _ => 0) (fun _ _ => 0) (fun _ _ => 0).
Definition init (m : emodel) (aref : vec) : state := St j_create m aref zr zr.
Definition step (o : op) (s : state) : option state :=
  match o with
  | Calc x u =>
    let j := j_calc x u (s_j s) in
    match e_calc (s_em s) j (s_e s) with Some e => Some (St j (s_em s) (s_aref s) e (a_calc (s_aref s) j (s_a s))) | None => None end
  | CalcT x => match e_calcT (s_em s) (s_j s) (s_e s) with Some e => Some (St (s_j s) (s_em s) (s_aref s) e (a_calcT (s_a s))) | None => None end
  | Diff x u => let j := j_diff x u (s_j s) in Some (St j (s_em s) (s_aref s) (e_diffR (s_em s) j (s_e s)) (a_diff j (s_a s)))
  | DiffT x => match e_diffT (s_em s) (s_j s) (s_e s) with Some e => Some (St (s_j s) (s_em s) (s_aref s) e (a_diff (s_j s) (s_a s))) | None => None end
  | SetE r => Some (St (s_j s) (e_set r (s_em s)) (s_aref s) (s_e s) (s_a s))
  | SetA r => Some (if Nat.eqb (fst r) nv then St (s_j s) (s_em s) (snd r) (s_e s) (s_a s) else s)  (* joint-acceleration.hxx:102-113 *)
  end.
Fixpoint run (l : list op) (s : state) : option state :=
  match l with [] => Some s | o :: l => match step o s with Some s => run l s | None => None end end.
End JointRes.
