(** * Changing the frame or the type of a contact

    The frame and the type of a contact can be changed at any time
    (/repo include/crocoddyl/multibody/contact-base.hxx:120-129).  The data of a
    contact keeps the frame of the model that created it and the placement of
    that frame in its parent joint (contact-3d.hpp:200-204 and likewise in the
    1d, 2d and 6d contacts).  calc reads the frame of the model
    (contact-3d.hxx:63-97); updateForce turns the force into a force at a joint
    with the placement stored in the data (contact-3d.hxx:171-197), and the
    container applies it at the parent joint of the frame stored in the data
    (multiple-contacts.hxx:249-256).

    Simplified: one data per contact, created again by every createData; the
    functions of [Contact_Model] are used for calc and updateForce. *)
From Coq Require Import Reals List.
From Verif Require Import Deriv VecMat Spatial Contact_Model.
Import ListNotations.
Open Scope R_scope.

(** The frames of the robot: parent joint, placement in it. *)
Record robot := Robot { fr_joint : nat -> nat; fr_place : nat -> se3 }.

(** A contact and its data. *)
Record contact := Contact { c_id : nat; c_type : ftype }.
Record cdata := CData { d_frame : nat; d_jMf : se3 }.

Inductive cfop := SetId (id : nat) | SetType (t : ftype) | CreateData.

Definition create (rb : robot) (c : contact) : cdata := CData (c_id c) (fr_place rb (c_id c)).

Definition cfstep (rb : robot) (s : contact * cdata) (o : cfop) : contact * cdata :=
  match o with
  | SetId id => (Contact id (c_type (fst s)), snd s)
  | SetType t => (Contact (c_id (fst s)) t, snd s)
  | CreateData => (fst s, create rb (fst s))
  end.
Definition cfruns (rb : robot) (s : contact * cdata) (os : list cfop) := fold_left (cfstep rb) os s.

(** Generalised force [j] of the contact force: [kf] are the kinematics of the
    frames, [Jj] the Jacobians of the joints. *)
Section Force.
Variables (rb : robot) (kf : nat -> kin) (Jj : nat -> nat -> v6).
Definition at_joint (d : cdata) (fext : v6) (j : nat) : R := dot6 fext (Jj (fr_joint rb (d_frame d)) j).
Definition tau1 (Raxis : m3) (s : contact * cdata) (force : R) (j : nat) : R :=
  at_joint (snd s) (fext1 (c_type (fst s)) (d_jMf (snd s)) Raxis (kf (c_id (fst s))) force) j.
Definition tau2 (s : contact * cdata) (force : R * R) (j : nat) : R :=
  at_joint (snd s) (fext2 (d_jMf (snd s)) force) j.
Definition tau3 (s : contact * cdata) (force : v3) (j : nat) : R :=
  at_joint (snd s) (fext3 (c_type (fst s)) (d_jMf (snd s)) (kf (c_id (fst s))) force) j.
Definition tau6 (s : contact * cdata) (force : v6) (j : nat) : R :=
  at_joint (snd s) (fext6 (c_type (fst s)) (d_jMf (snd s)) (kf (c_id (fst s))) force) j.
End Force.
