(** ContactModelMultiple (include/crocoddyl/multibody/contacts/multiple-contacts.hxx) and
    ImpulseModelMultiple (multibody/impulses/multiple-impulses.hxx): stacking of the rows of the
    individual contacts and distribution of the forces.

    The contacts are listed in the order of their names (std::map).  What an individual contact
    computes is a parameter here; Contact_Model.v gives it.  Simplifications: data and model hold the
    same names, so the size checks of 100-103 pass; the stacked matrices have nc_total rows, enough for
    every write. *)
From Coq Require Import Reals List Arith Bool.
From Verif Require Import Deriv VecMat Spatial.
Import ListNotations.
Open Scope R_scope.

(** What the loops read of a contact: its dimension, status, the joint its frame is attached to
    (frames[frame].parentJoint) and whether its type is LOCAL. *)
Record citem := CItem { c_nc : nat; c_active : bool; c_joint : nat; c_local : bool }.

(** segment(o, n) = r  and  block(o, 0, n, .) = r *)
Definition setseg {T} (o n : nat) (r : nat -> T) (buf : nat -> T) : nat -> T :=
  fun i => if (o <=? i) && (i <? o + n) then r (i - o)%nat else buf i.

Section Stack.
Context {T : Type} (zero : T) (all : bool).
(** The loops of calc (multiple-contacts.hxx:97-150, multiple-impulses.hxx:77-105) and calcDiff
    (153-205; 108-136), for the rows [fst] each contact publishes: with compute_all_contacts_ an
    inactive contact gets zero rows, otherwise it gets none.  Impulses have no compute_all mode. *)
Fixpoint stack (cs : list (citem * (nat -> T))) (nc : nat) (buf : nat -> T) : nat -> T :=
  match cs with
  | [] => buf
  | (c, r) :: cs' =>
      if c_active c then stack cs' (nc + c_nc c) (setseg nc (c_nc c) r buf)
      else if all then stack cs' (nc + c_nc c) (setseg nc (c_nc c) (fun _ => zero) buf)
      else stack cs' nc buf
  end.
End Stack.

(** get_nc(), get_nc_total() (their upkeep is in Containers_Model.v) and the size the force must have
    (multiple-contacts.hxx:221-227). *)
Definition nc_active (cs : list citem) : nat := fold_right (fun c n => if c_active c then (c_nc c + n)%nat else n) O cs.
Definition nc_total (cs : list citem) : nat := fold_right (fun c n => (c_nc c + n)%nat) O cs.
Definition nc_used (all : bool) (cs : list citem) : nat := if all then nc_total cs else nc_active cs.

(** Force data of one contact: the components it was given and the force at its joint. *)
Record fdata := FData { fd_f : vec; fd_fext : v6 }.
(** setZeroForce (contact-base.hxx:68-72, impulse-base.hxx:41-45) *)
Definition zero_force : fdata := FData (fun _ => 0) z6.

Section Force.
(** [fx c f] is the force at the parent joint computed by the contact's updateForce. *)
Variable all : bool.
(** updateForce, multiple-contacts.hxx:219-283 and multiple-impulses.hxx:151-190: the entry of the
    joint is overwritten. *)
Fixpoint update (cs : list (citem * (vec -> v6))) (nc : nat) (force : vec) (fext : nat -> v6) : list fdata * (nat -> v6) :=
  match cs with
  | [] => ([], fext)
  | (c, fx) :: cs' =>
      if c_active c then
        let f := fun i => force (nc + i)%nat in
        let (ds, e) := update cs' (nc + c_nc c) force (fun j => if Nat.eqb j (c_joint c) then fx f else fext j) in
        (FData f (fx f) :: ds, e)
      else
        let (ds, e) := update cs' (if all then nc + c_nc c else nc)%nat force fext in (zero_force :: ds, e)
  end.
(** updateForce: throws when the force has the wrong size, otherwise starts from zero joint forces. *)
Definition update_force (cs : list (citem * (vec -> v6))) (size : nat) (force : vec) : option (list fdata * (nat -> v6)) :=
  if Nat.eqb size (nc_used all (map fst cs)) then Some (update cs 0 force (fun _ => z6)) else None.
End Force.

(** updateRneaDiff, multiple-contacts.hxx:374-403, multiple-impulses.hxx:245-273: pinocchio.dtau_dq
    plus the dtau_dq of every active contact whose type is not LOCAL. *)
Fixpoint rnea_diff (cs : list (citem * mat)) (D : mat) : mat :=
  match cs with
  | [] => D
  | (c, d) :: cs' => rnea_diff cs' (if c_active c && negb (c_local c) then fun i j => D i j + d i j else D)
  end.
