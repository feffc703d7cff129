(** Specification for the inverse dynamics. *)
From Coquelicot Require Import Coquelicot.
From Coq Require Import Reals List Arith Bool.
From Verif Require Import Deriv VecMat Spatial Contact_Model Actuation_Model MultiContact_Model FwdDyn_Model FwdDyn_Spec FwdDyn_Contacts InvDyn_Model.
Import ListNotations.
Open Scope R_scope.

(** pinocchio::rnea(q, v, a, fext) *)
Definition rnea_value (nv nj : nat) (M : mat) (nle : vec) (G : nat -> nat -> v6) (a : vec) (fext : nat -> v6) (tau : vec) : Prop :=
  forall i, (i < nv)%nat -> tau i = rsum nv (fun j => M i j * a j) + nle i - rsum nj (fun j => dot6 (fext j) (G j i)).
(** A contact of the inverse dynamics: frame, model, kinematics at zero acceleration along a curve of
    states, kinematics computed with the generalised acceleration [a] (forwardKinematics(q, v, a) and its
    derivatives), and what its data held when it was last active. *)
Record icontact := IContact { ic_frame : nat; ic_m : cmodel; ic_k : R -> kin; ic_ka : R -> vec -> kin; ic_old : vec * (mat * mat) }.
Section Contacts.
Variables (nv : nat) (cs : list icontact).
Definition ic_item (c : icontact) : citem := item_of (ic_m c).
(** The contacts of FwdDyn_Contacts.v seen at the frozen acceleration [a], with what they publish at [s]. *)
Definition frozen (a : vec) : list scontact := map (fun c => (ic_m c, (ic_k c, fun t => ic_ka c t a))) cs.
Definition ipcs (s : R) (a : vec) : list pcontact := contacts nv s (frozen a).
(** The spatial acceleration is affine in [a]. *)
Definition kinematic (c : icontact) : Prop := forall a, accelerated nv (ic_k c) (fun t => ic_ka c t a) a.
(** Their data after calc(x, u) and calcDiff(x, u) at (t, a, force). *)
Definition cdata_of (t : R) (a : vec) (c : icontact) (f : fdata) : cdata :=
  let k := ic_ka c t a in
  if cm_active (ic_m c) then
    CData (ic_frame c) (c_nc (ic_item c)) (cc_a0 (curve (ic_m c) (fun _ => k)) t) (cc_J (curve (ic_m c) (fun _ => k)) t)
      (fst (published nv (ic_m c) k (fd_f f))) (fd_f f)
  else CData (ic_frame c) (c_nc (ic_item c)) (fst (ic_old c)) (fst (snd (ic_old c))) (snd (snd (ic_old c))) (fd_f f).
Fixpoint zip_data (t : R) (a : vec) (cs : list icontact) (fs : list fdata) : list (bool * cdata) :=
  match cs, fs with
  | c :: cs, f :: fs => (cm_active (ic_m c), cdata_of t a c f) :: zip_data t a cs fs
  | _, _ => []
  end.
(** updateForce with compute_all_contacts_ *)
Definition iupdate (t : R) (a force : vec) : list fdata * (nat -> v6) := update true (force_list (ipcs t a) t) 0 force (fun _ => z6).
Definition idatas (t : R) (a force : vec) : list (bool * cdata) := zip_data t a cs (fst (iupdate t a force)).
Definition iJc (bufJ : nat -> vec) (t : R) (a : vec) : mat := stack (fun _ => 0) true (row_list (ipcs t a) t) 0 bufJ.
End Contacts.

(** All equality constraints are satisfied. *)
Definition satisfied (bs : list block) : Prop := forall b, In b bs -> forall i, (i < b_n b)%nat -> b_r b i = 0.
(** The forces of the active contacts, out of those of all contacts: the row numbers of the active
    contacts and the forces on these rows. *)
Fixpoint active_rows (cs : list citem) (nc : nat) : list nat :=
  match cs with
  | [] => []
  | c :: cs' => (if c_active c then seq nc (c_nc c) else []) ++ active_rows cs' (nc + c_nc c)
  end.
Definition active_part (cs : list citem) (force : vec) : vec := fun r => force (nth r (active_rows cs 0) 0%nat).
(** The actuation can produce every torque that vanishes outside its tau_set, and the commands are the
    controls that do it. *)
Definition faithful (nv : nat) (ac : actuator) (d : actdata) : Prop :=
  forall tau, (forall k, (k < nv)%nat -> t_set (snd (inv_calc ac tau d)) k = false -> tau k = 0) ->
  forall i, (i < nv)%nat -> t_tau (snd (inv_calc ac tau d)) i = tau i.
