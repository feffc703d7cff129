(** Residuals of the contact forces: include/crocoddyl/multibody/residuals/contact-force.{hpp,hxx},
    contact-friction-cone.{hpp,hxx}, contact-wrench-cone.{hpp,hxx}, contact-cop-position.{hpp,hxx},
    and contact-control-gravity.{hpp,hxx}.

    One residual model is shared by the datas of several nodes.  A data is linked to the contact (or
    impulse) data of its own node, which the dynamics of the node write: force f, and its derivatives
    df_dx, df_du.  Arithmetic is over the reals. *)
From Coq Require Import Reals List Arith Bool.
From Verif Require Import Deriv VecMat Spatial Contact_Model.
Import ListNotations.
Open Scope R_scope.

(** ContactData1D, 2D, 3D, 6D; the impulses are of the kinds F3 and F6 and publish like the contacts. *)
Inductive fkind := F1 | F2 | F3 | F6.
Definition fdim (k : fkind) : nat := match k with F1 => 1 | F2 => 2 | F3 => 3 | F6 => 6 end.
(** updateForce of the contact: the published force of the multipliers [l] (contact-1d.hxx:185-187,
    contact-2d.hxx:137-138, contact-3d.hxx:177-178, contact-6d.hxx:160, see Contact_Model). *)
Definition published (k : fkind) (jMf : se3) (l : vec) : v6 :=
  match k with
  | F1 => f1 (l 0%nat)
  | F2 => f2 jMf (l 0%nat, l 1%nat)
  | F3 => f3 (V3 (l 0%nat) (l 1%nat) (l 2%nat))
  | F6 => V6 (V3 (l 0%nat) (l 1%nat) (l 2%nat)) (V3 (l 3%nat) (l 4%nat) (l 5%nat))
  end.
(** ForceDataAbstract: the part read by the residuals *)
Record fcontact := FContact { fc_kind : fkind; fc_jMf : se3; fc_f : v6; fc_dx : mat; fc_du : mat }.

(** Force::toVector(), 6 entries *)
Definition tov (a : v6) : vec := fun i =>
  match i with
  | 0%nat => c1 (lin a) | 1%nat => c2 (lin a) | 2%nat => c3 (lin a)
  | 3%nat => c1 (ang a) | 4%nat => c2 (ang a) | _ => c3 (ang a)
  end.

(** The residual with its reference: the force fref_, or the matrix get_A() of the cone or support *)
Inductive rkind := RForce (fref : v6) | RFriction (A : mat) | RWrench (A : mat) | RCoP (A : mat).
Record fmodel := FModel { fm_kind : rkind; fm_fwd : bool; fm_upd : bool }.
Record fdata := FData { fd_r : vec; fd_Rx : mat; fd_Ru : mat }.

(** The contacts for which the constructor of the data does not throw: contact-force.hpp:286-350,
    contact-friction-cone.hpp:273-339, contact-wrench-cone.hpp:280-336, contact-cop-position.hpp:294-352. *)
Definition accepts (k : rkind) (c : fkind) : bool :=
  match k, c with
  | RForce _, (F1 | F3 | F6) => true
  | RFriction _, (F2 | F3 | F6) => true
  | (RWrench _ | RCoP _), F6 => true
  | _, _ => false
  end.

(** contact-force.hxx:61-82, contact-friction-cone.hxx:53-61, contact-wrench-cone.hxx:49-57,
    contact-cop-position.hxx:33-40.  The residual has the rows of the right-hand side. *)
Definition f_value (k : rkind) (c : fkind) (f : v6) : vec :=
  match k with
  | RForce ref =>
      match c with
      | F1 => fun _ => c3 (lin (sub6 f ref))
      | _ => tov (sub6 f ref)
      end
  | RFriction A => mulv 3 A (tov f)
  | RWrench A | RCoP A => mulv 6 A (tov f)
  end.
(** updateJacobians applied to df_dx or df_du: contact-force.hxx:118-144, contact-friction-cone.hxx:98-125,
    contact-wrench-cone.hxx:94-105, contact-cop-position.hxx:77-88 *)
Definition f_jac (k : rkind) (c : fkind) (D : mat) : mat :=
  match k with
  | RForce _ => D
  | RFriction A =>
      match c with
      | F2 => fun i j => A i 0%nat * D 0%nat j + A i 2%nat * D 1%nat j
      | _ => mulm 3 A D
      end
  | RWrench A | RCoP A => mulm 6 A D
  end.
Definition update_jacobians (m : fmodel) (c : fcontact) (d : fdata) : fmodel * fdata :=
  (FModel (fm_kind m) (fm_fwd m) false,
   FData (fd_r d) (f_jac (fm_kind m) (fc_kind c) (fc_dx c)) (f_jac (fm_kind m) (fc_kind c) (fc_du c))).

(** Constructors: update_jacobians_ starts as true. *)
Definition f_new (k : rkind) (fwd : bool) : fmodel := FModel k fwd true.

(** One model and its datas, each with the contact of its node *)
Record fworld := FWorld { w_model : fmodel; w_datas : list (fcontact * fdata) }.
Inductive fop :=
  | Create (c : fcontact)            (** createData with a collector holding this contact *)
  | SetRef (k : rkind)               (** set_reference, same kind of residual *)
  | SetForce (n : nat) (f : v6)      (** the dynamics of node n write f *)
  | SetDiff (n : nat) (dx du : mat)  (** the dynamics of node n write df_dx, df_du *)
  | Calc (n : nat) | CalcT (n : nat) | Diff (n : nat) | DiffT (n : nat).

Fixpoint upd {A} (l : list A) (n : nat) (f : A -> A) : list A :=
  match l, n with
  | [], _ => []
  | a :: l, O => f a :: l
  | a :: l, S n => a :: upd l n f
  end.
Definition zv : vec := fun _ => 0.
Definition zm : mat := fun _ _ => 0.

(** contact-force.hxx:104-116 and the same lines of the others *)
Definition f_create (m : fmodel) (c : fcontact) : option (fmodel * fdata) :=
  if accepts (fm_kind m) (fc_kind c) then
    let d := FData zv zm zm in
    Some (if fm_fwd m then (m, d) else update_jacobians m c d)
  else None.
Definition f_calc (m : fmodel) (c : fcontact) (d : fdata) : fdata :=
  FData (f_value (fm_kind m) (fc_kind c) (fc_f c)) (fd_Rx d) (fd_Ru d).
(** contact-force.hxx:84-89 *)
Definition f_calcT (d : fdata) : fdata := FData zv (fd_Rx d) (fd_Ru d).
(** contact-force.hxx:91-98 *)
Definition f_diff (m : fmodel) (c : fcontact) (d : fdata) : fmodel * fdata :=
  if fm_fwd m || fm_upd m then update_jacobians m c d else (m, d).
(** contact-force.hxx:100-105 *)
Definition f_diffT (d : fdata) : fdata := FData (fd_r d) zm (fd_Ru d).
(** contact-force.hxx:187-192: the class of the residual is fixed *)
Definition same_kind (k k' : rkind) : bool :=
  match k, k' with
  | RForce _, RForce _ | RFriction _, RFriction _ | RWrench _, RWrench _ | RCoP _, RCoP _ => true
  | _, _ => false
  end.
Definition f_set (k : rkind) (m : fmodel) : fmodel := if same_kind (fm_kind m) k then FModel k (fm_fwd m) true else m.

Definition fstep (w : fworld) (o : fop) : fworld :=
  let m := w_model w in let ds := w_datas w in
  match o with
  | Create c => match f_create m c with Some (m', d) => FWorld m' (ds ++ [(c, d)]) | None => w end
  | SetRef k => FWorld (f_set k m) ds
  | SetForce n f => FWorld m (upd ds n (fun cd => let c := fst cd in
      (FContact (fc_kind c) (fc_jMf c) f (fc_dx c) (fc_du c), snd cd)))
  | SetDiff n dx du => FWorld m (upd ds n (fun cd => let c := fst cd in
      (FContact (fc_kind c) (fc_jMf c) (fc_f c) dx du, snd cd)))
  | Calc n => FWorld m (upd ds n (fun cd => (fst cd, f_calc m (fst cd) (snd cd))))
  | CalcT n => FWorld m (upd ds n (fun cd => (fst cd, f_calcT (snd cd))))
  | Diff n => match nth_error ds n with
      | Some (c, d) => let md := f_diff m c d in FWorld (fst md) (upd ds n (fun cd => (fst cd, snd md)))
      | None => w
      end
  | DiffT n => FWorld m (upd ds n (fun cd => (fst cd, f_diffT (snd cd))))
  end.
Definition frun (ops : list fop) (w : fworld) : fworld := fold_left fstep ops w.

(** ** Gravity compensation: residuals/control-gravity.hxx and contact-control-gravity.{hpp,hxx}.
    One model serves both; the plain residual is the case without joint forces, where Pinocchio's
    computeStaticTorque and computeGeneralizedGravity coincide.  The data of the contact residual keeps a
    copy of the joint forces made by its constructor (contact-control-gravity.hpp:190, 198-199: fext is a
    vector, not a reference). *)
Record gdata := GData { gd_fext : nat -> v6; gd_r : vec; gd_Rx : mat; gd_Ru : mat }.
Section Grav.
(** pinocchio: computeStaticTorque(q, fext), computeGeneralizedGravity(q) and their derivatives *)
Variables (Q : Type) (nv : nat) (static_torque : Q -> (nat -> v6) -> vec) (gravity : Q -> vec).
Variables (dstatic : Q -> (nat -> v6) -> mat) (dgravity : Q -> mat).
(** contact-control-gravity.hpp:174-192 *)
Definition g_create (fext : nat -> v6) : gdata := GData fext zv zm zm.
(** Rx.leftCols(nv) = -D *)
Definition left_neg (D Rx : mat) : mat := fun i j => if (j <? nv)%nat then - D i j else Rx i j.

(** contact-control-gravity.hxx:31-40; [fext] is the current contents of contacts->fext, which is not read *)
Definition g_calc (q : Q) (tau : vec) (fext : nat -> v6) (d : gdata) : gdata :=
  GData (gd_fext d) (fun k => tau k - static_torque q (gd_fext d) k) (gd_Rx d) (gd_Ru d).
(** contact-control-gravity.hxx:43-51 and control-gravity.hxx:42-50 *)
Definition g_calcT (q : Q) (d : gdata) : gdata := GData (gd_fext d) (fun k => - gravity q k) (gd_Rx d) (gd_Ru d).
(** contact-control-gravity.hxx:54-67 *)
Definition g_diff (q : Q) (dtau_du : mat) (d : gdata) : gdata :=
  GData (gd_fext d) (gd_r d) (left_neg (dstatic q (gd_fext d)) (gd_Rx d)) dtau_du.
(** contact-control-gravity.hxx:70-82 and control-gravity.hxx:70-83 *)
Definition g_diffT (q : Q) (d : gdata) : gdata :=
  GData (gd_fext d) (gd_r d) (left_neg (dgravity q) (gd_Rx d)) (gd_Ru d).
(** control-gravity.hxx:30-39 and 53-67 *)
Definition p_calc (q : Q) (tau : vec) (d : gdata) : gdata :=
  GData (gd_fext d) (fun k => tau k - gravity q k) (gd_Rx d) (gd_Ru d).
Definition p_diff (q : Q) (dtau_du : mat) (d : gdata) : gdata :=
  GData (gd_fext d) (gd_r d) (left_neg (dgravity q) (gd_Rx d)) dtau_du.

Inductive gop := GCalc (q : Q) (tau : vec) (fext : nat -> v6) | GCalcT (q : Q) | GDiff (q : Q) (dtau_du : mat) | GDiffT (q : Q).
Definition gstep (d : gdata) (o : gop) : gdata :=
  match o with
  | GCalc q tau fext => g_calc q tau fext d | GCalcT q => g_calcT q d
  | GDiff q du => g_diff q du d | GDiffT q => g_diffT q d
  end.
Definition pstep (d : gdata) (o : gop) : gdata :=
  match o with
  | GCalc q tau _ => p_calc q tau d | GCalcT q => g_calcT q d
  | GDiff q du => p_diff q du d | GDiffT q => g_diffT q d
  end.
Definition grun (ops : list gop) (d : gdata) : gdata := fold_left gstep ops d.
Definition prun (ops : list gop) (d : gdata) : gdata := fold_left pstep ops d.
End Grav.
