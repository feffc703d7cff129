(** The constraints DifferentialActionModelContactInvDynamics adds for its contacts and keeps in step
    with them (include/crocoddyl/multibody/actions/contact-invdyn.hxx), on top of the containers of
    Containers_Model.v.  The free model (free-invdyn.hxx:20-77) is the case of no contacts.

    [nv] and [na] are the dimensions of the velocity and of the actuation.  The constraints are what
    InvDyn_Model.v computes; here only their bookkeeping is modelled. *)
From Coq Require Import ZArith String List Bool.
From Verif Require Import Common SMap Containers_Model.
Import ListNotations.
Local Open Scope string_scope.
Local Open Scope list_scope.
Local Open Scope Z_scope.

Definition acc_name (n : string) : string := (n ++ "_acc")%string.
Definition force_name (n : string) : string := (n ++ "_force")%string.

(** init, contact-invdyn.hxx:77-115; the statuses are those of the contacts.  Residuals of dimension
    [nr] with [nu] controls become equality constraints that are not evaluated in terminal nodes. *)
Definition equality (nr nu : Z) (active : bool) : citem := CItem 0 nr nu false active.
Definition contact_adds (nu : Z) (x : string * item) : list mop :=
  [ MAdd (acc_name (fst x)) (equality (it_dim (snd x)) nu (it_active (snd x)));
    MAdd (force_name (fst x)) (equality (it_dim (snd x)) nu (negb (it_active (snd x)))) ].
Definition init_ops (nv na : Z) (c : cont) : list mop :=
  let nu := sz_add nv (c_ntot c) in
  (if 0 <? sz_sub nv na then [MAdd "tau" (equality (sz_sub nv na) nu true)] else []) ++
  (if c_ntot c =? 0 then [] else flat_map (contact_adds nu) (c_items c)).
(** The constructors, contact-invdyn.hxx:14-62: [None] is an exception (wrong control dimension of the
    contacts, or of the constraint manager, which addConstraint tests). *)
Record invdyn := Inv { i_contacts : cont; i_man : cman }.
Definition construct (nv na : Z) (c : cont) (m : cman) : option invdyn :=
  let nu := sz_add nv (c_ntot c) in
  if negb (c_nu c =? nu) then None
  else match init_ops nv na c with
  | [] => Some (Inv c m)
  | ops => if negb (m_nu m =? nu) then None else Some (Inv c (mrun m ops))
  end.

(** calc(x, u) and calcDiff(x, u), contact-invdyn.hxx:159-168, 243-251 *)
Definition sync_ops (c : cont) : list mop :=
  flat_map (fun n => [MStatus (acc_name n) true; MStatus (force_name n) false]) (c_act c) ++
  flat_map (fun n => [MStatus (acc_name n) false; MStatus (force_name n) true]) (c_inact c).
(** Calls on the model: changes of the status of its contacts, calls on the constraint manager, calc or
    calcDiff with a control. *)
Inductive iop := IContact (n : string) (b : bool) | IMan (o : mop) | ICalc.
Definition istep (w : invdyn) (o : iop) : invdyn :=
  match o with
  | IContact n b => Inv (change_status n b (i_contacts w)) (i_man w)
  | IMan o => Inv (i_contacts w) (mstep (i_man w) o)
  | ICalc => Inv (i_contacts w) (mrun (i_man w) (sync_ops (i_contacts w)))
  end.
Definition irun (w : invdyn) (ops : list iop) : invdyn := fold_left istep ops w.

(** cast, contact-invdyn.hxx:340-380, for a scalar type that represents everything: the managers are
    copied in the order of the map, the constraints of the model removed and added again. *)
Definition cast_man (m : cman) : cman := mrun (empty_cman (m_nu m)) (map (fun x => MAdd (fst x) (snd x)) (m_items m)).
Definition cast_cont (c : cont) : cont := run (empty_cont (c_nu c)) (map (fun x => OpAdd (fst x) (snd x)) (c_items c)).
Definition cast (nv na : Z) (w : invdyn) : option invdyn :=
  let c := i_contacts w in
  let removes := (if 0 <? sz_sub nv na then [MRemove "tau"] else []) ++
    (if c_ntot c =? 0 then [] else flat_map (fun x => [MRemove (acc_name (fst x)); MRemove (force_name (fst x))]) (c_items c)) in
  construct nv na (cast_cont c) (mrun (cast_man (i_man w)) removes).
