(** Kinematic residuals: include/crocoddyl/multibody/residuals/frame-translation.hxx, frame-rotation.hxx,
    frame-placement.hxx, frame-velocity.hxx, com-position.hxx, impulse-com.hxx.

    A call reads Pinocchio's quantities at the state the action was evaluated at ([snap]; when they are
    those of the state passed to the residual is Fresh_Model).  Calls with and without a control are the
    same (residual-base.hxx:41-59 forwards one to the other).  Arithmetic is over the reals. *)
From Coq Require Import Reals List Arith Bool.
From Verif Require Import Deriv VecMat Spatial Contact_Model ForceRes_Model.
Import ListNotations.
Open Scope R_scope.

Definition inv_se3 (P : se3) : se3 := SE3 (mt (rot P)) (opp3 (mv (mt (rot P)) (trans P))).
Definition mul_se3 (P M : se3) : se3 := SE3 (mm (rot P) (rot M)) (add3 (mv (rot P) (trans M)) (trans P)).
Definition act_motion (M : se3) (m : v6) : v6 :=
  V6 (add3 (mv (rot M) (lin m)) (cross (trans M) (mv (rot M) (ang m)))) (mv (rot M) (ang m)).
(** getFrameVelocity(id, type) *)
Definition frame_velocity (ty : ftype) (k : kin) : v6 :=
  match ty with LOCAL => vel k | WORLD => act_motion (oMf k) (vel k) | LOCAL_WORLD_ALIGNED => rot6 (rot (oMf k)) (vel k) end.

Record snap := Snap {
  n_kin : nat -> kin;                                  (* kinematics of each frame *)
  n_vd : nat -> ftype -> (nat -> v6) * (nat -> v6);    (* getFrameVelocityDerivatives(id, type) *)
  n_com : v3; n_Jcom : nat -> v3;                      (* com[0], Jcom *)
  n_v : vec; n_vnext : vec; n_dvnext : mat;            (* v of the state; impulses->vnext, dvnext_dx *)
  n_vcom : vec -> v3;                                  (* centerOfMass(q, w): vcom[0] *)
  n_dvc : vec -> nat -> v3 }.                          (* then getCenterOfMassVelocityDerivatives *)

(** The models with their members *)
Inductive kmodel :=
  | MTranslation (id : nat) (xref : v3)
  | MRotation (id : nat) (Rref oRf_inv : m3)
  | MPlacement (id : nat) (pref oMf_inv : se3)
  | MVelocity (id : nat) (vref : v6) (type : ftype)
  | MCoM (cref : v3)
  | MImpulseCoM.
(** Constructors: frame-rotation.hxx:13-44, frame-placement.hxx:12-43 *)
Definition new_rotation (id : nat) (Rref : m3) : kmodel := MRotation id Rref (mt Rref).
Definition new_placement (id : nat) (pref : se3) : kmodel := MPlacement id pref (inv_se3 pref).

(** set_reference, set_id and set_type; a class has only its own *)
Inductive kref := Ref3 (a : v3) | RefR (A : m3) | RefM (P : se3) | Ref6 (m : v6).
Definition m_set_reference (r : kref) (m : kmodel) : kmodel :=
  match m, r with
  | MTranslation id _, Ref3 a => MTranslation id a
  | MRotation id _ _, RefR A => MRotation id A (mt A)
  | MPlacement id _ _, RefM P => MPlacement id P (inv_se3 P)
  | MVelocity id _ ty, Ref6 v => MVelocity id v ty
  | MCoM _, Ref3 a => MCoM a
  | _, _ => m
  end.
Definition m_set_id (i : nat) (m : kmodel) : kmodel :=
  match m with
  | MTranslation _ a => MTranslation i a
  | MRotation _ A B => MRotation i A B
  | MPlacement _ P Q => MPlacement i P Q
  | MVelocity _ v ty => MVelocity i v ty
  | _ => m
  end.
Definition m_set_type (ty : ftype) (m : kmodel) : kmodel :=
  match m with MVelocity i v _ => MVelocity i v ty | _ => m end.

(** The data; Rx is created as zero. *)
Record kdata := KData { kd_r : vec; kd_Rx : mat; kd_rRf : m3; kd_rMf : se3; kd_dvc : nat -> v3; kd_Jcom : nat -> v3 }.
Definition kd_create : kdata := KData zv zm I3 (SE3 I3 z3) (fun _ => z3) (fun _ => z3).

Definition tov3 (a : v3) : vec := fun i => match i with 0%nat => c1 a | 1%nat => c2 a | _ => c3 a end.
Definition cols3 (J : nat -> v3) : mat := fun i j => tov3 (J j) i.
Definition cols6 (J : nat -> v6) : mat := fun i j => tov (J j) i.

Section Res.
Variables (nv : nat) (log3 : m3 -> v3) (Jlog3 : m3 -> m3) (log6 : se3 -> v6) (Jlog6 : se3 -> m6).
(** Rx.leftCols(nv) = D *)
Definition left (D Rx : mat) : mat := fun i j => if (j <? nv)%nat then D i j else Rx i j.
(** Rx.rightCols(nv) = D *)
Definition right (D Rx : mat) : mat := fun i j => if (nv <=? j)%nat then D i (j - nv)%nat else Rx i j.

Definition k_calc (m : kmodel) (n : snap) (d : kdata) : kdata :=
  match m with
  | MTranslation id xref =>             (* frame-translation.hxx:45-52 *)
      KData (tov3 (sub3 (trans (oMf (n_kin n id))) xref)) (kd_Rx d) (kd_rRf d) (kd_rMf d) (kd_dvc d) (kd_Jcom d)
  | MRotation id _ oRf_inv =>           (* frame-rotation.hxx:47-56 *)
      let rRf := mm oRf_inv (rot (oMf (n_kin n id))) in
      KData (tov3 (log3 rRf)) (kd_Rx d) rRf (kd_rMf d) (kd_dvc d) (kd_Jcom d)
  | MPlacement id _ oMf_inv =>          (* frame-placement.hxx:46-55 *)
      let rMf := mul_se3 oMf_inv (oMf (n_kin n id)) in
      KData (tov (log6 rMf)) (kd_Rx d) (kd_rRf d) rMf (kd_dvc d) (kd_Jcom d)
  | MVelocity id vref type =>           (* frame-velocity.hxx:48-58 *)
      KData (tov (sub6 (frame_velocity type (n_kin n id)) vref)) (kd_Rx d) (kd_rRf d) (kd_rMf d) (kd_dvc d) (kd_Jcom d)
  | MCoM cref =>                        (* com-position.hxx:24-30 *)
      KData (tov3 (sub3 (n_com n) cref)) (kd_Rx d) (kd_rRf d) (kd_rMf d) (kd_dvc d) (kd_Jcom d)
  | MImpulseCoM =>                      (* impulse-com.hxx:19-34; the private data keeps (q, vnext - v) *)
      let w : vec := fun i => n_vnext n i - n_v n i in
      KData (tov3 (n_vcom n w)) (kd_Rx d) (kd_rRf d) (kd_rMf d) (n_dvc n w) (n_Jcom n)
  end.
Definition k_diff (m : kmodel) (n : snap) (d : kdata) : kdata :=
  let Rx :=
    match m with
    | MTranslation id _ =>              (* frame-translation.hxx:55-67 *)
        left (cols3 (fun j => mv (rot (oMf (n_kin n id))) (lin (fJf (n_kin n id) j)))) (kd_Rx d)
    | MRotation id _ _ =>               (* frame-rotation.hxx:59-72 *)
        left (cols3 (fun j => mv (Jlog3 (kd_rRf d)) (ang (fJf (n_kin n id) j)))) (kd_Rx d)
    | MPlacement id _ _ =>              (* frame-placement.hxx:58-69 *)
        left (cols6 (fun j => mv6 (Jlog6 (kd_rMf d)) (fJf (n_kin n id) j))) (kd_Rx d)
    | MVelocity id _ type =>            (* frame-velocity.hxx:61-70 *)
        right (cols6 (snd (n_vd n id type))) (left (cols6 (fst (n_vd n id type))) (kd_Rx d))
    | MCoM _ => left (cols3 (n_Jcom n)) (kd_Rx d)   (* com-position.hxx:33-41 *)
    | MImpulseCoM =>                    (* impulse-com.hxx:37-56 *)
        let J := cols3 (kd_Jcom d) in
        let ddv_dv : mat := fun i j => n_dvnext n i (nv + j)%nat - (if Nat.eqb i j then 1 else 0) in
        right (mulm nv J ddv_dv)
          (left (fun i j => cols3 (kd_dvc d) i j + mulm nv J (n_dvnext n) i j) (kd_Rx d))
    end in
  KData (kd_r d) Rx (kd_rRf d) (kd_rMf d) (kd_dvc d) (kd_Jcom d).

Inductive kop := KSetRef (r : kref) | KSetId (i : nat) | KSetType (ty : ftype) | KCalc (n : snap) | KDiff (n : snap).
Definition kstep (w : kmodel * kdata) (o : kop) : kmodel * kdata :=
  match o with
  | KSetRef r => (m_set_reference r (fst w), snd w)
  | KSetId i => (m_set_id i (fst w), snd w)
  | KSetType ty => (m_set_type ty (fst w), snd w)
  | KCalc n => (fst w, k_calc (fst w) n (snd w))
  | KDiff n => (fst w, k_diff (fst w) n (snd w))
  end.
Definition krun (m : kmodel) (l : list kop) : kmodel * kdata := fold_left kstep l (m, kd_create).
End Res.
