(** Contact and impulse models: include/crocoddyl/multibody/contacts/contact-{1d,2d,3d,6d}.hxx,
    impulses/impulse-{3d,6d}.hxx.

    Pinocchio's kinematics of the contact frame are inputs ([kin]).  A 3 x nv or 6 x nv matrix is a
    function from column indices to 3- or 6-vectors.  calcDiff reads the velocity, the Jacobian and
    the position error stored by calc and the acceleration held by pinocchio::Data when it runs; the
    model passes one [kin] whose [acc] is that acceleration.  Arithmetic is over the reals. *)
From Coq Require Import Reals.
From Verif Require Import Deriv VecMat Spatial.
Open Scope R_scope.

(** pinocchio::ReferenceFrame *)
Inductive ftype := LOCAL | WORLD | LOCAL_WORLD_ALIGNED.

Record kin := Kin {
  oMf : se3;               (** data.oMf[id] *)
  fJf : nat -> v6;         (** getFrameJacobian(id, LOCAL) *)
  vel : v6;                (** getFrameVelocity(id), LOCAL *)
  acc : v6;                (** getFrameAcceleration(id), LOCAL, spatial *)
  v_dq : nat -> v6;        (** getJointAccelerationDerivatives(joint, LOCAL) *)
  a_dq : nat -> v6;
  a_dv : nat -> v6;
  a_da : nat -> v6 }.

(** getFrameClassicalAcceleration(LOCAL).linear() *)
Definition classical (k : kin) : v3 := add3 (lin (acc k)) (cross (ang (vel k)) (lin (vel k))).
(** if (gain != 0.) a += b *)
Definition when (g : R) (a b : v3) : v3 := if Req_EM_T g 0 then a else add3 a b.
Definition when6 (g : R) (a b : v6) : v6 := if Req_EM_T g 0 then a else add6 a b.

(** ** Part shared by the 1d and 3d contacts: contact-3d.hxx:63-86, contact-1d.hxx:66-91; [pref] is
    the position subtracted from the frame's translation. *)
Section Point.
Variables (jMf : se3) (g0 g1 : R) (pref : v3).
Definition oRf (k : kin) : m3 := rot (oMf k).
Definition dp_local (k : kin) : v3 := mv (mt (oRf k)) (sub3 (trans (oMf k)) pref).
Definition a0_local (k : kin) : v3 :=
  when g1 (when g0 (classical k) (scal3 g0 (dp_local k))) (scal3 g1 (lin (vel k))).
(** contact-3d.hxx:101-140, contact-1d.hxx:106-145: columns of da0_local_dx *)
Definition fXj (m : v6) : v6 := actinv_motion jMf m.
Definition da0_local_dq (k : kin) (j : nat) : v3 :=
  let vv_skew := skew (lin (vel k)) in let vw_skew := skew (ang (vel k)) in
  let d := lin (fXj (a_dq k j)) in
  let d := add3 d (mv vw_skew (lin (fXj (v_dq k j)))) in
  let d := sub3 d (mv vv_skew (ang (fXj (v_dq k j)))) in
  let d := when g0 d (scal3 g0 (mv (skew (dp_local k)) (ang (fJf k j)))) in
  let d := when g0 d (scal3 g0 (lin (fJf k j))) in
  when g1 d (scal3 g1 (lin (fXj (v_dq k j)))).
Definition da0_local_dv (k : kin) (j : nat) : v3 :=
  let vv_skew := skew (lin (vel k)) in let vw_skew := skew (ang (vel k)) in
  let d := lin (fXj (a_dv k j)) in
  let d := add3 d (mv vw_skew (lin (fJf k j))) in
  let d := sub3 d (mv vv_skew (ang (fJf k j))) in
  when g1 d (scal3 g1 (lin (fJf k j))).
End Point.

(** ** ContactModel3D *)
Section Contact3.
Variables (type : ftype) (jMf : se3) (g0 g1 : R) (xref : v3).
(** contact-3d.hxx:87-97 *)
Definition Jc3 (k : kin) (j : nat) : v3 :=
  match type with LOCAL => lin (fJf k j) | _ => mv (oRf k) (lin (fJf k j)) end.
Definition a03 (k : kin) : v3 :=
  match type with LOCAL => a0_local g0 g1 xref k | _ => mv (oRf k) (a0_local g0 g1 xref k) end.
(** contact-3d.hxx:141-167 *)
Definition da03_dq (k : kin) (j : nat) : v3 :=
  match type with
  | LOCAL => da0_local_dq jMf g0 g1 xref k j
  | _ =>
      let a0 := mv (oRf k) (a0_local g0 g1 xref k) in
      let a0_world_skew := mm (skew a0) (oRf k) in
      sub3 (mv (oRf k) (da0_local_dq jMf g0 g1 xref k j)) (mv a0_world_skew (ang (fJf k j)))
  end.
Definition da03_dv (k : kin) (j : nat) : v3 :=
  match type with
  | LOCAL => da0_local_dv jMf g1 k j
  | _ => mv (oRf k) (da0_local_dv jMf g1 k j)
  end.
(** contact-3d.hxx:171-197: f, fext and dtau_dq *)
Definition f3 (force : v3) : v6 := V6 force z3.
Definition f3_local (k : kin) (force : v3) : v6 := V6 (mv (mt (oRf k)) force) z3.
Definition fext3 (k : kin) (force : v3) : v6 :=
  match type with LOCAL => act_force jMf (f3 force) | _ => act_force jMf (f3_local k force) end.
Definition dtau3 (k : kin) (force : v3) (i j : nat) : R :=
  match type with
  | LOCAL => 0
  | _ => - dot3 (lin (fJf k i)) (mv (skew (lin (f3_local k force))) (ang (fJf k j)))
  end.
End Contact3.

(** ** ContactModel1D *)
Section Contact1.
Variables (type : ftype) (jMf : se3) (g0 g1 : R) (xref : R) (Raxis : m3).
(** contact-1d.hxx:84-85 *)
Definition pref1 : v3 := scal3 xref (mv Raxis ez).
(** contact-1d.hxx:92-102 *)
Definition Jc1 (k : kin) (j : nat) : R :=
  match type with
  | LOCAL => c3 (mv Raxis (lin (fJf k j)))
  | _ => c3 (mv (mm Raxis (oRf k)) (lin (fJf k j)))
  end.
Definition a01 (k : kin) : R :=
  match type with
  | LOCAL => c3 (mv Raxis (a0_local g0 g1 pref1 k))
  | _ => c3 (mv (mm Raxis (oRf k)) (a0_local g0 g1 pref1 k))
  end.
(** contact-1d.hxx:146-173 *)
Definition da01_dq (k : kin) (j : nat) : R :=
  match type with
  | LOCAL => c3 (mv Raxis (da0_local_dq jMf g0 g1 pref1 k j))
  | _ =>
      let a0_skew := skew (mv (mm Raxis (oRf k)) (a0_local g0 g1 pref1 k)) in
      let a0_world_skew := mm (mm a0_skew Raxis) (oRf k) in
      c3 (mv (mm Raxis (oRf k)) (da0_local_dq jMf g0 g1 pref1 k j)) - c3 (mv a0_world_skew (ang (fJf k j)))
  end.
Definition da01_dv (k : kin) (j : nat) : R :=
  match type with
  | LOCAL => c3 (mv Raxis (da0_local_dv jMf g1 k j))
  | _ => c3 (mv (mm Raxis (oRf k)) (da0_local_dv jMf g1 k j))
  end.
(** contact-1d.hxx:177-207 *)
Definition f1 (force : R) : v6 := V6 (V3 0 0 force) z3.
Definition f1_local (k : kin) (force : R) : v6 := V6 (scal3 force (col3 (mm (mt (oRf k)) (mt Raxis)))) z3.
Definition fext1 (k : kin) (force : R) : v6 :=
  match type with
  | LOCAL => let l := scal3 force (col3 (mm (rot jMf) (mt Raxis))) in V6 l (cross (trans jMf) l)
  | _ => act_force jMf (f1_local k force)
  end.
Definition dtau1 (k : kin) (force : R) (i j : nat) : R :=
  match type with
  | LOCAL => 0
  | _ => - dot3 (lin (fJf k i)) (mv (skew (lin (f1_local k force))) (ang (fJf k j)))
  end.
End Contact1.

(** ** ContactModel2D: components x and z *)
Section Contact2.
Variables (jMf : se3) (g0 g1 : R) (xref : R * R).
Definition xz (a : v3) : R * R := (c1 a, c3 a).
Definition add2 (a b : R * R) : R * R := (fst a + fst b, snd a + snd b).
Definition when2 (g : R) (a b : R * R) : R * R := if Req_EM_T g 0 then a else add2 a b.
(** contact-2d.hxx:45-65 *)
Definition Jc2 (k : kin) (j : nat) : R * R := xz (lin (fJf k j)).
Definition a02 (k : kin) : R * R :=
  let a := xz (classical k) in
  let a := when2 g0 a (g0 * (c1 (trans (oMf k)) - fst xref), g0 * (c3 (trans (oMf k)) - snd xref)) in
  when2 g1 a (g1 * c1 (lin (vel k)), g1 * c3 (lin (vel k))).
(** contact-2d.hxx:68-126 *)
Definition da02_dq (k : kin) (j : nat) : R * R :=
  let vv := skew (lin (vel k)) in let vw := skew (ang (vel k)) in
  let X := actinv_motion jMf in
  let d := (c1 (lin (X (a_dq k j))) + dot3 (row1 vw) (lin (X (v_dq k j))) - dot3 (row1 vv) (ang (X (v_dq k j))),
            c3 (lin (X (a_dq k j))) + dot3 (row3 vw) (lin (X (v_dq k j))) - dot3 (row3 vv) (ang (X (v_dq k j)))) in
  let M := rot (oMf k) in
  let d := when2 g0 d (g0 * (c1 (row1 M) * fst (Jc2 k j) + c3 (row1 M) * snd (Jc2 k j)),
                       g0 * (c1 (row3 M) * fst (Jc2 k j) + c3 (row3 M) * snd (Jc2 k j))) in
  when2 g1 d (g1 * c1 (lin (X (v_dq k j))), g1 * c3 (lin (X (v_dq k j)))).
Definition da02_dv (k : kin) (j : nat) : R * R :=
  let vv := skew (lin (vel k)) in let vw := skew (ang (vel k)) in
  let X := actinv_motion jMf in
  let d := (c1 (lin (X (a_dv k j))) + dot3 (row1 vw) (lin (fJf k j)) - dot3 (row1 vv) (ang (fJf k j)),
            c3 (lin (X (a_dv k j))) + dot3 (row3 vw) (lin (fJf k j)) - dot3 (row3 vv) (ang (fJf k j))) in
  when2 g1 d (g1 * c1 (lin (X (a_da k j))), g1 * c3 (lin (X (a_da k j)))).
(** contact-2d.hxx:129-141 *)
Definition f2 (force : R * R) : v6 :=
  V6 (add3 (scal3 (fst force) (col1 (rot jMf))) (scal3 (snd force) (col3 (rot jMf)))) z3.
Definition fext2 (force : R * R) : v6 :=
  let l := add3 (scal3 (fst force) (col1 (rot jMf))) (scal3 (snd force) (col3 (rot jMf))) in
  V6 l (cross (trans jMf) l).
End Contact2.

(** ** ContactModel6D; log6 and Jlog6 are Pinocchio's. *)
Record m6 := M6 { bll : m3; bla : m3; bal : m3; baa : m3 }.
Definition mv6 (M : m6) (a : v6) : v6 :=
  V6 (add3 (mv (bll M) (lin a)) (mv (bla M) (ang a))) (add3 (mv (bal M) (lin a)) (mv (baa M) (ang a))).
Section Contact6.
Variables (log6 : se3 -> v6) (Jlog6 : se3 -> m6).
Variables (type : ftype) (jMf : se3) (g0 g1 : R) (pref : se3).
(** contact-6d.hxx:64-96; lwaMl has no translation *)
Definition rMf (k : kin) : se3 := actinv_se3 pref (oMf k).
Definition a06_local (k : kin) : v6 :=
  when6 g1 (when6 g0 (acc k) (scal6 g0 (log6 (rMf k)))) (scal6 g1 (vel k)).
Definition Jc6 (k : kin) (j : nat) : v6 := match type with LOCAL => fJf k j | _ => rot6 (oRf k) (fJf k j) end.
Definition a06 (k : kin) : v6 :=
  match type with LOCAL => a06_local k | _ => rot6 (oRf k) (a06_local k) end.
(** contact-6d.hxx:99-151 *)
Definition da06_local_dq (k : kin) (j : nat) : v6 :=
  let d := actinv_motion jMf (a_dq k j) in
  let d := when6 g0 d (scal6 g0 (mv6 (Jlog6 (rMf k)) (fJf k j))) in
  when6 g1 d (scal6 g1 (actinv_motion jMf (v_dq k j))).
Definition da06_local_dv (k : kin) (j : nat) : v6 :=
  when6 g1 (actinv_motion jMf (a_dv k j)) (scal6 g1 (fJf k j)).
Definition da06_dq (k : kin) (j : nat) : v6 :=
  match type with
  | LOCAL => da06_local_dq k j
  | _ =>
      let a0 := rot6 (oRf k) (a06_local k) in
      let av_world_skew := mm (skew (lin a0)) (oRf k) in
      let aw_world_skew := mm (skew (ang a0)) (oRf k) in
      let d := rot6 (oRf k) (da06_local_dq k j) in
      V6 (sub3 (lin d) (mv av_world_skew (ang (fJf k j)))) (sub3 (ang d) (mv aw_world_skew (ang (fJf k j))))
  end.
Definition da06_dv (k : kin) (j : nat) : v6 :=
  match type with LOCAL => da06_local_dv k j | _ => rot6 (oRf k) (da06_local_dv k j) end.
(** contact-6d.hxx:154-180 *)
Definition f6_local (k : kin) (force : v6) : v6 := rot6 (mt (oRf k)) force.
Definition fext6 (k : kin) (force : v6) : v6 :=
  match type with LOCAL => act_force jMf force | _ => act_force jMf (f6_local k force) end.
Definition dtau6 (k : kin) (force : v6) (i j : nat) : R :=
  match type with
  | LOCAL => 0
  | _ => - dot6 (fJf k i) (V6 (mv (skew (lin (f6_local k force))) (ang (fJf k j)))
                              (mv (skew (ang (f6_local k force))) (ang (fJf k j))))
  end.
End Contact6.

(** ** Impulses: impulse-3d.hxx:21-73, impulse-6d.hxx:24-76; here [vel] is the frame velocity after the
    impact, which pinocchio::Data holds when calcDiff runs.  The forces are those of the contacts:
    impulse-3d.hxx:76-102 and impulse-6d.hxx:79-105 are line for line contact-3d.hxx:171-197 and
    contact-6d.hxx:154-180. *)
Section Impulse.
Variables (type : ftype) (jMf : se3).
Definition v03 (k : kin) : v3 := match type with LOCAL => lin (vel k) | _ => mv (oRf k) (lin (vel k)) end.
Definition dv03_dq (k : kin) (j : nat) : v3 :=
  let l := lin (actinv_motion jMf (v_dq k j)) in
  match type with
  | LOCAL => l
  | _ =>
      (** impulse-3d.hxx:62-65 asks for LOCAL_WORLD_ALIGNED *)
      let v0 := mv (oRf k) (lin (vel k)) in
      sub3 (mv (oRf k) l) (mv (mm (skew v0) (oRf k)) (ang (fJf k j)))
  end.
(** getFrameVelocity(id, type): the WORLD one is the velocity of the body point at the origin *)
Definition frame_velocity (t : ftype) (k : kin) : v6 :=
  match t with
  | LOCAL => vel k
  | LOCAL_WORLD_ALIGNED => rot6 (oRf k) (vel k)
  | WORLD => V6 (add3 (mv (oRf k) (lin (vel k))) (cross (trans (oMf k)) (mv (oRf k) (ang (vel k)))))
               (mv (oRf k) (ang (vel k)))
  end.
Definition v06 (k : kin) : v6 := match type with LOCAL => vel k | _ => rot6 (oRf k) (vel k) end.
Definition dv06_dq (k : kin) (j : nat) : v6 :=
  let l := actinv_motion jMf (v_dq k j) in
  match type with
  | LOCAL => l
  | _ =>
      (** impulse-6d.hxx:63-64 asks for the frame type_ *)
      let v0 := frame_velocity type k in
      let d := rot6 (oRf k) l in
      V6 (sub3 (lin d) (mv (mm (skew (lin v0)) (oRf k)) (ang (fJf k j))))
         (sub3 (ang d) (mv (mm (skew (ang v0)) (oRf k)) (ang (fJf k j))))
  end.
End Impulse.
