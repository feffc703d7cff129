(** Specification for the contact properties: what the kinematic quantities of a frame are, along any
    motion of the robot. *)
From Coquelicot Require Import Coquelicot.
From Coq Require Import Reals.
From Verif Require Import Deriv VecMat Spatial Contact_Model.
Open Scope R_scope.

(** [k] gives the kinematics of the frame along a curve of configurations and velocities with a fixed
    generalised acceleration; [dq], [dv] are the tangents of the curve at [s].  This is what Pinocchio
    promises: the columns of the local Jacobian give the body velocity of the frame, and the joint
    derivatives, moved to the frame by the constant placement [jMf], those of its local velocity and
    spatial acceleration. *)
Record moves (nv : nat) (jMf : se3) (k : R -> kin) (s : R) (dq dv : vec) : Prop := {
  mv_rot : rotation (rot (oMf (k s)));
  mv_R : is_dm (fun t => rot (oMf (k t))) s (mm (rot (oMf (k s))) (skew (ang (comb6 nv (fJf (k s)) dq))));
  mv_p : is_d3 (fun t => trans (oMf (k t))) s (mv (rot (oMf (k s))) (lin (comb6 nv (fJf (k s)) dq)));
  mv_v : is_d6 (fun t => vel (k t)) s
           (add6 (actinv_motion jMf (comb6 nv (v_dq (k s)) dq)) (comb6 nv (fJf (k s)) dv));
  mv_a : is_d6 (fun t => acc (k t)) s
           (add6 (actinv_motion jMf (comb6 nv (a_dq (k s)) dq)) (actinv_motion jMf (comb6 nv (a_dv (k s)) dv)));
  mv_da : forall j, (j < nv)%nat -> actinv_motion jMf (a_da (k s) j) = fJf (k s) j }.

(** log6 is differentiable at [P] with right Jacobian Jlog6. *)
Definition log6_contract (log6 : se3 -> v6) (Jlog6 : se3 -> m6) (P : se3) : Prop :=
  forall (M : R -> se3) s w, M s = P ->
    is_dm (fun t => rot (M t)) s (mm (rot (M s)) (skew (ang w))) ->
    is_d3 (fun t => trans (M t)) s (mv (rot (M s)) (lin w)) ->
    is_d6 (fun t => log6 (M t)) s (mv6 (Jlog6 P) w).

Definition is_d2 (f : R -> R * R) (t : R) (d : R * R) : Prop :=
  is_derive (fun s => fst (f s)) t (fst d) /\ is_derive (fun s => snd (f s)) t (snd d).
Definition comb2 (n : nat) (J : nat -> R * R) (w : vec) : R * R :=
  (rsum n (fun j => fst (J j) * w j), rsum n (fun j => snd (J j) * w j)).
