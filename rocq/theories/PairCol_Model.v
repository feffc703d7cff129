(** ResidualModelPairCollision (include/crocoddyl/multibody/residuals/pair-collision.hxx).

    Pinocchio and hpp-fcl enter by what they return at a state: the placements of the joints, the
    joint Jacobians in the frame LOCAL_WORLD_ALIGNED, and the two nearest points that computeDistance
    finds after updateGeometryPlacements (which runs the forward kinematics at q).  calcDiff is called
    after the action has computed the joint Jacobians at the same state.  The constructor checks the
    two indices; they are valid here.  The header is compiled only with CROCODDYL_WITH_PAIR_COLLISION;
    get_pair_id and set_pair_id are declared but not defined. *)
From Coq Require Import Reals List Arith Bool.
From Verif Require Import Deriv VecMat Spatial.
Import ListNotations.
Open Scope R_scope.

Record csnap := CSnap { k_oMi : nat -> se3; k_J : nat -> nat -> v6; k_near : v3 * v3 }.
(** geometry.distanceResults[pair_id_].nearest_points, r, Rx (3 rows, 2 nv columns) *)
Record cdata := CData { cd_near : v3 * v3; cd_r : v3; cd_Rx : nat -> v3 }.
Section PairCol.
Variables (nv : nat) (joint_id : nat).
(** pair-collision.hxx:37-56 *)
Definition pc_calc (k : csnap) (d : cdata) : cdata :=
  CData (k_near k) (sub3 (fst (k_near k)) (snd (k_near k))) (cd_Rx d).
(** pair-collision.hxx:58-82: the columns of J and Rx *)
Definition pc_diff (k : csnap) (d : cdata) : cdata :=
  let a := sub3 (fst (cd_near d)) (trans (k_oMi k joint_id)) in
  CData (cd_near d) (cd_r d)
    (fun j => if Nat.ltb j nv then add3 (lin (k_J k joint_id j)) (mv (mt (skew a)) (ang (k_J k joint_id j))) else cd_Rx d j).
Inductive cop := CCalc (k : csnap) | CDiff (k : csnap).
Definition cstep (d : cdata) (o : cop) : cdata := match o with CCalc k => pc_calc k d | CDiff k => pc_diff k d end.
(** createData: residual-base.hpp zeroes r and Rx; the nearest points are not set *)
Definition crun (near : v3 * v3) (l : list cop) : cdata := fold_left cstep l (CData near z3 (fun _ => z3)).
End PairCol.
