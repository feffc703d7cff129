(** Three-dimensional vectors and matrices, spatial motions and forces, rigid placements: the
    operations of Eigen and Pinocchio used by the contact and impulse models. *)
From Coquelicot Require Import Coquelicot.
From Coq Require Import Reals Lra Lia.
From Verif Require Import Deriv.
Open Scope R_scope.

Record v3 := V3 { c1 : R; c2 : R; c3 : R }.
(** Rows. *)
Record m3 := M3 { row1 : v3; row2 : v3; row3 : v3 }.
Definition z3 : v3 := V3 0 0 0.
Definition ez : v3 := V3 0 0 1.
Definition I3 : m3 := M3 (V3 1 0 0) (V3 0 1 0) (V3 0 0 1).
Definition add3 a b := V3 (c1 a + c1 b) (c2 a + c2 b) (c3 a + c3 b).
Definition sub3 a b := V3 (c1 a - c1 b) (c2 a - c2 b) (c3 a - c3 b).
Definition opp3 a := V3 (- c1 a) (- c2 a) (- c3 a).
Definition scal3 k a := V3 (k * c1 a) (k * c2 a) (k * c3 a).
Definition dot3 a b := c1 a * c1 b + c2 a * c2 b + c3 a * c3 b.
Definition cross a b := V3 (c2 a * c3 b - c3 a * c2 b) (c3 a * c1 b - c1 a * c3 b) (c1 a * c2 b - c2 a * c1 b).
Definition mv M a := V3 (dot3 (row1 M) a) (dot3 (row2 M) a) (dot3 (row3 M) a).
Definition col1 M := V3 (c1 (row1 M)) (c1 (row2 M)) (c1 (row3 M)).
Definition col2 M := V3 (c2 (row1 M)) (c2 (row2 M)) (c2 (row3 M)).
Definition col3 M := V3 (c3 (row1 M)) (c3 (row2 M)) (c3 (row3 M)).
Definition mt M := M3 (col1 M) (col2 M) (col3 M).
Definition mm M N := M3 (mv (mt N) (row1 M)) (mv (mt N) (row2 M)) (mv (mt N) (row3 M)).
(** pinocchio::skew *)
Definition skew a := M3 (V3 0 (- c3 a) (c2 a)) (V3 (c3 a) 0 (- c1 a)) (V3 (- c2 a) (c1 a) 0).
Definition det3 M := dot3 (row1 M) (cross (row2 M) (row3 M)).
Definition rotation M : Prop := mm M (mt M) = I3 /\ mm (mt M) M = I3 /\ det3 M = 1.

(** Motions (linear, angular) and forces (force, moment). *)
Record v6 := V6 { lin : v3; ang : v3 }.
Definition z6 : v6 := V6 z3 z3.
Definition add6 a b := V6 (add3 (lin a) (lin b)) (add3 (ang a) (ang b)).
Definition sub6 a b := V6 (sub3 (lin a) (lin b)) (sub3 (ang a) (ang b)).
Definition scal6 k a := V6 (scal3 k (lin a)) (scal3 k (ang a)).
Definition dot6 a b := dot3 (lin a) (lin b) + dot3 (ang a) (ang b).

(** Placements and their actions: SE3::act on forces, SE3::actInv on motions, SE3::act on motions. *)
Record se3 := SE3 { rot : m3; trans : v3 }.
Definition act_force (M : se3) (f : v6) : v6 :=
  V6 (mv (rot M) (lin f)) (add3 (mv (rot M) (ang f)) (cross (trans M) (mv (rot M) (lin f)))).
Definition actinv_motion (M : se3) (m : v6) : v6 :=
  V6 (mv (mt (rot M)) (sub3 (lin m) (cross (trans M) (ang m)))) (mv (mt (rot M)) (ang m)).
(** pref.actInv(oMf) *)
Definition actinv_se3 (P M : se3) : se3 :=
  SE3 (mm (mt (rot P)) (rot M)) (mv (mt (rot P)) (sub3 (trans M) (trans P))).
(** act/actInv of a placement without translation (lwaMl) *)
Definition rot6 (M : m3) (a : v6) : v6 := V6 (mv M (lin a)) (mv M (ang a)).

(** Componentwise derivatives. *)
Definition is_d3 (f : R -> v3) (t : R) (d : v3) : Prop :=
  is_derive (fun s => c1 (f s)) t (c1 d) /\ is_derive (fun s => c2 (f s)) t (c2 d) /\
  is_derive (fun s => c3 (f s)) t (c3 d).
Definition is_d6 (f : R -> v6) (t : R) (d : v6) : Prop :=
  is_d3 (fun s => lin (f s)) t (lin d) /\ is_d3 (fun s => ang (f s)) t (ang d).
Definition is_dm (f : R -> m3) (t : R) (D : m3) : Prop :=
  is_d3 (fun s => row1 (f s)) t (row1 D) /\ is_d3 (fun s => row2 (f s)) t (row2 D) /\
  is_d3 (fun s => row3 (f s)) t (row3 D).

(** Combinations of columns: [comb n J w] is the product J w. *)
Definition comb3 (n : nat) (J : nat -> v3) (w : nat -> R) : v3 :=
  V3 (rsum n (fun j => c1 (J j) * w j)) (rsum n (fun j => c2 (J j) * w j)) (rsum n (fun j => c3 (J j) * w j)).
Definition comb6 (n : nat) (J : nat -> v6) (w : nat -> R) : v6 :=
  V6 (comb3 n (fun j => lin (J j)) w) (comb3 n (fun j => ang (J j)) w).
