(** C80, the force a 1D contact publishes: written in the axes of the contact it is the
    force applied to the robot. *)
From Coq Require Import Reals Lra.
From Verif Require Import Deriv VecMat Spatial Spatial_Proofs Contact_Model.
Open Scope R_scope.

(** Specification: a force given in the axes of a 1D contact, as a force at the parent
    joint.  The axes are those of the frame (LOCAL) or of the world, turned by [Raxis]. *)
Definition applied1 (type : ftype) (jMf : se3) (Raxis : m3) (k : kin) (f : v6) : v6 :=
  let turn a := mv (mt Raxis) a in
  let inframe a := match type with LOCAL => turn a | _ => mv (mt (oRf k)) (turn a) end in
  act_force jMf (V6 (inframe (lin f)) (inframe (ang f))).

Lemma scal_col M f : scal3 f (col3 M) = mv M (V3 0 0 f).
Proof. unfold scal3, col3, mv, dot3. cbn. f_equal; ring. Qed.
Lemma mv_zero M : mv M z3 = z3.
Proof. unfold mv, dot3, z3. cbn. f_equal; ring. Qed.
Lemma add_zero a : add3 z3 a = a.
Proof. destruct a. unfold add3, z3. cbn. f_equal; ring. Qed.

Theorem C80_published1 : forall type jMf Raxis k force,
  fext1 type jMf Raxis k force = applied1 type jMf Raxis k (f1 force) /\
  ang (f1 force) = z3 /\ dot3 (lin (f1 force)) (V3 1 0 0) = 0 /\ dot3 (lin (f1 force)) (V3 0 1 0) = 0.
Proof.
  intros type jMf Raxis k force. split.
  - destruct type; unfold fext1, applied1, f1_local, act_force, f1; cbv zeta; cbn;
      rewrite !scal_col, !mv_mm, !mv_zero, !add_zero; reflexivity.
  - repeat split; unfold f1, dot3; cbn; ring.
Qed.

(** A contact whose axes are turned by a quarter turn. *)
Example C80_published1_case : forall k,
  lin (fext1 LOCAL (SE3 I3 z3) (M3 (V3 1 0 0) (V3 0 0 1) (V3 0 (-1) 0)) k 2) = V3 0 (-2) 0.
Proof.
  intro k. unfold fext1. cbv zeta. cbn. rewrite scal_col, mv_mm.
  unfold mv, mt, col1, col2, col3, dot3, I3. cbn. f_equal; ring.
Qed.

Print Assumptions C80_published1.
