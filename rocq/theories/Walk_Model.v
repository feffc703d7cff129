(** The quadruped walking generator: src/multibody/utils/quadruped-gaits.cpp.

    A node is what distinguishes the created action models: the time step, the feet in contact, the
    references of the centre of mass and of the swinging feet.  Weights and regularisation costs, which are
    the same constants for all nodes, are left out.  Arithmetic is over the reals, references are finite. *)
From Coq Require Import Reals List Arith Bool.
From Verif Require Import Spatial.
Import ListNotations.
Open Scope R_scope.

Inductive node :=
  | Swing (dt : R) (support : list nat) (com : option v3) (tasks : list (nat * v3))  (* createSwingFootModel, 207-279 *)
  | Switch (support : list nat) (tasks : list (nat * v3)).                         (* createImpulseModel, 368-418 *)

(** displacement of a swinging foot at knot k, 163-180 *)
Definition dp (L h : R) (n k : nat) : v3 :=
  let phase := (n / 2)%nat in
  V3 (L * (INR (k + 1) / INR n)) 0
    (if (k <? phase)%nat then h * INR k / INR phase
     else if (k =? phase)%nat then h
     else h * (1 - (INR k - INR phase) / INR phase)).

Section Step.
Variables (dt L h : R) (n : nat) (com : v3) (feet : list v3) (support swing : list nat).
(** 152-156 *)
Definition com_percentage : R := INR (length swing) / INR (length support + length swing).
(** the tasks of knot k, 163-185 *)
Definition tasks (k : nat) : list (nat * v3) := map (fun a => (fst a, add3 (snd a) (dp L h n k))) (combine swing feet).
Definition kp1_n (k : nat) : R := match swing with [] => 0 | _ => INR (k + 1) / INR n end.
(** 188-191 *)
Definition com_task (k : nat) : v3 := add3 (scal3 com_percentage (V3 (L * kp1_n k) 0 0)) com.
(** createFootStepModels, 146-205: the nodes, the new com_pos0 and the new feet_pos0.  Reading feet_pos0
    beyond its end is undefined behaviour: None. *)
Definition foot_step : option (list node * v3 * list v3) :=
  if (length feet <? length swing)%nat && (0 <? n)%nat then None else
  Some (map (fun k => Swing dt support (Some (com_task k)) (tasks k)) (seq 0 n) ++
          [Switch support (match n with O => [] | S n' => tasks n' end)],
        add3 com (V3 (L * com_percentage) 0 0),
        map (fun p => add3 p (V3 L 0 0)) feet).
End Step.

(** The gait object: only the flag of the first step changes.  Feet: frame identifiers. *)
Record gait := Gait { first : bool; lf : nat; rf : nat; lh : nat; rh : nat }.
(** createWalkingProblem, 49-144; the positions of the feet and the height of the centre of mass are those
    of the kinematics at x0.  Result: running nodes, terminal node, gait object. *)
Definition walking (g : gait) (plf prf plh prh : v3) (comz L h dt : R) (stepknots supportknots : nat)
  : option (list node * node * gait) :=
  let c0 := add3 (add3 (add3 prf prh) plf) plh in
  let com := V3 (c1 c0 / 4) (c2 c0 / 4) comz in
  let double := repeat (Swing dt [lf g; rf g; lh g; rh g] None []) supportknots in
  let Lr := if first g then 1 / 2 * L else L in
  match foot_step dt Lr h stepknots com [prh] [lf g; rf g; lh g] [rh g] with
  | None => None
  | Some (rh_step, com, _) =>
  match foot_step dt Lr h stepknots com [prf] [lf g; lh g; rh g] [rf g] with
  | None => None
  | Some (rf_step, com, _) =>
  match foot_step dt L h stepknots com [plh] [lf g; rf g; rh g] [lh g] with
  | None => None
  | Some (lh_step, com, _) =>
  match foot_step dt L h stepknots com [plf] [rf g; lh g; rh g] [lf g] with
  | None => None
  | Some (lf_step, com, _) =>
      let model := double ++ rh_step ++ rf_step ++ double ++ lh_step ++ lf_step in
      match rev model with
      | [] => None
      | last :: _ => Some (model, last, Gait false (lf g) (rf g) (lh g) (rh g))
      end
  end end end end.
