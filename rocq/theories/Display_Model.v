(** Playing back a solution: class DisplayAbstract, bindings/python/crocoddyl/__init__.py:60-372.

    Contact forces are displayed by the viewer as arrows named after the parent joint of the contact
    frame; the scene maps a joint to the force its arrow shows, or to [None] when the arrow is
    hidden.  The friction cones are handled in the same way as the arrows and are left out, as are
    the frame curves.  Forces are opaque values; a thruster's force is its entry of the control. *)
From Coq Require Import List Arith Bool QArith.
Import ListNotations.
Open Scope list_scope.
Open Scope nat_scope.

Section Display.
Context {X F : Type}.

Record contact := Ct { joint : nat; active : bool; force : F }.
(** The model and the data of a node, as far as the display looks at them: an Euler integrator or a
    Runge-Kutta one (whose data holds a vector of differential data) around a differential model
    with contacts (DifferentialActionModelContactFwdDynamics or ...InvDynamics) or without, an
    impulse model, or another action model. *)
Inductive node :=
| Euler (cs : option (list contact)) (thrusters : option (list F)) (dt : Q)
| Rk (cs : option (list contact)) (thrusters : option (list F)) (dt : Q)
| Impulse (cs : list contact)
| Other.

(** 298-310 (_hasContacts) with 312-343 (_getContactModelAndData): the contacts the display finds *)
Definition found (n : node) : option (list contact) :=
  match n with
  | Euler (Some cs) _ _ => Some cs
  | Impulse cs => Some cs
  | _ => None
  end.
(** 351-372 (_getForceInformation): the active contacts, with the key str(joint) *)
Definition force_information (cs : list contact) : list (nat * F) :=
  map (fun c => (joint c, force c)) (filter active cs).
(** 110-125 (init): the keys of activeContacts *)
Definition init_keys (ns : list node) : list nat :=
  flat_map (fun n => match found n with Some cs => map joint cs | None => [] end) ns.
(** 194-209 (getForceTrajectoryFromSolver): None without frames, else one entry for each node found *)
Definition force_trajectory (ns : list node) : option (list (list (nat * F))) :=
  match init_keys ns with
  | [] => None
  | _ => Some (flat_map (fun n => match found n with Some cs => [force_information cs] | None => [] end) ns)
  end.
(** 211-244 (getThrustTrajectoryFromSolver), over the running nodes; with a Runge-Kutta integrator
    data.differential has no attribute pinocchio, so a thruster raises ([None]) *)
Fixpoint thrust_trajectory (ns : list node) : option (list (list F)) :=
  match ns with
  | [] => Some []
  | Euler _ (Some ts) _ :: r => option_map (cons ts) (thrust_trajectory r)
  | Rk _ (Some []) _ :: r => option_map (cons []) (thrust_trajectory r)
  | Rk _ (Some (_ :: _)) _ :: r => None
  | _ :: r => thrust_trajectory r
  end.
(** 67-68: m.dt if hasattr(m, "differential") else 0.0 *)
Definition duration (n : node) : Q :=
  match n with Euler _ _ dt | Rk _ _ dt => dt | _ => 0%Q end.
(** 178-184, 287-292: getTimeSequenceFromSolver, over the running nodes *)
Fixpoint time_loop (dts : list Q) (t : Q) (ts : list Q) : list Q :=
  match dts with [] => ts | dt :: r => time_loop r (t + dt)%Q (ts ++ [(t + dt)%Q]) end.
Definition time_sequence (ns : list node) : list Q := time_loop (map duration ns) 0%Q [0%Q].

Definition scene := nat -> option F.
Definition upd (s : scene) (j : nat) (v : option F) : scene := fun k => if Nat.eqb k j then v else s k.
(** 92-101: reset activeContacts, display the forces *)
Fixpoint show_forces (fs : list (nat * F)) (act : list nat) (s : scene) : list nat * scene :=
  match fs with
  | [] => (act, s)
  | (j, f) :: r => show_forces r (j :: act) (upd s j (Some f))
  end.
(** 102-107: hide what is not active; [act] is the set of keys marked True *)
Definition hide (keys act : list nat) (s : scene) : scene :=
  fold_left (fun s k => if existsb (Nat.eqb k) act then s else upd s k None) keys s.

(** What is seen when a frame is shown, and how long it stays. *)
Record shot := Shot { shown_state : X; arrows : scene; thrusts : list F; sleep : Q }.

(** [i % S == 0] for S = len(xs) / rate, a floating-point number, when rate does not divide len(xs) *)
Variable frac_hit : nat -> nat -> nat -> bool.
(** 79-81; [rate]: None is a rate that is not positive *)
Definition hit (rate : option nat) (n i : nat) : bool :=
  match rate with
  | None => true
  | Some r => if n <=? r then true
              else if Nat.eqb (n mod r) 0 then Nat.eqb (i mod (n / r)) 0 else frac_hit n r i
  end.

(** 80-108: the loop over the states.  [act]: the keys marked True, [keys]: all the keys.  The second
    component is false when an index is out of range (IndexError). *)
Fixpoint display_loop (rate : option nat) (n : nat) (xs : list X) (i : nat) (dts : list Q)
    (rs : list (list F)) (fs : option (list (list (nat * F)))) (keys act : list nat) (s : scene)
    (factor : Q) : list shot * bool :=
  match xs with
  | [] => ([], true)
  | x :: xs' =>
      let next := display_loop rate n xs' (S i) dts rs fs keys in
      if hit rate n i then
        match
          (match rs with
           | [] => Some []
           | _ => if Nat.eqb i (n - 1) then Some [] else nth_error rs i
           end),
          (match fs with
           | Some ((_ :: _) as l) => option_map (fun f => show_forces f [] s) (nth_error l i)
           | _ => Some (act, s)
           end)
        with
        | Some th, Some (act', s') =>
            let s'' := hide keys act' s' in
            match nth_error dts i with
            | Some dt => let (l, ok) := next act' s'' factor in (Shot x s'' th (dt * factor)%Q :: l, ok)
            | None => ([], false)
            end
        | _, _ => ([], false)
        end
      else next act s factor
  end.
(** 60-69: displayFromSolver on running nodes [ns] and terminal node [nt]; the arrows created by init
    show the default [s0] and are all marked active *)
Definition display_from_solver (rate : option nat) (ns : list node) (nt : node) (xs : list X)
    (s0 : scene) (factor : Q) : list shot * bool :=
  let all := ns ++ [nt] in
  match thrust_trajectory ns with
  | None => ([], false)
  | Some rs => display_loop rate (length xs) xs 0 (map duration all) rs (force_trajectory all)
                 (init_keys all) (init_keys all) s0 factor
  end.
End Display.
