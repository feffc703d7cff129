(** Specification of the shooting problem (C01-C06). *)
From Coq Require Import List Arith Bool.
From Verif Require Import Common Shooting_Model.
Import ListNotations.

Section Shooting.
Context {M D X : Type}.
Context (nx ndx : M -> nat) (check_data : M -> D -> bool) (create_data : M -> D) (xsize : X -> nat).
Notation problem := (problem M D X).

(** The running part of a problem is well formed. *)
Record shaped (p : problem) : Prop := {
  shaped_T : 1 <= p_T p;
  shaped_run : length (p_run p) = p_T p;
  shaped_rund : length (p_rund p) = p_T p;
  shaped_dims : forall m, In m (p_run p) -> nx m = p_nx p /\ ndx m = p_ndx p;
  shaped_x0 : xsize (p_x0 p) = p_nx p }.

(** ... and the terminal node fits. *)
Definition terminal_fits (p : problem) : Prop :=
  nx (p_term p) = p_nx p /\ ndx (p_term p) = p_ndx p.

Definition consistent (p : problem) : Prop := shaped p /\ terminal_fits p.

(** Problems a user can hold: built by the constructor that creates the datas,
    then edited (exceptions being caught) any number of times. *)
Definition reachable (p : problem) : Prop :=
  exists x0 run term es p0,
    mk_problem nx ndx create_data xsize x0 run term = Built p0 /\
    run_edits nx ndx check_data create_data xsize es p0 = Some p.

(** The same for the constructor that receives the datas. *)
Definition reachable_datas (p : problem) : Prop :=
  exists x0 run term rund termd es p0,
    mk_problem_datas nx ndx check_data xsize x0 run term rund termd = Built p0 /\
    run_edits nx ndx check_data create_data xsize es p0 = Some p.

Definition fits (a b : nat) (m : M) : bool := Nat.eqb (nx m) a && Nat.eqb (ndx m) b.

(** Whether an edit of a problem with horizon [T] and dimensions [a], [b] has to be
    accepted. *)
Definition accepted (T a b : nat) (e : edit M D X) : bool :=
  match e with
  | EAppend m d => check_data m d && fits a b m
  | EAppendModel m => fits a b m
  | ENode i m d => Nat.leb i T && check_data m d && fits a b m
  | EModel i m => Nat.leb i T && fits a b m
  | ETerminal m => fits a b m
  | EX0 x => Nat.eqb (xsize x) a
  end.

(** The edits that concern the set of nodes. *)
Definition structural (e : edit M D X) : bool := match e with EX0 _ => false | _ => true end.
Definition modifies (T a b : nat) (e : edit M D X) : bool := structural e && accepted T a b e.

(** Answers expected from [is_updated]; [pending]: a modification has not been
    reported yet. *)
Fixpoint answers (T a b : nat) (pending : bool) (cs : list (call M D X)) : list bool :=
  match cs with
  | [] => []
  | CEdit e :: r => answers T a b (pending || modifies T a b e) r
  | CQuery :: r => pending :: answers T a b false r
  end.

(** A replaced entry. *)
Definition replace {A} (i : nat) (a : A) (l : list A) : list A :=
  firstn i l ++ a :: skipn (S i) l.

(** Nodes after an accepted edit: running models and datas, terminal model and
    data, initial state. *)
Definition nodes_after (e : edit M D X) (p : problem)
  : (list M * list D) * (M * D) * X :=
  let put i m d :=
    if Nat.eqb i (p_T p) then ((p_run p, p_rund p), (m, d), p_x0 p)
    else ((replace i m (p_run p), replace i d (p_rund p)), (p_term p, p_termd p), p_x0 p) in
  match e with
  | EAppend m d => ((tl (p_run p) ++ [m], tl (p_rund p) ++ [d]), (p_term p, p_termd p), p_x0 p)
  | EAppendModel m =>
      ((tl (p_run p) ++ [m], tl (p_rund p) ++ [create_data m]), (p_term p, p_termd p), p_x0 p)
  | ENode i m d => put i m d
  | EModel i m => put i m (create_data m)
  | ETerminal m => ((p_run p, p_rund p), (m, create_data m), p_x0 p)
  | EX0 x => ((p_run p, p_rund p), (p_term p, p_termd p), x)
  end.
Definition nodes (p : problem) : (list M * list D) * (M * D) * X :=
  ((p_run p, p_rund p), (p_term p, p_termd p), p_x0 p).

(** A list of [circularAppend] calls. *)
Definition appends (l : list (M * D)) : list (edit M D X) :=
  map (fun md => EAppend (fst md) (snd md)) l.
End Shooting.

Section Eval.
Context {M D X U S : Type}.
Context (calc : M -> D -> X -> U -> D) (xnext : D -> X) (cost : D -> S).

(** The dynamic constraints of a trajectory. *)
Definition follows (x0 : X) (ns : list (M * D)) (us : list U) (xs : list X) : Prop :=
  length xs = length ns + 1 /\ nth_error xs 0 = Some x0 /\
  forall t m d u, nth_error ns t = Some (m, d) -> nth_error us t = Some u ->
    exists x, nth_error xs t = Some x /\
              nth_error xs (t + 1) = Some (xnext (calc m d x u)).

(** The datas that result from evaluating each node at its state and control. *)
Definition evaluated (ns : list (M * D)) (xs : list X) (us : list U) (ds : list D) : Prop :=
  length ds = length ns /\
  forall t m d x u, nth_error ns t = Some (m, d) -> nth_error xs t = Some x ->
    nth_error us t = Some u -> nth_error ds t = Some (calc m d x u).
End Eval.

(** Interleavings of sequential programs: [ps] gives for each node the location of
    its data and the steps it still has to perform on it. *)
Inductive runs {D} : list (nat * list (D -> D)) -> list (nat * (D -> D)) -> Prop :=
| runs_done ps : Forall (fun p => snd p = []) ps -> runs ps []
| runs_step a k f fs b tr :
    runs (a ++ (k, fs) :: b) tr -> runs (a ++ (k, f :: fs) :: b) ((k, f) :: tr).
