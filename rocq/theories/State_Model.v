(** StateVector (include/crocoddyl/core/states/euclidean.hxx), the state bounds of
    state-base.hxx and the control bounds of action-base.hxx / diff-action-base.hxx.

    Vectors and matrices carry their dimensions, which the code checks; [None] is the exception
    (the outputs are then unchanged up to the part written before the check).  The Jcomponent
    and AssignmentOp assertions are disabled in release builds and their arguments are enums. *)
From Coq Require Import Reals List Arith Bool.
From Verif Require Import Deriv VecMat XFloat.
Import ListNotations.
Open Scope R_scope.

Record sv := SV { sz : nat; ent : vec }.
Record sm := SM { rows : nat; cols : nat; ment : mat }.

(** Jcomponent (fwd.hpp:20) *)
Inductive jcomp := both | first | second.

Section State.
Variable nx : nat.        (* nx_ = ndx_ for StateVector *)
Let ndx := nx.

(** euclidean.hxx:31-50 *)
Definition sdiff (x0 x1 dxout : sv) : option sv :=
  if negb (Nat.eqb (sz x0) nx) then None
  else if negb (Nat.eqb (sz x1) nx) then None
  else if negb (Nat.eqb (sz dxout) ndx) then None
  else Some (SV (sz dxout) (fun i => ent x1 i - ent x0 i)).

(** euclidean.hxx:52-72 *)
Definition sintegrate (x dx xout : sv) : option sv :=
  if negb (Nat.eqb (sz x) nx) then None
  else if negb (Nat.eqb (sz dx) ndx) then None
  else if negb (Nat.eqb (sz xout) nx) then None
  else Some (SV (sz xout) (fun i => ent x i + ent dx i)).

(** base class wrappers: state-base.hxx:37-54 *)
Definition diff_dx (x0 x1 : sv) : option sv := sdiff x0 x1 (SV ndx (fun _ => 0)).
Definition integrate_x (x dx : sv) : option sv := sintegrate x dx (SV nx (fun _ => 0)).

Definition square (J : sm) : bool := Nat.eqb (rows J) ndx && Nat.eqb (cols J) ndx.
Definition set_diagonal (c : R) (J : sm) : sm :=
  SM (rows J) (cols J) (fun i j => if Nat.eqb i j then c else ment J i j).
Definition set_zero (J : sm) : sm := SM (rows J) (cols J) (fun _ _ => 0).
Definition wants_first (c : jcomp) := match c with second => false | _ => true end.
Definition wants_second (c : jcomp) := match c with first => false | _ => true end.

(** euclidean.hxx:74-107; the result is the pair (Jfirst, Jsecond) *)
Definition sJdiff (Jf Js : sm) (c : jcomp) : option (sm * sm) :=
  let step (sel : bool) (v : R) (J : sm) : option sm :=
    if sel then (if square J then Some (set_diagonal v (set_zero J)) else None) else Some J in
  match step (wants_first c) (-1) Jf with
  | None => None
  | Some Jf' => match step (wants_second c) 1 Js with None => None | Some Js' => Some (Jf', Js') end
  end.

(** euclidean.hxx:109-168 *)
Definition diag_op (op : assign_op) (J : sm) : sm :=
  SM (rows J) (cols J) (fun i j => if Nat.eqb i j then assign op (ment J i j) 1 else ment J i j).
Definition sJintegrate (Jf Js : sm) (c : jcomp) (op : assign_op) : option (sm * sm) :=
  let step (sel : bool) (J : sm) : option sm :=
    if sel then (if square J then Some (diag_op op J) else None) else Some J in
  match step (wants_first c) Jf with
  | None => None
  | Some Jf' => match step (wants_second c) Js with None => None | Some Js' => Some (Jf', Js') end
  end.

(** euclidean.hxx:170-180 *)
Definition sJtransport (J : sm) (c : jcomp) : option sm :=
  match c with both => None | _ => Some J end.

(** state-base.hxx:56-116: Jdiff_Js and Jintegrate_Js start from zero matrices. *)
Definition pick (c : jcomp) (p : sm * sm) : list sm :=
  match c with both => [fst p; snd p] | first => [fst p] | second => [snd p] end.
Definition Jdiff_Js (c : jcomp) : option (list sm) :=
  let z := SM ndx ndx (fun _ _ => 0) in option_map (pick c) (sJdiff z z c).
Definition Jintegrate_Js (c : jcomp) : option (list sm) :=
  let z := SM ndx ndx (fun _ _ => 0) in option_map (pick c) (sJintegrate z z c setto).
End State.

(** ** State bounds: state-base.hxx:12-23, 165-193 *)
Record slimits := SLimits { l_n : nat; l_lb : list xf; l_ub : list xf; l_has : bool }.
Definition sl_create (n : nat) : slimits := SLimits n (repeat NInf n) (repeat PInf n) false.
Definition sl_update (s : slimits) : slimits :=
  SLimits (l_n s) (l_lb s) (l_ub s) (existsb is_fin (l_lb s) || existsb is_fin (l_ub s)).
Inductive bop := SetLb (b : list xf) | SetUb (b : list xf).
(** [None]: exception, object unchanged *)
Definition sl_set (s : slimits) (o : bop) : option slimits :=
  match o with
  | SetLb b => if Nat.eqb (length b) (l_n s) then Some (sl_update (SLimits (l_n s) b (l_ub s) (l_has s))) else None
  | SetUb b => if Nat.eqb (length b) (l_n s) then Some (sl_update (SLimits (l_n s) (l_lb s) b (l_has s))) else None
  end.
Definition sl_run (n : nat) (l : list bop) : slimits :=
  fold_left (fun s o => match sl_set s o with Some s' => s' | None => s end) l (sl_create n).

(** ** Control bounds: action-base.hxx:13-33, 217-246 (same code in diff-action-base.hxx:12-31, 200-230) *)
Definition ul_update (s : slimits) : slimits :=
  SLimits (l_n s) (l_lb s) (l_ub s) (existsb is_fin (l_lb s) && existsb is_fin (l_ub s)).
Definition ul_set (s : slimits) (o : bop) : option slimits :=
  match o with
  | SetLb b => if Nat.eqb (length b) (l_n s) then Some (ul_update (SLimits (l_n s) b (l_ub s) (l_has s))) else None
  | SetUb b => if Nat.eqb (length b) (l_n s) then Some (ul_update (SLimits (l_n s) (l_lb s) b (l_has s))) else None
  end.
Definition ul_run (n : nat) (l : list bop) : slimits :=
  fold_left (fun s o => match ul_set s o with Some s' => s' | None => s end) l (sl_create n).

(** ** The neutral control: action-base.hxx:13-33 (constructor), 36-49 (copy constructor, which
    does not list unone_, so it is default-constructed, i.e. empty), 52-64 (calc and calcDiff
    without control).  [run x u] is the derived class's calc(data, x, u), which checks the size
    of [u] (e.g. lqr.hxx:91-129); [None] is its exception. *)
Record abase := ABase { a_nu : nat; a_unone : sv }.
Definition ab_create (nu : nat) : abase := ABase nu (SV nu (fun _ => 0)).
Definition ab_copy (a : abase) : abase := ABase (a_nu a) (SV 0 (fun _ => 0)).
Section Calc.
Context {A : Type}.
Variable run : sv -> vec -> A.
Definition ab_calc (a : abase) (x u : sv) : option A :=
  if Nat.eqb (sz u) (a_nu a) then Some (run x (ent u)) else None.
Definition ab_calc_x (a : abase) (x : sv) : option A := ab_calc a x (a_unone a).
End Calc.
