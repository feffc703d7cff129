(** The gait problems of the Python utilities: bindings/python/crocoddyl/utils/quadruped.py and
    biped.py.  A node of the problem is described by its duration, the feet it holds, the reference of
    the centre of mass and the references of the tracked feet; the weights, the regularisation, the
    friction costs and the integrator are left out.  The numpy arrays that the functions change in
    place are the memory [mem]; arithmetic is that of the reals.  Given: the positions of the feet and
    the height of the centre of mass at the start (Pinocchio). *)
From Coq Require Import Reals List Arith Bool.
Import ListNotations.
Local Open Scope R_scope.

Record pos := Pos { px : R; py : R; pz : R }.
Definition padd (a b : pos) : pos := Pos (px a + px b) (py a + py b) (pz a + pz b).
Definition pscale (c : R) (a : pos) : pos := Pos (c * px a) (c * py a) (c * pz a).

Inductive node :=
  | Stance (dt : R) (held : list nat) (com : option pos) (tracked : list (nat * pos))   (* createSwingFootModel *)
  | Switch (landing : list nat) (tracked : list (nat * pos)).                           (* createImpulseModel *)

(** The arrays comRef and <foot>Pos0 *)
Record mem := Mem { m_com : pos; m_foot : nat -> pos }.
Definition move (L : R) (f : nat -> pos) (i : nat) : nat -> pos :=
  fun j => if (j =? i)%nat then padd (f i) (Pos L 0 0) else f j.

(** quadruped.py:544-558, biped.py:221-235: the displacement at knot k of N; k < N/2 on integers *)
Definition swing (L h : R) (N k : nat) : pos :=
  let ph := INR N / 2 in
  let x := L * INR (k + 1) / INR N in
  if (2 * k <? N)%nat then Pos x 0 (h * INR k / ph)
  else if (2 * k =? N)%nat then Pos x 0 h
  else Pos x 0 (h * (1 - (INR k - ph) / ph)).
(** quadruped.py:512-579, biped.py:186-256: [arrays] names the arrays of feetPos0.  Without knots
    swingFootTask is not bound: an exception. *)
Definition footsteps (m : mem) (arrays : list nat) (L h dt : R) (N : nat) (support feet : list nat) : option (list node * mem) :=
  let legs := (length support + length feet)%nat in
  let part := INR (length feet) / INR legs in
  let tasks k := map (fun '(i, a) => (i, padd (m_foot m a) (swing L h N k))) (combine feet arrays) in
  let swings := map (fun k => Stance dt support
    (Some (padd (pscale part (Pos (L * INR (k + 1) / INR N) 0 0)) (m_com m))) (tasks k)) (seq 0 N) in
  match N with
  | O => None
  | S last => Some (swings ++ [Switch feet (tasks last)],
      Mem (padd (m_com m) (Pos (L * part) 0 0)) (fold_left (move L) arrays (m_foot m)))
  end.

(** A problem: the running nodes and the terminal one (models[:-1], models[-1]); [None]: an exception *)
Definition problem := option (list node * node).
Fixpoint split_last (l : list node) : problem :=
  match l with
  | [] => None
  | [n] => Some ([], n)
  | n :: l => match split_last l with Some (r, t) => Some (n :: r, t) | None => None end
  end.
Notation "x <- r ;; e" := (match r with Some x => e | None => None end) (at level 61, r at next level, right associativity).

Section Gaits.
(** quadruped.py:47-54, the frames of the feet *)
Variables lf rf lh rh : nat.
Definition all4 : list nat := [lf; rf; lh; rh].
(** createWalkingProblem 157-166 and the others: the start *)
Definition start4 (f : nat -> pos) (cz : R) : mem :=
  let s := padd (padd (padd (f rf) (f rh)) (f lf)) (f lh) in
  Mem (Pos (px s / 4) (py s / 4) cz) f.
Definition stand4 (dt : R) : node := Stance dt all4 None [].

Section Problem.
Variables (f : nat -> pos) (cz : R) (L h dt : R) (N K : nat).   (* N stepKnots, K supportKnots *)
(** doubleSupport[0]: an exception for the empty list *)
Definition first_of (l : list node) : option node := match l with n :: _ => Some n | [] => None end.
(** 144-241; the first argument is self.firstStep, the second result its new value *)
Definition walking (first : bool) : problem * bool :=
  let ds := repeat (stand4 dt) K in
  let L1 := if first then / 2 * L else L in
  match (a <- footsteps (start4 f cz) [rh] L1 h dt N [lf; rf; lh] [rh] ;;
         b <- footsteps (snd a) [rf] L1 h dt N [lf; lh; rh] [rf] ;; Some (fst a, fst b, snd b)) with
  | None => (None, first)
  | Some (rhs, rfs, m) =>
      (c <- footsteps m [lh] L h dt N [lf; rf; rh] [lh] ;;
       d <- footsteps (snd c) [lf] L h dt N [rf; lh; rh] [lf] ;;
       n <- first_of ds ;;
       split_last ((ds ++ rhs ++ rfs) ++ (ds ++ fst c ++ fst d ++ [n])), false)
  end.
(** 243-310 *)
Definition trotting (first : bool) : problem * bool :=
  let ds := repeat (stand4 dt) K in
  let L1 := if first then / 2 * L else L in
  match footsteps (start4 f cz) [rf; lh] L1 h dt N [lf; rh] [rf; lh] with
  | None => (None, first)
  | Some (s1, m) =>
      (b <- footsteps m [lf; rh] L h dt N [rf; lh] [lf; rh] ;;
       n <- first_of ds ;;
       split_last ((ds ++ s1) ++ (ds ++ fst b ++ [n])), false)
  end.
(** 312-379 *)
Definition pacing (first : bool) : problem * bool :=
  let ds := repeat (stand4 dt) K in
  let L1 := if first then / 2 * L else L in
  match footsteps (start4 f cz) [rf; rh] L1 h dt N [lf; lh] [rf; rh] with
  | None => (None, first)
  | Some (s1, m) =>
      (b <- footsteps m [lf; lh] L h dt N [rf; rh] [lf; lh] ;;
       n <- first_of ds ;;
       split_last ((ds ++ s1) ++ (ds ++ fst b ++ [n])), false)
  end.
(** 381-434: self.firstStep is neither read nor written *)
Definition bounding (first : bool) : problem * bool :=
  let ds := repeat (stand4 dt) K in
  (a <- footsteps (start4 f cz) [lf; rf] L h dt N [lh; rh] [lf; rf] ;;
   b <- footsteps (snd a) [lh; rh] L h dt N [lf; rf] [lh; rh] ;;
   n <- first_of ds ;;
   split_last ((ds ++ fst a) ++ (ds ++ fst b ++ [n])), first).

(** biped.py:56-120, with the feet rf and lf *)
Definition start2 : mem :=
  let s := padd (f rf) (f lf) in Mem (Pos (px s / 2) (py s / 2) cz) f.
Definition stand2 : node := Stance dt [rf; lf] None [].
Definition biped_walking (first : bool) : problem * bool :=
  let ds := repeat stand2 K in
  let L1 := if first then / 2 * L else L in
  match footsteps start2 [rf] L1 h dt N [lf] [rf] with
  | None => (None, first)
  | Some (s1, m) =>
      (b <- footsteps m [lf] L h dt N [rf] [lf] ;; split_last ((ds ++ s1) ++ (ds ++ fst b)), false)
  end.
End Problem.

(** quadruped.py:436-510: createJumpingProblem.  [jump] is the array jumpLength of the caller; the
    second result is what is in it afterwards.  groundKnots G, flyingKnots F. *)
Definition flat (p : pos) : pos := Pos (px p) (py p) 0.
Definition up (jump : pos) (H : R) (F : nat) (com : pos) (k : nat) : pos :=
  padd (pscale (/ INR F) (pscale (INR (k + 1)) (Pos (px jump / 2) (py jump / 2) (pz jump / 2 + H)))) com.
Definition jumping (f : nat -> pos) (cz : R) (H : R) (jump : pos) (dt : R) (G F : nat) : problem * pos :=
  let df := pz jump - pz (f rf) in
  let s := padd (padd (padd (flat (f rf)) (flat (f rh))) (flat (f lf))) (flat (f lh)) in
  let com := Pos (px s / 4) (py s / 4) cz in
  let landing := map (fun i => (i, padd (flat (f i)) jump)) all4 in
  let jump' := Pos (px jump) (py jump) df in
  (split_last (repeat (stand4 dt) G
     ++ map (fun k => Stance dt [] (Some (up jump H F com k)) []) (seq 0 F)
     ++ repeat (Stance dt [] None []) F
     ++ [Switch all4 landing]
     ++ repeat (Stance dt all4 (Some (padd com jump')) []) G), jump').
(** biped.py:122-184: half of the ground knots after landing *)
Definition biped_jumping (f : nat -> pos) (cz : R) (H : R) (jump : pos) (dt : R) (G F : nat) : problem * pos :=
  let df := pz jump - pz (f rf) in
  let s := padd (flat (f rf)) (flat (f lf)) in
  let com := Pos (px s / 2) (py s / 2) cz in
  let landing := map (fun i => (i, padd (flat (f i)) jump)) [lf; rf] in
  let jump' := Pos (px jump) (py jump) df in
  (split_last (repeat (Stance dt [lf; rf] None []) G
     ++ map (fun k => Stance dt [] (Some (up jump H F com k)) []) (seq 0 F)
     ++ repeat (Stance dt [] None []) F
     ++ [Switch [lf; rf] landing]
     ++ repeat (Stance dt [lf; rf] (Some (padd com jump')) []) (G / 2)), jump').
(** quadruped.py:66-109 and 111-142: createCoMProblem and createCoMGoalProblem; com0 the centre of mass
    at the start *)
Definition com_problem (com0 : pos) (go dt : R) (n : nat) : problem :=
  split_last ((repeat (stand4 dt) n ++ [Stance dt all4 (Some (padd com0 (Pos go 0 0))) []])
    ++ (repeat (stand4 dt) n ++ [Stance dt all4 (Some (padd com0 (Pos (- go) 0 0))) []])).
Definition com_goal (com0 : pos) (go dt : R) (n : nat) : problem :=
  split_last (repeat (stand4 dt) n ++ [Stance dt all4 (Some (padd com0 (Pos go 0 0))) []]).
End Gaits.
