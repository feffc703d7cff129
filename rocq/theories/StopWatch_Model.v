(** The profiler: src/core/utils/stop-watch.cpp and include/crocoddyl/core/utils/stop-watch.hpp.

    Values are integers, in millionths of the C++ value (long double, taken as exact): a time of s seconds is
    10^6 s, the CPU clock of k ticks is 10^6 k.  CLOCKS_PER_SEC is 10^6.  [None] stands for the initial values
    of min_time (the largest long double) and max_time (the smallest positive one).  The counter of stops is
    an int; it is taken as unbounded. *)
From Coq Require Import String List ZArith Bool.
Import ListNotations.
Open Scope string_scope. Open Scope list_scope. Open Scope Z_scope.

Inductive mode := MNone | MCpu | MReal.
(** What the two clocks show: gettimeofday in microseconds, clock() in ticks *)
Record reading := Rd { real : Z; ticks : Z }.
(** stop-watch.hpp:256-274 *)
Record perf := Perf { clock_start : Z; total : Z; mint : option Z; maxt : option Z; lastt : Z; stops : Z }.
Definition new_perf : perf := Perf 0 0 None None 0 0.
(** A watcher holds a name and, once bound, a pointer to its record; records are never erased
    (std::map, pointers stay valid). *)
Record sw := SW { active : bool; md : mode; recs : list (string * perf); profiling : bool; watchers : list (string * bool) }.
(** stop-watch.cpp:48-51 *)
Definition new_sw (m : mode) : sw := SW true m [] false [].

Fixpoint find_perf (n : string) (l : list (string * perf)) : option perf :=
  match l with [] => None | (k, p) :: l => if String.eqb n k then Some p else find_perf n l end.
Fixpoint set_perf (n : string) (p : perf) (l : list (string * perf)) : list (string * perf) :=
  match l with [] => [(n, p)] | (k, q) :: l => if String.eqb n k then (k, p) :: l else (k, q) :: set_perf n p l end.
(** map::insert keeps an existing record: stop-watch.cpp:105-109 *)
Definition get_or_create (n : string) (l : list (string * perf)) : perf * list (string * perf) :=
  match find_perf n l with Some p => (p, l) | None => (new_perf, set_perf n new_perf l) end.

(** take_time, stop-watch.cpp:65-103; None: exception *)
Definition take_time (m : mode) (t : reading) : option Z :=
  match m with MNone => None | MCpu => Some (1000000 * ticks t) | MReal => Some (real t) end.
Definition ge_max (x : Z) (m : option Z) : bool := match m with None => 0 <? x | Some y => y <=? x end.
Definition le_min (x : Z) (m : option Z) : bool := match m with None => true | Some y => x <=? y end.
(** stop_perf, stop-watch.cpp:140-160 *)
Definition stop_perf (m : mode) (p : perf) (clock_end : Z) : perf :=
  if clock_start p =? 0 then p else
  let lapse := clock_end - clock_start p in
  let lapse := match m with MCpu => lapse / 1000000 | _ => lapse end in
  Perf (clock_start p) (total p + lapse)
    (if ge_max lapse (maxt p) then mint p else if le_min lapse (mint p) then Some lapse else mint p)
    (if ge_max lapse (maxt p) then Some lapse else maxt p)
    lapse (stops p + 1).
(** reset, stop-watch.cpp:218-234 *)
Definition reset_perf : perf := Perf 0 0 (Some 0) (Some 0) 0 0.

Definition with_recs (s : sw) (r : list (string * perf)) : sw := SW (active s) (md s) r (profiling s) (watchers s).

Inductive op :=
  | Start (n : string) (t : reading) | Stop (n : string) (t : reading) | Pause (n : string) (t : reading)
  | Reset (n : string) | ResetAll | TurnOn | TurnOff | SetMode (m : mode) | Enable | Disable
  | Watcher (n : string) | WStart (i : nat) (t : reading) | WStop (i : nat) (t : reading).

(** The new stopwatch and whether the call returned (false: exception). *)
Definition step (s : sw) (o : op) : sw * bool :=
  match o with
  | Start n t =>                        (* stop-watch.cpp:111-124; the record is created first *)
      if active s then
        let (p, l) := get_or_create n (recs s) in
        match take_time (md s) t with
        | None => (with_recs s l, false)
        | Some c => (with_recs s (set_perf n (Perf c (total p) (mint p) (maxt p) (lastt p) (stops p)) l), true)
        end
      else (s, true)
  | Stop n t =>                         (* stop-watch.cpp:126-138 *)
      if active s then
        match take_time (md s) t, find_perf n (recs s) with
        | Some c, Some p => (with_recs s (set_perf n (stop_perf (md s) p c) (recs s)), true)
        | _, _ => (s, false)
        end
      else (s, true)
  | Pause n t =>                        (* stop-watch.cpp:162-181; the end is clock() in every mode *)
      if active s then
        match find_perf n (recs s) with
        | None => (s, false)
        | Some p =>
            if clock_start p =? 0 then (s, true) else
            let lapse := 1000000 * ticks t - clock_start p in
            (with_recs s (set_perf n (Perf (clock_start p) (total p + lapse) (mint p) (maxt p) (lastt p + lapse) (stops p)) (recs s)), true)
        end
      else (s, true)
  | Reset n =>                          (* stop-watch.cpp:218-234 *)
      if active s then
        match find_perf n (recs s) with
        | None => (s, false)
        | Some _ => (with_recs s (set_perf n reset_perf (recs s)), true)
        end
      else (s, true)
  | ResetAll =>                         (* stop-watch.cpp:183-191 *)
      if active s then (with_recs s (map (fun k => (fst k, reset_perf)) (recs s)), true) else (s, true)
  | TurnOn => (SW true (md s) (recs s) (profiling s) (watchers s), true)
  | TurnOff => (SW false (md s) (recs s) (profiling s) (watchers s), true)
  | SetMode m => (SW (active s) m (recs s) (profiling s) (watchers s), true)
  | Enable => (SW (active s) (md s) (recs s) true (watchers s), true)
  | Disable => (SW (active s) (md s) (recs s) false (watchers s), true)
  | Watcher n =>                        (* stop-watch.cpp:340-348 *)
      if active s then
        let (p, l) := get_or_create n (recs s) in
        (SW (active s) (md s) l (profiling s) (watchers s ++ [(n, true)]), true)
      else (SW (active s) (md s) (recs s) (profiling s) (watchers s ++ [(n, false)]), true)
  | WStart i t =>                       (* stop-watch.cpp:350-359 *)
      match nth_error (watchers s) i with
      | None => (s, true)               (* no such watcher: not a call *)
      | Some (n, b) =>
          if profiling s then
            let (p, l) := get_or_create n (recs s) in
            let ws := map (fun k => if Nat.eqb (fst k) i then (n, true) else snd k) (combine (seq 0 (length (watchers s))) (watchers s)) in
            match take_time (md s) t with
            | None => (SW (active s) (md s) l (profiling s) ws, false)
            | Some c => (SW (active s) (md s) (set_perf n (Perf c (total p) (mint p) (maxt p) (lastt p) (stops p)) l) (profiling s) ws, true)
            end
          else (s, true)
      end
  | WStop i t =>                        (* stop-watch.cpp:361-366 *)
      match nth_error (watchers s) i with
      | None => (s, true)
      | Some (n, b) =>
          if profiling s && b then
            match take_time (md s) t, find_perf n (recs s) with
            | Some c, Some p => (with_recs s (set_perf n (stop_perf (md s) p c) (recs s)), true)
            | _, _ => (s, false)
            end
          else (s, true)
      end
  end.
Definition exec (s : sw) (l : list op) : sw := fold_left (fun s o => fst (step s o)) l s.
(** get_total_time, get_average_time, get_min_time, get_max_time, get_last_time, stop-watch.cpp:287-335 *)
Definition record_of (s : sw) (n : string) : option perf := find_perf n (recs s).
