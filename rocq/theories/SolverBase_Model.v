(** The solver's candidate: setCandidate, set_xs, set_us and resizing.
    Models src/core/solver-base.cpp.

    Vectors are abstract ([V] with a size); the dimensions of the problem are lists
    (state dimensions of the T running nodes, of the terminal node, control
    dimensions).  Trajectory storage is the pair of lists [xs_], [us_]. *)
From Coq Require Import List Arith Bool.
From Verif Require Import Common.
Import ListNotations.

Section Candidate.
Context {V : Type} (vsize : V -> nat) (vzero : nat -> V).

(** What the solver reads from the problem: [d_nx] the [nx] of the running nodes
    (length T), [d_nxT] of the terminal node, [d_nu] the control dimensions, [d_n]
    the problem's own [nx]; [d_x0] the zero states of the nodes
    ([get_state()->zero()], which need not be the zero vector). *)
Record dims := Dims {
  d_nx : list nat; d_nxT : nat; d_nu : list nat; d_n : nat;
  d_zero : list V; d_zeroT : V }.

Record cand := Cand { c_xs : list V; c_us : list V; c_feas : bool }.

(** Constructor, solver-base.cpp:18-68. *)
Definition new_cand (d : dims) : cand :=
  Cand (d_zero d ++ [d_zeroT d]) (map vzero (d_nu d)) false.

(** [std::copy(src.begin(), src.end(), dst.begin())]: undefined when [dst] is
    shorter than [src]. *)
Definition copy_into (src dst : list V) : option (list V) :=
  if Nat.leb (length src) (length dst) then Some (src ++ skipn (length src) dst) else None.

Definition sizes_ok (ns : list nat) (vs : list V) : bool :=
  forallb (fun p => Nat.eqb (vsize (snd p)) (fst p)) (combine ns vs).

(** solver-base.cpp:212-282.  The states are written before the controls are
    checked. *)
Definition set_candidate (d : dims) (xs_warm us_warm : list V) (feas : bool) (c : cand)
  : outcome cand unit :=
  let T := length (d_nx d) in
  let put_us (xs : list V) : outcome cand unit :=
    match us_warm with
    | [] => Ok (Cand xs (map vzero (d_nu d)) feas) tt
    | _ =>
        if Nat.eqb (length us_warm) T && sizes_ok (d_nu d) us_warm then
          match copy_into us_warm (c_us c) with
          | Some us => Ok (Cand xs us feas) tt
          | None => UB
          end
        else Throw (Cand xs (c_us c) (c_feas c))
    end in
  match xs_warm with
  | [] => put_us (d_zero d ++ [d_zeroT d])
  | _ =>
      if Nat.eqb (length xs_warm) (T + 1) && sizes_ok (d_nx d ++ [d_nxT d]) xs_warm then
        match copy_into xs_warm (c_xs c) with
        | Some xs => put_us xs
        | None => UB
        end
      else Throw c
  end.

(** solver-base.cpp:368-391; all states are compared with the problem's [nx]. *)
Definition set_xs (d : dims) (xs : list V) (c : cand) : outcome cand unit :=
  let T := length (d_nx d) in
  if Nat.eqb (length xs) (T + 1) && sizes_ok (repeat (d_n d) (T + 1)) xs
  then Ok (Cand xs (c_us c) (c_feas c)) tt else Throw c.

(** solver-base.cpp:393-414 *)
Definition set_us (d : dims) (us : list V) (c : cand) : outcome cand unit :=
  if Nat.eqb (length us) (length (d_nx d)) && sizes_ok (d_nu d) us
  then Ok (Cand (c_xs c) us (c_feas c)) tt else Throw c.

Inductive cand_op :=
| OpCandidate (xs us : list V) (feas : bool)
| OpXs (xs : list V)
| OpUs (us : list V).

Definition cand_step (d : dims) (o : cand_op) (c : cand) : outcome cand unit :=
  match o with
  | OpCandidate xs us f => set_candidate d xs us f c
  | OpXs xs => set_xs d xs c
  | OpUs us => set_us d us c
  end.

Fixpoint cand_run (d : dims) (os : list cand_op) (c : cand) : option cand :=
  match os with
  | [] => Some c
  | o :: r => match out_state (cand_step d o c) with
              | Some c' => cand_run d r c'
              | None => None
              end
  end.
End Candidate.
Arguments dims : clear implicits.
Arguments cand : clear implicits.
Arguments cand_op : clear implicits.
