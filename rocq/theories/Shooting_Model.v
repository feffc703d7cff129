(** The shooting problem: construction, edits, evaluation.
    Models include/crocoddyl/core/optctrl/shooting.hxx.

    Simplifications: [shared_ptr]s are values (no null pointers); profiling,
    [nthreads_] and printing are left out; exceptions thrown by the action models
    themselves are left out. *)
From Coq Require Import List Arith Bool.
From Verif Require Import Common.
Import ListNotations.

(** [v[i] = a] on a [std::vector]; [None] is an out-of-range access. *)
Fixpoint lset {A} (l : list A) (i : nat) (a : A) : option (list A) :=
  match l, i with
  | [], _ => None
  | _ :: r, 0 => Some (a :: r)
  | x :: r, S i' => option_map (cons x) (lset r i' a)
  end.

Section Shooting.
(** [M]: action models; [D]: action datas; [X]: state vectors. *)
Context {M D X : Type}.
Context (nx ndx : M -> nat)             (* get_state()->get_nx(), get_ndx() *)
        (check_data : M -> D -> bool)   (* checkData *)
        (create_data : M -> D)          (* createData *)
        (xsize : X -> nat).             (* x.size() *)

(** Members of [ShootingProblemTpl] (shooting.hpp).  [p_upd] is [is_updated_];
    [None] when the constructor leaves it uninitialised. *)
Record problem := Problem {
  p_T : nat;
  p_x0 : X;
  p_term : M;
  p_termd : D;
  p_run : list M;
  p_rund : list D;
  p_nx : nat;
  p_ndx : nat;
  p_upd : option bool }.

(** Construction outcomes carry no previous state. *)
Inductive built := Built (p : problem) | BuildThrow | BuildUB.

Definition dims_ok (a b : nat) (m : M) : bool := Nat.eqb (nx m) a && Nat.eqb (ndx m) b.

(** shooting.hxx:15-63.  [running_models[0]] is read before any check, so an empty
    list is undefined behaviour. *)
Definition mk_problem (x0 : X) (run : list M) (term : M) : built :=
  match run with
  | [] => BuildUB
  | m0 :: rest =>
      if Nat.eqb (xsize x0) (nx m0)
         && forallb (dims_ok (nx m0) (ndx m0)) rest
         && dims_ok (nx m0) (ndx m0) term
      then Built (Problem (length run) x0 term (create_data term) run
                          (map create_data run) (nx m0) (ndx m0) (Some false))
      else BuildThrow
  end.

(** shooting.hxx:66-124: the overload that receives the datas.  [is_updated_] is
    not initialised and the dimensions of the terminal model are not checked. *)
Definition mk_problem_datas (x0 : X) (run : list M) (term : M) (rund : list D) (termd : D)
  : built :=
  match run with
  | [] => BuildUB
  | m0 :: _ =>
      if Nat.eqb (xsize x0) (nx m0)
         && Nat.eqb (length rund) (length run)
         && forallb (dims_ok (nx m0) (ndx m0)) run
         && forallb (fun md => check_data (fst md) (snd md)) (combine run rund)
         && check_data term termd
      then Built (Problem (length run) x0 term termd run rund (nx m0) (ndx m0) None)
      else BuildThrow
  end.

(** Copy constructor, shooting.hxx:127-137: [is_updated_] is not initialised. *)
Definition copy_problem (p : problem) : problem :=
  Problem (p_T p) (p_x0 p) (p_term p) (p_termd p) (p_run p) (p_rund p) (p_nx p) (p_ndx p) None.

Definition with_run (p : problem) (run : list M) (rund : list D) : problem :=
  Problem (p_T p) (p_x0 p) (p_term p) (p_termd p) run rund (p_nx p) (p_ndx p) (Some true).
Definition with_term (p : problem) (term : M) (termd : D) : problem :=
  Problem (p_T p) (p_x0 p) term termd (p_run p) (p_rund p) (p_nx p) (p_ndx p) (Some true).

(** The loop [for (i = 0; i < n; ++i) v[i] = v[i + 1];] starting at [i]. *)
Fixpoint shift_loop {A} (n i : nat) (v : list A) : option (list A) :=
  match n with
  | 0 => Some v
  | S n' =>
      match nth_error v (i + 1) with
      | Some a => match lset v i a with
                  | Some v' => shift_loop n' (i + 1) v'
                  | None => None
                  end
      | None => None
      end
  end.

(** [v.back() = a] *)
Definition set_back {A} (v : list A) (a : A) : option (list A) :=
  match v with [] => None | _ => lset v (length v - 1) a end.

(** Body shared by the two overloads of [circularAppend], shooting.hxx:305-312 and
    324-331.  For [T_ = 0] the bound [T_ - 1] wraps around and the first access is
    out of range. *)
Definition circular_body (p : problem) (m : M) (d : D) : outcome problem unit :=
  match p_T p with
  | 0 => UB
  | S n =>
      match shift_loop n 0 (p_run p), shift_loop n 0 (p_rund p) with
      | Some run, Some rund =>
          match set_back run m, set_back rund d with
          | Some run', Some rund' => Ok (with_run p run' rund') tt
          | _, _ => UB
          end
      | _, _ => UB
      end
  end.

(** shooting.hxx:290-313 *)
Definition circular_append (m : M) (d : D) (p : problem) : outcome problem unit :=
  if check_data m d && dims_ok (p_nx p) (p_ndx p) m then circular_body p m d else Throw p.

(** shooting.hxx:316-332 *)
Definition circular_append_model (m : M) (p : problem) : outcome problem unit :=
  if dims_ok (p_nx p) (p_ndx p) m then circular_body p m (create_data m) else Throw p.

Definition put_node (i : nat) (m : M) (d : D) (p : problem) : outcome problem unit :=
  if Nat.eqb i (p_T p) then Ok (with_term p m d) tt
  else match lset (p_run p) i m, lset (p_rund p) i d with
       | Some run, Some rund => Ok (with_run p run rund) tt
       | _, _ => UB
       end.

(** shooting.hxx:335-364 *)
Definition update_node (i : nat) (m : M) (d : D) (p : problem) : outcome problem unit :=
  if Nat.leb (p_T p + 1) i then Throw p
  else if check_data m d && dims_ok (p_nx p) (p_ndx p) m then put_node i m d p
  else Throw p.

(** shooting.hxx:367-391 *)
Definition update_model (i : nat) (m : M) (p : problem) : outcome problem unit :=
  if Nat.leb (p_T p + 1) i then Throw p
  else if dims_ok (p_nx p) (p_ndx p) m then put_node i m (create_data m) p
  else Throw p.

(** shooting.hxx:450-457 *)
Definition set_x0 (x : X) (p : problem) : outcome problem unit :=
  if Nat.eqb (xsize x) (xsize (p_x0 p))
  then Ok (Problem (p_T p) x (p_term p) (p_termd p) (p_run p) (p_rund p)
                   (p_nx p) (p_ndx p) (p_upd p)) tt
  else Throw p.

(** shooting.hxx:487-500 *)
Definition set_terminal (m : M) (p : problem) : outcome problem unit :=
  if dims_ok (p_nx p) (p_ndx p) m then Ok (with_term p m (create_data m)) tt else Throw p.

(** The check loop of [set_runningModels], shooting.hxx:462-474: [T_] is still the
    old horizon, [models[i]] the new list.  [None] is an out-of-range access. *)
Fixpoint check_loop (a b : nat) (n : nat) (models : list M) : option bool :=
  match n with
  | 0 => Some true
  | S n' =>
      match models with
      | [] => None
      | m :: r => if dims_ok a b m then check_loop a b n' r else Some false
      end
  end.

(** The copy loop, shooting.hxx:479-483: [running_models_] has just been cleared
    and the loop reads [running_models_[i]] (not [models[i]]) before pushing. *)
Fixpoint copy_loop (n i : nat) (run : list M) (rund : list D) : option (list M * list D) :=
  match n with
  | 0 => Some (run, rund)
  | S n' =>
      match nth_error run i with
      | None => None
      | Some m => copy_loop n' (i + 1) (run ++ [m]) (rund ++ [create_data m])
      end
  end.

(** shooting.hxx:460-484 *)
Definition set_running (models : list M) (p : problem) : outcome problem unit :=
  match check_loop (p_nx p) (p_ndx p) (p_T p) models with
  | None => UB
  | Some false => Throw p
  | Some true =>
      match copy_loop (length models) 0 [] [] with
      | None => UB
      | Some (run, rund) =>
          Ok (Problem (length models) (p_x0 p) (p_term p) (p_termd p) run rund
                      (p_nx p) (p_ndx p) (Some true)) tt
      end
  end.

(** shooting.hxx:547-552; reading an uninitialised flag is undefined. *)
Definition is_updated (p : problem) : outcome problem bool :=
  match p_upd p with
  | None => UB
  | Some b =>
      Ok (Problem (p_T p) (p_x0 p) (p_term p) (p_termd p) (p_run p) (p_rund p)
                  (p_nx p) (p_ndx p) (Some false)) b
  end.

(** ** Histories *)
Inductive edit :=
| EAppend (m : M) (d : D)
| EAppendModel (m : M)
| ENode (i : nat) (m : M) (d : D)
| EModel (i : nat) (m : M)
| ETerminal (m : M)
| EX0 (x : X).

Definition apply_edit (e : edit) (p : problem) : outcome problem unit :=
  match e with
  | EAppend m d => circular_append m d p
  | EAppendModel m => circular_append_model m p
  | ENode i m d => update_node i m d p
  | EModel i m => update_model i m p
  | ETerminal m => set_terminal m p
  | EX0 x => set_x0 x p
  end.

(** A caller that catches exceptions and goes on; [None] once undefined behaviour
    has occurred. *)
Fixpoint run_edits (es : list edit) (p : problem) : option problem :=
  match es with
  | [] => Some p
  | e :: r => match out_state (apply_edit e p) with
              | Some p' => run_edits r p'
              | None => None
              end
  end.

(** Edits interleaved with queries of [is_updated]; collects the answers. *)
Inductive call := CEdit (e : edit) | CQuery.

Fixpoint run_calls (cs : list call) (p : problem) : option (list bool) :=
  match cs with
  | [] => Some []
  | CEdit e :: r => match out_state (apply_edit e p) with
                    | Some p' => run_calls r p'
                    | None => None
                    end
  | CQuery :: r => match is_updated p with
                   | Ok p' b => option_map (cons b) (run_calls r p')
                   | _ => None
                   end
  end.
End Shooting.
Arguments problem : clear implicits.
Arguments built : clear implicits.
Arguments edit : clear implicits.
Arguments call : clear implicits.

(** ** Evaluation *)
Section Eval.
(** [calc]/[calcT] update the data of a node; [xnext] and [cost] read it. *)
Context {M D X U S : Type}.
Context (calc : M -> D -> X -> U -> D) (calcT : M -> D -> X -> D)
        (xnext : D -> X) (cost : D -> S) (zero : S) (add : S -> S -> S).

(** shooting.hxx:222-244.  [xs] is an output; its previous content only has to
    have the right length.  The result is the list of states and of datas. *)
Fixpoint rollout_loop (x : X) (ns : list (M * D)) (us : list U) : list X * list D :=
  match ns, us with
  | (m, d) :: ns', u :: us' =>
      let d' := calc m d x u in
      let '(xs, ds) := rollout_loop (xnext d') ns' us' in (x :: xs, d' :: ds)
  | _, _ => ([x], [])
  end.

Definition rollout (p : problem M D X) (us : list U) (xs_in : list X)
  : option (list X * problem M D X) :=
  if Nat.eqb (length xs_in) (p_T p + 1) && Nat.eqb (length us) (p_T p) then
    let '(xs, ds) := rollout_loop (p_x0 p) (combine (p_run p) (p_rund p)) us in
    let dT := calcT (p_term p) (p_termd p) (last xs (p_x0 p)) in
    Some (xs, Problem (p_T p) (p_x0 p) (p_term p) dT (p_run p) ds (p_nx p) (p_ndx p) (p_upd p))
  else None.

(** shooting.hxx:143-175 (and, with the calcDiff functions, 178-219), sequential
    visit of the nodes. *)
Fixpoint calc_nodes (ns : list (M * D)) (xs : list X) (us : list U) : list D :=
  match ns, xs, us with
  | (m, d) :: ns', x :: xs', u :: us' => calc m d x u :: calc_nodes ns' xs' us'
  | _, _, _ => []
  end.

Definition problem_calc (p : problem M D X) (xs : list X) (us : list U)
  : option (S * problem M D X) :=
  if Nat.eqb (length xs) (p_T p + 1) && Nat.eqb (length us) (p_T p) then
    let ds := calc_nodes (combine (p_run p) (p_rund p)) xs us in
    let dT := calcT (p_term p) (p_termd p) (last xs (p_x0 p)) in
    let c := add (fold_left add (map cost ds) zero) (cost dT) in
    Some (c, Problem (p_T p) (p_x0 p) (p_term p) dT (p_run p) ds (p_nx p) (p_ndx p) (p_upd p))
  else None.
End Eval.

(** ** The parallel loop
    The datas live in a heap; a node's evaluation is a sequence of atomic updates
    of its own location.  The OpenMP loop (shooting.hxx:157-162, 192-197) executes
    some interleaving of the nodes' sequences. *)
Section Parallel.
Context {D : Type}.
Definition heap := nat -> D.
Definition hput (l : nat) (f : D -> D) (h : heap) : heap :=
  fun k => if Nat.eqb k l then f (h k) else h k.
Definition exec (tr : list (nat * (D -> D))) (h : heap) : heap :=
  fold_left (fun h s => hput (fst s) (snd s) h) tr h.
End Parallel.
