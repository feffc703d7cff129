(** Models written in Python: the wrapper classes of bindings/python/crocoddyl/core/*-base.hpp, which
    forward the virtual functions of the C++ classes to the methods of the Python object.
    The Python methods are arbitrary functions.  What a method writes in the data it is given is not
    modelled: a call is recorded with its arguments.
    Boost.Python: converting a result which is not of the expected type raises ([PyErr]).  Eigen:
    assigning a matrix to a reference of another size is an assertion, and undefined behaviour
    without assertions ([Undef]). *)
From Coq Require Import List Arith Bool.
Import ListNotations.

Inductive res (A : Type) := Val (a : A) | Exn | PyErr | Undef.
Arguments Val {A} _. Arguments Exn {A}. Arguments PyErr {A}. Arguments Undef {A}.
Definition bind {A B} (r : res A) (f : A -> res B) : res B :=
  match r with Val a => f a | Exn => Exn | PyErr => PyErr | Undef => Undef end.
Notation "x <- r ;; e" := (bind r (fun x => e)) (at level 61, r at next level, right associativity).

Section Scalars.
Context {V : Type} (zero nan : V) (plus minus : V -> V -> V).

(** ** Calls with and without control *)
(** The classes with calc(data, x, u): action-base.hpp, diff-action-base.hpp, residual-base.hpp,
    cost-base.hpp, constraint-base.hpp, integ-action-base.hpp and actuation-base.hpp *)
Inductive kind := KAction | KDiff | KResidual | KCost | KConstraint | KIntegrated | KActuation.
Record pm := PM { m_kind : kind; m_nx : nat; m_nu : nat; m_unone : list V }.
(** Those which set unone_ to NaN and look for it, action-base.hpp:43-51 and 66-73 *)
Definition sees_nan (k : kind) : bool := match k with KIntegrated | KActuation => false | _ => true end.
(** The constructors: action-base.hpp:43-51 and the others; include/crocoddyl/core/action-base.hxx:24
    for integrated actions; an actuation has no unone_. *)
Definition m_create (k : kind) (nx nu : nat) : pm :=
  PM k nx nu (if sees_nan k then repeat nan nu else match k with KIntegrated => repeat zero nu | _ => [] end).
Inductive meth := Calc | CalcDiff.
(** A call received by the Python object *)
Inductive pycall := PyRun (f : meth) (x u : list V) | PyTerm (f : meth) (x : list V).
(** std::isnan(u.lpNorm<Eigen::Infinity>()), given by Eigen *)
Variable norm_nan : list V -> bool.
(** calc and calcDiff with a control: action-base.hpp:53-96, integ-action-base.hpp:59-90,
    actuation-base.hpp:38-70 *)
Definition m_run (m : pm) (f : meth) (x u : list V) : res (list pycall) :=
  if negb (length x =? m_nx m) then Exn
  else if negb (length u =? m_nu m) then Exn
  else if sees_nan (m_kind m) && norm_nan u then Val [PyTerm f x]
  else Val [PyRun f x u].
(** calc and calcDiff without: action-base.hxx:50-63 (the same for the other classes);
    actuation-base.hxx:24-33: nothing *)
Definition m_term (m : pm) (f : meth) (x : list V) : res (list pycall) :=
  match m_kind m with KActuation => Val [] | _ => m_run m f x (m_unone m) end.

(** ** Casts of these classes: what the constructor is given *)
Record dims := Dims { d_nu : nat; d_nr : nat; d_ng : nat; d_nh : nat; d_ngT : nat; d_nhT : nat }.
(** action-base.hpp:43-50 and diff-action-base.hpp:45-55: the order of the arguments *)
Definition make (nu nr ng nh ngT nhT : nat) : dims := Dims nu nr ng nh ngT nhT.
(** action-base.hpp:171-177 *)
Definition cast_action (d : dims) : dims := make (d_nu d) (d_nr d) (d_ng d) (d_nh d) (d_ngT d) (d_nhT d).
(** diff-action-base.hpp:140-146 *)
Definition cast_diff (d : dims) : dims := make (d_nr d) (d_nu d) (d_ng d) (d_nh d) (d_ngT d) (d_nhT d).

(** ** States: state-base.hpp *)
Record mat := Mat { rows : nat; cols : nat; ent : nat -> nat -> V }.
Inductive comp := both | first | second.
Inductive op := setto | addto | rmfrom.
(** What a Python method returns *)
Inductive pyobj := PyVec (v : list V) | PyMat (m : mat) | PyList (l : list pyobj) | PyOther.
(** bp::call<VectorXs>, bp::call<MatrixXs>, bp::call<bp::list>, bp::extract<MatrixXs>(res[i]) *)
Definition to_vec (o : pyobj) : res (list V) := match o with PyVec v => Val v | _ => PyErr end.
Definition to_mat (o : pyobj) : res mat := match o with PyMat m => Val m | _ => PyErr end.
Definition to_list (o : pyobj) : res (list pyobj) := match o with PyList l => Val l | _ => PyErr end.
Definition item (l : list pyobj) (i : nat) : res mat :=
  match nth_error l i with Some o => to_mat o | None => PyErr end.
Definition item_vec (l : list pyobj) (i : nat) : res (list V) :=
  match nth_error l i with Some o => to_vec o | None => PyErr end.

Record pystate := PyState {
  s_nx : nat; s_ndx : nat;
  py_diff : list V -> list V -> pyobj; py_integrate : list V -> list V -> pyobj;
  py_Jdiff : list V -> list V -> comp -> pyobj; py_Jintegrate : list V -> list V -> comp -> pyobj;
  py_transport : list V -> list V -> mat -> comp -> pyobj }.

(** dst = src, dst += src, dst -= src for Eigen::Ref *)
Definition assign (o : op) (dst src : mat) : res mat :=
  if (rows dst =? rows src) && (cols dst =? cols src) then
    Val (Mat (rows dst) (cols dst)
      (match o with
       | setto => ent src
       | addto => fun i j => plus (ent dst i j) (ent src i j)
       | rmfrom => fun i j => minus (ent dst i j) (ent src i j)
       end))
  else Undef.
Definition assign_vec (n : nat) (src : list V) : res (list V) := if length src =? n then Val src else Undef.

Section State.
Variable s : pystate.
(** state-base.hpp:52-73; [n] is the size of dxout *)
Definition s_diff (x0 x1 : list V) (n : nat) : res (list V) :=
  if negb (length x0 =? s_nx s) then Exn else if negb (length x1 =? s_nx s) then Exn
  else v <- to_vec (py_diff s x0 x1) ;; assign_vec n v.
(** 75-95 *)
Definition s_integrate (x dx : list V) (n : nat) : res (list V) :=
  if negb (length x =? s_nx s) then Exn else if negb (length dx =? s_ndx s) then Exn
  else v <- to_vec (py_integrate s x dx) ;; assign_vec n v.
(** Jdiff_wrap, 124-169, and Jintegrate_wrap, 235-278: the list of what the method returns *)
Definition jacs (call : comp -> pyobj) (c : comp) : res (list pyobj) :=
  match c with
  | first | second => J <- to_mat (call c) ;; Val [PyMat J]
  | both => to_list (call c)
  end.
Definition s_Jdiff_wrap (x0 x1 : list V) (c : comp) : res (list pyobj) :=
  if negb (length x0 =? s_nx s) then Exn else if negb (length x1 =? s_nx s) then Exn
  else jacs (py_Jdiff s x0 x1) c.
Definition s_Jintegrate_wrap (x dx : list V) (c : comp) : res (list pyobj) :=
  if negb (length x =? s_nx s) then Exn else if negb (length dx =? s_ndx s) then Exn
  else jacs (py_Jintegrate s x dx) c.
(** 97-123 *)
Definition s_Jdiff (x0 x1 : list V) (J : mat * mat) (c : comp) : res (mat * mat) :=
  l <- s_Jdiff_wrap x0 x1 c ;;
  match c with
  | first => A <- item l 0 ;; J1 <- assign setto (fst J) A ;; Val (J1, snd J)
  | second => B <- item l 0 ;; J2 <- assign setto (snd J) B ;; Val (fst J, J2)
  | both => A <- item l 0 ;; J1 <- assign setto (fst J) A ;;
            B <- item l 1 ;; J2 <- assign setto (snd J) B ;; Val (J1, J2)
  end.
(** 171-233 *)
Definition right_size (J : mat) : bool := (rows J =? s_ndx s) && (cols J =? s_ndx s).
Definition wants_first (c : comp) : bool := match c with second => false | _ => true end.
Definition wants_second (c : comp) : bool := match c with first => false | _ => true end.
Definition s_Jintegrate (x dx : list V) (J : mat * mat) (c : comp) (o : op) : res (mat * mat) :=
  l <- s_Jintegrate_wrap x dx c ;;
  J1 <- (if wants_first c then
           if negb (right_size (fst J)) then Exn else A <- item l 0 ;; assign o (fst J) A
         else Val (fst J)) ;;
  J2 <- (if wants_second c then
           if negb (right_size (snd J)) then Exn else B <- item l 0 ;; assign o (snd J) B
         else Val (snd J)) ;;
  Val (J1, J2).
(** 280-308 *)
Definition s_transport (x dx : list V) (Jin : mat) (c : comp) : res mat :=
  if negb (length x =? s_nx s) then Exn else if negb (length dx =? s_ndx s) then Exn
  else M <- to_mat (py_transport s x dx Jin c) ;; assign setto Jin M.
(** include/crocoddyl/core/state-base.hxx:53-80 and 82-110 *)
Definition zmat : mat := Mat (s_ndx s) (s_ndx s) (fun _ _ => zero).
Definition picked (J : mat * mat) (c : comp) : list mat :=
  match c with both => [fst J; snd J] | first => [fst J] | second => [snd J] end.
Definition s_Jdiff_Js (x0 x1 : list V) (c : comp) : res (list mat) :=
  J <- s_Jdiff x0 x1 (zmat, zmat) c ;; Val (picked J c).
Definition s_Jintegrate_Js (x dx : list V) (c : comp) : res (list mat) :=
  J <- s_Jintegrate x dx (zmat, zmat) c setto ;; Val (picked J c).
End State.

(** ** Control parametrizations: control-base.hpp *)
Record pyparam := PyParam { c_nw : nat; c_nu : nat;
  py_bounds : list V -> list V -> pyobj; py_mul : mat -> pyobj; py_mulT : mat -> pyobj }.
(** convertBounds; [n] is the size of u_lb and u_ub *)
Definition c_bounds (p : pyparam) (lb ub : list V) (n : nat) : res (list V * list V) :=
  l <- to_list (py_bounds p lb ub) ;;
  a <- item_vec l 0 ;; a <- assign_vec n a ;; b <- item_vec l 1 ;; b <- assign_vec n b ;; Val (a, b).
(** multiplyByJacobian and multiplyJacobianTransposeBy *)
Definition c_mul (p : pyparam) (A out : mat) (o : op) : res mat := M <- to_mat (py_mul p A) ;; assign o out M.
Definition c_mulT (p : pyparam) (A out : mat) (o : op) : res mat := M <- to_mat (py_mulT p A) ;; assign o out M.
(** include/crocoddyl/core/control-base.hxx:31-49: the result is declared without initialisation;
    [junk] are the entries it happens to have *)
Definition c_mul_J (p : pyparam) (A : mat) (o : op) (junk : nat -> nat -> V) : res mat :=
  c_mul p A (Mat (rows A) (c_nu p) junk) o.
Definition c_mulT_J (p : pyparam) (A : mat) (o : op) (junk : nat -> nat -> V) : res mat :=
  c_mulT p A (Mat (c_nu p) (cols A) junk) o.
End Scalars.
