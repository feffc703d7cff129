(** * Casting numbers, vectors and integrated models between float and double

    Models [scalar_cast] and [vector_cast]
    (/repo include/crocoddyl/core/utils/conversions.hpp:30-61), the
    construction of an integrated action model
    (core/integ-action-base.hxx:16-63), its setters of the time step and of
    the control limits, and the casts of the Euler and Runge-Kutta integrators
    (core/integrator/euler.hxx:161-174, core/integrator/rk.hxx:340-354).

    A [static_cast] between floating-point types is the IEEE-754 conversion:
    round to nearest, ties to even, with overflow to infinity.  (The C++
    standard leaves the overflow undefined; every IEEE platform gives the
    infinity.)  Simplified: signed zeros are one zero, NaN payloads are
    dropped, and the differential model and the control parametrization are
    represented by the control limits they publish with the zero-order
    parametrization, for which [convertBounds] copies the limits. *)

From Coq Require Import Reals ZArith List Bool.
From Flocq Require Import Core.
Import ListNotations.
Open Scope R_scope.

(** A floating-point value. *)
Inductive fp := FNan | FInf (neg : bool) | FFin (r : R).

(** A binary format: the number of significant bits and the largest
    exponent. *)
Record format := { f_prec : Z; f_emax : Z }.

Definition f_emin (f : format) : Z := (3 - f_emax f - f_prec f)%Z.

(** [float] and [double]. *)
Definition float32 : format := {| f_prec := 24; f_emax := 128 |}.
Definition float64 : format := {| f_prec := 53; f_emax := 1024 |}.

Definition f_round (f : format) (r : R) : R :=
  round radix2 (FLT_exp (f_emin f) (f_prec f)) ZnearestE r.

(** conversions.hpp:31-36: [static_cast<NewScalar>(x)]. *)
Definition scalar_cast (f : format) (x : fp) : fp :=
  match x with
  | FNan => FNan
  | FInf n => FInf n
  | FFin r =>
      let y := f_round f r in
      if Rlt_dec (Rabs y) (bpow radix2 (f_emax f)) then FFin y
      else FInf (if Rlt_dec r 0 then true else false)
  end.

(** [v.template cast<NewScalar>()] of an Eigen vector. *)
Definition vec_cast (f : format) (v : list fp) : list fp := map (scalar_cast f) v.

(** Comparison [x < y] and [x <= y] of floating-point values. *)
Definition fp_ltb (x y : fp) : bool :=
  match x, y with
  | FNan, _ | _, FNan => false
  | FInf true, FInf true => false
  | FInf true, _ => true
  | FInf false, _ => false
  | FFin _, FInf n => negb n
  | FFin a, FFin b => if Rlt_dec a b then true else false
  end.

(** The differential model with its control: its control limits. *)
Record dmodel := { d_lb : list fp; d_ub : list fp }.

Inductive kind := Euler | RK2 | RK3 | RK4.

Record imodel := {
  i_diff : dmodel;
  i_kind : kind;
  i_dt : fp;
  i_wcr : bool;      (* with_cost_residual_ *)
  i_lb : list fp;    (* u_lb_ *)
  i_ub : list fp     (* u_ub_ *)
}.

(** integ-action-base.hxx:16-63: constructor and [init]; a negative time step
    is replaced by [Scalar(1e-3)].  [f] is the scalar type. *)
Definition integrated (f : format) (d : dmodel) (k : kind) (dt : fp) (wcr : bool) : imodel :=
  {| i_diff := d;
     i_kind := k;
     i_dt := if fp_ltb dt (FFin 0) then scalar_cast f (FFin (/ 1000)) else dt;
     i_wcr := wcr;
     i_lb := d_lb d;
     i_ub := d_ub d |}.

(** integ-action-base.hxx:124-131: [set_dt], which rejects negative steps. *)
Definition set_dt (dt : fp) (m : imodel) : option imodel :=
  if fp_ltb dt (FFin 0) then None
  else Some {| i_diff := i_diff m; i_kind := i_kind m; i_dt := dt;
               i_wcr := i_wcr m; i_lb := i_lb m; i_ub := i_ub m |}.

(** core/action-base.hxx:219-240: [set_u_lb] and [set_u_ub]. *)
Definition set_u_lb (v : list fp) (m : imodel) : option imodel :=
  if Nat.eqb (length v) (length (i_lb m)) then
    Some {| i_diff := i_diff m; i_kind := i_kind m; i_dt := i_dt m;
            i_wcr := i_wcr m; i_lb := v; i_ub := i_ub m |}
  else None.

Definition set_u_ub (v : list fp) (m : imodel) : option imodel :=
  if Nat.eqb (length v) (length (i_ub m)) then
    Some {| i_diff := i_diff m; i_kind := i_kind m; i_dt := i_dt m;
            i_wcr := i_wcr m; i_lb := i_lb m; i_ub := v |}
  else None.

Inductive iop := SetDt (dt : fp) | SetLb (v : list fp) | SetUb (v : list fp).

Definition iapply (o : iop) (m : imodel) : option imodel :=
  match o with
  | SetDt dt => set_dt dt m
  | SetLb v => set_u_lb v m
  | SetUb v => set_u_ub v m
  end.

(** A history of setter calls; a call that throws leaves the model as it was. *)
Fixpoint iruns (os : list iop) (m : imodel) : imodel :=
  match os with
  | [] => m
  | o :: os' => iruns os' (match iapply o m with Some m' => m' | None => m end)
  end.

(** The cast of a differential model that keeps its limits. *)
Definition diff_cast (f : format) (d : dmodel) : dmodel :=
  {| d_lb := vec_cast f (d_lb d); d_ub := vec_cast f (d_ub d) |}.

(** euler.hxx:161-174, rk.hxx:340-354. *)
Definition integrated_cast (f : format) (m : imodel) : imodel :=
  integrated f (diff_cast f (i_diff m)) (i_kind m) (scalar_cast f (i_dt m)) (i_wcr m).
