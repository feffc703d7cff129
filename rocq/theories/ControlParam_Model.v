(** Control parametrizations (include/crocoddyl/core/controls/poly-zero.hxx, poly-one.hxx,
    poly-two-rk.hxx).  Vectors and matrices are functions of the indices, so the dimension
    checks that throw are in the arguments: u has [np p nw] entries, w has [nw]. *)
From Coq Require Import Reals List Arith Bool.
From Verif Require Import Deriv VecMat.
Import ListNotations.
Open Scope R_scope.

(** RKType (include/crocoddyl/core/integrator/rk.hpp:18) *)
Inductive rktype := two | three | four.
Inductive param := PolyZero | PolyOne | PolyTwoRK (rk : rktype).

(** Number of control parameters: the constructors. *)
Definition np (p : param) (nw : nat) : nat :=
  match p with PolyZero => nw | PolyOne => 2 * nw | PolyTwoRK _ => 3 * nw end.

(** The data (control-base.hpp:215-234, poly-one.hpp:170-192, poly-two-rk.hpp:184-204). *)
Record cpdata := CPData { cp_w : vec; cp_u : vec; dw_du : mat; cc : vec }.

(** createData: poly-zero.hxx:44-51 sets the identity, the others leave zero. *)
Definition cp_create (p : param) : cpdata :=
  CPData (fun _ => 0) (fun _ => 0)
    (match p with PolyZero => idm | _ => fun _ _ => 0 end) (fun _ => 0).

Section Control.
Variable p : param.
Variable nw : nat.

(** The coefficients written by calc: poly-one.hxx:27-28, poly-two-rk.hxx:36-53.  RK2 prints a
    message and leaves them. *)
Definition coeffs (t : R) (c : vec) : vec :=
  match p with
  | PolyZero => c
  | PolyOne =>
      let c1 := 2 * t in let c0 := 1 - c1 in
      fun k => match k with O => c0 | 1%nat => c1 | _ => c k end
  | PolyTwoRK two => c
  | PolyTwoRK three =>
      let t2 := t * t in
      let c2 := 45 / 10 * t2 - 15 / 10 * t in
      let c1 := - 9 * t2 + 6 * t in
      let c0 := 45 / 10 * (t2 - t) + 1 in
      fun k => match k with O => c0 | 1%nat => c1 | 2%nat => c2 | _ => c k end
  | PolyTwoRK four =>
      let t2 := t * t in
      let c2 := 2 * t2 - t in
      let c1 := - 2 * c2 + 2 * t in
      let c0 := c2 - 2 * t + 1 in
      fun k => match k with O => c0 | 1%nat => c1 | 2%nat => c2 | _ => c k end
  end.

(** calc: poly-zero.hxx:18-27, poly-one.hxx:18-30, poly-two-rk.hxx:24-55 *)
Definition cp_calc (t : R) (u : vec) (d : cpdata) : cpdata :=
  let (w, u0, J, c) := d in
  let c' := coeffs t c in
  match p with
  | PolyZero => CPData u u0 J c
  | PolyOne => CPData (fun i => c' 0%nat * u i + c' 1%nat * u (np p nw - nw + i)%nat) u0 J c'
  | PolyTwoRK _ =>
      CPData (fun i => c' 2%nat * u (np p nw - nw + i)%nat + c' 1%nat * u (nw + i)%nat + c' 0%nat * u i) u0 J c'
  end.

(** Writing [x] on the diagonal of the [nw] columns starting at [off]. *)
Definition set_diag (off : nat) (x : R) (J : mat) : mat :=
  fun i j => if (i <? nw) && Nat.eqb j (off + i) then x else J i j.

(** calcDiff: poly-zero.hxx:30-42 (constant), poly-one.hxx:33-39, poly-two-rk.hxx:58-65 *)
Definition cp_calcDiff (d : cpdata) : cpdata :=
  let (w, u0, J, c) := d in
  match p with
  | PolyZero => d
  | PolyOne => CPData w u0 (set_diag (np p nw - nw) (c 1%nat) (set_diag 0 (c 0%nat) J)) c
  | PolyTwoRK _ =>
      CPData w u0 (set_diag (np p nw - nw) (c 2%nat) (set_diag nw (c 1%nat) (set_diag 0 (c 0%nat) J))) c
  end.

(** params: poly-zero.hxx:54-63, poly-one.hxx:48-58, poly-two-rk.hxx:74-85.  Entries outside
    the dimension do not exist. *)
Definition cp_params (w : vec) (d : cpdata) : cpdata :=
  let (w0, u0, J, c) := d in
  CPData w0
    (match p with
     | PolyZero => w
     | PolyOne => fun i => if i <? nw then w i else w (i - nw)%nat
     | PolyTwoRK _ => fun i => if i <? nw then w i else if i <? 2 * nw then w (i - nw)%nat else w (i - 2 * nw)%nat
     end) J c.

(** convertBounds, one of the two vectors: poly-zero.hxx:66-92, poly-one.hxx:61-89,
    poly-two-rk.hxx:88-118 *)
Definition cp_convert (b : vec) : vec :=
  match p with
  | PolyZero => b
  | PolyOne => fun i => if i <? nw then b i else b (i - nw)%nat
  | PolyTwoRK _ => fun i => if i <? nw then b i else if i <? 2 * nw then b (i - nw)%nat else b (i - 2 * nw)%nat
  end.

(** multiplyByJacobian: poly-zero.hxx:95-124, poly-one.hxx:92-125, poly-two-rk.hxx:121-157 *)
Definition mulJ (d : cpdata) (A out : mat) (op : assign_op) : mat :=
  match p with
  | PolyZero => fun i j => assign op (out i j) (A i j)
  | PolyOne => fun i j =>
      if j <? nw then assign op (out i j) (cc d 0%nat * A i j)
      else assign op (out i j) (cc d 1%nat * A i (j - nw)%nat)
  | PolyTwoRK _ => fun i j =>
      if j <? nw then assign op (out i j) (cc d 0%nat * A i j)
      else if j <? 2 * nw then assign op (out i j) (cc d 1%nat * A i (j - nw)%nat)
      else assign op (out i j) (cc d 2%nat * A i (j - 2 * nw)%nat)
  end.

(** multiplyJacobianTransposeBy: poly-zero.hxx:127-157, poly-one.hxx:128-161,
    poly-two-rk.hxx:160-197 *)
Definition mulJT (d : cpdata) (A out : mat) (op : assign_op) : mat :=
  match p with
  | PolyZero => fun i j => assign op (out i j) (A i j)
  | PolyOne => fun i j =>
      if i <? nw then assign op (out i j) (cc d 0%nat * A i j)
      else assign op (out i j) (cc d 1%nat * A (i - nw)%nat j)
  | PolyTwoRK _ => fun i j =>
      if i <? nw then assign op (out i j) (cc d 0%nat * A i j)
      else if i <? 2 * nw then assign op (out i j) (cc d 1%nat * A (i - nw)%nat j)
      else assign op (out i j) (cc d 2%nat * A (i - 2 * nw)%nat j)
  end.

(** Histories of calls on one data. *)
Inductive cpop := CCalc (t : R) (u : vec) | CDiff | CParams (w : vec).
Definition cp_step (d : cpdata) (o : cpop) : cpdata :=
  match o with CCalc t u => cp_calc t u d | CDiff => cp_calcDiff d | CParams w => cp_params w d end.
Definition cp_run (l : list cpop) : cpdata := fold_left cp_step l (cp_create p).
End Control.
