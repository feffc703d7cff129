(** The bounds reported by a model that wraps another one.

    /repo include/crocoddyl/core/action-base.hxx:12-34 and 194-240 (bounds of the controls and
    of the inequality constraints, their setters; likewise diff-action-base.hxx), the wrappers
    core/numdiff/action.hxx:15-27, core/numdiff/diff-action.hxx:14-27,
    core/integ-action-base.hxx:16-57, 94-105 and 133-152, and core/codegen/action.hxx:16-67 and
    571-601.

    Simplified: the wrapped model stores its bounds itself, as models do that are not given a
    constraint container (for those see C133 and C134); the conversion of the control bounds by
    the control parametrization is a given function; the running nodes have at least as many
    inequalities as the terminal one.  A rejected setter changes nothing. *)
From Coq Require Import QArith List Bool Arith.
From Verif Require Import Common XFloat.
Import ListNotations.
Local Open Scope nat_scope.

Notation box := (list xf * list xf)%type.

(** The bounds held by a model: of the inequalities and of the controls. *)
Record bmodel := BModel { b_ng : nat; b_nu : nat; b_g : box; b_u : box }.

Definition unbounded (n : nat) : box := (repeat NInf n, repeat PInf n).
(** action-base.hxx:12-34 *)
Definition base (ng nu : nat) : bmodel := BModel ng nu (unbounded ng) (unbounded nu).

Inductive bset := GLb (l : list xf) | GUb (l : list xf) | ULb (l : list xf) | UUb (l : list xf).
(** action-base.hxx:194-240 *)
Definition bstep (b : bmodel) (o : bset) : bmodel :=
  match o with
  | GLb l => if length l =? b_ng b then BModel (b_ng b) (b_nu b) (l, snd (b_g b)) (b_u b) else b
  | GUb l => if length l =? b_ng b then BModel (b_ng b) (b_nu b) (fst (b_g b), l) (b_u b) else b
  | ULb l => if length l =? b_nu b then BModel (b_ng b) (b_nu b) (b_g b) (l, snd (b_u b)) else b
  | UUb l => if length l =? b_nu b then BModel (b_ng b) (b_nu b) (b_g b) (fst (b_u b), l) else b
  end.

(** The wrappers: numerical differentiation of an action and of a differential action, a
    code-generated action, and an integrated action with [nw] control parameters and the
    given conversion. *)
Inductive wkind := NumAction | NumDifferential | CodeGen | Integrated (nw : nat) (conv : box -> box).

(** A wrapper: the model inside and its own base class. *)
Record wrapper := Wrapper { w_in : bmodel; w_own : bmodel }.

Definition wrap (k : wkind) (b : bmodel) : wrapper :=
  match k with
  | NumAction => Wrapper b (BModel (b_ng b) (b_nu b) (unbounded (b_ng b)) (b_u b))
  | NumDifferential => Wrapper b (base (b_ng b) (b_nu b))
  | CodeGen => Wrapper b (base (b_ng b) (b_nu b))
  | Integrated nw conv => Wrapper b (BModel (b_ng b) nw (unbounded (b_ng b)) (conv (b_u b)))
  end.

(** get_g_lb and get_g_ub: the integrated and the code-generated models ask the model inside
    (integ-action-base.hxx:94-105, codegen/action.hxx:591-601). *)
Definition get_g (k : wkind) (w : wrapper) : box :=
  match k with Integrated _ _ | CodeGen => b_g (w_in w) | _ => b_g (w_own w) end.
Definition get_u (k : wkind) (w : wrapper) : box := b_u (w_own w).

(** Setters called on the model inside or on the wrapper. *)
Inductive wop := Inside (o : bset) | Outside (o : bset).
Definition wstep (w : wrapper) (o : wop) : wrapper :=
  match o with
  | Inside o => Wrapper (bstep (w_in w) o) (w_own w)
  | Outside o => Wrapper (w_in w) (bstep (w_own w) o)
  end.
Definition wruns (w : wrapper) (os : list wop) : wrapper := fold_left wstep os w.

(** set_differential of an integrated model (integ-action-base.hxx:133-152).  The number of
    inputs of the control parametrization is that of the model first wrapped (27-32).  The
    bounds of the inequalities held by the base class keep their old size. *)
Definition set_differential (conv : box -> box) (b : bmodel) (w : wrapper) : option wrapper :=
  if b_nu b =? b_nu (w_in w)
  then Some (Wrapper b (BModel (b_ng (w_own w)) (b_nu (w_own w)) (b_g (w_own w)) (conv (b_u b))))
  else None.
