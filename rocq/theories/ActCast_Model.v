(** * Casting activation models

    The models of [Activation_Model] together with the factor [beta] their
    bounds were built with: constructors, setters and [cast]
    (/repo include/crocoddyl/core/activations: quadratic.hpp:66-71,
    weighted-quadratic.hpp:32-33 and 80-98, quadratic-barrier.hpp:27-83 and
    173-182, weighted-quadratic-barrier.hpp:37-39 and 84-103,
    smooth-1norm.hpp:56-67 and 117-123, smooth-2norm.hpp:53-59 and 106-112,
    2norm-barrier.hpp:62-69 and 135-147, quadratic-flat-log.hpp:56-62 and
    114-123, quadratic-flat-exp.hpp:57-63 and 116-125).

    Simplified: the scalar type is the same on both sides and scalars are
    reals (C129 treats the conversion of the numbers); bounds are finite (C39
    treats infinite ones); sizes are in the types. *)

From Coq Require Import Reals List Bool.
From Verif Require Import Deriv Activation_Model.
Import ListNotations.
Open Scope R_scope.

Section Cast.
Variable nr : nat.

(** An ActivationBounds object: its bounds and its factor. *)
Record bounds := Bnd { b_lb : vec; b_ub : vec; b_beta : R }.

(** quadratic-barrier.hpp:27-72: the constructor. *)
Definition mk_bounds (lb ub : vec) (beta : R) : option bounds :=
  if Rltb beta 0 || Rltb 1 beta then None
  else if forallb (fun i => Rleb (lb i) (ub i)) (seq 0 nr) then
    let mid := fun i => 1 / 2 * (lb i + ub i) in
    let half := fun i => 1 / 2 * (ub i - lb i) in
    Some (Bnd (fun i => mid i - beta * half i) (fun i => mid i + beta * half i) beta)
  else None.

(** An activation model; [m_beta] is the factor inside its bounds (1 for the
    models without bounds). *)
Record model := Model { m_act : activation; m_beta : R }.

(** What the user gives to a constructor. *)
Inductive args :=
| AQuad | AWeighted (w : vec) | ABarrier (lb ub : vec) (beta : R)
| AWeightedBarrier (lb ub : vec) (beta : R) (w : vec)
| ASmooth1 (eps : R) | ASmooth2 (eps : R) | ANorm (alpha : R) (th : bool)
| ALog (alpha : R) | AExp (alpha : R).

Definition guarded (x : R) (a : activation) : option model :=
  if Rltb x 0 then None else Some (Model a 1).

(** The constructors; [None] is an exception. *)
Definition make (a : args) : option model :=
  match a with
  | AQuad => Some (Model Quad 1)
  | AWeighted w => Some (Model (WeightedQuad w false) 1)
  | ABarrier lb ub beta =>
      match mk_bounds lb ub beta with
      | Some b => Some (Model (Barrier (b_lb b) (b_ub b)) (b_beta b))
      | None => None
      end
  | AWeightedBarrier lb ub beta w =>
      match mk_bounds lb ub beta with
      | Some b => Some (Model (WeightedBarrier (b_lb b) (b_ub b) w) (b_beta b))
      | None => None
      end
  | ASmooth1 eps => guarded eps (Smooth1Norm eps)
  | ASmooth2 eps => guarded eps (Smooth2Norm eps)
  | ANorm alpha th => guarded alpha (Norm2Barrier alpha th)
  | ALog alpha => guarded alpha (FlatLog alpha)
  | AExp alpha => guarded alpha (FlatExp alpha)
  end.

(** The setters.  set_alpha checks nothing. *)
Definition set_alpha (alpha : R) (m : model) : model :=
  match m_act m with
  | Norm2Barrier _ th => Model (Norm2Barrier alpha th) (m_beta m)
  | FlatLog _ => Model (FlatLog alpha) (m_beta m)
  | FlatExp _ => Model (FlatExp alpha) (m_beta m)
  | _ => m
  end.

(** set_bounds with a new ActivationBounds; if its construction throws, the
    setter is not called. *)
Definition set_bounds (lb ub : vec) (beta : R) (m : model) : model :=
  match mk_bounds lb ub beta with
  | None => m
  | Some b =>
      match m_act m with
      | Barrier _ _ => Model (Barrier (b_lb b) (b_ub b)) (b_beta b)
      | WeightedBarrier _ _ w => Model (WeightedBarrier (b_lb b) (b_ub b) w) (b_beta b)
      | _ => m
      end
  end.

(** What a user can do with a model; calcDiff may clear the new-weights
    flag. *)
Inductive mop :=
| OWeights (w : vec) | OAlpha (alpha : R) | OBounds (lb ub : vec) (beta : R)
| OCalcDiff (r : vec) (d : adata).

Definition mstep (m : model) (o : mop) : model :=
  match o with
  | OWeights w => Model (set_weights (m_act m) w) (m_beta m)
  | OAlpha a => set_alpha a m
  | OBounds lb ub beta => set_bounds lb ub beta m
  | OCalcDiff r d => Model (fst (calcDiff (m_act m) r d)) (m_beta m)
  end.

Definition mruns (m : model) (os : list mop) : model := fold_left mstep os m.

(** cast: the constructor applied to the stored settings; the bounds are cast
    by building them again with the stored factor (quadratic-barrier.hpp:77-83). *)
Definition act_cast (m : model) : option model :=
  make (match m_act m with
        | Quad => AQuad
        | WeightedQuad w _ => AWeighted w
        | Barrier lb ub => ABarrier lb ub (m_beta m)
        | WeightedBarrier lb ub w => AWeightedBarrier lb ub (m_beta m) w
        | Smooth1Norm eps => ASmooth1 eps
        | Smooth2Norm eps => ASmooth2 eps
        | Norm2Barrier alpha th => ANorm alpha th
        | FlatLog alpha => ALog alpha
        | FlatExp alpha => AExp alpha
        end).
End Cast.

(** calc and calcDiff on a data created by the model. *)
Definition fresh (nr : nat) (m : model) (r : vec) : adata :=
  snd (calcDiff (m_act m) r (calc nr (m_act m) r (createData (m_act m)))).
