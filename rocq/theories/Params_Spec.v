(** Specification for C11: the ranges announced by the setters. *)
From Coq Require Import QArith List Bool Sorted.
From Verif Require Import Common XFloat Params_Model.
Import ListNotations.
Local Open Scope Q_scope.

(** Being a number in an interval (NaN is in none). *)
Definition nonneg (v : xf) : Prop := xle (Fin 0) v = true.
Definition positive (v : xf) : Prop := xlt (Fin 0) v = true.
Definition above1 (v : xf) : Prop := xlt (Fin 1) v = true.
Definition unit_open (v : xf) : Prop := xlt (Fin 0) v = true /\ xle v (Fin 1) = true.
Definition half_open (v : xf) : Prop := xlt (Fin 0) v = true /\ xlt v (Fin (1 # 2)) = true.

Definition in_range (k : key) (v : xf) : Prop :=
  match k with
  | Preg | Dreg | ThGapTol | RegMin | RegMax | ThGrad | ThAcceptNegStep | QpThGrad | QpReg => nonneg v
  | ThStop => positive v
  | RegInc | RegDec => above1 v
  | ThAcceptStep | ThStepDec | ThStepInc | Rho => unit_open v
  | QpThAcceptStep => half_open v
  end.

(** Step lengths: positive and strictly decreasing. *)
Definition alphas_ok (l : list xf) : Prop :=
  l <> [] /\ Forall positive l /\ StronglySorted (fun a b => xlt b a = true) l.

Definition params_ok (p : params) : Prop :=
  (forall k, in_range k (p_val p k)) /\ alphas_ok (p_alphas p) /\ alphas_ok (p_qp_alphas p).

(** The parameters a call writes, with the value. *)
Definition writes (c : pcall) : list (key * xf) :=
  match c with
  | SetPreg v | SetXreg v | SetUreg v => [(Preg, v)]
  | SetDreg v => [(Dreg, v)]
  | SetThAcceptStep v => [(ThAcceptStep, v)]
  | SetThStop v => [(ThStop, v)]
  | SetThGapTol v => [(ThGapTol, v)]
  | SetRegInc v => [(RegInc, v)]
  | SetRegDec v => [(RegDec, v)]
  | SetRegFactor v => [(RegInc, v); (RegDec, v)]
  | SetRegMin v => [(RegMin, v)]
  | SetRegMax v => [(RegMax, v)]
  | SetThStepDec v => [(ThStepDec, v)]
  | SetThStepInc v => [(ThStepInc, v)]
  | SetThGrad v => [(ThGrad, v)]
  | SetThAcceptNegStep v => [(ThAcceptNegStep, v)]
  | SetRho v => [(Rho, v)]
  | SetQpThAcceptStep v => [(QpThAcceptStep, v)]
  | SetQpThGrad v => [(QpThGrad, v)]
  | SetQpReg v => [(QpReg, v)]
  | SetAlphas _ | SetQpAlphas _ => []
  end.
Definition writes_alphas (c : pcall) : option (list xf) :=
  match c with SetAlphas l => Some l | _ => None end.
Definition writes_qp_alphas (c : pcall) : option (list xf) :=
  match c with SetQpAlphas l => Some l | _ => None end.

(** The arguments for which the setters keep their promise: no NaN, a first step
    length that is positive, a QP acceptance threshold already in its range. *)
Definition sane (c : pcall) : Prop :=
  (forall k v, In (k, v) (writes c) ->
     is_nan v = false /\ (k = QpThAcceptStep -> in_range k v)) /\
  (forall l, writes_alphas c = Some l \/ writes_qp_alphas c = Some l ->
     exists a r, l = a :: r /\ positive a /\ Forall (fun v => is_nan v = false) r).

(** The arguments are in range. *)
Definition args_ok (c : pcall) : Prop :=
  (forall k v, In (k, v) (writes c) -> in_range k v) /\
  (forall l, writes_alphas c = Some l \/ writes_qp_alphas c = Some l -> alphas_ok l).
