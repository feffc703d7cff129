(** Solver parameters and their setters.
    Models the setters of src/core/solver-base.cpp:416-474, src/core/solvers/ddp.cpp:514-606,
    src/core/solvers/fddp.cpp (set_th_acceptnegstep), src/core/solvers/intro.cpp:443-458 and
    src/core/solvers/box-qp.cpp:219-259. *)
From Coq Require Import QArith List Bool.
From Verif Require Import Common XFloat.
Import ListNotations.
Local Open Scope Q_scope.

(** The scalar parameters. *)
Inductive key :=
| Preg | Dreg | ThAcceptStep | ThStop | ThGapTol                       (* SolverAbstract *)
| RegInc | RegDec | RegMin | RegMax | ThGrad | ThStepDec | ThStepInc   (* SolverDDP *)
| ThAcceptNegStep                                                      (* SolverFDDP *)
| Rho                                                                  (* SolverIntro *)
| QpThAcceptStep | QpThGrad | QpReg.                                   (* BoxQP *)

Scheme Equality for key.

(** Values of the parameters: scalars, [alphas_] of the solver and of the QP. *)
Record params := Params { p_val : key -> xf; p_alphas : list xf; p_qp_alphas : list xf }.

Definition put (k : key) (v : xf) (p : params) : params :=
  Params (fun k' => if key_beq k k' then v else p_val p k') (p_alphas p) (p_qp_alphas p).

(** The tests that make a setter throw. *)
Definition negative (v : xf) : bool := xlt v (Fin 0).                       (* v < 0. *)
Definition not_above1 (v : xf) : bool := xle v (Fin 1).                     (* v <= 1. *)
Definition not_positive (v : xf) : bool := xle v (Fin 0).                   (* v <= 0. *)
Definition outside01 (v : xf) : bool := xle v (Fin 0) || xlt (Fin 1) v.     (* 0 >= v || v > 1 *)
Definition never05 (v : xf) : bool := xle v (Fin 0) && xle (Fin (1 # 2)) v. (* 0 >= v && v >= 0.5 *)

(** [set_alphas], ddp.cpp:566-583 and box-qp.cpp:243-260: the loop from [i = 1]. *)
Fixpoint alphas_loop (prev : xf) (l : list xf) : bool :=
  match l with
  | [] => true
  | a :: r => if xle a (Fin 0) then false
              else if xle prev a then false
              else alphas_loop a r
  end.

(** Calls a user can make. *)
Inductive pcall :=
| SetPreg (v : xf) | SetDreg (v : xf) | SetXreg (v : xf) | SetUreg (v : xf)
| SetThAcceptStep (v : xf) | SetThStop (v : xf) | SetThGapTol (v : xf)
| SetRegInc (v : xf) | SetRegDec (v : xf) | SetRegFactor (v : xf)
| SetRegMin (v : xf) | SetRegMax (v : xf)
| SetAlphas (l : list xf)
| SetThStepDec (v : xf) | SetThStepInc (v : xf) | SetThGrad (v : xf)
| SetThAcceptNegStep (v : xf) | SetRho (v : xf)
| SetQpThAcceptStep (v : xf) | SetQpThGrad (v : xf) | SetQpReg (v : xf)
| SetQpAlphas (l : list xf).

Definition guarded (bad : bool) (new old : params) : outcome params unit :=
  if bad then Throw old else Ok new tt.

Definition pstep (c : pcall) (p : params) : outcome params unit :=
  match c with
  | SetPreg v => guarded (negative v) (put Preg v p) p              (* solver-base.cpp:416 *)
  | SetDreg v => guarded (negative v) (put Dreg v p) p              (* solver-base.cpp:423 *)
  | SetXreg v => guarded (negative v) (put Preg v p) p              (* solver-base.cpp:431, also sets xreg_ *)
  | SetUreg v => guarded (negative v) (put Preg v p) p              (* solver-base.cpp:441, also sets ureg_ *)
  | SetThAcceptStep v => guarded (outside01 v) (put ThAcceptStep v p) p  (* solver-base.cpp:450 *)
  | SetThStop v => guarded (not_positive v) (put ThStop v p) p      (* solver-base.cpp:458 *)
  | SetThGapTol v => guarded (negative v) (put ThGapTol v p) p      (* solver-base.cpp:465 *)
  | SetRegInc v => guarded (not_above1 v) (put RegInc v p) p        (* ddp.cpp:514 *)
  | SetRegDec v => guarded (not_above1 v) (put RegDec v p) p        (* ddp.cpp:522 *)
  | SetRegFactor v => guarded (not_above1 v) (put RegDec v (put RegInc v p)) p (* ddp.cpp:530 *)
  | SetRegMin v => guarded (negative v) (put RegMin v p) p          (* ddp.cpp:538, 545 *)
  | SetRegMax v => guarded (negative v) (put RegMax v p) p          (* ddp.cpp:552, 559 *)
  | SetAlphas l =>                                                  (* ddp.cpp:566; alphas[0] on an empty vector *)
      match l with
      | [] => UB
      | a :: r => guarded (negb (alphas_loop a r)) (Params (p_val p) l (p_qp_alphas p)) p
      end
  | SetThStepDec v => guarded (outside01 v) (put ThStepDec v p) p   (* ddp.cpp:585 *)
  | SetThStepInc v => guarded (outside01 v) (put ThStepInc v p) p   (* ddp.cpp:593 *)
  | SetThGrad v => guarded (negative v) (put ThGrad v p) p          (* ddp.cpp:601 *)
  | SetThAcceptNegStep v => guarded (negative v) (put ThAcceptNegStep v p) p (* fddp.cpp *)
  | SetRho v => guarded (outside01 v) (put Rho v p) p               (* intro.cpp:449 *)
  | SetQpThAcceptStep v => guarded (never05 v) (put QpThAcceptStep v p) p (* box-qp.cpp:219 *)
  | SetQpThGrad v => guarded (negative v) (put QpThGrad v p) p      (* box-qp.cpp:227 *)
  | SetQpReg v => guarded (negative v) (put QpReg v p) p            (* box-qp.cpp:235 *)
  | SetQpAlphas l =>                                                (* box-qp.cpp:243 *)
      match l with
      | [] => UB
      | a :: r => guarded (negb (alphas_loop a r)) (Params (p_val p) (p_alphas p) l) p
      end
  end.

Fixpoint prun (cs : list pcall) (p : params) : option params :=
  match cs with
  | [] => Some p
  | c :: r => match out_state (pstep c p) with Some p' => prun r p' | None => None end
  end.

(** Defaults: solver-base.cpp:37-43, ddp.cpp:14-37 ([th_stepinc_] stays 0.01 because the
    last alpha is 1/512), fddp.cpp:19, intro.cpp:17; the QP values are those of the box
    solvers, box-ddp.cpp:14-17. *)
Definition half_powers : list xf :=
  map (fun n => Fin (1 # Pos.pow 2 n)) [1; 2; 3; 4; 5; 6; 7; 8; 9]%positive.
Definition default_alphas : list xf := Fin 1 :: half_powers.
Definition default_params : params :=
  Params (fun k => match k with
    | Preg | Dreg => Fin 0
    | ThAcceptStep => Fin (1 # 10) | ThStop => Fin (1 # 1000000000)
    | ThGapTol => Fin (1 # 10000000000000000)
    | RegInc | RegDec => Fin 10
    | RegMin => Fin (1 # 1000000000) | RegMax => Fin 1000000000
    | ThGrad => Fin (1 # 1000000000000) | ThStepDec => Fin (1 # 2) | ThStepInc => Fin (1 # 100)
    | ThAcceptNegStep => Fin 2 | Rho => Fin (3 # 10)
    | QpThAcceptStep => Fin (1 # 10) | QpThGrad => Fin (1 # 100000) | QpReg => Fin 0
    end) default_alphas default_alphas.
