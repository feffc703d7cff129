(** Actuation models: SquashingModelSmoothSat (include/crocoddyl/core/actuation/squashing/
    smooth-sat.hpp), ActuationSquashingModel (core/actuation/actuation-squashing.hpp, over
    core/actuation-base.hxx), ActuationModelFull and ActuationModelFloatingBase
    (multibody/actuations/full.hpp, floating-base.hpp), ActuationModelFloatingBaseThrusters
    (multibody/actuations/floating-base-thrusters.hpp).

    Release build (the assertions of calcDiff and torqueTransform are removed).  The number of
    coordinates of the root joint is a parameter. *)
From Coq Require Import Reals List Arith Bool.
From Verif Require Import Deriv VecMat.
Import ListNotations.
Open Scope R_scope.

(** ** Squashing; the bounds are finite. *)
Record squash := Squash { s_ulb : vec; s_uub : vec; s_slb : vec; s_sub : vec; s_smooth : R; s_d : vec; s_a : vec }.
(** smooth-sat.hpp:30-44, 82-93; [None] is the exception *)
Definition sq_d (lb ub : vec) (smooth : R) : vec := fun i => (ub i - lb i) * smooth.
Definition sq_create (lb ub : vec) : squash :=
  let d := sq_d lb ub (1 / 10) in Squash lb ub lb ub (1 / 10) d (fun i => d i * d i).
Definition sq_set_smooth (smooth : R) (m : squash) : option squash :=
  if Rlt_dec smooth 0 then None
  else let d := sq_d (s_ulb m) (s_uub m) smooth in
    Some (Squash (s_ulb m) (s_uub m) (s_ulb m) (s_uub m) smooth d (fun i => d i * d i)).
(** smooth-sat.hpp:48-57 *)
Definition sq_calc (m : squash) (s : vec) : vec := fun i =>
  5 / 10 * (sqrt ((s i - s_ulb m i) ^ 2 + s_a m i) - sqrt ((s i - s_uub m i) ^ 2 + s_a m i) + s_ulb m i + s_uub m i).
(** smooth-sat.hpp:59-71.  pow(0, -0.5) is infinite and is multiplied by 0: [None] is that NaN. *)
Definition inv_sqrt_times (y z : R) : option R := if Req_EM_T y 0 then None else Some (/ sqrt y * z).
Definition sq_calcDiff (m : squash) (s : vec) (i : nat) : option R :=
  match inv_sqrt_times (s_a m i + (s i - s_ulb m i) ^ 2) (s i - s_ulb m i), inv_sqrt_times (s_a m i + (s i - s_uub m i) ^ 2) (s i - s_uub m i) with
  | Some p, Some q => Some (5 / 10 * (p - q))
  | _, _ => None
  end.

(** ** Actuation data (actuation-base.hpp:170-212) *)
Record actdata := ActData { t_tau : vec; t_u : vec; t_dx : mat; t_du : mat; t_M : mat; t_set : nat -> bool }.
Definition actdata0 : actdata := ActData (fun _ => 0) (fun _ => 0) (fun _ _ => 0) (fun _ _ => 0) (fun _ _ => 0) (fun _ => true).
Definition with_tau (v : vec) (d : actdata) := ActData v (t_u d) (t_dx d) (t_du d) (t_M d) (t_set d).
Definition with_u (v : vec) (d : actdata) := ActData (t_tau d) v (t_dx d) (t_du d) (t_M d) (t_set d).

(** ** Floating base with [nfb] base coordinates and [nu] joints; nv = nfb + nu. *)
Section FloatingBase.
Variables (nfb nu : nat).
(** floating-base.hpp:136-157: unit diagonals at offsets -nfb and nfb *)
Definition fb_create : actdata :=
  ActData (fun _ => 0) (fun _ => 0) (fun _ _ => 0) (fun i j => if (i =? j + nfb)%nat then 1 else 0)
    (fun i j => if (j =? i + nfb)%nat then 1 else 0) (fun i => negb (i <? nfb)%nat).
(** floating-base.hpp:74-83, 92-105: tau.tail(nu) = u, nothing in calcDiff *)
Definition fb_calc (u : vec) (d : actdata) : actdata := with_tau (fun i => if (i <? nfb)%nat then t_tau d i else u (i - nfb)%nat) d.
Definition fb_calcDiff (u : vec) (d : actdata) : actdata := d.
(** floating-base.hpp:107-116 *)
Definition fb_commands (tau : vec) (d : actdata) : actdata := with_u (fun i => tau (nfb + i)%nat) d.
Inductive fbcall := FbCalc (u : vec) | FbDiff (u : vec) | FbCommands (tau : vec).
Definition fb_step (d : actdata) (c : fbcall) : actdata :=
  match c with FbCalc u => fb_calc u d | FbDiff u => fb_calcDiff u d | FbCommands t => fb_commands t d end.
Definition fb_run (cs : list fbcall) : actdata := fold_left fb_step cs fb_create.
End FloatingBase.

(** ** Full actuation (full.hpp): nu = nv *)
Definition full_create : actdata := ActData (fun _ => 0) (fun _ => 0) (fun _ _ => 0) idm idm (fun _ => true).
Definition full_calc (u : vec) (d : actdata) : actdata := with_tau u d.
Definition full_commands (tau : vec) (d : actdata) : actdata := with_u tau d.
Definition full_step (d : actdata) (c : fbcall) : actdata :=
  match c with FbCalc u => full_calc u d | FbDiff u => d | FbCommands t => full_commands t d end.
Definition full_run (cs : list fbcall) : actdata := fold_left full_step cs full_create.

(** ** Squashed actuation.  The wrapped actuation is given by what it computes: tau(x, u) and its
    Jacobians; one squashing model of dimension [nu]. *)
Record amap := AMap { am_tau : vec -> vec -> vec; am_dx : vec -> vec -> mat; am_du : vec -> vec -> mat; am_set : nat -> bool }.
Record sqdata := SqData { q_out : actdata; q_in : actdata; q_squ : vec; q_ds : nat -> option R }.
Section SquashedActuation.
Variables (nx nv nu : nat) (am : amap) (sm : squash) (pinv : mat -> mat).
(** actuation-squashing.hpp:43-52 *)
Definition sa_calc (x u : vec) (d : sqdata) : sqdata :=
  let s := sq_calc sm u in
  let i := ActData (am_tau am x s) (t_u (q_in d)) (t_dx (q_in d)) (t_du (q_in d)) (t_M (q_in d)) (am_set am) in
  SqData (ActData (t_tau i) (t_u (q_out d)) (t_dx (q_out d)) (t_du (q_out d)) (t_M (q_out d)) (t_set i)) i s (q_ds d).
(** actuation-squashing.hpp:54-62; a NaN in du_ds makes the product NaN: [None] *)
Fixpoint all_some (n : nat) (f : nat -> option R) : bool :=
  match n with O => true | S n => all_some n f && (if f n then true else false) end.
Definition valopt (o : option R) : R := match o with Some v => v | None => 0 end.
Definition sa_calcDiff (x u : vec) (d : sqdata) : option sqdata :=
  let ds := sq_calcDiff sm u in
  let i := ActData (t_tau (q_in d)) (t_u (q_in d)) (am_dx am x (q_squ d)) (am_du am x (q_squ d)) (t_M (q_in d)) (t_set (q_in d)) in
  if all_some nu ds then
    Some (SqData (ActData (t_tau (q_out d)) (t_u (q_out d)) (t_dx (q_out d)) (fun r c => t_du i r c * valopt (ds c)) (t_M (q_out d)) (t_set (q_out d)))
            i (q_squ d) ds)
  else None.
(** actuation-squashing.hpp:64-74 with actuation-base.hxx:35-51; sizes of x and tau as arguments;
    [None] is an exception (or the NaN above) *)
Definition sa_commands (szx sztau : nat) (x tau : vec) (d : sqdata) : option sqdata :=
  if negb (sztau =? nv)%nat then None
  else if negb (szx =? nx)%nat then None
  else if negb (sztau =? nu)%nat then None
  else match sa_calcDiff x tau (sa_calc x tau d) with
  | None => None
  | Some d => let M := pinv (t_du (q_out d)) in
      Some (SqData (ActData (t_tau (q_out d)) (mulv nv M tau) (t_dx (q_out d)) (t_du (q_out d)) M (t_set (q_out d))) (q_in d) (q_squ d) (q_ds d))
  end.
Definition sa_create : sqdata := SqData actdata0 actdata0 (fun _ => 0) (fun _ => Some 0).
End SquashedActuation.

(** ** Thrusters *)
(** floating-base-thrusters.hpp:37-45: [th_fz] is the z axis of the pose, [th_p] its translation *)
Record thruster := Thruster { th_fz : vec; th_p : vec; th_c : R; th_cw : bool }.
Definition cross (a b : vec) : vec := fun i =>
  match i with
  | 0%nat => a 1%nat * b 2%nat - a 2%nat * b 1%nat
  | 1%nat => a 2%nat * b 0%nat - a 0%nat * b 2%nat
  | _ => a 0%nat * b 1%nat - a 1%nat * b 0%nat
  end.
Record thmodel := ThModel { m_thr : list thruster; m_n : nat; m_W : mat; m_Mtau : mat; m_upd : bool }.
Section Thrusters.
(** [nj] joints besides the root joint (6 coordinates), [n] thrusters; [pinv] is pseudoInverse *)
Variables (nj n : nat) (pinv : mat -> mat).
(** floating-base-thrusters.hpp:305-319: one thruster on column i *)
Definition add_thruster (i : nat) (p : thruster) (W : mat) : mat := fun r c =>
  if (c =? i)%nat then
    if (r <? 3)%nat then W r c + th_fz p r
    else if (r <? 6)%nat then
      let W1 := W r c + cross (th_p p) (th_fz p) (r - 3)%nat in
      if th_cw p then W1 + th_c p * th_fz p (r - 3)%nat else W1 - th_c p * th_fz p (r - 3)%nat
    else W r c
  else W r c.
Fixpoint add_thrusters (i : nat) (ps : list thruster) (W : mat) : mat :=
  match ps with [] => W | p :: ps => add_thrusters (S i) ps (add_thruster i p W) end.
(** floating-base-thrusters.hpp:297-325 *)
Definition th_set (ps : list thruster) (m : thmodel) : option thmodel :=
  if negb (length ps =? m_n m)%nat then None
  else let W := add_thrusters 0 ps (m_W m) in Some (ThModel ps (m_n m) W (pinv W) true).
(** floating-base-thrusters.hpp:160-189: the joint part is the bottom right corner *)
Definition th_W0 : mat := fun r c => if (6 <=? r)%nat && (n <=? c)%nat && (r - 6 =? c - n)%nat then 1 else 0.
Definition th_create (ps : list thruster) : option thmodel := th_set ps (ThModel ps (length ps) th_W0 (fun _ _ => 0) true).

Record thdata := ThData { td_tau : vec; td_du : mat; td_M : mat }.
Record thworld := ThWorld { w_model : thmodel; w_datas : list thdata }.
(** floating-base-thrusters.hpp:353-361 *)
Definition updateData (m : thmodel) (d : thdata) : thdata := ThData (td_tau d) (m_W m) (m_Mtau m).
Definition clean (m : thmodel) : thmodel := ThModel (m_thr m) (m_n m) (m_W m) (m_Mtau m) false.
Fixpoint upd {A} (k : nat) (a : A) (l : list A) : list A :=
  match l, k with [], _ => [] | _ :: l, O => a :: l | b :: l, S k => b :: upd k a l end.
Inductive thcall := TCreate | TSet (ps : list thruster) | TCalc (k : nat) (u : vec).
(** createData 260-265, set_thrusters, calc 200-212; [None]: exception or unknown data *)
Definition th_step (w : thworld) (c : thcall) : option thworld :=
  match c with
  | TCreate => Some (ThWorld (clean (w_model w)) (w_datas w ++ [updateData (w_model w) (ThData (fun _ => 0) (fun _ _ => 0) (fun _ _ => 0))]))
  | TSet ps => match th_set ps (w_model w) with None => None | Some m => Some (ThWorld m (w_datas w)) end
  | TCalc k u =>
      match nth_error (w_datas w) k with
      | None => None
      | Some d =>
          let '(m, d) := if m_upd (w_model w) then (clean (w_model w), updateData (w_model w) d) else (w_model w, d) in
          Some (ThWorld m (upd k (ThData (mulv (n + nj) (td_du d) u) (td_du d) (td_M d)) (w_datas w)))
      end
  end.
Fixpoint th_run (cs : list thcall) (w : thworld) : option thworld :=
  match cs with [] => Some w | c :: cs => match th_step w c with None => None | Some w => th_run cs w end end.
End Thrusters.
