(** Finite-difference wrappers of the parts of a problem: ResidualModelNumDiff
    (include/crocoddyl/core/numdiff/residual.hxx), CostModelNumDiff (numdiff/cost.hxx),
    ConstraintModelNumDiff (numdiff/constraint.hxx), ActuationModelNumDiff
    (numdiff/actuation.hxx), ControlParametrizationModelNumDiff (numdiff/control.hxx) and
    ContactModelNumDiff (include/crocoddyl/multibody/numdiff/contact.hxx).

    The state is any manifold: [X] with [integrate]; [xnorm x] is the norm of diff(zero, x) and
    [xraw x] the norm of the coordinates of x.  [E] is the data shared between models (the data
    collector and the Pinocchio data behind it): the calc of a wrapped residual, cost,
    constraint or contact may read it, the reevaluation functions given to set_reevals write it.
    A control is [Some u], and [None] in the overloads without control.

    Simplifications: the calc of a wrapped model does not depend on the previous content of its
    own data, and does not write the shared data; arguments have the right size; vectors and
    matrices carry no size (the resize calls of constraint.hxx:82-85 and :140-141 keep sizes). *)
From Coq Require Import Reals List Arith Bool.
From Verif Require Import Deriv VecMat NumDiff_Model.
Import ListNotations.
Open Scope R_scope.

Section FinDiff.
Variables (X E : Type) (integrate : X -> vec -> X) (xnorm xraw : X -> R) (ndx nu : nat).

Definition reeval := X -> option vec -> E -> E.
(** for (i...) reevals_[i](xp, u) *)
Definition reevaluate (rs : list reeval) (x : X) (u : option vec) (e : E) : E := fold_left (fun e r => r x u e) rs e.

(** One loop of a calcDiff: [n] directions, [f] runs the reevaluation functions and the wrapped
    calc at the disturbed point, [wr] writes the column. *)
Definition dir_step {O J : Type} (f : vec -> E -> O * E) (wr : nat -> O -> J -> J) (h : R) (i : nat) (s : vec * E * J) : vec * E * J :=
  let '(dx, e, j) := s in
  let dx := setv i h dx in
  let '(o, e) := f dx e in
  (setv i 0 dx, e, wr i o j).
Definition dir_loop {O J : Type} (n : nat) f (wr : nat -> O -> J -> J) h (e : E) (j : J) : E * J :=
  let '(_, e, j) := for_ 0 n (dir_step f wr h) (zerov, e, j) in (e, j).

(** the disturbed evaluations *)
Section Eval.
Context {O : Type}.
Variables (rs : list reeval) (calc : E -> X -> option vec -> O).
Definition at_x (x : X) (u : option vec) (dx : vec) (e : E) : O * E :=
  let xp := integrate x dx in
  let e := reevaluate rs xp u e in
  (calc e xp u, e).
Definition at_u (x : X) (u : vec) (du : vec) (e : E) : O * E :=
  let up := Some (vplus u du) in
  let e := reevaluate rs x up e in
  (calc e x up, e).
End Eval.

Definition qcol (h : R) (v v0 : vec) : vec := fun k => (v k - v0 k) / h.

(** ** Residuals *)
Section Residual.
Variables (rs : list reeval) (calc : E -> X -> option vec -> vec).
(** residual.hpp:197-213; [rd_xh] is xh_jac, which the constructor does not initialise *)
Record rdata := RData { rd_r : vec; rd_Rx : mat; rd_Ru : mat; rd_xh : option R }.
Definition rd_create : rdata := RData zerov (fun _ _ => 0) (fun _ _ => 0) None.
(** residual.hxx:19-36 *)
Definition rd_calc (e : E) (x : X) (u : option vec) (d : rdata) : rdata := RData (calc e x u) (rd_Rx d) (rd_Ru d) (rd_xh d).
(** residual.hxx:38-80 *)
Definition rd_calcDiff (ej : R) (e : E) (x : X) (u : vec) (d : rdata) : E * rdata :=
  let r0 := rd_r d in
  let xh := ej * Rmax 1 (xnorm x) in
  let '(e, Rx) := dir_loop ndx (at_x rs calc x (Some u)) (fun i o => setcol i (qcol xh o r0)) xh e (rd_Rx d) in
  let uh := ej * Rmax 1 (norm nu u) in
  let '(e, Ru) := dir_loop nu (at_u rs calc x u) (fun i o => setcol i (qcol uh o r0)) uh e (rd_Ru d) in
  (e, RData r0 Rx Ru (Some xh)).
(** residual.hxx:82-105: the step is the one that is in the data; [None] is a read of an
    uninitialised scalar *)
Definition rd_calcDiffT (e : E) (x : X) (d : rdata) : option (E * rdata) :=
  match rd_xh d with
  | None => None
  | Some xh =>
    let r0 := rd_r d in
    let '(e, Rx) := dir_loop ndx (at_x rs calc x None) (fun i o => setcol i (qcol xh o r0)) xh e (rd_Rx d) in
    Some (e, RData r0 Rx (rd_Ru d) (Some xh))
  end.
End Residual.

(** ** Costs *)
(** what the wrapped calc publishes: the cost and its residual *)
Record cout := COut { c_cost : R; c_res : vec }.
Section Cost.
Variables (nr : nat) (rs : list reeval) (calc : E -> X -> option vec -> cout) (arr : vec -> mat).
(** cost.hpp:218-241; [arr r] is the Hessian Arr of the activation after its calc and calcDiff at r
    (data_0->activation, cost.hxx:51-54, 116-119) *)
Record cdata := CData { cd_cost : R; cd_r : vec; cd_Lx : vec; cd_Lu : vec; cd_Rx : mat; cd_Ru : mat; cd_Lxx : mat; cd_Lxu : mat; cd_Luu : mat }.
(** cost.hxx:185-188 *)
Definition with_gauss : bool := Nat.ltb 0 nr.
(** cost.hxx:21-42 *)
Definition cd_calc (e : E) (x : X) (u : option vec) (d : cdata) : cdata :=
  let o := calc e x u in
  CData (c_cost o) (c_res o) (cd_Lx d) (cd_Lu d) (cd_Rx d) (cd_Ru d) (cd_Lxx d) (cd_Lxu d) (cd_Luu d).
(** cost.hxx:72-75, 89-92 *)
Definition wr_cost (h c0 : R) (r0 : vec) (i : nat) (o : cout) (j : vec * mat) : vec * mat :=
  (setv i ((c_cost o - c0) / h) (fst j), if with_gauss then setcol i (qcol h (c_res o) r0) (snd j) else snd j).
Definition quad (A : mat) (B C : mat) : mat := mulm nr (tr B) (mulm nr A C).
Definition zerom : mat := fun _ _ => 0.
(** cost.hxx:44-106 *)
Definition cd_calcDiff (ej : R) (e : E) (x : X) (u : vec) (d : cdata) : E * cdata :=
  let c0 := cd_cost d in
  let r0 := cd_r d in
  let A := arr r0 in
  let xh := ej * Rmax 1 (xnorm x) in
  let '(e, (Lx, Rx)) := dir_loop ndx (at_x rs calc x (Some u)) (wr_cost xh c0 r0) xh e (cd_Lx d, cd_Rx d) in
  let uh := ej * Rmax 1 (norm nu u) in
  let '(e, (Lu, Ru)) := dir_loop nu (at_u rs calc x u) (wr_cost uh c0 r0) uh e (cd_Lu d, cd_Ru d) in
  let '(Lxx, Lxu, Luu) := if with_gauss then (quad A Rx Rx, quad A Rx Ru, quad A Ru Ru) else (zerom, zerom, zerom) in
  (e, CData c0 r0 Lx Lu Rx Ru Lxx Lxu Luu).
(** cost.hxx:108-146 (the step is scaled with the norm of the coordinates, line 125) *)
Definition cd_calcDiffT (ej : R) (e : E) (x : X) (d : cdata) : E * cdata :=
  let c0 := cd_cost d in
  let r0 := cd_r d in
  let A := arr r0 in
  let xh := ej * Rmax 1 (xraw x) in
  let '(e, (Lx, Rx)) := dir_loop ndx (at_x rs calc x None) (wr_cost xh c0 r0) xh e (cd_Lx d, cd_Rx d) in
  let Lxx := if with_gauss then quad A Rx Rx else zerom in
  (e, CData c0 r0 Lx (cd_Lu d) Rx (cd_Ru d) Lxx (cd_Lxu d) (cd_Luu d)).
End Cost.

(** ** Constraints *)
Record gh := GH { gh_g : vec; gh_h : vec }.
Section Constraint.
Variables (rs : list reeval) (calc : E -> X -> option vec -> gh).
Record kdata := KData { kd_g : vec; kd_h : vec; kd_Gx : mat; kd_Gu : mat; kd_Hx : mat; kd_Hu : mat }.
(** constraint.hxx:20-58 *)
Definition kd_calc (e : E) (x : X) (u : option vec) (d : kdata) : kdata :=
  let o := calc e x u in KData (gh_g o) (gh_h o) (kd_Gx d) (kd_Gu d) (kd_Hx d) (kd_Hu d).
Definition wr_gh (h : R) (g0 h0 : vec) (i : nat) (o : gh) (j : mat * mat) : mat * mat :=
  (setcol i (qcol h (gh_g o) g0) (fst j), setcol i (qcol h (gh_h o) h0) (snd j)).
(** constraint.hxx:60-124 *)
Definition kd_calcDiff (ej : R) (e : E) (x : X) (u : vec) (d : kdata) : E * kdata :=
  let xh := ej * Rmax 1 (xnorm x) in
  let '(e, (Gx, Hx)) := dir_loop ndx (at_x rs calc x (Some u)) (wr_gh xh (kd_g d) (kd_h d)) xh e (kd_Gx d, kd_Hx d) in
  let uh := ej * Rmax 1 (norm nu u) in
  let '(e, (Gu, Hu)) := dir_loop nu (at_u rs calc x u) (wr_gh uh (kd_g d) (kd_h d)) uh e (kd_Gu d, kd_Hu d) in
  (e, KData (kd_g d) (kd_h d) Gx Gu Hx Hu).
(** constraint.hxx:126-163 *)
Definition kd_calcDiffT (ej : R) (e : E) (x : X) (d : kdata) : E * kdata :=
  let xh := ej * Rmax 1 (xnorm x) in
  let '(e, (Gx, Hx)) := dir_loop ndx (at_x rs calc x None) (wr_gh xh (kd_g d) (kd_h d)) xh e (kd_Gx d, kd_Hx d) in
  (e, KData (kd_g d) (kd_h d) Gx (kd_Gu d) Hx (kd_Hu d)).
End Constraint.

(** ** Contacts *)
(** what the wrapped calc and updateForce publish *)
Record tout := TOut { t_a0 : vec; t_Jc : mat }.
Section Contact.
Variables (rs : list reeval) (calc : E -> X -> tout) (force : E -> vec -> vec).
(** the wrapper's own a0, Jc, f and da0_dx, and the f of its data_0 *)
Record tdata := TData { td_a0 : vec; td_Jc : mat; td_f : vec; td_da0 : mat; td_f0 : vec }.
Definition td_create : tdata := TData zerov (fun _ _ => 0) zerov (fun _ _ => 0) zerov.
(** contact.hxx:22-28 *)
Definition td_calc (e : E) (x : X) (d : tdata) : tdata := TData (t_a0 (calc e x)) (td_Jc d) (td_f d) (td_da0 d) (td_f0 d).
(** contact.hxx:30-57; the reevaluation functions receive a zero control of the right size *)
Definition td_calcDiff (ej : R) (e : E) (x : X) (d : tdata) : E * tdata :=
  let xh := ej * Rmax 1 (xnorm x) in
  let '(e, da) := dir_loop ndx (fun dx e => let xp := integrate x dx in let e := reevaluate rs xp (Some zerov) e in (calc e xp, e))
                    (fun i o => setcol i (qcol xh (t_a0 o) (td_a0 d))) xh e (td_da0 d) in
  (e, TData (td_a0 d) (td_Jc d) (td_f d) da (td_f0 d)).
(** contact.hxx:59-71; [force e l] is the spatial force that the wrapped updateForce stores *)
Definition td_updateForce (e : E) (l : vec) (d : tdata) : tdata := TData (td_a0 d) (td_Jc d) (td_f d) (td_da0 d) (force e l).
End Contact.
End FinDiff.
Arguments td_create : clear implicits.

(** ** Actuations and control parametrizations: no shared data *)
Section NoShared.
Variables (X : Type) (integrate : X -> vec -> X) (xnorm : X -> R) (ndx nu : nat).
Section Actuation.
Variables (calc : X -> option vec -> vec).
(** the wrapper's tau and Jacobians, and the tau of its data_0 *)
Record adata := AData { ad_tau : vec; ad_dx : mat; ad_du : mat; ad_tau0 : vec }.
(** actuation.hxx:21-52 *)
Definition ad_calc (x : X) (u : option vec) (d : adata) : adata := let t := calc x u in AData t (ad_dx d) (ad_du d) t.
(** actuation.hxx:54-93 *)
Definition ad_calcDiff (ej : R) (x : X) (u : vec) (d : adata) : adata :=
  let t0 := ad_tau0 d in
  let xh := ej * Rmax 1 (xnorm x) in
  let '(_, Jx) := dir_loop unit ndx (fun dx e => (calc (integrate x dx) (Some u), e)) (fun i o => setcol i (qcol xh o t0)) xh tt (ad_dx d) in
  let uh := ej * Rmax 1 (norm nu u) in
  let '(_, Ju) := dir_loop unit nu (fun du e => (calc x (Some (vplus u du)), e)) (fun i o => setcol i (qcol uh o t0)) uh tt (ad_du d) in
  AData (ad_tau d) Jx Ju t0.
(** actuation.hxx:95-120 *)
Definition ad_calcDiffT (ej : R) (x : X) (d : adata) : adata :=
  let t0 := ad_tau0 d in
  let xh := ej * Rmax 1 (xnorm x) in
  let '(_, Jx) := dir_loop unit ndx (fun dx e => (calc (integrate x dx) None, e)) (fun i o => setcol i (qcol xh o t0)) xh tt (ad_dx d) in
  AData (ad_tau d) Jx (ad_du d) t0.
End Actuation.

Section Control.
Variables (calc : R -> vec -> vec).
(** the wrapper's w and dw_du, and the w of its data_0 *)
Record wdata := WData { wd_w : vec; wd_dw : mat; wd_w0 : vec }.
Definition wd_create : wdata := WData zerov (fun _ _ => 0) zerov.
(** control.hxx:21-26 *)
Definition wd_calc (t : R) (u : vec) (d : wdata) : wdata := WData (wd_w d) (wd_dw d) (calc t u).
(** control.hxx:28-44 *)
Definition wd_calcDiff (ej : R) (t : R) (u : vec) (d : wdata) : wdata :=
  let w := wd_w0 d in
  let uh := ej * Rmax 1 (norm nu u) in
  let '(_, J) := dir_loop unit nu (fun du e => (calc t (vplus u du), e)) (fun i o => setcol i (vminus o w)) uh tt (wd_dw d) in
  WData w (divm J uh) (wd_w0 d).
End Control.
End NoShared.
