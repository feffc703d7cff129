(** Finite differences: ActionModelNumDiff (include/crocoddyl/core/numdiff/action.hxx,
    action.hpp), DifferentialActionModelNumDiff (numdiff/diff-action.hxx, same formulas with
    xout instead of xnext), ActivationModelNumDiff (numdiff/activation.hxx) and StateNumDiff
    (numdiff/state.hxx).  Release builds: the Hessian loops are inside #ifdef NDEBUG.

    Simplifications: Euclidean state (integrate is x + dx, diff is x1 - x0); one constraint
    vector [con] stands for both g and h; the wrapped model is a record of functions of (x, u),
    i.e. its calc does not depend on the previous content of its data; arguments have the right
    size. *)
From Coq Require Import Reals List Arith Bool.
From Verif Require Import Deriv VecMat.
Import ListNotations.
Open Scope R_scope.

(** for (i = a; i < a + n; ++i) *)
Definition for_ {S : Type} (a n : nat) (f : nat -> S -> S) (s : S) : S := fold_left (fun s i => f i s) (seq a n) s.
(** v(i) = c *)
Definition setv (i : nat) (c : R) (v : vec) : vec := fun j => if Nat.eqb j i then c else v j.
(** M(i, j) = c and M.col(j) = v *)
Definition setm (i j : nat) (c : R) (M : mat) : mat := fun i' j' => if Nat.eqb i' i && Nat.eqb j' j then c else M i' j'.
Definition setcol (j : nat) (v : vec) (M : mat) : mat := fun i' j' => if Nat.eqb j' j then v i' else M i' j'.
Definition vplus (a b : vec) : vec := fun i => a i + b i.
Definition vminus (a b : vec) : vec := fun i => a i - b i.
Definition zerov : vec := fun _ => 0.
Definition norm (n : nat) (v : vec) : R := sqrt (dot n v v).

(** What calc of the wrapped model computes, with and without a control. *)
Record outs := Outs { o_next : vec; o_cost : R; o_con : vec; o_res : vec }.
Record nmodel := NModel { n_calc : vec -> vec -> outs; n_calcT : vec -> outs }.

(** e_jac_, e_hess_, with_gauss_approx_ *)
Record nconf := NConf { e_jac : R; e_hess : R; gauss : bool }.
(** action.hxx:15-27; [eps] is the machine epsilon *)
Definition nd_create (eps : R) (g : bool) : nconf := let j := sqrt (2 * eps) in NConf j (sqrt (2 * j)) g.
(** action.hxx:354-361; [None] is the exception *)
Definition nd_set_disturbance (d : R) (c : nconf) : option nconf :=
  if Rlt_dec d 0 then None else Some (NConf d (sqrt (2 * d)) (gauss c)).
(** action.hxx:335-341: the new wrapper has the default disturbance and no Gauss approximation
    (default argument of the constructor, action.hpp:65-66) *)
Definition nd_cast (eps : R) (c : nconf) : nconf := nd_create eps false.

Record ndata := NData {
  nd_next : vec; nd_cost : R; nd_con : vec;
  nd_Fx : mat; nd_Fu : mat; nd_Lx : vec; nd_Lu : vec; nd_Lxx : mat; nd_Lxu : mat; nd_Luu : mat; nd_Gx : mat; nd_Gu : mat;
  nd_Rx : mat; nd_Ru : mat; nd_dx : vec; nd_du : vec; nd_0 : outs (* data_0 *) }.

Section NumDiff.
Variables (nx nu nr : nat) (m : nmodel) (cf : nconf).

(** action.hxx:43-48, 60-65 *)
Definition store0 (o : outs) (d : ndata) : ndata :=
  NData (o_next o) (o_cost o) (o_con o) (nd_Fx d) (nd_Fu d) (nd_Lx d) (nd_Lu d) (nd_Lxx d) (nd_Lxu d) (nd_Luu d) (nd_Gx d) (nd_Gu d)
    (nd_Rx d) (nd_Ru d) (nd_dx d) (nd_du d) o.
Definition nd_calc (x u : vec) (d : ndata) : ndata := store0 (n_calc m x u) d.
Definition nd_calcT (x : vec) (d : ndata) : ndata := store0 (n_calcT m x) d.

(** The loops below are written for a function [f] of the disturbance, which is the wrapped
    calc at (integrate(x, dx), u), (x, u + du) or integrate(x, dx). *)
Section Loops.
Variables (n : nat) (f : vec -> outs) (o0 : outs) (g0 : vec) (h : R).

(** action.hxx:107-122, 127-141 and 264-277; state: disturbance, F, L, R, G *)
Definition jac_step (i : nat) (s : vec * mat * vec * mat * mat) :=
  let '(dx, F, L, Rr, G) := s in
  let dx := setv i h dx in
  let o := f dx in
  let F := setcol i (vminus (o_next o) (o_next o0)) F in
  let L := setv i ((o_cost o - o_cost o0) / h) L in
  let Rr := if gauss cf then setcol i (fun k => (o_res o k - o_res o0 k) / h) Rr else Rr in
  let G := setcol i (fun k => (o_con o k - g0 k) / h) G in
  (setv i 0 dx, F, L, Rr, G).
Definition jac_loop (dx : vec) (F : mat) (L : vec) (Rr G : mat) := for_ 0 n jac_step (dx, F, L, Rr, G).

(** action.hxx:148-176, 181-205 and 283-312; state: disturbance, Hessian.  [f (- dx)] is the
    evaluation at integrate(x, -dx) or at u - du. *)
Definition hess_inner (i : nat) (cp : R) (j : nat) (s : vec * mat) : vec * mat :=
  let '(dx, H) := s in
  let dx := setv j h dx in
  let cpp := o_cost (f dx) in
  let dx := setv i 0 dx in
  let czp := o_cost (f dx) in
  let e := (cpp - czp - cp + o_cost o0) / (h * h) in
  let H := setm j i e (setm i j e H) in
  let dx := setv i h dx in
  (setv j 0 dx, H).
Definition hess_step (i : nat) (s : vec * mat) : vec * mat :=
  let '(dx, H) := s in
  let dx := setv i h dx in
  let cp := o_cost (f dx) in
  let cm := o_cost (f (fun k => - dx k)) in
  let H := setm i i ((cp - 2 * o_cost o0 + cm) / (h * h)) H in
  let '(dx, H) := for_ (i + 1) (n - (i + 1)) (hess_inner i cp) (dx, H) in
  (setv i 0 dx, H).
Definition hess_loop (dx : vec) (H : mat) : vec * mat := for_ 0 n hess_step (dx, H).
End Loops.

(** action.hxx:208-227; state: dx, du, Lxu *)
Definition mixed_step (x u : vec) (hx hu : R) (i j : nat) (s : vec * vec * mat) : vec * vec * mat :=
  let '(dx, du, H) := s in
  let dx := setv i hx dx in
  let du := setv j hu du in
  let xp := vplus x dx in
  let cpp := o_cost (n_calc m xp (vplus u du)) in
  let cpm := o_cost (n_calc m xp (vminus u du)) in
  let xm := vplus x (fun k => - dx k) in
  let cmp := o_cost (n_calc m xm (vplus u du)) in
  let cmm := o_cost (n_calc m xm (vminus u du)) in
  (setv i 0 dx, setv j 0 du, setm i j ((cpp - cpm - cmp + cmm) / (4 * hx * hu)) H).
Definition mixed_loop (x u : vec) (hx hu : R) (s : vec * vec * mat) : vec * vec * mat :=
  for_ 0 nx (fun i s => for_ 0 nu (fun j s => mixed_step x u hx hu i j s) s) s.

Definition divm (M : mat) (h : R) : mat := fun i j => M i j / h.

(** action.hxx:82-234 *)
Definition nd_calcDiff (x u : vec) (d : ndata) : ndata :=
  let o0 := nd_0 d in
  let g0 := nd_con d in
  let x_norm := norm nx x in
  let xh_jac := e_jac cf * Rmax 1 x_norm in
  let fx := fun dx => n_calc m (vplus x dx) u in
  let fu := fun du => n_calc m x (vplus u du) in
  let '(dx, Fx, Lx, Rx, Gx) := jac_loop nx fx o0 g0 xh_jac zerov (nd_Fx d) (nd_Lx d) (nd_Rx d) (nd_Gx d) in
  let Fx := divm Fx xh_jac in
  let uh_jac := e_jac cf * Rmax 1 (norm nu u) in
  let '(du, Fu, Lu, Ru, Gu) := jac_loop nu fu o0 g0 uh_jac zerov (nd_Fu d) (nd_Lu d) (nd_Ru d) (nd_Gu d) in
  let Fu := divm Fu uh_jac in
  let xh_hess := e_hess cf * Rmax 1 x_norm in
  let '(dx, Lxx) := hess_loop nx fx o0 xh_hess dx (nd_Lxx d) in
  let uh_hess := e_hess cf * Rmax 1 (norm nu u) in
  let '(du, Luu) := hess_loop nu fu o0 uh_hess du (nd_Luu d) in
  let '(dx, du, Lxu) := mixed_loop x u xh_hess uh_hess (dx, du, nd_Lxu d) in
  let '(Lxx, Lxu, Luu) :=
    if gauss cf then (mulm nr (tr Rx) Rx, mulm nr (tr Rx) Ru, mulm nr (tr Ru) Ru) else (Lxx, Lxu, Luu) in
  NData (o_next o0) (o_cost o0) (nd_con d) Fx Fu Lx Lu Lxx Lxu Luu Gx Gu Rx Ru dx du o0.

(** action.hxx:246-317; [jac_loop] also computes the difference of next states, which this
    overload does not: it is discarded *)
Definition nd_calcDiffT (x : vec) (d : ndata) : ndata :=
  let o0 := nd_0 d in
  let g0 := nd_con d in
  let x_norm := norm nx x in
  let xh_jac := e_jac cf * Rmax 1 x_norm in
  let fx := fun dx => n_calcT m (vplus x dx) in
  let '(dx, _, Lx, Rx, Gx) := jac_loop nx fx o0 g0 xh_jac zerov (nd_Fx d) (nd_Lx d) (nd_Rx d) (nd_Gx d) in
  let xh_hess := e_hess cf * Rmax 1 x_norm in
  let '(dx, Lxx) := hess_loop nx fx o0 xh_hess dx (nd_Lxx d) in
  let Lxx := if gauss cf then mulm nr (tr Rx) Rx else Lxx in
  NData (o_next o0) (o_cost o0) (nd_con d) (nd_Fx d) (nd_Fu d) Lx (nd_Lu d) Lxx (nd_Lxu d) (nd_Luu d) Gx (nd_Gu d)
    Rx (nd_Ru d) dx (nd_du d) o0.
End NumDiff.

(** ** Activation (numdiff/activation.hxx:22-64); [a] is the wrapped activation. *)
Record adata := AData { ad_value : R; ad_Ar : vec; ad_Arr : vec (* diagonal *); ad_0 : R }.
Definition act_calc (a : vec -> R) (r : vec) (d : adata) : adata := AData (a r) (ad_Ar d) (ad_Arr d) (a r).
Definition act_step (a : vec -> R) (h a0 : R) (i : nat) (s : vec * vec) : vec * vec :=
  let '(rp, Ar) := s in
  let rp := setv i (rp i + h) rp in
  let v := a rp in
  let rp := setv i (rp i - h) rp in
  (rp, setv i ((v - a0) / h) Ar).
Definition act_calcDiff (nr : nat) (e : R) (a : vec -> R) (r : vec) (d : adata) : adata :=
  let h := e * Rmax 1 (norm nr r) in
  let '(_, Ar) := for_ 0 nr (act_step a h (ad_0 d)) (r, ad_Ar d) in
  AData (ad_0 d) Ar (fun i => Ar i * Ar i) (ad_0 d).

(** ** State (numdiff/state.hxx:77-206) around a Euclidean state of dimension [n], with
    arguments of the right size; the disturbance vector is zero again after each loop, so the two
    loops of one call are modelled separately.  The AssignmentOp argument of Jintegrate is ignored. *)
Section StateND.
Variables (n : nat) (e : R).
Definition sdiffE (x0 x1 : vec) : vec := vminus x1 x0.
Definition sintE (x dx : vec) : vec := vplus x dx.
(** state.hxx:99-119 *)
Definition nd_Jdiff_first (x0 x1 : vec) : mat :=
  let h := e * Rmax 1 (norm n x0) in
  let dx0 := sdiffE x0 x1 in
  let '(_, J) := for_ 0 n (fun i s => let '(dx, J) := s in
      let dx := setv i h dx in
      (setv i 0 dx, setcol i (vminus (sdiffE (sintE x0 dx) x1) dx0) J)) (zerov, fun _ _ => 0) in
  divm J h.
(** state.hxx:120-139 *)
Definition nd_Jdiff_second (x0 x1 : vec) : mat :=
  let h := e * Rmax 1 (norm n x1) in
  let dx0 := sdiffE x0 x1 in
  let '(_, J) := for_ 0 n (fun i s => let '(dx, J) := s in
      let dx := setv i h dx in
      (setv i 0 dx, setcol i (vminus (sdiffE x0 (sintE x1 dx)) dx0) J)) (zerov, fun _ _ => 0) in
  divm J h.
(** state.hxx:167-187; [J0] is the previous content *)
Definition nd_Jint_first (x dx : vec) (op : assign_op) (J0 : mat) : mat :=
  let h := e * Rmax 1 (norm n x) in
  let x0 := sintE x dx in
  let '(_, J) := for_ 0 n (fun i s => let '(d, J) := s in
      let d := setv i h d in
      (setv i 0 d, setcol i (sdiffE x0 (sintE (sintE x d) dx)) J)) (zerov, fun _ _ => 0) in
  divm J h.
(** state.hxx:188-205 *)
Definition nd_Jint_second (x dx : vec) (op : assign_op) (J0 : mat) : mat :=
  let h := e * Rmax 1 (norm n dx) in
  let x0 := sintE x dx in
  let '(_, J) := for_ 0 n (fun i s => let '(d, J) := s in
      let d := setv i h d in
      (setv i 0 d, setcol i (sdiffE x0 (sintE x (vplus dx d))) J)) (zerov, fun _ _ => 0) in
  divm J h.
End StateND.
