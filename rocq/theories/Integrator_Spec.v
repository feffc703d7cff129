(** Specification for C31-C33 and C63: derivatives along curves, the semi-implicit Euler map,
    explicit Runge-Kutta methods given by a tableau. *)
From Coquelicot Require Import Coquelicot.
From Coq Require Import Reals List Arith Lia Lra.
From Verif Require Import Deriv VecMat ControlParam_Model ControlParam_Spec Integrator_Model.
Import ListNotations.
Open Scope R_scope.

(** [Jx], [Ju] are the derivatives of the q first components of [f] at (x, u). *)
Definition deriv2 (n m q : nat) (f : vec -> vec -> vec) (x u : vec) (Jx Ju : mat) : Prop :=
  forall (cx cu : R -> vec) (s : R) (vx vu : vec),
    (forall j, (j < n)%nat -> cx s j = x j) -> (forall j, (j < m)%nat -> cu s j = u j) ->
    (forall j, (j < n)%nat -> is_derive (fun t => cx t j) s (vx j)) ->
    (forall j, (j < m)%nat -> is_derive (fun t => cu t j) s (vu j)) ->
    forall i, (i < q)%nat -> is_derive (fun t => f (cx t) (cu t) i) s
      (rsum n (fun j => Jx i j * vx j) + rsum m (fun j => Ju i j * vu j)).

(** The differential model's derivatives are exact at (x, w). *)
Definition exact_at (nv nw nc : nat) (dm : diffmodel) (x w : vec) : Prop :=
  deriv2 (2 * nv) nw nv (acc dm) x w (dFx dm x w) (dFu dm x w) /\
  deriv2 (2 * nv) nw 1 (fun x w _ => lcost dm x w) x w (fun _ => dLx dm x w) (fun _ => dLu dm x w) /\
  deriv2 (2 * nv) nw nc (con dm) x w (dGx dm x w) (dGu dm x w).

(** The model reads only the components of its arguments that exist. *)
Definition local_model (nv nw : nat) (dm : diffmodel) : Prop :=
  forall x x' w w', (forall i, (i < 2 * nv)%nat -> x i = x' i) -> (forall i, (i < nw)%nat -> w i = w' i) ->
    acc dm x w = acc dm x' w' /\ lcost dm x w = lcost dm x' w'.

(** Semi-implicit Euler. *)
Definition euler_next (nv : nat) (h : R) (a x : vec) : vec := fun i =>
  if i <? nv then x i + h * x (nv + i)%nat + h * h * a i else x i + h * a (i - nv)%nat.

(** Explicit Runge-Kutta method with [length cs] stages: rows of the strictly lower triangular
    matrix, weights, nodes. *)
Record tableau := Tableau { ta : list (list R); tb : list R; tc : list R }.
Fixpoint wsum (l : list R) (ks : list vec) (j : nat) : R :=
  match l, ks with a :: l', k :: ks' => a * k j + wsum l' ks' j | _, _ => 0 end.
(** [f c y] is the right-hand side at the node [c]; stages in order. *)
Fixpoint erk_stages (f : R -> vec -> vec) (h : R) (x : vec) (rows : list (list R)) (cs : list R) (ks : list vec) : list vec :=
  match rows, cs with
  | r :: rows', c :: cs' =>
      erk_stages f h x rows' cs' (ks ++ [f c (fun j => x j + h * wsum r ks j)])
  | _, _ => ks
  end.
Definition erk_step (T : tableau) (f : R -> vec -> vec) (h : R) (x : vec) : vec :=
  fun j => x j + h * wsum (tb T) (erk_stages f h x (ta T) (tc T) []) j.

(** The points where the right-hand side is evaluated. *)
Fixpoint erk_points (f : R -> vec -> vec) (h : R) (x : vec) (rows : list (list R)) (cs : list R) (ks : list vec) : list vec :=
  match rows, cs with
  | r :: rows', c :: cs' =>
      let y := fun j => x j + h * wsum r ks j in y :: erk_points f h x rows' cs' (ks ++ [f c y])
  | _, _ => []
  end.

(** Midpoint rule, Heun's third-order method, the classical fourth-order method. *)
Definition tab (rk : rktype) : tableau :=
  match rk with
  | two => Tableau [[]; [1 / 2]] [0; 1] [0; 1 / 2]
  | three => Tableau [[]; [1 / 3]; [0; 2 / 3]] [1 / 4; 0; 3 / 4] [0; 1 / 3; 2 / 3]
  | four => Tableau [[]; [1 / 2]; [0; 1 / 2]; [0; 0; 1]] [1 / 6; 1 / 3; 1 / 3; 1 / 6] [0; 1 / 2; 1 / 2; 1]
  end.
Definition order_of (rk : rktype) : nat := match rk with two => 2 | three => 3 | four => 4 end.

(** Butcher's order conditions up to order 4 (nodes consistent with the rows). *)
Definition lsum := fold_right Rplus 0.
Fixpoint ldot (l m : list R) : R := match l, m with a :: l', b :: m' => a * b + ldot l' m' | _, _ => 0 end.
Fixpoint lmul (l m : list R) : list R := match l, m with a :: l', b :: m' => a * b :: lmul l' m' | _, _ => [] end.
Definition aapp (T : tableau) (v : list R) : list R := map (fun r => ldot r v) (ta T).
Definition order_conditions (T : tableau) (q : nat) : Prop :=
  let b := tb T in let c := tc T in
  map lsum (ta T) = c /\
  ((1 <= q)%nat -> lsum b = 1) /\
  ((2 <= q)%nat -> ldot b c = 1 / 2) /\
  ((3 <= q)%nat -> ldot b (lmul c c) = 1 / 3 /\ ldot b (aapp T c) = 1 / 6) /\
  ((4 <= q)%nat -> ldot b (lmul c (lmul c c)) = 1 / 4 /\ ldot b (lmul c (aapp T c)) = 1 / 8 /\
             ldot b (aapp T (lmul c c)) = 1 / 12 /\ ldot b (aapp T (aapp T c)) = 1 / 24).

(** Cost accumulated by the quadrature rule of the tableau. *)
Definition erk_cost (T : tableau) (f : R -> vec -> vec) (l : R -> vec -> R) (h : R) (x : vec) : R :=
  h * ldot (tb T) (map (fun cy => l (fst cy) (snd cy)) (combine (tc T) (erk_points f h x (ta T) (tc T) []))).

(** Truncated exponential series applied to a linear map. *)
Definition taylor (F : vec -> vec) (h : R) (q : nat) (x : vec) (j : nat) : R :=
  rsum (S q) (fun k => h ^ k / INR (fact k) * Nat.iter k F x j).
Definition linear_map (F : vec -> vec) : Prop :=
  forall x y c, F (fun j => x j + c * y j) = fun i => F x i + c * F y i.

(** Positive semi-definite Hessian blocks with a symmetric state block. *)
Definition quad (n m : nat) (Qxx Qxu Quu : mat) (a b : vec) : R :=
  dot n a (mulv n Qxx a) + 2 * dot n a (mulv m Qxu b) + dot m b (mulv m Quu b).
Definition psd_blocks (n m : nat) (Qxx Qxu Quu : mat) : Prop := forall a b, 0 <= quad n m Qxx Qxu Quu a b.
Definition sym (n : nat) (Q : mat) : Prop := forall i j, (i < n)%nat -> (j < n)%nat -> Q i j = Q j i.
