(** Specification for the finite-difference properties, independent of NumDiff_Model. *)
From Coquelicot Require Import Coquelicot.
From Coq Require Import Reals Arith Bool.
From Verif Require Import Deriv VecMat.
Open Scope R_scope.

(** x with h added to its i-th coordinate *)
Definition shift (x : vec) (i : nat) (h : R) : vec := fun k => if Nat.eqb k i then x k + h else x k.

(** Difference quotients: forward, second order, and central in x_i and u_j. *)
Definition fd (F : vec -> R) (x : vec) (i : nat) (h : R) : R := (F (shift x i h) - F x) / h.
Definition fd2 (F : vec -> R) (x : vec) (i j : nat) (h : R) : R :=
  if Nat.eqb i j then (F (shift x i h) - 2 * F x + F (shift x i (- h))) / (h * h)
  else (F (shift (shift x i h) j h) - F (shift x i h) - F (shift x j h) + F x) / (h * h).
Definition fdm (F : vec -> vec -> R) (x u : vec) (i j : nat) (hx hu : R) : R :=
  ((F (shift x i hx) (shift u j hu) - F (shift x i hx) (shift u j (- hu)))
   - (F (shift x i (- hx)) (shift u j hu) - F (shift x i (- hx)) (shift u j (- hu)))) / ((2 * hx) * (2 * hu)).

(** Partial derivative of F at x, and mixed second derivative at the origin, continuous there. *)
Definition partial (F : vec -> R) (x : vec) (i : nat) (l : R) : Prop := is_derive (fun t => F (shift x i t)) 0 l.
Definition mixed_at (g : R -> R -> R) (l : R) : Prop := exists r (gs gst : R -> R -> R), 0 < r /\
  (forall s t, Rabs s < r -> Rabs t < r -> is_derive (fun s => g s t) s (gs s t) /\ is_derive (fun t => gs s t) t (gst s t)) /\
  (forall eps, 0 < eps -> exists d, 0 < d /\ forall s t, Rabs s < d -> Rabs t < d -> Rabs (gst s t - l) < eps).

(** Affine maps and quadratic costs *)
Record lq := Lq { qA : mat; qB : mat; qf : vec;        (* next state A x + B u + f *)
  qQ : mat; qN : mat; qR : mat; qq : vec; qr : vec; qc : R; (* cost *)
  qC : mat; qD : mat; qe : vec;                        (* constraints C x + D u + e *)
  qRx : mat; qRu : mat; qr0 : vec }.                   (* residual *)
Definition affine (nx nu : nat) (A B : mat) (f : vec) (x u : vec) : vec := fun i => mulv nx A x i + mulv nu B u i + f i.
Definition lq_cost (nx nu : nat) (p : lq) (x u : vec) : R :=
  dot nx x (mulv nx (qQ p) x) / 2 + dot nx x (mulv nu (qN p) u) + dot nu u (mulv nu (qR p) u) / 2
  + dot nx (qq p) x + dot nu (qr p) u + qc p.
(** the gradient of [lq_cost] *)
Definition lq_gx (nx nu : nat) (p : lq) (x u : vec) (i : nat) : R :=
  (mulv nx (qQ p) x i + mulv nx (tr (qQ p)) x i) / 2 + mulv nu (qN p) u i + qq p i.
Definition lq_gu (nx nu : nat) (p : lq) (x u : vec) (i : nat) : R :=
  (mulv nu (qR p) u i + mulv nu (tr (qR p)) u i) / 2 + mulv nx (tr (qN p)) x i + qr p i.
