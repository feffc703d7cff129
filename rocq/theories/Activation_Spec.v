(** Specification for C36-C38: the activation functions as documented, gradients along every
    differentiable curve and diagonal second derivatives. *)
From Coq Require Import Reals List.
From Coquelicot Require Import Coquelicot.
From Verif Require Import Deriv Activation_Model.
Open Scope R_scope.

(** The documented values. *)
Definition sq (x : R) := x * x.
Definition excess (lb ub x : R) : R := Rmax 0 (x - ub) + Rmax 0 (lb - x).
Definition value (n : nat) (m : activation) (r : vec) : R :=
  match m with
  | Quad => rsum n (fun i => sq (r i) / 2)
  | WeightedQuad w _ => rsum n (fun i => w i * sq (r i) / 2)
  | Barrier lb ub => rsum n (fun i => sq (excess (lb i) (ub i) (r i)) / 2)
  | WeightedBarrier lb ub w => rsum n (fun i => sq (w i * excess (lb i) (ub i) (r i)) / 2)
  | Smooth1Norm eps => rsum n (fun i => sqrt (sq (r i) + eps))
  | Smooth2Norm eps => sqrt (rsum n (fun i => sq (r i)) + eps)
  | Norm2Barrier alpha _ => sq (Rmax 0 (alpha - sqrt (rsum n (fun i => sq (r i))))) / 2
  | FlatLog alpha => ln (1 + rsum n (fun i => sq (r i)) / alpha)
  | FlatExp alpha => 1 - exp (- (rsum n (fun i => sq (r i))) / alpha)
  end.

(** [g] is the gradient of [f] at [r]: the chain rule holds along every curve through [r]
    whose components are differentiable. *)
Definition gradient_at (n : nat) (f : vec -> R) (r g : vec) : Prop :=
  forall (c : R -> vec) (t : R) (v : vec),
    (forall i, (i < n)%nat -> c t i = r i) ->
    (forall i, (i < n)%nat -> is_derive (fun s => c s i) t (v i)) ->
    is_derive (fun s => f (c s)) t (rsum n (fun i => g i * v i)).

(** [h] is the diagonal of the second derivative of [f] at [r]. *)
Definition setv (r : vec) (i : nat) (x : R) : vec := fun j => if Nat.eqb j i then x else r j.
Definition second_at (n : nat) (f : vec -> R) (r h : vec) : Prop :=
  forall i, (i < n)%nat ->
    exists f' : R -> R,
      locally (r i) (fun x => is_derive (fun y => f (setv r i y)) x (f' x)) /\
      is_derive f' (r i) (h i).

(** Ordered bounds and admissible parameters. *)
Definition ordered (n : nat) (lb ub : vec) : Prop := forall i, (i < n)%nat -> lb i <= ub i.

(** Where the functions are differentiable. *)
Definition smooth_at (n : nat) (m : activation) (r : vec) : Prop :=
  match m with
  | Barrier lb ub | WeightedBarrier lb ub _ => ordered n lb ub
  | Smooth1Norm eps => 0 < eps \/ (0 <= eps /\ forall i, (i < n)%nat -> r i <> 0)
  | Smooth2Norm eps => 0 < eps \/ (0 <= eps /\ 0 < rsum n (fun i => sq (r i)))
  | Norm2Barrier alpha _ => alpha <= 0 \/ 0 < rsum n (fun i => sq (r i))
  | FlatLog alpha | FlatExp alpha => 0 < alpha
  | _ => True
  end.

(** Where they are twice differentiable in each component. *)
Definition twice_at (n : nat) (m : activation) (r : vec) : Prop :=
  smooth_at n m r /\
  match m with
  | Barrier lb ub | WeightedBarrier lb ub _ =>
      forall i, (i < n)%nat -> lb i = ub i \/ (r i <> lb i /\ r i <> ub i)
  | Norm2Barrier alpha _ => alpha <= 0 \/ sqrt (rsum n (fun i => sq (r i))) <> alpha
  | _ => True
  end.

(** The data after calc and calcDiff at [r]. *)
Definition evaluated (n : nat) (m : activation) (r : vec) (d : adata) : adata :=
  snd (calcDiff m r (calc n m r d)).
