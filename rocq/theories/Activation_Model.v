(** Activation models (include/crocoddyl/core/activations/*.hpp): calc, calcDiff, createData,
    set_weights and the ActivationBounds constructor.

    Vectors are functions on indices together with the model's dimension [nr]; the size check
    that throws is therefore in the types.  Scalars are reals (no rounding). *)
From Coq Require Import Reals List.
From Verif Require Import Deriv.
Import ListNotations.
Open Scope R_scope.

Definition vec := nat -> R.

(** Eigen reductions: dot product, squaredNorm, norm ([rsum n f] is f 0 + ... + f (n-1)). *)
Definition dotv (n : nat) (x y : vec) : R := rsum n (fun i => x i * y i).
Definition sqnorm (n : nat) (x : vec) : R := dotv n x x.
Definition vnorm (n : nat) (x : vec) : R := sqrt (sqnorm n x).

Inductive activation :=
| Quad                                     (* quadratic.hpp *)
| WeightedQuad (w : vec) (new_weights : bool)   (* weighted-quadratic.hpp *)
| Barrier (lb ub : vec)                    (* quadratic-barrier.hpp *)
| WeightedBarrier (lb ub w : vec)          (* weighted-quadratic-barrier.hpp *)
| Smooth1Norm (eps : R)                    (* smooth-1norm.hpp *)
| Smooth2Norm (eps : R)                    (* smooth-2norm.hpp *)
| Norm2Barrier (alpha : R) (true_hessian : bool)  (* 2norm-barrier.hpp *)
| FlatLog (alpha : R)                      (* quadratic-flat-log.hpp *)
| FlatExp (alpha : R).                     (* quadratic-flat-exp.hpp *)

(** The datas: common fields and the scratch fields of the derived structs. *)
Record adata := AData {
  a_value : R; Ar : vec; Arr : vec;
  Wr : vec;                 (* ActivationDataWeightedQuad *)
  rlb_min : vec; rub_max : vec;   (* ActivationDataQuadraticBarrier *)
  a_ : vec;                 (* ActivationDataSmooth1Norm *)
  d_ : R;                   (* ActivationData2NormBarrier *)
  a0 : R; a1 : R }.         (* ActivationDataQuadFlatLog / Exp *)

Definition zerov : vec := fun _ => 0.
(** Data constructors set everything to zero (activation-base.hpp:83-88); createData of
    the two quadratic models sets the Hessian (quadratic.hpp:58-64,
    weighted-quadratic.hpp:69-79). *)
Definition createData (m : activation) : adata :=
  AData 0 zerov
    (match m with Quad => fun _ => 1 | WeightedQuad w _ => w | _ => zerov end)
    zerov zerov zerov zerov 0 0 0.

(** x < y on reals, as computed by the code. *)
Definition Rltb (x y : R) : bool := if Rlt_dec x y then true else false.
Definition Rleb (x y : R) : bool := if Rle_dec x y then true else false.

Section Calc.
Variable nr : nat.

(** quadratic.hpp:33-41, weighted-quadratic.hpp:36-47, quadratic-barrier.hpp:134-148,
    weighted-quadratic-barrier.hpp:42-57, smooth-1norm.hpp:76-87, smooth-2norm.hpp:68-77,
    2norm-barrier.hpp:78-93, quadratic-flat-log.hpp:71-81, quadratic-flat-exp.hpp:72-83. *)
Definition calc (m : activation) (r : vec) (d : adata) : adata :=
  let (v, g, h, wr, rl, ru, a, dd, x0, x1) := d in
  match m with
  | Quad => AData (1 / 2 * dotv nr r r) g h wr rl ru a dd x0 x1
  | WeightedQuad w _ =>
      let wr' := fun i => w i * r i in
      AData (1 / 2 * dotv nr r wr') g h wr' rl ru a dd x0 x1
  | Barrier lb ub =>
      let rl' := fun i => Rmin (r i - lb i) 0 in
      let ru' := fun i => Rmax (r i - ub i) 0 in
      AData (1 / 2 * sqnorm nr rl' + 1 / 2 * sqnorm nr ru') g h wr rl' ru' a dd x0 x1
  | WeightedBarrier lb ub w =>
      let rl' := fun i => Rmin (r i - lb i) 0 * w i in
      let ru' := fun i => Rmax (r i - ub i) 0 * w i in
      AData (1 / 2 * sqnorm nr rl' + 1 / 2 * sqnorm nr ru') g h wr rl' ru' a dd x0 x1
  | Smooth1Norm eps =>
      let a' := fun i => sqrt (r i * r i + eps) in
      AData (rsum nr a') g h wr rl ru a' dd x0 x1
  | Smooth2Norm eps => AData (sqrt (sqnorm nr r + eps)) g h wr rl ru a dd x0 x1
  | Norm2Barrier alpha _ =>
      let d' := vnorm nr r in
      AData (if Rltb d' alpha then 1 / 2 * (d' - alpha) * (d' - alpha) else 0) g h wr rl ru a d' x0 x1
  | FlatLog alpha =>
      let a0' := sqnorm nr r / alpha in
      AData (ln (1 + a0')) g h wr rl ru a dd a0' x1
  | FlatExp alpha =>
      let a0' := exp (- sqnorm nr r / alpha) in
      AData (1 - a0') g h wr rl ru a dd a0' x1
  end.

(** The diagonal of the barrier Hessian (quadratic-barrier.hpp:161-167). *)
Definition barrier_hess (lb ub r : vec) : vec := fun i =>
  if Rleb (r i - lb i) 0 then 1 else if Rleb 0 (r i - ub i) then 1 else 0.

(** quadratic.hpp:43-56, weighted-quadratic.hpp:49-67, quadratic-barrier.hpp:150-168,
    weighted-quadratic-barrier.hpp:59-79, smooth-1norm.hpp:95-107, smooth-2norm.hpp:85-95,
    2norm-barrier.hpp:101-125, quadratic-flat-log.hpp:89-102, quadratic-flat-exp.hpp:91-104.
    The model is returned because calcDiff clears the new-weights flag. *)
Definition calcDiff (m : activation) (r : vec) (d : adata) : activation * adata :=
  let (v, g, h, wr, rl, ru, a, dd, x0, x1) := d in
  match m with
  | Quad => (m, AData v r h wr rl ru a dd x0 x1)
  | WeightedQuad w nw => (WeightedQuad w false, AData v wr (if nw then w else h) wr rl ru a dd x0 x1)
  | Barrier lb ub =>
      (m, AData v (fun i => rl i + ru i) (barrier_hess lb ub r) wr rl ru a dd x0 x1)
  | WeightedBarrier lb ub w =>
      (m, AData v (fun i => (rl i + ru i) * w i) (fun i => barrier_hess lb ub r i * w i) wr rl ru a dd x0 x1)
  | Smooth1Norm eps =>
      (m, AData v (fun i => r i * / a i) (fun i => / (a i * a i * a i)) wr rl ru a dd x0 x1)
  | Smooth2Norm eps =>
      (m, AData v (fun i => r i / v) (fun i => 1 / v ^ 3) wr rl ru a dd x0 x1)
  | Norm2Barrier alpha th =>
      (m, if Rltb dd alpha then
            AData v (fun i => (dd - alpha) / dd * r i)
              (if th then fun i => alpha * (r i) ^ 2 / dd ^ 3 + (dd - alpha) / dd
               else fun i => (r i) ^ 2 / dd ^ 2) wr rl ru a dd x0 x1
          else AData v zerov zerov wr rl ru a dd x0 x1)
  | FlatLog alpha =>
      let a1' := 2 / (alpha + alpha * x0) in
      (m, AData v (fun i => a1' * r i) (fun i => - a1' * a1' * (r i) ^ 2 + a1') wr rl ru a dd x0 a1')
  | FlatExp alpha =>
      let a1' := 2 / alpha * x0 in
      (m, AData v (fun i => a1' * r i) (fun i => - 2 * a1' * (r i) ^ 2 / alpha + a1') wr rl ru a dd x0 a1')
  end.

(** set_weights (weighted-quadratic.hpp:89-98; weighted-quadratic-barrier.hpp:96-103); the
    dimension check is in the types. *)
Definition set_weights (m : activation) (w : vec) : activation :=
  match m with
  | WeightedQuad _ _ => WeightedQuad w true
  | WeightedBarrier lb ub _ => WeightedBarrier lb ub w
  | _ => m
  end.

(** Histories of one model shared by several datas. *)
Inductive aop :=
| NewData
| SetWeights (w : vec)
| Calc (k : nat) (r : vec)
| CalcDiff (k : nat) (r : vec).
Record ahist := AHist { amodel : activation; adatas : list adata }.
Fixpoint upd_nth {A} (k : nat) (f : A -> A) (l : list A) : list A :=
  match l, k with
  | [], _ => []
  | x :: l', O => f x :: l'
  | x :: l', S k' => x :: upd_nth k' f l'
  end.
Definition astep (s : ahist) (o : aop) : ahist :=
  match o with
  | NewData => AHist (amodel s) (adatas s ++ [createData (amodel s)])
  | SetWeights w => AHist (set_weights (amodel s) w) (adatas s)
  | Calc k r => AHist (amodel s) (upd_nth k (calc (amodel s) r) (adatas s))
  | CalcDiff k r =>
      match nth_error (adatas s) k with
      | None => s    (* no such data: not a call *)
      | Some d => AHist (fst (calcDiff (amodel s) r d)) (upd_nth k (fun d => snd (calcDiff (amodel s) r d)) (adatas s))
      end
  end.
Definition aruns (s : ahist) (l : list aop) : ahist := fold_left astep l s.
End Calc.
