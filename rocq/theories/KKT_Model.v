(** The linear system of SolverKKT: allocateData, calcDiff, the extraction of the direction, the
    expected improvement and the stopping criterion (src/core/solvers/kkt.cpp).

    All the nodes have the same tangent dimension [nd] (enforced by ShootingProblem); the control
    dimension depends on the node.  Reals instead of floating-point numbers.  The derivatives of
    the models, and the gaps [diff(x0, xs[0])] and [diff(xnext, xs[t+1])], are inputs: the record
    [kdata] holds what problem_->calc and calcDiff leave for the candidate.
    [primaldual_ = kkt_.lu().solve(-kktref_)] (line 249) is not modelled: the theorems are about
    any solution of that linear system. *)
From Coq Require Import Reals Arith Bool.
From Verif Require Import Deriv VecMat.
Open Scope R_scope.

(** Data of a running node (Lx, Lu, Lxx, Lxu, Luu, Fx, Fu and diff(xnext, xs[t+1])). *)
Record kstage := KStage { k_Lx : vec; k_Lu : vec; k_Lxx : mat; k_Lxu : mat; k_Luu : mat; k_Fx : mat; k_Fu : mat; k_gap : vec }.
(** All the nodes, the terminal derivatives and diff(x0, xs[0]). *)
Record kdata := KData { k_run : nat -> kstage; k_LxT : vec; k_LxxT : mat; k_gap0 : vec }.

(** [i] is in the range of [n] indices from [o]. *)
Definition ib (o n i : nat) : bool := (o <=? i)%nat && (i <? o + n)%nat.
(** [M.block(r, c, h, w) = B] and [v.segment(o, n) = w] *)
Definition blk (M : mat) (r c h w : nat) (B : mat) : mat := fun i j => if ib r h i && ib c w j then B (i - r)%nat (j - c)%nat else M i j.
Definition sgm (v : vec) (o n : nat) (w : vec) : vec := fun i => if ib o n i then w (i - o)%nat else v i.

Section KKT.
Variables (T nd : nat) (nu : nat -> nat).

(** The running indices [ix], [iu] of the loops (lines 205-206 and 236-237, 100-101 and 111-112). *)
Fixpoint kix (t : nat) : nat := match t with O => 0 | S t => kix t + nd end.
Fixpoint kiu (t : nat) : nat := match t with O => 0 | S t => kiu t + nu t end.
(** [ndx_] and [nu_], kkt.cpp:283-302: the loop over the running nodes, then the terminal node. *)
Definition ndx_ : nat := kix T + nd.
Definition nu_ : nat := kiu T.
(** kkt.cpp:307-310 *)
Definition ksize : nat := 2 * ndx_ + nu_.
Definition kalloc : mat * vec := (fun _ _ => 0, fun _ => 0).

(** The body of the loop of calcDiff, kkt.cpp:209-238. *)
Definition kstep (d : kdata) (t : nat) (m : mat * vec) : mat * vec :=
  let '(M, r) := m in
  let s := k_run d t in
  let cx0 := nd in
  let ix := kix t in
  let iu := kiu t in
  let r := if (t =? 0)%nat then sgm r (ndx_ + nu_) nd (k_gap0 d) else r in
  let M := blk M ix ix nd nd (k_Lxx s) in
  let M := blk M ix (ndx_ + iu) nd (nu t) (k_Lxu s) in
  let M := blk M (ndx_ + iu) ix (nu t) nd (tr (k_Lxu s)) in
  let M := blk M (ndx_ + iu) (ndx_ + iu) (nu t) (nu t) (k_Luu s) in
  let M := blk M (ndx_ + nu_ + cx0 + ix) ix nd nd (fun i j => - k_Fx s i j) in
  let M := blk M (ndx_ + nu_ + cx0 + ix) (ndx_ + iu) nd (nu t) (fun i j => - k_Fu s i j) in
  let r := sgm r ix nd (k_Lx s) in
  let r := sgm r (ndx_ + iu) (nu t) (k_Lu s) in
  let r := sgm r (ndx_ + nu_ + cx0 + ix) nd (k_gap s) in
  (M, r).
Fixpoint kloop (d : kdata) (k : nat) (m : mat * vec) : mat * vec :=
  match k with O => m | S k => kstep d k (kloop d k m) end.
(** kkt.cpp:195-246.  Without running node, get_runningModels()[0] is undefined (line 201). *)
Definition kcalcDiff (d : kdata) (m : mat * vec) : option (mat * vec) :=
  if (T =? 0)%nat then None else
  let '(M, r) := m in
  let M := blk M (ndx_ + nu_) 0 ndx_ ndx_ idm in
  let '(M, r) := kloop d T (M, r) in
  let ix := kix T in
  let M := blk M ix ix nd nd (k_LxxT d) in
  let r := sgm r ix nd (k_LxT d) in
  let M := blk M 0 (ndx_ + nu_) (ndx_ + nu_) ndx_ (fun i j => M (ndx_ + nu_ + j)%nat i) in
  Some (M, r).

(** computeDirection, kkt.cpp:94-116, from [primaldual_] (250-252 and 94-97). *)
Definition primal (z : vec) : vec := z.
Definition dual (z : vec) : vec := fun i => z (ndx_ + nu_ + i)%nat.
Definition dxs (z : vec) (t : nat) : vec := fun i => primal z (kix t + i)%nat.
Definition dus (z : vec) (t : nat) : vec := fun j => primal z (ndx_ + (kiu t + j))%nat.
Definition lambdas (z : vec) (t : nat) : vec := fun i => dual z (kix t + i)%nat.

(** expectedImprovement, kkt.cpp:165-173 *)
Definition kd0 (m : mat * vec) (z : vec) : R := - dot (ndx_ + nu_) (snd m) (primal z).
Definition kd1 (m : mat * vec) (z : vec) : R := - dot (ndx_ + nu_) (mulv (ndx_ + nu_) (fst m) (primal z)) (primal z).
(** kkt.cpp:66 *)
Definition kdVexp (m : mat * vec) (z : vec) (a : R) : R := a * kd0 m z + / 2 * a * a * kd1 m z.

(** stoppingCriteria, kkt.cpp:138-163; [dF] starts from what it held. *)
Definition kdF_step (d : kdata) (lam : nat -> vec) (t : nat) (v : vec) : vec :=
  let s := k_run d t in
  let v := sgm v (kix t) nd (lam t) in
  let v := sgm v (kix t) nd (fun i => v (kix t + i)%nat - mulv nd (tr (k_Fx s)) (lam (S t)) i) in
  sgm v (ndx_ + kiu t) (nu t) (fun j => - rsum nd (fun i => lam (S t) i * k_Fu s i j)).
Fixpoint kdF_loop (d : kdata) (lam : nat -> vec) (k : nat) (v : vec) : vec :=
  match k with O => v | S k => kdF_step d lam k (kdF_loop d lam k v) end.
Definition kdF (d : kdata) (lam : nat -> vec) (v : vec) : vec := sgm (kdF_loop d lam T v) (kix T) nd (lam T).
Definition kstop (m : mat * vec) (dF : vec) : R :=
  rsum (ndx_ + nu_) (fun i => (snd m i + dF i) * (snd m i + dF i)) + rsum ndx_ (fun i => snd m (ndx_ + nu_ + i)%nat * snd m (ndx_ + nu_ + i)%nat).
End KKT.
