(** Linear-quadratic actions: ActionModelLQR (include/crocoddyl/core/actions/lqr.hxx, lqr.hpp)
    and DifferentialActionModelLQR (actions/diff-lqr.hxx, diff-lqr.hpp), as one model shared by
    several datas.  Matrices and vectors carry their dimensions, because set_LQR does not check
    all of them.  For the differential model [A] is the block row (Aq, Av).

    Simplifications: (Aq, Av) are checked for their total width only; real arithmetic; the eigenvalue solver inside checkPSD always converges;
    the temporaries Q_x_tmp and R_u_tmp are local; x and u have the right size. *)
From Coq Require Import Reals List Arith Bool ClassicalDedekindReals.
From Verif Require Import Deriv VecMat State_Model.
Import ListNotations.
Open Scope R_scope.

Inductive lkind := discrete | continuous.

Record lqr := LQR {
  pA : sm; pB : sm; pQ : sm; pR : sm; pN : sm; pG : sm; pH : sm;
  pf : sv; pq : sv; pr : sv; pg : sv; ph : sv }.

Record ldata := LData {
  d_next : vec;        (* xnext, or xout *)
  d_cost : R; d_g : vec; d_h : vec;
  d_Fx : sm; d_Fu : sm; d_Lx : vec; d_Lu : vec; d_Lxx : sm; d_Luu : sm; d_Lxu : sm;
  d_Gx : sm; d_Gu : sm; d_Hx : sm; d_Hu : sm }.

(** utils/math.hpp:86-95: SelfAdjointEigenSolver reads the lower triangle of its argument; the
    smallest eigenvalue of that symmetric matrix is at least -1e-9 iff the quadratic form is
    bounded below by -1e-9 |v|^2. *)
Definition lower (L : mat) : mat := fun i j => if j <=? i then L i j else L j i.
Definition psd_lower (n : nat) (L : mat) : Prop :=
  forall v : vec, - (1 / 1000000000) * dot n v v <= dot n v (mulv n (lower L) v).
Definition check_psd (n : nat) (L : mat) : bool := if sig_not_dec (psd_lower n L) then true else false.

(** Eigen: M.leftCols(n), M.rightCols(n) *)
Definition leftCols (n : nat) (M : sm) : sm := SM (rows M) n (ment M).
Definition rightCols (n : nat) (M : sm) : sm := SM (rows M) n (fun i j => ment M i (cols M - n + j)%nat).
Definition smv (M : sm) (x : vec) : vec := mulv (cols M) (ment M) x.

Section LQR.
Variables (k : lkind) (nx nu ng nh : nat).
(** state_->get_nq() for StateVector: nq = nx - nv with nv = ndx / 2 (states/euclidean.hxx,
    state-base.hxx); for the differential model nx = 2 nq. *)
Definition nq : nat := (nx - Nat.div2 nx)%nat.
(** Rows of the dynamics. *)
Definition no : nat := match k with discrete => nx | continuous => nq end.

(** L_ << Q, N, N.transpose(), R *)
Definition joint (Q N R : sm) : mat := fun i j =>
  if i <? nx then (if j <? nx then ment Q i j else ment N i (j - nx)%nat)
  else (if j <? nx then ment N j (i - nx)%nat else ment R (i - nx)%nat (j - nx)%nat).

Definition dims (r c : nat) (M : sm) : bool := Nat.eqb (rows M) r && Nat.eqb (cols M) c.
(** lqr.hxx:345-422, diff-lqr.hxx:365-451: the checks of set_LQR.  The columns of A (Aq, Av)
    and B are not checked. *)
Definition accepts (p : lqr) : bool :=
  Nat.eqb (rows (pA p)) no && Nat.eqb (rows (pB p)) no &&
  dims nx nx (pQ p) && dims nu nu (pR p) && dims nx nu (pN p) &&
  dims ng (nx + nu) (pG p) && dims nh (nx + nu) (pH p) &&
  Nat.eqb (sz (pf p)) no && Nat.eqb (sz (pq p)) nx && Nat.eqb (sz (pr p)) nu &&
  Nat.eqb (sz (pg p)) ng && Nat.eqb (sz (ph p)) nh &&
  check_psd (nx + nu) (joint (pQ p) (pN p) (pR p)).

(** lqr.hxx:91-129, diff-lqr.hxx:93-135; [None] when Eigen multiplies matrices of incompatible
    sizes (assertion failure, or reads out of bounds in release builds). *)
Definition fits (p : lqr) : bool := Nat.eqb (cols (pA p)) nx && Nat.eqb (cols (pB p)) nu.
Definition lcalc (p : lqr) (x u : vec) (d : ldata) : option ldata :=
  if fits p then
    let next := fun i => smv (pA p) x i + smv (pB p) u i + ent (pf p) i in
    let c0 := 5 / 10 * dot nx x (smv (pQ p) x) in
    let c1 := c0 + 5 / 10 * dot nu u (smv (pR p) u) in
    let c2 := c1 + dot nx x (smv (pN p) u) in
    let c3 := c2 + dot nx (ent (pq p)) x in
    let c4 := c3 + dot nu (ent (pr p)) u in
    let g := fun i => smv (leftCols nx (pG p)) x i + smv (rightCols nu (pG p)) u i + ent (pg p) i in
    let h := fun i => smv (leftCols nx (pH p)) x i + smv (rightCols nu (pH p)) u i + ent (ph p) i in
    Some (LData next c4 g h (d_Fx d) (d_Fu d) (d_Lx d) (d_Lu d) (d_Lxx d) (d_Luu d) (d_Lxu d)
            (d_Gx d) (d_Gu d) (d_Hx d) (d_Hu d))
  else None.

(** lqr.hxx:132-155, diff-lqr.hxx:138-166 *)
Definition lcalc_x (p : lqr) (x : vec) (d : ldata) : ldata :=
  let next := match k with discrete => x | continuous => d_next d end in
  let c0 := 5 / 10 * dot nx x (smv (pQ p) x) in
  let c1 := c0 + dot nx (ent (pq p)) x in
  LData next c1 (fun i => smv (leftCols nx (pG p)) x i + ent (pg p) i)
    (fun i => smv (leftCols nx (pH p)) x i + ent (ph p) i)
    (d_Fx d) (d_Fu d) (d_Lx d) (d_Lu d) (d_Lxx d) (d_Luu d) (d_Lxu d) (d_Gx d) (d_Gu d) (d_Hx d) (d_Hu d).

(** The constant matrices: lqr.hxx:171-182, diff-lqr.hxx:180-192 *)
Definition write_all (p : lqr) (d : ldata) : ldata :=
  LData (d_next d) (d_cost d) (d_g d) (d_h d) (pA p) (pB p) (d_Lx d) (d_Lu d) (pQ p) (pR p) (pN p)
    (leftCols nx (pG p)) (rightCols nu (pG p)) (leftCols nx (pH p)) (rightCols nu (pH p)).
(** lqr.hxx:203-208, diff-lqr.hxx:210-215 *)
Definition write_terminal (p : lqr) (d : ldata) : ldata :=
  LData (d_next d) (d_cost d) (d_g d) (d_h d) (d_Fx d) (d_Fu d) (d_Lx d) (d_Lu d) (pQ p) (d_Luu d) (d_Lxu d)
    (leftCols nx (pG p)) (d_Gu d) (leftCols nx (pH p)) (d_Hu d).
Definition set_grads (lx lu : vec) (d : ldata) : ldata :=
  LData (d_next d) (d_cost d) (d_g d) (d_h d) (d_Fx d) (d_Fu d) lx lu (d_Lxx d) (d_Luu d) (d_Lxu d)
    (d_Gx d) (d_Gu d) (d_Hx d) (d_Hu d).

(** lqr.hxx:158-191, diff-lqr.hxx:169-199; [upd] is the member updated_lqr_ of the model. *)
Definition lcalcDiff (p : lqr) (upd : bool) (x u : vec) (d : ldata) : ldata :=
  let d1 := if upd then d else write_all p d in
  set_grads (fun i => ent (pq p) i + smv (pQ p) x i + smv (pN p) u i)
            (fun i => ent (pr p) i + mulv nx (tr (ment (pN p))) x i + smv (pR p) u i) d1.
(** lqr.hxx:194-212, diff-lqr.hxx:202-219 *)
Definition lcalcDiff_x (p : lqr) (upd : bool) (x : vec) (d : ldata) : ldata :=
  let d1 := if upd then d else write_terminal p d in
  set_grads (fun i => ent (pq p) i + smv (pQ p) x i) (d_Lu d1) d1.

(** lqr.hpp:300-317, diff-lqr.hpp:328-343, over the zeroed base data (action-base.hpp:358-407);
    [None] when leftCols gets more columns than there are. *)
Definition lcreate (p : lqr) : option ldata :=
  if 2 * nq <=? nx + nu then
    Some (LData (fun _ => 0) 0 (fun _ => 0) (fun _ => 0) (pA p) (pB p) (fun _ => 0) (fun _ => 0)
            (pQ p) (pR p) (pN p) (leftCols (2 * nq) (pG p)) (rightCols nu (pG p))
            (leftCols (2 * nq) (pH p)) (rightCols nu (pH p)))
  else None.

(** ** Histories *)
Record lworld := LWorld { w_par : lqr; w_upd : bool; w_data : list ldata }.
Inductive lop :=
| LSet (p : lqr) | LCreate
| LCalc (i : nat) (x u : vec) | LCalcT (i : nat) (x : vec)
| LDiff (i : nat) (x u : vec) | LDiffT (i : nat) (x : vec).

Fixpoint upd_nth {A} (i : nat) (a : A) (l : list A) : list A :=
  match l, i with
  | [], _ => []
  | _ :: t, O => a :: t
  | b :: t, S i' => b :: upd_nth i' a t
  end.

(** [None] is undefined behaviour.  A rejected set_LQR throws before any observable change; a
    call on a data that does not exist is impossible and modelled as no effect. *)
Definition lstep (o : lop) (w : lworld) : option lworld :=
  match o with
  | LSet p => if accepts p then Some (LWorld p false (w_data w)) else Some w
  | LCreate =>
      match lcreate (w_par w) with
      | Some d => Some (LWorld (w_par w) (w_upd w) (w_data w ++ [d]))
      | None => None
      end
  | LCalc i x u =>
      match nth_error (w_data w) i with
      | Some d => match lcalc (w_par w) x u d with
                  | Some d' => Some (LWorld (w_par w) (w_upd w) (upd_nth i d' (w_data w)))
                  | None => None
                  end
      | None => Some w
      end
  | LCalcT i x =>
      match nth_error (w_data w) i with
      | Some d => Some (LWorld (w_par w) (w_upd w) (upd_nth i (lcalc_x (w_par w) x d) (w_data w)))
      | None => Some w
      end
  | LDiff i x u =>
      match nth_error (w_data w) i with
      | Some d => Some (LWorld (w_par w) true (upd_nth i (lcalcDiff (w_par w) (w_upd w) x u d) (w_data w)))
      | None => Some w
      end
  | LDiffT i x =>
      match nth_error (w_data w) i with
      | Some d => Some (LWorld (w_par w) true (upd_nth i (lcalcDiff_x (w_par w) (w_upd w) x d) (w_data w)))
      | None => Some w
      end
  end.
Fixpoint lrun (os : list lop) (w : lworld) : option lworld :=
  match os with
  | [] => Some w
  | o :: os' => match lstep o w with Some w' => lrun os' w' | None => None end
  end.
End LQR.

(** lqr.hxx:60-75: the default matrices; updated_lqr_ is not initialised ([b]).
    diff-lqr.hxx:60-78 (Aq = Av = I, updated_lqr_ = false). *)
Definition id_sm (r c : nat) : sm := SM r c idm.
Definition zero_sm (r c : nat) : sm := SM r c (fun _ _ => 0).
Definition const_sv (n : nat) (c : R) : sv := SV n (fun _ => c).
Definition default_lqr (k : lkind) (nx nu : nat) (drift_free : bool) : lqr :=
  let o := no k nx in
  LQR (match k with discrete => id_sm nx nx | continuous => SM o nx (fun i j => if j <? o then idm i j else idm i (j - o)%nat) end)
      (id_sm o nu) (id_sm nx nx) (id_sm nu nu) (zero_sm nx nu) (zero_sm 0 (nx + nu)) (zero_sm 0 (nx + nu))
      (const_sv o (if drift_free then 0 else 1)) (const_sv nx 1) (const_sv nu 1) (const_sv 0 0) (const_sv 0 0).
Definition default_world (k : lkind) (nx nu : nat) (drift_free b : bool) : lworld :=
  LWorld (default_lqr k nx nu drift_free) (match k with discrete => b | continuous => false end) [].

(** lqr.hxx:77-88 and the constructor from matrices 46-57: nx and nu are the columns of A and B;
    [None] is the exception. *)
Definition create_lqr (p : lqr) : option (nat * nat * lworld) :=
  let nx := cols (pA p) in let nu := cols (pB p) in
  if accepts discrete nx nu (rows (pG p)) (rows (pH p)) p then Some (nx, nu, LWorld p false []) else None.
