(** The search direction of SolverIntro (src/core/solvers/intro.cpp:226-399), in exact
    arithmetic over an arbitrary real field.  Setting of Riccati_Model.

    The rank-revealing factorisations are described by contracts ([lu_null], [qr_null])
    for a [Hu] of full row rank, the only case in which the code's block assignments
    have matching sizes. *)
From mathcomp Require Import all_ssreflect all_algebra all_fingroup.
From Verif Require Import LinAlg Riccati_Model.
Set Implicit Arguments.
Unset Strict Implicit.
Unset Printing Implicit Defensive.
Import GRing.Theory Num.Theory.
Local Open Scope ring_scope.

Section Intro.
Variable R : realFieldType.
Variable n : nat.

(** Derivatives of a node with equality constraints: [h + Hx dx + Hu du = 0]. *)
Record istage := IStage {
  ibase : stage R n;
  nh : nat;
  ih : 'cV[R]_nh; iHx : 'M[R]_(nh, n); iHu : 'M[R]_(nh, nu ibase) }.

(** eq_solver_ with the factors of [Hu]: [YZ = [Y Z]] for LuNull and QrNull. *)
Inductive eqsolver (p m : nat) :=
| Null (z : nat) (Y : 'M[R]_(m, p)) (Z : 'M[R]_(m, z))
| Schur.
Arguments Null {p m z} Y Z.
Arguments Schur {p m}.

(** intro.cpp:234-261: FullPivLU with full row rank: [Y] is [(P Hu)^T], [Z] a basis of the
    kernel. *)
Definition lu_null (p m z : nat) (Hu : 'M[R]_(p, m)) (Y : 'M[R]_(m, p)) (Z : 'M[R]_(m, z)) : Prop :=
  (exists s : 'S_p, Y = (row_perm s Hu)^T) /\
  (forall v : 'cV[R]_m, Hu *m v = 0 <-> exists w : 'cV[R]_z, v = Z *m w) /\
  (forall w : 'cV[R]_z, Z *m w = 0 -> w = 0).
(** intro.cpp:262-290: ColPivHouseholderQR of [Hu^T]: [Hu^T P = [Y Z] [R; 0]] with an
    orthogonal [[Y Z]]. *)
Definition qr_null (p m z : nat) (Hu : 'M[R]_(p, m)) (Y : 'M[R]_(m, p)) (Z : 'M[R]_(m, z)) : Prop :=
  (exists W : 'M[R]_p, Hu^T = Y *m W) /\
  Y^T *m Y = 1%:M /\ Y^T *m Z = 0 /\ Z^T *m Z = 1%:M /\ Y *m Y^T + Z *m Z^T = 1%:M.

(** SolverFDDP::computeGains (ddp.cpp:372-396): [(k_, K_)]. *)
Definition free_gains (m : nat) (quu : 'M[R]_m) (qu : 'cV[R]_m) (qxu : 'M[R]_(n, m)) : option ('cV[R]_m * 'M[R]_(m, n)) :=
  if llt_ok quu then Some (llt_solve quu qu, llt_solve quu qxu^T) else None.

(** Particular solution, intro.cpp:251-259 and 279-287; [Hy_inv] is PartialPivLU's inverse,
    whose singularity the code does not test. *)
Definition null_part (p m q : nat) (Hu : 'M[R]_(p, m)) (Y : 'M[R]_(m, p)) (b : 'M[R]_(p, q)) : 'M[R]_(m, q) :=
  Y *m (invmx (Hu *m Y) *m b).

(** intro.cpp:339-372 *)
Definition null_gains (p m z : nat) (Hu : 'M[R]_(p, m)) (Hx : 'M[R]_(p, n)) (h : 'cV[R]_p)
    (Y : 'M[R]_(m, p)) (Z : 'M[R]_(m, z)) (quu : 'M[R]_m) (qu : 'cV[R]_m) (qxu : 'M[R]_(n, m))
  : option ('cV[R]_m * 'M[R]_(m, n)) :=
  let kz := null_part Hu Y h in
  let Kz := null_part Hu Y Hx in
  let quz := quu *m Z in
  let qzz := Z^T *m quz in
  if llt_ok qzz then
    let qzzinv_qzu := llt_solve qzz quz^T in
    let qz := llt_solve qzz (Z^T *m qu) - qzzinv_qzu *m kz in
    let qzx := llt_solve qzz (qxu *m Z)^T - qzzinv_qzu *m Kz in
    Some (kz + Z *m qz, Kz + Z *m qzx)
  else None.

(** intro.cpp:373-397 *)
Definition schur_gains (p m : nat) (Hu : 'M[R]_(p, m)) (Hx : 'M[R]_(p, n)) (h : 'cV[R]_p)
    (quu : 'M[R]_m) (qu : 'cV[R]_m) (qxu : 'M[R]_(n, m)) : option ('cV[R]_m * 'M[R]_(m, n)) :=
  match free_gains quu qu qxu with
  | None => None
  | Some (k0, K0) =>
      let w := llt_solve quu Hu^T in
      let qzz := Hu *m w in
      if llt_ok qzz then
        let w' := (llt_solve qzz w^T)^T in
        Some (k0 + w' *m (h - Hu *m k0), K0 + w' *m (Hx - Hu *m K0))
      else None
  end.

(** computeGains, intro.cpp:329-399 ([nu > 0 && nh > 0], else the gains of SolverFDDP). *)
Definition i_gains (p m : nat) (e : eqsolver p m) (Hu : 'M[R]_(p, m)) (Hx : 'M[R]_(p, n)) (h : 'cV[R]_p)
    (quu : 'M[R]_m) (qu : 'cV[R]_m) (qxu : 'M[R]_(n, m)) : option ('cV[R]_m * 'M[R]_(m, n)) :=
  if (0 < m)%N && (0 < p)%N then
    match e with
    | Null z Y Z => null_gains Hu Hx h Y Z quu qu qxu
    | Schur => schur_gains Hu Hx h quu qu qxu
    end
  else free_gains quu qu qxu.

(** computeValueFunction, intro.cpp:297-327: [(Vx_, Vxx_)]. *)
Definition i_value (m : nat) (preg : R) (feas : bool) (f : 'cV[R]_n)
    (qx : 'cV[R]_n) (qxx : 'M[R]_n) (qu : 'cV[R]_m) (quu : 'M[R]_m) (qxu : 'M[R]_(n, m))
    (k : 'cV[R]_m) (K : 'M[R]_(m, n)) : 'cV[R]_n * 'M[R]_n :=
  let vx0 := qx - qxu *m k - K^T *m (qu - quu *m k) in
  let vxx0 := qxx + (K^T *m quu - 2%:R *: qxu) *m K in
  let vxx := 2%:R^-1 *: (vxx0 + vxx0^T) + preg%:M in
  (if feas then vx0 else vx0 + vxx *m f, vxx).

(** One step of the backward pass of SolverIntro: as [bstep], with the gains and the
    value function above. *)
Definition ibstep (preg : R) (feas : bool) (s : istage) (e : eqsolver (nh s) (nu (ibase s))) (f : 'cV[R]_n)
    (v : 'cV[R]_n * 'M[R]_n) : option (bnode R n (nu (ibase s))) :=
  let b := ibase s in
  let qx := Lx b + (Fx b)^T *m v.1 in
  let qxx := Lxx b + (Fx b)^T *m v.2 *m Fx b in
  let qu := Lu b + (Fu b)^T *m v.1 in
  let quu := Luu b + (Fu b)^T *m v.2 *m Fu b + preg%:M in
  let qxu := Lxu b + (Fx b)^T *m v.2 *m Fu b in
  match i_gains e (iHu s) (iHx s) (ih s) quu qu qxu with
  | None => None
  | Some (k, K) =>
      let w := i_value preg feas f qx qxx qu quu qxu k K in
      Some (BNode qx qu qxx qxu quu k K (quu *m k) w.1 w.2)
  end.
End Intro.
Arguments Null {R p m z} Y Z.
Arguments Schur {R p m}.
Arguments istage R n : clear implicits.
