(** Friction cone, wrench cone and CoP support (include/crocoddyl/multibody/friction-cone.hxx,
    wrench-cone.hxx, cop-support.hxx).

    Exact reals; the friction coefficient, the minimum normal force and the rotation are finite,
    the maximum normal force and the bounds may be infinite ([Rbar]); NaN is not represented,
    except in the CoP rows of an infinite box, modelled apart. *)
From Coquelicot Require Import Coquelicot.
From Coq Require Import QArith Reals List Arith Bool.
From Verif Require Import XFloat Deriv VecMat.
Import ListNotations.
Open Scope R_scope.

Definition vec3 (a b c : R) : vec := fun i => match i with 0%nat => a | 1%nat => b | _ => c end.
(** v^T R^T *)
Definition row_Rt (v : vec) (rot : mat) : vec := fun j => rsum 3 (fun k => v k * tr rot k j).
(** A.row(r).head<3>() = v and A.row(r).tail<3>() = v *)
Definition set_head (r : nat) (v : vec) (A : mat) : mat := fun i j => if (i =? r)%nat && (j <? 3)%nat then v j else A i j.
Definition set_tail (r : nat) (v : vec) (A : mat) : mat := fun i j => if (i =? r)%nat && (3 <=? j)%nat then v (j - 3)%nat else A i j.

(** ** Friction cone *)
Record fcone := FCone { c_nf : nat; c_R : mat; c_mu : R; c_inner : bool; c_min : R; c_max : Rbar;
                        c_A : mat; c_lb : nat -> Rbar; c_ub : nat -> Rbar }.
(** friction-cone.hxx:94-99.  With nf = 0 the angle is not a number, but no facet uses it. *)
Definition cone_theta (nf : nat) : R := 2 * PI / INR nf.
Definition cone_mu (nf : nat) (inner : bool) (mu : R) : R := if inner then mu * cos (cone_theta nf * (1 / 2)) else mu.
(** friction-cone.hxx:113-121, the loop over the facets with its row counter *)
Fixpoint facets (k i row : nat) (nf : nat) (mu : R) (rot : mat) (A : mat) : mat :=
  match k with
  | O => A
  | S k =>
      let th := cone_theta nf * INR i in
      let A := set_head row (row_Rt (vec3 (0 + cos th) (0 + sin th) (- mu + 0)) rot) A in
      let A := set_head (S row) (row_Rt (vec3 (0 - cos th) (0 - sin th) (- mu - 0)) rot) A in
      facets k (S i) (S (S row)) nf mu rot A
  end.
(** friction-cone.hxx:86-125 *)
Definition fc_update (c : fcone) : fcone :=
  let mu := cone_mu (c_nf c) (c_inner c) (c_mu c) in
  let A := facets (c_nf c / 2) 0 0 (c_nf c) mu (c_R c) (fun _ _ => 0) in
  FCone (c_nf c) (c_R c) (c_mu c) (c_inner c) (c_min c) (c_max c)
    (set_head (c_nf c) (fun j => tr (c_R c) 2%nat j) A)
    (fun r => if (r =? c_nf c)%nat then Finite (c_min c) else m_infty)
    (fun r => if (r =? c_nf c)%nat then c_max c else Finite 0).
Definition ltb0 (x : R) : bool := if Rlt_dec x 0 then true else false.
Definition Rbar_ltb0 (x : Rbar) : bool := match x with Finite x => ltb0 x | p_infty => false | m_infty => true end.
(** friction-cone.hxx:13-49 *)
Definition fc_create (rot : mat) (mu : R) (nf : nat) (inner : bool) (fmin : R) (fmax : Rbar) : fcone :=
  fc_update (FCone (if negb (nf mod 2 =? 0)%nat then 4%nat else nf) rot (if ltb0 mu then 1 else mu) inner
    (if ltb0 fmin then 0 else fmin) (if Rbar_ltb0 fmax then p_infty else fmax) (fun _ _ => 0) (fun _ => Finite 0) (fun _ => Finite 0)).
(** friction-cone.hxx:51-68 *)
Definition fc_default : fcone := fc_create idm (7 / 10) 4 true 0 p_infty.
(** friction-cone.hxx:213-267: the negative values are replaced, then overwritten by the argument *)
Definition fc_set_R (rot : mat) (c : fcone) : fcone := FCone (c_nf c) rot (c_mu c) (c_inner c) (c_min c) (c_max c) (c_A c) (c_lb c) (c_ub c).
Definition fc_put_mu (mu : R) (c : fcone) : fcone := FCone (c_nf c) (c_R c) mu (c_inner c) (c_min c) (c_max c) (c_A c) (c_lb c) (c_ub c).
Definition fc_put_min (m : R) (c : fcone) : fcone := FCone (c_nf c) (c_R c) (c_mu c) (c_inner c) m (c_max c) (c_A c) (c_lb c) (c_ub c).
Definition fc_put_max (m : Rbar) (c : fcone) : fcone := FCone (c_nf c) (c_R c) (c_mu c) (c_inner c) (c_min c) m (c_A c) (c_lb c) (c_ub c).
Definition fc_set_mu (mu : R) (c : fcone) : fcone := let c := if ltb0 mu then fc_put_mu 1 c else c in fc_put_mu mu c.
Definition fc_set_min (m : R) (c : fcone) : fcone := let c := if ltb0 m then fc_put_min 0 c else c in fc_put_min m c.
Definition fc_set_max (m : Rbar) (c : fcone) : fcone := let c := if Rbar_ltb0 m then fc_put_max p_infty c else c in fc_put_max m c.
Definition fc_set_inner (b : bool) (c : fcone) : fcone := FCone (c_nf c) (c_R c) (c_mu c) b (c_min c) (c_max c) (c_A c) (c_lb c) (c_ub c).
(** Eigen's Quaternion::FromTwoVectors for unit vectors that are not opposite, and
    toRotationMatrix; [n] to the z axis: axis = n x z = (b, -a, 0), cosine c *)
Definition quat_matrix (w x y z : R) : mat := fun i j =>
  match i, j with
  | 0%nat, 0%nat => 1 - 2 * (y * y + z * z) | 0%nat, 1%nat => 2 * (x * y - w * z) | 0%nat, _ => 2 * (x * z + w * y)
  | 1%nat, 0%nat => 2 * (x * y + w * z) | 1%nat, 1%nat => 1 - 2 * (x * x + z * z) | 1%nat, _ => 2 * (y * z - w * x)
  | _, 0%nat => 2 * (x * z - w * y) | _, 1%nat => 2 * (y * z + w * x) | _, _ => 1 - 2 * (x * x + y * y)
  end.
Definition rot_to_z (n : vec) : mat :=
  let c := n 2%nat in let s := sqrt ((1 + c) * 2) in
  quat_matrix (s * (1 / 2)) (n 1%nat / s) (- n 0%nat / s) (0 / s).
(** friction-cone.hxx:128-148, 218-231; isUnitary is exact *)
Definition norm3 (n : vec) : R := sqrt (n 0%nat * n 0%nat + n 1%nat * n 1%nat + n 2%nat * n 2%nat).
Definition unitary (n : vec) : vec := if Req_EM_T (norm3 n) 1 then n else fun i => n i / norm3 n.
Definition fc_set_nsurf (n : vec) (c : fcone) : fcone := fc_set_R (rot_to_z (unitary n)) c.
Definition fc_update_normal (n : vec) (mu : R) (inner : bool) (fmin : R) (fmax : Rbar) (c : fcone) : fcone :=
  fc_update (fc_set_max fmax (fc_set_min fmin (fc_set_inner inner (fc_set_mu mu (fc_set_R (rot_to_z (unitary n)) c))))).
(** friction-cone.hxx:184-187 *)
Definition fc_get_nsurf (c : fcone) : vec := fun j => c_R c 2%nat j.

Inductive fccall := FMu (mu : R) | FMin (m : R) | FMax (m : Rbar) | FInner (b : bool) | FR (rot : mat) | FNsurf (n : vec) | FUpdate
  | FUpdateN (n : vec) (mu : R) (inner : bool) (fmin : R) (fmax : Rbar).
Definition fc_step (c : fcone) (k : fccall) : fcone :=
  match k with
  | FMu m => fc_set_mu m c | FMin m => fc_set_min m c | FMax m => fc_set_max m c | FInner b => fc_set_inner b c
  | FR rot => fc_set_R rot c | FNsurf n => fc_set_nsurf n c | FUpdate => fc_update c | FUpdateN n mu i a b => fc_update_normal n mu i a b c
  end.
Definition fc_run (c : fcone) (ks : list fccall) : fcone := fold_left fc_step ks c.

(** ** Wrench cone; finite box *)
Record wcone := WCone { w_nf : nat; w_R : mat; w_L2 : R; w_W2 : R; w_mu : R; w_inner : bool; w_min : R; w_max : Rbar;
                        w_A : mat; w_lb : nat -> Rbar; w_ub : nat -> Rbar }.
(** wrench-cone.hxx:127-235 *)
Definition wc_update (c : wcone) : wcone :=
  let nf := w_nf c in let rot := w_R c in
  let mu := cone_mu nf (w_inner c) (w_mu c) in
  let A := facets (nf / 2) 0 0 nf mu rot (fun _ _ => 0) in
  let A := set_head nf (fun j => tr rot 2%nat j) A in
  let L := w_L2 c * (1 / 2) in let W := w_W2 c * (1 / 2) in
  let A := set_tail (nf + 1) (fun j => tr rot 0%nat j) (set_head (nf + 1) (fun j => - W * tr rot 2%nat j) A) in
  let A := set_head (nf + 2) (fun j => A (nf + 1)%nat j) A in
  let A := set_tail (nf + 2) (fun j => - tr rot 0%nat j) A in
  let A := set_tail (nf + 3) (fun j => tr rot 1%nat j) (set_head (nf + 3) (fun j => - L * tr rot 2%nat j) A) in
  let A := set_head (nf + 4) (fun j => A (nf + 3)%nat j) A in
  let A := set_tail (nf + 4) (fun j => - tr rot 1%nat j) A in
  let mu_LW := - mu * (L + W) in
  let A := set_tail (nf + 5) (row_Rt (vec3 (- mu) (- mu) (-1)) rot) (set_head (nf + 5) (row_Rt (vec3 W L mu_LW) rot) A) in
  let A := set_tail (nf + 6) (row_Rt (vec3 (- mu) mu (-1)) rot) (set_head (nf + 6) (row_Rt (vec3 W (- L) mu_LW) rot) A) in
  let A := set_tail (nf + 7) (row_Rt (vec3 mu (- mu) (-1)) rot) (set_head (nf + 7) (row_Rt (vec3 (- W) L mu_LW) rot) A) in
  let A := set_tail (nf + 8) (row_Rt (vec3 mu mu (-1)) rot) (set_head (nf + 8) (row_Rt (vec3 (- W) (- L) mu_LW) rot) A) in
  let A := set_tail (nf + 9) (fun j => - A (nf + 5)%nat (3 + j)%nat) (set_head (nf + 9) (fun j => A (nf + 5)%nat j) A) in
  let A := set_tail (nf + 10) (fun j => - A (nf + 6)%nat (3 + j)%nat) (set_head (nf + 10) (fun j => A (nf + 6)%nat j) A) in
  let A := set_tail (nf + 11) (fun j => - A (nf + 7)%nat (3 + j)%nat) (set_head (nf + 11) (fun j => A (nf + 7)%nat j) A) in
  let A := set_tail (nf + 12) (fun j => - A (nf + 8)%nat (3 + j)%nat) (set_head (nf + 12) (fun j => A (nf + 8)%nat j) A) in
  WCone nf rot (w_L2 c) (w_W2 c) (w_mu c) (w_inner c) (w_min c) (w_max c) A
    (fun r => if (r =? nf)%nat then Finite (w_min c) else m_infty)
    (fun r => if (r =? nf)%nat then w_max c else Finite 0).
(** wrench-cone.hxx:13-50 *)
Definition wc_create (rot : mat) (mu : R) (l2 w2 : R) (nf : nat) (inner : bool) (fmin : R) (fmax : Rbar) : wcone :=
  wc_update (WCone (if negb (nf mod 2 =? 0)%nat then 4%nat else nf) rot l2 w2 (if ltb0 mu then 1 else mu) inner
    (if ltb0 fmin then 0 else fmin) (if Rbar_ltb0 fmax then p_infty else fmax) (fun _ _ => 0) (fun _ => Finite 0) (fun _ => Finite 0)).
(** wrench-cone.hxx:303-359: the value is stored, then replaced if negative.  set_box is modelled
    for non-negative sizes. *)
Definition wc_set_R (rot : mat) (c : wcone) : wcone :=
  WCone (w_nf c) rot (w_L2 c) (w_W2 c) (w_mu c) (w_inner c) (w_min c) (w_max c) (w_A c) (w_lb c) (w_ub c).
Definition wc_set_box (l2 w2 : R) (c : wcone) : wcone :=
  WCone (w_nf c) (w_R c) l2 w2 (w_mu c) (w_inner c) (w_min c) (w_max c) (w_A c) (w_lb c) (w_ub c).
Definition wc_put_mu (mu : R) (c : wcone) : wcone :=
  WCone (w_nf c) (w_R c) (w_L2 c) (w_W2 c) mu (w_inner c) (w_min c) (w_max c) (w_A c) (w_lb c) (w_ub c).
Definition wc_put_min (m : R) (c : wcone) : wcone :=
  WCone (w_nf c) (w_R c) (w_L2 c) (w_W2 c) (w_mu c) (w_inner c) m (w_max c) (w_A c) (w_lb c) (w_ub c).
Definition wc_put_max (m : Rbar) (c : wcone) : wcone :=
  WCone (w_nf c) (w_R c) (w_L2 c) (w_W2 c) (w_mu c) (w_inner c) (w_min c) m (w_A c) (w_lb c) (w_ub c).
Definition wc_set_inner (b : bool) (c : wcone) : wcone :=
  WCone (w_nf c) (w_R c) (w_L2 c) (w_W2 c) (w_mu c) b (w_min c) (w_max c) (w_A c) (w_lb c) (w_ub c).
Definition wc_set_mu (mu : R) (c : wcone) : wcone := let c := wc_put_mu mu c in if ltb0 mu then wc_put_mu 1 c else c.
Definition wc_set_min (m : R) (c : wcone) : wcone := let c := wc_put_min m c in if ltb0 m then wc_put_min 0 c else c.
Definition wc_set_max (m : Rbar) (c : wcone) : wcone := let c := wc_put_max m c in if Rbar_ltb0 m then wc_put_max p_infty c else c.
(** wrench-cone.hxx:237-250 *)
Definition wc_update_all (rot : mat) (mu : R) (l2 w2 : R) (fmin : R) (fmax : Rbar) (c : wcone) : wcone :=
  wc_update (wc_set_max fmax (wc_set_min fmin (wc_set_box l2 w2 (wc_set_inner (w_inner c) (wc_set_mu mu (wc_set_R rot c)))))).
Inductive wccall := WMu (mu : R) | WMin (m : R) | WMax (m : Rbar) | WInner (b : bool) | WR (rot : mat) | WBox (l2 w2 : R) | WUpdate
  | WUpdateAll (rot : mat) (mu l2 w2 fmin : R) (fmax : Rbar).
Definition wc_step (c : wcone) (k : wccall) : wcone :=
  match k with
  | WMu m => wc_set_mu m c | WMin m => wc_set_min m c | WMax m => wc_set_max m c | WInner b => wc_set_inner b c
  | WR rot => wc_set_R rot c | WBox l w => wc_set_box l w c | WUpdate => wc_update c | WUpdateAll rot mu l w a b => wc_update_all rot mu l w a b c
  end.
Definition wc_run (c : wcone) (ks : list wccall) : wcone := fold_left wc_step ks c.

(** ** CoP support: cop-support.hxx:56-75 *)
Definition cop_A (rot : mat) (l2 w2 : R) : mat := fun r j =>
  let L := l2 / 2 in let W := w2 / 2 in
  if (j <? 3)%nat then (if (r <? 2)%nat then - W * rot j 2%nat else - L * rot j 2%nat)
  else match r with
       | 0%nat => rot (j - 3)%nat 0%nat | 1%nat => - rot (j - 3)%nat 0%nat
       | 2%nat => rot (j - 3)%nat 1%nat | _ => - rot (j - 3)%nat 1%nat
       end.
Definition cop_lb (r : nat) : Rbar := m_infty.
Definition cop_ub (r : nat) : Rbar := Finite 0.
(** cop-support.hxx:22-28: a fixed 4x6 matrix is built from the (nf+13)x6 one; Eigen requires
    equal sizes.  [None]: the requirement is violated. *)
Definition cop_of_wrench (c : wcone) : option mat := if (w_nf c + 13 =? 4)%nat then Some (w_A c) else None.

(** The force part of a CoP row with the box size as an extended number (wrench-cone.hxx:178-190,
    cop-support.hxx:70-74): -W * R_transpose.row(2), in extended arithmetic.  The default
    constructors (wrench-cone.hxx:106-123, cop-support.hxx:38-49) use an infinite box and R = I. *)
Definition cop_force_x (w2 : xf) (Rz : nat -> Q) (j : nat) : xf := xmul (xopp (xmul w2 (Fin (1 # 2)))) (Fin (Rz j)).
