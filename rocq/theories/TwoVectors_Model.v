(** rotationMatrixFromTwoVectors: bindings/python/crocoddyl/__init__.py:15-28, over the reals (no
    rounding, so [== 0] is exact), for vectors of shape (3,). *)
From Coq Require Import Reals.
From Verif Require Import Spatial.
Open Scope R_scope.

(** np.linalg.norm *)
Definition norm3 (a : v3) : R := sqrt (dot3 a a).
Definition madd (A B : m3) : m3 := M3 (add3 (row1 A) (row1 B)) (add3 (row2 A) (row2 B)) (add3 (row3 A) (row3 B)).
Definition mscal (k : R) (A : m3) : m3 := M3 (scal3 k (row1 A)) (scal3 k (row2 A)) (scal3 k (row3 A)).
Definition div3 (a : v3) (k : R) : v3 := V3 (c1 a / k) (c2 a / k) (c3 a / k).

Definition two_vectors (a b : v3) : m3 :=
  let a_norm := norm3 a in
  let b_norm := norm3 b in
  if Req_EM_T a_norm 0 then I3
  else if Req_EM_T b_norm 0 then I3
  else
    let a_copy := div3 a a_norm in
    let b_copy := div3 b b_norm in
    let a_cross_b := cross a_copy b_copy in
    let s := norm3 a_cross_b in
    if Req_EM_T s 0 then I3
    else
      let c := dot3 a_copy b_copy in
      let ab_skew := skew a_cross_b in
      madd (madd I3 ab_skew) (mscal (/ (s * s)) (mscal (1 - c) (mm ab_skew ab_skew))).
