(** Scalars with the IEEE special values: finite values are rationals (no
    rounding), comparisons with NaN are false. *)
From Coq Require Import QArith Qabs Bool.

Inductive xf := NaN | PInf | NInf | Fin (q : Q).

(** [a < b] *)
Definition xlt (a b : xf) : bool :=
  match a, b with
  | NaN, _ | _, NaN => false
  | NInf, NInf => false
  | NInf, _ => true
  | _, NInf => false
  | PInf, _ => false
  | _, PInf => true
  | Fin p, Fin q => negb (Qle_bool q p)
  end.

(** [a <= b] *)
Definition xle (a b : xf) : bool :=
  match a, b with
  | NaN, _ | _, NaN => false
  | NInf, _ => true
  | _, NInf => false
  | _, PInf => true
  | PInf, _ => false
  | Fin p, Fin q => Qle_bool p q
  end.

(** [a == b] *)
Definition xeq (a b : xf) : bool :=
  match a, b with
  | PInf, PInf | NInf, NInf => true
  | Fin p, Fin q => Qeq_bool p q
  | _, _ => false
  end.

Definition is_nan (a : xf) : bool := match a with NaN => true | _ => false end.
Definition is_inf (a : xf) : bool := match a with PInf | NInf => true | _ => false end.
Definition is_fin (a : xf) : bool := match a with Fin _ => true | _ => false end.

Lemma xlt_not_le a b : is_nan a = false -> is_nan b = false -> xlt a b = negb (xle b a).
Proof. destruct a, b; simpl; intros; try discriminate; auto. Qed.

Lemma xle_not_lt a b : is_nan a = false -> is_nan b = false -> xle a b = negb (xlt b a).
Proof.
  destruct a, b; simpl; intros; try discriminate; auto. now rewrite negb_involutive.
Qed.

Lemma xlt_le a b : xlt a b = true -> xle a b = true.
Proof.
  destruct a as [| | |p], b as [| | |q]; simpl; auto; try discriminate. intro H. apply negb_true_iff in H.
  apply Qle_bool_iff. destruct (Qlt_le_dec p q) as [L|L].
  - now apply Qlt_le_weak.
  - apply Qle_bool_iff in L. congruence.
Qed.

Lemma xlt_trans a b c : xlt a b = true -> xlt b c = true -> xlt a c = true.
Proof.
  destruct a as [| | |p], b as [| | |q], c as [| | |r]; simpl; auto; try discriminate.
  rewrite !negb_true_iff. intros H1 H2.
  assert (p < q)%Q as L1 by (apply Qnot_le_lt; intro L; apply Qle_bool_iff in L; congruence).
  assert (q < r)%Q as L2 by (apply Qnot_le_lt; intro L; apply Qle_bool_iff in L; congruence).
  destruct (Qle_bool r p) eqn:E; auto. apply Qle_bool_iff in E.
  exfalso. apply (Qlt_irrefl p). apply Qlt_trans with q; auto. apply Qlt_le_trans with r; auto.
Qed.

(** Arithmetic: exact on finite values, IEEE rules on the special ones (signed zeros
    are not distinguished, nothing overflows or rounds). *)
Definition xopp (a : xf) : xf :=
  match a with NaN => NaN | PInf => NInf | NInf => PInf | Fin p => Fin (- p) end.
Definition xadd (a b : xf) : xf :=
  match a, b with
  | NaN, _ | _, NaN => NaN
  | PInf, NInf | NInf, PInf => NaN
  | PInf, _ | _, PInf => PInf
  | NInf, _ | _, NInf => NInf
  | Fin p, Fin q => Fin (Qred (p + q))
  end.
Definition xsub (a b : xf) : xf := xadd a (xopp b).
Definition xsgn (a : xf) : comparison :=
  match a with NaN => Eq | PInf => Gt | NInf => Lt | Fin p => (p ?= 0)%Q end.
Definition xinf (s : comparison) : xf := match s with Eq => NaN | Gt => PInf | Lt => NInf end.
Definition sgn_mul (s t : comparison) : comparison :=
  match s with Eq => Eq | Gt => t | Lt => CompOpp t end.
Definition xmul (a b : xf) : xf :=
  match a, b with
  | NaN, _ | _, NaN => NaN
  | Fin p, Fin q => Fin (Qred (p * q))
  | _, _ => xinf (sgn_mul (xsgn a) (xsgn b))
  end.
Definition xdiv (a b : xf) : xf :=
  match a, b with
  | NaN, _ | _, NaN => NaN
  | Fin p, Fin q => if Qeq_bool q 0 then xinf (xsgn a) else Fin (Qred (p / q))
  | Fin _, _ => Fin 0
  | _, Fin q => xinf (sgn_mul (xsgn a) (match (q ?= 0)%Q with Eq => Gt | s => s end))
  | _, _ => NaN
  end.
Definition xabs (a : xf) : xf :=
  match a with NaN => NaN | PInf | NInf => PInf | Fin p => Fin (Qabs.Qabs p) end.

(** [raiseIfNaN], solver-base.cpp:476-482 *)
Definition bad (a : xf) : bool :=
  is_nan a || is_inf a || xle (Fin (1000000000000000000000000000000 # 1)) a.
