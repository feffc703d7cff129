(** Constraints built from a residual: ConstraintModelAbstract
    (include/crocoddyl/core/constraint-base.hxx, constraint-base.hpp), ConstraintModelResidual
    (core/constraints/residual.hxx) and what the constructor of ConstraintModelNumDiff keeps of
    its bounds (core/numdiff/constraint.hxx:12-18).

    Bounds are extended floating-point scalars ([xf]: exact finite values, infinities, NaN),
    [xmax] is std::numeric_limits<Scalar>::max().  Values and Jacobians are real.  Vectors and
    matrices of the data carry their number of rows; the number of columns of Gx and Hx is 2 nv. *)
From Coq Require Import QArith Reals List Arith Bool.
From Verif Require Import XFloat Deriv VecMat.
Import ListNotations.
Close Scope Q_scope.

Inductive ctype := Inequality | Equality | Both.
(** the residual that a constraint holds, as far as the constraint looks at it *)
Record resid := Resid { r_nr : nat; r_nu : nat; r_q : bool; r_v : bool; r_u : bool }.
Record cmodel := CModel { m_ngi : nat; m_nhi : nat; m_res : resid; m_type : ctype; m_lb : list xf; m_ub : list xf; m_ng : nat; m_nh : nat; m_T : bool }.

Inductive outcome (A : Type) := Ok (a : A) | Throws | Undefined.
Arguments Ok {A} a. Arguments Throws {A}. Arguments Undefined {A}.

Section Bounds.
Variable xmax : Q.

(** constraint-base.hxx:21-23 *)
Definition type_of (ng nh : nat) : ctype := if Nat.ltb 0 ng && Nat.ltb 0 nh then Both else if Nat.ltb 0 ng then Inequality else Equality.
(** constraint-base.hxx:12-43; 2 * (nr - nh) does not overflow *)
Definition new_base (r : resid) (ng nh : nat) : outcome cmodel :=
  if Nat.ltb (r_nr r) nh then Throws else
  if Nat.ltb (2 * (r_nr r - nh)) ng then Throws else
  Ok (CModel ng nh r (type_of ng nh) (repeat NInf ng) (repeat PInf ng) ng nh (r_q r || r_v r)).
(** constraint-base.hxx:45-63: the residual is a plain one of size ng + nh, which depends on everything *)
Definition new_plain (nu ng nh : nat) (T : bool) : cmodel :=
  CModel ng nh (Resid (ng + nh) nu true true true) (type_of ng nh) (repeat NInf ng) (repeat PInf ng) ng nh T.

(** (v.array() == c).any() *)
Definition any_eq (c : xf) (v : list xf) : bool := existsb (fun a => xeq a c) v.
(** residual.hxx:20-28, for i = [i], [i] + 1, ..., [i] + [n] - 1; reading outside a vector is undefined *)
Fixpoint scan (lb ub : list xf) (i n : nat) : outcome unit :=
  match n with
  | 0 => Ok tt
  | S n =>
    match nth_error lb i, nth_error ub i with
    | Some l, Some u => if is_fin l && is_fin u && xlt (Fin 0) (xsub l u) then Throws else scan lb ub (S i) n
    | _, _ => Undefined
    end
  end.
(** residual.hxx:29-40 and constraint-base.hxx:127-138 *)
Definition wrong_inf (lb ub : list xf) : bool := (any_eq PInf lb || any_eq (Fin xmax) lb) || (any_eq NInf ub || any_eq NInf ub).

(** residual.hxx:12-45 *)
Definition new_ineq (r : resid) (lower upper : list xf) (T : bool) : outcome cmodel :=
  match new_base r (r_nr r) 0 with
  | Ok m =>
    match scan lower upper 0 (r_nr r) with
    | Ok _ => if wrong_inf lower upper then Throws
              else Ok (CModel (m_ngi m) (m_nhi m) r (m_type m) lower upper (m_ng m) (m_nh m) (if T then m_T m else false))
    | Throws => Throws
    | Undefined => Undefined
    end
  | Throws => Throws
  | Undefined => Undefined
  end.
(** residual.hxx:47-56 *)
Definition new_eq (r : resid) (T : bool) : outcome cmodel :=
  match new_base r 0 (r_nr r) with
  | Ok m => Ok (CModel (m_ngi m) (m_nhi m) r (m_type m) (m_lb m) (m_ub m) (m_ng m) (m_nh m) (if T then m_T m else false))
  | o => o
  end.

(** ((upper - lower).array() <= 0).any() *)
Definition any_le0 (upper lower : list xf) : bool := existsb (fun p => xle (xsub (fst p) (snd p)) (Fin 0)) (combine upper lower).
(** constraint-base.hxx:113-149 *)
Definition update_bounds (lower upper : list xf) (m : cmodel) : outcome cmodel :=
  if negb (Nat.eqb (length upper) (m_ngi m)) || negb (Nat.eqb (length lower) (m_ngi m)) then Throws else
  if any_le0 upper lower then Throws else
  if wrong_inf (m_lb m) (m_ub m) then Throws else
  Ok (CModel (m_ngi m) (m_nhi m) (m_res m) (if Nat.eqb (m_nhi m) 0 then Inequality else Both) lower upper (m_ngi m) (m_nhi m) (m_T m)).
(** constraint-base.hxx:151-158 *)
Definition remove_bounds (m : cmodel) : cmodel :=
  CModel (m_ngi m) (m_nhi m) (m_res m) Equality (map (fun _ => NInf) (m_lb m)) (map (fun _ => PInf) (m_ub m)) 0 (m_nhi m + m_ngi m) (m_T m).

(** numdiff/constraint.hxx:12-18 (T_const has its default value, constraint-base.hpp) *)
Definition new_numdiff (m : cmodel) : cmodel := new_plain (r_nu (m_res m)) (m_ng m) (m_nh m) true.
End Bounds.

(** ** Data *)
Record sized (A : Type) := Sized { sz : nat; ct : A }.
Arguments Sized {A} sz ct. Arguments sz {A}. Arguments ct {A}.
Record kdata := KD { k_g : sized vec; k_h : sized vec; k_Gx : sized mat; k_Gu : sized mat; k_Hx : sized mat; k_Hu : sized mat }.
Local Open Scope R_scope.
Definition zv (n : nat) : sized vec := Sized n (fun _ => 0).
Definition zm (n : nat) : sized mat := Sized n (fun _ _ => 0).
(** constraint-base.hpp, ConstraintDataAbstractTpl *)
Definition create (m : cmodel) : outcome kdata :=
  if Nat.eqb (m_ng m) 0 && Nat.eqb (m_nh m) 0 then Throws
  else Ok (KD (zv (m_ng m)) (zv (m_nh m)) (zm (m_ng m)) (zm (m_ng m)) (zm (m_nh m)) (zm (m_nh m))).

Section Eval.
Variable nv : nat.
(** residual.hxx:58-78, 110-123: [r] is what the residual's calc has put in its data *)
Definition k_calc (m : cmodel) (r : vec) (d : kdata) : kdata :=
  let v := Sized (r_nr (m_res m)) r in
  match m_type m with
  | Inequality => KD v (k_h d) (k_Gx d) (k_Gu d) (k_Hx d) (k_Hu d)
  | Equality => KD (k_g d) v (k_Gx d) (k_Gu d) (k_Hx d) (k_Hu d)
  | Both => d
  end.
(** A.leftCols(nv) = B.leftCols(nv); A.rightCols(nv).setZero(), and the other way round: writing
    a block of the wrong number of rows is undefined *)
Definition left_block (n : nat) (B : mat) (A : sized mat) : outcome (sized mat) :=
  if Nat.eqb (sz A) n then Ok (Sized (sz A) (fun i j => if Nat.ltb j nv then B i j else 0)) else Undefined.
Definition right_block (n : nat) (B : mat) (A : sized mat) : outcome (sized mat) :=
  if Nat.eqb (sz A) n then Ok (Sized (sz A) (fun i j => if Nat.ltb j nv then 0 else B i j)) else Undefined.
(** residual.hxx:130-144 and 149-163 *)
Definition put_x (r : resid) (Rx : mat) (A : sized mat) : outcome (sized mat) :=
  if r_q r && r_v r then Ok (Sized (r_nr r) Rx)
  else if r_q r then left_block (r_nr r) Rx A
  else if r_v r then right_block (r_nr r) Rx A
  else Ok A.
Definition put_u (r : resid) (Ru : mat) (A : sized mat) : sized mat :=
  if r_u r || Nat.eqb (r_nu r) 0 then Sized (r_nr r) Ru else A.
(** residual.hxx:80-100, 125-165 *)
Definition k_calcDiff (m : cmodel) (Rx Ru : mat) (d : kdata) : outcome kdata :=
  match m_type m with
  | Inequality =>
    match put_x (m_res m) Rx (k_Gx d) with
    | Ok Gx => Ok (KD (k_g d) (k_h d) Gx (put_u (m_res m) Ru (k_Gu d)) (k_Hx d) (k_Hu d))
    | _ => Undefined
    end
  | Equality =>
    match put_x (m_res m) Rx (k_Hx d) with
    | Ok Hx => Ok (KD (k_g d) (k_h d) (k_Gx d) (k_Gu d) Hx (put_u (m_res m) Ru (k_Hu d)))
    | _ => Undefined
    end
  | Both => Ok d
  end.

(** The public calls on one model and one of its data *)
Inductive cop := OCalc (r : vec) | ODiff (Rx Ru : mat) | OUpdate (lower upper : list xf) | ORemove.
Definition cstep (xmax : Q) (s : cmodel * kdata) (o : cop) : outcome (cmodel * kdata) :=
  let '(m, d) := s in
  match o with
  | OCalc r => Ok (m, k_calc m r d)
  | ODiff Rx Ru => match k_calcDiff m Rx Ru d with Ok d => Ok (m, d) | _ => Undefined end
  | OUpdate l u => match update_bounds xmax l u m with Ok m => Ok (m, d) | _ => Ok (m, d) end  (* exception caught by the caller *)
  | ORemove => Ok (remove_bounds m, d)
  end.
Fixpoint crun (xmax : Q) (s : cmodel * kdata) (l : list cop) : outcome (cmodel * kdata) :=
  match l with [] => Ok s | o :: l => match cstep xmax s o with Ok s => crun xmax s l | e => e end end.
End Eval.
