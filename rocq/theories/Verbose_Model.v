(** The table printed by CallbackVerbose (src/core/utils/callbacks.cpp,
    include/crocoddyl/core/utils/callbacks.hpp).

    Text is [string].  The values of the solver are [xf] scalars; how iostreams round a finite
    value to decimal digits is an oracle ([dec], [fdec], [gen]); how the digits are laid out
    (digit, point, digits, exponent with a sign and at least two digits) is modelled.  Of the
    state of std::cout the notation and the precision are modelled; width, fill and adjustment are
    taken at their defaults.  abs is the floating-point one.  A negative zero is not represented.
    The int 6 + precision_ is taken not to overflow. *)
From Coq Require Import QArith Qabs ZArith List Arith Bool String Ascii DecimalString.
From Verif Require Import XFloat.
Import ListNotations.
Close Scope Q_scope.
Local Open Scope string_scope.
Local Open Scope nat_scope.

(** callbacks.hpp:18-29 *)
Inductive vlevel := L0 | L1 | L2 | L3 | L4.
(** what the row reads from the solver (solver-base.cpp:310-366); [D0] is get_d()[0] *)
Inductive quantity := Cost | Merit | Stop | D0 | Preg | Dreg | Step | Ffeas | Gfeas | Hfeas | DVexp | DV | DPhiexp | DPhi.

(** ** Text *)
Definition newline : string := String (ascii_of_nat 10) EmptyString.
Fixpoint blanks (n : nat) : string := match n with O => EmptyString | S n' => String " " (blanks n') end.
Definition digit (d : nat) : ascii := ascii_of_nat (48 + d).
Fixpoint digits (l : list nat) : string := match l with [] => EmptyString | d :: l => String (digit d) (digits l) end.
Definition nat_text (n : nat) : string := NilZero.string_of_uint (Nat.to_uint n).

(** a value rounded to decimal digits: [lead].[frac] times ten to the [expo] *)
Record decimal := Decimal { lead : nat; frac : list nat; expo : Z }.
(** std::scientific: the point only when digits follow it, at least two digits of exponent *)
Definition expo_text (e : Z) : string :=
  (if Z.ltb e 0 then "-" else "+") ++ (if Z.ltb (Z.abs e) 10 then "0" else "") ++ nat_text (Z.to_nat (Z.abs e)).
Definition sci_text (d : decimal) : string :=
  String (digit (lead d)) ((match frac d with [] => "" | _ => "." ++ digits (frac d) end) ++ "e" ++ expo_text (expo d)).
(** std::fixed *)
Definition fix_text (d : list nat * list nat) : string :=
  digits (fst d) ++ (match snd d with [] => "" | _ => "." ++ digits (snd d) end).

Inductive notation := General | Scientific | Fixed.
Record fmt := Fmt { f_not : notation; f_prec : nat }.

Section Callback.
(** rounding to decimal digits of a nonnegative value, at a precision *)
Variable dec : nat -> Q -> decimal.
Variable fdec : nat -> Q -> list nat * list nat.
Variable gen : nat -> Q -> string.

Definition magnitude (f : fmt) (q : Q) : string :=
  match f_not f with
  | Scientific => sci_text (dec (f_prec f) q)
  | Fixed => fix_text (fdec (f_prec f) q)
  | General => gen (f_prec f) q
  end.
(** operator<< of a double *)
Definition put_double (f : fmt) (v : xf) : string :=
  match v with
  | NaN => "nan" | PInf => "inf" | NInf => "-inf"
  | Fin q => (if Qle_bool 0 q then "" else "-") ++ magnitude f (Qabs q)
  end.
Definition xabs (v : xf) : xf := match v with NaN => NaN | PInf | NInf => PInf | Fin q => Fin (Qabs q) end.

(** ** The header *)
Definition separator : string := "  ".
Definition separator_short : string := " ".
(** callbacks.cpp:41-55 *)
Definition center_string (str : string) (width : nat) (right_padding : bool) : string :=
  let padding_size := (Z.of_nat width - Z.of_nat (String.length str))%Z in
  let padding_left := if Z.ltb 0 padding_size then Z.quot padding_size 2 else 0%Z in
  let padding_right := if negb (Z.eqb (Z.rem padding_size 2) 0) then (padding_left + 1)%Z else padding_left in
  if right_padding then blanks (Z.to_nat padding_left) ++ str ++ blanks (Z.to_nat padding_right)
  else blanks (Z.to_nat padding_left) ++ str.

(** callbacks.cpp:57-137; header_ += appends *)
Definition update_header (lv : vlevel) (precision : nat) : string :=
  let columnwidth := 6 + precision in
  let col s := center_string s columnwidth true ++ separator in
  let step := center_string "step" 6 true ++ separator in
  let last s := center_string s columnwidth false in
  let h := "iter" ++ separator in
  match lv with
  | L0 => h ++ col "cost" ++ col "stop" ++ col "|grad|" ++ col "preg" ++ step ++ col "dV-exp" ++ last "dV"
  | L1 => h ++ col "cost" ++ col "merit" ++ col "stop" ++ col "|grad|" ++ col "preg" ++ step ++ col "||ffeas||"
          ++ col "dV-exp" ++ last "dV"
  | L2 => h ++ col "cost" ++ col "merit" ++ col "stop" ++ col "|grad|" ++ col "preg" ++ col "dreg" ++ step
          ++ col "||ffeas||" ++ col "dV-exp" ++ last "dV"
  | L3 => h ++ col "cost" ++ col "merit" ++ col "stop" ++ col "|grad|" ++ col "preg" ++ col "dreg" ++ step
          ++ col "||ffeas||" ++ col "||gfeas||" ++ col "||hfeas||" ++ col "dV-exp" ++ last "dV"
  | L4 => h ++ col "cost" ++ col "merit" ++ col "stop" ++ col "|grad|" ++ col "preg" ++ col "dreg" ++ step
          ++ col "||ffeas||" ++ col "||gfeas||" ++ col "||hfeas||" ++ col "dV-exp" ++ col "dV" ++ col "dPhi-exp"
          ++ last "dPhi"
  end.

Record callback := Callback { level : vlevel; precision : nat; header : string }.
(** callbacks.cpp:26-29 *)
Definition set_level (lv : vlevel) (c : callback) : callback :=
  Callback lv (precision c) (update_header lv (precision c)).
(** callbacks.cpp:33-37; None is the exception *)
Definition set_precision (p : Z) (c : callback) : option callback :=
  if Z.ltb p 0 then None
  else Some (Callback (level c) (Z.to_nat p) (update_header (level c) (Z.to_nat p))).
(** callbacks.cpp:14-20; precision_ and header_ are uninitialised and empty before set_precision *)
Definition new_callback (lv : vlevel) (p : Z) : option callback := set_precision p (Callback lv 0 "").

(** ** A row *)
(** callbacks.cpp:144-153; the stream is a local one *)
Definition space_sign (precision : nat) (v : xf) : string :=
  (if xle (Fin 0) v then " " else "-") ++ put_double (Fmt Scientific precision) (xabs v).

(** the operands of << in a row: [Sci], [Fix4] are the manipulators, [Abs] and [Val] doubles,
    [Signed] a string of space_sign *)
Inductive item := Sep | SepShort | Sci | Fix4 | Val (q : quantity) | Abs (q : quantity) | Signed (q : quantity).
(** callbacks.cpp:157-231 *)
Definition row_items (lv : vlevel) : list item :=
  match lv with
  | L0 => [Sci; Val Cost; Sep; Val Stop; Sep; Abs D0; Sep; Val Preg; Sep; Fix4; Val Step; SepShort;
           Signed DVexp; SepShort; Signed DV]
  | L1 => [Sci; Val Cost; SepShort; Signed Merit; Sep; Val Stop; Sep; Abs D0; Sep; Val Preg; Sep;
           Fix4; Val Step; Sep; Sci; Val Ffeas; SepShort; Signed DVexp; SepShort; Signed DV]
  | L2 => [Sci; Val Cost; SepShort; Signed Merit; Sep; Val Stop; Sep; Abs D0; Sep; Val Preg; Sep; Val Dreg; Sep;
           Fix4; Val Step; Sep; Sci; Val Ffeas; SepShort; Signed DVexp; SepShort; Signed DV]
  | L3 => [Sci; Val Cost; SepShort; Signed Merit; Sep; Val Stop; Sep; Abs D0; Sep; Val Preg; Sep; Val Dreg; Sep;
           Fix4; Val Step; Sep; Sci; Val Ffeas; Sep; Val Gfeas; Sep; Val Hfeas; SepShort;
           Signed DVexp; SepShort; Signed DV]
  | L4 => [Sci; Val Cost; SepShort; Signed Merit; Sep; Val Stop; Sep; Abs D0; Sep; Val Preg; Sep; Val Dreg; Sep;
           Fix4; Val Step; Sep; Sci; Val Ffeas; Sep; Val Gfeas; Sep; Val Hfeas; SepShort;
           Signed DVexp; SepShort; Signed DV; SepShort; Signed DPhiexp; SepShort; Signed DPhi]
  end.

Section Row.
Variable precision : nat.
Variable get : quantity -> xf.
Fixpoint put_items (f : fmt) (l : list item) : fmt * string :=
  match l with
  | [] => (f, "")
  | i :: l =>
    let f' := match i with Sci => Fmt Scientific precision | Fix4 => Fmt Fixed 4 | _ => f end in
    let s := match i with
             | Sep => separator | SepShort => separator_short | Sci | Fix4 => ""
             | Val q => put_double f (get q) | Abs q => put_double f (xabs (get q))
             | Signed q => space_sign precision (get q)
             end in
    let (f'', r) := put_items f' l in (f'', s ++ r)
  end.
End Row.

(** std::setw(4) << size_t *)
Definition iter_text (it : nat) : string := let s := nat_text it in blanks (4 - String.length s) ++ s.

(** callbacks.cpp:139-236: the new format of std::cout and what is printed *)
Definition call (c : callback) (it : nat) (get : quantity -> xf) (f : fmt) : fmt * string :=
  let h := if Nat.eqb (it mod 10) 0 then header c ++ newline else "" in
  let (f', r) := put_items (precision c) get f (row_items (level c)) in
  (f', h ++ iter_text it ++ separator ++ r ++ newline).
End Callback.
