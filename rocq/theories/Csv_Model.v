(** The CSV writer: include/crocoddyl/core/utils/file-io.hpp:20-93.

    The bytes that reached the file are a list of characters; an I/O failure (the stream is opened
    with exceptions enabled) is not modelled.  What [fs_ << val] prints for a value that is not a
    string is a given list of characters: numbers go through the stream's own formatting. *)
From Coq Require Import List Ascii Arith Bool.
Import ListNotations.
Open Scope list_scope.
Open Scope nat_scope.

Notation str := (list ascii).
Definition quote : ascii := """"%char.
Definition newline : ascii := "010"%char.

(** file-io.hpp:21-25: fs_ (what was written), is_first_, separator_ *)
Record csv := Csv { out : str; is_first : bool; separator : str }.
(** 28-36 *)
Definition csv_open (sep : str) : csv := Csv [] true sep.

(** val.find_first_of(special_chars_, from), special_chars_ = the quote; [None] is npos *)
Fixpoint find_from (val : str) (i from : nat) : option nat :=
  match val with
  | [] => None
  | c :: r => if (from <=? i) && Ascii.eqb c quote then Some i else find_from r (S i) from
  end.
Definition substr (val : str) (from n : nat) : str := firstn n (skipn from val).
(** 80-91: the loop, on the contents of [result]; the fuel is the number of turns, and running out
    of it would be visible as [None] *)
Fixpoint escape_loop (fuel : nat) (val : str) (from : nat) (result : str) : option (str * nat) :=
  match fuel with
  | O => None
  | S k =>
      if from <? length val then
        match find_from val 0 from with
        | Some to => escape_loop k val (to + 1) (result ++ substr val from (to - from) ++ [quote] ++ substr val to 1)
        | None => Some (result, from)
        end
      else Some (result, from)
  end.
Definition escape (val : str) : option str :=
  match escape_loop (S (length val)) val 0 [quote] with
  | Some (result, from) => Some (result ++ skipn from val ++ [quote])
  | None => None
  end.

(** 69-78 *)
Definition write (t : str) (s : csv) : csv :=
  if is_first s then Csv (out s ++ t) false (separator s)
  else Csv (out s ++ separator s ++ t) false (separator s).
(** 50-53 *)
Definition endrow (s : csv) : csv := Csv (out s ++ [newline]) true (separator s).

(** 55-64: the overloads.  [Text] is a const char* or a std::string; [Value t] any other type (for
    which the template is chosen: numbers, characters, char* buffers), printed by the stream as [t]. *)
Inductive item := Text (s : str) | Value (t : str) | EndRow.
Definition put (s : csv) (i : item) : csv :=
  match i with
  | Text v => match escape v with Some e => write e s | None => s end
  | Value t => write t s
  | EndRow => endrow s
  end.
Definition csv_file (sep : str) (l : list item) : str := out (fold_left put l (csv_open sep)).
