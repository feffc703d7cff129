(** The Python classes of name sets and named maps: StdSet_String and the StdMap_* classes
    (bindings/python/crocoddyl/utils/set_indexing_suite.hpp, set-converter.hpp, map-converter.hpp).

    A Python object is what extract<> can make of it: a string, a mapped value, or something else.
    Boost.Python's indexing_suite, which turns Python indices and slices into positions before it
    calls the functions of set_indexing_suite, is modelled too ([convert_index], [slice_data]);
    Python integers are taken to fit a long.  Reference counting and the objects' identities are
    not modelled. *)
From Coq Require Import ZArith String List Bool.
From Verif Require Import SMap.
Import ListNotations.
Local Open Scope Z_scope.

Section Bindings.
Context {V : Type}.

(** [PyIter]: an iterator *)
Inductive pyobj := PyStr (s : string) | PyVal (v : V) | PyIter | PyOther (n : nat).
Inductive pyexc := KeyError | IndexError | TypeError | ValueError.
(** what a call returns to Python *)
Inductive answer := ANone | AStr (s : string) | ABool (b : bool) | AInt (n : Z) | ASet (s : sset).
(** [Undef]: an iterator is moved past the end *)
Inductive result := Return (s : sset) (a : answer) | Raise (s : sset) (e : pyexc) | Undef.

(** extract<std::string> *)
Definition extract_str (o : pyobj) : option string := match o with PyStr s => Some s | _ => None end.
Definition extract_val (o : pyobj) : option V := match o with PyVal v => Some v | _ => None end.

(** ** Positions *)
(** Boost.Python, vector_indexing_suite::convert_index *)
Definition convert_index (n i : Z) : option Z :=
  let i := if i <? 0 then i + n else i in if (n <=? i) || (i <? 0) then None else Some i.
(** Boost.Python, slice_helper::base_get_slice_data; [None] for an absent bound *)
Definition slice_bound (n dflt : Z) (a : option Z) : Z :=
  match a with
  | None => dflt
  | Some a => let a := if a <? 0 then a + n else a in let a := if a <? 0 then 0 else a in if n <? a then n else a
  end.
(** [step]: whether the slice has a step *)
Definition slice_data (n : Z) (a b : option Z) (step : bool) : option (Z * Z) :=
  if step then None else Some (slice_bound n 0 a, slice_bound n n b).

Definition size (s : sset) : Z := Z.of_nat (length s).
(** std::advance from begin() by [i] *)
Definition reachable (s : sset) (i : Z) : bool := i <=? size s.

(** ** The functions of set_indexing_suite *)
(** set_indexing_suite.hpp:65-67 *)
Definition contains (s : sset) (k : string) : bool := existsb (String.eqb k) s.
(** 69-75, 84 *)
Definition add (s : sset) (v : string) : result := Return (sinsert v s) ANone.
Definition discard (s : sset) (v : string) : result := Return (serase v s) ANone.
(** 77-82: erase returns the number of elements removed *)
Definition remove (s : sset) (v : string) : result :=
  if contains s v then Return (serase v s) ANone else Raise s KeyError.
Definition clear : result := Return [] ANone.
(** 86-88: dereferencing end() is undefined *)
Definition get_item (s : sset) (i : Z) : result :=
  match nth_error s (Z.to_nat i) with Some x => Return s (AStr x) | None => Undef end.
(** 90-92, 107-114 *)
Definition not_supported (s : sset) : result := Raise s TypeError.
(** 94-96 *)
Definition delete_item (s : sset) (i : Z) : result :=
  if i <? size s then Return (firstn (Z.to_nat i) s ++ skipn (S (Z.to_nat i)) s) ANone else Undef.
(** 130-139: the elements of the range *)
Definition slice (s : sset) (from to : Z) : option sset :=
  if reachable s from && reachable s to then Some (firstn (Z.to_nat (to - from)) (skipn (Z.to_nat from) s)) else None.
(** Container(first, last) *)
Definition of_range (l : list string) : sset := fold_left (fun s x => sinsert x s) l [].
(** 98-105 *)
Definition get_slice (s : sset) (from to : Z) : result :=
  if to <? from then Return s (ASet [])
  else match slice s from to with Some l => Return s (ASet (of_range l)) | None => Undef end.
(** 116-122 *)
Definition delete_slice (s : sset) (from to : Z) : result :=
  if from <=? to then
    match slice s from to with
    | Some _ => Return (firstn (Z.to_nat from) s ++ skipn (Z.to_nat to) s) ANone
    | None => Undef
    end
  else Return s ANone.
(** 141-157 *)
Definition function (fn : sset -> string -> result) (s : sset) (o : pyobj) : result :=
  match extract_str o with Some v => fn s v | None => Raise s TypeError end.

(** ** What Python calls *)
Inductive op :=
| Add (o : pyobj) | Remove (o : pyobj) | Discard (o : pyobj) | Clear
| Len | In_ (o : pyobj) | Get (i : Z) | Del (i : Z) | Set_ (i : Z) (o : pyobj)
| GetSlice (a b : option Z) (step : bool) | DelSlice (a b : option Z) (step : bool).
(** extension_def (57-63) and Boost's indexing_suite: base_get_item, base_delete_item, base_set_item,
    base_contains, base_size *)
Definition step (s : sset) (o : op) : result :=
  match o with
  | Add x => function add s x
  | Remove x => function remove s x
  | Discard x => function discard s x
  | Clear => clear
  | Len => Return s (AInt (size s))
  | In_ x => match extract_str x with Some k => Return s (ABool (contains s k)) | None => Return s (ABool false) end
  | Get i => match convert_index (size s) i with Some k => get_item s k | None => Raise s IndexError end
  | Del i => match convert_index (size s) i with Some k => delete_item s k | None => Raise s IndexError end
  | Set_ i x =>
      match extract_str x with
      | Some _ => match convert_index (size s) i with Some _ => not_supported s | None => Raise s IndexError end
      | None => Raise s TypeError
      end
  | GetSlice a b st => match slice_data (size s) a b st with Some (f, t) => get_slice s f t | None => Raise s IndexError end
  | DelSlice a b st => match slice_data (size s) a b st with Some (f, t) => delete_slice s f t | None => Raise s IndexError end
  end.

(** ** Conversions *)
(** PickleSet, set-converter.hpp:31-47: getstate lists the elements, setstate inserts them into a new
    object *)
Definition getstate (s : sset) : list pyobj := map PyStr s.
Definition setstate (l : list pyobj) (o : sset) : option sset :=
  fold_left (fun r x => match r, extract_str x with Some s, Some v => Some (sinsert v s) | _, _ => None end) l (Some o).
(** set_to_set::convertible, 62-76, of a Python set with elements [l]: extract is applied to the
    iterator *)
Fixpoint convertible (l : list pyobj) : bool :=
  match l with
  | [] => true
  | _ :: l => match extract_str PyIter with Some _ => convertible l | None => false end
  end.
(** construct, 83-104; None: the argument does not match, or the construction throws *)
Definition from_python_set (l : list pyobj) : option sset := if convertible l then setstate l [] else None.
(** toset, 106-112: PySet_Add keeps one of equal elements *)
Definition to_python_set (s : sset) : list string := nodup string_dec s.

(** dict_to_map::construct, map-converter.hpp:51-92, for a dict with the items [d] (in order of
    insertion); the error is raised in the middle of the construction. *)
Definition map_put (k : string) (v : V) (m : smap V) : smap V :=
  match mfind k m with Some _ => mupdate k (fun _ => v) m | None => minsert k v m end.
Fixpoint fill (d : list (pyobj * pyobj)) (m : smap V) : smap V + pyexc :=
  match d with
  | [] => inl m
  | (ko, vo) :: d =>
      match extract_str ko with
      | None => inr KeyError
      | Some k => match extract_val vo with None => inr ValueError | Some v => fill d (map_put k v m) end
      end
  end.
Definition from_python_dict (d : list (pyobj * pyobj)) : smap V + pyexc := fill d [].
(** todict, 94-101: setdefault *)
Definition to_python_dict (m : smap V) : list (string * V) :=
  fold_left (fun d e => if existsb (String.eqb (fst e)) (map fst d) then d else d ++ [e]) m [].
End Bindings.
Arguments pyobj : clear implicits.
Arguments op : clear implicits.
