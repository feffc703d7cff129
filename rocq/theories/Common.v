(** Shared vocabulary of the models: outcomes of C++ calls and [std::size_t]. *)
From Coq Require Import ZArith List Lia.
Import ListNotations.
Local Open Scope Z_scope.

(** Outcome of a C++ call that works on a mutable object of type [S] and
    returns an [A].
    - [Ok s a]: normal return, object left in state [s];
    - [Throw s]: an exception leaves the call, object left in state [s];
    - [UB]: the C++ code runs into undefined behaviour (out-of-range access,
      read of a destroyed object, ...). *)
Inductive outcome (S A : Type) : Type :=
| Ok : S -> A -> outcome S A
| Throw : S -> outcome S A
| UB : outcome S A.
Arguments Ok {S A}.
Arguments Throw {S A}.
Arguments UB {S A}.

(** State an outcome leaves behind, when there is one. *)
Definition out_state {S A} (o : outcome S A) : option S :=
  match o with Ok s _ => Some s | Throw s => Some s | UB => None end.

(** Arithmetic of [std::size_t] on the 64-bit platforms the library supports:
    unsigned, modulo 2^64. *)
Definition size_mod : Z := 2 ^ 64.
Definition wrap (z : Z) : Z := z mod size_mod.

(** [a + b] and [a - b] on [std::size_t]. *)
Definition sz_add (a b : Z) : Z := wrap (a + b).
Definition sz_sub (a b : Z) : Z := wrap (a - b).

Lemma size_mod_pos : 0 < size_mod.
Proof. reflexivity. Qed.

Lemma wrap_small z : 0 <= z < size_mod -> wrap z = z.
Proof. apply Z.mod_small. Qed.

Lemma wrap_add_l a b : wrap (wrap a + b) = wrap (a + b).
Proof. apply Zplus_mod_idemp_l. Qed.

Lemma wrap_sub_l a b : wrap (wrap a - b) = wrap (a - b).
Proof. apply Zminus_mod_idemp_l. Qed.

Lemma wrap_range z : 0 <= wrap z < size_mod.
Proof. apply Z.mod_pos_bound, size_mod_pos. Qed.

Fixpoint sumZ (l : list Z) : Z :=
  match l with [] => 0 | x :: r => x + sumZ r end.

Lemma sumZ_app l1 l2 : sumZ (l1 ++ l2) = sumZ l1 + sumZ l2.
Proof. induction l1; simpl; lia. Qed.

Lemma nth_error_ext {A} (l1 l2 : list A) :
  (forall n, nth_error l1 n = nth_error l2 n) -> l1 = l2.
Proof.
  revert l2. induction l1 as [|a l1 IH]; intros [|b l2] H; auto.
  - specialize (H 0%nat). discriminate.
  - specialize (H 0%nat). discriminate.
  - pose proof (H 0%nat) as H0. injection H0 as ->. f_equal. apply IH. intro n. apply (H (S n)).
Qed.
