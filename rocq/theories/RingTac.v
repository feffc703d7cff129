(** The standard library's ring and field tactics for mathcomp's real fields.  Usage in
    a section: [Add Field RF : (rft R).] and then [rng R] or [fld R]. *)
From mathcomp Require Import all_ssreflect all_algebra.
From Coq Require Import Ring Field.
Set Implicit Arguments. Unset Strict Implicit. Unset Printing Implicit Defensive.
Import GRing.Theory Num.Theory.
Local Open Scope ring_scope.

Section Ops.
Variable R : realFieldType.
Definition r0 : R := 0.
Definition r1 : R := 1.
Definition radd (a b : R) : R := a + b.
Definition rmul (a b : R) : R := a * b.
Definition ropp (a : R) : R := - a.
Definition rsub (a b : R) : R := a - b.
Definition rinv (a : R) : R := a^-1.
Definition rdiv (a b : R) : R := a / b.
(** Marks the atoms found by [rconv]. *)
Definition ratom (a : R) : R := a.
Lemma rrt : @ring_theory R r0 r1 radd rmul rsub ropp eq.
Proof.
by split; [exact: add0r|exact: addrC|exact: addrA|exact: mul1r|exact: mulrC|exact: mulrA|exact: mulrDl|by []|exact: subrr].
Qed.
Lemma rft : @field_theory R r0 r1 radd rmul rsub ropp rdiv rinv eq.
Proof. by split; [exact: rrt|exact/eqP/oner_neq0|by []|move=> p /eqP; exact: mulVf]. Qed.
Lemma r2_neq0 : radd r1 r1 <> r0.
Proof. by apply/eqP; rewrite -[radd _ _]/((2%:R : R)) pnatr_eq0. Qed.
(** Ring identities modulo given equations. *)
Lemma lincomb1 (l r a b : R) : a = b -> l - r = a - b -> l = r.
Proof. by move=> -> /eqP; rewrite subrr subr_eq0 => /eqP. Qed.
Lemma lincomb2 (l r a b a' b' : R) : a = b -> a' = b' -> l - r = (a - b) + (a' - b') -> l = r.
Proof. by move=> -> -> /eqP; rewrite !subrr addr0 subr_eq0 => /eqP. Qed.
End Ops.

Ltac rconv R t :=
  lazymatch t with
  | @GRing.add _ ?a (@GRing.opp _ ?b) => let a' := rconv R a in let b' := rconv R b in constr:(@rsub R a' b')
  | @GRing.add _ ?a ?b => let a' := rconv R a in let b' := rconv R b in constr:(@radd R a' b')
  | @GRing.mul _ ?a (@GRing.inv _ ?b) => let a' := rconv R a in let b' := rconv R b in constr:(@rdiv R a' b')
  | @GRing.mul _ ?a ?b => let a' := rconv R a in let b' := rconv R b in constr:(@rmul R a' b')
  | @GRing.opp _ ?a => let a' := rconv R a in constr:(@ropp R a')
  | @GRing.inv _ ?a => let a' := rconv R a in constr:(@rinv R a')
  | @GRing.zero _ => constr:(@r0 R)
  | @GRing.one _ => constr:(@r1 R)
  | @GRing.natmul _ ?a 0 => constr:(@r0 R)
  | @GRing.natmul _ ?a 1 => rconv R a
  | @GRing.natmul ?V ?a (S ?n) =>
      let a' := rconv R a in let b' := rconv R constr:(@GRing.natmul V a n) in constr:(@radd R a' b')
  | @GRing.exp _ ?a 0 => constr:(@r1 R)
  | @GRing.exp _ ?a 1 => rconv R a
  | @GRing.exp ?V ?a (S ?n) =>
      let a' := rconv R a in let b' := rconv R constr:(@GRing.exp V a n) in constr:(@rmul R a' b')
  | _ => constr:(@ratom R t)
  end.
Ltac rprep R :=
  match goal with |- @eq _ ?a ?b =>
    let a' := rconv R a in let b' := rconv R b in
    change (@eq (Num.RealField.sort R) a' b') end.
(** Convertible atoms are identified and generalised. *)
Ltac ratoms R :=
  repeat match goal with |- context [@ratom R ?a] =>
    repeat match goal with |- context [@ratom R ?b] =>
      assert_fails (constr_eq a b); unify a b; change (@ratom R b) with (@ratom R a) end;
    let x := fresh "x" in set (x := @ratom R a) end.
Ltac rng R := rprep R; ratoms R; ring.
Ltac fld R := rprep R; ratoms R; field; try exact: r2_neq0.

Section Test.
Variable R : realFieldType.
Add Field RF : (rft R).
Example rng_works (a b : R) : (a + b) * (a - b) = a * a - b ^+ 2.
Proof. by rng R. Qed.
Example fld_works (a b : R) : (a + b) ^+ 2 / 2%:R = 2%:R^-1 * (a * a + b * b) + a * b.
Proof. by fld R. Qed.
End Test.
