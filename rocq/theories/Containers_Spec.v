(** Specification of the named containers, independent of the counters and sets
    maintained by the code: a container is a partial function from names to
    items, and everything it advertises is a function of that. *)
From Coq Require Import ZArith String List Bool.
From Verif Require Import Common SMap Containers_Model.
Import ListNotations.
Local Open Scope Z_scope.

(** ** Abstract container: a finite partial function *)
Definition amap (A : Type) := string -> option A.
Definition aset {A} (n : string) (v : option A) (f : amap A) : amap A :=
  fun k => if String.eqb k n then v else f k.

(** Effect a user expects from each public call ([nu] is the control dimension
    of the container; an addition with another dimension or with a name that is
    already used has no effect). *)
Definition astep (nu : Z) (f : amap item) (o : cop) : amap item :=
  match o with
  | OpAdd n i | OpAddItem n i =>
      if Z.eqb (it_nu i) nu
      then match f n with Some _ => f | None => aset n (Some i) f end
      else f
  | OpRemove n => aset n None f
  | OpStatus n b => aset n (option_map (set_active b) (f n)) f
  end.

Definition arun (nu : Z) (h : list cop) : amap item :=
  fold_left (astep nu) h (fun _ => None).

(** The same without a dimension check (impulses). *)
Definition aistep (f : amap item) (o : cop) : amap item :=
  match o with
  | OpAdd n i => match f n with Some _ => f | None => aset n (Some i) f end
  | OpAddItem _ _ => f
  | OpRemove n => aset n None f
  | OpStatus n b => aset n (option_map (set_active b) (f n)) f
  end.
Definition airun (h : list cop) : amap item := fold_left aistep h (fun _ => None).

Definition amstep (nu : Z) (f : amap citem) (o : mop) : amap citem :=
  match o with
  | MAdd n i =>
      if Z.eqb (ci_nu i) nu
      then match f n with Some _ => f | None => aset n (Some i) f end
      else f
  | MRemove n => aset n None f
  | MStatus n b => aset n (option_map (cset_active b) (f n)) f
  end.
Definition amrun (nu : Z) (h : list mop) : amap citem :=
  fold_left (amstep nu) h (fun _ => None).

(** [enumerates l f]: [l] lists the graph of the partial function [f] without
    repetition. *)
Definition enumerates {A} (l : list (string * A)) (f : amap A) : Prop :=
  NoDup (map fst l) /\ (forall n v, In (n, v) l <-> f n = Some v).

(** Sum of [dim] over the items of a list that satisfy [p]. *)
Definition dims {A} (dim : A -> Z) (p : A -> bool) (l : list (string * A)) : Z :=
  sumZ (map (fun x => if p (snd x) then dim (snd x) else 0) l).

(** What the counters and sets of a cost/contact/impulse container must be when
    the stored items are given by [f]. *)
Definition exact_counters (s : cont) (f : amap item) : Prop :=
  (exists l, enumerates l f) /\
  forall l, enumerates l f ->
    c_n s = wrap (dims it_dim it_active l) /\
    c_ntot s = wrap (dims it_dim (fun _ => true) l).

Definition exact_sets (s : cont) (f : amap item) : Prop :=
  (forall n, In n (c_act s) <-> exists i, f n = Some i /\ it_active i = true) /\
  (forall n, In n (c_inact s) <-> exists i, f n = Some i /\ it_active i = false).

Definition exact_manager (s : cman) (f : amap citem) : Prop :=
  (exists l, enumerates l f) /\
  (forall l, enumerates l f ->
    m_ng s = wrap (dims ci_ng ci_active l) /\
    m_nh s = wrap (dims ci_nh ci_active l) /\
    m_ngT s = wrap (dims ci_ng (fun i => ci_active i && ci_T i) l) /\
    m_nhT s = wrap (dims ci_nh (fun i => ci_active i && ci_T i) l)) /\
  m_lbsize s = m_ng s /\
  (forall n, In n (m_act s) <-> exists i, f n = Some i /\ ci_active i = true) /\
  (forall n, In n (m_inact s) <-> exists i, f n = Some i /\ ci_active i = false).

(** Histories that avoid the two situations in which the counters go wrong:
    removal of an inactive item, and [addCost(CostItem)] with a used name. *)
Fixpoint careful (nu : Z) (f : amap item) (h : list cop) : Prop :=
  match h with
  | [] => True
  | o :: r =>
      match o with
      | OpRemove n => match f n with Some i => it_active i = true | None => True end
      | OpAddItem n i => it_nu i = nu -> f n = None
      | _ => True
      end /\ careful nu (astep nu f o) r
  end.

(** Dimensions of the items that were inactive when they were removed. *)
Fixpoint removed_inactive (nu : Z) (f : amap item) (h : list cop) : Z :=
  match h with
  | [] => 0
  | o :: r =>
      match o with
      | OpRemove n => match f n with
                      | Some i => if it_active i then 0 else it_dim i
                      | None => 0
                      end
      | _ => 0
      end + removed_inactive nu (astep nu f o) r
  end.

Definition no_item_overload (h : list cop) : Prop :=
  forall o, In o h -> match o with OpAddItem _ _ => False | _ => True end.
