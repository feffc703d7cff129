(** Bookkeeping of the named containers: costs, contacts, impulses, constraints.

    Simplifications: an item keeps only what the bookkeeping reads (dimension,
    control dimension, status).  The warning printed on [std::cerr] is not
    modelled.  Items are owned by the container: a caller that keeps the
    [shared_ptr] of an item and flips its public [active] member directly is
    outside the model. *)
From Coq Require Import ZArith String List Bool.
From Verif Require Import Common SMap.
Import ListNotations.
Local Open Scope Z_scope.

(** [CostItemTpl] / [ContactItemTpl] / [ImpulseItemTpl]
    (core/costs/cost-sum.hpp, multibody/contacts/multiple-contacts.hpp,
    multibody/impulses/multiple-impulses.hpp): [it_dim] is
    [get_activation()->get_nr()] or [get_nc()]. *)
Record item := Item { it_dim : Z; it_nu : Z; it_active : bool }.

Definition set_active (b : bool) (i : item) : item :=
  Item (it_dim i) (it_nu i) b.

(** Members [nu_], [nr_]/[nc_], [nr_total_]/[nc_total_], the [std::map] and the
    two [std::set]s of [CostModelSumTpl], [ContactModelMultipleTpl],
    [ImpulseModelMultipleTpl]. *)
Record cont := Cont {
  c_nu : Z;
  c_n : Z;
  c_ntot : Z;
  c_items : smap item;
  c_act : sset;
  c_inact : sset }.

(** Constructors: cost-sum.hxx:13-19, multiple-contacts.hxx:13-29,
    multiple-impulses.hxx:13-15. *)
Definition empty_cont (nu : Z) : cont := Cont nu 0 0 [] [] [].

(** Body shared by [addCost(name, cost, weight, active)] (cost-sum.hxx:35-49),
    [addContact] (multiple-contacts.hxx:43-56) and [addImpulse]
    (multiple-impulses.hxx:21-39): insert, and count only if inserted. *)
Definition add_checked (name : string) (i : item) (s : cont) : cont :=
  match mfind name (c_items s) with
  | Some _ => s
  | None =>
      let items := minsert name i (c_items s) in
      if it_active i
      then Cont (c_nu s) (sz_add (c_n s) (it_dim i)) (sz_add (c_ntot s) (it_dim i))
                items (sinsert name (c_act s)) (c_inact s)
      else Cont (c_nu s) (c_n s) (sz_add (c_ntot s) (it_dim i))
                items (c_act s) (sinsert name (c_inact s))
  end.

(** [CostModelSumTpl::addCost(name, ...)], cost-sum.hxx:25-49, and
    [ContactModelMultipleTpl::addContact], multiple-contacts.hxx:34-57: the
    control dimension is checked first. *)
Definition add_named (name : string) (i : item) (s : cont) : outcome cont unit :=
  if Z.eqb (it_nu i) (c_nu s) then Ok (add_checked name i s) tt else Throw s.

(** [ImpulseModelMultipleTpl::addImpulse], multiple-impulses.hxx:21-39: no
    dimension check. *)
Definition add_impulse (name : string) (i : item) (s : cont) : outcome cont unit :=
  Ok (add_checked name i s) tt.

(** [CostModelSumTpl::addCost(cost_item)], cost-sum.hxx:52-68: the result of
    [insert] is ignored. *)
Definition add_item (name : string) (i : item) (s : cont) : outcome cont unit :=
  if Z.eqb (it_nu i) (c_nu s)
  then
    let items := minsert name i (c_items s) in
    Ok (if it_active i
        then Cont (c_nu s) (sz_add (c_n s) (it_dim i)) (sz_add (c_ntot s) (it_dim i))
                  items (sinsert name (c_act s)) (c_inact s)
        else Cont (c_nu s) (c_n s) (sz_add (c_ntot s) (it_dim i))
                  items (c_act s) (sinsert name (c_inact s))) tt
  else Throw s.

(** [removeCost] (cost-sum.hxx:71-83), [removeContact]
    (multiple-contacts.hxx:60-72), [removeImpulse] (multiple-impulses.hxx:42-54):
    [n_] is decremented whatever the status of the item. *)
Definition remove (name : string) (s : cont) : cont :=
  match mfind name (c_items s) with
  | Some i =>
      Cont (c_nu s) (sz_sub (c_n s) (it_dim i)) (sz_sub (c_ntot s) (it_dim i))
           (merase name (c_items s)) (serase name (c_act s)) (serase name (c_inact s))
  | None => s
  end.

(** [changeCostStatus] (cost-sum.hxx:86-105), [changeContactStatus]
    (multiple-contacts.hxx:75-94), [changeImpulseStatus]
    (multiple-impulses.hxx:57-75).  The last two write [active] in every branch,
    which is the same as writing it in the two branches that change it. *)
Definition change_status (name : string) (b : bool) (s : cont) : cont :=
  match mfind name (c_items s) with
  | Some i =>
      if b && negb (it_active i)
      then Cont (c_nu s) (sz_add (c_n s) (it_dim i)) (c_ntot s)
                (mupdate name (set_active b) (c_items s))
                (sinsert name (c_act s)) (serase name (c_inact s))
      else if negb b && it_active i
      then Cont (c_nu s) (sz_sub (c_n s) (it_dim i)) (c_ntot s)
                (mupdate name (set_active b) (c_items s))
                (serase name (c_act s)) (sinsert name (c_inact s))
      else s
  | None => s
  end.

(** [getCostStatus] (cost-sum.hxx:317-327) and the analogous getters; the
    [Throw]-free "doesn't exist" case returns [false]. *)
Definition get_status (name : string) (s : cont) : bool :=
  match mfind name (c_items s) with Some i => it_active i | None => false end.

(** Histories of public calls.  [OpAdd] is the checked variant, [OpAddItem] the
    [CostItem] overload (cost container only). *)
Inductive cop :=
| OpAdd (name : string) (i : item)
| OpAddItem (name : string) (i : item)
| OpRemove (name : string)
| OpStatus (name : string) (b : bool).

Definition keep {A} (s : cont) (o : outcome cont A) : cont :=
  match out_state o with Some s' => s' | None => s end.

Definition step (s : cont) (o : cop) : cont :=
  match o with
  | OpAdd n i => keep s (add_named n i s)
  | OpAddItem n i => keep s (add_item n i s)
  | OpRemove n => remove n s
  | OpStatus n b => change_status n b s
  end.

Definition run (s : cont) (h : list cop) : cont := fold_left step h s.

(** Impulse container: same, without the dimension check. *)
Definition impulse_step (s : cont) (o : cop) : cont :=
  match o with
  | OpAdd n i => keep s (add_impulse n i s)
  | OpAddItem n i => s   (* no such overload *)
  | OpRemove n => remove n s
  | OpStatus n b => change_status n b s
  end.

Definition impulse_run (s : cont) (h : list cop) : cont := fold_left impulse_step h s.

(** ** Constraints *)

(** [ConstraintItemTpl] with the getters of [ConstraintModelAbstractTpl] that the
    manager reads. *)
Record citem := CItem {
  ci_ng : Z; ci_nh : Z; ci_nu : Z; ci_T : bool; ci_active : bool }.

Definition cset_active (b : bool) (i : citem) : citem :=
  CItem (ci_ng i) (ci_nh i) (ci_nu i) (ci_T i) b.

(** [ConstraintModelManagerTpl] (constraint-manager.hpp:278-294); [m_lbsize] is
    the common size of [lb_] and [ub_]. *)
Record cman := CMan {
  m_nu : Z;
  m_ng : Z; m_nh : Z; m_ngT : Z; m_nhT : Z;
  m_lbsize : Z;
  m_items : smap citem;
  m_act : sset;
  m_inact : sset }.

(** constraint-manager.hxx:13-34 *)
Definition empty_cman (nu : Z) : cman := CMan nu 0 0 0 0 0 [] [] [].

(** constraint-manager.hxx:39-66 *)
Definition add_constraint (name : string) (i : citem) (s : cman) : outcome cman unit :=
  if Z.eqb (ci_nu i) (m_nu s) then
    match mfind name (m_items s) with
    | Some _ => Ok s tt
    | None =>
        let items := minsert name i (m_items s) in
        if ci_active i then
          let ng := sz_add (m_ng s) (ci_ng i) in
          let nh := sz_add (m_nh s) (ci_nh i) in
          let ngT := if ci_T i then sz_add (m_ngT s) (ci_ng i) else m_ngT s in
          let nhT := if ci_T i then sz_add (m_nhT s) (ci_nh i) else m_nhT s in
          Ok (CMan (m_nu s) ng nh ngT nhT ng items (sinsert name (m_act s)) (m_inact s)) tt
        else
          Ok (CMan (m_nu s) (m_ng s) (m_nh s) (m_ngT s) (m_nhT s) (m_lbsize s)
                   items (m_act s) (sinsert name (m_inact s))) tt
    end
  else Throw s.

(** constraint-manager.hxx:69-91 *)
Definition remove_constraint (name : string) (s : cman) : cman :=
  match mfind name (m_items s) with
  | Some i =>
      let items := merase name (m_items s) in
      if ci_active i then
        let ng := sz_sub (m_ng s) (ci_ng i) in
        let nh := sz_sub (m_nh s) (ci_nh i) in
        let ngT := if ci_T i then sz_sub (m_ngT s) (ci_ng i) else m_ngT s in
        let nhT := if ci_T i then sz_sub (m_nhT s) (ci_nh i) else m_nhT s in
        CMan (m_nu s) ng nh ngT nhT ng items (serase name (m_act s)) (m_inact s)
      else
        CMan (m_nu s) (m_ng s) (m_nh s) (m_ngT s) (m_nhT s) (m_lbsize s)
             items (m_act s) (serase name (m_inact s))
  | None => s
  end.

(** constraint-manager.hxx:94-127 *)
Definition change_constraint (name : string) (b : bool) (s : cman) : cman :=
  match mfind name (m_items s) with
  | Some i =>
      if b && negb (ci_active i) then
        let ng := sz_add (m_ng s) (ci_ng i) in
        let nh := sz_add (m_nh s) (ci_nh i) in
        let ngT := if ci_T i then sz_add (m_ngT s) (ci_ng i) else m_ngT s in
        let nhT := if ci_T i then sz_add (m_nhT s) (ci_nh i) else m_nhT s in
        CMan (m_nu s) ng nh ngT nhT ng (mupdate name (cset_active b) (m_items s))
             (sinsert name (m_act s)) (serase name (m_inact s))
      else if negb b && ci_active i then
        let ng := sz_sub (m_ng s) (ci_ng i) in
        let nh := sz_sub (m_nh s) (ci_nh i) in
        let ngT := if ci_T i then sz_sub (m_ngT s) (ci_ng i) else m_ngT s in
        let nhT := if ci_T i then sz_sub (m_nhT s) (ci_nh i) else m_nhT s in
        CMan (m_nu s) ng nh ngT nhT ng (mupdate name (cset_active b) (m_items s))
             (serase name (m_act s)) (sinsert name (m_inact s))
      else s
  | None => s
  end.

Inductive mop :=
| MAdd (name : string) (i : citem)
| MRemove (name : string)
| MStatus (name : string) (b : bool).

Definition mstep (s : cman) (o : mop) : cman :=
  match o with
  | MAdd n i => match out_state (add_constraint n i s) with Some s' => s' | None => s end
  | MRemove n => remove_constraint n s
  | MStatus n b => change_constraint n b s
  end.

Definition mrun (s : cman) (h : list mop) : cman := fold_left mstep h s.
