(** Evaluation of the named containers: cost sum, constraint stacking, contact
    forces.  The scalar type [S] is arbitrary and no algebraic law is assumed of
    its operations, so the model also speaks about floating point. *)
From Coq Require Import ZArith String List Bool Arith.
From Verif Require Import Common SMap.
Import ListNotations.

(** ** Cost sum *)

(** One scalar component of a cost data: the cost, or an entry of one of the
    derivative blocks. *)
Inductive comp :=
| CCost
| CLx (i : nat) | CLu (i : nat)
| CLxx (i j : nat) | CLxu (i j : nat) | CLuu (i j : nat).

Section CostSum.
(** [S]: scalars; [X], [U]: states and controls; [D]: data of one cost item,
    with [val d c] its component [c]. *)
Context {S X U D : Type} (zero : S) (add mul : S -> S -> S) (val : D -> comp -> S).

(** A cost item with the virtual calls of its cost model (arbitrary functions
    from the old data to the new one). *)
Record ecost := ECost {
  e_weight : S;
  e_active : bool;
  e_calc : D -> X -> U -> D;
  e_calcT : D -> X -> D;
  e_diff : D -> X -> U -> D;
  e_diffT : D -> X -> D }.

(** [CostDataSumTpl]: totals and the map of item datas. *)
Record sdata := SData { sd_tot : comp -> S; sd_items : smap D }.

(** The common loop of calc/calcDiff (cost-sum.hxx:126-142, 157-175, 198-218,
    240-254): zero the components in [scope], then walk the two maps in lockstep
    and accumulate [weight * d_i->...] for the active items.  The equality of the
    names is only an assert. *)
Definition accum (scope : comp -> bool) (w : S) (d : D) (t : comp -> S) : comp -> S :=
  fun c => if scope c then add (t c) (mul w (val d c)) else t c.

Fixpoint sum_loop (scope : comp -> bool) (f : ecost -> D -> D)
    (ms : smap ecost) (ds : smap D) (t : comp -> S) : (comp -> S) * smap D :=
  match ms, ds with
  | (_, m) :: ms', (k, d) :: ds' =>
      if e_active m then
        let d' := f m d in
        let '(t', r) := sum_loop scope f ms' ds' (accum scope (e_weight m) d' t) in
        (t', (k, d') :: r)
      else
        let '(t', r) := sum_loop scope f ms' ds' t in (t', (k, d) :: r)
  | _, _ => (t, ds)
  end.

Definition sum_eval (scope : comp -> bool) (f : ecost -> D -> D)
    (ms : smap ecost) (s : sdata) : outcome sdata unit :=
  if Nat.eqb (length (sd_items s)) (length ms) then
    let '(t, ds) := sum_loop scope f ms (sd_items s)
                      (fun c => if scope c then zero else sd_tot s c) in
    Ok (SData t ds) tt
  else Throw s.

Definition is_cost (c : comp) : bool := match c with CCost => true | _ => false end.
Definition is_deriv (c : comp) : bool := match c with CCost => false | _ => true end.
Definition is_xderiv (c : comp) : bool :=
  match c with CLx _ | CLxx _ _ => true | _ => false end.

(** [calc(data, x, u)], cost-sum.hxx:108-143 (sizes of [x], [u] assumed right). *)
Definition sum_calc ms x u s := sum_eval is_cost (fun m d => e_calc m d x u) ms s.
(** [calc(data, x)], cost-sum.hxx:146-176 *)
Definition sum_calcT ms x s := sum_eval is_cost (fun m d => e_calcT m d x) ms s.
(** [calcDiff(data, x, u)], cost-sum.hxx:179-219 *)
Definition sum_diff ms x u s := sum_eval is_deriv (fun m d => e_diff m d x u) ms s.
(** [calcDiff(data, x)], cost-sum.hxx:222-255: only [Lx] and [Lxx] are zeroed and
    accumulated. *)
Definition sum_diffT ms x s := sum_eval is_xderiv (fun m d => e_diffT m d x) ms s.
End CostSum.
Arguments ecost : clear implicits.
Arguments sdata : clear implicits.

(** ** Constraint stacking *)
Section Stack.
(** [E]: what a row holds (a scalar for [g], [h], [lb], [ub]; a row of a
    Jacobian for [Gx], [Gu], [Hx], [Hu]). *)
Context {E : Type}.

(** [v.segment(off, n) = seg] or [M.block(off, 0, n, c) = seg]: requires the
    block to lie in [v] and the sizes to agree, otherwise undefined. *)
Definition write_seg (buf : list E) (off n : nat) (seg : list E) : option (list E) :=
  if (off + n <=? length buf) && (length seg =? n)
  then Some (firstn off buf ++ seg ++ skipn (off + n) buf)
  else None.
End Stack.

Section Manager.
(** [S]: scalars or rows of Jacobians. *)
Context {S : Type}.

(** What [ConstraintModelManagerTpl::calc] reads of an item, after the item's own
    [calc] has run: sizes, status, [d_i->g], [d_i->h], bounds. *)
Record seg_item := SegItem {
  s_active : bool; s_T : bool; s_ng : nat; s_nh : nat;
  s_g : list S; s_h : list S; s_lb : list S; s_ub : list S }.

(** Buffers written by the loop: [data->g], [data->h], [lb_], [ub_]. *)
Record bufs := Bufs { b_g : list S; b_h : list S; b_lb : list S; b_ub : list S }.

(** Loop of [calc(data, x, u)] (constraint-manager.hxx:153-178; [sel] =
    [s_active]) and of [calc(data, x)] (constraint-manager.hxx:200-225; [sel]
    also requires [get_T_constraint()]). *)
Fixpoint stack_loop (sel : seg_item -> bool) (l : list seg_item)
    (ngi nhi : nat) (b : bufs) : option bufs :=
  match l with
  | [] => Some b
  | m :: r =>
      if sel m then
        match write_seg (b_g b) ngi (s_ng m) (s_g m),
              write_seg (b_h b) nhi (s_nh m) (s_h m),
              write_seg (b_lb b) ngi (s_ng m) (s_lb m),
              write_seg (b_ub b) ngi (s_ng m) (s_ub m) with
        | Some g, Some h, Some lb, Some ub =>
            stack_loop sel r (ngi + s_ng m) (nhi + s_nh m) (Bufs g h lb ub)
        | _, _, _, _ => None
        end
      else stack_loop sel r ngi nhi b
  end.

Definition sel_running (m : seg_item) : bool := s_active m.
Definition sel_terminal (m : seg_item) : bool := s_active m && s_T m.

Definition manager_calc (l : list seg_item) (b : bufs) : option bufs :=
  stack_loop sel_running l 0 0 b.
Definition manager_calcT (l : list seg_item) (b : bufs) : option bufs :=
  stack_loop sel_terminal l 0 0 b.
End Manager.
Arguments seg_item : clear implicits.
Arguments bufs : clear implicits.

(** Memory of a standalone [ConstraintDataManagerTpl]
    (constraint-manager.hpp:307-337): [g_internal] is allocated with the [ng] of
    the model at construction; [g] is a map on it. *)
Record gmem := GMem { gm_alloc : Z; gm_view : Z }.
Definition gmem_create (ng : Z) : gmem := GMem ng ng.
(** [resize(model, running_node)], constraint-manager.hpp:360-372: only the view
    is rebuilt. *)
Definition gmem_resize (ng_model : Z) (m : gmem) : gmem := GMem (gm_alloc m) ng_model.
(** [resize(model, data, running_node)], constraint-manager.hpp:374-393:
    [conservativeResize] of the storage, then the view. *)
Definition gmem_resize_shared (ng_model : Z) (m : gmem) : gmem := GMem ng_model ng_model.
Definition gmem_safe (m : gmem) : Prop := (gm_view m <= gm_alloc m)%Z.

(** ** Contact forces *)
Section Forces.
(** [F]: spatial forces; [fzero] the zero force. *)
Context {F : Type} (fzero : F).

(** A contact after its own [updateForce]: status, parent joint, its [fext]. *)
Record fcontact := FContact { f_active : bool; f_joint : nat; f_fext : F }.

(** [data->fext] as a function of the joint index. *)
Definition fmap := nat -> F.
Definition fput (j : nat) (v : F) (m : fmap) : fmap :=
  fun k => if Nat.eqb k j then v else m k.

(** [updateForce], multiple-contacts.hxx:234-283 and multiple-impulses.hxx
    [updateForce]: all joints are zeroed, then each active contact, in name
    order, assigns its joint's entry; the force of an inactive contact is set to
    zero. *)
Definition update_force (l : list fcontact) : fmap * list fcontact :=
  (fold_left (fun m c => if f_active c then fput (f_joint c) (f_fext c) m else m)
             l (fun _ => fzero),
   map (fun c => if f_active c then c
                 else FContact (f_active c) (f_joint c) fzero) l).
End Forces.
Arguments fcontact : clear implicits.
