(** The Ipopt interface (src/core/solvers/ipopt/ipopt-iface.cpp).

    Simplifications: exact reals; the integer casts to Ipopt::Index do not overflow; xs_, us_,
    ixu_ and datas_ keep the T + 1 entries of the constructor (the number of nodes does not
    change afterwards), so they are functions of the node index; the temporaries of
    IpoptInterfaceData are recomputed by every call and are local here; the datas of different
    nodes are different objects, so the parallel loops are maps over the nodes. *)
From Coq Require Import Reals List Arith Bool.
From Verif Require Import Deriv VecMat.
Import ListNotations.
Open Scope R_scope.

Section Model.
(** what a node's data holds besides the published fields *)
Context {P : Type}.
Record idata := IData { d_xnext : vec; d_cost : R; d_Fx : mat; d_Fu : mat; d_Lx : vec; d_Lu : vec;
  d_Lxx : mat; d_Lxu : mat; d_Luu : mat; d_priv : P }.
(** One node: its state (dimensions, integrate, Jintegrate with respect to the increment, diff
    and the two blocks of Jdiff), its control limits and its calc and calcDiff.  The terminal
    node is called without control: its [i_nu] is not read and its calc gets the zero control. *)
Record inode := INode { i_ndx : nat; i_nu : nat; i_int : vec -> vec -> vec; i_Jint : vec -> vec -> mat;
  i_diff : vec -> vec -> vec; i_Jd1 : vec -> vec -> mat; i_Jd2 : vec -> vec -> mat;
  i_lim : bool; i_ulb : vec; i_uub : vec;
  i_calc : idata -> vec -> vec -> idata; i_calcDiff : idata -> vec -> vec -> idata }.
Record iproblem := IProblem { p_T : nat; p_node : nat -> inode; p_x0 : vec }.
Record iface := IFace { s_xs : nat -> vec; s_us : nat -> vec; s_ixu : nat -> nat; s_nconst : nat; s_nvar : nat;
  s_cost : R; s_data : nat -> idata }.

Definition ndx (p : iproblem) (t : nat) : nat := i_ndx (p_node p t).
Definition nu (p : iproblem) (t : nat) : nat := i_nu (p_node p t).
Definition put {A} (f : nat -> A) (i : nat) (a : A) : nat -> A := fun j => if (j =? i)%nat then a else f j.

(** ipopt-iface.cpp:24-37 and 56-70: the loop shared by the constructor and resizeData *)
Fixpoint layout_loop (p : iproblem) (k t : nat) (ixu : nat -> nat) (nconst nvar : nat) : (nat -> nat) * nat * nat :=
  match k with
  | O => (ixu, nconst, nvar)
  | S k => layout_loop p k (S t) (put ixu t nvar) (nconst + ndx p t) (nvar + (ndx p t + nu p t))
  end.
(** ipopt-iface.cpp:37-50 and 70-81: offset of the terminal node, initial condition, terminal state *)
Definition layout (p : iproblem) (ixu0 : nat -> nat) (nconst0 : nat) : (nat -> nat) * nat * nat :=
  let '(ixu, nconst, nvar) := layout_loop p (p_T p) 0 ixu0 nconst0 0 in
  (put ixu (p_T p) nvar, (nconst + ndx p 0)%nat, (nvar + ndx p (p_T p))%nat).
(** ipopt-iface.cpp:15-51; [models[0]] does not exist when there are no running nodes (None).
    [zero] stands for the states' zero(). *)
Definition ipopt_create (p : iproblem) (zero : nat -> vec) (datas : nat -> idata) : option iface :=
  if (p_T p =? 0)%nat then None
  else let '(ixu, nconst, nvar) := layout p (fun _ => 0%nat) 0 in
       Some (IFace zero (fun _ _ => 0) ixu nconst nvar 0 datas).
(** ipopt-iface.cpp:53-82: nconst_ is not reset.  The entries of xs_ and us_ are kept. *)
Definition ipopt_resize (p : iproblem) (s : iface) : option iface :=
  if (p_T p =? 0)%nat then None
  else let '(ixu, nconst, nvar) := layout p (s_ixu s) (s_nconst s) in
       Some (IFace (s_xs s) (s_us s) ixu nconst nvar (s_cost s) (s_data s)).
(** ipopt-iface.cpp:783-789 *)
Definition set_xs (xs : nat -> vec) (s : iface) : iface := IFace xs (s_us s) (s_ixu s) (s_nconst s) (s_nvar s) (s_cost s) (s_data s).
Definition set_us (us : nat -> vec) (s : iface) : iface := IFace (s_xs s) us (s_ixu s) (s_nconst s) (s_nvar s) (s_cost s) (s_data s).
Definition set_data (d : nat -> idata) (s : iface) : iface := IFace (s_xs s) (s_us s) (s_ixu s) (s_nconst s) (s_nvar s) (s_cost s) d.

(** ipopt-iface.cpp:86-131.  The loop "nonzero += i for i = 1..n". *)
Fixpoint count_lower (n : nat) : nat := match n with O => O | S k => (count_lower k + S k)%nat end.
Fixpoint nnz_loop (p : iproblem) (k t : nat) (nj nh : nat) : nat * nat :=
  match k with
  | O => (nj, nh)
  | S k => nnz_loop p k (S t) (nj + ndx p t * (ndx p t + ndx p (S t) + nu p t)) (nh + count_lower (ndx p t + nu p t))
  end.
Definition nlp_info (p : iproblem) (s : iface) : nat * nat * nat * nat :=
  let '(nj, nh) := nnz_loop p (p_T p) 0 0 0 in
  (s_nvar s, s_nconst s, (nj + ndx p 0 * ndx p 0)%nat, (nh + count_lower (ndx p (p_T p)))%nat).

(** Writes into an array of Ipopt. *)
Definition write (a : nat -> R) (w : nat * R) : nat -> R := put a (fst w) (snd w).
Definition writes (a : nat -> R) (ws : list (nat * R)) : nat -> R := fold_left write ws a.
(** a loop [for j < n: a[o + j] = f(j)] *)
Definition write_seg (o n : nat) (f : vec) : list (nat * R) := map (fun j => ((o + j)%nat, f j)) (seq 0 n).
(** Eigen::VectorXd::Map(x + o, n) *)
Definition seg (x : vec) (o n : nat) : vec := fun i => if (i <? n)%nat then x (o + i)%nat else 0.

(** ipopt-iface.cpp:133-184; [big] is numeric_limits<double>::max().  Both bounds, then g_l and g_u. *)
Definition bounds_x (p : iproblem) (s : iface) (big : R) (upper : bool) : list (nat * R) :=
  let free := fun _ : nat => if upper then big else - big in
  flat_map (fun t => write_seg (s_ixu s t) (ndx p t) free ++
    write_seg (s_ixu s t + ndx p t) (nu p t)
      (fun j => if i_lim (p_node p t) then (if upper then i_uub (p_node p t) j else i_ulb (p_node p t) j) else free j)) (seq 0 (p_T p)) ++
  write_seg (s_ixu s (p_T p)) (ndx p (p_T p)) free.
Definition bounds_g (s : iface) : list (nat * R) := write_seg 0 (s_nconst s) (fun _ => 0).
(** ipopt-iface.cpp:186-232 *)
Definition starting_point (p : iproblem) (s : iface) : list (nat * R) :=
  flat_map (fun t => write_seg (s_ixu s t) (ndx p t) (fun _ => 0) ++ write_seg (s_ixu s t + ndx p t) (nu p t) (s_us s t)) (seq 0 (p_T p)) ++
  write_seg (s_ixu s (p_T p)) (ndx p (p_T p)) (fun _ => 0).

(** The increment, state and control of node [t] at the point [x] (e.g. lines 257-260, 280-281). *)
Definition v_dx (p : iproblem) (s : iface) (x : vec) (t : nat) : vec := seg x (s_ixu s t) (ndx p t).
Definition v_x (p : iproblem) (s : iface) (x : vec) (t : nat) : vec := i_int (p_node p t) (s_xs s t) (v_dx p s x t).
Definition v_u (p : iproblem) (s : iface) (x : vec) (t : nat) : vec :=
  if (t <? p_T p)%nat then seg x (s_ixu s t + ndx p t) (nu p t) else fun _ => 0.
(** lines 388-393: next state seen from node [t], read after its control *)
Definition v_dxnext (p : iproblem) (s : iface) (x : vec) (t : nat) : vec := seg x (s_ixu s t + ndx p t + nu p t) (ndx p (S t)).
Definition v_xnext (p : iproblem) (s : iface) (x : vec) (t : nat) : vec := i_int (p_node p (S t)) (s_xs s (S t)) (v_dxnext p s x t).
Definition do_calc (p : iproblem) (s : iface) (x : vec) (t : nat) (d : idata) : idata := i_calc (p_node p t) d (v_x p s x t) (v_u p s x t).
Definition do_diff (p : iproblem) (s : iface) (x : vec) (t : nat) (d : idata) : idata := i_calcDiff (p_node p t) d (v_x p s x t) (v_u p s x t).
(** nodes [0..T-1] updated by [f], node [T] by [g] *)
Definition on_nodes (p : iproblem) (f g : nat -> idata -> idata) (s : iface) : iface :=
  set_data (fun t => if (t <? p_T p)%nat then f t (s_data s t) else if (t =? p_T p)%nat then g t (s_data s t) else s_data s t) s.

(** ipopt-iface.cpp:235-286: [obj] is the value already in obj_value *)
Definition eval_f (p : iproblem) (s : iface) (x : vec) (obj : R) : R * iface :=
  let s' := on_nodes p (do_calc p s x) (do_calc p s x) s in
  (obj + rsum (p_T p) (fun t => d_cost (s_data s' t)) + d_cost (s_data s' (p_T p)), s').
(** ipopt-iface.cpp:289-353 *)
Definition eval_grad_f (p : iproblem) (s : iface) (x : vec) : list (nat * R) * iface :=
  let cd := fun t d => do_diff p s x t (do_calc p s x t d) in
  let s' := on_nodes p cd cd s in
  let Ldx := fun t => mulv (ndx p t) (tr (i_Jint (p_node p t) (s_xs s t) (v_dx p s x t))) (d_Lx (s_data s' t)) in
  (flat_map (fun t => write_seg (s_ixu s t) (ndx p t) (Ldx t) ++ write_seg (s_ixu s t + ndx p t) (nu p t) (d_Lu (s_data s' t))) (seq 0 (p_T p)) ++
   write_seg (s_ixu s (p_T p)) (ndx p (p_T p)) (Ldx (p_T p)), s').
(** ipopt-iface.cpp:356-418 *)
Fixpoint g_loop (p : iproblem) (x_diff : nat -> vec) (k t ix : nat) : list (nat * R) * nat :=
  match k with
  | O => ([], ix)
  | S k => let '(ws, ix') := g_loop p x_diff k (S t) (ix + ndx p t) in (write_seg ix (ndx p t) (x_diff t) ++ ws, ix')
  end.
Definition eval_g (p : iproblem) (s : iface) (x : vec) : list (nat * R) * iface :=
  let s' := on_nodes p (do_calc p s x) (fun _ d => d) s in
  let x_diff := fun t => i_diff (p_node p t) (d_xnext (s_data s' t)) (v_xnext p s x t) in
  let '(ws, ix) := g_loop p x_diff (p_T p) 0 0 in
  let n0 := p_node p 0 in
  (ws ++ write_seg ix (ndx p 0) (i_diff n0 (i_int n0 (s_xs s 0%nat) (seg x 0 (ndx p 0))) (p_x0 p)), s').

(** ipopt-iface.cpp:441-471: structure of the Jacobian *)
Definition block (r0 c0 rows cols : nat) : list (nat * nat) :=
  flat_map (fun r => map (fun c => ((r0 + r)%nat, (c0 + c)%nat)) (seq 0 cols)) (seq 0 rows).
Fixpoint jac_struct_loop (p : iproblem) (s : iface) (k t ix : nat) : list (nat * nat) :=
  match k with
  | O => block ix 0 (ndx p 0) (ndx p 0)
  | S k => block ix (s_ixu s t) (ndx p t) (ndx p t + nu p t + ndx p (S t)) ++ jac_struct_loop p s k (S t) (ix + ndx p t)
  end.
Definition jac_struct (p : iproblem) (s : iface) : list (nat * nat) := jac_struct_loop p s (p_T p) 0 0.
(** ipopt-iface.cpp:476-555: values; calcDiff is not preceded by calc *)
Definition Jg_dx (p : iproblem) (s : iface) (x : vec) (t : nat) (d : idata) : mat :=
  mulm (ndx p t) (i_Jd1 (p_node p t) (d_xnext d) (v_xnext p s x t)) (mulm (ndx p t) (d_Fx d) (i_Jint (p_node p t) (s_xs s t) (v_dx p s x t))).
Definition Jg_u (p : iproblem) (s : iface) (x : vec) (t : nat) (d : idata) : mat :=
  mulm (ndx p t) (i_Jd1 (p_node p t) (d_xnext d) (v_xnext p s x t)) (d_Fu d).
Definition Jg_dxnext (p : iproblem) (s : iface) (x : vec) (t : nat) (d : idata) : mat :=
  mulm (ndx p t) (i_Jd2 (p_node p t) (d_xnext d) (v_xnext p s x t)) (i_Jint (p_node p (S t)) (s_xs s (S t)) (v_dxnext p s x t)).
Definition Jg_ic (p : iproblem) (s : iface) (x : vec) : mat :=
  let n0 := p_node p 0 in
  mulm (ndx p 0) (i_Jd1 n0 (i_int n0 (s_xs s 0%nat) (seg x 0 (ndx p 0))) (p_x0 p)) (i_Jint n0 (s_xs s 0%nat) (seg x 0 (ndx p 0))).
Definition eval_jac_g (p : iproblem) (s : iface) (x : vec) : list R * iface :=
  let s' := on_nodes p (do_diff p s x) (fun _ d => d) s in
  (flat_map (fun t => flat_map (fun r =>
     map (Jg_dx p s x t (s_data s' t) r) (seq 0 (ndx p t)) ++ map (Jg_u p s x t (s_data s' t) r) (seq 0 (nu p t)) ++
     map (Jg_dxnext p s x t (s_data s' t) r) (seq 0 (ndx p (S t)))) (seq 0 (ndx p t))) (seq 0 (p_T p)) ++
   flat_map (fun r => map (Jg_ic p s x r) (seq 0 (ndx p 0))) (seq 0 (ndx p 0)), s').

(** [for c < n: if (c > r) break; ...] *)
Fixpoint until_above (r : nat) (cs : list nat) : list nat :=
  match cs with [] => [] | c :: cs => if (r <? c)%nat then [] else c :: until_above r cs end.
Definition lower (o n : nat) : list (nat * nat) :=
  flat_map (fun r => map (fun c => ((o + r)%nat, (o + c)%nat)) (until_above r (seq 0 n))) (seq 0 n).
(** ipopt-iface.cpp:590-627 *)
Definition hess_struct (p : iproblem) (s : iface) : list (nat * nat) :=
  flat_map (fun t => lower (s_ixu s t) (ndx p t + nu p t)) (seq 0 (p_T p)) ++ lower (s_ixu s (p_T p)) (ndx p (p_T p)).
(** ipopt-iface.cpp:635-708: [sigma] is obj_factor, which the terminal values miss *)
Definition Ldxdx (p : iproblem) (s : iface) (x : vec) (t : nat) (d : idata) : mat :=
  let J := i_Jint (p_node p t) (s_xs s t) (v_dx p s x t) in mulm (ndx p t) (mulm (ndx p t) (tr J) (d_Lxx d)) J.
Definition Ldxu (p : iproblem) (s : iface) (x : vec) (t : nat) (d : idata) : mat :=
  mulm (ndx p t) (tr (i_Jint (p_node p t) (s_xs s t) (v_dx p s x t))) (d_Lxu d).
Definition eval_h (p : iproblem) (s : iface) (x : vec) (sigma : R) : list R * iface :=
  let s' := on_nodes p (do_diff p s x) (fun t d => do_diff p s x t (do_calc p s x t d)) s in
  (flat_map (fun t =>
     flat_map (fun r => map (fun c => sigma * Ldxdx p s x t (s_data s' t) r c) (until_above r (seq 0 (ndx p t)))) (seq 0 (ndx p t)) ++
     flat_map (fun r => map (fun c => sigma * Ldxu p s x t (s_data s' t) c r) (seq 0 (ndx p t)) ++
                        map (fun c => sigma * d_Luu (s_data s' t) r c) (until_above r (seq 0 (nu p t)))) (seq 0 (nu p t))) (seq 0 (p_T p)) ++
   flat_map (fun r => map (fun c => Ldxdx p s x (p_T p) (s_data s' (p_T p)) r c) (until_above r (seq 0 (ndx p (p_T p))))) (seq 0 (ndx p (p_T p))), s').

(** ipopt-iface.cpp:713-743 *)
Definition finalize (p : iproblem) (s : iface) (x : vec) (obj : R) : iface :=
  IFace (fun t => if (t <=? p_T p)%nat then v_x p s x t else s_xs s t) (fun t => if (t <? p_T p)%nat then v_u p s x t else s_us s t)
    (s_ixu s) (s_nconst s) (s_nvar s) obj (s_data s).

(** Calls of Ipopt, in any order and at any points *)
Inductive icall := CF (x : vec) (obj : R) | CGrad (x : vec) | CG (x : vec) | CJac (x : vec) | CH (x : vec) (sigma : R).
Definition istep (p : iproblem) (s : iface) (c : icall) : iface :=
  match c with
  | CF x obj => snd (eval_f p s x obj) | CGrad x => snd (eval_grad_f p s x) | CG x => snd (eval_g p s x)
  | CJac x => snd (eval_jac_g p s x) | CH x sigma => snd (eval_h p s x sigma)
  end.
Definition irun (p : iproblem) (s : iface) (cs : list icall) : iface := fold_left (istep p) cs s.
End Model.
Arguments idata : clear implicits.
Arguments inode : clear implicits.
Arguments iproblem : clear implicits.
Arguments iface : clear implicits.
