(** The code-generated action model: ActionModelCodeGenTpl and ActionDataCodeGenTpl
    (include/crocoddyl/core/codegen/action.hpp, action.hxx).

    CppAD and the compiler are a contract: the library computes the recorded function at every
    input, its dense Jacobian and Hessian come row by row.  (A recording follows the branches taken
    at the recording point; models whose branches depend on the input fall outside the contract.)
    The wrapped action model is a set of pure functions of the parameters, the state and the
    control.  Eigen's size and range assertions, and reads and writes outside a buffer, are
    [Undef].  Profiling, printing and the source-code generator's options are left out. *)
From Coq Require Import String List Bool Arith.
Import ListNotations.

(** what a call ends with *)
Inductive res (A : Type) := Val (a : A) | Exn | Undef.
Arguments Val {A}. Arguments Exn {A}. Arguments Undef {A}.
Definition bind {A B} (r : res A) (f : A -> res B) : res B :=
  match r with Val a => f a | Exn => Exn | Undef => Undef end.
Notation "x <- r ;; k" := (bind r (fun x => k)) (at level 61, r at next level, right associativity).

Section CodeGen.
Context {V : Type} (zero one : V).

(** a matrix: its sizes and its entries column by column, as Eigen stores it *)
Record mat := Mat { rows : nat; cols : nat; ent : list V }.
Definition mk (r c : nat) (f : nat -> nat -> V) : mat :=
  Mat r c (flat_map (fun j => map (fun i => f i j) (seq 0 r)) (seq 0 c)).
Definition zeros (n : nat) : list V := repeat zero n.

(** ** The wrapped action model *)
Record cout := Cout { o_cost : V; o_xnext : list V; o_r : list V; o_g : list V; o_h : list V }.
Record dout := Dout { o_Fx : mat; o_Fu : mat; o_Lx : list V; o_Lu : list V; o_Lxx : mat; o_Lxu : mat;
                      o_Luu : mat; o_Gx : mat; o_Gu : mat; o_Hx : mat; o_Hu : mat }.
(** the functions take the parameters first; the ones ending in [_T] are those of terminal nodes.
    [a_qs] is quasiStatic with 100 iterations and the default tolerance *)
Record action := Action {
  a_nx : nat; a_ndx : nat; a_nu : nat; a_nr : nat;
  a_ng : nat; a_nh : nat; a_ng_T : nat; a_nh_T : nat;
  a_calc : list V -> list V -> list V -> cout;
  a_calc_T : list V -> list V -> cout;
  a_diff : list V -> list V -> list V -> dout;
  a_diff_T : list V -> list V -> dout;
  a_qs : list V -> list V -> list V }.

(** ** Buffers *)
(** one write into a buffer: the entries the destination has, the step to the next destination,
    whether the sizes of source and destination agree, the source *)
Record piece := Piece { p_len : nat; p_inc : nat; p_fits : bool; p_src : list V }.
Definition vpiece (n : nat) (v : list V) : piece := Piece n n (length v =? n) v.
Definition mpiece (r c inc : nat) (M : mat) : piece :=
  Piece (r * c) inc ((rows M =? r) && (cols M =? c) && (length (ent M) =? r * c)) (ent M).
(** buf.segment(off, n) = v, or Map(buf.data() + off, r, c) = M *)
Definition put (buf : list V) (off : nat) (p : piece) : res (list V) :=
  if p_fits p && (off + p_len p <=? length buf)
  then Val (firstn off buf ++ p_src p ++ skipn (off + p_len p) buf) else Undef.
Fixpoint fill (buf : list V) (off : nat) (ps : list piece) : res (list V) :=
  match ps with
  | [] => Val buf
  | p :: ps => b <- put buf off p ;; fill b (off + p_inc p) ps
  end.
(** buf.segment(off, n) and Map(buf.data() + off, r, c) on the right-hand side *)
Definition getv (buf : list V) (off n : nat) : res (list V) :=
  if off + n <=? length buf then Val (firstn n (skipn off buf)) else Undef.
Definition getm (buf : list V) (off r c : nat) : res mat :=
  v <- getv buf off (r * c) ;; Val (Mat r c v).
(** Map(buf.data() + off, ld, n).middleRows(top, h).transpose() *)
Definition getT (buf : list V) (off ld n top h : nat) : res mat :=
  if (off + ld * n <=? length buf) && (top + h <=? ld)
  then Val (mk n h (fun i j => nth (off + i * ld + (top + j)) buf zero)) else Undef.
(** Map(buf.data(), ld, ld).block(r0, c0, h, w) *)
Definition getB (buf : list V) (ld r0 c0 h w : nat) : res mat :=
  if (ld * ld <=? length buf) && (r0 + h <=? ld) && (c0 + w <=? ld)
  then Val (mk h w (fun i j => nth ((c0 + j) * ld + (r0 + i)) buf zero)) else Undef.

(** ** Recording *)
(** The base class is given nr, ng and nh only (action.hxx:21-22, 75-76), so its numbers of terminal
    constraints take their default values (action-base.hpp:122-123). *)
Definition base_ng_T : nat := 0.
Definition base_nh_T : nat := 0.

(** action.hxx:28-34, 55-61 *)
Definition nY1 (m : action) := 1 + a_nx m + a_ng m + a_nh m.
Definition nY1_T := 1 + base_ng_T + base_nh_T.
Definition nY2 (m : action) :=
  let ndx := a_ndx m in let nu := a_nu m in
  2 * ndx * ndx + 2 * ndx * nu + nu * nu + ndx + nu + (a_ng m * (ndx + nu) + a_nh m * (ndx + nu)).
Definition nY2_T (m : action) :=
  a_ndx m * a_ndx m + a_ndx m + (base_ng_T + base_nh_T) * a_ndx m.

(** tapeCalcOutput, action.hxx:714-723 *)
Definition tape_calc (m : action) (o : cout) : res (list V) :=
  fill (zeros (nY1 m)) 0
    [vpiece 1 [o_cost o]; vpiece (a_nx m) (o_xnext o); vpiece (a_ng m) (o_g o); vpiece (a_nh m) (o_h o)].
(** tapeCalcOutput_T, 725-733 *)
Definition tape_calc_T (o : cout) : res (list V) :=
  fill (zeros nY1_T) 0 [vpiece 1 [o_cost o]; vpiece base_ng_T (o_g o); vpiece base_nh_T (o_h o)].
(** tapeCalcDiffOutput, 735-761 *)
Definition tape_diff (m : action) (o : dout) : res (list V) :=
  let ndx := a_ndx m in let nu := a_nu m in let ng := a_ng m in let nh := a_nh m in
  fill (zeros (nY2 m)) 0
    [mpiece ndx ndx (ndx * ndx) (o_Fx o); mpiece ndx nu (ndx * nu) (o_Fu o);
     vpiece ndx (o_Lx o); vpiece nu (o_Lu o);
     mpiece ndx ndx (ndx * ndx) (o_Lxx o); mpiece ndx nu (ndx * nu) (o_Lxu o); mpiece nu nu (nu * nu) (o_Luu o);
     mpiece ng ndx (ng * ndx) (o_Gx o); mpiece ng nu (ng * nu) (o_Gu o);
     mpiece nh ndx (nh * ndx) (o_Hx o); mpiece nh nu 0 (o_Hu o)].
(** tapeCalcDiffOutput_T, 763-774: the maps of Gx and Hx have the running numbers of rows *)
Definition tape_diff_T (m : action) (o : dout) : res (list V) :=
  let ndx := a_ndx m in
  fill (zeros (nY2_T m)) 0
    [vpiece ndx (o_Lx o); mpiece ndx ndx (ndx * ndx) (o_Lxx o);
     mpiece (a_ng m) ndx (base_ng_T * ndx) (o_Gx o); mpiece (a_nh m) ndx 0 (o_Hx o)].

(** the parts of the independent variables: head(nx), segment(nx, nu), tail(np) *)
Definition head (n : nat) (X : list V) := firstn n X.
Definition segment (a n : nat) (X : list V) := firstn n (skipn a X).
Definition tail (n : nat) (X : list V) := skipn (length X - n) X.

(** recordCalc .. recordCalcDiff_T, 644-699, as functions of the independent variables *)
Definition rec_calc (m : action) (np : nat) (X : list V) : res (list V) :=
  tape_calc m (a_calc m (tail np X) (head (a_nx m) X) (segment (a_nx m) (a_nu m) X)).
Definition rec_calc_T (m : action) (np : nat) (X : list V) : res (list V) :=
  tape_calc_T (a_calc_T m (tail np X) (head (a_nx m) X)).
Definition rec_diff (m : action) (np : nat) (X : list V) : res (list V) :=
  tape_diff m (a_diff m (tail np X) (head (a_nx m) X) (segment (a_nx m) (a_nu m) X)).
Definition rec_diff_T (m : action) (np : nat) (X : list V) : res (list V) :=
  tape_diff_T m (a_diff_T m (tail np X) (head (a_nx m) X)).
(** recordQuasiStatic, 701-711: updateParams_ is not called, so the model keeps the values of the
    parameters of the last recording, which are those of a new ad_X_T_: zeros *)
Definition rec_qs (m : action) (np : nat) (X : list V) : res (list V) :=
  fill (zeros (a_nu m)) 0 [vpiece (a_nu m) (a_qs m (zeros np) (head (a_nx m) X))].

(** CppAD's recording at the point [X0]: the function recorded, defined wherever the recording is *)
Definition record (f : list V -> res (list V)) (X0 : list V) : res (list V -> list V) :=
  _ <- f X0 ;; Val (fun X => match f X with Val Y => Y | _ => [] end).

(** ** The library *)
(** ForwardZero of the five functions *)
Record library := Library {
  l_calc : list V -> list V; l_calc_T : list V -> list V;
  l_diff : list V -> list V; l_diff_T : list V -> list V; l_qs : list V -> list V }.
(** initLib, 293-335: all five recordings are made whatever the mode *)
Definition init_lib (m : action) (np : nat) : res library :=
  let X0 := zeros (a_nx m + a_nu m + np) in
  let X0_T := zeros (a_nx m + np) in
  c <- record (rec_calc m np) X0 ;;
  cT <- record (rec_calc_T m np) X0_T ;;
  d <- record (rec_diff m np) X0 ;;
  dT <- record (rec_diff_T m np) X0_T ;;
  q <- record (rec_qs m np) (zeros (a_nx m)) ;;
  Val (Library c cT d dT q).

(** the model: the weights of the cost's Hessian are empty in a copy *)
Record cgen := Cgen { c_model : action; c_autodiff : bool; c_np : nat; c_lib : library;
                      c_w : list V; c_w_T : list V }.
Definition unit_weight (n : nat) : list V := one :: zeros (n - 1).
(** the generating constructors, 16-69 and 71-123 *)
Definition generate (m : action) (autodiff : bool) (np : nat) : res cgen :=
  l <- init_lib m np ;; Val (Cgen m autodiff np l (unit_weight (nY1 m)) (unit_weight nY1_T)).
(** the copy constructor, 125-172, for a library file that has not changed *)
Definition copy (c : cgen) : cgen := Cgen (c_model c) (c_autodiff c) (c_np c) (c_lib c) [] [].

(** ** The data *)
Record data := Data {
  d_X : list V; d_X_T : list V;
  d_cost : V; d_xnext : list V; d_r : list V; d_g : list V; d_h : list V;
  d_Fx : mat; d_Fu : mat; d_Lx : list V; d_Lu : list V; d_Lxx : mat; d_Lxu : mat; d_Luu : mat;
  d_Gx : mat; d_Gu : mat; d_Hx : mat; d_Hu : mat }.
Definition zmat (r c : nat) : mat := Mat r c (zeros (r * c)).
(** action.hpp:505-534, with the base class of action-base.hpp:358-415 *)
Definition create_data (c : cgen) : data :=
  let m := c_model c in
  let ng := if a_ng_T m <? a_ng m then a_ng m else a_ng_T m in
  let nh := if a_nh_T m <? a_nh m then a_nh m else a_nh_T m in
  let ndx := a_ndx m in let nu := a_nu m in
  Data (zeros (a_nx m + a_nu m + c_np c)) (zeros (a_nx m + c_np c))
       zero (zeros (a_nx m)) (zeros (a_nr m)) (zeros ng) (zeros nh)
       (zmat ndx ndx) (zmat ndx nu) (zeros ndx) (zeros nu) (zmat ndx ndx) (zmat ndx nu) (zmat nu nu)
       (zmat ng ndx) (zmat ng nu) (zmat nh ndx) (zmat nh nu).

Definition set_X (d : data) X := Data X (d_X_T d) (d_cost d) (d_xnext d) (d_r d) (d_g d) (d_h d)
  (d_Fx d) (d_Fu d) (d_Lx d) (d_Lu d) (d_Lxx d) (d_Lxu d) (d_Luu d) (d_Gx d) (d_Gu d) (d_Hx d) (d_Hu d).
Definition set_X_T (d : data) X := Data (d_X d) X (d_cost d) (d_xnext d) (d_r d) (d_g d) (d_h d)
  (d_Fx d) (d_Fu d) (d_Lx d) (d_Lu d) (d_Lxx d) (d_Lxu d) (d_Luu d) (d_Gx d) (d_Gu d) (d_Hx d) (d_Hu d).
Definition set_out (d : data) c xn g h := Data (d_X d) (d_X_T d) c xn (d_r d) g h
  (d_Fx d) (d_Fu d) (d_Lx d) (d_Lu d) (d_Lxx d) (d_Lxu d) (d_Luu d) (d_Gx d) (d_Gu d) (d_Hx d) (d_Hu d).
Definition set_dout (d : data) Fx Fu Lx Lu Lxx Lxu Luu Gx Gu Hx Hu :=
  Data (d_X d) (d_X_T d) (d_cost d) (d_xnext d) (d_r d) (d_g d) (d_h d) Fx Fu Lx Lu Lxx Lxu Luu Gx Gu Hx Hu.

(** set_Y1, action.hpp:577-590 *)
Definition set_Y1 (m : action) (d : data) (Y : list V) : res data :=
  c <- getv Y 0 1 ;;
  xn <- getv Y 1 (a_nx m) ;;
  g <- getv Y (1 + a_nx m) (a_ng m) ;;
  h <- getv Y (1 + a_nx m + a_ng m) (a_nh m) ;;
  Val (set_out d (nth 0 c zero) xn g h).
(** set_Y1_T, 625-634 *)
Definition set_Y1_T (m : action) (d : data) (Y : list V) : res data :=
  c <- getv Y 0 1 ;;
  g <- getv Y 1 (a_ng_T m) ;;
  h <- getv Y (1 + a_ng_T m) (a_nh_T m) ;;
  Val (set_out d (nth 0 c zero) (d_xnext d) g h).
(** set_Y2, 655-684 *)
Definition set_Y2 (m : action) (d : data) (Y : list V) : res data :=
  let ndx := a_ndx m in let nu := a_nu m in let ng := a_ng m in let nh := a_nh m in
  Fx <- getm Y 0 ndx ndx ;;
  let o := ndx * ndx in
  Fu <- getm Y o ndx nu ;;
  let o := o + ndx * nu in
  Lx <- getv Y o ndx ;;
  let o := o + ndx in
  Lu <- getv Y o nu ;;
  let o := o + nu in
  Lxx <- getm Y o ndx ndx ;;
  let o := o + ndx * ndx in
  Lxu <- getm Y o ndx nu ;;
  let o := o + ndx * nu in
  Luu <- getm Y o nu nu ;;
  let o := o + nu * nu in
  Gx <- getm Y o ng ndx ;;
  let o := o + ng * ndx in
  Gu <- getm Y o ng nu ;;
  let o := o + ng * nu in
  Hx <- getm Y o nh ndx ;;
  let o := o + nh * ndx in
  Hu <- getm Y o nh nu ;;
  Val (set_dout d Fx Fu Lx Lu Lxx Lxu Luu Gx Gu Hx Hu).
(** set_Y2_T, 686-699 *)
Definition set_Y2_T (m : action) (d : data) (Y : list V) : res data :=
  let ndx := a_ndx m in
  Lx <- getv Y 0 ndx ;;
  Lxx <- getm Y ndx ndx ndx ;;
  Gx <- getm Y (ndx + ndx * ndx) (a_ng_T m) ndx ;;
  Hx <- getm Y (ndx + ndx * ndx + a_ng_T m * ndx) (a_nh_T m) ndx ;;
  Val (set_dout d (d_Fx d) (d_Fu d) Lx (d_Lu d) Lxx (d_Lxu d) (d_Luu d) Gx (d_Gu d) Hx (d_Hu d)).
(** set_D1, 592-623 *)
Definition set_D1 (m : action) (np : nat) (d : data) (J H : list V) : res data :=
  let ndx := a_ndx m in let nu := a_nu m in let ng := a_ng m in let nh := a_nh m in
  let nxu := ndx + nu + np in
  Lx <- getv J 0 ndx ;;
  Lu <- getv J ndx nu ;;
  let o := ndx + (nu + np) in
  Fx <- getT J o nxu ndx 0 ndx ;;
  Fu <- getT J o nxu ndx ndx nu ;;
  let o := o + ndx * nxu in
  Gx <- getT J o nxu ng 0 ndx ;;
  Gu <- getT J o nxu ng ndx nu ;;
  let o := o + ng * nxu in
  Hx <- getT J o nxu nh 0 ndx ;;
  Hu <- getT J o nxu nh ndx nu ;;
  Lxx <- getB H nxu 0 0 ndx ndx ;;
  Luu <- getB H nxu ndx ndx nu nu ;;
  Lxu <- getB H nxu 0 ndx ndx nu ;;
  Val (set_dout d Fx Fu Lx Lu Lxx Lxu Luu Gx Gu Hx Hu).
(** set_D1_T, 636-653: both constraints are read with the running number of inequalities *)
Definition set_D1_T (m : action) (np : nat) (d : data) (J H : list V) : res data :=
  let ndx := a_ndx m in let ng := a_ng m in
  let nxp := ndx + np in
  Lx <- getv J 0 ndx ;;
  let o := nxp in
  Gx <- getT J o nxp ng 0 ndx ;;
  let o := o + ng * nxp in
  Hx <- getT J o nxp ng 0 ndx ;;
  Lxx <- getB H nxp 0 0 ndx ndx ;;
  Val (set_dout d (d_Fx d) (d_Fu d) Lx (d_Lu d) Lxx (d_Lxu d) (d_Luu d) Gx (d_Gu d) Hx (d_Hu d)).

(** ** The Jacobians and Hessians of the library *)
(** contract: [jac i j X] is the derivative of entry i of calc's output in the independent variable
    j, [hes w j k X] the second derivative of the sum of the outputs weighted by [w]; [jac_T] and
    [hes_T] those of terminal nodes *)
Variables (jac jac_T : nat -> nat -> list V -> V) (hes hes_T : list V -> nat -> nat -> list V -> V).
Definition by_rows (r c : nat) (f : nat -> nat -> V) : list V :=
  flat_map (fun i => map (fun j => f i j) (seq 0 c)) (seq 0 r).
(** the weights must be as many as the outputs *)
Definition Hessian (h : list V -> nat -> nat -> list V -> V) (ny : nat) (X w : list V) : res (list V) :=
  if length w =? ny then Val (by_rows (length X) (length X) (fun j k => h w j k X)) else Undef.
Definition Jacobian (f : nat -> nat -> list V -> V) (ny : nat) (X : list V) : list V :=
  by_rows ny (length X) (fun i j => f i j X).

(** ** The calls *)
(** update_p, 422-434: [Exn] leaves the data as they are *)
Definition update_p (c : cgen) (d : data) (p : list V) : res data :=
  if negb (length p =? c_np c) then Exn else
  X <- put (d_X d) (length (d_X d) - c_np c) (vpiece (c_np c) p) ;;
  XT <- put (d_X_T d) (length (d_X_T d) - c_np c) (vpiece (c_np c) p) ;;
  Val (set_X_T (set_X d X) XT).
(** the inputs, 442-443 and 473-474; the sizes of x and u are not checked *)
Definition input (c : cgen) (d : data) (x u : list V) : res data :=
  let m := c_model c in
  X <- put (d_X d) 0 (vpiece (a_nx m) x) ;;
  X <- put X (a_nx m) (vpiece (a_nu m) u) ;;
  Val (set_X d X).
(** 457 and 498 *)
Definition input_T (c : cgen) (d : data) (x : list V) : res data :=
  X <- put (d_X_T d) 0 (vpiece (a_nx (c_model c)) x) ;; Val (set_X_T d X).
(** calc, 436-449 *)
Definition calc (c : cgen) (d : data) (x u : list V) : res data :=
  d <- input c d x u ;; set_Y1 (c_model c) d (l_calc (c_lib c) (d_X d)).
(** calc of terminal nodes, 451-464 *)
Definition calc_T (c : cgen) (d : data) (x : list V) : res data :=
  d <- input_T c d x ;;
  let Y := l_calc_T (c_lib c) (d_X_T d) in
  set_Y1_T (c_model c) (set_out d (d_cost d) x (d_g d) (d_h d)) Y.
(** calcDiff, 466-490 *)
Definition calcDiff (c : cgen) (d : data) (x u : list V) : res data :=
  d <- input c d x u ;;
  if c_autodiff c then
    let J := Jacobian jac (nY1 (c_model c)) (d_X d) in
    H <- Hessian hes (nY1 (c_model c)) (d_X d) (c_w c) ;;
    set_D1 (c_model c) (c_np c) d J H
  else set_Y2 (c_model c) d (l_diff (c_lib c) (d_X d)).
(** calcDiff of terminal nodes, 492-515 *)
Definition calcDiff_T (c : cgen) (d : data) (x : list V) : res data :=
  d <- input_T c d x ;;
  if c_autodiff c then
    let J := Jacobian jac_T nY1_T (d_X_T d) in
    H <- Hessian hes_T nY1_T (d_X_T d) (c_w_T c) ;;
    set_D1_T (c_model c) (c_np c) d J H
  else set_Y2_T (c_model c) d (l_diff_T (c_lib c) (d_X_T d)).
(** quasiStatic, 534-547; the iterations and the tolerance asked for are not used.  [X3 = x] would
    resize X3, ForwardZero then wants as many inputs as it was recorded with *)
Definition quasiStatic (c : cgen) (x : list V) : res (list V) :=
  if length x =? a_nx (c_model c) then getv (l_qs (c_lib c) x) 0 (a_nu (c_model c)) else Undef.

(** a call on the data, and a history of calls; an exception leaves the data as they are *)
Inductive op := UpdateP (p : list V) | Calc (x u : list V) | CalcT (x : list V)
              | CalcDiff (x u : list V) | CalcDiffT (x : list V) | QuasiStatic (x : list V).
Definition run_op (c : cgen) (d : data) (o : op) : res data :=
  match o with
  | UpdateP p => match update_p c d p with Exn => Val d | r => r end
  | Calc x u => calc c d x u
  | CalcT x => calc_T c d x
  | CalcDiff x u => calcDiff c d x u
  | CalcDiffT x => calcDiff_T c d x
  | QuasiStatic x => _ <- quasiStatic c x ;; Val d
  end.
Fixpoint run (c : cgen) (d : data) (os : list op) : res data :=
  match os with [] => Val d | o :: os => d <- run_op c d o ;; run c d os end.
End CodeGen.

(** ** Library files *)
(** Names of libraries and the process's loader.  [M]: what a library computes.  [keeps]: the loader
    hands out a library of the same name that is already loaded instead of reading the file again
    (dlopen may do either, depending on how the compiler replaced the file). *)
Section Files.
Context {M : Type} (keeps : bool).
(** a code-generated model: the library's name, the model wrapped, the library opened *)
Record obj := Obj { b_name : string; b_model : M; b_lib : M }.
(** the files, latest first, and the models alive (destroyed ones are None) *)
Record world := World { w_files : list (string * M); w_objs : list (option obj) }.

Fixpoint find_file (fs : list (string * M)) (n : string) : option M :=
  match fs with [] => None | (k, m) :: fs => if String.eqb k n then Some m else find_file fs n end.
Fixpoint find_loaded (os : list (option obj)) (n : string) : option M :=
  match os with
  | [] => None
  | Some b :: os => if String.eqb (b_name b) n then Some (b_lib b) else find_loaded os n
  | None :: os => find_loaded os n
  end.
(** loadLib, action.hxx:396-419; [None] when the file does not exist *)
Definition open_lib (w : world) (n : string) : option M :=
  match find_file (w_files w) n with
  | None => None
  | Some f => if keeps then match find_loaded (w_objs w) n with Some l => Some l | None => Some f end else Some f
  end.

Inductive fop :=
| Generate (n : string) (m : M)   (* the generating constructors *)
| Copy (i : nat)                  (* the copy constructor *)
| Load (n : string) (m : M)       (* the loading constructors, for a model of the library's sizes *)
| Destroy (i : nat).
Definition add_obj (w : world) (b : obj) : world := World (w_files w) (w_objs w ++ [Some b]).
(** a call on an object that is not there, and one that throws, leaves the world as it is *)
Definition fstep (w : world) (o : fop) : world :=
  match o with
  | Generate n m =>
      let w := World ((n, m) :: w_files w) (w_objs w) in
      match open_lib w n with Some l => add_obj w (Obj n m l) | None => w end
  | Copy i =>
      match nth_error (w_objs w) i with
      | Some (Some b) =>
          match open_lib w (b_name b) with Some l => add_obj w (Obj (b_name b) (b_model b) l) | None => w end
      | _ => w
      end
  | Load n m => match open_lib w n with Some l => add_obj w (Obj n m l) | None => w end
  | Destroy i =>
      World (w_files w) (firstn i (w_objs w) ++ match skipn i (w_objs w) with [] => [] | _ :: r => None :: r end)
  end.
Definition frun (w : world) (os : list fop) : world := fold_left fstep os w.
End Files.
