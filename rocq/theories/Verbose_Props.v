(** C105: the table printed by CallbackVerbose. *)
From Coq Require Import QArith Qabs ZArith List Arith Bool String Ascii Lia.
From Verif Require Import XFloat Verbose_Model.
Import ListNotations.
Close Scope Q_scope.
Local Open Scope string_scope.
Local Open Scope nat_scope.

(** ** Specification *)
(** A column has a title, a quantity of the solver and a way to show it. *)
Inductive kind := KVal | KAbs | KStep.
Record column := Column { title : string; shown : quantity; how : kind }.
Definition columns (lv : vlevel) : list column :=
  let c s q := Column s q KVal in
  let cost := [c "cost" Cost] in let merit := [c "merit" Merit] in
  let grad := [c "stop" Stop; Column "|grad|" D0 KAbs; c "preg" Preg] in
  let dreg := [c "dreg" Dreg] in let step := [Column "step" Step KStep] in
  let ffeas := [c "||ffeas||" Ffeas] in let gh := [c "||gfeas||" Gfeas; c "||hfeas||" Hfeas] in
  let dv := [c "dV-exp" DVexp; c "dV" DV] in let dphi := [c "dPhi-exp" DPhiexp; c "dPhi" DPhi] in
  (match lv with
   | L0 => cost ++ grad ++ step ++ dv
   | L1 => cost ++ merit ++ grad ++ step ++ ffeas ++ dv
   | L2 => cost ++ merit ++ grad ++ dreg ++ step ++ ffeas ++ dv
   | L3 => cost ++ merit ++ grad ++ dreg ++ step ++ ffeas ++ gh ++ dv
   | L4 => cost ++ merit ++ grad ++ dreg ++ step ++ ffeas ++ gh ++ dv ++ dphi
   end)%list.

Fixpoint cat (l : list string) : string := match l with [] => "" | s :: l => s ++ cat l end.
Definition finite_part (v : xf) : Q := match v with Fin q => q | _ => 0%Q end.

Section Spec.
Variable dec : nat -> Q -> decimal.
Variable fdec : nat -> Q -> list nat * list nat.
Variable gen : nat -> Q -> string.

(** the cell of a value: a blank, its sign (or a blank), its digits *)
Definition cell (p : nat) (get : quantity -> xf) (c : column) : string :=
  let q := finite_part (get (shown c)) in
  " " ++ (match how c with KVal => if Qlt_le_dec q 0 then "-" else " " | _ => " " end)
  ++ (match how c with KStep => fix_text (fdec 4 (Qabs q)) | _ => sci_text (dec p (Qabs q)) end).
(** the title is centred in its cell, which is as wide as the cell of the value *)
Definition titled (p : nat) (get : quantity -> xf) (h : string) (c : column) : Prop :=
  exists a b, h = "  " ++ blanks a ++ title c ++ blanks b /\ a <= b <= a + 1 /\
              String.length h = String.length (cell p get c).
(** header and row are made of cells of the same widths (the header may lack trailing blanks) *)
Definition lines_up (lv : vlevel) (p it : nat) (get : quantity -> xf) (head row : string) : Prop :=
  (exists hs b, head ++ blanks b = "iter" ++ cat hs /\ Forall2 (titled p get) hs (columns lv)) /\
  (exists i, row = i ++ cat (map (cell p get) (columns lv)) ++ newline /\ String.length i = String.length "iter" /\
             exists a, i = blanks a ++ nat_text it).

(** std::scientific and std::fixed print as many decimals as the precision says *)
Definition rounds : Prop :=
  (forall p q, List.length (frac (dec p q)) = p) /\ (forall p q, List.length (snd (fdec p q)) = p).
(** the value is finite, its exponent has two digits, the step length has one digit before the
    point, and what is printed without care for the sign is not negative *)
Definition fits (p : nat) (get : quantity -> xf) (c : column) : Prop :=
  exists q, get (shown c) = Fin q /\
    match how c with
    | KStep => (0 <= q)%Q /\ List.length (fst (fdec 4 (Qabs q))) = 1
    | KAbs => (Z.abs (expo (dec p (Qabs q))) < 100)%Z
    | KVal => (Z.abs (expo (dec p (Qabs q))) < 100)%Z /\
              (match shown c with Merit | DVexp | DV | DPhiexp | DPhi => True | _ => (0 <= q)%Q end)
    end.
End Spec.

(** ** Text lemmas *)
Lemma app_assoc_s (a b c : string) : (a ++ b) ++ c = a ++ b ++ c.
Proof. induction a as [|x a IH]; cbn; [reflexivity|]. now rewrite IH. Qed.
Lemma app_nil_s (a : string) : a ++ "" = a.
Proof. induction a as [|x a IH]; cbn; [reflexivity|]. now rewrite IH. Qed.
Lemma len_app a b : String.length (a ++ b) = String.length a + String.length b.
Proof. induction a as [|x a IH]; cbn; [reflexivity|]. now rewrite IH. Qed.
Lemma len_blanks n : String.length (blanks n) = n.
Proof. induction n; cbn; congruence. Qed.
Lemma len_digits l : String.length (digits l) = List.length l.
Proof. induction l; cbn; congruence. Qed.

Lemma len_small : forallb (fun n => String.length ((if Z.ltb (Z.of_nat n) 10 then "0" else "") ++ nat_text n) =? 2) (seq 0 100) = true.
Proof. vm_compute. reflexivity. Qed.
Lemma len_expo e : (Z.abs e < 100)%Z -> String.length (expo_text e) = 3.
Proof.
  intro H. unfold expo_text. rewrite len_app.
  pose proof (proj1 (forallb_forall _ _) len_small (Z.to_nat (Z.abs e))) as L.
  assert (I : In (Z.to_nat (Z.abs e)) (seq 0 100)) by (apply in_seq; lia).
  specialize (L I). cbv beta in L. rewrite Z2Nat.id in L by lia. apply Nat.eqb_eq in L. rewrite L. destruct (Z.ltb e 0); reflexivity.
Qed.
Lemma len_sci d : (Z.abs (expo d) < 100)%Z -> 1 <= List.length (frac d) ->
  String.length (sci_text d) = 6 + List.length (frac d).
Proof.
  intros E F. unfold sci_text. cbn [String.length]. rewrite len_app. cbn [append String.length].
  rewrite (len_expo _ E). destruct (frac d) as [|x l]; [cbn in F; lia|].
  cbn [append String.length]. rewrite len_digits. cbn [List.length]. lia.
Qed.
Lemma len_sci0 d : (Z.abs (expo d) < 100)%Z -> frac d = [] -> String.length (sci_text d) = 5.
Proof. intros E F. unfold sci_text. rewrite F. cbn [String.length append]. now rewrite (len_expo _ E). Qed.
Lemma len_fix d : List.length (fst d) = 1 -> List.length (snd d) = 4 -> String.length (fix_text d) = 6.
Proof.
  intros A B. unfold fix_text. rewrite len_app, len_digits, A. destruct (snd d) as [|x l]; [discriminate|].
  cbn [append String.length]. rewrite len_digits, B. reflexivity.
Qed.
Lemma len_iters : forallb (fun n => String.length (nat_text n) <=? 4) (seq 0 10000) = true.
Proof. vm_compute. reflexivity. Qed.
Lemma len_iter it : it < 10000 -> String.length (iter_text it) = 4.
Proof.
  intro H. unfold iter_text. rewrite len_app, len_blanks.
  pose proof (proj1 (forallb_forall _ _) len_iters it) as L.
  assert (I : In it (seq 0 10000)) by (apply in_seq; split; [apply Nat.le_0_l|exact H]).
  specialize (L I). apply Nat.leb_le in L. lia.
Qed.

(** ** Header *)
Lemma blanks_app a b : blanks (a + b) = blanks a ++ blanks b.
Proof. induction a; cbn; [reflexivity|]. now rewrite IHa. Qed.
Lemma centred s w : String.length s <= w ->
  exists a b, center_string s w true = blanks a ++ s ++ blanks b /\ center_string s w false = blanks a ++ s /\
              a <= b <= a + 1 /\ a + String.length s + b = w.
Proof.
  intro H. unfold center_string.
  set (d := w - String.length s).
  replace (Z.of_nat w - Z.of_nat (String.length s))%Z with (Z.of_nat d) by (unfold d; lia).
  exists (d / 2), (d / 2 + d mod 2).
  assert (Q : Z.quot (Z.of_nat d) 2 = Z.of_nat (d / 2)).
  { rewrite Z.quot_div_nonneg by lia. now rewrite Nat2Z.inj_div. }
  assert (R' : Z.rem (Z.of_nat d) 2 = Z.of_nat (d mod 2)).
  { rewrite Z.rem_mod_nonneg by lia. now rewrite Nat2Z.inj_mod. }
  pose proof (Nat.div_mod d 2 ltac:(lia)) as E. pose proof (Nat.mod_upper_bound d 2 ltac:(lia)) as B.
  assert (L : (if Z.ltb 0 (Z.of_nat d) then Z.quot (Z.of_nat d) 2 else 0%Z) = Z.of_nat (d / 2)).
  { destruct (Z.ltb_spec 0 (Z.of_nat d)); [exact Q|]. assert (d = 0) by lia. replace d with 0 by lia. reflexivity. }
  rewrite L, R'. destruct (d mod 2) as [|[|k]] eqn:M; [| |lia]; cbn [Z.of_nat Z.eqb negb].
  - rewrite !Nat2Z.id, Nat.add_0_r. repeat split; unfold d in *; lia.
  - cbn [Z.eqb]. replace (negb (Z.of_nat 1 =? 0)%Z) with true by reflexivity.
    replace (Z.to_nat (Z.of_nat (d / 2) + 1)) with (d / 2 + 1) by lia. rewrite Nat2Z.id.
    repeat split; unfold d in *; lia.
Qed.

(** the cells of the header, as the code lays them out *)
Definition width (p : nat) (c : column) : nat := match how c with KStep => 6 | _ => 6 + p end.
Definition hcell (p : nat) (c : column) : string := "  " ++ center_string (title c) (width p c) true.
Lemma header_cells lv p :
  exists b, update_header lv p ++ blanks b = "iter" ++ cat (map (hcell p) (columns lv)).
Proof.
  assert (L : exists s, (s = "dV" \/ s = "dPhi") /\ exists h, update_header lv p = h ++ center_string s (6 + p) false
              /\ h ++ center_string s (6 + p) true = "iter" ++ cat (map (hcell p) (columns lv))).
  { destruct lv; [exists "dV"|exists "dV"|exists "dV"|exists "dV"|exists "dPhi"]; (split; [tauto|]);
      cbn [update_header columns app map cat hcell title how width]; unfold hcell, separator; cbn [title how width];
      eexists; (split; [rewrite <- !app_assoc_s; reflexivity|]); rewrite !app_assoc_s, ?app_nil_s; reflexivity. }
  destruct L as (s & T & h & E1 & E2).
  destruct (centred s (6 + p)) as (a & b & C1 & C2 & _).
  { destruct T as [-> | ->]; cbn; lia. }
  exists b. rewrite E1, <- E2, C1, C2. now rewrite !app_assoc_s.
Qed.

(** ** Rows *)
Section Rows.
Variable dec : nat -> Q -> decimal.
Variable fdec : nat -> Q -> list nat * list nat.
Variable gen : nat -> Q -> string.
Hypothesis HR : rounds dec fdec.

Lemma len_cell p get c : 1 <= p -> fits dec fdec p get c ->
  String.length (cell dec fdec p get c) = 2 + width p c.
Proof.
  intros P (q & E & F). unfold cell, width. rewrite E. cbn [finite_part append String.length]. rewrite len_app.
  destruct HR as [HD HF].
  destruct (how c).
  - destruct F as [F _]. rewrite len_sci; rewrite ?HD; auto. destruct (Qlt_le_dec q 0); reflexivity.
  - rewrite len_sci; rewrite ?HD; auto.
  - rewrite len_fix; rewrite ?HF; tauto.
Qed.
Lemma titled_cell p get c : 1 <= p -> String.length (title c) <= width p c -> fits dec fdec p get c ->
  titled dec fdec p get (hcell p c) c.
Proof.
  intros P L F. destruct (centred (title c) (width p c) L) as (a & b & C & _ & B & W).
  exists a, b. unfold hcell. rewrite C. repeat split; try tauto.
  rewrite (len_cell _ _ _ P F), !len_app, !len_blanks. cbn [String.length]. lia.
Qed.

Lemma nonneg_bool q : (0 <= q)%Q -> Qle_bool 0 q = true.
Proof. apply Qle_bool_iff. Qed.
Lemma cell_val p get q t : fits dec fdec p get (Column t q KVal) ->
  (match q with Merit | DVexp | DV | DPhiexp | DPhi => False | _ => True end) ->
  cell dec fdec p get (Column t q KVal) = "  " ++ put_double dec fdec gen (Fmt Scientific p) (get q).
Proof.
  intros (x & E & F) H. cbn [shown how] in *. unfold cell. cbn [shown how]. rewrite E. cbn [finite_part put_double].
  assert (N : (0 <= x)%Q) by (destruct q; tauto). rewrite (nonneg_bool _ N).
  destruct (Qlt_le_dec x 0) as [L|_]; [|reflexivity]. exfalso. exact (Qlt_not_le _ _ L N).
Qed.
Lemma cell_abs p get q t : fits dec fdec p get (Column t q KAbs) ->
  cell dec fdec p get (Column t q KAbs) = "  " ++ put_double dec fdec gen (Fmt Scientific p) (xabs (get q)).
Proof.
  intros (x & E & F). cbn [shown how] in *. unfold cell. cbn [shown how]. rewrite E. cbn [finite_part xabs put_double].
  rewrite (nonneg_bool _ (Qabs_nonneg x)). cbn [append]. unfold magnitude. cbn [f_not f_prec].
  replace (Qabs (Qabs x)) with (Qabs x) by (destruct x as [n d]; cbn; now rewrite Z.abs_involutive). reflexivity.
Qed.
Lemma cell_signed p get q t : fits dec fdec p get (Column t q KVal) ->
  cell dec fdec p get (Column t q KVal) = " " ++ space_sign dec fdec gen p (get q).
Proof.
  intros (x & E & F). cbn [shown how] in *. unfold cell, space_sign. cbn [shown how]. rewrite E.
  cbn [finite_part xabs put_double xle].
  rewrite (nonneg_bool _ (Qabs_nonneg x)). unfold magnitude. cbn [f_not f_prec].
  replace (Qabs (Qabs x)) with (Qabs x) by (destruct x as [n d]; cbn; now rewrite Z.abs_involutive).
  destruct (Qlt_le_dec x 0) as [L|L].
  - destruct (Qle_bool 0 x) eqn:B; [|reflexivity]. apply Qle_bool_iff in B. exfalso. exact (Qlt_not_le _ _ L B).
  - rewrite (nonneg_bool _ L). reflexivity.
Qed.
Lemma cell_step p get q t : fits dec fdec p get (Column t q KStep) ->
  cell dec fdec p get (Column t q KStep) = "  " ++ put_double dec fdec gen (Fmt Fixed 4) (get q).
Proof.
  intros (x & E & F & _). cbn [shown how] in *. unfold cell. cbn [shown how]. rewrite E. cbn [finite_part put_double].
  rewrite (nonneg_bool _ F). reflexivity.
Qed.

Lemma put_cons p get f i l :
  snd (put_items dec fdec gen p get f (i :: l)) =
  (match i with
   | Sep => separator | SepShort => separator_short | Sci | Fix4 => ""
   | Val q => put_double dec fdec gen f (get q) | Abs q => put_double dec fdec gen f (xabs (get q))
   | Signed q => space_sign dec fdec gen p (get q)
   end) ++ snd (put_items dec fdec gen p get (match i with Sci => Fmt Scientific p | Fix4 => Fmt Fixed 4 | _ => f end) l).
Proof. cbn [put_items]. destruct (put_items _ _ _ _ _ _ l). reflexivity. Qed.
Lemma put_nil p get f : snd (put_items dec fdec gen p get f []) = "".
Proof. reflexivity. Qed.
Local Opaque cell put_double space_sign append.
Lemma row_cells lv p get f : List.Forall (fits dec fdec p get) (columns lv) ->
  separator ++ snd (put_items dec fdec gen p get f (row_items lv)) = cat (map (cell dec fdec p get) (columns lv)).
Proof.
  intro H. rewrite List.Forall_forall in H.
  assert (A : forall q t, In (Column t q KVal) (columns lv) ->
    (match q with Merit | DVexp | DV | DPhiexp | DPhi => False | _ => True end) ->
    cell dec fdec p get (Column t q KVal) = "  " ++ put_double dec fdec gen (Fmt Scientific p) (get q))
    by (intros; apply cell_val; auto).
  assert (B : forall q t, In (Column t q KAbs) (columns lv) ->
    cell dec fdec p get (Column t q KAbs) = "  " ++ put_double dec fdec gen (Fmt Scientific p) (xabs (get q)))
    by (intros; apply cell_abs; auto).
  assert (C : forall q t, In (Column t q KVal) (columns lv) ->
    cell dec fdec p get (Column t q KVal) = " " ++ space_sign dec fdec gen p (get q))
    by (intros; apply cell_signed; auto).
  assert (D : forall q t, In (Column t q KStep) (columns lv) ->
    cell dec fdec p get (Column t q KStep) = "  " ++ put_double dec fdec gen (Fmt Fixed 4) (get q))
    by (intros; apply cell_step; auto).
  clear H.
  destruct lv; cbn [columns List.app map cat row_items In] in *;
    rewrite ?(A Cost "cost"), ?(A Stop "stop"), ?(A Preg "preg"), ?(A Dreg "dreg"), ?(A Ffeas "||ffeas||"),
      ?(A Gfeas "||gfeas||"), ?(A Hfeas "||hfeas||"), ?(B D0 "|grad|"), ?(D Step "step"),
      ?(C Merit "merit"), ?(C DVexp "dV-exp"), ?(C DV "dV"), ?(C DPhiexp "dPhi-exp"), ?(C DPhi "dPhi")
      by first [exact I | repeat (first [left; reflexivity | right])].
  all: clear A B C D.
  all: rewrite !put_cons, put_nil.
  all: unfold separator, separator_short.
  all: rewrite !app_assoc_s; reflexivity.
Qed.
Local Transparent cell put_double space_sign append.
End Rows.

Lemma call_text dec fdec gen c it get f : snd (call dec fdec gen c it get f) =
  (if Nat.eqb (it mod 10) 0 then header c ++ newline else "") ++ iter_text it ++ separator ++
  snd (put_items dec fdec gen (precision c) get f (row_items (level c))) ++ newline.
Proof. unfold call. destruct (put_items _ _ _ _ _ _ _). reflexivity. Qed.

(** ** C105 *)
(** With at least three decimals (one at level 0) header and row line up, whatever the values as
    long as they fit their column. *)
Theorem C105_lines_up_partial : forall dec fdec gen lv p it get f,
  rounds dec fdec -> (3 <= p \/ lv = L0 /\ 1 <= p) -> it < 10000 ->
  List.Forall (fits dec fdec p get) (columns lv) ->
  forall c, new_callback lv (Z.of_nat p) = Some c ->
  exists head row, lines_up dec fdec lv p it get head row /\
    snd (call dec fdec gen c it get f) = (if Nat.eqb (it mod 10) 0 then head ++ newline else "") ++ row.
Proof.
  intros dec fdec gen lv p it get f HR HP HI HF c HC.
  assert (C : c = Callback lv p (update_header lv p)).
  { unfold new_callback, set_precision in HC. destruct (Z.ltb_spec (Z.of_nat p) 0); [lia|].
    cbn [level] in HC. rewrite Nat2Z.id in HC. congruence. }
  subst c. clear HC.
  assert (P : 1 <= p) by lia.
  exists (update_header lv p), (iter_text it ++ separator ++ snd (put_items dec fdec gen p get f (row_items lv)) ++ newline).
  split.
  - split.
    + destruct (header_cells lv p) as [b E]. exists (map (hcell p) (columns lv)), b. split; [exact E|].
      assert (W : List.Forall (fun c => String.length (title c) <= width p c) (columns lv)).
      { destruct HP as [HP|[-> HP]]; [destruct lv|]; cbn [columns List.app];
          repeat (apply List.Forall_cons; [cbn [title how width String.length]; unfold width; cbn [how]; lia|]); apply List.Forall_nil. }
      clear E. revert HF W. induction (columns lv) as [|c l IH]; intros HF W; [constructor|].
      inversion_clear HF. inversion_clear W. cbn [map]. constructor; [now apply titled_cell|auto].
    + exists (iter_text it). repeat split.
      * rewrite <- (row_cells dec fdec gen lv p get f HF). now rewrite !app_assoc_s.
      * now apply len_iter.
      * exists (4 - String.length (nat_text it)). reflexivity.
  - unfold call. cbn [header precision level].
    destruct (put_items dec fdec gen p get f (row_items lv)) as [f' r]. cbn [snd].
    destruct (Nat.eqb (it mod 10) 0); reflexivity.
Qed.

(** The row does not depend on the format in which std::cout was left. *)
Theorem C105_stream_independent : forall dec fdec gen c it get f1 f2,
  call dec fdec gen c it get f1 = call dec fdec gen c it get f2.
Proof. intros. unfold call. destruct (level c); reflexivity. Qed.

(** But the format of std::cout is lost: whatever it was, the user's next number is printed in
    another one. *)
Theorem C105_stream_refuted : exists c, new_callback L4 3 = Some c /\
  forall dec fdec gen it get f, fst (call dec fdec gen c it get f) = Fmt Scientific 3 /\
  (f_not f = General -> fst (call dec fdec gen c it get f) <> f).
Proof.
  eexists. split; [reflexivity|]. intros. split; [reflexivity|]. intros H E.
  change (fst (call dec fdec gen _ it get f)) with (Fmt Scientific 3) in E. subst f. discriminate.
Qed.

(** *** Settings *)
Inductive op := SetLevel (lv : vlevel) | SetPrecision (p : Z).
Definition apply (c : callback) (o : op) : callback :=
  match o with
  | SetLevel lv => set_level lv c
  | SetPrecision p => match set_precision p c with Some c' => c' | None => c end
  end.
(** the level set last, and the last precision that was not negative *)
Definition last_level (lv : vlevel) (l : list op) : vlevel :=
  fold_left (fun lv o => match o with SetLevel lv' => lv' | _ => lv end) l lv.
Definition last_precision (p : Z) (l : list op) : Z :=
  fold_left (fun p o => match o with SetPrecision p' => if Z.leb 0 p' then p' else p | _ => p end) l p.
(** After any settings the callback prints what a new one with the last settings prints. *)
Theorem C105_settings : forall lv p l c, (0 <= p)%Z -> new_callback lv p = Some c ->
  exists c', new_callback (last_level lv l) (last_precision p l) = Some c' /\
  forall dec fdec gen it get f, call dec fdec gen (fold_left apply l c) it get f = call dec fdec gen c' it get f.
Proof.
  intros lv p l. revert lv p. induction l as [|o l IH]; intros lv p c Hp Hc.
  - exists c. split; [exact Hc|reflexivity].
  - cbn [fold_left last_level last_precision].
    assert (C : c = Callback lv (Z.to_nat p) (update_header lv (Z.to_nat p))).
    { unfold new_callback, set_precision in Hc. destruct (Z.ltb_spec p 0); [lia|]. cbn [level] in Hc. congruence. }
    destruct o as [lv'|p']; cbn [apply].
    + apply (IH lv' p); [exact Hp|]. unfold new_callback, set_precision.
      destruct (Z.ltb_spec p 0); [lia|]. rewrite C. reflexivity.
    + destruct (Z.leb_spec 0 p') as [G|G].
      * unfold set_precision. destruct (Z.ltb_spec p' 0); [lia|]. apply (IH lv p'); [exact G|].
        unfold new_callback, set_precision. destruct (Z.ltb_spec p' 0); [lia|]. rewrite C. reflexivity.
      * unfold set_precision. destruct (Z.ltb_spec p' 0); [|lia]. now apply (IH lv p).
Qed.
(** A negative precision is refused, at construction and later. *)
Theorem C105_negative_precision : forall lv p c, (p < 0)%Z -> new_callback lv p = None /\ set_precision p c = None.
Proof. intros. unfold new_callback, set_precision. destruct (Z.ltb_spec p 0); [auto|lia]. Qed.

(** *** The header is repeated *)
(** Of ten consecutive rows exactly one comes with the header. *)
Theorem C105_header_once : forall dec fdec gen c get f k, exists i,
  k <= i < k + 10 /\
  forall j, k <= j < k + 10 ->
    snd (call dec fdec gen c j get f) =
    (if Nat.eqb j i then header c ++ newline else "") ++
    iter_text j ++ separator ++ snd (put_items dec fdec gen (precision c) get f (row_items (level c))) ++ newline.
Proof.
  intros. 
  pose proof (Nat.div_mod (k + 9) 10 ltac:(lia)) as E. pose proof (Nat.mod_upper_bound (k + 9) 10 ltac:(lia)) as B.
  exists (10 * ((k + 9) / 10)). split; [lia|]. intros j J. unfold call.
  destruct (put_items dec fdec gen (precision c) get f (row_items (level c))) as [f' r]. cbn [snd].
  replace (Nat.eqb (j mod 10) 0) with (Nat.eqb j (10 * ((k + 9) / 10))).
  - destruct (Nat.eqb j _); reflexivity.
  - pose proof (Nat.div_mod j 10 ltac:(lia)) as Ej. pose proof (Nat.mod_upper_bound j 10 ltac:(lia)) as Bj.
    destruct (Nat.eqb_spec j (10 * ((k + 9) / 10))) as [->|N].
    + symmetry. apply Nat.eqb_eq. rewrite Nat.mul_comm. apply Nat.mod_mul. lia.
    + symmetry. apply Nat.eqb_neq. intro M. lia.
Qed.

(** *** Where the columns do not line up *)
(** With precision 0, which the callback accepts, not even this holds: that header and row can be
    cut into cells of the same widths such that each contains its title and its value. *)
Definition padded (s t : string) : Prop := exists a b, s = blanks a ++ t ++ blanks b.
Definition matches (dec : nat -> Q -> decimal) (fdec : nat -> Q -> list nat * list nat) (lv : vlevel) (p : nat)
  (get : quantity -> xf) (head row : string) : Prop :=
  exists i hs rs b, String.length i = 4 /\ head ++ blanks b = "iter" ++ cat hs /\ row = i ++ cat rs ++ newline /\
    Forall2 (fun h c => padded h (title c)) hs (columns lv) /\
    Forall2 (fun r c => padded r (cell dec fdec p get c)) rs (columns lv) /\
    Forall2 (fun h r => String.length h = String.length r) hs rs.
Lemma len_cat hs rs : Forall2 (fun h r => String.length h = String.length r) hs rs ->
  String.length (cat hs) = String.length (cat rs).
Proof. induction 1; cbn [cat]; [reflexivity|]. rewrite !len_app. lia. Qed.
Lemma abs1 : Qabs 1 = 1%Q. Proof. reflexivity. Qed.
Lemma absm1 : Qabs (-1) = 1%Q. Proof. reflexivity. Qed.
(** all quantities one; 1 is printed as 1e+00, 1.000e+00 and 1.0000 *)
Definition ones : quantity -> xf := fun _ => Fin 1.
Definition prints_one (dec : nat -> Q -> decimal) (fdec : nat -> Q -> list nat * list nat) : Prop :=
  (forall p, dec p 1%Q = Decimal 1 (repeat 0 p) 0%Z) /\ fdec 4 1%Q = ([1], [0; 0; 0; 0]).
Theorem C105_precision_refuted : exists c, new_callback L0 0 = Some c /\
  forall dec fdec gen f, prints_one dec fdec ->
  forall head row, snd (call dec fdec gen c 0 ones f) = head ++ newline ++ row ->
  head = header c -> ~ matches dec fdec L0 0 ones head row.
Proof.
  eexists. split; [reflexivity|]. intros dec fdec gen f [HD HF] head row E H.
  intros (i & hs & rs & b & Li & Eh & Er & _ & _ & EL).
  apply len_cat in EL.
  assert (L1 : String.length (head ++ blanks b) = 4 + String.length (cat hs)) by (rewrite Eh, len_app; reflexivity).
  assert (L2 : String.length row = 5 + String.length (cat rs)) by (rewrite Er, !len_app, Li; cbn; lia).
  assert (L3 : String.length head = 58) by (subst head; reflexivity).
  assert (L4 : String.length row = 55).
  { assert (T : String.length (snd (call dec fdec gen (Callback L0 0 (update_header L0 0)) 0 ones f)) = 114).
    { rewrite call_text. cbn [precision level row_items]. rewrite !put_cons, put_nil.
      unfold space_sign, ones. cbn [put_double xabs].
      rewrite !abs1. unfold magnitude. cbn [f_not f_prec]. rewrite HD, HF. vm_compute. reflexivity. }
    change (Callback L0 0 (update_header L0 0)) with
      (Callback (level (Callback L0 0 "")) (Z.to_nat 0) (update_header (level (Callback L0 0 "")) (Z.to_nat 0))) in T.
    rewrite E, !len_app, L3 in T. cbn [String.length newline] in T. lia. }
  rewrite len_app in L1. lia.
Qed.
(** A negative cost moves the rest of its row by one character. *)
Definition minus_one : quantity -> xf := fun q => match q with Cost => Fin (-1) | _ => Fin 1 end.
Theorem C105_negative_cost_refuted : exists c, new_callback L0 3 = Some c /\
  forall dec fdec gen f, prints_one dec fdec ->
  forall head, ~ lines_up dec fdec L0 3 1 minus_one head (snd (call dec fdec gen c 1 minus_one f)).
Proof.
  eexists. split; [reflexivity|]. intros dec fdec gen f [HD HF] head (_ & i & E & Li & _).
  apply (f_equal String.length) in E. rewrite !len_app, Li in E.
  cbn [columns app map cat] in E. unfold cell in E. cbn [shown how] in E.
  unfold minus_one in E. cbn [finite_part] in E.
  rewrite absm1, !abs1 in E.
  rewrite call_text in E. cbn [precision level row_items] in E. rewrite !put_cons, put_nil in E.
  unfold space_sign, minus_one in E. cbn [put_double xabs] in E.
  unfold magnitude in E. cbn [f_not f_prec] in E.
  rewrite absm1, !abs1 in E.
  rewrite !HD, HF in E. destruct (Qlt_le_dec (-1) 0), (Qlt_le_dec 1 0); vm_compute in E; discriminate.
Qed.

(** ** Examples *)
Definition ex_dec (p : nat) (q : Q) : decimal := Decimal 1 (repeat 0 p) 0.
Definition ex_fdec (p : nat) (q : Q) : list nat * list nat := ([1], repeat 0 p).
Example ex_rounds : rounds ex_dec ex_fdec /\ prints_one ex_dec ex_fdec.
Proof. repeat split; intros; cbn; apply repeat_length. Qed.
Definition ex_get (q : quantity) : xf := match q with DV => Fin (-1) | D0 => Fin (-1) | _ => Fin 1 end.
Example ex_fits : List.Forall (fits ex_dec ex_fdec 3 ex_get) (columns L2).
Proof. repeat constructor; eexists; (split; [reflexivity|]); cbn; try split; try lia; try exact I; try discriminate; reflexivity. Qed.
Example ex_row : exists c, new_callback L0 3 = Some c /\
  snd (call ex_dec ex_fdec (fun _ _ => "?") c 20 ex_get (Fmt General 6)) =
  "iter    cost       stop      |grad|      preg      step    dV-exp       dV" ++ newline ++
  "  20  1.000e+00  1.000e+00  1.000e+00  1.000e+00  1.0000  1.000e+00 -1.000e+00" ++ newline.
Proof. eexists. split; [reflexivity|]. vm_compute. reflexivity. Qed.
Example ex_settings : last_level L4 [SetPrecision 5; SetLevel L1; SetPrecision (-2)] = L1 /\
  last_precision 3 [SetPrecision 5; SetLevel L1; SetPrecision (-2)] = 5%Z.
Proof. split; reflexivity. Qed.

Print Assumptions C105_lines_up_partial.
Print Assumptions C105_stream_independent.
Print Assumptions C105_stream_refuted.
Print Assumptions C105_settings.
Print Assumptions C105_negative_precision.
Print Assumptions C105_header_once.
Print Assumptions C105_precision_refuted.
Print Assumptions C105_negative_cost_refuted.
