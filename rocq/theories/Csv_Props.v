(** C111: what is written can be read back. *)
From Coq Require Import List Ascii Arith Bool Lia.
From Verif Require Import Csv_Model.
Import ListNotations.
Open Scope list_scope.
Open Scope nat_scope.

(** ** Specification: the rows a history of writes stands for, and a reader for the format of RFC
    4180 with an arbitrary separator. *)
Inductive field := Quoted (s : str) | Plain (t : str).
(** complete rows and the row being written *)
Fixpoint rows_of (l : list item) (rows : list (list field)) (row : list field) : list (list field) * list field :=
  match l with
  | [] => (rows, row)
  | Text s :: l => rows_of l rows (row ++ [Quoted s])
  | Value t :: l => rows_of l rows (row ++ [Plain t])
  | EndRow :: l => rows_of l (rows ++ [row]) []
  end.

Fixpoint strip (p s : str) : option str :=
  match p, s with
  | [], _ => Some s
  | a :: p, b :: s => if Ascii.eqb a b then strip p s else None
  | _, _ => None
  end.
(** after the opening quote: up to a quote that is not followed by another *)
Fixpoint read_quoted (s : str) : option (str * str) :=
  match s with
  | [] => None
  | c :: r =>
      if Ascii.eqb c quote then
        match r with
        | d :: r' => if Ascii.eqb d quote
                     then match read_quoted r' with Some (t, z) => Some (quote :: t, z) | None => None end
                     else Some ([], r)
        | [] => Some ([], [])
        end
      else match read_quoted r with Some (t, z) => Some (c :: t, z) | None => None end
  end.
(** up to a separator or the end of the line *)
Fixpoint read_plain (sep s : str) : str * str :=
  match s with
  | [] => ([], [])
  | c :: r => if Ascii.eqb c newline then ([], s)
              else match strip sep s with
                   | Some _ => ([], s)
                   | None => let (t, z) := read_plain sep r in (c :: t, z)
                   end
  end.
Definition read_field (sep s : str) : option (field * str) :=
  match s with
  | c :: r => if Ascii.eqb c quote
              then match read_quoted r with Some (t, z) => Some (Quoted t, z) | None => None end
              else let (t, z) := read_plain sep s in Some (Plain t, z)
  | [] => Some (Plain [], [])
  end.
Inductive mode := RowStart | AtField | After.
Fixpoint read (fuel : nat) (sep : str) (m : mode) (s : str) (rows : list (list field)) (row : list field) :
  option (list (list field) * list field) :=
  match fuel with
  | O => None
  | S k =>
      match m with
      | RowStart => match s with
                    | [] => Some (rows, row)
                    | c :: r => if Ascii.eqb c newline then read k sep RowStart r (rows ++ [row]) []
                                else read k sep AtField s rows row
                    end
      | AtField => match read_field sep s with
                   | Some (f, z) => read k sep After z rows (row ++ [f])
                   | None => None
                   end
      | After => match s with
                 | [] => Some (rows, row)
                 | c :: r => if Ascii.eqb c newline then read k sep RowStart r (rows ++ [row]) []
                             else match strip sep s with Some z => read k sep AtField z rows row | None => None end
                 end
      end
  end.
Definition csv_read (sep s : str) : option (list (list field) * list field) :=
  read (S (2 * length s)) sep RowStart s [] [].

(** A separator that starts with [c], and unquoted values it can be told from. *)
Definition plain_ok (c : ascii) (t : str) : Prop :=
  t <> [] /\ ~ In newline t /\ ~ In c t /\ hd_error t <> Some quote.
Definition items_ok (c : ascii) (l : list item) : Prop := forall t, In (Value t) l -> plain_ok c t.

(** ** Escaping doubles the quotes *)
Fixpoint double (s : str) : str :=
  match s with [] => [] | c :: r => if Ascii.eqb c quote then quote :: quote :: double r else c :: double r end.
Lemma double_noq s : ~ In quote s -> double s = s.
Proof.
  induction s as [|c s IH]; intro H; [reflexivity|]. cbn [double].
  destruct (Ascii.eqb_spec c quote) as [->|_]; [destruct H; now left|]. rewrite IH; [reflexivity|].
  intro G. apply H. now right.
Qed.
Lemma double_app a b : double (a ++ b) = double a ++ double b.
Proof. induction a as [|c a IH]; [reflexivity|]. cbn. rewrite IH. now destruct (Ascii.eqb c quote). Qed.
Lemma find_from_spec val : forall i from,
  match find_from val i from with
  | Some to => exists a b, val = a ++ quote :: b /\ to = i + length a /\ from <= to /\
                 ~ In quote (skipn (from - i) a)
  | None => ~ In quote (skipn (from - i) val)
  end.
Proof.
  induction val as [|c r IH]; intros i from; cbn [find_from].
  - rewrite skipn_nil. intros [].
  - destruct (Nat.leb_spec from i) as [L|L]; cbn [andb].
    + replace (from - i) with 0 by lia. specialize (IH (S i) from). replace (from - S i) with 0 in IH by lia.
      destruct (Ascii.eqb_spec c quote) as [->|N].
      * exists [], r. cbn. repeat split; try lia.
      * destruct (find_from r (S i) from) as [to|].
        -- destruct IH as (a & b & -> & -> & H1 & H2). exists (c :: a), b. cbn [length app].
           split; [reflexivity|]. split; [lia|]. split; [lia|]. cbn. intros [E|H]; [now apply N|now apply H2].
        -- cbn. intros [E|H]; [now apply N|now apply IH].
    + specialize (IH (S i) from). replace (from - i) with (S (from - S i)) by lia.
      destruct (find_from r (S i) from) as [to|].
      * destruct IH as (a & b & -> & -> & H1 & H2). exists (c :: a), b. cbn [length app skipn].
        repeat split; auto; lia.
      * exact IH.
Qed.
Lemma skipn_app_len {A} (a b : list A) : skipn (length a) (a ++ b) = b.
Proof. induction a; auto. Qed.
Lemma escape_loop_spec val : forall fuel from res, from <= length val -> length val - from < fuel ->
  exists res' from', escape_loop fuel val from res = Some (res', from') /\
    res' ++ skipn from' val = res ++ double (skipn from val).
Proof.
  induction fuel as [|k IH]; intros from res Hf Hk; [lia|]. cbn [escape_loop].
  destruct (Nat.ltb_spec from (length val)) as [L|L].
  - pose proof (find_from_spec val 0 from) as F. rewrite Nat.sub_0_r in F.
    destruct (find_from val 0 from) as [to|].
    + destruct F as (a & b & E & -> & H1 & H2). cbn [Nat.add] in *.
      assert (El : length val = length a + S (length b)) by (rewrite E, app_length; reflexivity).
      destruct (IH (length a + 1) (res ++ substr val from (length a - from) ++ [quote] ++ substr val (length a) 1)) as (r' & f' & R1 & R2); [lia|lia|].
      exists r', f'. split; [exact R1|]. rewrite R2. clear R1 R2 IH.
      assert (S1 : skipn (length a + 1) val = b).
      { rewrite E. replace (a ++ quote :: b) with ((a ++ [quote]) ++ b) by now rewrite <- app_assoc.
        replace (length a + 1) with (length (a ++ [quote])) by (rewrite app_length; reflexivity).
        apply skipn_app_len. }
      assert (S2 : substr val (length a) 1 = [quote]).
      { unfold substr. rewrite E, skipn_app_len. reflexivity. }
      assert (S3 : skipn from val = skipn from a ++ quote :: b).
      { rewrite E, skipn_app. replace (from - length a) with 0 by lia. reflexivity. }
      assert (S4 : substr val from (length a - from) = skipn from a).
      { unfold substr. rewrite S3, firstn_app, skipn_length.
        replace (length a - from - (length a - from)) with 0 by lia. rewrite firstn_O, app_nil_r.
        apply firstn_all2. rewrite skipn_length. lia. }
      rewrite S1, S2, S3, S4, double_app, (double_noq (skipn from a)) by exact H2.
      rewrite <- !app_assoc. reflexivity.
    + exists res, from. split; [reflexivity|]. now rewrite (double_noq (skipn from val)).
  - exists res, from. split; [reflexivity|]. now rewrite skipn_all2.
Qed.
Lemma escape_spec val : escape val = Some (quote :: double val ++ [quote]).
Proof.
  unfold escape. destruct (escape_loop_spec val (S (length val)) 0 [quote]) as (r & f & -> & H); [lia|lia|].
  rewrite app_assoc, H. reflexivity.
Qed.

(** ** Reading *)
(** what the writer emits from now on *)
Fixpoint enc (sep : str) (fst : bool) (l : list item) : str :=
  match l with
  | [] => []
  | Text s :: l => (if fst then [] else sep) ++ (quote :: double s ++ [quote]) ++ enc sep false l
  | Value t :: l => (if fst then [] else sep) ++ t ++ enc sep false l
  | EndRow :: l => newline :: enc sep true l
  end.
Lemma put_enc l : forall s, out (fold_left put l s) = out s ++ enc (separator s) (is_first s) l.
Proof.
  induction l as [|i l IH]; intro s; cbn [fold_left enc]; [now rewrite app_nil_r|].
  rewrite IH. destruct i as [v|t|]; cbn [put]; try rewrite escape_spec; unfold write, endrow;
    [destruct (is_first s)..|]; cbn [out separator is_first]; rewrite <- ?app_assoc; reflexivity.
Qed.
Lemma strip_app p s : strip p (p ++ s) = Some s.
Proof. induction p as [|c p IH]; [now destruct s|]. cbn. now rewrite Ascii.eqb_refl. Qed.
Lemma strip_head c p d s : c <> d -> strip (c :: p) (d :: s) = None.
Proof. intro H. cbn. now destruct (Ascii.eqb_spec c d). Qed.

(** where a field can end *)
Definition boundary (sep z : str) : Prop := z = [] \/ (exists r, z = newline :: r) \/ (exists r, z = sep ++ r).
Lemma enc_boundary sep l : boundary sep (enc sep false l).
Proof.
  destruct l as [|[s|t|] l]; [now left|right; right; cbn [enc]; eexists; reflexivity..|right; left; eexists; reflexivity].
Qed.
Lemma read_quoted_ok s c p z : c <> quote -> boundary (c :: p) z ->
  read_quoted (double s ++ quote :: z) = Some (s, z).
Proof.
  intros Hc Hz. induction s as [|d s IH].
  - cbn [double app read_quoted]. rewrite Ascii.eqb_refl.
    destruct Hz as [->|[[r ->]|[r ->]]]; [reflexivity|reflexivity|]. cbn [app].
    now destruct (Ascii.eqb_spec c quote).
  - cbn [double]. destruct (Ascii.eqb_spec d quote) as [->|N]; cbn [app read_quoted].
    + rewrite Ascii.eqb_refl, IH. reflexivity.
    + destruct (Ascii.eqb_spec d quote) as [E|_]; [contradiction|]. now rewrite IH.
Qed.
Lemma read_plain_ok t c p z : ~ In newline t -> ~ In c t -> boundary (c :: p) z ->
  read_plain (c :: p) (t ++ z) = (t, z).
Proof.
  intros Hn Hc Hz. induction t as [|d t IH]; cbn [app].
  - destruct Hz as [->|[[r ->]|[r ->]]]; [reflexivity|cbn [read_plain]; now rewrite Ascii.eqb_refl|].
    change ((c :: p) ++ r) with (c :: (p ++ r)). cbn [read_plain]. destruct (Ascii.eqb c newline); [reflexivity|].
    change (c :: p ++ r) with ((c :: p) ++ r). now rewrite strip_app.
  - cbn [read_plain]. destruct (Ascii.eqb_spec d newline) as [->|_]; [destruct Hn; now left|].
    rewrite strip_head; [|intros ->; apply Hc; now left].
    rewrite IH; [reflexivity| |]; intro G; [apply Hn|apply Hc]; now right.
Qed.
Lemma read_field_text s c p z : c <> quote -> boundary (c :: p) z ->
  read_field (c :: p) ((quote :: double s ++ [quote]) ++ z) = Some (Quoted s, z).
Proof.
  intros Hc Hz. cbn [app read_field]. rewrite Ascii.eqb_refl, <- app_assoc. cbn [app].
  now rewrite (read_quoted_ok s c p z).
Qed.
Lemma read_field_value t c p z : plain_ok c t -> boundary (c :: p) z ->
  read_field (c :: p) (t ++ z) = Some (Plain t, z).
Proof.
  intros (H0 & H1 & H2 & H3) Hz. pose proof (read_plain_ok t c p z H1 H2 Hz) as E.
  destruct t as [|d t]; [contradiction|]. cbn [app] in *. unfold read_field.
  destruct (Ascii.eqb_spec d quote) as [->|_]; [now destruct H3|]. now rewrite E.
Qed.

Lemma read_sep k c p z rows row : c <> newline ->
  read (S k) (c :: p) After ((c :: p) ++ z) rows row = read k (c :: p) AtField z rows row.
Proof.
  intro H. pose proof (strip_app (c :: p) z) as E. cbn [read].
  change ((c :: p) ++ z) with (c :: (p ++ z)) in *. rewrite E.
  destruct (Ascii.eqb_spec c newline) as [G|_]; [contradiction|reflexivity].
Qed.
Lemma read_field_step k sep s f z rows row : read_field sep s = Some (f, z) ->
  read (S k) sep AtField s rows row = read k sep After z rows (row ++ [f]).
Proof. intro H. cbn [read]. now rewrite H. Qed.

Lemma read_enc c p l : c <> quote -> c <> newline -> items_ok c l ->
  (forall rows row fuel, 2 * length (enc (c :: p) true l) < fuel ->
     read fuel (c :: p) RowStart (enc (c :: p) true l) rows row = Some (rows_of l rows row)) /\
  (forall rows row fuel, 2 * length (enc (c :: p) false l) < fuel ->
     read fuel (c :: p) After (enc (c :: p) false l) rows row = Some (rows_of l rows row)).
Proof.
  intros Hq Hn. induction l as [|i l IH]; intro Hl.
  - split; intros rows row [|fuel] Hf; try lia; reflexivity.
  - destruct IH as [IH1 IH2]; [intros t Ht; apply Hl; now right|].
    pose proof (enc_boundary (c :: p) l) as Bz.
    destruct i as [s|t|]; cbn [enc rows_of]; (split; intros rows row fuel Hf).
    + destruct fuel as [|[|fuel]]; [lia|cbn in Hf; lia|].
      rewrite app_nil_l in Hf |- *. rewrite app_length in Hf. cbn [length] in Hf.
      change (read (S (S fuel)) (c :: p) RowStart ((quote :: double s ++ [quote]) ++ enc (c :: p) false l) rows row)
        with (read (S fuel) (c :: p) AtField ((quote :: double s ++ [quote]) ++ enc (c :: p) false l) rows row).
      rewrite (read_field_step _ _ _ _ _ _ _ (read_field_text s c p _ Hq Bz)). apply IH2. lia.
    + destruct fuel as [|[|fuel]]; [lia|cbn in Hf; lia|].
      rewrite !app_length in Hf. cbn [length] in Hf.
      rewrite read_sep by assumption. rewrite (read_field_step _ _ _ _ _ _ _ (read_field_text s c p _ Hq Bz)).
      apply IH2. lia.
    + assert (Ht : plain_ok c t) by (apply Hl; now left).
      rewrite app_nil_l in Hf |- *. rewrite app_length in Hf.
      destruct t as [|d t']; [now destruct Ht|].
      destruct fuel as [|[|fuel]]; [lia|cbn in Hf; lia|]. cbn [length] in Hf.
      assert (Hd : Ascii.eqb d newline = false).
      { destruct (Ascii.eqb_spec d newline) as [->|_]; [|reflexivity]. destruct Ht as (_ & H & _). destruct H. now left. }
      change (read (S (S fuel)) (c :: p) RowStart ((d :: t') ++ enc (c :: p) false l) rows row)
        with (if Ascii.eqb d newline then read (S fuel) (c :: p) RowStart (t' ++ enc (c :: p) false l) (rows ++ [row]) []
              else read (S fuel) (c :: p) AtField ((d :: t') ++ enc (c :: p) false l) rows row).
      rewrite Hd. rewrite (read_field_step _ _ _ _ _ _ _ (read_field_value (d :: t') c p _ Ht Bz)). apply IH2. lia.
    + assert (Ht : plain_ok c t) by (apply Hl; now left).
      rewrite !app_length in Hf. cbn [length] in Hf.
      destruct fuel as [|[|fuel]]; [lia|lia|].
      rewrite read_sep by assumption. rewrite (read_field_step _ _ _ _ _ _ _ (read_field_value t c p _ Ht Bz)).
      apply IH2. lia.
    + destruct fuel as [|fuel]; [lia|]. cbn [length] in Hf. cbn [read]. rewrite Ascii.eqb_refl. apply IH1. lia.
    + destruct fuel as [|fuel]; [lia|]. cbn [length] in Hf. cbn [read]. rewrite Ascii.eqb_refl. apply IH1. lia.
Qed.

(** Whatever was written, in whatever order, is read back: every row, every field, every string,
    also those with quotes, separators and line ends in them; provided that the separator does not
    start with a quote or a line end and its first character does not occur in the numbers. *)
Theorem C111_round_trip_partial c p l : c <> quote -> c <> newline -> items_ok c l ->
  csv_read (c :: p) (csv_file (c :: p) l) = Some (rows_of l [] []).
Proof.
  intros Hq Hn Hl. unfold csv_read, csv_file. rewrite put_enc. cbn [csv_open out separator is_first app].
  apply (read_enc c p l Hq Hn Hl). lia.
Qed.

(** The constructor accepts any separator. *)
Theorem C111_separator_refuted :
  (exists l1 l2, rows_of l1 [] [] <> rows_of l2 [] [] /\ csv_file [quote] l1 = csv_file [quote] l2) /\
  (exists l1 l2, rows_of l1 [] [] <> rows_of l2 [] [] /\ csv_file [] l1 = csv_file [] l2) /\
  (exists l1 l2, rows_of l1 [] [] <> rows_of l2 [] [] /\ csv_file ["."%char] l1 = csv_file ["."%char] l2).
Proof.
  split; [|split].
  - exists [Text ["a"%char]; Text []; Text ["b"%char]], [Text ["a"%char; quote; quote; quote; "b"%char]].
    split; [discriminate|reflexivity].
  - exists [Value ["1"%char]; Value ["2"%char]], [Value ["1"%char; "2"%char]]. split; [discriminate|reflexivity].
  - exists [Value ["1"%char]; Value ["5"%char]], [Value ["1"%char; "."%char; "5"%char]]. split; [discriminate|reflexivity].
Qed.
(** A character or a char* buffer is not escaped. *)
Theorem C111_buffer_refuted :
  exists l1 l2, rows_of l1 [] [] <> rows_of l2 [] [] /\ csv_file [","%char] l1 = csv_file [","%char] l2.
Proof.
  exists [Value ["a"%char; ","%char; "b"%char]], [Value ["a"%char]; Value ["b"%char]]. split; [discriminate|reflexivity].
Qed.

Example csv_ex :
  let l := [Text ["x"%char; quote; ","%char; newline]; Value ["1"%char]; EndRow; EndRow; Text []] in
  items_ok ","%char l /\
  csv_file [","%char] l = [quote; "x"%char; quote; quote; ","%char; newline; quote; ","%char; "1"%char; newline; newline; quote; quote] /\
  rows_of l [] [] = ([[Quoted ["x"%char; quote; ","%char; newline]; Plain ["1"%char]]; []], [Quoted []]).
Proof.
  split; [|now split]. intros t [H|[H|[H|[H|[H|[]]]]]]; try discriminate. injection H as <-.
  split; [discriminate|]. split; [intros [E|[]]; discriminate|]. split; [intros [E|[]]; discriminate|discriminate].
Qed.

Print Assumptions C111_round_trip_partial.
Print Assumptions C111_separator_refuted.
Print Assumptions C111_buffer_refuted.
