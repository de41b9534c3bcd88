(** What a parse error says: where in the text the fault is and which fault it is.  The
    specification describes faulty words, lines and tables; it does not use the functions of
    the parser. *)
From Coq Require Import String Ascii List NArith ZArith Lia Bool Arith Permutation.
From Coq Require Import ZifyBool ZifyNat ZifyN.
From Verif Require Import Base Utf8 Unicode Flags Bag Condition Affix Conversion Aff Checker AffixSpec CompoundRule
  Parser ParserSafe ParserProps Lib LibSpec LibProps TableProps Grammar DicGrammar.
Import ListNotations.
Local Open Scope string_scope.
Local Open Scope list_scope.
Local Open Scope nat_scope.
Set Implicit Arguments.

Section Spec.
Variable pl : platform.
Notation le := (pl_little_endian pl).

(** ** Faulty words *)
Definition NumFault (max : N) (s : str) (e : int_error) : Prop :=
  match e with
  | IntEmpty => s = []
  | IntInvalidDigit => s <> [] /\ forall v, ~ Decimal s v
  | IntPosOverflow => exists p r v, s = p ++ r /\ Decimal p v /\ (max < v)%N
  end.

(** A word that should begin with a flag. *)
Definition FlagFault (t : flag_type) (w : str) (e : flag_error) : Prop :=
  match e with
  | MissingSecondChar => t = FLong /\ length (enc w) = 1
  | FlagInt ie => t = FNumeric /\ NumFault 65535 w ie
  | ZeroFlag =>
      match t with
      | FShort => exists r, enc w = 0%N :: r
      | FLong => exists r, enc w = 0%N :: 0%N :: r
      | FNumeric => Decimal w 0
      | FUtf8 => exists r, utf16 w = 0%N :: r
      end
  | _ => False
  end.

(** A list of flags; the items of a numeric one are between commas. *)
Definition Item (s item : str) : Prop :=
  exists a b, s = a ++ item ++ b /\ ~ In 44%N item /\ (a = [] \/ last a 0%N = 44%N) /\ (b = [] \/ hd 0%N b = 44%N).
Definition FlagsFault (t : flag_type) (s : str) (e : flag_error) : Prop :=
  match e with
  | MissingSecondChar => t = FLong /\ Nat.odd (length (enc s)) = true
  | FlagInt ie => t = FNumeric /\ exists item, Item s item /\ NumFault 65535 item ie
  | DuplicateComma => t = FNumeric /\ exists a b, s = a ++ [44; 44]%N ++ b
  | ZeroFlag =>
      match t with
      | FNumeric => exists item, Item s item /\ Decimal item 0
      | _ => exists l, Written le t s l /\ In 0%N l
      end
  | _ => False
  end.
Definition AliasFault (t : flag_type) (al : list flagset) (s : str) (e : flag_error) : Prop :=
  (forall fs, ~ Alias t al s fs) /\ FlagsFault t s e.

(** A condition: elements that are fine, then a bracket that is not. *)
Definition CondFault (c : str) (e : condition_error) : Prop :=
  exists es r, celems_ok es /\ c = celems_text es ++ r /\
  match e with
  | UnopenedCharacterClass => exists b, r = 93%N :: b
  | UnclosedCharacterClass => exists b, r = 91%N :: b /\ ~ In 93%N b
  | EmptyCharacterClass => exists b, r = 91%N :: 93%N :: b \/ r = 91%N :: 94%N :: 93%N :: b
  end.

(** A compound rule: elements that are fine, then one that is not. *)
Definition ElemFault (t : flag_type) (r : str) (e : rule_error) : Prop :=
  match e with
  | RuleFlag (NonAscii c) =>
      (128 <= c)%N /\
      ((t = FShort /\ exists b, r = c :: b) \/
       (t = FLong /\ exists b, r = 40%N :: c :: b \/ exists a, r = 40%N :: a :: c :: b))
  | RuleFlag ZeroFlag =>
      exists b, match t with
                | FShort | FUtf8 => r = 0%N :: b
                | FLong => r = [40; 0; 0; 41]%N ++ b
                | FNumeric => exists ds, r = 40%N :: ds ++ 41%N :: b /\ Decimal ds 0
                end
  | RuleFlag FlagAbove65535 => t = FUtf8 /\ exists c b, r = c :: b /\ (65535 < c)%N
  | RuleFlag (FlagInt ie) => t = FNumeric /\ exists ds b, r = 40%N :: ds ++ 41%N :: b /\ NumFault 65535 ds ie
  | RuleFlag _ => False
  | RuleFormat =>
      match t with
      | FShort | FUtf8 => exists b, r = 63%N :: b \/ r = 42%N :: b
      | FLong => forall a b q, r <> 40%N :: a :: b :: 41%N :: q \/ a = 41%N \/ b = 41%N
      | FNumeric => forall ds q, r <> 40%N :: ds ++ 41%N :: q \/ ds = [] \/ ~ Forall digit ds
      end
  end.
Definition RuleFault (t : flag_type) (w : str) (e : rule_error) : Prop :=
  exists u ru r, w = u ++ r /\ RuleText pl t u ru /\ r <> [] /\ ElemFault t r e.

(** ** Faulty lines *)
Definition number_settings : list str :=
  [lit "COMPOUNDMIN"; lit "COMPOUNDWORDMAX"; lit "MAXCPDSUGS"; lit "MAXNGRAMSUGS"; lit "MAXDIFF"].
Definition pair_tables : list str := [lit "REP"; lit "ICONV"; lit "OCONV"; lit "CHECKCOMPOUNDPATTERN"].
Definition single_tables : list str := [lit "BREAK"; lit "AF"; lit "COMPOUNDRULE"; lit "MAP"].
Definition one_argument : list str :=
  lit "FLAG" :: lit "LANG" :: flag_settings ++ text_settings ++ number_settings ++ pair_tables ++ single_tables.
Definition affix_tables : list str := [lit "PFX"; lit "SFX"].
Definition usize_max : N := 18446744073709551615.

(** The line of the directive itself; [ws] are the words after its name. *)
Inductive LineFault (t : flag_type) : str -> list str -> error_kind -> Prop :=
| LF_none : forall key, In key one_argument -> LineFault t key [] (MismatchedArity 1 0)
| LF_type : forall w r, ~ In w [lit "long"; lit "num"; lit "UTF-8"] -> LineFault t (lit "FLAG") (w :: r) (UnknownFlagType w)
| LF_flag : forall key w r e, In key flag_settings -> FlagFault t w e -> LineFault t key (w :: r) (MalformedFlag e)
| LF_number : forall key w r e, In key number_settings -> NumFault 65535 w e -> LineFault t key (w :: r) (MalformedNumber e)
| LF_syllable_few : forall ws, length ws < 2 -> LineFault t (lit "COMPOUNDSYLLABLE") ws (MismatchedArity 2 (N.of_nat (length ws)))
| LF_syllable : forall w v r e, NumFault 65535 w e -> LineFault t (lit "COMPOUNDSYLLABLE") (w :: v :: r) (MalformedNumber e)
| LF_count : forall key n r e, In key (pair_tables ++ single_tables) -> NumFault usize_max n e ->
    LineFault t key (n :: r) (MalformedNumber e)
| LF_affix_none : forall key, In key affix_tables -> LineFault t key [] (MismatchedArity 3 0)
| LF_affix_flag : forall key fs r e, In key affix_tables -> FlagFault t fs e -> LineFault t key (fs :: r) (MalformedFlag e)
| LF_affix_few : forall key fs f, In key affix_tables -> OneFlag pl t fs f -> LineFault t key [fs] (MismatchedArity 3 1)
| LF_affix_cross : forall key fs f cp r, In key affix_tables -> OneFlag pl t fs f -> cp <> lit "Y" -> cp <> lit "N" ->
    LineFault t key (fs :: cp :: r) MalformedAffix
| LF_affix_no_count : forall key fs f cp, In key affix_tables -> OneFlag pl t fs f -> cp = lit "Y" \/ cp = lit "N" ->
    LineFault t key [fs; cp] (MismatchedArity 3 2)
| LF_affix_count : forall key fs f cp n r e, In key affix_tables -> OneFlag pl t fs f -> cp = lit "Y" \/ cp = lit "N" ->
    NumFault usize_max n e -> LineFault t key (fs :: cp :: n :: r) (MalformedNumber e).

(** A row of a table; [h] are the words of the table's first line, [ws] those of the row,
    both without the name. *)
Inductive RowFault (t : flag_type) (al : list flagset) : str -> list str -> list str -> error_kind -> Prop :=
| RF_few : forall key h ws, In key pair_tables -> length ws < 2 -> RowFault t al key h ws (MismatchedArity 2 (N.of_nat (length ws)))
| RF_none : forall key h, In key single_tables -> RowFault t al key h [] (MismatchedArity 1 0)
| RF_alias : forall h w r e, FlagsFault t w e -> RowFault t al (lit "AF") h (w :: r) (MalformedFlag e)
| RF_rule : forall h w r e, RuleFault t w e -> RowFault t al (lit "COMPOUNDRULE") h (w :: r) (MalformedCompoundRule e)
| RF_affix_other : forall key fs h ws, In key affix_tables -> hd_error ws <> Some fs -> RowFault t al key (fs :: h) ws MalformedAffix
| RF_affix_few : forall key fs h ws, In key affix_tables -> length ws < 2 ->
    RowFault t al key (fs :: h) (fs :: ws) (MismatchedArity 3 (N.of_nat (S (length ws))))
| RF_affix_flags : forall key fs h st ad text flags r e, In key affix_tables -> Slashed ad text flags -> AliasFault t al flags e ->
    RowFault t al key (fs :: h) (fs :: st :: ad :: r) (MalformedFlag e)
| RF_affix_cond : forall key fs h st ad text flags fl c r e, In key affix_tables -> Slashed ad text flags -> AliasedFlags pl t al flags fl ->
    c <> lit "." -> CondFault c e -> RowFault t al key (fs :: h) (fs :: st :: ad :: c :: r) (MalformedCondition e)
| RF_first : forall h a b r text flags e, Slashed a text flags -> flags <> [] -> FlagFault t flags e ->
    RowFault t al (lit "CHECKCOMPOUNDPATTERN") h (a :: b :: r) (MalformedFlag e)
| RF_second : forall h a b r text flags o text2 flags2 e, Slashed a text flags -> OptFlag pl t flags o ->
    Slashed b text2 flags2 -> flags2 <> [] -> FlagFault t flags2 e ->
    RowFault t al (lit "CHECKCOMPOUNDPATTERN") h (a :: b :: r) (MalformedFlag e).

(** ** Faulty texts *)

(** A directive that cannot be read, followed by the lines [after]: the fault is on its own
    line, on a row after rows that are fine, or where a row should be. *)
Inductive DirFault (x : lparser) : str -> list str -> list (list str) -> nat -> error_kind -> Prop :=
| DF_line : forall key ws after k, LineFault (x_flag_type x) key ws k -> DirFault x key ws after 0 k
| DF_row : forall key h count rws cells r more k, In key (map fst tables) -> Header pl (x_flag_type x) key h count ->
    Forall2 (fun ws c => exists r, ws = key :: r /\ RowCell pl (x_flag_type x) (x_aliases x) key h r c) rws cells ->
    (N.of_nat (length rws) < count)%N -> RowFault (x_flag_type x) (x_aliases x) key h r k ->
    DirFault x key h (rws ++ (key :: r) :: more) (S (length rws)) k
| DF_short : forall key h count rws cells more, In key (map fst tables) -> Header pl (x_flag_type x) key h count ->
    Forall2 (fun ws c => exists r, ws = key :: r /\ RowCell pl (x_flag_type x) (x_aliases x) key h r c) rws cells ->
    (N.of_nat (length rws) < count)%N -> match more with [] => True | ws :: _ => hd_error ws <> Some key end ->
    DirFault x key h (rws ++ more) (S (length rws)) (MismatchedRowCount count (N.of_nat (S (length rws)))).

(** The place of the fault among the lines that are not comments; past the last one when
    a table is cut by the end of the text. *)
Inductive TextFault : list (list str) -> lparser -> nat -> error_kind -> Prop :=
| TF_here : forall key ws after x i k, DirFault x key ws after i k -> TextFault ((key :: ws) :: after) x i k
| TF_skip : forall ws r x i k, (forall key ws', ws = key :: ws' -> ~ known key) -> TextFault r x i k -> TextFault (ws :: r) x (S i) k
| TF_after : forall key ws rws r x x1 i k, Directive pl x key ws rws x1 -> TextFault r x1 i k ->
    TextFault ((key :: ws) :: rws ++ r) x (S (length rws) + i) k.

(** A line of the .dic text that is not an entry. *)
Inductive EntryFault (x : lparser) (l : str) : error_kind -> Prop :=
| EF_long : forall m, Trimmed pl l m -> (forall c n, m <> 47%N :: c :: n) -> (65535 < blen m)%N -> EntryFault x l WordTooLong
| EF_flags : forall m raw after fl e, Trimmed pl l m -> m <> [] -> (forall c n, m <> 47%N :: c :: n) -> (blen m <= 65535)%N ->
    Stem pl m raw (47%N :: after) -> FlagField pl raw after fl -> AliasFault (x_flag_type x) (x_aliases x) fl e ->
    EntryFault x l (MalformedFlag e).
Inductive DicFault (x : lparser) : list str -> nat -> error_kind -> Prop :=
| DT_none : DicFault x [] 0 (MismatchedArity 1 0)
| DT_blank : forall l r, split_whitespace pl l = [] -> DicFault x (l :: r) 0 (MismatchedArity 1 0)
| DT_count : forall l r w ws e, split_whitespace pl l = w :: ws -> NumFault usize_max w e -> DicFault x (l :: r) 0 (MalformedNumber e)
| DT_entry : forall l w ws n good bad more es k, split_whitespace pl l = w :: ws -> Decimal w n -> (n <= usize_max)%N ->
    DicEntries pl x good es -> EntryFault x bad k -> DicFault x (l :: good ++ bad :: more) (S (length good)) k.

(** The lines that are not comments, numbered from 1, after a byte order mark. *)
Fixpoint counted_lines (n : N) (ls : list str) : list (N * str) :=
  match ls with
  | [] => []
  | l :: r => if is_comment pl l then counted_lines (n + 1) r else (n, l) :: counted_lines (n + 1) r
  end.
Definition numbered (text : str) : list (N * str) :=
  counted_lines 1 (text_lines (match strip_prefix [65279%N] text with Some t => t | None => text end)).
End Spec.

Section Faults.
Variable pl : platform.
Notation U := (pl_unicode pl).
Notation le := (pl_little_endian pl).
Notation words := (words_of pl).

(** ** Words *)
Lemma digits_fault : forall max s acc e, (acc <= max)%N -> digits_go max acc s = Err e ->
  (e = IntInvalidDigit /\ ~ Forall digit s) \/
  (e = IntPosOverflow /\ exists p r, s = p ++ r /\ p <> [] /\ Forall digit p /\ (max < dec_value_from acc p)%N).
Proof.
  intros max. induction s as [|c s IH]; intros acc e Ha H; [discriminate H|]. cbn [digits_go] in H.
  destruct (negb _) eqn:D.
  { injection H as <-. left. split; [reflexivity|]. intro F. inversion F; subst. unfold digit in *. lia. }
  assert (OV : (max < 10 * acc + (c - 48))%N -> exists p r, c :: s = p ++ r /\ p <> [] /\ Forall digit p /\ (max < dec_value_from acc p)%N).
  { intro L. exists [c], s. split; [reflexivity|]. split; [discriminate|]. split; [constructor; [unfold digit; lia|constructor]|]. unfold dec_value_from; cbn [fold_left]; lia. }
  destruct (max <? acc * 10)%N eqn:O1; [injection H as <-; right; split; [reflexivity|apply OV; lia]|].
  destruct (max <? acc * 10 + (c - 48))%N eqn:O2; [injection H as <-; right; split; [reflexivity|apply OV; lia]|].
  apply IH in H; [|lia]. destruct H as [[-> H]|(-> & p & r & -> & NE & F & L)].
  - left. split; [reflexivity|]. intro F. inversion F; subst. contradiction.
  - right. split; [reflexivity|]. exists (c :: p), r. split; [reflexivity|]. split; [discriminate|]. split; [constructor; [unfold digit; lia|exact F]|].
    unfold dec_value_from in *. cbn [fold_left]. replace (10 * acc + (c - 48))%N with (acc * 10 + (c - 48))%N by lia. exact L.
Qed.

Lemma num_fault : forall max s e, parse_uint max s = Err e -> NumFault max s e.
Proof.
  intros max s e H.
  assert (NUM : forall ds, s = ds \/ s = 43%N :: ds -> s <> [] -> (s = ds -> forall r, s <> 43%N :: r) -> digits_go max 0 ds = Err e -> NumFault max s e).
  { intros ds E NE NP G. apply digits_fault in G; [|lia]. destruct G as [[-> G]|(-> & p & r & -> & N1 & F & L)]; cbn [NumFault].
    - split; [exact NE|]. intros v (ds' & E' & N' & F' & _).
      destruct E as [-> | ->], E' as [E'|E'].
      + subst. contradiction.
      + exact (NP eq_refl _ E').
      + subst ds'. inversion F'; subst. unfold digit in *. lia.
      + injection E' as <-. contradiction.
    - destruct E as [-> | ->].
      + exists p, r, (dec_value p). split; [reflexivity|]. split; [|exact L]. exists p. auto.
      + exists (43%N :: p), r, (dec_value p). split; [reflexivity|]. split; [|exact L]. exists p. auto. }
  unfold parse_uint in H. destruct s as [|c s]; [injection H as <-; reflexivity|]. destruct s as [|c2 s].
  - destruct ((c =? 43)%N || (c =? 45)%N) eqn:E.
    + injection H as <-. cbn [NumFault]. split; [discriminate|]. intros v (ds & [<-|Q] & N & F & _).
      * inversion F; subst. unfold digit in *. lia.
      * injection Q as _ <-. contradiction.
    + apply (NUM [c]); [left; reflexivity|discriminate| |exact H]. intros _ r Q. injection Q as -> _. discriminate E.
  - destruct (N.eqb_spec c 43) as [-> | NE].
    + apply (NUM (c2 :: s)); [right; reflexivity|discriminate| |exact H]. intros Q. exfalso.
      assert (L : length (43%N :: c2 :: s) = length (c2 :: s)) by (rewrite Q at 1; reflexivity). cbn [length] in L. lia.
    + apply (NUM (c :: c2 :: s)); [left; reflexivity|discriminate| |exact H]. intros _ r Q. congruence.
Qed.

Lemma flag_fault : forall t w e, scalars w -> parse_flag_from_str pl t w = Ret (Err e) -> FlagFault t w e.
Proof.
  intros t w e Hs H. unfold parse_flag_from_str in H. destruct w as [|c w']; [discriminate H|]. remember (c :: w') as w eqn:Ew.
  assert (Z : forall v, try_flag_from_u16 v = Err e -> e = ZeroFlag /\ v = 0%N).
  { intros v E. unfold try_flag_from_u16 in E. destruct (N.eqb_spec v 0); [|discriminate E]. injection E as <-. auto. }
  assert (NE : enc w <> []).
  { intro Q. apply (proj1 (enc_nil w)) in Q. congruence. }
  destruct t; cbn [bindP okP] in H.
  - injection H as H. destruct (Z _ H) as [-> V]. cbn [FlagFault]. destruct (enc w) as [|b r]; [contradiction|]. cbn [nth] in V. subst b. eauto.
  - destruct (enc w) as [|a [|b r]] eqn:Ee; [contradiction| |].
    + injection H as <-. cbn [FlagFault]. rewrite Ee. auto.
    + cbn [bindP okP] in H. injection H as H. destruct (Z _ H) as [-> V]. cbn [FlagFault]. exists r. unfold from_ne_bytes in V.
      rewrite Ee. destruct le; f_equal; [lia|f_equal; lia|lia|f_equal; lia].
  - destruct (parse_u16 w) as [v|ie] eqn:Ev; cbn [bindP okP errP] in H.
    + injection H as H. destruct (Z _ H) as [-> V]. subst v. cbn [FlagFault]. apply u16_spec in Ev. apply Ev.
    + injection H as <-. cbn [FlagFault]. split; [reflexivity|]. exact (num_fault _ _ Ev).
  - destruct (utf16 w) as [|v r] eqn:Eu; [discriminate H|]. cbn [bindP okP] in H. injection H as H.
    destruct (Z _ H) as [-> V]. subst v. cbn [FlagFault]. eauto.
Qed.

Lemma try_flags_fault : forall l e, try_flags l = Err e -> e = ZeroFlag /\ In 0%N l.
Proof.
  induction l as [|v l IH]; intros e H; [discriminate H|]. cbn [try_flags] in H. unfold try_flag_from_u16 in H.
  destruct (N.eqb_spec v 0) as [-> | NE]; [injection H as <-; split; [reflexivity|left; reflexivity]|].
  destruct (try_flags l) as [fs|e']; [discriminate H|]. injection H as ->. destruct (IH _ eq_refl) as [-> I]. split; [reflexivity|right; exact I].
Qed.
Lemma pairs_fault : forall n l, length l <= n -> byte_pairs le l = None -> Nat.odd (length l) = true.
Proof.
  induction n as [|n IH]; intros l L H; (destruct l as [|a [|b r]]; [discriminate H|try reflexivity|]); [cbn in L; lia|].
  cbn [byte_pairs] in H. destruct (byte_pairs le r) eqn:E; [discriminate H|]. cbn [length] in *. change (Nat.odd (S (S (length r)))) with (Nat.odd (length r)).
  apply IH; [lia|exact E].
Qed.
Lemma item_skip : forall i s item, nth_error s i = Some 44%N -> Item (skipn (i + 1) s) item -> Item s item.
Proof.
  intros i s item Hn (a & b & E & NC & Ha & Hb).
  assert (S1 : s = (firstn i s ++ [44%N]) ++ skipn (i + 1) s).
  { rewrite <- app_assoc. apply nth_error_split in Hn. destruct Hn as (l1 & l2 & -> & <-).
    rewrite firstn_app, Nat.sub_diag, firstn_all. cbn [firstn]. rewrite app_nil_r. f_equal.
    replace (length l1 + 1) with (length (l1 ++ [44%N])) by (rewrite app_length; reflexivity).
    replace (l1 ++ 44%N :: l2) with ((l1 ++ [44%N]) ++ l2) by (rewrite <- app_assoc; reflexivity).
    rewrite skipn_app, Nat.sub_diag, skipn_all. reflexivity. }
  exists ((firstn i s ++ [44%N]) ++ a), b. split; [rewrite <- app_assoc, <- E; exact S1|]. split; [exact NC|]. split; [|exact Hb].
  right. destruct Ha as [-> | Ha]; [rewrite app_nil_r; apply last_last|].
  assert (NE : a <> []) by (intros ->; discriminate Ha).
  destruct (exists_last NE) as (a' & z & ->). rewrite last_last in Ha. subst z. rewrite app_assoc. apply last_last.
Qed.
Lemma numeric_flag_fault : forall s e, numeric_flag s = Err e -> (e = ZeroFlag /\ Decimal s 0) \/ exists ie, e = FlagInt ie /\ NumFault 65535 s ie.
Proof.
  intros s e H. unfold numeric_flag in H. destruct (parse_u16 s) as [v|ie] eqn:E.
  - unfold try_flag_from_u16 in H. destruct (N.eqb_spec v 0) as [-> |]; [|discriminate H]. injection H as <-. left. split; [reflexivity|]. apply u16_spec in E. apply E.
  - injection H as <-. right. exists ie. split; [reflexivity|exact (num_fault _ _ E)].
Qed.
Lemma find_comma : forall s i, find_char (N.eqb ch_comma) s = Some i -> nth_error s i = Some 44%N /\ ~ In 44%N (firstn i s).
Proof.
  intros s i H. apply find_char_some in H. destruct H as (u & c & v & -> & <- & Ec & Fu).
  apply N.eqb_eq in Ec. unfold ch_comma in Ec. subst c. split.
  - rewrite nth_error_app2, Nat.sub_diag by lia. reflexivity.
  - rewrite firstn_app, Nat.sub_diag, firstn_all. cbn [firstn]. rewrite app_nil_r. intro I. rewrite forallb_forall in Fu. apply Fu in I. discriminate I.
Qed.
Lemma numeric_flags_fault : forall fuel s e, numeric_flags fuel s = Ret (Err e) -> FlagsFault pl FNumeric s e.
Proof.
  induction fuel as [|fuel IH]; intros s e H; [discriminate H|]. cbn [numeric_flags] in H.
  destruct (find_char (N.eqb ch_comma) s) as [i|] eqn:F.
  - destruct (find_comma _ F) as [Hn NC].
    assert (IT : Item s (firstn i s)).
    { exists [], (skipn i s). split; [cbn [app]; symmetry; apply firstn_skipn|]. split; [exact NC|]. split; [left; reflexivity|].
      right. apply nth_error_split in Hn. destruct Hn as (l1 & l2 & -> & <-). rewrite skipn_app, Nat.sub_diag, skipn_all. reflexivity. }
    destruct (match nth_error s (i + 1) with Some c => (c =? ch_comma)%N | None => false end) eqn:D.
    + injection H as <-. cbn [FlagsFault]. split; [reflexivity|]. destruct (nth_error s (i + 1)) as [c|] eqn:N2; [|discriminate D].
      apply N.eqb_eq in D. unfold ch_comma in D. subst c. exists (firstn i s), (skipn (i + 2) s).
      apply nth_error_split in Hn. destruct Hn as (l1 & l2 & -> & <-).
      rewrite nth_error_app2 in N2 by lia. replace (length l1 + 1 - length l1) with 1 in N2 by lia. cbn in N2.
      destruct l2 as [|z l2]; [discriminate N2|]. injection N2 as ->. rewrite firstn_app, Nat.sub_diag, firstn_all. cbn [firstn]. rewrite app_nil_r.
      f_equal. rewrite skipn_app. replace (length l1 + 2 - length l1) with 2 by lia. rewrite skipn_all2 by lia. reflexivity.
    + destruct (numeric_flag (firstn i s)) as [f|e1] eqn:NF; cbn [bindP] in H.
      * destruct (numeric_flags fuel (skipn (i + 1) s)) as [[fs|e2]| |] eqn:R; cbn [bindP okP] in H; try discriminate H. injection H as <-.
        apply IH in R. destruct e2; cbn [FlagsFault] in *; try exact R.
        -- destruct R as [Q _]; discriminate Q.
        -- destruct R as [_ (item & I & X)]. split; [reflexivity|]. exists item. split; [eapply item_skip; eassumption|exact X].
        -- destruct R as [_ (a & b & R)]. split; [reflexivity|]. exists (firstn (i + 1) s ++ a), b. rewrite <- app_assoc, <- R. symmetry. apply firstn_skipn.
        -- destruct R as (item & I & X). exists item. split; [eapply item_skip; eassumption|exact X].
      * injection H as <-. destruct (numeric_flag_fault _ NF) as [[-> X]|(ie & -> & X)]; cbn [FlagsFault]; eauto.
  - assert (IT : Item s s).
    { exists [], []. split; [cbn [app]; rewrite app_nil_r; reflexivity|]. split; [|auto]. apply find_char_none in F.
      rewrite forallb_forall in F. intro I. apply F in I. discriminate I. }
    destruct (numeric_flag s) as [f|e1] eqn:NF; cbn [bindP okP] in H; [discriminate H|]. injection H as <-.
    destruct (numeric_flag_fault _ NF) as [[-> X]|(ie & -> & X)]; cbn [FlagsFault]; eauto.
Qed.

Lemma flags_fault : forall t s e, parse_flags_from_str pl t s = Ret (Err e) -> FlagsFault pl t s e.
Proof.
  intros t s e H. unfold parse_flags_from_str in H. destruct s as [|c s']; [discriminate H|]. remember (c :: s') as s eqn:Es. clear Es c s'.
  assert (IN : forall x, into_flagset x = Ret (Err e) -> x = Ret (Err e)).
  { intros x Q. unfold into_flagset in Q. destruct x as [[fs|e']| |]; cbn [bindP] in Q; try discriminate Q.
    - destruct (flagset_from fs); discriminate Q.
    - exact Q. }
  apply IN in H. destruct t.
  - injection H as H. apply try_flags_fault in H. destruct H as [-> I]. cbn [FlagsFault]. exists (enc s). split; [reflexivity|exact I].
  - destruct (byte_pairs le (enc s)) as [vs|] eqn:B.
    + injection H as H. apply try_flags_fault in H. destruct H as [-> I]. cbn [FlagsFault]. exists vs. split; [|exact I].
      eapply byte_pairs_spec; [reflexivity|exact B].
    + injection H as <-. cbn [FlagsFault]. split; [reflexivity|]. eapply pairs_fault; [reflexivity|exact B].
  - eapply numeric_flags_fault, H.
  - injection H as H. apply try_flags_fault in H. destruct H as [-> I]. cbn [FlagsFault]. exists (utf16 s). split; [reflexivity|exact I].
Qed.

Lemma alias_fault : forall t al s e, decode_flagset pl s t al = Ret (Err e) -> AliasFault pl t al s e.
Proof.
  intros t al s e H. unfold decode_flagset in H.
  assert (NUM : forall fs i, Decimal s (N.of_nat (S i)) -> (N.of_nat (S i) <= 65535)%N -> nth_error al i = Some fs -> t <> FNumeric -> False).
  { intros fs i D L Ni NT. assert (E : parse_u16 s = Ok (N.of_nat (S i))) by (apply u16_spec; auto).
    assert (Li : i < length al) by (apply nth_error_Some; congruence).
    destruct (match t with FNumeric => true | _ => false end || negb (nonempty al)) eqn:B.
    - apply orb_true_iff in B. destruct B as [B|B]; [destruct t; congruence|]. destruct al; [cbn in Li; lia|discriminate B].
    - rewrite E in H. replace ((0 <? N.of_nat (S i))%N && (N.of_nat (S i) <=? N.of_nat (length al))%N) with true in H by lia.
      destruct (nth_error al (N.to_nat (N.of_nat (S i)) - 1)); discriminate H. }
  split.
  - intros fs (NT & i & D & L & Ni). eapply NUM; eassumption.
  - apply flags_fault. destruct (match t with FNumeric => true | _ => false end || negb (nonempty al)); [exact H|].
    destruct (parse_u16 s) as [v|]; [|exact H]. destruct ((0 <? v)%N && (v <=? N.of_nat (length al))%N); [|exact H].
    destruct (nth_error al (N.to_nat v - 1)); discriminate H.
Qed.

(** ** Conditions *)
Lemma scan_fault : forall fuel s n e, cond_scan fuel s n = Ret (Err e) -> CondFault s e.
Proof.
  induction fuel as [|fuel IH]; intros s n e H; cbn [cond_scan] in H; [discriminate|].
  destruct (find_char is_bracket s) as [i|] eqn:F; [|discriminate H].
  apply find_char_some in F. destruct F as [u [c [v [-> [Hu [Hc Hub]]]]]].
  rewrite skipn_app_exact in H by congruence. destruct (plain_elems _ Hub) as [P1 P2].
  assert (HERE : forall r, u ++ r = celems_text (map plain_elem u) ++ r) by (intro r; rewrite P2; reflexivity).
  destruct (N.eqb_spec c ch_rbr) as [->|].
  { injection H as <-. exists (map plain_elem u), (93%N :: v). split; [exact P1|]. split; [apply HERE|]. eauto. }
  destruct (N.eqb_spec c ch_lbr) as [->|]; [|discriminate].
  assert (UNCL : ~ In 93%N v -> CondFault (u ++ ch_lbr :: v) UnclosedCharacterClass).
  { intro Q. exists (map plain_elem u), (91%N :: v). split; [exact P1|]. split; [apply HERE|]. eauto. }
  destruct v as [|d v]; [injection H as <-; apply UNCL; intros []|].
  cbv zeta in H.
  assert (DD : (d =? ch_caret)%N = true -> d = 94%N) by (intro Q; apply N.eqb_eq in Q; exact Q).
  set (s3 := if (d =? ch_caret)%N then v else d :: v) in *.
  destruct (find_char (fun x => (x =? ch_rbr)%N) s3) as [j|] eqn:G.
  2:{ injection H as <-. apply UNCL. apply find_char_none in G. rewrite forallb_forall in G. unfold s3 in G. destruct (d =? ch_caret)%N.
      - intros [I|I]; [rewrite (DD eq_refl) in I; discriminate I|]. apply G in I. discriminate I.
      - intro I. apply G in I. discriminate I. }
  apply find_char_some in G. destruct G as [cs [c' [r [E3 [Hcs [Hc' Hcsb]]]]]]. apply N.eqb_eq in Hc'. subst c'.
  destruct j as [|j].
  { injection H as <-. destruct cs; [|discriminate Hcs]. cbn [app] in E3. exists (map plain_elem u), (91%N :: d :: v).
    split; [exact P1|]. split; [apply HERE|]. exists r. unfold s3 in E3. destruct (d =? ch_caret)%N; [right; rewrite (DD eq_refl), E3; reflexivity|left; rewrite E3; reflexivity]. }
  rewrite E3 in H. change (cs ++ ch_rbr :: r) with (cs ++ [ch_rbr] ++ r) in H.
  rewrite app_assoc, skipn_app_exact in H by (rewrite app_length; simpl; lia).
  apply IH in H. destruct H as (es & r' & He1 & He2 & He3).
  exists (map plain_elem u ++ CClass (d =? ch_caret)%N cs :: es), r'. split; [|split; [|exact He3]].
  - apply Forall_app. split; [exact P1|]. constructor; [|exact He1]. cbn [celem_ok].
    split; [destruct cs; [discriminate|congruence]|]. split.
    + intro Hin. rewrite forallb_forall in Hcsb. apply Hcsb in Hin. rewrite N.eqb_refl in Hin. discriminate.
    + intros E. unfold s3 in E3. rewrite E in E3. destruct cs as [|c1 cs]; [discriminate|].
      cbn [app] in E3. injection E3 as -> _. simpl. intro Q. injection Q as ->. rewrite N.eqb_refl in E. discriminate.
  - rewrite celems_text_app, P2, <- app_assoc. f_equal. cbn [celems_text flat_map celem_text].
    fold (celems_text es). unfold s3 in E3. destruct (N.eqb_spec d ch_caret) as [->|]; cbn [app]; rewrite <- !app_assoc; cbn [app]; rewrite <- He2, <- E3; reflexivity.
Qed.
Lemma cond_fault : forall s e, cond_from_str s = Ret (Err e) -> CondFault s e.
Proof.
  intros s e H. unfold cond_from_str in H. destruct (cond_scan (S (length s)) s 0) as [[n|e']| |] eqn:E; cbn [bindR] in H; try discriminate H.
  injection H as <-. eapply scan_fault, E.
Qed.

(** ** Compound rules *)
Lemma rule_digits_fault : forall cs number e, Forall digit number -> rule_digits cs number = Err e ->
  (e = RuleFormat /\ forall ds q, cs = ds ++ 41%N :: q -> rev number ++ ds = [] \/ ~ Forall digit ds) \/
  exists ds q, cs = ds ++ 41%N :: q /\
    ((exists ie, e = RuleFlag (FlagInt ie) /\ NumFault 65535 (rev number ++ ds) ie) \/ (e = RuleFlag ZeroFlag /\ Decimal (rev number ++ ds) 0)).
Proof.
  induction cs as [|d cs IH]; intros number e Hn H; cbn [rule_digits] in H.
  { injection H as <-. left. split; [reflexivity|]. intros ds q E. destruct ds; discriminate E. }
  destruct ((48 <=? d)%N && (d <=? 57)%N) eqn:Ed.
  { apply IH in H; [|constructor; [unfold digit; lia|exact Hn]]. cbn [rev] in H. destruct H as [[-> H]|(ds & q & -> & H)].
    - left. split; [reflexivity|]. intros [|d' ds] q E; [injection E as -> _; discriminate Ed|]. injection E as <- E.
      destruct (H _ _ E) as [Q|Q]; [rewrite <- app_assoc in Q; left; exact Q|]. right. intro F. inversion F; subst; contradiction.
    - right. exists (d :: ds), q. split; [reflexivity|]. rewrite <- app_assoc in H. exact H. }
  destruct ((d =? 41)%N && nonempty number) eqn:E2.
  - apply andb_true_iff in E2. destruct E2 as [E2 E3]. apply N.eqb_eq in E2. subst d. right. exists [], cs. split; [reflexivity|]. rewrite app_nil_r.
    destruct (parse_u16 (rev number)) as [v|ie] eqn:Ev.
    + unfold lift_flag, try_flag_from_u16 in H. destruct (N.eqb_spec v 0) as [-> |]; [|discriminate H]. injection H as <-. right. split; [reflexivity|].
      apply u16_spec in Ev. apply Ev.
    + injection H as <-. left. exists ie. split; [reflexivity|]. exact (num_fault _ _ Ev).
  - injection H as <-. left. split; [reflexivity|]. intros [|d' ds] q E.
    + injection E as -> _. cbn [N.eqb Pos.eqb andb] in E2. destruct number; [left; reflexivity|discriminate E2].
    + injection E as <- _. right. intro F. inversion F; subst. unfold digit in *. lia.
Qed.

Lemma next_flag_fault : forall t c cs e, next_flag pl t c cs = Err e -> ElemFault t (c :: cs) e.
Proof.
  intros t c cs e H.
  assert (Z : forall v rest, lift_flag (try_flag_from_u16 v) rest = Err e -> e = RuleFlag ZeroFlag /\ v = 0%N).
  { intros v rest Q. unfold lift_flag, try_flag_from_u16 in Q. destruct (N.eqb_spec v 0); [|discriminate Q]. injection Q as <-. auto. }
  destruct t; cbn [next_flag] in H.
  - destruct (128 <=? c)%N eqn:E1; [injection H as <-; cbn; split; [lia|left; eauto]|].
    destruct ((c =? 63)%N || (c =? 42)%N) eqn:E2.
    { injection H as <-. cbn. exists cs. apply orb_true_iff in E2. destruct E2 as [E2|E2]; apply N.eqb_eq in E2; subst c; auto. }
    destruct (Z _ _ H) as [-> ->]. cbn. eauto.
  - assert (SHAPE : (forall a b q, c :: cs = 40%N :: a :: b :: 41%N :: q -> a = 41%N \/ b = 41%N) -> ElemFault FLong (c :: cs) RuleFormat).
    { intro Q. cbn. intros a b q. destruct (list_eq_dec N.eq_dec (c :: cs) (40%N :: a :: b :: 41%N :: q)) as [E|E]; [right; exact (Q _ _ _ E)|left; exact E]. }
    destruct (N.eqb_spec c 40) as [-> |]; [|injection H as <-; apply SHAPE; intros a b q E; congruence].
    destruct cs as [|c1 cs]; [injection H as <-; apply SHAPE; intros a b q E; discriminate E|].
    destruct (128 <=? c1)%N eqn:E1; [injection H as <-; cbn; split; [lia|right; split; [reflexivity|]; eauto]|].
    destruct (N.eqb_spec c1 41) as [-> |]; [injection H as <-; apply SHAPE; intros a b q E; injection E as <- _; left; reflexivity|].
    destruct cs as [|c2 cs]; [injection H as <-; apply SHAPE; intros a b q E; discriminate E|].
    destruct (128 <=? c2)%N eqn:E2; [injection H as <-; cbn; split; [lia|right; split; [reflexivity|]; eauto]|].
    destruct (N.eqb_spec c2 41) as [-> |]; [injection H as <-; apply SHAPE; intros a b q E; injection E as _ <- _; right; reflexivity|].
    destruct cs as [|c3 cs]; [injection H as <-; apply SHAPE; intros a b q E; discriminate E|].
    destruct (N.eqb_spec c3 41) as [-> |]; [|injection H as <-; apply SHAPE; intros a b q E; congruence].
    destruct (Z _ _ H) as [-> V]. cbn. exists cs. unfold from_ne_bytes in V.
    assert (c1 = 0%N /\ c2 = 0%N) as [-> ->] by (destruct le; lia). reflexivity.
  - destruct (N.eqb_spec c 40) as [-> |].
    + apply rule_digits_fault in H; [|constructor]. destruct H as [[-> H]|(ds & q & -> & [(ie & -> & H)|[-> H]])]; cbn.
      * intros ds q. destruct (list_eq_dec N.eq_dec (40%N :: cs) (40%N :: ds ++ 41%N :: q)) as [E|E]; [|left; exact E].
        injection E as E. right. exact (H _ _ E).
      * split; [reflexivity|]. eauto.
      * eauto.
    + injection H as <-. cbn. intros ds q. left. congruence.
  - destruct ((c =? 63)%N || (c =? 42)%N) eqn:E2.
    { injection H as <-. cbn. exists cs. apply orb_true_iff in E2. destruct E2 as [E2|E2]; apply N.eqb_eq in E2; subst c; auto. }
    unfold try_flag_from_char, try_flag_from_u32 in H. destruct (65535 <? c)%N eqn:E1.
    + injection H as <-. cbn. split; [reflexivity|]. exists c, cs. split; [reflexivity|lia].
    + destruct (Z _ _ H) as [-> ->]. cbn. eauto.
Qed.
Lemma rule_fault : forall t w e, parse_compound_rule pl w t = Ret (Err e) -> RuleFault pl t w e.
Proof.
  intros t w e. unfold parse_compound_rule. generalize (S (length w)). intro fuel. revert w. induction fuel as [|fuel IH]; intros w H; [discriminate H|].
  cbn [rule_go] in H. destruct w as [|c cs]; [discriminate H|]. destruct (next_flag pl t c cs) as [[f cs1]|e1] eqn:En; cbn [bindP] in H.
  - apply next_flag_spec in En. destruct En as (s & Es & F). destruct (take_modifier cs1) as [m cs2] eqn:Em. apply take_modifier_inv in Em. subst cs1.
    destruct (rule_go pl fuel t cs2) as [[es|e2]| |] eqn:Eg; cbn [bindP okP] in H; try discriminate H. injection H as <-.
    apply IH in Eg. destruct Eg as (u & ru & r & -> & R & NE & X). exists (s ++ mod_text m ++ u), (mkRuleElem f m :: ru), r.
    split; [rewrite Es, <- !app_assoc; reflexivity|]. split; [|split; assumption]. exact (@rt_cons pl t s (mkRuleElem f m) u ru F R).
  - injection H as <-. exists [], [], (c :: cs). split; [reflexivity|]. split; [constructor|]. split; [discriminate|]. apply next_flag_fault, En.
Qed.

(** ** Lines *)
Definition here (ls : lines) (k : error_kind) : perror :=
  mkError k (ln_src ls) (match ln_rest ls with nl :: _ => Some (fst nl + 1)%N | [] => None end).
Lemma error_here : forall A ls k, @error A ls k = Ret (Err (here ls k)).
Proof. reflexivity. Qed.
Definition place (nls : list (N * str)) (i : nat) : option N := option_map (fun nl => (fst nl + 1)%N) (nth_error nls i).

Definition faulty (key : str) (p : lparser -> lines -> P perror (lines * lparser)) : Prop :=
  forall x ls ws nl t e, ln_words ls = Some ws -> ln_rest ls = nl :: t -> Forall scalars ws -> Forall (readable pl) (upcoming pl ls) ->
  p x ls = Ret (Err e) ->
  exists i k, DirFault pl x key ws (map words (upcoming pl ls)) i k /\ e = mkError k (ln_src ls) (place (nl :: upcoming pl ls) i).

Lemma line_faulty : forall key p,
  (forall x ls ws e, ln_words ls = Some ws -> Forall scalars ws -> p x ls = Ret (Err e) ->
     exists k, LineFault pl (x_flag_type x) key ws k /\ e = here ls k) -> faulty key p.
Proof.
  intros key p H x ls ws nl t e Hw Hr Hs _ E. destruct (H _ _ _ _ Hw Hs E) as (k & L & ->).
  exists 0, k. split; [apply DF_line, L|]. unfold here. rewrite Hr. reflexivity.
Qed.

Lemma one_word_fault : forall key ls ws A (f : lines * str -> P perror A) e t, In key one_argument -> ln_words ls = Some ws ->
  bindP (take_exactly_one_word ls) f = Ret (Err e) ->
  (LineFault pl t key ws (MismatchedArity 1 0) /\ e = here ls (MismatchedArity 1 0)) \/
  exists w r, ws = w :: r /\ f (with_words ls (Some r), w) = Ret (Err e).
Proof.
  intros key ls ws A f e t HK Hw H. unfold take_exactly_one_word in H. rewrite Hw in H. destruct ws as [|w r].
  - left. cbn [bindP] in H. rewrite error_here in H. injection H as <-. split; [apply LF_none, HK|reflexivity].
  - right. exists w, r. split; [reflexivity|exact H].
Qed.
Lemma here_words : forall ls w k, here (with_words ls w) k = here ls k.
Proof. reflexivity. Qed.

Lemma faulty_flag : forall key g, In key flag_settings -> faulty key (flag_directive pl g).
Proof.
  intros key g HK. apply line_faulty. intros x ls ws e Hw Hs H. unfold flag_directive, parse_flag in H.
  assert (K1 : In key one_argument) by (unfold one_argument; right; right; apply in_app_iff; left; exact HK).
  destruct (bindP (take_exactly_one_word ls) (fun r => let '(ls1, w) := r in bindP (at_line ls1 (mapErr MalformedFlag (parse_flag_from_str pl (x_flag_type x) w))) (fun f => okP (ls1, f)))) as [[[? ?]|e']| |] eqn:E; cbn [bindP okP] in H; try discriminate H.
  injection H as <-. destruct (@one_word_fault key ls ws _ _ _ (x_flag_type x) K1 Hw E) as [[L ->]|(w & r & -> & Q)]; [eauto|].
  destruct (parse_flag_from_str pl (x_flag_type x) w) as [[f|fe]| |] eqn:F; cbn [mapErr at_line bindP okP] in Q; try discriminate Q.
  rewrite error_here in Q. injection Q as <-. exists (MalformedFlag fe). split; [|reflexivity]. apply LF_flag; [exact HK|]. apply flag_fault; [inversion Hs; assumption|exact F].
Qed.
Lemma faulty_forbidden : faulty (lit "FORBIDDENWORD") (parse_forbidden_word_flag pl).
Proof.
  apply line_faulty. intros x ls ws e Hw Hs H. unfold parse_forbidden_word_flag, parse_flag in H.
  assert (K1 : In (lit "FORBIDDENWORD") one_argument) by (right; right; left; reflexivity).
  destruct (bindP (take_exactly_one_word ls) (fun r => let '(ls1, w) := r in bindP (at_line ls1 (mapErr MalformedFlag (parse_flag_from_str pl (x_flag_type x) w))) (fun f => okP (ls1, f)))) as [[[? ?]|e']| |] eqn:E; cbn [bindP okP] in H; try discriminate H.
  injection H as <-. destruct (@one_word_fault _ ls ws _ _ _ (x_flag_type x) K1 Hw E) as [[L ->]|(w & r & -> & Q)]; [eauto|].
  destruct (parse_flag_from_str pl (x_flag_type x) w) as [[f|fe]| |] eqn:F; cbn [mapErr at_line bindP okP] in Q; try discriminate Q.
  rewrite error_here in Q. injection Q as <-. exists (MalformedFlag fe). split; [|reflexivity]. apply LF_flag; [left; reflexivity|]. apply flag_fault; [inversion Hs; assumption|exact F].
Qed.
Lemma faulty_switch : forall key g, faulty key (bool_directive g).
Proof. intros key g x ls ws nl t e _ _ _ _ H. discriminate H. Qed.
Lemma faulty_number : forall key g, In key number_settings -> faulty key (short_directive g).
Proof.
  intros key g HK. apply line_faulty. intros x ls ws e Hw Hs H. unfold short_directive, parse_short in H.
  assert (K1 : In key one_argument) by (unfold one_argument; right; right; rewrite !in_app_iff; auto).
  destruct (bindP (take_exactly_one_word ls) _) as [[[? ?]|e']| |] eqn:E; cbn [bindP okP] in H; try discriminate H.
  injection H as <-. destruct (@one_word_fault key ls ws _ _ _ (x_flag_type x) K1 Hw E) as [[L ->]|(w & r & -> & Q)]; [eauto|].
  destruct (parse_u16 w) as [v|ie] eqn:F; [discriminate Q|].
  rewrite error_here in Q. injection Q as <-. exists (MalformedNumber ie). split; [|reflexivity]. apply LF_number; [exact HK|]. apply num_fault, F.
Qed.
Lemma faulty_word : forall key g, In key one_argument -> faulty key (word_directive g).
Proof.
  intros key g HK. apply line_faulty. intros x ls ws e Hw Hs H. unfold word_directive in H.
  destruct (@one_word_fault key ls ws _ _ _ (x_flag_type x) HK Hw H) as [[L ->]|(w & r & -> & Q)]; [eauto|]. discriminate Q.
Qed.
Lemma faulty_type : faulty (lit "FLAG") parse_flag_type.
Proof.
  apply line_faulty. intros x ls ws e Hw Hs H. unfold parse_flag_type in H.
  destruct (@one_word_fault (lit "FLAG") ls ws _ _ _ (x_flag_type x) (or_introl eq_refl) Hw H) as [[L ->]|(w & r & -> & Q)]; [eauto|].
  destruct (str_eqb_cases w (lit "long")) as [[E1 _]|[E1 N1]]; rewrite E1 in Q; [discriminate Q|].
  destruct (str_eqb_cases w (lit "num")) as [[E2 _]|[E2 N2]]; rewrite E2 in Q; [discriminate Q|].
  destruct (str_eqb_cases w (lit "UTF-8")) as [[E3 _]|[E3 N3]]; rewrite E3 in Q; [discriminate Q|].
  rewrite error_here in Q. injection Q as <-. exists (UnknownFlagType w). split; [|reflexivity]. apply LF_type. intros [I|[I|[I|[]]]]; congruence.
Qed.
Lemma faulty_syllable : faulty (lit "COMPOUNDSYLLABLE") parse_compound_syllable.
Proof.
  apply line_faulty. intros x ls ws e Hw Hs H. unfold parse_compound_syllable, take_words in H. rewrite Hw in H.
  destruct ws as [|w [|v r]].
  - rewrite error_here in H. injection H as <-. exists (MismatchedArity 2 0). split; [|reflexivity]. apply (@LF_syllable_few pl _ []). cbn. lia.
  - rewrite error_here in H. injection H as <-. exists (MismatchedArity 2 1). split; [|reflexivity]. apply (@LF_syllable_few pl _ [w]). cbn. lia.
  - destruct (parse_u16 w) as [n|ie] eqn:F; [discriminate H|]. rewrite error_here in H. injection H as <-.
    exists (MalformedNumber ie). split; [|reflexivity]. apply LF_syllable, num_fault, F.
Qed.

(** ** Tables *)
Section Rows.
Variable key : str.
Variable body : lines -> lparser -> P perror (lines * lparser).
Variable step : list str -> lparser -> lparser -> Prop.
Variable bad : list str -> lparser -> error_kind -> Prop.
Hypothesis READ : forall ls ws x ls' x', ln_words ls = Some ws -> body ls x = Ret (Ok (ls', x')) ->
  ln_rest ls' = ln_rest ls /\ ln_src ls' = ln_src ls /\ step ws x x'.
Hypothesis FAIL : forall ls ws x e, ln_words ls = Some ws -> Forall scalars ws -> body ls x = Ret (Err e) -> exists k, bad ws x k /\ e = here ls k.

Lemma rows_fault : forall fuel row count ls x e, (1 <= row)%N -> Forall (readable pl) (upcoming pl ls) ->
  rows pl key body fuel row count ls x = Ret (Err e) ->
  exists taken rest x1, upcoming pl ls = taken ++ rest /\ Fed pl key step taken x x1 /\ (N.of_nat (length taken) + row <= count)%N /\
   ((match rest with [] => True | nl :: _ => hd_error (words nl) <> Some key end /\
     e = mkError (MismatchedRowCount count (row + N.of_nat (length taken))) (ln_src ls) (place rest 0)) \/
    exists nl more ws k, rest = nl :: more /\ words nl = key :: ws /\ bad ws x1 k /\ e = mkError k (ln_src ls) (Some (fst nl + 1)%N)).
Proof.
  induction fuel as [|fuel IH]; intros row count ls x e Hr RD H; [discriminate H|]. cbn [rows] in H.
  destruct (count <? row)%N eqn:Ec; [discriminate H|].
  assert (A := advance_upcoming pl ls). unfold is_finished in H. destruct (upcoming pl ls) as [|nl r] eqn:Eu.
  { rewrite A in H. cbn [nonempty negb] in H. rewrite error_here in H. injection H as <-. exists [], [], x. split; [reflexivity|]. split; [constructor|].
    split; [cbn; lia|]. left. split; [exact I|]. unfold here. rewrite A. cbn [length N.of_nat place nth_error option_map]. rewrite N.add_0_r. reflexivity. }
  destruct A as (t & A1 & A2 & A3). rewrite A1 in H. cbn [nonempty negb] in H. unfold next_word in H. rewrite A2 in H.
  assert (SRC : ln_src (advance_line pl ls) = ln_src ls) by reflexivity.
  apply Forall_cons_iff in RD. destruct RD as [RD1 RD2].
  destruct (words nl) as [|w ws] eqn:Ew.
  { rewrite error_here in H. injection H as <-. exists [], (nl :: r), x. split; [reflexivity|]. split; [constructor|]. split; [cbn; lia|]. left.
    split; [rewrite Ew; discriminate|]. unfold here. cbn [with_words ln_rest ln_src]. rewrite A1. cbn [length N.of_nat place nth_error option_map]. rewrite N.add_0_r. reflexivity. }
  destruct (str_eqb_cases w key) as [[E1 ->]|[E1 NE]]; rewrite E1 in H.
  2:{ rewrite error_here in H. injection H as <-. exists [], (nl :: r), x. split; [reflexivity|]. split; [constructor|]. split; [cbn; lia|]. left.
      split; [rewrite Ew; cbn; congruence|]. unfold here. cbn [with_words ln_rest ln_src]. rewrite A1. cbn [length N.of_nat place nth_error option_map]. rewrite N.add_0_r. reflexivity. }
  assert (SW : Forall scalars ws) by (unfold readable in RD1; rewrite Ew in RD1; inversion RD1; assumption).
  destruct (body _ x) as [[[ls3 x3]|e']| |] eqn:Eb; cbn [bindP] in H; try discriminate H.
  - destruct (@READ (with_words (advance_line pl ls) (Some ws)) ws x ls3 x3 eq_refl Eb) as (R1 & R3 & R2).
    assert (U3 : upcoming pl ls3 = r) by (rewrite (@upcoming_rest pl (advance_line pl ls) ls3 R1); exact A3).
    apply IH in H; [|lia|rewrite U3; exact RD2]. destruct H as (taken & rest & x1 & H1 & H2 & H3 & H4). rewrite U3 in H1.
    assert (S3 : ln_src ls3 = ln_src ls) by (rewrite R3; reflexivity). rewrite S3 in H4.
    exists (nl :: taken), rest, x1. split; [rewrite H1; reflexivity|]. split; [eapply fed_cons; eassumption|]. split; [cbn [length]; lia|].
    destruct H4 as [[H4 H5]|H4]; [left|right; exact H4]. split; [exact H4|]. rewrite H5. f_equal. f_equal. cbn [length]. lia.
  - injection H as <-. destruct (@FAIL (with_words (advance_line pl ls) (Some ws)) ws x e' eq_refl SW Eb) as (k & B & ->).
    exists [], (nl :: r), x. split; [reflexivity|]. split; [constructor|]. split; [cbn; lia|]. right. exists nl, r, ws, k.
    split; [reflexivity|]. split; [exact Ew|]. split; [exact B|]. unfold here. cbn [with_words ln_rest ln_src]. rewrite A1. reflexivity.
Qed.
End Rows.

(** A decimal text for every number. *)
Lemma number_text : forall v, exists s, Decimal s v /\ scalars s.
Proof.
  intro v. enough (Q : forall b n, (n < b)%N -> exists s, s <> [] /\ Forall digit s /\ dec_value s = n).
  { destruct (Q (v + 1)%N v ltac:(lia)) as (s & NE & F & E). exists s. split; [exists s; auto|].
    eapply Forall_impl; [|exact F]. intros c D. unfold digit in D. unfold scalar, scalarb. lia. }
  intro b. induction b as [|b IH] using N.peano_ind; intros n L; [lia|]. destruct (N.ltb_spec n 10) as [S1|S1].
  - exists [(48 + n)%N]. split; [discriminate|]. split; [constructor; [unfold digit; lia|constructor]|]. unfold dec_value, dec_value_from. cbn [fold_left]. lia.
  - assert (DM := N.div_mod n 10 ltac:(lia)). assert (M := N.mod_lt n 10 ltac:(lia)).
    destruct (IH (n / 10)%N) as (s & NE & F & E). { pose proof (N.div_lt n 10 ltac:(lia) ltac:(lia)). lia. }
    exists (s ++ [(48 + n mod 10)%N]). split; [destruct s; discriminate|].
    split; [apply Forall_app; split; [exact F|constructor; [unfold digit; lia|constructor]]|].
    unfold dec_value, dec_value_from in *. rewrite fold_left_app, E. cbn [fold_left]. lia.
Qed.

Section Table.
Variable key : str.
Variable get : lparser -> list cell.
Variable p : lparser -> lines -> P perror (lines * lparser).
Hypothesis KEY : In (key, get) tables.
Hypothesis EXACT : exact pl key p.
Variable body : lines -> lparser -> P perror (lines * lparser).
Variable step : list str -> lparser -> lparser -> Prop.
Hypothesis READ : forall ls ws x ls' x', ln_words ls = Some ws -> body ls x = Ret (Ok (ls', x')) ->
  ln_rest ls' = ln_rest ls /\ ln_src ls' = ln_src ls /\ step ws x x'.
Hypothesis RUN : forall ls ws x x', ln_words ls = Some ws -> step ws x x' -> exists ls', body ls x = Ret (Ok (ls', x')).

(** Rows that are fine are rows of a table that is fine: announce just as many. *)
Lemma fed_rows : forall x ls ws taken rest x1, Forall (readable pl) (upcoming pl ls) ->
  (forall m, (m <= usize_max)%N -> exists h, Forall scalars h /\
     (forall r c, RowCell pl (x_flag_type x) (x_aliases x) key h r c -> RowCell pl (x_flag_type x) (x_aliases x) key ws r c) /\
     exists w, p x (with_words ls (Some h)) = table_rows pl key body m (with_words ls w) (started key x)) ->
  upcoming pl ls = taken ++ rest -> Fed pl key step taken (started key x) x1 -> (N.of_nat (length taken) <= usize_max)%N ->
  (exists cells, Forall2 (fun ws0 c => exists r, ws0 = key :: r /\ RowCell pl (x_flag_type x) (x_aliases x) key ws r c) (map words taken) cells) /\
  x_flag_type x1 = x_flag_type x /\ (key <> lit "AF" -> x_aliases x1 = x_aliases x).
Proof.
  intros x ls ws taken rest x1 RD HH Eu F L. destruct (HH _ L) as (h & Sh & RC & w & Ep).
  destruct (@table_run pl _ key body step READ RUN taken _ (with_words ls w) (started key x) x1 rest Eu F eq_refl) as (ls3 & E3 & U3).
  rewrite E3 in Ep. destruct (EXACT x (with_words ls (Some h)) eq_refl Sh RD) as [EX _].
  destruct (EX _ _ Ep) as (rws & U & D). rewrite U3 in U. change (upcoming pl (with_words ls (Some h))) with (upcoming pl ls) in U.
  rewrite Eu in U. apply app_inv_tail in U. subst rws. destruct (directive_table KEY D) as (_ & cs & FC & (A1 & A2 & A3)). split; [|split].
  - exists cs. clear -FC RC. induction FC as [|a b u v (r & E & C) FC IH]; constructor; auto. exists r. split; [exact E|apply RC, C].
  - apply kept_settings in A2. pose proof (started_settings key x) as E. rewrite E in A2. unfold of_lp in A2. injection A2. auto.
  - intro NA. assert (IA : In (lit "AF", fun x => map CFlags (x_aliases x)) tables) by (unfold tables; cbn [In]; repeat (first [left; reflexivity|right])).
    assert (Q : map CFlags (x_aliases x1) = map CFlags (x_aliases x)).
    { rewrite (A3 _ _ IA ltac:(congruence)). unfold started. destruct (str_eqb key (lit "BREAK")); reflexivity. }
    revert Q. generalize (x_aliases x) (x_aliases x1). intros u v. revert u. induction v as [|? v IH]; intros [|? u] Q; try discriminate Q; [reflexivity|].
    cbn [map] in Q. injection Q as -> Q. f_equal. apply IH, Q.
Qed.

Lemma in_names : In key (map fst tables).
Proof. apply (in_map fst) in KEY. exact KEY. Qed.

Variable bad : list str -> lparser -> error_kind -> Prop.
Hypothesis FAIL : forall ls ws x e, ln_words ls = Some ws -> Forall scalars ws -> body ls x = Ret (Err e) -> exists k, bad ws x k /\ e = here ls k.

Lemma table_fault : forall x ls ws nl t e count w, ln_rest ls = nl :: t -> Forall (readable pl) (upcoming pl ls) ->
  Header pl (x_flag_type x) key ws count ->
  (forall m, (m <= usize_max)%N -> exists h, Forall scalars h /\
     (forall r c, RowCell pl (x_flag_type x) (x_aliases x) key h r c -> RowCell pl (x_flag_type x) (x_aliases x) key ws r c) /\
     exists w, p x (with_words ls (Some h)) = table_rows pl key body m (with_words ls w) (started key x)) ->
  (forall r x1 k, x_flag_type x1 = x_flag_type x -> (key <> lit "AF" -> x_aliases x1 = x_aliases x) -> bad r x1 k ->
     RowFault pl (x_flag_type x) (x_aliases x) key ws r k) ->
  table_rows pl key body count (with_words ls w) (started key x) = Ret (Err e) ->
  exists i k, DirFault pl x key ws (map words (upcoming pl ls)) i k /\ e = mkError k (ln_src ls) (place (nl :: upcoming pl ls) i).
Proof.
  intros x ls ws nl t e count w Hr RD HD HH HB H. unfold table_rows in H.
  destruct (@rows_fault key body step bad READ FAIL _ 1 count (with_words ls w) (started key x) e ltac:(lia) RD H) as (taken & rest & x1 & U & F & L & C).
  change (upcoming pl (with_words ls w)) with (upcoming pl ls) in U. change (ln_src (with_words ls w)) with (ln_src ls) in C.
  assert (LM : (count <= usize_max)%N) by (destruct HD as [Q _]; exact Q).
  destruct (@fed_rows x ls ws taken rest x1 RD HH U F ltac:(lia)) as ((cells & FC) & T1 & T2).
  assert (PL : place (nl :: upcoming pl ls) (S (length taken)) = place rest 0).
  { unfold place. cbn [nth_error]. rewrite U, nth_error_app2, Nat.sub_diag by lia. reflexivity. }
  exists (S (length taken)). rewrite <- (map_length words taken) in PL |- *. rewrite U, map_app. destruct C as [[C ->]|(nl' & more & r & k & -> & W & B & ->)].
  - eexists. split; [eapply (@DF_short pl x key ws count (map words taken) cells (map words rest)); [exact in_names|exact HD|exact FC|rewrite map_length; lia|]|].
    + destruct rest as [|nl' rest']; [exact I|exact C].
    + rewrite <- U, PL. f_equal. f_equal. rewrite map_length. lia.
  - exists k. split.
    + cbn [map]. rewrite W. eapply (@DF_row pl x key ws count (map words taken) cells r); [exact in_names|exact HD|exact FC|rewrite map_length; lia|].
      apply (HB r x1 k T1 T2 B).
    + rewrite <- U, PL. reflexivity.
Qed.
End Table.

Definition row_bad (key : str) (ws : list str) (x : lparser) (k : error_kind) : Prop := forall al h, RowFault pl (x_flag_type x) al key h ws k.

Lemma plain_key : forall key, In key (pair_tables ++ single_tables) -> key <> lit "PFX" /\ key <> lit "SFX" /\ In key one_argument.
Proof.
  intros key H. assert (In key one_argument).
  { unfold one_argument. right. right. rewrite !in_app_iff. apply in_app_iff in H. tauto. }
  cbn [pair_tables single_tables app In] in H. repeat (destruct H as [<-|H]; [split; [discriminate|split; [discriminate|assumption]]|]). destruct H.
Qed.

Lemma plain_cell : forall t al key h h' ws c, key <> lit "PFX" -> key <> lit "SFX" -> RowCell pl t al key h ws c -> RowCell pl t al key h' ws c.
Proof. intros t al key h h' ws c N1 N2 H. inversion H; subst; try congruence; constructor; assumption. Qed.

Lemma faulty_plain : forall key get p body step, In (key, get) tables -> In key (pair_tables ++ single_tables) -> exact pl key p ->
  (forall x ls, p x ls = bindP (parse_row_count ls) (fun r => let '(ls1, count) := r in table_rows pl key body count ls1 (started key x))) ->
  (forall ls ws x ls' x', ln_words ls = Some ws -> body ls x = Ret (Ok (ls', x')) ->
     ln_rest ls' = ln_rest ls /\ ln_src ls' = ln_src ls /\ step ws x x') ->
  (forall ls ws x x', ln_words ls = Some ws -> step ws x x' -> exists ls', body ls x = Ret (Ok (ls', x'))) ->
  (forall ls ws x e, ln_words ls = Some ws -> Forall scalars ws -> body ls x = Ret (Err e) -> exists k, row_bad key ws x k /\ e = here ls k) ->
  faulty key p.
Proof.
  intros key get p body step HK KP EX EP READ RUN FAIL x ls ws nl t e Hw Hr Hs RD H. destruct (plain_key KP) as (N1 & N2 & K1).
  assert (EP2 : forall l n r count, ln_words l = Some (n :: r) -> parse_usize n = Ok count -> p x l = table_rows pl key body count (with_words l (Some r)) (started key x)).
  { intros l n r count Hl Hn. rewrite EP. unfold parse_row_count, take_exactly_one_word. rewrite Hl. cbn [bindP okP]. rewrite Hn. reflexivity. }
  destruct ws as [|n r].
  { rewrite EP in H. unfold parse_row_count, take_exactly_one_word in H. rewrite Hw in H. cbn [bindP] in H. rewrite error_here in H. cbn [bindP] in H. injection H as <-.
    exists 0, (MismatchedArity 1 0). split; [apply DF_line, LF_none, K1|]. unfold here. cbn [with_words ln_rest ln_src]. rewrite Hr. reflexivity. }
  destruct (parse_usize n) as [count|ie] eqn:En.
  2:{ rewrite EP in H. unfold parse_row_count, take_exactly_one_word in H. rewrite Hw in H. cbn [bindP okP] in H. rewrite En, error_here in H. cbn [bindP] in H. injection H as <-.
      exists 0, (MalformedNumber ie). split; [apply DF_line, LF_count; [exact KP|]; apply num_fault, En|]. unfold here. cbn [with_words ln_rest ln_src]. rewrite Hr. reflexivity. }
  rewrite (EP2 _ _ _ _ Hw En) in H.
  refine (@table_fault key get p HK EX body step READ RUN (row_bad key) FAIL x ls (n :: r) nl t e count (Some r) Hr RD _ _ _ H).
  - apply plain_header; assumption.
  - intros m Lm. destruct (number_text m) as (s & Ds & Ss). exists [s]. split; [constructor; [exact Ss|constructor]|].
    split; [intros q c C; eapply plain_cell; eassumption|]. exists (Some []). apply (EP2 (with_words ls (Some [s])) s []); [reflexivity|]. apply usize_spec. split; assumption.
  - intros q x1 k T1 T2 B. rewrite <- T1. apply B.
Qed.

Lemma faulty_table1 : forall key get f p, In (key, get) tables -> In key single_tables -> exact pl key p ->
  (forall x ls, p x ls = parse_table1 pl key f ls (started key x)) ->
  (forall w x k al h r, scalars w -> f w x = Ret (Err k) -> RowFault pl (x_flag_type x) al key h (w :: r) k) ->
  faulty key p.
Proof.
  intros key get f p HK KS EX EP HF. apply (@faulty_plain key get p (body1 f) (step1 f)); try assumption.
  - apply in_app_iff. right. exact KS.
  - intros. eapply read1; eassumption.
  - intros. eapply run1; eassumption.
  - intros ls ws x e Hw Hs H. unfold body1, take_words in H. rewrite Hw in H. destruct ws as [|w r].
    + rewrite error_here in H. injection H as <-. eexists. split; [intros al h; apply RF_none, KS|reflexivity].
    + destruct (f w x) as [[x'|k]| |] eqn:E; cbn [at_line bindP okP] in H; try discriminate H. rewrite error_here in H. cbn [bindP] in H. injection H as <-.
      exists k. split; [intros al h; apply HF; [inversion Hs; assumption|exact E]|reflexivity].
Qed.
Lemma faulty_table2 : forall key get f p, In (key, get) tables -> In key pair_tables -> exact pl key p ->
  (forall x ls, p x ls = parse_table2 pl key f ls (started key x)) ->
  (forall a b x k, f a b x <> Ret (Err k)) ->
  faulty key p.
Proof.
  intros key get f p HK KS EX EP HF. apply (@faulty_plain key get p (body2 f) (step2 f)); try assumption.
  - apply in_app_iff. left. exact KS.
  - intros. eapply read2; eassumption.
  - intros. eapply run2; eassumption.
  - intros ls ws x e Hw Hs H. unfold body2, take_words in H. rewrite Hw in H. destruct ws as [|w [|v r]].
    + rewrite error_here in H. injection H as <-. exists (MismatchedArity 2 0). split; [intros al h; apply (@RF_few pl _ _ key h []); [exact KS|cbn; lia]|reflexivity].
    + rewrite error_here in H. injection H as <-. exists (MismatchedArity 2 1). split; [intros al h; apply (@RF_few pl _ _ key h [w]); [exact KS|cbn; lia]|reflexivity].
    + destruct (f w v x) as [[x'|k]| |] eqn:E; cbn [at_line bindP okP] in H; try discriminate H. exfalso. exact (HF _ _ _ _ E).
Qed.

Ltac in_tabs := unfold tables; cbn [In]; repeat (first [left; reflexivity|right]).
Ltac in_keys := unfold single_tables, pair_tables; cbn [In]; repeat (first [left; reflexivity|right]).
Lemma faulty_rep : faulty (lit "REP") (parse_replacements pl).
Proof. eapply faulty_table2; [in_tabs|in_keys|apply exact_rep|intros; reflexivity|intros; discriminate]. Qed.
Lemma faulty_iconv : faulty (lit "ICONV") (parse_input_conversions pl).
Proof. eapply faulty_table2; [in_tabs|in_keys|apply exact_iconv|intros; reflexivity|intros; discriminate]. Qed.
Lemma faulty_oconv : faulty (lit "OCONV") (parse_output_conversions pl).
Proof. eapply faulty_table2; [in_tabs|in_keys|apply exact_oconv|intros; reflexivity|intros; discriminate]. Qed.
Lemma faulty_break : faulty (lit "BREAK") (parse_break_patterns pl).
Proof. eapply faulty_table1; [in_tabs|in_keys|apply exact_break|intros; reflexivity|intros w x k al h r _ E; discriminate E]. Qed.
Lemma faulty_alias : faulty (lit "AF") (parse_flag_aliases pl).
Proof.
  eapply faulty_table1; [in_tabs|in_keys|apply exact_alias|intros; reflexivity|]. intros w x k al h r _ E.
  cbv beta in E. destruct (parse_flags_from_str pl (x_flag_type x) w) as [[fs|fe]| |] eqn:F; cbn [mapErr bindP okP] in E; try discriminate E.
  injection E as <-. apply RF_alias, flags_fault, F.
Qed.
Lemma faulty_rule : faulty (lit "COMPOUNDRULE") (parse_compound_rule_table pl).
Proof.
  eapply faulty_table1; [in_tabs|in_keys|apply exact_rule|intros; reflexivity|]. intros w x k al h r _ E.
  cbv beta in E. destruct (parse_compound_rule pl w (x_flag_type x)) as [[fs|fe]| |] eqn:F; cbn [mapErr bindP okP] in E; try discriminate E.
  injection E as <-. apply RF_rule, rule_fault, F.
Qed.
Lemma faulty_map : faulty (lit "MAP") (parse_map pl).
Proof.
  eapply faulty_table1; [in_tabs|in_keys|apply exact_map|intros; reflexivity|]. intros w x k al h r _ E.
  cbv beta in E. destruct (similarity_group_from w) as [g| |]; cbn [bindR okP] in E; discriminate E.
Qed.

Lemma optional_flag_fault : forall t s e, scalars s -> optional_flag pl t s = Ret (Err e) -> s <> [] /\ FlagFault t s e.
Proof.
  intros t s e Hs H. destruct s as [|c s]; [discriminate H|]. split; [discriminate|]. cbn [optional_flag] in H.
  destruct (parse_flag_from_str pl t (c :: s)) as [[f|fe]| |] eqn:F; cbn [bindP okP] in H; try discriminate H. injection H as <-. apply flag_fault; assumption.
Qed.
Lemma faulty_pattern : faulty (lit "CHECKCOMPOUNDPATTERN") (parse_compound_pattern_table pl).
Proof.
  eapply (@faulty_plain (lit "CHECKCOMPOUNDPATTERN") _ _ (pattern_row pl) (pattern_step pl)); [in_tabs|apply in_app_iff; left; in_keys|apply exact_pattern| | | |].
  - intros x ls. reflexivity.
  - intros. eapply readp; eassumption.
  - intros. eapply runp; eassumption.
  - intros ls ws x e Hw Hs H. unfold pattern_row, take_words in H. rewrite Hw in H. destruct ws as [|a [|b ws]].
    + rewrite error_here in H. injection H as <-. exists (MismatchedArity 2 0). split; [intros al h; apply (@RF_few pl _ _ _ h []); [in_keys|cbn; lia]|reflexivity].
    + rewrite error_here in H. injection H as <-. exists (MismatchedArity 2 1). split; [intros al h; apply (@RF_few pl _ _ _ h [a]); [in_keys|cbn; lia]|reflexivity].
    + destruct (split_word_and_flagset_naive a) as [e1 f1] eqn:S1. destruct (split_word_and_flagset_naive b) as [e2 f2] eqn:S2.
      apply split_naive_spec in S1, S2. inversion Hs as [|? ? Ha Hs1]; subst. inversion Hs1 as [|? ? Hb Hs2]; subst.
      assert (P1 := slashed_scalars S1 Ha). assert (P2 := slashed_scalars S2 Hb).
      destruct (optional_flag pl (x_flag_type x) f1) as [[o1|k1]| |] eqn:O1; cbn [mapErr at_line bindP okP] in *; try discriminate H.
      * destruct (optional_flag pl (x_flag_type x) f2) as [[o2|k2]| |] eqn:O2; cbn [mapErr at_line bindP okP] in *; try discriminate H.
        rewrite error_here in H. cbn [bindP] in H. injection H as <-. apply optional_flag_fault in O2; [|exact P2]. destruct O2 as [NE FF]. apply optional_flag_spec in O1.
        eexists. split; [intros al h; eapply RF_second; eassumption|reflexivity].
      * rewrite error_here in H. cbn [bindP] in H. injection H as <-. apply optional_flag_fault in O1; [|exact P1]. destruct O1 as [NE FF].
        eexists. split; [intros al h; eapply RF_first; eassumption|reflexivity].
Qed.

Lemma faulty_affix : forall key get put, In (key, get) tables -> In key affix_tables ->
  exact pl key (fun x ls => parse_affix_table pl key (x_flag_type x) (affix_row pl put) ls x) ->
  faulty key (fun x ls => parse_affix_table pl key (x_flag_type x) (affix_row pl put) ls x).
Proof.
  intros key get put HK KA EX x ls ws nl t e Hw Hr Hs RD H.
  assert (KK : key = lit "PFX" \/ key = lit "SFX") by (destruct KA as [<-|[<-|[]]]; auto).
  assert (NB : started key x = x) by (apply started_other; destruct KK as [-> | ->]; reflexivity).
  assert (LINE : forall k, LineFault pl (x_flag_type x) key ws k -> e = here ls k ->
    exists i k, DirFault pl x key ws (map words (upcoming pl ls)) i k /\ e = mkError k (ln_src ls) (place (nl :: upcoming pl ls) i)).
  { intros k L ->. exists 0, k. split; [apply DF_line, L|]. unfold here. rewrite Hr. reflexivity. }
  assert (H' := H). unfold parse_affix_table, take_words in H'. rewrite Hw in H'.
  destruct ws as [|fs ws]. { rewrite error_here in H'. injection H' as <-. eapply LINE; [apply LF_affix_none, KA|reflexivity]. }
  inversion Hs as [|? ? Hfs Hs1]; subst.
  destruct (parse_flag_from_str pl (x_flag_type x) fs) as [[flag|fe]| |] eqn:EF; cbn [mapErr at_line bindP okP] in H'; try discriminate H'.
  2:{ rewrite error_here in H'. cbn [bindP] in H'. injection H' as <-. eapply LINE; [apply LF_affix_flag; [exact KA|apply flag_fault; eassumption]|reflexivity]. }
  assert (OF : OneFlag pl (x_flag_type x) fs flag) by (apply one_flag, EF).
  destruct ws as [|cp ws]. { rewrite error_here in H'. injection H' as <-. eapply LINE; [eapply LF_affix_few; eassumption|reflexivity]. }
  assert (CP : (cp = lit "Y" \/ cp = lit "N") \/ (cp <> lit "Y" /\ cp <> lit "N" /\ negb (str_eqb cp (lit "Y") || str_eqb cp (lit "N")) = true)).
  { destruct (str_eqb_cases cp (lit "Y")) as [[Q E1]|[Q E1]]; destruct (str_eqb_cases cp (lit "N")) as [[Q2 E2]|[Q2 E2]]; auto. right. rewrite Q, Q2. auto. }
  destruct CP as [CP|(C1 & C2 & C3)].
  2:{ rewrite C3, error_here in H'. injection H' as <-. eapply LINE; [eapply LF_affix_cross; eassumption|reflexivity]. }
  replace (negb (str_eqb cp (lit "Y") || str_eqb cp (lit "N"))) with false in H' by (destruct CP; subst cp; reflexivity).
  destruct ws as [|n ws]. { rewrite error_here in H'. injection H' as <-. eapply LINE; [eapply LF_affix_no_count; eassumption|reflexivity]. }
  destruct (parse_usize n) as [count|ie] eqn:EN.
  2:{ rewrite error_here in H'. injection H' as <-. eapply LINE; [eapply LF_affix_count; try eassumption; apply num_fault, EN|reflexivity]. }
  clear H'. rewrite (@atable_rows pl _ key (x_flag_type x) (affix_row pl put) ls fs cp n ws flag count x Hw EF CP EN) in H.
  assert (H2 : table_rows pl key (abody (affix_row pl put) flag fs (str_eqb cp (lit "Y"))) count (with_words ls None) (started key x) = Ret (Err e)) by (rewrite NB; exact H).
  refine (@table_fault key get _ HK EX (abody (affix_row pl put) flag fs (str_eqb cp (lit "Y"))) (astep (affix_row pl put) flag fs (str_eqb cp (lit "Y")))
    (fun l => @reada _ (affix_row pl put) flag fs (str_eqb cp (lit "Y")) l) (fun l => @runa _ (affix_row pl put) flag fs (str_eqb cp (lit "Y")) l)
    (fun r x1 k => RowFault pl (x_flag_type x1) (x_aliases x1) key (fs :: cp :: n :: ws) r k) _ x ls (fs :: cp :: n :: ws) nl t e count None Hr RD _ _ _ H2).
  - clear -KA Hfs. intros ls ws0 x e Hw Hs H. unfold abody, take_words in H. rewrite Hw in H. destruct ws0 as [|f ws0].
    { rewrite error_here in H. injection H as <-. eexists. split; [apply RF_affix_other; [exact KA|discriminate]|reflexivity]. }
    destruct (str_eqb_cases f fs) as [[Q ->]|[Q NE]]; rewrite Q in H; cbn [negb] in H.
    2:{ rewrite error_here in H. injection H as <-. eexists. split; [apply RF_affix_other; [exact KA|cbn; congruence]|reflexivity]. }
    destruct ws0 as [|st [|ad ws0]].
    { rewrite error_here in H. injection H as <-. eexists. split; [apply (@RF_affix_few pl _ _ key fs _ []); [exact KA|cbn; lia]|reflexivity]. }
    { rewrite error_here in H. injection H as <-. eexists. split; [apply (@RF_affix_few pl _ _ key fs _ [st]); [exact KA|cbn; lia]|reflexivity]. }
    cbv zeta in H. destruct (split_word_and_flagset_naive ad) as [text flags] eqn:SP. apply split_naive_spec in SP.
    assert (SF : scalars flags). { eapply slashed_scalars; [exact SP|]. inversion Hs as [|? ? _ Hs1]; subst. inversion Hs1 as [|? ? _ Hs2]; subst. inversion Hs2; assumption. }
    match type of H with bindP (at_line _ ?q) _ = _ => destruct q as [[x1|k]| |] eqn:AR end; cbn [at_line bindP okP] in H; try discriminate H.
    rewrite error_here in H. cbn [bindP] in H. injection H as <-. exists k. split; [|reflexivity]. unfold affix_row in AR.
    destruct (decode_flagset pl flags (x_flag_type x) (x_aliases x)) as [[fl|fe]| |] eqn:ED; cbn [mapErr bindP] in AR; try discriminate AR.
    2:{ injection AR as <-. eapply RF_affix_flags; [exact KA|exact SP|apply alias_fault, ED]. }
    match type of AR with bindP (mapErr _ ?q) _ = _ => destruct q as [[a|ce]| |] eqn:AN end; cbn [mapErr bindP okP] in AR; try discriminate AR.
    injection AR as <-. unfold affix_new in AN. destruct ws0 as [|c ws0]; [discriminate AN|].
    destruct (str_eqb_cases c (lit ".")) as [[Q2 _]|[Q2 ND]]; rewrite Q2 in AN; [discriminate AN|].
    destruct (cond_from_str c) as [[cd|ce']| |] eqn:EC; cbn [bindP] in AN; try discriminate AN. injection AN as <-.
    eapply RF_affix_cond; [exact KA|exact SP|apply aliased_flags; [exact SF|exact ED]|exact ND|apply cond_fault, EC].
  - apply usize_spec in EN. destruct EN as [D L]. split; [exact L|]. left. split; [exact KK|]. eauto 10.
  - intros m Lm. destruct (number_text m) as (s & Ds & Ss). exists [fs; cp; s].
    split. { constructor; [exact Hfs|]. inversion Hs1; subst. constructor; [assumption|]. constructor; [exact Ss|constructor]. }
    split. { intros q c C. destruct KK as [-> | ->]; inversion C; subst; try discriminate; [eapply RC_prefix|eapply RC_suffix]; eassumption. }
    exists None. rewrite NB. apply (@atable_rows pl _ key (x_flag_type x) (affix_row pl put) (with_words ls (Some [fs; cp; s])) fs cp s [] flag m x eq_refl EF CP).
    apply usize_spec. split; assumption.
  - intros q x1 k T1 T2 B. rewrite <- T1, <- T2; [exact B|]. destruct KK as [-> | ->]; discriminate.
Qed.
Lemma faulty_prefixes : faulty (lit "PFX") (parse_prefix_table pl).
Proof.
  refine (@faulty_affix (lit "PFX") (fun x => map CAffix (x_prefixes x)) (fun a x => upd_prefixes (x_prefixes x ++ [a]) x) _ _ (@exact_prefixes pl)); [in_tabs|left; reflexivity].
Qed.
Lemma faulty_suffixes : faulty (lit "SFX") (parse_suffix_table pl).
Proof.
  refine (@faulty_affix (lit "SFX") (fun x => map CAffix (x_suffixes x)) (fun a x => upd_suffixes (x_suffixes x ++ [a]) x) _ _ (@exact_suffixes pl)); [in_tabs|right; left; reflexivity].
Qed.

(** ** Texts *)
Lemma all_faulty : Forall (fun e => faulty (fst e) (snd e)) (aff_parsers pl).
Proof.
  unfold aff_parsers.
  apply Forall_cons; [exact faulty_type|].
  apply Forall_cons; [exact faulty_forbidden|].
  do 15 (apply Forall_cons; [cbn [fst snd]; apply faulty_flag; unfold flag_settings; cbn [In]; repeat (first [left; reflexivity|right])|]).
  do 14 (apply Forall_cons; [cbn [fst snd]; apply faulty_switch|]).
  do 5 (apply Forall_cons; [cbn [fst snd]; apply faulty_number; unfold number_settings; cbn [In]; repeat (first [left; reflexivity|right])|]).
  do 4 (apply Forall_cons; [cbn [fst snd]; apply faulty_word; unfold one_argument, text_settings; cbn [In app]; repeat (first [left; reflexivity|right])|]).
  apply Forall_cons; [exact faulty_rep|]. apply Forall_cons; [exact faulty_iconv|]. apply Forall_cons; [exact faulty_oconv|].
  apply Forall_cons; [exact faulty_break|].
  apply Forall_cons; [exact faulty_syllable|].
  apply Forall_cons; [exact faulty_alias|]. apply Forall_cons; [exact faulty_prefixes|]. apply Forall_cons; [exact faulty_suffixes|].
  apply Forall_cons; [exact faulty_rule|]. apply Forall_cons; [exact faulty_pattern|]. apply Forall_cons; [exact faulty_map|].
  apply Forall_nil.
Qed.

Definition in_source (p : lparser -> lines -> P perror (lines * lparser)) : Prop :=
  forall x ls ls' x', p x ls = Ret (Ok (ls', x')) -> ln_src ls' = ln_src ls.
Lemma one_word_src : forall ls A (f : lines * str -> P perror (lines * A)) ls' a,
  (forall l w l' b, f (l, w) = Ret (Ok (l', b)) -> ln_src l' = ln_src l) ->
  bindP (take_exactly_one_word ls) f = Ret (Ok (ls', a)) -> ln_src ls' = ln_src ls.
Proof.
  intros ls A f ls' a HF H. unfold take_exactly_one_word in H. destruct (ln_words ls) as [[|w r]|]; cbn [bindP okP] in H; try discriminate H.
  apply HF in H. exact H.
Qed.
Lemma rows_src : forall key body, (forall ls x ls' x', body ls x = Ret (Ok (ls', x')) -> ln_src ls' = ln_src ls) ->
  forall fuel row count ls (x : lparser) ls' x', rows pl key body fuel row count ls x = Ret (Ok (ls', x')) -> ln_src ls' = ln_src ls.
Proof.
  intros key body HB. induction fuel as [|fuel IH]; intros row count ls x ls' x' H; [discriminate H|]. cbn [rows] in H.
  destruct (count <? row)%N; [injection H as <- _; reflexivity|]. unfold is_finished in H.
  destruct (negb (nonempty (ln_rest (advance_line pl ls)))); [discriminate H|].
  destruct (next_word (advance_line pl ls)) as [l2 w] eqn:NW.
  assert (S2 : ln_src l2 = ln_src ls). { unfold next_word in NW. destruct (ln_words (advance_line pl ls)) as [[|? ?]|]; injection NW as <- _; reflexivity. }
  destruct w as [w|]; [|discriminate H]. destruct (str_eqb w key); [|discriminate H].
  destruct (body l2 x) as [[[l3 x3]|]| |] eqn:EB; cbn [bindP] in H; try discriminate H.
  rewrite (IH _ _ _ _ _ _ H), (HB _ _ _ _ EB). exact S2.
Qed.
Lemma counted_src : forall key body ls (x : lparser) ls' x', (forall ls x ls' x', body ls x = Ret (Ok (ls', x')) -> ln_src ls' = ln_src ls) ->
  bindP (parse_row_count ls) (fun r => let '(ls1, count) := r in table_rows pl key body count ls1 x) = Ret (Ok (ls', x')) -> ln_src ls' = ln_src ls.
Proof.
  intros key body ls x ls' x' HB H. unfold parse_row_count, take_exactly_one_word in H. destruct (ln_words ls) as [[|w r]|]; cbn [bindP okP] in H; try discriminate H.
  destruct (parse_usize w); cbn [bindP okP] in H; [|discriminate H]. apply (rows_src _ _ HB) in H. exact H.
Qed.
Lemma src_flag : forall g, in_source (flag_directive pl g).
Proof.
  intros g x ls ls' x' H. unfold flag_directive, parse_flag, take_exactly_one_word in H. destruct (ln_words ls) as [[|w r]|]; cbn [bindP okP] in H; try discriminate H.
  destruct (parse_flag_from_str pl (x_flag_type x) w) as [[f|]| |]; cbn [mapErr at_line bindP okP error errP] in H; try discriminate H. injection H as <- _. reflexivity.
Qed.
Lemma src_switch : forall g, in_source (bool_directive g).
Proof. intros g x ls ls' x' H. injection H as <- _. reflexivity. Qed.
Lemma src_number : forall g, in_source (short_directive g).
Proof.
  intros g x ls ls' x' H. unfold short_directive, parse_short, take_exactly_one_word in H. destruct (ln_words ls) as [[|w r]|]; cbn [bindP okP] in H; try discriminate H.
  destruct (parse_u16 w); cbn [bindP okP error errP] in H; try discriminate H. injection H as <- _. reflexivity.
Qed.
Lemma src_word : forall g, in_source (word_directive g).
Proof.
  intros g x ls ls' x' H. unfold word_directive, take_exactly_one_word in H. destruct (ln_words ls) as [[|w r]|]; cbn [bindP okP] in H; try discriminate H.
  injection H as <- _. reflexivity.
Qed.
Lemma src_table1 : forall key f y, in_source (fun x ls => parse_table1 pl key f ls (y x)).
Proof.
  intros key f y x ls ls' x' H. refine (@counted_src key _ ls (y x) ls' x' _ H). clear. intros ls x ls' x' H.
  destruct (take_words ls) as [l ws] eqn:T. assert (ln_src l = ln_src ls) as <- by (injection T as <- _; reflexivity).
  destruct ws as [|w r]; [discriminate H|]. destruct (f w x) as [[?|]| |]; cbn [at_line bindP okP error errP] in H; try discriminate H. injection H as <- _. reflexivity.
Qed.
Lemma src_table2 : forall key f, in_source (fun x ls => parse_table2 pl key f ls x).
Proof.
  intros key f x ls ls' x' H. refine (@counted_src key _ ls x ls' x' _ H). clear. intros ls x ls' x' H.
  destruct (take_words ls) as [l ws] eqn:T. assert (ln_src l = ln_src ls) as <- by (injection T as <- _; reflexivity).
  destruct ws as [|w [|v r]]; try discriminate H. destruct (f w v x) as [[?|]| |]; cbn [at_line bindP okP error errP] in H; try discriminate H. injection H as <- _. reflexivity.
Qed.
Lemma src_affix : forall key f, in_source (fun x ls => parse_affix_table pl key (x_flag_type x) f ls x).
Proof.
  intros key f x ls ls' x' H. unfold parse_affix_table in H. destruct (take_words ls) as [l ws] eqn:T.
  assert (ln_src l = ln_src ls) as <- by (injection T as <- _; reflexivity). clear T ls.
  destruct ws as [|fs ws]; [discriminate H|].
  destruct (parse_flag_from_str pl (x_flag_type x) fs) as [[flag|]| |]; cbn [mapErr at_line bindP error errP] in H; try discriminate H.
  destruct ws as [|cp ws]; [discriminate H|]. destruct (negb _); [discriminate H|]. destruct ws as [|n ws]; [discriminate H|].
  destruct (parse_usize n); [|discriminate H]. refine (@rows_src key _ _ _ _ _ _ _ _ _ H). clear. intros ls x ls' x' H.
  destruct (take_words ls) as [l ws] eqn:T. assert (ln_src l = ln_src ls) as <- by (injection T as <- _; reflexivity). clear T ls.
  destruct ws as [|f0 [|st [|ad ws]]]; try discriminate H; (destruct (negb _); try discriminate H).
  cbv zeta in H. destruct (split_word_and_flagset_naive ad) as [text flags].
  match type of H with bindP (at_line _ ?q) _ = _ => destruct q as [[x1|k]| |] end; cbn [at_line bindP okP error errP] in H; try discriminate H.
  injection H as <- _. reflexivity.
Qed.
Lemma src_pattern : in_source (parse_compound_pattern_table pl).
Proof.
  intros x ls ls' x' H. refine (@counted_src _ (pattern_row pl) ls x ls' x' _ H). intros l y l' y' Q. apply pattern_row_rest in Q. apply Q.
Qed.
Lemma all_src : Forall (fun e => in_source (snd e)) (aff_parsers pl).
Proof.
  unfold aff_parsers.
  apply Forall_cons; [cbn [snd]|].
  { intros x ls ls' x' H. unfold parse_flag_type, take_exactly_one_word in H. destruct (ln_words ls) as [[|w r]|]; cbn [bindP okP] in H; try discriminate H.
    repeat match type of H with (if ?b then _ else _) = _ => destruct b end; try discriminate H; injection H as <- _; reflexivity. }
  apply Forall_cons; [cbn [snd]|].
  { intros x ls ls' x' H. unfold parse_forbidden_word_flag, parse_flag, take_exactly_one_word in H. destruct (ln_words ls) as [[|w r]|]; cbn [bindP okP] in H; try discriminate H.
    destruct (parse_flag_from_str pl (x_flag_type x) w) as [[f|]| |]; cbn [mapErr at_line bindP okP error errP] in H; try discriminate H. injection H as <- _. reflexivity. }
  do 15 (apply Forall_cons; [cbn [snd]; apply src_flag|]).
  do 14 (apply Forall_cons; [cbn [snd]; apply src_switch|]).
  do 5 (apply Forall_cons; [cbn [snd]; apply src_number|]).
  do 4 (apply Forall_cons; [cbn [snd]; apply src_word|]).
  do 3 (apply Forall_cons; [cbn [snd]; apply src_table2|]).
  apply Forall_cons; [cbn [snd]; apply (@src_table1 _ _ (upd_breaks []))|].
  apply Forall_cons; [cbn [snd]|].
  { intros x ls ls' x' H. unfold parse_compound_syllable, take_words in H. destruct (ln_words ls) as [[|w [|v r]]|]; try discriminate H.
    destruct (parse_u16 w); try discriminate H. injection H as <- _. reflexivity. }
  apply Forall_cons; [cbn [snd]; apply (@src_table1 _ _ (fun x => x))|].
  do 2 (apply Forall_cons; [cbn [snd]; apply src_affix|]).
  apply Forall_cons; [cbn [snd]; apply (@src_table1 _ _ (fun x => x))|].
  apply Forall_cons; [exact src_pattern|].
  apply Forall_cons; [cbn [snd]; apply (@src_table1 _ _ (fun x => x))|].
  apply Forall_nil.
Qed.
Lemma find_parser_src : forall key p, find_parser pl key = Some p -> in_source p.
Proof. intros key p E. apply find_parser_In in E. pose proof all_src as A. rewrite Forall_forall in A. exact (A _ E). Qed.

Definition pending (ls : lines) : list (N * str) := match ln_rest ls with [] => [] | nl :: _ => nl :: upcoming pl ls end.
Lemma pending_next : forall ls, pending (advance_line pl ls) = upcoming pl ls.
Proof.
  intro ls. unfold pending. pose proof (advance_upcoming pl ls) as A. destruct (upcoming pl ls) as [|nl2 r2]; [rewrite A; reflexivity|].
  destruct A as (t & A1 & _ & A3). rewrite A1, A3. reflexivity.
Qed.

Lemma go_fault : forall fuel ls x e, ln_words ls = peek_words pl (ln_rest ls) -> Forall (readable pl) (pending ls) -> length (pending ls) < fuel ->
  aff_go pl fuel ls x = Ret (Err e) ->
  exists i k, TextFault pl (map words (pending ls)) x i k /\ e = mkError k (ln_src ls) (place (pending ls) i).
Proof.
  induction fuel as [|fuel IH]; intros ls x e Hp Hr Hl H; [lia|]. cbn [aff_go] in H. unfold is_finished in H. unfold pending in Hr, Hl |- *.
  destruct (ln_rest ls) as [|nl rest] eqn:Er; [discriminate H|].
  cbn [nonempty negb] in H. cbn [peek_words] in Hp. unfold next_word in H. rewrite Hp in H.
  assert (NEXT : forall ls2 x2, Forall (readable pl) (upcoming pl ls2) -> length (upcoming pl ls2) < fuel -> aff_go pl fuel (advance_line pl ls2) x2 = Ret (Err e) ->
            exists i k, TextFault pl (map words (upcoming pl ls2)) x2 i k /\ e = mkError k (ln_src ls2) (place (upcoming pl ls2) i)).
  { intros ls2 x2 R2 L2 E2. rewrite <- pending_next in R2, L2 |- *. change (ln_src ls2) with (ln_src (advance_line pl ls2)). eapply IH; [reflexivity|exact R2|exact L2|exact E2]. }
  apply Forall_cons_iff in Hr. destruct Hr as [R1 R2]. cbn [length] in Hl. cbn [map].
  assert (WN : words nl = split_whitespace pl (snd nl)) by reflexivity.
  assert (SKIP : forall ls2, ln_rest ls2 = ln_rest ls -> ln_src ls2 = ln_src ls ->
     (forall key ws', words nl = key :: ws' -> ~ known key) -> aff_go pl fuel (advance_line pl ls2) x = Ret (Err e) ->
     exists i k, TextFault pl (words nl :: map words (upcoming pl ls)) x i k /\ e = mkError k (ln_src ls) (place (nl :: upcoming pl ls) i)).
  { intros ls2 E2 S2 NK Q. apply NEXT in Q; rewrite ?(upcoming_rest pl ls ls2 E2) in *; [|exact R2|lia]. destruct Q as (i & k & T & ->).
    exists (S i), k. split; [apply TF_skip; assumption|]. rewrite S2. reflexivity. }
  unfold words_of in Hp. destruct (split_whitespace pl (snd nl)) as [|key ws] eqn:EW.
  - cbn [bindP okP] in H. revert H. apply SKIP; [reflexivity|reflexivity|]. intros k w Q. congruence.
  - pose proof (known_parser pl key) as KP. destruct (find_parser pl key) as [p|] eqn:EP.
    + destruct KP as [EX KN]. unfold readable in R1. rewrite WN in R1. apply Forall_cons_iff in R1. destruct R1 as [Q1 Q2]. rewrite WN.
      destruct (p x (with_words ls (Some ws))) as [[[ls2 x2]|e']| |] eqn:EQ; cbn [bindP] in H; try discriminate H.
      * destruct (EX x (with_words ls (Some ws)) ws eq_refl Q2 R2) as [EX1 _]. destruct (EX1 ls2 x2 EQ) as (rws & E1 & D).
        change (upcoming pl (with_words ls (Some ws))) with (upcoming pl ls) in E1.
        apply NEXT in H; [| |rewrite E1, app_length in Hl; lia]. 2:{ rewrite E1 in R2. apply Forall_app in R2. apply R2. }
        destruct H as (i & k & T & ->). exists (S (length (map words rws)) + i), k. split; [rewrite E1, map_app; eapply TF_after; eassumption|].
        assert (ln_src ls2 = ln_src ls) as ->. { exact (find_parser_src key EP x (with_words ls (Some ws)) EQ). }
        f_equal. unfold place. cbn [Nat.add nth_error]. rewrite E1, map_length, nth_error_app2 by lia. f_equal. f_equal. lia.
      * injection H as ->. apply find_parser_In in EP. pose proof all_faulty as A. rewrite Forall_forall in A.
        assert (REST : ln_rest (with_words ls (Some ws)) = nl :: rest) by exact Er.
        destruct (A _ EP x (with_words ls (Some ws)) ws nl rest e eq_refl REST Q2 R2 EQ) as (i & k & D & ->). exists i, k.
        split; [apply TF_here; exact D|reflexivity].
    + cbn [bindP okP] in H. revert H. apply SKIP; [reflexivity|reflexivity|]. intros k w Q. rewrite WN in Q. injection Q as <- <-. exact KP.
Qed.

Lemma counted_number : forall ls n, counted_lines pl (n + 1) ls = map (fun nl => ((fst nl + 1)%N, snd nl)) (filter (fun nl => negb (is_comment pl (snd nl))) (number_from n ls)).
Proof.
  induction ls as [|l ls IH]; intro n; [reflexivity|]. cbn [counted_lines number_from filter snd]. destruct (is_comment pl l); cbn [negb map fst snd]; rewrite IH; reflexivity.
Qed.
Lemma numbered_pending : forall text src, numbered pl text = map (fun nl => ((fst nl + 1)%N, snd nl)) (pending (lines_new pl text src)).
Proof.
  intros text src. unfold numbered. change 1%N with (0 + 1)%N. rewrite counted_number. f_equal. rewrite skip_comments_filter. unfold pending, upcoming, lines_new. cbn [ln_rest].
  destruct (skip_comments pl _); reflexivity.
Qed.
Lemma numbered_place : forall text src i, option_map fst (nth_error (numbered pl text) i) = place (pending (lines_new pl text src)) i.
Proof.
  intros text src i. rewrite (numbered_pending text src). unfold place. rewrite nth_error_map. destruct (nth_error _ i); reflexivity.
Qed.
Lemma pending_words : forall aff, aff_words pl aff = map words (pending (lines_new pl aff SrcAff)).
Proof.
  intro aff. unfold aff_words. f_equal. rewrite skip_comments_filter. unfold pending, upcoming, lines_new. cbn [ln_rest].
  destruct (skip_comments pl _); reflexivity.
Qed.
Lemma pending_readable : forall aff, scalars aff -> Forall (readable pl) (pending (lines_new pl aff SrcAff)).
Proof.
  intros aff Ha. apply Forall_forall. intros nl I. apply (@words_readable pl aff nl Ha).
  assert (E : pending (lines_new pl aff SrcAff) = filter (fun nl => negb (is_comment pl (snd nl))) (number_from 0 (text_lines (match strip_prefix [65279%N] aff with Some t => t | None => aff end)))).
  { rewrite skip_comments_filter. unfold pending, upcoming, lines_new. cbn [ln_rest]. destruct (skip_comments pl _); reflexivity. }
  rewrite E in I. apply filter_In in I. apply I.
Qed.

Theorem aff_fault : forall aff e, scalars aff -> parse_aff pl aff = Ret (Err e) ->
  exists i k, TextFault pl (aff_words pl aff) default_lp i k /\ e = mkError k SrcAff (option_map fst (nth_error (numbered pl aff) i)).
Proof.
  intros aff e Ha H. unfold parse_aff in H. apply go_fault in H; [|reflexivity|apply pending_readable, Ha|].
  - destruct H as (i & k & T & ->). exists i, k. rewrite pending_words, (numbered_place aff SrcAff). auto.
  - unfold pending. pose proof (upcoming_length pl (lines_new pl aff SrcAff)) as L. destruct (ln_rest (lines_new pl aff SrcAff)) as [|nl r] eqn:Q; [cbn; lia|].
    cbn [length pred] in *. lia.
Qed.

(** ** The .dic text *)

Lemma dic_line_fault : forall x ls l t e, lp_ok x -> scalars l -> cur_line ls = Some l -> dic_line pl x ls t = Ret (Err e) ->
  exists k, EntryFault pl x l k /\ e = here ls k.
Proof.
  intros x ls l t e Hx Hl E H. unfold dic_line in H. rewrite E in H. assert (T := proj2 (@trimmed_spec pl l (trim pl l)) eq_refl). destruct (trim_ok pl Hl) as [TS _].
  destruct (trim pl l) as [|c m] eqn:ET; [discriminate H|].
  destruct (starts_with [ch_slash] (c :: m) && (1 <? blen (c :: m))%N) eqn:S1; [discriminate H|].
  assert (NS : forall d n, c :: m <> 47%N :: d :: n).
  { intros d n X. injection X as -> ->. unfold starts_with in S1. cbn [strip_prefix] in S1. change (ch_slash =? 47)%N with true in S1. cbn [andb] in S1.
    cbn [blen] in S1. pose proof (len1_pos d). change (len1 47) with 1%N in S1. lia. }
  destruct (N.ltb_spec 65535 (blen (c :: m))) as [L|L].
  { rewrite error_here in H. injection H as <-. eexists. split; [eapply EF_long; [exact T|exact NS|exact L]|reflexivity]. }
  destruct (@dic_line_run pl (c :: m) (x_flag_type x) (x_aliases x) (x_ignore x) L) as (raw & rest & ST & EP). rewrite EP in H. clear EP.
  destruct rest as [|d after].
  { cbn [okP mapErr at_line bindP] in H. destruct (insert_entry pl x t _ _); discriminate H. }
  destruct (N.eqb_spec d 47) as [-> | ND].
  2:{ cbn [okP mapErr at_line bindP] in H. destruct (insert_entry pl x t _ _); discriminate H. }
  destruct (decode_flagset pl (field_of pl raw after) (x_flag_type x) (x_aliases x)) as [[fs|fe]| |] eqn:ED; cbn [okP mapErr at_line bindP] in H; try discriminate H.
  - destruct (insert_entry pl x t _ _); discriminate H.
  - rewrite error_here in H. cbn [bindP] in H. injection H as <-. exists (MalformedFlag fe). split; [|reflexivity].
    eapply EF_flags; [exact T|discriminate|exact NS|exact L|exact ST|apply flag_field; reflexivity|apply alias_fault, ED].
Qed.

Lemma dic_lines_fault : forall x, lp_ok x -> forall fuel ls t e, lines_ok pl ls -> dic_lines pl fuel x ls t = Ret (Err e) ->
  exists good bad more es k, map snd (upcoming pl ls) = good ++ bad :: more /\ DicEntries pl x good es /\ EntryFault pl x bad k /\
    e = mkError k (ln_src ls) (place (upcoming pl ls) (length good)).
Proof.
  intros x Hx. induction fuel as [|fuel IH]; intros ls t e Hl H; [discriminate H|]. rewrite dic_lines_S in H.
  destruct (is_finished ls) eqn:F; [discriminate H|].
  pose proof (advance_upcoming pl ls) as AU. pose proof (@advance_ok pl ls Hl) as AO.
  destruct (upcoming pl ls) as [|nl r] eqn:UP.
  - unfold dic_line at 1, cur_line in H. rewrite AU in H. cbn [bindP okP] in H. apply IH in H; [|exact AO]. destruct H as (good & bad & more & es & k & Q & _).
    unfold upcoming in Q. rewrite AU in Q. destruct good; discriminate Q.
  - destruct AU as (tl & E1 & _ & E2). assert (CL : cur_line (advance_line pl ls) = Some (snd nl)) by (unfold cur_line; rewrite E1; reflexivity).
    assert (SN : scalars (snd nl)) by (destruct AO as [Q _]; rewrite E1 in Q; inversion Q; assumption).
    destruct (dic_line pl x (advance_line pl ls) t) as [[t1|e']| |] eqn:DL; cbn [bindP] in H; try discriminate H.
    + apply IH in H; [|exact AO]. destruct H as (good & bad & more & es & k & Q & D & EF & ->). rewrite E2 in *.
      apply (@dic_line_spec pl x (advance_line pl ls) (snd nl) t t1 Hx SN CL) in DL. destruct DL as (e1 & D1 & _).
      exists (snd nl :: good), bad, more, (e1 ++ es), k. split; [cbn [map]; rewrite Q; reflexivity|]. split; [apply de_cons; eauto|]. split; [exact EF|reflexivity].
    + injection H as ->. destruct (@dic_line_fault x _ _ _ _ Hx SN CL DL) as (k & EF & ->).
      exists [], (snd nl), (map snd r), [], k. split; [reflexivity|]. split; [constructor|]. split; [exact EF|]. unfold here. rewrite E1. reflexivity.
Qed.

Theorem dic_fault : forall x dic e, lp_ok x -> scalars dic -> parse_dic pl x dic = Ret (Err e) ->
  exists i k, DicFault pl x (plain_lines pl dic) i k /\ e = mkError k SrcDic (option_map fst (nth_error (numbered pl dic) i)).
Proof.
  intros x dic e Hx Hd H. unfold parse_dic in H. pose proof (@lines_new_ok pl dic SrcDic Hd) as LO.
  assert (NP := numbered_place dic SrcDic).
  assert (PL : plain_lines pl dic = map snd (pending (lines_new pl dic SrcDic))).
  { unfold plain_lines. rewrite <- (@map_filter_number _ _ 0%N), skip_comments_filter. unfold pending, upcoming, lines_new. cbn [ln_rest].
    destruct (skip_comments pl _); reflexivity. }
  assert (SR : ln_src (lines_new pl dic SrcDic) = SrcDic) by reflexivity.
  assert (LW : ln_words (lines_new pl dic SrcDic) = match ln_rest (lines_new pl dic SrcDic) with [] => None | nl :: _ => Some (split_whitespace pl (snd nl)) end) by reflexivity.
  set (ls := lines_new pl dic SrcDic) in *. clearbody ls.
  setoid_rewrite NP. rewrite PL. unfold parse_row_count, take_exactly_one_word in H. rewrite LW in H. unfold pending. destruct (ln_rest ls) as [|nl r] eqn:LR.
  { rewrite error_here in H. cbn [bindP] in H. injection H as <-. exists 0, (MismatchedArity 1 0). split; [apply DT_none|]. unfold here. cbn [with_words ln_rest ln_src]. rewrite LR, SR. reflexivity. }
  destruct (split_whitespace pl (snd nl)) as [|w q] eqn:SW.
  { rewrite error_here in H. cbn [bindP] in H. injection H as <-. exists 0, (MismatchedArity 1 0). split; [apply DT_blank; exact SW|]. unfold here. cbn [with_words ln_rest ln_src]. rewrite LR, SR. reflexivity. }
  cbn [bindP okP] in H. destruct (parse_usize w) as [n|ie] eqn:PU.
  2:{ rewrite error_here in H. cbn [bindP] in H. injection H as <-. exists 0, (MalformedNumber ie). split; [eapply DT_count; [exact SW|apply num_fault, PU]|]. unfold here. cbn [with_words ln_rest ln_src]. rewrite LR, SR. reflexivity. }
  cbn [bindP okP] in H. match type of H with dic_lines pl _ x ?l _ = _ => set (ls1 := l) in * end.
  assert (L1 : lines_ok pl ls1). { destruct LO as [Q1 Q2]. rewrite LW in Q2. unfold ls1. split; cbn [ln_rest ln_words]; [exact Q1|inversion Q2; assumption]. }
  assert (R1 : ln_rest ls1 = ln_rest ls) by reflexivity. apply dic_lines_fault in H; [|exact Hx|exact L1].
  rewrite (upcoming_rest pl ls ls1 R1) in H. destruct H as (good & bad & more & es & k & Q & D & EF & ->). apply usize_spec in PU. destruct PU as [P1 P2].
  exists (S (length good)), k. cbn [map]. rewrite Q. split; [eapply DT_entry; eassumption|]. rewrite <- SR. reflexivity.
Qed.
End Faults.
