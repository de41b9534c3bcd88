(** The parser of .aff and .dic texts: aff/parser.rs 35-1773.

    Texts are lists of Unicode scalar values.  [Dictionary::new] is the only caller, so a
    parsing function that fails ends the whole parse: a [Lines] cursor is not returned
    together with an error.  Error values carry the data the code puts in them. *)
From Coq Require Import String Ascii.
From Coq Require Import List NArith ZArith Lia Bool Arith Permutation.
From Coq Require Import ZifyBool ZifyNat ZifyN.
From Verif Require Import Base Utf8 Unicode Flags Bag Condition Affix CompoundRule Conversion Aff.
Import ListNotations.
Set Implicit Arguments.

(** String literals of the Rust source. *)
Definition lit (s : string) : str := map N_of_ascii (list_ascii_of_string s).

(** What the parser and the word list take from the outside: the Unicode tables, the
    byte order and build mode of the target, the two unstable sorts of the standard
    library, and the user's hasher with hashbrown's placement of entries (Bag.v). *)
Record platform := mkPlatform {
  pl_unicode : unicode;
  pl_little_endian : bool;
  pl_overflow_checks : bool;
  pl_sort_affixes : kind -> list affix -> list affix;
  pl_sort_convs : list conversion -> list conversion;
  pl_hash : str -> N;
  pl_place : table flagset -> entry flagset -> table flagset;
  pl_visits : N -> N -> bool }.

(** ** Errors *)

(** [core::num::IntErrorKind]. *)
Inductive int_error := IntEmpty | IntInvalidDigit | IntPosOverflow.
(** [ParseFlagError] (parser.rs 1649-1661). *)
Inductive flag_error :=
  NonAscii (c : N) | MissingSecondChar | FlagInt (e : int_error) | DuplicateComma | ZeroFlag
| FlagAbove65535 | FlagWordTooLong.
(** [ParseCompoundRuleError] (parser.rs 1336-1339). *)
Inductive rule_error := RuleFlag (e : flag_error) | RuleFormat.
(** [ParseDictionaryErrorKind] (parser.rs 1558-1571).  [UnexpectedNonWhitespace] and
    [Empty] are never produced. *)
Inductive error_kind :=
  UnknownFlagType (s : str) | MalformedFlag (e : flag_error) | MalformedNumber (e : int_error)
| MismatchedArity (expected actual : N) | MismatchedRowCount (expected actual : N)
| MalformedCompoundRule (e : rule_error) | MalformedAffix | MalformedCondition (e : condition_error)
| WordTooLong.
(** parser.rs 1542-1546. *)
Inductive error_source := SrcDic | SrcAff.
(** [ParseDictionaryError] (parser.rs 1522-1526). *)
Record perror := mkError { pe_kind : error_kind; pe_source : error_source; pe_line : option N }.

(** A computation that may return an error value, panic or run out of fuel. *)
Definition P (E A : Type) : Type := Res (result A E).
Definition okP {E A} (a : A) : P E A := Ret (Ok a).
Definition errP {E A} (e : E) : P E A := Ret (Err e).
Definition bindP {E A B} (x : P E A) (f : A -> P E B) : P E B :=
  match x with Ret (Ok a) => f a | Ret (Err e) => Ret (Err e) | Panic => Panic | NoFuel => NoFuel end.
Definition mapErr {E F A} (g : E -> F) (x : P E A) : P F A :=
  match x with Ret (Ok a) => Ret (Ok a) | Ret (Err e) => Ret (Err (g e)) | Panic => Panic | NoFuel => NoFuel end.
Notation "x <~ e ;; f" := (bindP e (fun x => f))
  (at level 61, e at next level, right associativity).

(** ** Integers *)

(** [<uint>::from_str] for the decimal unsigned types ([str::parse]): an optional plus
    sign, then digits, left to right with overflow checks. *)
Fixpoint digits_go (max acc : N) (s : str) : result N int_error :=
  match s with
  | [] => Ok acc
  | c :: s' =>
      if negb ((48 <=? c)%N && (c <=? 57)%N) then Err IntInvalidDigit
      else if (max <? acc * 10)%N then Err IntPosOverflow
      else if (max <? acc * 10 + (c - 48))%N then Err IntPosOverflow
      else digits_go max (acc * 10 + (c - 48))%N s'
  end.
Definition parse_uint (max : N) (s : str) : result N int_error :=
  match s with
  | [] => Err IntEmpty
  | [c] => if (c =? 43)%N || (c =? 45)%N then Err IntInvalidDigit else digits_go max 0 s
  | c :: s' => digits_go max 0 (if (c =? 43)%N then s' else s)
  end.
Definition parse_u16 (s : str) : result N int_error := parse_uint 65535 s.
(** 64-bit [usize]. *)
Definition parse_usize (s : str) : result N int_error := parse_uint 18446744073709551615 s.

(** ** Flags *)

(** parser.rs 1052-1054. *)
Definition try_flag_from_u16 (v : N) : result N flag_error :=
  if (v =? 0)%N then Err ZeroFlag else Ok v.
(** parser.rs 1056-1061. *)
Definition try_flag_from_u32 (v : N) : result N flag_error :=
  if (65535 <? v)%N then Err FlagAbove65535 else try_flag_from_u16 v.
(** parser.rs 1063-1065. *)
Definition try_flag_from_char (c : N) : result N flag_error := try_flag_from_u32 c.

(** [u16::from_ne_bytes]. *)
Definition from_ne_bytes (le : bool) (a b : N) : N := if le then (a + 256 * b)%N else (256 * a + b)%N.

(** [str::encode_utf16]. *)
Definition utf16_1 (c : N) : list N :=
  if (c <? 65536)%N then [c]
  else [55296 + (c - 65536) / 1024; 56320 + (c - 65536) mod 1024]%N.
Definition utf16 (s : str) : list N := flat_map utf16_1 s.

(** [iter().map(try_flag_from_u16).collect::<Result<Vec<_>, _>>()]. *)
Fixpoint try_flags (l : list N) : result (list N) flag_error :=
  match l with
  | [] => Ok []
  | v :: l' =>
      match try_flag_from_u16 v with
      | Err e => Err e
      | Ok f => match try_flags l' with Err e => Err e | Ok fs => Ok (f :: fs) end
      end
  end.

(** The loop over byte pairs (parser.rs 1126-1139). *)
Fixpoint byte_pairs (le : bool) (bytes : list N) : option (list N) :=
  match bytes with
  | [] => Some []
  | [_] => None
  | a :: b :: r => option_map (cons (from_ne_bytes le a b)) (byte_pairs le r)
  end.

Definition ch_comma : N := 44.

(** [ParseIntError] and [try_flag_from_u16] on one numeric flag (parser.rs 1146-1149). *)
Definition numeric_flag (s : str) : result N flag_error :=
  match parse_u16 s with Err e => Err (FlagInt e) | Ok v => try_flag_from_u16 v end.

(** The loop at parser.rs 1140-1161.  The head of the remaining input up to the next
    comma is a flag. *)
Fixpoint numeric_flags (fuel : nat) (s : str) : P flag_error (list N) :=
  match fuel with
  | O => NoFuel
  | S fuel' =>
      match find_char (N.eqb ch_comma) s with
      | Some i =>
          if match nth_error s (i + 1) with Some c => (c =? ch_comma)%N | None => false end
          then errP DuplicateComma
          else
            f <~ Ret (numeric_flag (firstn i s)) ;;
            fs <~ numeric_flags fuel' (skipn (i + 1) s) ;;
            okP (f :: fs)
      | None => f <~ Ret (numeric_flag s) ;; okP [f]
      end
  end.

(** [Vec<Flag>::into()] (lib.rs 358-365). *)
Definition into_flagset (x : P flag_error (list N)) : P flag_error flagset :=
  fs <~ x ;; s <- flagset_from fs ;; okP s.

Section Parser.
Variable pl : platform.
Notation U := (pl_unicode pl).
Notation le := (pl_little_endian pl).

(** parser.rs 1068-1102; the assertion at 1073. *)
Definition parse_flag_from_str (t : flag_type) (input : str) : P flag_error N :=
  match input with
  | [] => Panic
  | _ :: _ =>
      v <~ match t with
           | FShort => okP (nth 0 (enc input) 0%N)
           | FLong => match enc input with
                      | a :: b :: _ => okP (from_ne_bytes le a b)
                      | _ => errP MissingSecondChar
                      end
           | FNumeric => match parse_u16 input with Ok v => okP v | Err e => errP (FlagInt e) end
           | FUtf8 => match utf16 input with v :: _ => okP v | [] => Panic end
           end ;;
      Ret (try_flag_from_u16 v)
  end.

(** parser.rs 1105-1173. *)
Definition parse_flags_from_str (t : flag_type) (input : str) : P flag_error flagset :=
  match input with
  | [] => okP []
  | _ :: _ =>
      into_flagset
        match t with
        | FShort => Ret (try_flags (enc input))
        | FLong => match byte_pairs le (enc input) with
                   | None => errP MissingSecondChar
                   | Some vs => Ret (try_flags vs)
                   end
        | FNumeric => numeric_flags (S (length input)) input
        | FUtf8 => Ret (try_flags (utf16 input))
        end
  end.

Definition ch_slash : N := 47.
Definition ch_bslash : N := 92.
Definition ch_space : N := 32.
Definition ch_tab : N := 9.

(** parser.rs 1178-1180. *)
Definition split_word_and_flagset_naive (input : str) : str * str :=
  match split_once [ch_slash] input with Some p => p | None => (input, []) end.

(** parser.rs 1183-1204. *)
Definition decode_flagset (input : str) (t : flag_type) (aliases : list flagset) : P flag_error flagset :=
  if match t with FNumeric => true | _ => false end || negb (nonempty aliases)
  then parse_flags_from_str t input
  else
    match parse_u16 input with
    | Ok i =>
        if (0 <? i)%N && (i <=? N.of_nat (length aliases))%N
        then match nth_error aliases (N.to_nat i - 1) with Some fs => okP fs | None => Panic end
        else parse_flags_from_str t input
    | Err _ => parse_flags_from_str t input
    end.

(** ** Whitespace *)

(** [str::trim_start], [str::trim]. *)
Fixpoint trim_start (w : str) : str :=
  match w with
  | [] => []
  | c :: w' => if u_is_ws U c then trim_start w' else w
  end.
Definition trim (w : str) : str := rev (trim_start (rev (trim_start w))).

(** [str::split_whitespace]. *)
Fixpoint ws_go (w cur : str) : list str :=
  match w with
  | [] => match cur with [] => [] | _ => [rev cur] end
  | c :: w' =>
      if u_is_ws U c
      then match cur with [] => ws_go w' [] | _ => rev cur :: ws_go w' [] end
      else ws_go w' (c :: cur)
  end.
Definition split_whitespace (w : str) : list str := ws_go w [].

(** [take_while(|ch| !ch.is_whitespace())]. *)
Fixpoint take_nonws (w : str) : str :=
  match w with
  | [] => []
  | c :: w' => if u_is_ws U c then [] else c :: take_nonws w'
  end.

(** ** Dictionary lines *)

(** [UmbraString::from] (umbra_slice.rs 430-452): panics above [u16::MAX] bytes. *)
Definition stem_from (s : str) : Res str := if (blen s <=? 65535)%N then Ret s else Panic.

(** The nested [ignore_chars] (parser.rs 1221-1230). *)
Definition ignore_chars (s : str) (ignore : list N) : Res str :=
  stem_from (match ignore with [] => s | _ :: _ => filter (fun c => negb (memb c ignore)) s end).

Definition is_dic_special (c : N) : bool :=
  (c =? ch_slash)%N || (c =? ch_bslash)%N || (c =? ch_space)%N || (c =? ch_tab)%N.

(** [separates_morphological_field] (parser.rs 1299-1313) on the text after a space. *)
Definition is_morph (after : str) : bool :=
  match trim_start after with
  | a :: b :: c :: _ => u_is_lower U a && u_is_lower U b && (c =? 58)%N
  | _ => false
  end.

(** What the character loop of [parse_dic_line] ends with: the whole line's word without
    flags (an early [return]), or the word and the text after the separating slash. *)
Inductive dic_end := DicWord (w : str) | DicFlags (w flags : str).

(** parser.rs 1271-1325.  [acc] is the word built so far, reversed; [first] tells that
    the character is at index 0 of the shadowed [input]. *)
Fixpoint dic_go (input : str) (first escaped : bool) (acc : str) : Res dic_end :=
  match input with
  | [] => Ret (DicFlags (rev acc) [])
  | c :: rest =>
      if (c =? ch_slash)%N && escaped then
        match acc with
        | [] => Panic
        | b :: acc' =>
            if (b =? ch_bslash)%N then dic_go rest false false (ch_slash :: acc') else Panic
        end
      else if (c =? ch_slash)%N && negb first then Ret (DicFlags (rev acc) rest)
      else if (c =? ch_tab)%N then Ret (DicWord (rev acc))
      else if (c =? ch_space)%N && is_morph rest then Ret (DicWord (rev acc))
      else dic_go rest false (c =? ch_bslash)%N (c :: acc)
  end.

(** parser.rs 1206-1333. *)
Definition parse_dic_line (input : str) (t : flag_type) (aliases : list flagset) (ignore : list N)
  : P flag_error (str * flagset) :=
  if (65535 <? blen input)%N then errP FlagWordTooLong
  else
    match find_char is_dic_special input with
    | None => word <- ignore_chars input ignore ;; okP (word, [])
    | Some idx =>
        let c := nth idx input 0%N in
        if (c =? ch_slash)%N && negb (idx =? 0)%nat then
          word <- ignore_chars (firstn idx input) ignore ;;
          let after := skipn (idx + 1) input in
          let flagset_str := match split_whitespace after with f :: _ => f | [] => after end in
          flags <~ decode_flagset flagset_str t aliases ;;
          okP (word, flags)
        else if (c =? ch_tab)%N then
          word <- ignore_chars (firstn idx input) ignore ;; okP (word, [])
        else
          r <- dic_go (skipn idx input) true false (rev (firstn idx input)) ;;
          match r with
          | DicWord w => word <- ignore_chars w ignore ;; okP (word, [])
          | DicFlags w rest =>
              flags <~ decode_flagset (take_nonws rest) t aliases ;;
              word <- ignore_chars w ignore ;;
              okP (word, flags)
          end
    end.

(** ** COMPOUNDRULE patterns *)

(** The four copies of the modifier match (parser.rs 1388-1398 etc.). *)
Definition take_modifier (cs : str) : option rule_mod * str :=
  match cs with
  | c :: r => if (c =? 63)%N then (Some ZeroOrOne, r)
              else if (c =? 42)%N then (Some ZeroOrMore, r) else (None, cs)
  | [] => (None, cs)
  end.

Definition lift_flag (r : result N flag_error) (rest : str) : result (N * str) rule_error :=
  match r with Ok f => Ok (f, rest) | Err e => Err (RuleFlag e) end.

(** The loop over the digits of a numeric element (parser.rs 1483-1497); [number] is
    reversed. *)
Fixpoint rule_digits (cs number : str) : result (N * str) rule_error :=
  match cs with
  | d :: cs' =>
      if (48 <=? d)%N && (d <=? 57)%N then rule_digits cs' (d :: number)
      else if (d =? 41)%N && nonempty number then
        match parse_u16 (rev number) with
        | Err e => Err (RuleFlag (FlagInt e))
        | Ok n => lift_flag (try_flag_from_u16 n) cs'
        end
      else Err RuleFormat
  | [] => Err RuleFormat
  end.

(** The flag of the next element, [c :: cs] being the rest of the pattern
    (parser.rs 1380-1386, 1407-1411, 1432-1457, 1480-1499). *)
Definition next_flag (t : flag_type) (c : N) (cs : str) : result (N * str) rule_error :=
  match t with
  | FShort =>
      if (128 <=? c)%N then Err (RuleFlag (NonAscii c))
      else if (c =? 63)%N || (c =? 42)%N then Err RuleFormat
      else lift_flag (try_flag_from_u16 c) cs
  | FUtf8 =>
      if (c =? 63)%N || (c =? 42)%N then Err RuleFormat
      else lift_flag (try_flag_from_char c) cs
  | FLong =>
      if (c =? 40)%N then
        match cs with
        | [] => Err RuleFormat
        | c1 :: cs1 =>
            if (128 <=? c1)%N then Err (RuleFlag (NonAscii c1))
            else if (c1 =? 41)%N then Err RuleFormat
            else match cs1 with
                 | [] => Err RuleFormat
                 | c2 :: cs2 =>
                     if (128 <=? c2)%N then Err (RuleFlag (NonAscii c2))
                     else if (c2 =? 41)%N then Err RuleFormat
                     else match cs2 with
                          | c3 :: cs3 =>
                              if (c3 =? 41)%N then lift_flag (try_flag_from_u16 (from_ne_bytes le c1 c2)) cs3
                              else Err RuleFormat
                          | [] => Err RuleFormat
                          end
                 end
        end
      else Err RuleFormat
  | FNumeric =>
      if (c =? 40)%N then
        rule_digits cs []
      else Err RuleFormat
  end.

(** The element loops of [parse_compound_rule] (parser.rs 1362-1519). *)
Fixpoint rule_go (fuel : nat) (t : flag_type) (cs : str) : P rule_error rule :=
  match fuel with
  | O => NoFuel
  | S fuel' =>
      match cs with
      | [] => okP []
      | c :: cs' =>
          r <~ Ret (next_flag t c cs') ;;
          let '(f, cs1) := r in
          let '(m, cs2) := take_modifier cs1 in
          es <~ rule_go fuel' t cs2 ;;
          okP (mkRuleElem f m :: es)
      end
  end.
Definition parse_compound_rule (input : str) (t : flag_type) : P rule_error rule :=
  rule_go (S (length input)) t input.

(** ** MAP *)

(** [From<&str> for SimilarityGroup] (parser.rs 684-721). *)
Fixpoint sim_go (fuel : nat) (s chars : str) (strings : list str) : Res similarity_group :=
  match fuel with
  | O => NoFuel
  | S fuel' =>
      match find_char (N.eqb 40) s with
      | None => Ret (mkSim (chars ++ s) strings)
      | Some j =>
          let chars1 := chars ++ firstn j s in
          let s1 := skipn (j + 1) s in
          match find_char (N.eqb 41) s1 with
          | None => Ret (mkSim chars1 strings)
          | Some j1 =>
              let substr := firstn j1 s1 in
              let s2 := skipn (j1 + 1) s1 in
              match substr with
              | [] | [_] => sim_go fuel' s2 (chars1 ++ substr) strings
              | _ => sim_go fuel' s2 chars1 (strings ++ [substr])
              end
          end
      end
  end.
Definition similarity_group_from (s : str) : Res similarity_group := sim_go (S (length s)) s [] [].

(** ** The line cursor *)

(** [str::lines]: split at line feeds, dropping one carriage return before each and an
    empty last line. *)
Definition strip_cr (rcur : str) : str :=
  match rcur with c :: r => if (c =? 13)%N then rev r else rev rcur | [] => [] end.
Fixpoint lines_go (w cur : str) : list str :=
  match w with
  | [] => match cur with [] => [] | _ => [rev cur] end
  | c :: w' => if (c =? 10)%N then strip_cr cur :: lines_go w' [] else lines_go w' (c :: cur)
  end.
Definition text_lines (w : str) : list str := lines_go w [].

(** [Enumerate]. *)
Fixpoint number_from {A} (n : N) (l : list A) : list (N * A) :=
  match l with [] => [] | x :: l' => (n, x) :: number_from (n + 1) l' end.

(** [Lines] (parser.rs 730-735). *)
Record lines := mkLines { ln_rest : list (N * str); ln_words : option (list str); ln_src : error_source }.

(** [line.trim_start().starts_with('#')]. *)
Definition is_comment (l : str) : bool := starts_with [35%N] (trim_start l).
Fixpoint skip_comments (l : list (N * str)) : list (N * str) :=
  match l with
  | [] => []
  | nl :: l' => if is_comment (snd nl) then skip_comments l' else l
  end.
Definition peek_words (l : list (N * str)) : option (list str) :=
  match l with [] => None | nl :: _ => Some (split_whitespace (snd nl)) end.

(** parser.rs 738-753. *)
Definition lines_new (text : str) (src : error_source) : lines :=
  let text := match strip_prefix [65279%N] text with Some t => t | None => text end in
  let l := skip_comments (number_from 0 (text_lines text)) in
  mkLines l (peek_words l) src.

(** parser.rs 755-757. *)
Definition is_finished (ls : lines) : bool := negb (nonempty (ln_rest ls)).

(** parser.rs 759-770. *)
Definition advance_line (ls : lines) : lines :=
  let l := skip_comments (tl (ln_rest ls)) in
  mkLines l (peek_words l) (ln_src ls).

(** parser.rs 772-774. *)
Definition cur_line (ls : lines) : option str :=
  match ln_rest ls with nl :: _ => Some (snd nl) | [] => None end.

Definition with_words (ls : lines) (w : option (list str)) : lines := mkLines (ln_rest ls) w (ln_src ls).

(** parser.rs 776-781. *)
Definition next_word (ls : lines) : lines * option str :=
  match ln_words ls with
  | Some (w :: ws) => (with_words ls (Some ws), Some w)
  | _ => (with_words ls None, None)
  end.

(** parser.rs 1039-1049. *)
Definition error {A} (ls : lines) (kd : error_kind) : P perror A :=
  errP (mkError kd (ln_src ls) (match ln_rest ls with nl :: _ => Some (fst nl + 1)%N | [] => None end)).
Definition at_line {A} (ls : lines) (x : P error_kind A) : P perror A :=
  match x with Ret (Ok a) => okP a | Ret (Err e) => error ls e | Panic => Panic | NoFuel => NoFuel end.

(** parser.rs 783-798. *)
Definition take_exactly_one_word (ls : lines) : P perror (lines * str) :=
  match ln_words ls with
  | None => error ls (MismatchedArity 1 0)
  | Some [] => error ls (MismatchedArity 1 0)
  | Some (w :: ws) => okP (with_words ls (Some ws), w)
  end.

(** [self.words.take()] followed by the arity errors: the words left on the line. *)
Definition take_words (ls : lines) : lines * list str :=
  (with_words ls None, match ln_words ls with Some ws => ws | None => [] end).

(** parser.rs 800-804. *)
Definition parse_flag (t : flag_type) (ls : lines) : P perror (lines * N) :=
  r <~ take_exactly_one_word ls ;;
  let '(ls1, w) := r in
  f <~ at_line ls1 (mapErr MalformedFlag (parse_flag_from_str t w)) ;;
  okP (ls1, f).

(** parser.rs 806-808. *)
Definition parse_bool (ls : lines) : P perror (lines * bool) := okP (ls, true).

(** parser.rs 810-814. *)
Definition parse_short (ls : lines) : P perror (lines * N) :=
  r <~ take_exactly_one_word ls ;;
  let '(ls1, w) := r in
  match parse_u16 w with Ok v => okP (ls1, v) | Err e => error ls1 (MalformedNumber e) end.

(** The row count at the head of a table (parser.rs 820-823, 864-867, 610-613). *)
Definition parse_row_count (ls : lines) : P perror (lines * N) :=
  r <~ take_exactly_one_word ls ;;
  let '(ls1, w) := r in
  match parse_usize w with Ok v => okP (ls1, v) | Err e => error ls1 (MalformedNumber e) end.

(** [for row in 1..=row_count { advance_line; check the key; body }]
    (parser.rs 825-857, 869-910, 973-1036, 615-681).  Every round consumes a line, so the
    number of lines is enough fuel. *)
Section Rows.
Context {C : Type}.
Variable key : str.
Variable body : lines -> C -> P perror (lines * C).
Fixpoint rows (fuel : nat) (row count : N) (ls : lines) (x : C) : P perror (lines * C) :=
  match fuel with
  | O => NoFuel
  | S fuel' =>
      if (count <? row)%N then okP (ls, x)
      else
        let ls1 := advance_line ls in
        if is_finished ls1 then error ls1 (MismatchedRowCount count row)
        else
          let '(ls2, w) := next_word ls1 in
          if match w with Some w => str_eqb w key | None => false end then
            r <~ body ls2 x ;;
            let '(ls3, x') := r in
            rows fuel' (row + 1) count ls3 x'
          else error ls2 (MismatchedRowCount count row)
  end.
Definition table_rows (count : N) (ls : lines) (x : C) : P perror (lines * C) :=
  rows (S (S (length (ln_rest ls)))) 1 count ls x.
End Rows.

(** parser.rs 816-858. *)
Definition parse_table1 {C} (key : str) (f : str -> C -> P error_kind C) (ls : lines) (x : C)
  : P perror (lines * C) :=
  r <~ parse_row_count ls ;;
  let '(ls1, count) := r in
  table_rows key (fun ls x =>
    let '(ls, ws) := take_words ls in
    match ws with
    | [] => error ls (MismatchedArity 1 0)
    | w :: _ => x' <~ at_line ls (f w x) ;; okP (ls, x')
    end) count ls1 x.

(** parser.rs 860-911. *)
Definition parse_table2 {C} (key : str) (f : str -> str -> C -> P error_kind C) (ls : lines) (x : C)
  : P perror (lines * C) :=
  r <~ parse_row_count ls ;;
  let '(ls1, count) := r in
  table_rows key (fun ls x =>
    let '(ls, ws) := take_words ls in
    match ws with
    | [] => error ls (MismatchedArity 2 0)
    | [_] => error ls (MismatchedArity 2 1)
    | w1 :: w2 :: _ => x' <~ at_line ls (f w1 w2 x) ;; okP (ls, x')
    end) count ls1 x.

(** ["0"]. *)
Definition zero_str : str := [48%N].

(** parser.rs 913-1037. *)
Definition parse_affix_table {C} (key : str) (t : flag_type)
  (f : N -> bool -> option str -> str -> option str -> str -> C -> P error_kind C)
  (ls : lines) (x : C) : P perror (lines * C) :=
  let '(ls, ws) := take_words ls in
  match ws with
  | [] => error ls (MismatchedArity 3 0)
  | flag_str :: ws =>
      flag <~ at_line ls (mapErr MalformedFlag (parse_flag_from_str t flag_str)) ;;
      match ws with
      | [] => error ls (MismatchedArity 3 1)
      | cp :: ws =>
          if negb (str_eqb cp (lit "Y") || str_eqb cp (lit "N")) then error ls MalformedAffix
          else
            let crossproduct := str_eqb cp (lit "Y") in
            match ws with
            | [] => error ls (MismatchedArity 3 2)
            | n :: _ =>
                match parse_usize n with
                | Err e => error ls (MalformedNumber e)
                | Ok count =>
                    table_rows key (fun ls x =>
                      let '(ls, ws) := take_words ls in
                      match ws with
                      | [] => error ls MalformedAffix
                      | fs :: ws =>
                          if negb (str_eqb fs flag_str) then error ls MalformedAffix
                          else
                            match ws with
                            | [] => error ls (MismatchedArity 3 1)
                            | [_] => error ls (MismatchedArity 3 2)
                            | st :: ad :: ws =>
                                let strip := if str_eqb st zero_str then None else Some st in
                                let '(add, flags) := split_word_and_flagset_naive ad in
                                let add := if str_eqb add zero_str then [] else add in
                                let cond := match ws with
                                            | c :: _ => if str_eqb c (lit ".") then None else Some c
                                            | [] => None
                                            end in
                                x' <~ at_line ls (f flag crossproduct strip add cond flags x) ;;
                                okP (ls, x')
                            end
                      end) count ls x
                end
            end
      end
  end.

(** ** The directive parsers *)

(** [AffLineParser] (parser.rs 41-61). *)
Record lparser := mkLP {
  x_options : options;
  x_flag_type : flag_type;
  x_aliases : list flagset;
  x_reps : list (str * str);
  x_sims : list similarity_group;
  x_iconv : list (str * str);
  x_oconv : list (str * str);
  x_breaks : list str;
  x_vowels : str;
  x_ignore : list N;
  x_try : str;
  x_keyboard : str;
  x_prefixes : list affix;
  x_suffixes : list affix;
  x_rules : list rule;
  x_patterns : list compound_pattern }.

(** parser.rs 63-86; [FlagType::default] is [Short] (aff.rs 87-91). *)
Definition default_lp : lparser :=
  mkLP default_options FShort [] [] [] [] [] [lit "^-"; lit "-"; lit "-$"] [] [] [] [] [] [] [] [].

(** Assignments to one field of [AffLineParser] and of [AffOptions]. *)
Definition upd_options v x : lparser := mkLP v (x_flag_type x) (x_aliases x) (x_reps x) (x_sims x) (x_iconv x)
    (x_oconv x) (x_breaks x) (x_vowels x) (x_ignore x) (x_try x) (x_keyboard x) (x_prefixes x) (x_suffixes x)
    (x_rules x) (x_patterns x).
Definition upd_flag_type v x : lparser := mkLP (x_options x) v (x_aliases x) (x_reps x) (x_sims x) (x_iconv x)
    (x_oconv x) (x_breaks x) (x_vowels x) (x_ignore x) (x_try x) (x_keyboard x) (x_prefixes x) (x_suffixes x)
    (x_rules x) (x_patterns x).
Definition upd_aliases v x : lparser := mkLP (x_options x) (x_flag_type x) v (x_reps x) (x_sims x) (x_iconv x)
    (x_oconv x) (x_breaks x) (x_vowels x) (x_ignore x) (x_try x) (x_keyboard x) (x_prefixes x) (x_suffixes x)
    (x_rules x) (x_patterns x).
Definition upd_reps v x : lparser := mkLP (x_options x) (x_flag_type x) (x_aliases x) v (x_sims x) (x_iconv x)
    (x_oconv x) (x_breaks x) (x_vowels x) (x_ignore x) (x_try x) (x_keyboard x) (x_prefixes x) (x_suffixes x)
    (x_rules x) (x_patterns x).
Definition upd_sims v x : lparser := mkLP (x_options x) (x_flag_type x) (x_aliases x) (x_reps x) v (x_iconv x)
    (x_oconv x) (x_breaks x) (x_vowels x) (x_ignore x) (x_try x) (x_keyboard x) (x_prefixes x) (x_suffixes x)
    (x_rules x) (x_patterns x).
Definition upd_iconv v x : lparser := mkLP (x_options x) (x_flag_type x) (x_aliases x) (x_reps x) (x_sims x) v
    (x_oconv x) (x_breaks x) (x_vowels x) (x_ignore x) (x_try x) (x_keyboard x) (x_prefixes x) (x_suffixes x)
    (x_rules x) (x_patterns x).
Definition upd_oconv v x : lparser := mkLP (x_options x) (x_flag_type x) (x_aliases x) (x_reps x) (x_sims x)
    (x_iconv x) v (x_breaks x) (x_vowels x) (x_ignore x) (x_try x) (x_keyboard x) (x_prefixes x) (x_suffixes x)
    (x_rules x) (x_patterns x).
Definition upd_breaks v x : lparser := mkLP (x_options x) (x_flag_type x) (x_aliases x) (x_reps x) (x_sims x)
    (x_iconv x) (x_oconv x) v (x_vowels x) (x_ignore x) (x_try x) (x_keyboard x) (x_prefixes x) (x_suffixes x)
    (x_rules x) (x_patterns x).
Definition upd_vowels v x : lparser := mkLP (x_options x) (x_flag_type x) (x_aliases x) (x_reps x) (x_sims x)
    (x_iconv x) (x_oconv x) (x_breaks x) v (x_ignore x) (x_try x) (x_keyboard x) (x_prefixes x) (x_suffixes x)
    (x_rules x) (x_patterns x).
Definition upd_ignore v x : lparser := mkLP (x_options x) (x_flag_type x) (x_aliases x) (x_reps x) (x_sims x)
    (x_iconv x) (x_oconv x) (x_breaks x) (x_vowels x) v (x_try x) (x_keyboard x) (x_prefixes x) (x_suffixes x)
    (x_rules x) (x_patterns x).
Definition upd_try v x : lparser := mkLP (x_options x) (x_flag_type x) (x_aliases x) (x_reps x) (x_sims x)
    (x_iconv x) (x_oconv x) (x_breaks x) (x_vowels x) (x_ignore x) v (x_keyboard x) (x_prefixes x) (x_suffixes x)
    (x_rules x) (x_patterns x).
Definition upd_keyboard v x : lparser := mkLP (x_options x) (x_flag_type x) (x_aliases x) (x_reps x) (x_sims
    x) (x_iconv x) (x_oconv x) (x_breaks x) (x_vowels x) (x_ignore x) (x_try x) v (x_prefixes x) (x_suffixes x)
    (x_rules x) (x_patterns x).
Definition upd_prefixes v x : lparser := mkLP (x_options x) (x_flag_type x) (x_aliases x) (x_reps x) (x_sims
    x) (x_iconv x) (x_oconv x) (x_breaks x) (x_vowels x) (x_ignore x) (x_try x) (x_keyboard x) v (x_suffixes x)
    (x_rules x) (x_patterns x).
Definition upd_suffixes v x : lparser := mkLP (x_options x) (x_flag_type x) (x_aliases x) (x_reps x) (x_sims
    x) (x_iconv x) (x_oconv x) (x_breaks x) (x_vowels x) (x_ignore x) (x_try x) (x_keyboard x) (x_prefixes x) v
    (x_rules x) (x_patterns x).
Definition upd_rules v x : lparser := mkLP (x_options x) (x_flag_type x) (x_aliases x) (x_reps x) (x_sims x)
    (x_iconv x) (x_oconv x) (x_breaks x) (x_vowels x) (x_ignore x) (x_try x) (x_keyboard x) (x_prefixes x)
    (x_suffixes x) v (x_patterns x).
Definition upd_patterns v x : lparser := mkLP (x_options x) (x_flag_type x) (x_aliases x) (x_reps x) (x_sims
    x) (x_iconv x) (x_oconv x) (x_breaks x) (x_vowels x) (x_ignore x) (x_try x) (x_keyboard x) (x_prefixes x)
    (x_suffixes x) (x_rules x) v.
Definition set_complex_prefixes v o : options := mkOptions v (o_fullstrip o) (o_checksharps o) (o_forbid_warn
    o) (o_only_in_compound o) (o_circumfix o) (o_forbidden o) (o_keep_case o) (o_need_affix o) (o_warn o)
    (o_compound o) (o_compound_begin o) (o_compound_middle o) (o_compound_end o) (o_min_length o) (o_max_words o)
    (o_permit o) (o_forbid o) (o_root o) (o_force_upper o) (o_more_suffixes o) (o_check_duplicate o) (o_check_rep
    o) (o_check_case o) (o_check_triple o) (o_simplified_triple o) (o_syllable_num o) (o_syllable_max o)
    (o_max_cpd_sugs o) (o_no_suggest o) (o_substandard o) (o_max_ngram o) (o_max_diff o) (o_only_max_diff o)
    (o_no_split_sugs o) (o_sugs_with_dots o) (o_case o).
Definition set_fullstrip v o : options := mkOptions (o_complex_prefixes o) v (o_checksharps o) (o_forbid_warn
    o) (o_only_in_compound o) (o_circumfix o) (o_forbidden o) (o_keep_case o) (o_need_affix o) (o_warn o)
    (o_compound o) (o_compound_begin o) (o_compound_middle o) (o_compound_end o) (o_min_length o) (o_max_words o)
    (o_permit o) (o_forbid o) (o_root o) (o_force_upper o) (o_more_suffixes o) (o_check_duplicate o) (o_check_rep
    o) (o_check_case o) (o_check_triple o) (o_simplified_triple o) (o_syllable_num o) (o_syllable_max o)
    (o_max_cpd_sugs o) (o_no_suggest o) (o_substandard o) (o_max_ngram o) (o_max_diff o) (o_only_max_diff o)
    (o_no_split_sugs o) (o_sugs_with_dots o) (o_case o).
Definition set_checksharps v o : options := mkOptions (o_complex_prefixes o) (o_fullstrip o) v (o_forbid_warn
    o) (o_only_in_compound o) (o_circumfix o) (o_forbidden o) (o_keep_case o) (o_need_affix o) (o_warn o)
    (o_compound o) (o_compound_begin o) (o_compound_middle o) (o_compound_end o) (o_min_length o) (o_max_words o)
    (o_permit o) (o_forbid o) (o_root o) (o_force_upper o) (o_more_suffixes o) (o_check_duplicate o) (o_check_rep
    o) (o_check_case o) (o_check_triple o) (o_simplified_triple o) (o_syllable_num o) (o_syllable_max o)
    (o_max_cpd_sugs o) (o_no_suggest o) (o_substandard o) (o_max_ngram o) (o_max_diff o) (o_only_max_diff o)
    (o_no_split_sugs o) (o_sugs_with_dots o) (o_case o).
Definition set_forbid_warn v o : options := mkOptions (o_complex_prefixes o) (o_fullstrip o) (o_checksharps o)
    v (o_only_in_compound o) (o_circumfix o) (o_forbidden o) (o_keep_case o) (o_need_affix o) (o_warn o)
    (o_compound o) (o_compound_begin o) (o_compound_middle o) (o_compound_end o) (o_min_length o) (o_max_words o)
    (o_permit o) (o_forbid o) (o_root o) (o_force_upper o) (o_more_suffixes o) (o_check_duplicate o) (o_check_rep
    o) (o_check_case o) (o_check_triple o) (o_simplified_triple o) (o_syllable_num o) (o_syllable_max o)
    (o_max_cpd_sugs o) (o_no_suggest o) (o_substandard o) (o_max_ngram o) (o_max_diff o) (o_only_max_diff o)
    (o_no_split_sugs o) (o_sugs_with_dots o) (o_case o).
Definition set_only_in_compound v o : options := mkOptions (o_complex_prefixes o) (o_fullstrip o)
    (o_checksharps o) (o_forbid_warn o) v (o_circumfix o) (o_forbidden o) (o_keep_case o) (o_need_affix o) (o_warn
    o) (o_compound o) (o_compound_begin o) (o_compound_middle o) (o_compound_end o) (o_min_length o) (o_max_words
    o) (o_permit o) (o_forbid o) (o_root o) (o_force_upper o) (o_more_suffixes o) (o_check_duplicate o)
    (o_check_rep o) (o_check_case o) (o_check_triple o) (o_simplified_triple o) (o_syllable_num o) (o_syllable_max
    o) (o_max_cpd_sugs o) (o_no_suggest o) (o_substandard o) (o_max_ngram o) (o_max_diff o) (o_only_max_diff o)
    (o_no_split_sugs o) (o_sugs_with_dots o) (o_case o).
Definition set_circumfix v o : options := mkOptions (o_complex_prefixes o) (o_fullstrip o) (o_checksharps o)
    (o_forbid_warn o) (o_only_in_compound o) v (o_forbidden o) (o_keep_case o) (o_need_affix o) (o_warn o)
    (o_compound o) (o_compound_begin o) (o_compound_middle o) (o_compound_end o) (o_min_length o) (o_max_words o)
    (o_permit o) (o_forbid o) (o_root o) (o_force_upper o) (o_more_suffixes o) (o_check_duplicate o) (o_check_rep
    o) (o_check_case o) (o_check_triple o) (o_simplified_triple o) (o_syllable_num o) (o_syllable_max o)
    (o_max_cpd_sugs o) (o_no_suggest o) (o_substandard o) (o_max_ngram o) (o_max_diff o) (o_only_max_diff o)
    (o_no_split_sugs o) (o_sugs_with_dots o) (o_case o).
Definition set_forbidden v o : options := mkOptions (o_complex_prefixes o) (o_fullstrip o) (o_checksharps o)
    (o_forbid_warn o) (o_only_in_compound o) (o_circumfix o) v (o_keep_case o) (o_need_affix o) (o_warn o)
    (o_compound o) (o_compound_begin o) (o_compound_middle o) (o_compound_end o) (o_min_length o) (o_max_words o)
    (o_permit o) (o_forbid o) (o_root o) (o_force_upper o) (o_more_suffixes o) (o_check_duplicate o) (o_check_rep
    o) (o_check_case o) (o_check_triple o) (o_simplified_triple o) (o_syllable_num o) (o_syllable_max o)
    (o_max_cpd_sugs o) (o_no_suggest o) (o_substandard o) (o_max_ngram o) (o_max_diff o) (o_only_max_diff o)
    (o_no_split_sugs o) (o_sugs_with_dots o) (o_case o).
Definition set_keep_case v o : options := mkOptions (o_complex_prefixes o) (o_fullstrip o) (o_checksharps o)
    (o_forbid_warn o) (o_only_in_compound o) (o_circumfix o) (o_forbidden o) v (o_need_affix o) (o_warn o)
    (o_compound o) (o_compound_begin o) (o_compound_middle o) (o_compound_end o) (o_min_length o) (o_max_words o)
    (o_permit o) (o_forbid o) (o_root o) (o_force_upper o) (o_more_suffixes o) (o_check_duplicate o) (o_check_rep
    o) (o_check_case o) (o_check_triple o) (o_simplified_triple o) (o_syllable_num o) (o_syllable_max o)
    (o_max_cpd_sugs o) (o_no_suggest o) (o_substandard o) (o_max_ngram o) (o_max_diff o) (o_only_max_diff o)
    (o_no_split_sugs o) (o_sugs_with_dots o) (o_case o).
Definition set_need_affix v o : options := mkOptions (o_complex_prefixes o) (o_fullstrip o) (o_checksharps o)
    (o_forbid_warn o) (o_only_in_compound o) (o_circumfix o) (o_forbidden o) (o_keep_case o) v (o_warn o)
    (o_compound o) (o_compound_begin o) (o_compound_middle o) (o_compound_end o) (o_min_length o) (o_max_words o)
    (o_permit o) (o_forbid o) (o_root o) (o_force_upper o) (o_more_suffixes o) (o_check_duplicate o) (o_check_rep
    o) (o_check_case o) (o_check_triple o) (o_simplified_triple o) (o_syllable_num o) (o_syllable_max o)
    (o_max_cpd_sugs o) (o_no_suggest o) (o_substandard o) (o_max_ngram o) (o_max_diff o) (o_only_max_diff o)
    (o_no_split_sugs o) (o_sugs_with_dots o) (o_case o).
Definition set_warn v o : options := mkOptions (o_complex_prefixes o) (o_fullstrip o) (o_checksharps o)
    (o_forbid_warn o) (o_only_in_compound o) (o_circumfix o) (o_forbidden o) (o_keep_case o) (o_need_affix o) v
    (o_compound o) (o_compound_begin o) (o_compound_middle o) (o_compound_end o) (o_min_length o) (o_max_words o)
    (o_permit o) (o_forbid o) (o_root o) (o_force_upper o) (o_more_suffixes o) (o_check_duplicate o) (o_check_rep
    o) (o_check_case o) (o_check_triple o) (o_simplified_triple o) (o_syllable_num o) (o_syllable_max o)
    (o_max_cpd_sugs o) (o_no_suggest o) (o_substandard o) (o_max_ngram o) (o_max_diff o) (o_only_max_diff o)
    (o_no_split_sugs o) (o_sugs_with_dots o) (o_case o).
Definition set_compound v o : options := mkOptions (o_complex_prefixes o) (o_fullstrip o) (o_checksharps o)
    (o_forbid_warn o) (o_only_in_compound o) (o_circumfix o) (o_forbidden o) (o_keep_case o) (o_need_affix o)
    (o_warn o) v (o_compound_begin o) (o_compound_middle o) (o_compound_end o) (o_min_length o) (o_max_words o)
    (o_permit o) (o_forbid o) (o_root o) (o_force_upper o) (o_more_suffixes o) (o_check_duplicate o) (o_check_rep
    o) (o_check_case o) (o_check_triple o) (o_simplified_triple o) (o_syllable_num o) (o_syllable_max o)
    (o_max_cpd_sugs o) (o_no_suggest o) (o_substandard o) (o_max_ngram o) (o_max_diff o) (o_only_max_diff o)
    (o_no_split_sugs o) (o_sugs_with_dots o) (o_case o).
Definition set_compound_begin v o : options := mkOptions (o_complex_prefixes o) (o_fullstrip o) (o_checksharps
    o) (o_forbid_warn o) (o_only_in_compound o) (o_circumfix o) (o_forbidden o) (o_keep_case o) (o_need_affix o)
    (o_warn o) (o_compound o) v (o_compound_middle o) (o_compound_end o) (o_min_length o) (o_max_words o)
    (o_permit o) (o_forbid o) (o_root o) (o_force_upper o) (o_more_suffixes o) (o_check_duplicate o) (o_check_rep
    o) (o_check_case o) (o_check_triple o) (o_simplified_triple o) (o_syllable_num o) (o_syllable_max o)
    (o_max_cpd_sugs o) (o_no_suggest o) (o_substandard o) (o_max_ngram o) (o_max_diff o) (o_only_max_diff o)
    (o_no_split_sugs o) (o_sugs_with_dots o) (o_case o).
Definition set_compound_middle v o : options := mkOptions (o_complex_prefixes o) (o_fullstrip o)
    (o_checksharps o) (o_forbid_warn o) (o_only_in_compound o) (o_circumfix o) (o_forbidden o) (o_keep_case o)
    (o_need_affix o) (o_warn o) (o_compound o) (o_compound_begin o) v (o_compound_end o) (o_min_length o)
    (o_max_words o) (o_permit o) (o_forbid o) (o_root o) (o_force_upper o) (o_more_suffixes o) (o_check_duplicate
    o) (o_check_rep o) (o_check_case o) (o_check_triple o) (o_simplified_triple o) (o_syllable_num o)
    (o_syllable_max o) (o_max_cpd_sugs o) (o_no_suggest o) (o_substandard o) (o_max_ngram o) (o_max_diff o)
    (o_only_max_diff o) (o_no_split_sugs o) (o_sugs_with_dots o) (o_case o).
Definition set_compound_end v o : options := mkOptions (o_complex_prefixes o) (o_fullstrip o) (o_checksharps
    o) (o_forbid_warn o) (o_only_in_compound o) (o_circumfix o) (o_forbidden o) (o_keep_case o) (o_need_affix o)
    (o_warn o) (o_compound o) (o_compound_begin o) (o_compound_middle o) v (o_min_length o) (o_max_words o)
    (o_permit o) (o_forbid o) (o_root o) (o_force_upper o) (o_more_suffixes o) (o_check_duplicate o) (o_check_rep
    o) (o_check_case o) (o_check_triple o) (o_simplified_triple o) (o_syllable_num o) (o_syllable_max o)
    (o_max_cpd_sugs o) (o_no_suggest o) (o_substandard o) (o_max_ngram o) (o_max_diff o) (o_only_max_diff o)
    (o_no_split_sugs o) (o_sugs_with_dots o) (o_case o).
Definition set_min_length v o : options := mkOptions (o_complex_prefixes o) (o_fullstrip o) (o_checksharps o)
    (o_forbid_warn o) (o_only_in_compound o) (o_circumfix o) (o_forbidden o) (o_keep_case o) (o_need_affix o)
    (o_warn o) (o_compound o) (o_compound_begin o) (o_compound_middle o) (o_compound_end o) v (o_max_words o)
    (o_permit o) (o_forbid o) (o_root o) (o_force_upper o) (o_more_suffixes o) (o_check_duplicate o) (o_check_rep
    o) (o_check_case o) (o_check_triple o) (o_simplified_triple o) (o_syllable_num o) (o_syllable_max o)
    (o_max_cpd_sugs o) (o_no_suggest o) (o_substandard o) (o_max_ngram o) (o_max_diff o) (o_only_max_diff o)
    (o_no_split_sugs o) (o_sugs_with_dots o) (o_case o).
Definition set_max_words v o : options := mkOptions (o_complex_prefixes o) (o_fullstrip o) (o_checksharps o)
    (o_forbid_warn o) (o_only_in_compound o) (o_circumfix o) (o_forbidden o) (o_keep_case o) (o_need_affix o)
    (o_warn o) (o_compound o) (o_compound_begin o) (o_compound_middle o) (o_compound_end o) (o_min_length o) v
    (o_permit o) (o_forbid o) (o_root o) (o_force_upper o) (o_more_suffixes o) (o_check_duplicate o) (o_check_rep
    o) (o_check_case o) (o_check_triple o) (o_simplified_triple o) (o_syllable_num o) (o_syllable_max o)
    (o_max_cpd_sugs o) (o_no_suggest o) (o_substandard o) (o_max_ngram o) (o_max_diff o) (o_only_max_diff o)
    (o_no_split_sugs o) (o_sugs_with_dots o) (o_case o).
Definition set_permit v o : options := mkOptions (o_complex_prefixes o) (o_fullstrip o) (o_checksharps o)
    (o_forbid_warn o) (o_only_in_compound o) (o_circumfix o) (o_forbidden o) (o_keep_case o) (o_need_affix o)
    (o_warn o) (o_compound o) (o_compound_begin o) (o_compound_middle o) (o_compound_end o) (o_min_length o)
    (o_max_words o) v (o_forbid o) (o_root o) (o_force_upper o) (o_more_suffixes o) (o_check_duplicate o)
    (o_check_rep o) (o_check_case o) (o_check_triple o) (o_simplified_triple o) (o_syllable_num o) (o_syllable_max
    o) (o_max_cpd_sugs o) (o_no_suggest o) (o_substandard o) (o_max_ngram o) (o_max_diff o) (o_only_max_diff o)
    (o_no_split_sugs o) (o_sugs_with_dots o) (o_case o).
Definition set_forbid v o : options := mkOptions (o_complex_prefixes o) (o_fullstrip o) (o_checksharps o)
    (o_forbid_warn o) (o_only_in_compound o) (o_circumfix o) (o_forbidden o) (o_keep_case o) (o_need_affix o)
    (o_warn o) (o_compound o) (o_compound_begin o) (o_compound_middle o) (o_compound_end o) (o_min_length o)
    (o_max_words o) (o_permit o) v (o_root o) (o_force_upper o) (o_more_suffixes o) (o_check_duplicate o)
    (o_check_rep o) (o_check_case o) (o_check_triple o) (o_simplified_triple o) (o_syllable_num o) (o_syllable_max
    o) (o_max_cpd_sugs o) (o_no_suggest o) (o_substandard o) (o_max_ngram o) (o_max_diff o) (o_only_max_diff o)
    (o_no_split_sugs o) (o_sugs_with_dots o) (o_case o).
Definition set_root v o : options := mkOptions (o_complex_prefixes o) (o_fullstrip o) (o_checksharps o)
    (o_forbid_warn o) (o_only_in_compound o) (o_circumfix o) (o_forbidden o) (o_keep_case o) (o_need_affix o)
    (o_warn o) (o_compound o) (o_compound_begin o) (o_compound_middle o) (o_compound_end o) (o_min_length o)
    (o_max_words o) (o_permit o) (o_forbid o) v (o_force_upper o) (o_more_suffixes o) (o_check_duplicate o)
    (o_check_rep o) (o_check_case o) (o_check_triple o) (o_simplified_triple o) (o_syllable_num o) (o_syllable_max
    o) (o_max_cpd_sugs o) (o_no_suggest o) (o_substandard o) (o_max_ngram o) (o_max_diff o) (o_only_max_diff o)
    (o_no_split_sugs o) (o_sugs_with_dots o) (o_case o).
Definition set_force_upper v o : options := mkOptions (o_complex_prefixes o) (o_fullstrip o) (o_checksharps o)
    (o_forbid_warn o) (o_only_in_compound o) (o_circumfix o) (o_forbidden o) (o_keep_case o) (o_need_affix o)
    (o_warn o) (o_compound o) (o_compound_begin o) (o_compound_middle o) (o_compound_end o) (o_min_length o)
    (o_max_words o) (o_permit o) (o_forbid o) (o_root o) v (o_more_suffixes o) (o_check_duplicate o) (o_check_rep
    o) (o_check_case o) (o_check_triple o) (o_simplified_triple o) (o_syllable_num o) (o_syllable_max o)
    (o_max_cpd_sugs o) (o_no_suggest o) (o_substandard o) (o_max_ngram o) (o_max_diff o) (o_only_max_diff o)
    (o_no_split_sugs o) (o_sugs_with_dots o) (o_case o).
Definition set_more_suffixes v o : options := mkOptions (o_complex_prefixes o) (o_fullstrip o) (o_checksharps
    o) (o_forbid_warn o) (o_only_in_compound o) (o_circumfix o) (o_forbidden o) (o_keep_case o) (o_need_affix o)
    (o_warn o) (o_compound o) (o_compound_begin o) (o_compound_middle o) (o_compound_end o) (o_min_length o)
    (o_max_words o) (o_permit o) (o_forbid o) (o_root o) (o_force_upper o) v (o_check_duplicate o) (o_check_rep o)
    (o_check_case o) (o_check_triple o) (o_simplified_triple o) (o_syllable_num o) (o_syllable_max o)
    (o_max_cpd_sugs o) (o_no_suggest o) (o_substandard o) (o_max_ngram o) (o_max_diff o) (o_only_max_diff o)
    (o_no_split_sugs o) (o_sugs_with_dots o) (o_case o).
Definition set_check_duplicate v o : options := mkOptions (o_complex_prefixes o) (o_fullstrip o)
    (o_checksharps o) (o_forbid_warn o) (o_only_in_compound o) (o_circumfix o) (o_forbidden o) (o_keep_case o)
    (o_need_affix o) (o_warn o) (o_compound o) (o_compound_begin o) (o_compound_middle o) (o_compound_end o)
    (o_min_length o) (o_max_words o) (o_permit o) (o_forbid o) (o_root o) (o_force_upper o) (o_more_suffixes o) v
    (o_check_rep o) (o_check_case o) (o_check_triple o) (o_simplified_triple o) (o_syllable_num o) (o_syllable_max
    o) (o_max_cpd_sugs o) (o_no_suggest o) (o_substandard o) (o_max_ngram o) (o_max_diff o) (o_only_max_diff o)
    (o_no_split_sugs o) (o_sugs_with_dots o) (o_case o).
Definition set_check_rep v o : options := mkOptions (o_complex_prefixes o) (o_fullstrip o) (o_checksharps o)
    (o_forbid_warn o) (o_only_in_compound o) (o_circumfix o) (o_forbidden o) (o_keep_case o) (o_need_affix o)
    (o_warn o) (o_compound o) (o_compound_begin o) (o_compound_middle o) (o_compound_end o) (o_min_length o)
    (o_max_words o) (o_permit o) (o_forbid o) (o_root o) (o_force_upper o) (o_more_suffixes o) (o_check_duplicate
    o) v (o_check_case o) (o_check_triple o) (o_simplified_triple o) (o_syllable_num o) (o_syllable_max o)
    (o_max_cpd_sugs o) (o_no_suggest o) (o_substandard o) (o_max_ngram o) (o_max_diff o) (o_only_max_diff o)
    (o_no_split_sugs o) (o_sugs_with_dots o) (o_case o).
Definition set_check_case v o : options := mkOptions (o_complex_prefixes o) (o_fullstrip o) (o_checksharps o)
    (o_forbid_warn o) (o_only_in_compound o) (o_circumfix o) (o_forbidden o) (o_keep_case o) (o_need_affix o)
    (o_warn o) (o_compound o) (o_compound_begin o) (o_compound_middle o) (o_compound_end o) (o_min_length o)
    (o_max_words o) (o_permit o) (o_forbid o) (o_root o) (o_force_upper o) (o_more_suffixes o) (o_check_duplicate
    o) (o_check_rep o) v (o_check_triple o) (o_simplified_triple o) (o_syllable_num o) (o_syllable_max o)
    (o_max_cpd_sugs o) (o_no_suggest o) (o_substandard o) (o_max_ngram o) (o_max_diff o) (o_only_max_diff o)
    (o_no_split_sugs o) (o_sugs_with_dots o) (o_case o).
Definition set_check_triple v o : options := mkOptions (o_complex_prefixes o) (o_fullstrip o) (o_checksharps
    o) (o_forbid_warn o) (o_only_in_compound o) (o_circumfix o) (o_forbidden o) (o_keep_case o) (o_need_affix o)
    (o_warn o) (o_compound o) (o_compound_begin o) (o_compound_middle o) (o_compound_end o) (o_min_length o)
    (o_max_words o) (o_permit o) (o_forbid o) (o_root o) (o_force_upper o) (o_more_suffixes o) (o_check_duplicate
    o) (o_check_rep o) (o_check_case o) v (o_simplified_triple o) (o_syllable_num o) (o_syllable_max o)
    (o_max_cpd_sugs o) (o_no_suggest o) (o_substandard o) (o_max_ngram o) (o_max_diff o) (o_only_max_diff o)
    (o_no_split_sugs o) (o_sugs_with_dots o) (o_case o).
Definition set_simplified_triple v o : options := mkOptions (o_complex_prefixes o) (o_fullstrip o)
    (o_checksharps o) (o_forbid_warn o) (o_only_in_compound o) (o_circumfix o) (o_forbidden o) (o_keep_case o)
    (o_need_affix o) (o_warn o) (o_compound o) (o_compound_begin o) (o_compound_middle o) (o_compound_end o)
    (o_min_length o) (o_max_words o) (o_permit o) (o_forbid o) (o_root o) (o_force_upper o) (o_more_suffixes o)
    (o_check_duplicate o) (o_check_rep o) (o_check_case o) (o_check_triple o) v (o_syllable_num o) (o_syllable_max
    o) (o_max_cpd_sugs o) (o_no_suggest o) (o_substandard o) (o_max_ngram o) (o_max_diff o) (o_only_max_diff o)
    (o_no_split_sugs o) (o_sugs_with_dots o) (o_case o).
Definition set_syllable_num v o : options := mkOptions (o_complex_prefixes o) (o_fullstrip o) (o_checksharps
    o) (o_forbid_warn o) (o_only_in_compound o) (o_circumfix o) (o_forbidden o) (o_keep_case o) (o_need_affix o)
    (o_warn o) (o_compound o) (o_compound_begin o) (o_compound_middle o) (o_compound_end o) (o_min_length o)
    (o_max_words o) (o_permit o) (o_forbid o) (o_root o) (o_force_upper o) (o_more_suffixes o) (o_check_duplicate
    o) (o_check_rep o) (o_check_case o) (o_check_triple o) (o_simplified_triple o) v (o_syllable_max o)
    (o_max_cpd_sugs o) (o_no_suggest o) (o_substandard o) (o_max_ngram o) (o_max_diff o) (o_only_max_diff o)
    (o_no_split_sugs o) (o_sugs_with_dots o) (o_case o).
Definition set_syllable_max v o : options := mkOptions (o_complex_prefixes o) (o_fullstrip o) (o_checksharps
    o) (o_forbid_warn o) (o_only_in_compound o) (o_circumfix o) (o_forbidden o) (o_keep_case o) (o_need_affix o)
    (o_warn o) (o_compound o) (o_compound_begin o) (o_compound_middle o) (o_compound_end o) (o_min_length o)
    (o_max_words o) (o_permit o) (o_forbid o) (o_root o) (o_force_upper o) (o_more_suffixes o) (o_check_duplicate
    o) (o_check_rep o) (o_check_case o) (o_check_triple o) (o_simplified_triple o) (o_syllable_num o) v
    (o_max_cpd_sugs o) (o_no_suggest o) (o_substandard o) (o_max_ngram o) (o_max_diff o) (o_only_max_diff o)
    (o_no_split_sugs o) (o_sugs_with_dots o) (o_case o).
Definition set_max_cpd_sugs v o : options := mkOptions (o_complex_prefixes o) (o_fullstrip o) (o_checksharps
    o) (o_forbid_warn o) (o_only_in_compound o) (o_circumfix o) (o_forbidden o) (o_keep_case o) (o_need_affix o)
    (o_warn o) (o_compound o) (o_compound_begin o) (o_compound_middle o) (o_compound_end o) (o_min_length o)
    (o_max_words o) (o_permit o) (o_forbid o) (o_root o) (o_force_upper o) (o_more_suffixes o) (o_check_duplicate
    o) (o_check_rep o) (o_check_case o) (o_check_triple o) (o_simplified_triple o) (o_syllable_num o)
    (o_syllable_max o) v (o_no_suggest o) (o_substandard o) (o_max_ngram o) (o_max_diff o) (o_only_max_diff o)
    (o_no_split_sugs o) (o_sugs_with_dots o) (o_case o).
Definition set_no_suggest v o : options := mkOptions (o_complex_prefixes o) (o_fullstrip o) (o_checksharps o)
    (o_forbid_warn o) (o_only_in_compound o) (o_circumfix o) (o_forbidden o) (o_keep_case o) (o_need_affix o)
    (o_warn o) (o_compound o) (o_compound_begin o) (o_compound_middle o) (o_compound_end o) (o_min_length o)
    (o_max_words o) (o_permit o) (o_forbid o) (o_root o) (o_force_upper o) (o_more_suffixes o) (o_check_duplicate
    o) (o_check_rep o) (o_check_case o) (o_check_triple o) (o_simplified_triple o) (o_syllable_num o)
    (o_syllable_max o) (o_max_cpd_sugs o) v (o_substandard o) (o_max_ngram o) (o_max_diff o) (o_only_max_diff o)
    (o_no_split_sugs o) (o_sugs_with_dots o) (o_case o).
Definition set_substandard v o : options := mkOptions (o_complex_prefixes o) (o_fullstrip o) (o_checksharps o)
    (o_forbid_warn o) (o_only_in_compound o) (o_circumfix o) (o_forbidden o) (o_keep_case o) (o_need_affix o)
    (o_warn o) (o_compound o) (o_compound_begin o) (o_compound_middle o) (o_compound_end o) (o_min_length o)
    (o_max_words o) (o_permit o) (o_forbid o) (o_root o) (o_force_upper o) (o_more_suffixes o) (o_check_duplicate
    o) (o_check_rep o) (o_check_case o) (o_check_triple o) (o_simplified_triple o) (o_syllable_num o)
    (o_syllable_max o) (o_max_cpd_sugs o) (o_no_suggest o) v (o_max_ngram o) (o_max_diff o) (o_only_max_diff o)
    (o_no_split_sugs o) (o_sugs_with_dots o) (o_case o).
Definition set_max_ngram v o : options := mkOptions (o_complex_prefixes o) (o_fullstrip o) (o_checksharps o)
    (o_forbid_warn o) (o_only_in_compound o) (o_circumfix o) (o_forbidden o) (o_keep_case o) (o_need_affix o)
    (o_warn o) (o_compound o) (o_compound_begin o) (o_compound_middle o) (o_compound_end o) (o_min_length o)
    (o_max_words o) (o_permit o) (o_forbid o) (o_root o) (o_force_upper o) (o_more_suffixes o) (o_check_duplicate
    o) (o_check_rep o) (o_check_case o) (o_check_triple o) (o_simplified_triple o) (o_syllable_num o)
    (o_syllable_max o) (o_max_cpd_sugs o) (o_no_suggest o) (o_substandard o) v (o_max_diff o) (o_only_max_diff o)
    (o_no_split_sugs o) (o_sugs_with_dots o) (o_case o).
Definition set_max_diff v o : options := mkOptions (o_complex_prefixes o) (o_fullstrip o) (o_checksharps o)
    (o_forbid_warn o) (o_only_in_compound o) (o_circumfix o) (o_forbidden o) (o_keep_case o) (o_need_affix o)
    (o_warn o) (o_compound o) (o_compound_begin o) (o_compound_middle o) (o_compound_end o) (o_min_length o)
    (o_max_words o) (o_permit o) (o_forbid o) (o_root o) (o_force_upper o) (o_more_suffixes o) (o_check_duplicate
    o) (o_check_rep o) (o_check_case o) (o_check_triple o) (o_simplified_triple o) (o_syllable_num o)
    (o_syllable_max o) (o_max_cpd_sugs o) (o_no_suggest o) (o_substandard o) (o_max_ngram o) v (o_only_max_diff o)
    (o_no_split_sugs o) (o_sugs_with_dots o) (o_case o).
Definition set_only_max_diff v o : options := mkOptions (o_complex_prefixes o) (o_fullstrip o) (o_checksharps
    o) (o_forbid_warn o) (o_only_in_compound o) (o_circumfix o) (o_forbidden o) (o_keep_case o) (o_need_affix o)
    (o_warn o) (o_compound o) (o_compound_begin o) (o_compound_middle o) (o_compound_end o) (o_min_length o)
    (o_max_words o) (o_permit o) (o_forbid o) (o_root o) (o_force_upper o) (o_more_suffixes o) (o_check_duplicate
    o) (o_check_rep o) (o_check_case o) (o_check_triple o) (o_simplified_triple o) (o_syllable_num o)
    (o_syllable_max o) (o_max_cpd_sugs o) (o_no_suggest o) (o_substandard o) (o_max_ngram o) (o_max_diff o) v
    (o_no_split_sugs o) (o_sugs_with_dots o) (o_case o).
Definition set_no_split_sugs v o : options := mkOptions (o_complex_prefixes o) (o_fullstrip o) (o_checksharps
    o) (o_forbid_warn o) (o_only_in_compound o) (o_circumfix o) (o_forbidden o) (o_keep_case o) (o_need_affix o)
    (o_warn o) (o_compound o) (o_compound_begin o) (o_compound_middle o) (o_compound_end o) (o_min_length o)
    (o_max_words o) (o_permit o) (o_forbid o) (o_root o) (o_force_upper o) (o_more_suffixes o) (o_check_duplicate
    o) (o_check_rep o) (o_check_case o) (o_check_triple o) (o_simplified_triple o) (o_syllable_num o)
    (o_syllable_max o) (o_max_cpd_sugs o) (o_no_suggest o) (o_substandard o) (o_max_ngram o) (o_max_diff o)
    (o_only_max_diff o) v (o_sugs_with_dots o) (o_case o).
Definition set_sugs_with_dots v o : options := mkOptions (o_complex_prefixes o) (o_fullstrip o) (o_checksharps
    o) (o_forbid_warn o) (o_only_in_compound o) (o_circumfix o) (o_forbidden o) (o_keep_case o) (o_need_affix o)
    (o_warn o) (o_compound o) (o_compound_begin o) (o_compound_middle o) (o_compound_end o) (o_min_length o)
    (o_max_words o) (o_permit o) (o_forbid o) (o_root o) (o_force_upper o) (o_more_suffixes o) (o_check_duplicate
    o) (o_check_rep o) (o_check_case o) (o_check_triple o) (o_simplified_triple o) (o_syllable_num o)
    (o_syllable_max o) (o_max_cpd_sugs o) (o_no_suggest o) (o_substandard o) (o_max_ngram o) (o_max_diff o)
    (o_only_max_diff o) (o_no_split_sugs o) v (o_case o).
Definition set_case v o : options := mkOptions (o_complex_prefixes o) (o_fullstrip o) (o_checksharps o)
    (o_forbid_warn o) (o_only_in_compound o) (o_circumfix o) (o_forbidden o) (o_keep_case o) (o_need_affix o)
    (o_warn o) (o_compound o) (o_compound_begin o) (o_compound_middle o) (o_compound_end o) (o_min_length o)
    (o_max_words o) (o_permit o) (o_forbid o) (o_root o) (o_force_upper o) (o_more_suffixes o) (o_check_duplicate
    o) (o_check_rep o) (o_check_case o) (o_check_triple o) (o_simplified_triple o) (o_syllable_num o)
    (o_syllable_max o) (o_max_cpd_sugs o) (o_no_suggest o) (o_substandard o) (o_max_ngram o) (o_max_diff o)
    (o_only_max_diff o) (o_no_split_sugs o) (o_sugs_with_dots o) v.
Definition with_options (g : options -> options) (x : lparser) : lparser := upd_options (g (x_options x)) x.

(** [lines.parse_flag(cx).map(|flag| cx.options.F = Some(flag))] (parser.rs 261-349). *)
Definition flag_directive (g : option N -> options -> options) (x : lparser) (ls : lines)
  : P perror (lines * lparser) :=
  r <~ parse_flag (x_flag_type x) ls ;;
  let '(ls1, f) := r in okP (ls1, with_options (g (Some f)) x).

(** [lines.parse_bool().map(|b| cx.options.F = b)] (parser.rs 351-421). *)
Definition bool_directive (g : bool -> options -> options) (x : lparser) (ls : lines)
  : P perror (lines * lparser) :=
  r <~ parse_bool ls ;;
  let '(ls1, b) := r in okP (ls1, with_options (g b) x).

(** [lines.parse_short().map(...)] (parser.rs 423-451). *)
Definition short_directive (g : N -> options -> options) (x : lparser) (ls : lines)
  : P perror (lines * lparser) :=
  r <~ parse_short ls ;;
  let '(ls1, v) := r in okP (ls1, with_options (g v) x).

(** [lines.take_exactly_one_word().map(...)] (parser.rs 453-479). *)
Definition word_directive (g : str -> lparser -> lparser) (x : lparser) (ls : lines)
  : P perror (lines * lparser) :=
  r <~ take_exactly_one_word ls ;;
  let '(ls1, w) := r in okP (ls1, g w x).

(** parser.rs 247-253; [FromStr for FlagType] (parser.rs 1625-1636). *)
Definition parse_flag_type (x : lparser) (ls : lines) : P perror (lines * lparser) :=
  r <~ take_exactly_one_word ls ;;
  let '(ls1, w) := r in
  if str_eqb w (lit "long") then okP (ls1, upd_flag_type FLong x)
  else if str_eqb w (lit "num") then okP (ls1, upd_flag_type FNumeric x)
  else if str_eqb w (lit "UTF-8") then okP (ls1, upd_flag_type FUtf8 x)
  else error ls1 (UnknownFlagType w).

(** parser.rs 255-259. *)
Definition parse_forbidden_word_flag (x : lparser) (ls : lines) : P perror (lines * lparser) :=
  r <~ parse_flag (x_flag_type x) ls ;;
  let '(ls1, f) := r in okP (ls1, with_options (set_forbidden f) x).

(** [NonZeroU16::new]. *)
Definition nonzero (v : N) : option N := if (v =? 0)%N then None else Some v.

(** parser.rs 471-479. *)
Definition parse_language (w : str) (x : lparser) : lparser :=
  with_options (set_case
    (if str_eqb w (lit "tr") || str_eqb w (lit "tr_TR") || str_eqb w (lit "az") || str_eqb w (lit "crh")
     then Turkic else Standard)) x.

(** parser.rs 481-486. *)
Definition parse_replacements (x : lparser) (ls : lines) : P perror (lines * lparser) :=
  parse_table2 (lit "REP")
    (fun a b x => okP (upd_reps (x_reps x ++ [(a, replace_char 95 32 b)]) x)) ls x.
(** parser.rs 488-506. *)
Definition parse_input_conversions (x : lparser) (ls : lines) : P perror (lines * lparser) :=
  parse_table2 (lit "ICONV") (fun a b x => okP (upd_iconv (x_iconv x ++ [(a, b)]) x)) ls x.
Definition parse_output_conversions (x : lparser) (ls : lines) : P perror (lines * lparser) :=
  parse_table2 (lit "OCONV") (fun a b x => okP (upd_oconv (x_oconv x ++ [(a, b)]) x)) ls x.
(** parser.rs 508-519. *)
Definition parse_break_patterns (x : lparser) (ls : lines) : P perror (lines * lparser) :=
  parse_table1 (lit "BREAK") (fun a x => okP (upd_breaks (x_breaks x ++ [a]) x)) ls (upd_breaks [] x).

(** parser.rs 521-563. *)
Definition parse_compound_syllable (x : lparser) (ls : lines) : P perror (lines * lparser) :=
  let '(ls, ws) := take_words ls in
  match ws with
  | [] => error ls (MismatchedArity 2 0)
  | [_] => error ls (MismatchedArity 2 1)
  | max :: vowels :: _ =>
      match parse_u16 max with
      | Err e => error ls (MalformedNumber e)
      | Ok v => okP (ls, upd_vowels vowels (with_options (set_syllable_max (nonzero v)) x))
      end
  end.

(** parser.rs 565-571. *)
Definition parse_flag_aliases (x : lparser) (ls : lines) : P perror (lines * lparser) :=
  parse_table1 (lit "AF")
    (fun a x => fs <~ mapErr MalformedFlag (parse_flags_from_str (x_flag_type x) a) ;;
                okP (upd_aliases (x_aliases x ++ [fs]) x)) ls x.

(** [Affix::new] (aff.rs 208-227). *)
Definition affix_new (flag : N) (cross : bool) (strip : option str) (add : str) (cond : option str)
  (flags : flagset) : P condition_error affix :=
  match cond with
  | None => okP (mkAffix flag cross strip add None flags)
  | Some s => c <~ cond_from_str s ;; okP (mkAffix flag cross strip add (Some c) flags)
  end.

(** parser.rs 573-597. *)
Definition affix_row (add_affix : affix -> lparser -> lparser)
  (flag : N) (cross : bool) (strip : option str) (add : str) (cond : option str) (flags : str) (x : lparser)
  : P error_kind lparser :=
  fs <~ mapErr MalformedFlag (decode_flagset flags (x_flag_type x) (x_aliases x)) ;;
  a <~ mapErr MalformedCondition (affix_new flag cross strip add cond fs) ;;
  okP (add_affix a x).
Definition parse_prefix_table (x : lparser) (ls : lines) : P perror (lines * lparser) :=
  parse_affix_table (lit "PFX") (x_flag_type x)
    (affix_row (fun a x => upd_prefixes (x_prefixes x ++ [a]) x)) ls x.
Definition parse_suffix_table (x : lparser) (ls : lines) : P perror (lines * lparser) :=
  parse_affix_table (lit "SFX") (x_flag_type x)
    (affix_row (fun a x => upd_suffixes (x_suffixes x ++ [a]) x)) ls x.

(** parser.rs 599-605. *)
Definition parse_compound_rule_table (x : lparser) (ls : lines) : P perror (lines * lparser) :=
  parse_table1 (lit "COMPOUNDRULE")
    (fun w x => r <~ mapErr MalformedCompoundRule (parse_compound_rule w (x_flag_type x)) ;;
                okP (upd_rules (x_rules x ++ [r]) x)) ls x.

(** [(!s.is_empty()).then(|| parse_flag_from_str(..)).transpose()] (parser.rs 656-663). *)
Definition optional_flag (t : flag_type) (s : str) : P flag_error (option N) :=
  match s with [] => okP None | _ :: _ => f <~ parse_flag_from_str t s ;; okP (Some f) end.

(** One row of CHECKCOMPOUNDPATTERN (parser.rs 624-679). *)
Definition pattern_row (ls : lines) (x : lparser) : P perror (lines * lparser) :=
  let '(ls, ws) := take_words ls in
  match ws with
  | [] => error ls (MismatchedArity 2 0)
  | [_] => error ls (MismatchedArity 2 1)
  | first :: second :: ws =>
      let replacement := match ws with r :: _ => Some r | [] => None end in
      let '(first_end, first_flag) := split_word_and_flagset_naive first in
      let '(second_begin, second_flag) := split_word_and_flagset_naive second in
      f1 <~ at_line ls (mapErr MalformedFlag (optional_flag (x_flag_type x) first_flag)) ;;
      f2 <~ at_line ls (mapErr MalformedFlag (optional_flag (x_flag_type x) second_flag)) ;;
      let unaffixed := str_eqb first_end zero_str in
      let first_end := if unaffixed then [] else first_end in
      okP (ls, upd_patterns
                 (x_patterns x ++ [mkPattern first_end second_begin replacement f1 f2 unaffixed]) x)
  end.
(** parser.rs 607-682. *)
Definition parse_compound_pattern_table (x : lparser) (ls : lines) : P perror (lines * lparser) :=
  r <~ parse_row_count ls ;;
  let '(ls1, count) := r in
  table_rows (lit "CHECKCOMPOUNDPATTERN") pattern_row count ls1 x.

(** parser.rs 723-728. *)
Definition parse_map (x : lparser) (ls : lines) : P perror (lines * lparser) :=
  parse_table1 (lit "MAP")
    (fun s x => g <- similarity_group_from s ;; okP (upd_sims (x_sims x ++ [g]) x)) ls x.

(** [AFF_PARSERS] (parser.rs 91-150), with the one-line directive parsers of
    parser.rs 261-479 inlined. *)
Definition aff_parsers : list (str * (lparser -> lines -> P perror (lines * lparser))) := [
  (lit "FLAG", parse_flag_type);
  (lit "FORBIDDENWORD", parse_forbidden_word_flag);
  (lit "CIRCUMFIX", flag_directive set_circumfix);
  (lit "KEEPCASE", flag_directive set_keep_case);
  (lit "NEEDAFFIX", flag_directive set_need_affix);
  (lit "NOSUGGEST", flag_directive set_no_suggest);
  (lit "SUBSTANDARD", flag_directive set_substandard);
  (lit "WARN", flag_directive set_warn);
  (lit "COMPOUNDFLAG", flag_directive set_compound);
  (lit "COMPOUNDBEGIN", flag_directive set_compound_begin);
  (lit "COMPOUNDMIDDLE", flag_directive set_compound_middle);
  (lit "COMPOUNDEND", flag_directive set_compound_end);
  (lit "ONLYINCOMPOUND", flag_directive set_only_in_compound);
  (lit "COMPOUNDPERMITFLAG", flag_directive set_permit);
  (lit "COMPOUNDFORBIDFLAG", flag_directive set_forbid);
  (lit "COMPOUNDROOT", flag_directive set_root);
  (lit "FORCEUCASE", flag_directive set_force_upper);
  (lit "COMPLEXPREFIXES", bool_directive set_complex_prefixes);
  (lit "FULLSTRIP", bool_directive set_fullstrip);
  (lit "CHECKSHARPS", bool_directive set_checksharps);
  (lit "FORBIDWARN", bool_directive set_forbid_warn);
  (lit "COMPOUNDMORESUFFIXES", bool_directive set_more_suffixes);
  (lit "CHECKCOMPOUNDDUP", bool_directive set_check_duplicate);
  (lit "CHECKCOMPOUNDREP", bool_directive set_check_rep);
  (lit "CHECKCOMPOUNDCASE", bool_directive set_check_case);
  (lit "CHECKCOMPOUNDTRIPLE", bool_directive set_check_triple);
  (lit "SIMPLIFIEDTRIPLE", bool_directive set_simplified_triple);
  (lit "SYLLABLENUM", bool_directive set_syllable_num);
  (lit "ONLYMAXDIFF", bool_directive set_only_max_diff);
  (lit "NOSPLITSUGS", bool_directive set_no_split_sugs);
  (lit "SUGSWITHDOTS", bool_directive set_sugs_with_dots);
  (lit "COMPOUNDMIN", short_directive (fun v => set_min_length (nonzero (N.max v 1))));
  (lit "COMPOUNDWORDMAX", short_directive (fun v => set_max_words (nonzero v)));
  (lit "MAXCPDSUGS", short_directive set_max_cpd_sugs);
  (lit "MAXNGRAMSUGS", short_directive set_max_ngram);
  (lit "MAXDIFF", short_directive (fun v => set_max_diff (if (10 <? v)%N then 5%N else v)));
  (lit "IGNORE", word_directive (fun w => upd_ignore w));
  (lit "KEY", word_directive (fun w => upd_keyboard w));
  (lit "TRY", word_directive (fun w => upd_try w));
  (lit "LANG", word_directive parse_language);
  (lit "REP", parse_replacements);
  (lit "ICONV", parse_input_conversions);
  (lit "OCONV", parse_output_conversions);
  (lit "BREAK", parse_break_patterns);
  (lit "COMPOUNDSYLLABLE", parse_compound_syllable);
  (lit "AF", parse_flag_aliases);
  (lit "PFX", parse_prefix_table);
  (lit "SFX", parse_suffix_table);
  (lit "COMPOUNDRULE", parse_compound_rule_table);
  (lit "CHECKCOMPOUNDPATTERN", parse_compound_pattern_table);
  (lit "MAP", parse_map) ].

(** [aff_parsers.get(key)] (parser.rs 163); the keys are distinct, so the hash map is a
    function of the key whatever the hasher. *)
Definition find_parser (key : str) : option (lparser -> lines -> P perror (lines * lparser)) :=
  first_some (fun e => if str_eqb (fst e) key then Some (snd e) else None) aff_parsers.

(** ** The .aff file: parser.rs 159-168. *)
Fixpoint aff_go (fuel : nat) (ls : lines) (x : lparser) : P perror lparser :=
  match fuel with
  | O => NoFuel
  | S fuel' =>
      if is_finished ls then okP x
      else
        let '(ls1, w) := next_word ls in
        r <~ match match w with Some key => find_parser key | None => None end with
             | Some parser => parser x ls1
             | None => okP (ls1, x)
             end ;;
        let '(ls2, x') := r in
        aff_go fuel' (advance_line ls2) x'
  end.
Definition parse_aff (aff_text : str) : P perror lparser :=
  let ls := lines_new aff_text SrcAff in aff_go (S (length (ln_rest ls))) ls default_lp.

(** ** The .dic file: parser.rs 170-216. *)

(** The condition at parser.rs 205-208. *)
Definition needs_hidden_homonym (forbidden : N) (word : str) (flags : flagset) : bool :=
  match classify_casing U word with
  | CPascal | CCamel => negb (contains flags forbidden)
  | CAll => nonempty flags
  | _ => false
  end.

(** parser.rs 198-215: one entry goes into the word list. *)
Definition insert_entry (x : lparser) (t : table flagset) (word : str) (flags : flagset)
  : Res (table flagset) :=
  if needs_hidden_homonym (o_forbidden (x_options x)) word flags then
    t1 <- titlecase U (o_case (x_options x)) word ;;
    title <- stem_from t1 ;;
    hidden <- with_flag flags hidden_homonym_flag ;;
    Ret (bag_insert (pl_place pl) (bag_insert (pl_place pl) t title hidden) word flags)
  else Ret (bag_insert (pl_place pl) t word flags).

(** The body of the loop at parser.rs 177-216 after [advance_line]. *)
Definition dic_line (x : lparser) (ls : lines) (t : table flagset) : P perror (table flagset) :=
  match cur_line ls with
  | None => okP t
  | Some l =>
      let line := trim l in
      match line with
      | [] => okP t
      | _ :: _ =>
          if starts_with [ch_slash] line && (1 <? blen line)%N then okP t
          else if (65535 <? blen line)%N then error ls WordTooLong
          else
            e <~ at_line ls (mapErr MalformedFlag
                   (parse_dic_line line (x_flag_type x) (x_aliases x) (x_ignore x))) ;;
            let '(word, flags) := e in
            t' <- insert_entry x t word flags ;; okP t'
      end
  end.

Fixpoint dic_lines (fuel : nat) (x : lparser) (ls : lines) (t : table flagset) : P perror (table flagset) :=
  match fuel with
  | O => NoFuel
  | S fuel' =>
      if is_finished ls then okP t
      else
        let ls1 := advance_line ls in
        t' <~ dic_line x ls1 t ;;
        dic_lines fuel' x ls1 t'
  end.

Definition parse_dic (x : lparser) (dic_text : str) : P perror (table flagset) :=
  let ls := lines_new dic_text SrcDic in
  r <~ parse_row_count ls ;;
  let '(ls1, _) := r in
  dic_lines (S (length (ln_rest ls1))) x ls1 [].

(** ** Collecting: parser.rs 218-244. *)

(** [Affix::erase_ignored_chars] (aff.rs 238-240). *)
Definition erase_affix (ignore : list N) (a : affix) : affix :=
  mkAffix (a_flag a) (a_cross a) (a_strip a) (erase_chars ignore (a_add a)) (a_cond a) (a_flags a).
Definition erase_affixes (ignore : list N) (l : list affix) : list affix :=
  match ignore with [] => l | _ :: _ => map (erase_affix ignore) l end.

(** [From<Vec<..>>] of the two sorted tables (aff.rs 552-600, 1121-1156). *)
Definition affix_index_from (k : kind) (rules : list affix) : Res affix_index :=
  index_of_sorted k (pl_sort_affixes pl k rules).
Definition conversion_table_from (pairs : list (str * str)) : conv_table :=
  conv_of_sorted (map conv_entry pairs) (pl_sort_convs pl (map conv_entry pairs)).

Definition collect (x : lparser) : Res affdata :=
  pfx <- affix_index_from Pfx (erase_affixes (x_ignore x) (x_prefixes x)) ;;
  sfx <- affix_index_from Sfx (erase_affixes (x_ignore x) (x_suffixes x)) ;;
  brk <- break_new (x_breaks x) ;;
  rep <- rep_from (x_reps x) ;;
  rul <- rule_table_from (x_rules x) ;;
  Ret (mkAff pfx sfx brk rul (x_vowels x) (x_patterns x)
         (conversion_table_from (x_iconv x)) (conversion_table_from (x_oconv x))
         rep (x_sims x) (x_ignore x) (x_keyboard x) (x_try x) (x_options x)
         (x_flag_type x) (x_aliases x)).

(** [parse] (parser.rs 153-245). *)
Definition parse (aff_text dic_text : str) : P perror (table flagset * affdata) :=
  x <~ parse_aff aff_text ;;
  t <~ parse_dic x dic_text ;;
  a <- collect x ;;
  okP (t, a).

End Parser.
