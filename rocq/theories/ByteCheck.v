(** [Checker::check] on the bytes of the word, with the byte offsets of checker.rs and aff.rs.
    [Properties_ByteCheck] shows that it agrees with the model on characters in Checker.v.  Calls
    that look at characters (casing, numbers, IGNORE, the lookups) decode the bytes; bytes that are
    not UTF-8 count as a panic. *)
From Coq Require Import List NArith ZArith Lia Bool Arith.
From Verif Require Import Base Utf8 Unicode Flags Condition Affix CompoundRule Conversion Aff Checker CharsStr Scratch ByteCompound.
Import ListNotations.
Local Open Scope nat_scope.
Set Implicit Arguments.

(** [str::split_once] with a pattern that is a string. *)
Definition b_split_once (p : str) (bs : list N) : Res (option (list N * list N)) :=
  match find_sub (enc p) bs with
  | Some i => a <- b_cut bs 0 i ;; b <- b_from bs (i + length (enc p)) ;; Ret (Some (a, b))
  | None => Ret None
  end.
(** [str::strip_prefix] and [str::strip_suffix]: the length is compared, then the bytes, then the
    text is cut there. *)
Definition b_strip_prefix (p : str) (bs : list N) : Res (option (list N)) :=
  if starts_with (enc p) bs then r <- b_from bs (length (enc p)) ;; Ret (Some r) else Ret None.
Definition b_strip_suffix (p : str) (bs : list N) : Res (option (list N)) :=
  if ends_with (enc p) bs then i <- b_minus (length bs) (length (enc p)) ;; r <- b_cut bs 0 i ;; Ret (Some r) else Ret None.

(** *** Conversions *)
(** aff.rs 1180-1187. *)
Definition b_conv_applies (c : conversion) (tail : list N) : bool :=
  if cv_anchor c then str_eqb tail (enc (cv_from c)) else starts_with (enc (cv_from c)) tail.
(** aff.rs 1175-1194. *)
Fixpoint b_best_match (first : N) (tail : list N) (l : list conversion) (best : option conversion) : option conversion :=
  match l with
  | [] => best
  | c :: l' =>
      if negb (opt_eqb (hd_error (enc (cv_from c))) (Some first)) then best
      else
        let better := b_conv_applies c tail &&
                      match best with None => true | Some b => length (enc (cv_from b)) <? length (enc (cv_from c)) end in
        b_best_match first tail l' (if better then Some c else best)
  end.
(** aff.rs 1166-1195. *)
Definition b_match_at (t : conv_table) (tail : list N) : option conversion :=
  match hd_error tail with
  | None => None
  | Some first =>
      let start := partition_point (fun c => opt_lt (hd_error (enc (cv_from c))) first) (ct_inner t) in
      b_best_match first tail (skipn start (ct_inner t)) None
  end.
(** aff.rs 1231-1245. *)
Fixpoint b_convert_loop (fuel : nat) (t : conv_table) (word : list N) (i : nat) : Res (list N) :=
  if i <? length word then
    match fuel with
    | O => NoFuel
    | S fuel' =>
        tail <- b_from word i ;;
        match b_match_at t tail with
        | None =>
            chars <- b_text tail ;;
            b_convert_loop fuel' t word (i + match chars with ch :: _ => length (enc1 ch) | [] => 1 end)
        | Some c =>
            word <- b_replace word i (i + length (enc (cv_from c))) (enc (cv_to c)) ;;
            b_convert_loop fuel' t word (i + length (enc (cv_to c)))
        end
    end
  else Ret word.
(** aff.rs 1202-1248; a byte is ASCII below 128. *)
Definition b_convert (t : conv_table) (word : list N) : Res (list N) :=
  match ct_inner t with
  | [] => Ret word
  | _ :: _ =>
      if ct_non_ascii t && forallb (fun b => (b <? 128)%N) word then Ret word
      else if negb (existsb (byteset_contains (ct_start t)) word) then Ret word
      else b_convert_loop (length word) t word 0
  end.

Section Checker.
Variable k : checker.
Variable dbg : bool.
Notation aff := (ck_aff k).
Notation opts := (ad_options (ck_aff k)).
Notation U := (ck_u k).
Notation case := (o_case opts).

(** checker.rs 227-239. *)
Definition b_check_word (fuel : nat) (bs : list N) (fu : forceucase) (hh : hidden_homonym) : Res (option flagset) :=
  w <- b_text bs ;;
  match check_simple_word k w hh with
  | Some f => Ret (Some f)
  | None => r <- b_check_compound k dbg fuel AT_BEGIN bs fu ;; Ret (option_map cr_flags r)
  end.

(** aff.rs 1268-1299. *)
Definition b_lowercase (bs : list N) : Res (list N) := w <- b_text bs ;; Ret (enc (lowercase U case w)).
Definition b_uppercase (bs : list N) : Res (list N) := w <- b_text bs ;; Ret (enc (uppercase U case w)).
Definition b_titlecase (bs : list N) : Res (list N) := w <- b_text bs ;; t <- titlecase U case w ;; Ret (enc t).

(** checker.rs 321-323: the recursion overwrites a copy of the word (Scratch.v).  Undefined
    behaviour counts as a panic. *)
Definition b_spell_sharps (fuel : nat) (bs : list N) : Res (option flagset) :=
  match b_sharps (fun w => b_check_word fuel (enc w) AllowBadForceucase AcceptHiddenHomonym) 5 bs 0 0 with
  | Val p => fst p
  | Panics | Undefined => Panic
  end.

(** checker.rs 254-262: [find] gives the offset of the first apostrophe, which is one byte. *)
Definition b_apostrophe (bs : list N) : Res (option (list N * list N)) :=
  match find_sub [39%N] bs with
  | None => Ret None
  | Some idx =>
      last <- b_minus (length bs) 1 ;;
      if idx =? last then Ret None
      else part1 <- b_cut bs 0 (idx + 1) ;; part2 <- b_from bs (idx + 1) ;; Ret (Some (part1, part2))
  end.

(** checker.rs 241-319. *)
Definition b_casing_upper (fuel : nat) (bs : list N) : Res (option flagset) :=
  b_check_word fuel bs AllowBadForceucase AcceptHiddenHomonym
  ORELSE
  (parts <- b_apostrophe bs ;;
   match parts with
   | Some (part1, part2) =>
       t2 <- b_titlecase part2 ;;
       ((l1 <- b_lowercase part1 ;; b_check_word fuel (l1 ++ t2) AllowBadForceucase AcceptHiddenHomonym)
        ORELSE
        (t1 <- b_titlecase part1 ;; b_check_word fuel (t1 ++ t2) AllowBadForceucase AcceptHiddenHomonym))
   | None => Ret None
   end)
  ORELSE
  (if o_checksharps opts && is_someb (find_sub SS bs) then
     (l <- b_lowercase bs ;; b_spell_sharps fuel l)
     ORELSE
     (t <- b_titlecase bs ;; b_spell_sharps fuel t)
   else Ret None)
  ORELSE
  (t <- b_titlecase bs ;;
   r <- b_check_word fuel t AllowBadForceucase AcceptHiddenHomonym ;; Ret (drop_keep_case k r))
  ORELSE
  (l <- b_lowercase bs ;;
   r <- b_check_word fuel l AllowBadForceucase AcceptHiddenHomonym ;; Ret (drop_keep_case k r)).

(** checker.rs 376-402. *)
Definition b_casing_title (fuel : nat) (bs : list N) : Res (option flagset) :=
  b_check_word fuel bs AllowBadForceucase SkipHiddenHomonym
  ORELSE
  (lower <- b_lowercase bs ;;
   r <- b_check_word fuel lower AllowBadForceucase AcceptHiddenHomonym ;;
   match r with
   | None => Ret None
   | Some flags =>
       if keep_case k flags && negb (o_checksharps opts && is_someb (find_sub (enc [sharp_s]) lower)) then Ret None
       else Ret (Some flags)
   end).

(** checker.rs 196-225. *)
Definition b_casing (fuel : nat) (bs : list N) : Res (option flagset) :=
  w <- b_text bs ;;
  let c := classify_casing U w in
  match c with
  | CNone | CCamel | CPascal =>
      b_check_word fuel bs ForbidBadForceucase AcceptHiddenHomonym
      ORELSE
      (if ck_lower_as_title k && match c with CPascal => false | _ => true end then
         (t <- b_titlecase bs ;; b_casing_title fuel t)
       else Ret None)
      ORELSE
      (if ck_lower_as_upper k then (u <- b_uppercase bs ;; b_casing_upper fuel u) else Ret None)
  | CAll => b_casing_upper fuel bs
  | CInit => b_casing_title fuel bs
  end.

(** checker.rs 139-194; [n] is [MAX_DEPTH - depth]. *)
Fixpoint b_do_break (fuel : nat) (n : nat) (bs : list N) : Res bool :=
  r <- b_casing fuel bs ;;
  match r with
  | Some flags => Ret (accepted_flags k flags)
  | None =>
      match n with
      | O => Ret false
      | S n' =>
          b1 <- anyR (fun pattern => rest <- b_strip_prefix pattern bs ;;
                                     match rest with Some rest => b_do_break fuel n' rest | None => Ret false end)
                     (start_breaks (ad_breaks aff)) ;;
          if (b1 : bool) then Ret true else
          b2 <- anyR (fun pattern => rest <- b_strip_suffix pattern bs ;;
                                     match rest with Some rest => b_do_break fuel n' rest | None => Ret false end)
                     (end_breaks (ad_breaks aff)) ;;
          if (b2 : bool) then Ret true else
          anyR (fun pattern => parts <- b_split_once pattern bs ;;
                               match parts with
                               | Some (part1, part2) =>
                                   if length part2 =? 0 then Ret false
                                   else
                                     c1 <- b_do_break fuel n' part1 ;;
                                     if (c1 : bool) then b_do_break fuel n' part2 else Ret false
                               | None => Ret false end) (middle_breaks (ad_breaks aff))
      end
  end.

(** [str::trim_end_matches('.')]: a full stop is one byte. *)
Definition b_trim_dots (bs : list N) : list N := rev (drop_dots (rev bs)).

(** checker.rs 98-131. *)
Definition b_check (fuel : nat) (bs : list N) : Res bool :=
  if 360 <? length bs then Ret false
  else
    bs <- b_convert (ad_iconv aff) bs ;;
    if length bs =? 0 then Ret true
    else
      let trimmed := b_trim_dots bs in
      let abbreviated := negb (length trimmed =? length bs) in
      text <- b_text trimmed ;;
      if is_number text then Ret true
      else
        b <- b_do_break fuel 9 (enc (erase_chars (ad_ignore aff) text)) ;;
        if (b : bool) then Ret true
        else if abbreviated then b_do_break fuel 9 bs
        else Ret false.
End Checker.
