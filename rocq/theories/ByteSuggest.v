(** [Suggester::suggest] on the bytes of the word, with the byte offsets of suggester.rs.
    [Properties_ByteSuggest] shows that it agrees with the model on characters in Suggester.v.
    A buffer is a list of bytes.  A suggestion that is stored is decoded, and so are the texts that
    calls look at character by character; bytes that are not UTF-8 count as a panic. *)
From Coq Require Import List NArith ZArith Lia Bool Arith.
From Verif Require Import Base Utf8 Unicode Flags Condition Affix CompoundRule Conversion Aff Checker Bag BufferOps Ngram Suggester
  CharsStr Scratch ByteCompound ByteCheck.
Import ListNotations.
Local Open Scope nat_scope.
Set Implicit Arguments.

(** [String::remove]: the character at an offset, then the bytes it takes. *)
Definition b_remove (bs : list N) (idx : nat) : Res (list N) :=
  tail <- b_from bs idx ;;
  chars <- b_text tail ;;
  match chars with
  | c :: _ => Ret (firstn idx bs ++ skipn (idx + clen c) bs)
  | [] => Panic
  end.
(** [String::truncate]. *)
Definition b_truncate (bs : list N) (n : nat) : Res (list N) :=
  if n <=? length bs then if boundary bs n then Ret (firstn n bs) else Panic else Ret bs.
(** [str::char_indices]. *)
Definition b_char_indices (bs : list N) : Res (list (nat * N)) := w <- b_text bs ;; Ret (char_indices 0 w).

Section Suggester.
Variable sg : suggester.
Notation k := (su_checker sg).
Notation aff := (ck_aff (su_checker sg)).
Notation opts := (ad_options (ck_aff (su_checker sg))).
Notation U := (ck_u (su_checker sg)).
Notation case := (o_case (ad_options (ck_aff (su_checker sg)))).
Notation dbg := (su_debug sg).
Variable fuel : nat.

(** suggester.rs 374-400. *)
Definition b_add (bs : list N) (out : list str) : Res (bool * list str) :=
  r <- b_check_word k dbg fuel bs ForbidBadForceucase SkipHiddenHomonym ;;
  match r with
  | None => Ret (false, out)
  | Some flags =>
      if contains flags (o_forbidden opts) then Ret (false, out)
      else if o_forbid_warn opts && has_flag flags (o_warn opts) then Ret (false, out)
      else w <- b_text bs ;; Ret (true, out ++ [w])
  end.
(** suggester.rs 374-400, the result dropped. *)
Definition b_try (bs : list N) (out : list str) : Res (list str) := r <- b_add bs out ;; Ret (snd r).

(** suggester.rs 405-408. *)
Definition b_uppercase_suggest (bs : list N) (out : list str) : Res (list str) :=
  u <- b_uppercase k bs ;; b_try u out.

(** suggester.rs 477-496; a space is one byte. *)
Fixpoint b_rep_parts (n : nat) (bs : list N) (i j : nat) : Res bool :=
  match n with
  | O => NoFuel
  | S n' =>
      part <- b_cut bs i j ;;
      r <- b_check_word k dbg fuel part ForbidBadForceucase SkipHiddenHomonym ;;
      match r with
      | None => Ret false
      | Some _ =>
          let i := j + 1 in
          rest <- b_from bs i ;;
          match find_sub [32%N] rest with
          | Some idx => b_rep_parts n' bs i (i + idx)
          | None => Ret true
          end
      end
  end.
(** suggester.rs 468-499. *)
Definition b_try_rep (bs : list N) (out : list str) : Res (list str) :=
  r <- b_add bs out ;;
  if fst r then Ret (snd r)
  else match find_sub [32%N] bs with
       | None => Ret out
       | Some j =>
           ok <- b_rep_parts (S (length bs)) bs 0 j ;;
           if (ok : bool) then w <- b_text bs ;; Ret (out ++ [w]) else Ret out
       end.

(** suggester.rs 436-442. *)
Definition b_rep_start (word : list N) (st : list N * list str) (e : str * str) : Res (list N * list str) :=
  let '(scratch, out) := st in
  let '(from, to) := e in
  if starts_with (enc from) word then
    s1 <- b_replace scratch 0 (length (enc from)) (enc to) ;;
    out1 <- b_try_rep s1 out ;;
    s2 <- b_replace s1 0 (length (enc to)) (enc from) ;;
    Ret (s2, out1)
  else Ret st.
(** suggester.rs 446-453. *)
Definition b_rep_end (word : list N) (st : list N * list str) (e : str * str) : Res (list N * list str) :=
  let '(scratch, out) := st in
  let '(from, to) := e in
  if ends_with (enc from) word then
    idx <- b_minus (length word) (length (enc from)) ;;
    s1 <- b_replace scratch idx (length scratch) (enc to) ;;
    out1 <- b_try_rep s1 out ;;
    s2 <- b_replace s1 idx (length s1) (enc from) ;;
    Ret (s2, out1)
  else Ret st.
(** suggester.rs 459-461. *)
Definition b_rep_place (from to : str) (st : list N * list str) (idx : nat) : Res (list N * list str) :=
  let '(scratch, out) := st in
  s1 <- b_replace scratch idx (idx + length (enc from)) (enc to) ;;
  out1 <- b_try_rep s1 out ;;
  s2 <- b_replace s1 idx (idx + length (enc to)) (enc from) ;;
  Ret (s2, out1).
(** suggester.rs 457-463. *)
Definition b_rep_anywhere (word : list N) (st : list N * list str) (e : str * str) : Res (list N * list str) :=
  idxs <- b_matches (fst e) word ;; foldR (b_rep_place (fst e) (snd e)) idxs st.
(** suggester.rs 416-466. *)
Definition b_rep_suggest (word : list N) (out : list str) : Res (list str) :=
  let t := ad_reps aff in
  out0 <- foldR (fun out e => if str_eqb word (enc (fst e)) then b_try_rep (enc (snd e)) out else Ret out)
            (whole_reps t) out ;;
  if only_whole_reps t then Ret out0
  else
    st1 <- foldR (b_rep_start word) (start_reps t) (word, out0) ;;
    debug_assert dbg (str_eqb (fst st1) word)
    (st2 <- foldR (b_rep_end word) (end_reps t) st1 ;;
     debug_assert dbg (str_eqb (fst st2) word)
     (st3 <- foldR (b_rep_anywhere word) (any_reps t) st2 ;;
      debug_assert dbg (str_eqb (fst st3) word) (Ret (snd st3)))).

(** suggester.rs 980-997; see [max_attempts]. *)
Definition b_max_attempts (bs : list N) : Res N :=
  let p := (N.of_nat (length (i_table (ad_prefixes aff))) / 20)%N in
  let s := (N.of_nat (length (i_table (ad_suffixes aff))) / 20)%N in
  let cost := (1 + p + s + p * s +
               (if o_complex_prefixes opts then p * p + 2 * s * p * p else s * s + 2 * p * s * s))%N in
  let cost := N.min (N.max cost 250000) 25000000000 in
  let attempts := (25000000000 / cost)%N in
  if allows_compounding opts then
    match N.of_nat (length bs) with
    | 0%N => Panic
    | n => Ret (attempts / n)%N
    end
  else Ret attempts.

(** suggester.rs 505-609, with byte offsets. *)
Section MapStep.
(** The recursive call [map_suggest_impl(buffer, out, i, remaining_attempts)]. *)
Variable rec : list N -> nat -> mstate -> Res mstate.
(** suggester.rs 526-540, 543-559, 567-583, 589-603. *)
Definition b_map_try (word : list N) (edit undo : list N -> Res (list N)) (next : nat)
    (st : list N * mstate) : Res ((list N * mstate) + (list N * mstate)) :=
  let '(buffer, (rem, out)) := st in
  if (rem =? 0)%N then Ret (inr st)
  else
    b1 <- edit buffer ;;
    out1 <- b_try b1 out ;;
    m <- rec b1 next (rem - 1, out1)%N ;;
    b2 <- undo b1 ;;
    debug_assert dbg (str_eqb b2 word) (Ret (inl (b2, m))).
(** [buffer.replace_range(idx..idx + n, s)]. *)
Definition b_range (idx n : nat) (s : list N) (b : list N) : Res (list N) := b_replace b idx (idx + n) s.

(** suggester.rs 522-560. *)
Definition b_map_from_char (word : list N) (idx : nat) (ch : N) (g : similarity_group)
    (st : list N * mstate) : Res ((list N * mstate) + (list N * mstate)) :=
  r <- loopR (fun st similar_ch =>
         if (similar_ch =? ch)%N then Ret (inl st)
         else b_map_try word (fun b => replace_char_at dbg b idx ch similar_ch)
                (fun b => replace_char_at dbg b idx similar_ch ch) (idx + clen similar_ch) st) (sg_chars g) st ;;
  match r with
  | inr s => Ret (inr s)
  | inl s => loopR (fun st similar_str =>
               b_map_try word (b_range idx (clen ch) (enc similar_str)) (b_range idx (length (enc similar_str)) (enc1 ch))
                 (idx + length (enc similar_str)) st) (sg_strings g) s
  end.
(** suggester.rs 562-605. *)
Definition b_map_from_string (word : list N) (idx : nat) (g : similarity_group) (st : list N * mstate) (e : nat * str)
    : Res ((list N * mstate) + (list N * mstate)) :=
  let '(pos, string) := e in
  tail <- b_from word idx ;;
  match find_sub (enc string) tail with
  | None => Ret (inl st)
  | Some i =>
      let idx := i + idx in
      r <- loopR (fun st similar_ch =>
             b_map_try word (b_range idx (length (enc string)) (enc1 similar_ch)) (b_range idx (clen similar_ch) (enc string))
               (idx + clen similar_ch) st) (sg_chars g) st ;;
      match r with
      | inr s => Ret (inr s)
      | inl s => loopR (fun st (e2 : nat * str) =>
                   if (fst e2 =? pos)%nat then Ret (inl st)
                   else b_map_try word (b_range idx (length (enc string)) (enc (snd e2)))
                          (b_range idx (length (enc (snd e2))) (enc string)) (idx + length (enc (snd e2))) st)
                   (combine (seq 0 (length (sg_strings g))) (sg_strings g)) s
      end
  end.
(** suggester.rs 518-608. *)
Definition b_map_at (word : list N) (i : nat) (st : list N * mstate) (e : nat * N) : Res ((list N * mstate) + (list N * mstate)) :=
  let '(idx, ch) := e in
  let idx := idx + i in
  loopR (fun st g =>
    if memb ch (sg_chars g) then b_map_from_char word idx ch g st
    else loopR (b_map_from_string word idx g) (combine (seq 0 (length (sg_strings g))) (sg_strings g)) st)
    (ad_sims aff) st.
(** suggester.rs 510-609. *)
Definition b_map_body (word : list N) (i : nat) (m : mstate) : Res mstate :=
  tail <- b_from word i ;;
  l <- b_char_indices tail ;;
  r <- loopR (b_map_at word i) l (word, m) ;;
  Ret (snd (final r)).
End MapStep.
(** suggester.rs 510-609; [n] bounds the depth of the recursion. *)
Fixpoint b_map_impl (n : nat) (word : list N) (i : nat) (m : mstate) : Res mstate :=
  match n with
  | O => NoFuel
  | S n' => b_map_body (b_map_impl n') word i m
  end.
(** suggester.rs 505-508. *)
Definition b_map_suggest (word : list N) (out : list str) : Res (list str) :=
  rem <- b_max_attempts word ;;
  r <- b_map_impl fuel word 0 (rem, out) ;;
  Ret (snd r).

(** suggester.rs 709-733. *)
Definition b_key_try (word : list N) (idx : nat) (word_ch : N) (o : option N) (st : list N * list str) : Res (list N * list str) :=
  let '(buffer, out) := st in
  match o with
  | None => Ret st
  | Some kb_ch =>
      b1 <- b_remove buffer idx ;;
      b2 <- b_insert b1 idx kb_ch ;;
      out1 <- b_try b2 out ;;
      b3 <- b_remove b2 idx ;;
      b4 <- b_insert b3 idx word_ch ;;
      debug_assert dbg (str_eqb word b4) (Ret (b4, out1))
  end.
(** suggester.rs 696-734: one character of the word. *)
Definition b_key_step (word : list N) (st : list N * list str) (e : nat * N) : Res (list N * list str) :=
  let kb := enc (ad_keyboard aff) in
  let '(idx, word_ch) := e in
  st1 <- (let '(buffer, out) := st in
          if str_eqb (u_upper U word_ch) [word_ch] then Ret st
          else
            b1 <- b_truncate buffer idx ;;
            tail <- b_from word idx ;;
            chars <- b_text tail ;;
            let b1 := b1 ++ enc (u_upper U word_ch) ++ enc (skipn 1 chars) in
            out1 <- b_try b1 out ;;
            b2 <- b_truncate b1 idx ;;
            tail <- b_from word idx ;;
            let b2 := b2 ++ tail in
            debug_assert dbg (str_eqb word b2) (Ret (b2, out1))) ;;
  ms <- b_matches [word_ch] kb ;;
  foldR (fun st m =>
    before <- b_cut kb 0 m ;;
    prev <- b_text before ;;
    st2 <- b_key_try word idx word_ch (not_bar (hd_error (rev prev))) st ;;
    after <- b_from kb (m + clen word_ch) ;;
    next <- b_text after ;;
    b_key_try word idx word_ch (not_bar (hd_error next)) st2) ms st1.
(** suggester.rs 692-735. *)
Definition b_keyboard_suggest (word : list N) (out : list str) : Res (list str) :=
  l <- b_char_indices word ;;
  r <- foldR (b_key_step word) l (word, out) ;; Ret (snd r).

(** suggester.rs 740-748. *)
Definition b_extra_suggest (word : list N) (out : list str) : Res (list str) :=
  l <- b_char_indices word ;;
  foldR (fun out (e : nat * N) => b <- b_remove word (fst e) ;; b_try b out) l out.

(** suggester.rs 751-769. *)
Definition b_forgotten_suggest (word : list N) (out : list str) : Res (list str) :=
  rem <- b_max_attempts word ;;
  l <- b_char_indices word ;;
  r <- loopR (fun (st : bstate) ch =>
         loopR (fun (st : bstate) idx =>
           let '(rem, buffer, out) := st in
           if (rem =? 0)%N then Ret (inr st)
           else
             b1 <- b_insert buffer idx ch ;;
             out1 <- b_try b1 out ;;
             b2 <- b_remove b1 idx ;;
             Ret (inl ((rem - 1)%N, b2, out1)))
           (map fst l ++ [length word]) st)
         (ad_try aff) (rem, word, out) ;;
  Ret (snd (final r)).

(** suggester.rs 851-870. *)
Definition b_wrong_suggest (word : list N) (out : list str) : Res (list str) :=
  rem <- b_max_attempts word ;;
  l <- b_char_indices word ;;
  r <- loopR (fun (st : bstate) ch =>
         loopR (fun (st : bstate) (e : nat * N) =>
           let '(rem, buffer, out) := st in
           let '(idx, word_ch) := e in
           if (ch =? word_ch)%N then Ret (inl st)
           else if (rem =? 0)%N then Ret (inr st)
           else
             b1 <- b_remove buffer idx ;;
             b2 <- b_insert b1 idx ch ;;
             out1 <- b_try b2 out ;;
             b3 <- b_remove b2 idx ;;
             b4 <- b_insert b3 idx word_ch ;;
             Ret (inl ((rem - 1)%N, b4, out1))) l st)
         (ad_try aff) (rem, word, out) ;;
  Ret (snd (final r)).

(** suggester.rs 876-910: the window of characters and offsets; [String::drain] of a range is
    [replace_range] with nothing. *)
Fixpoint b_doubled_loop (word : list N) (l : list (nat * N)) (out : list str) : Res (list str) :=
  match l with
  | (_, a) :: (((_, b) :: (_, c) :: (i3, d) :: (_, e) :: (next, _) :: _) as l') =>
      out1 <- (if (a =? c)%N && (b =? d)%N && (a =? e)%N
               then buffer <- b_replace word i3 next [] ;; b_try buffer out
               else Ret out) ;;
      b_doubled_loop word l' out1
  | _ => Ret out
  end.
(** suggester.rs 876-910. *)
Definition b_doubled_suggest (word : list N) (out : list str) : Res (list str) :=
  l <- b_char_indices word ;; b_doubled_loop word l out.

(** suggester.rs 922-972.  The byte of the space is overwritten. *)
Definition b_two_words_step (word : list N) (out : list str) (e : nat * (nat * N)) : Res (list str) :=
  let '(n, (idx, _)) := e in
  word1 <- b_cut word 0 idx ;;
  w1 <- b_text word1 ;;
  match check_simple_word k w1 SkipHiddenHomonym with
  | None => Ret out
  | Some _ =>
      word2 <- b_from word idx ;;
      w2 <- b_text word2 ;;
      match check_simple_word k w2 SkipHiddenHomonym with
      | None => Ret out
      | Some _ =>
          let space := word1 ++ [32%N] ++ word2 in
          s <- b_text space ;;
          if (1 <? n) && (1 <? length w2) && existsb (fun c => (c =? 97)%N || (c =? 45)%N) (ad_try aff) then
            debug_assert dbg (match nth_error space idx with Some b => (b =? 32)%N | None => false end)
            (hyphen <- on_slice idx (S idx) (fun _ => Ret [45%N]) space ;;
             h <- b_text hyphen ;;
             Ret (out ++ [s; h]))
          else Ret (out ++ [s])
      end
  end.
(** suggester.rs 914-973. *)
Definition b_two_words_suggest (word : list N) (out : list str) : Res (list str) :=
  debug_assert dbg (negb (length word =? 0))
  (if o_no_split_sugs opts then Ret out
   else l <- b_char_indices word ;; foldR (b_two_words_step word) (combine (seq 0 (length l)) l) out).

(** suggester.rs 330-363.  The generators that swap and rotate in place work on bytes in
    Suggester.v and BufferOps.v already; they are called on the decoded word. *)
Definition b_suggest_low (word : list N) (out : list str) : Res (bool * list str) :=
  let old_len := length out in
  out <- b_uppercase_suggest word out ;;
  out <- b_rep_suggest word out ;;
  out <- b_map_suggest word out ;;
  hq <- (if negb (length out =? old_len)%nat then Ret true
         else if nonempty (ad_sims aff) then
           r <- b_check_word k dbg fuel word AllowBadForceucase SkipHiddenHomonym ;; Ret (is_someb r)
         else Ret false) ;;
  text <- b_text word ;;
  out <- adjacent_swap_suggest sg fuel text out ;;
  out <- distant_swap_suggest sg fuel text out ;;
  out <- b_keyboard_suggest word out ;;
  out <- b_extra_suggest word out ;;
  out <- b_forgotten_suggest word out ;;
  out <- move_char_suggest sg fuel text out ;;
  out <- b_wrong_suggest word out ;;
  out <- b_doubled_suggest word out ;;
  out <- b_two_words_suggest word out ;;
  Ret (hq, out).

(** aff.rs 1316-1330. *)
Definition b_upper_char_at (bs : list N) (idx : nat) : Res (list N) :=
  before <- b_cut bs 0 idx ;;
  tail <- b_from bs idx ;;
  chars <- b_char_indices tail ;;
  match chars with
  | [] => Panic
  | (_, ch) :: rest =>
      after <- (match rest with (next, _) :: _ => b_from bs (idx + next) | [] => Ret [] end) ;;
      Ret (before ++ enc (upper_char U case ch) ++ after)
  end.
(** aff.rs 1301-1314. *)
Definition b_lower_first (bs : list N) : Res (list N) :=
  chars <- b_char_indices bs ;;
  match chars with
  | [] => Panic
  | (_, ch) :: rest =>
      after <- (match rest with (idx, _) :: _ => b_from bs idx | [] => Ret [] end) ;;
      Ret (enc (lower_char U case ch) ++ after)
  end.

(** suggester.rs 143-146, 150-153, 157-160. *)
Definition b_low_and_first (bs : list N) (st : bool * list str) : Res (bool * list str) :=
  let '(hq, out) := st in
  r <- b_suggest_low bs out ;;
  ok <- b_check k dbg fuel bs ;;
  if (ok : bool) then w <- b_text bs ;; Ret (hq || fst r, w :: snd r) else Ret (hq || fst r, snd r).

(** suggester.rs 163-188. *)
Definition b_fix_space (word : list N) (out : list str) (i : nat) : Res (list str) :=
  match nth_error out i with
  | None => Panic
  | Some s =>
      let suggestion := enc s in
      match find_sub [32%N] suggestion with
      | None => Ret out
      | Some j =>
          let after := j + 1 in
          len <- b_minus (length suggestion) after ;;
          same <- (if length word <? len then Ret false
                   else match b_get_from word (length word - len) with
                        | None => Ret false
                        | Some tail => t <- b_from suggestion after ;; Ret (str_eqb t tail)
                        end) ;;
          if (same : bool) then Ret out
          else
            titled <- b_upper_char_at suggestion after ;;
            t <- b_text titled ;;
            Ret (t :: firstn i out ++ skipn (S i) out)
      end
  end.

(** suggester.rs 93-203. *)
Definition b_by_casing (bs : list N) (out : list str) : Res ((bool * list str) + list str) :=
  word <- b_text bs ;;
  match classify_casing U word with
  | CNone =>
      forced <- (match o_force_upper opts with
                 | Some _ => b_check_compound k dbg fuel AT_BEGIN bs AllowBadForceucase
                 | None => Ret None
                 end) ;;
      match forced with
      | Some _ => t <- titlecase U case word ;; Ret (inr (out ++ [t]))
      | None => r <- b_suggest_low bs out ;; Ret (inl r)
      end
  | CInit =>
      r1 <- b_suggest_low bs out ;;
      lower <- b_lowercase k bs ;;
      r2 <- b_suggest_low lower (snd r1) ;;
      Ret (inl (fst r1 || fst r2, snd r2))
  | (CCamel | CPascal) as c =>
      r1 <- b_suggest_low bs out ;;
      out1 <- (match find_sub [46%N] bs with
               | Some dot =>
                   after_dot <- b_from bs (dot + 1) ;;
                   a <- b_text after_dot ;;
                   match classify_casing U a with
                   | CInit => buffer <- b_insert bs (dot + 1) 32 ;; t <- b_text buffer ;; Ret (t :: snd r1)
                   | _ => Ret (snd r1)
                   end
               | None => Ret (snd r1)
               end) ;;
      r2 <- (match c with
             | CPascal => l <- b_lower_first bs ;; b_low_and_first l (fst r1, out1)
             | _ => Ret (fst r1, out1)
             end) ;;
      lower <- b_lowercase k bs ;;
      r3 <- b_low_and_first lower r2 ;;
      r4 <- (match c with
             | CPascal => t <- b_titlecase k bs ;; b_low_and_first t r3
             | _ => Ret r3
             end) ;;
      out4 <- foldR (b_fix_space bs) (seq 0 (length (snd r4))) (snd r4) ;;
      Ret (inl (fst r4, out4))
  | CAll =>
      lower <- b_lowercase k bs ;;
      keep <- (match o_keep_case opts with Some _ => b_check k dbg fuel lower | None => Ret false end) ;;
      l <- b_text lower ;;
      let out1 := if (keep : bool) then l :: out else out in
      r1 <- b_suggest_low lower out1 ;;
      title <- b_titlecase k lower ;;
      r2 <- b_suggest_low title (snd r1) ;;
      Ret (inl (fst r1 || fst r2, map (uppercase U case) (snd r2)))
  end.

(** suggester.rs 243-259. *)
Definition b_dash_push (word : list N) (i : nat) (j : option nat) (out : list str) (s : str) : Res (list str) :=
  before <- b_cut word 0 i ;;
  after <- (match j with Some j => b_from word j | None => Ret [] end) ;;
  let buffer := before ++ enc s ++ after in
  r <- b_check_word k dbg fuel buffer ForbidBadForceucase AcceptHiddenHomonym ;;
  w <- b_text buffer ;;
  match r with
  | Some flags => if contains flags (o_forbidden opts) then Ret out else Ret (out ++ [w])
  | None => Ret (out ++ [w])
  end.
(** suggester.rs 232-266. *)
Fixpoint b_dash_loop (n : nat) (rec : list N -> Res (list str)) (word : list N) (i : nat) (out : list str) : Res (list str) :=
  match n with
  | O => NoFuel
  | S n' =>
      rest <- b_from word i ;;
      let j := option_map (fun idx => idx + i) (find_sub [45%N] rest) in
      part <- (match j with Some j => b_cut word i j | None => b_from word i end) ;;
      ok <- b_check k dbg fuel part ;;
      out1 <- (if (ok : bool) then Ret out else tmp <- rec part ;; foldR (b_dash_push word i j) tmp out) ;;
      match j with
      | Some j => b_dash_loop n' rec word (j + 1) out1
      | None => Ret out1
      end
  end.
(** suggester.rs 226-231; a hyphen is one byte. *)
Definition b_by_dash (rec : list N -> Res (list str)) (word : list N) (out : list str) : Res (list str) :=
  if is_someb (find_sub [45%N] word) && negb (existsb (fun s => is_someb (find_sub [45%N] (enc s))) out)
  then b_dash_loop (S (length word)) rec word 0 out
  else Ret out.

(** suggester.rs 295-313. *)
Definition b_retain_step (out : list str) (s : str) : Res (list str) :=
  let suggestion := enc s in
  if is_someb (find_sub [32%N] suggestion) then Ret (out ++ [s])
  else
    ok <- b_check k dbg fuel suggestion ;;
    if (ok : bool) then Ret (out ++ [s])
    else
      lower <- b_lowercase k suggestion ;;
      ok <- b_check k dbg fuel lower ;;
      if (ok : bool) then l <- b_text lower ;; Ret (out ++ [l])
      else
        title <- b_titlecase k suggestion ;;
        ok <- b_check k dbg fuel title ;;
        if (ok : bool) then t <- b_text title ;; Ret (out ++ [t]) else Ret out.

(** suggester.rs 83-328.  [n] bounds the depth of the recursion.  The n-gram step (205-224) is the
    one of Suggester.v, on the decoded word, and so is the removal of duplicates. *)
Fixpoint b_suggest_impl (n : nat) (bs : list N) (out : list str) : Res (list str) :=
  match bs with
  | [] => Ret out
  | _ :: _ =>
      match n with
      | O => NoFuel
      | S n' =>
          bs <- b_convert (ad_iconv aff) bs ;;
          word <- b_text bs ;;
          r <- b_by_casing bs out ;;
          match r with
          | inr out1 => Ret out1
          | inl (hq, out1) =>
              out2 <- by_ngram sg word hq out1 ;;
              out3 <- b_by_dash (fun part => b_suggest_impl n' part []) bs out2 ;;
              let c := classify_casing U word in
              out4 <- (match c with
                       | CInit | CPascal => mapR (fun s => b <- b_upper_char_at (enc s) 0 ;; b_text b) out3
                       | _ => Ret out3
                       end) ;;
              out5 <- (match c with
                       | CInit | CAll => foldR b_retain_step out4 []
                       | _ => Ret out4
                       end) ;;
              out6 <- deduplicate out5 ;;
              mapR (fun s => b <- b_convert (ad_oconv aff) (enc s) ;; b_text b) out6
          end
      end
  end.

(** suggester.rs 74-81. *)
Definition b_suggest (bs : list N) (out : list str) : Res (list str) :=
  let out := [] in
  if 360 <? length bs then Ret out else b_suggest_impl fuel bs out.
End Suggester.
