(** Suggestions by editing the word: suggester.rs. *)
From Coq Require Import List NArith ZArith Lia Bool Arith Permutation.
From Coq Require Import ZifyBool ZifyNat ZifyN.
From Verif Require Import Base Utf8 Unicode Flags Affix Conversion Aff Checker Bag BufferOps Ngram.
Import ListNotations.
Set Implicit Arguments.

(** [Suggester] (suggester.rs 25-28) with the things outside the code it depends on: the
    iteration order of the word list, the heaps, and whether debug assertions are on. *)
Record suggester := mkSuggester {
  su_checker : checker;
  su_words : list (str * flagset);
  su_ngram : bool;
  su_debug : bool;
  su_heaps : heaps }.

(** [String]s are characters here.  An unsafe edit works on the encoding; leaving bytes that are
    not UTF-8 would be undefined behaviour and counts as [Panic]. *)
Definition in_place {X} (f : list N -> Res (list N * X)) (s : str) : Res (str * X) :=
  r <- f (enc s) ;;
  match dec (fst r) with Some s' => Ret (s', snd r) | None => Panic end.
Definition plain (f : list N -> Res (list N)) : list N -> Res (list N * unit) :=
  fun b => r <- f b ;; Ret (r, tt).

(** [String::remove], [String::insert] and [String::truncate] at a character boundary. *)
Definition remove_at (i : nat) (s : str) : Res str :=
  match skipn i s with _ :: v => Ret (firstn i s ++ v) | [] => Panic end.
Definition insert_at (i : nat) (c : N) (s : str) : Res str :=
  if (i <=? length s)%nat then Ret (firstn i s ++ c :: skipn i s) else Panic.

(** [str::char_indices] with byte indices from [i] on. *)
Fixpoint char_indices (i : nat) (w : str) : list (nat * N) :=
  match w with
  | [] => []
  | c :: w' => (i, c) :: char_indices (i + clen c) w'
  end.

Section Suggester.
Variable sg : suggester.
Notation k := (su_checker sg).
Notation aff := (ck_aff (su_checker sg)).
Notation opts := (ad_options (ck_aff (su_checker sg))).
Notation U := (ck_u (su_checker sg)).
Notation case := (o_case (ad_options (ck_aff (su_checker sg)))).
Notation dbg := (su_debug sg).
Variable fuel : nat.

(** suggester.rs 374-400. *)
Definition add_suggestion_if_correct (word : str) (out : list str) : Res (bool * list str) :=
  r <- check_word k fuel word ForbidBadForceucase SkipHiddenHomonym ;;
  match r with
  | None => Ret (false, out)
  | Some flags =>
      if contains flags (o_forbidden opts) then Ret (false, out)
      else if o_forbid_warn opts && has_flag flags (o_warn opts) then Ret (false, out)
      else Ret (true, out ++ [word])
  end.
Definition try (word : str) (out : list str) : Res (list str) :=
  r <- add_suggestion_if_correct word out ;; Ret (snd r).

(** suggester.rs 405-408. *)
Definition uppercase_suggest (word : str) (out : list str) : Res (list str) :=
  try (uppercase U case word) out.

(** suggester.rs 473-498. *)
Fixpoint rep_parts (n : nat) (rest : str) : Res bool :=
  match n with
  | O => NoFuel
  | S n' =>
      match find_char (N.eqb 32) rest with
      | None => Ret true
      | Some j =>
          r <- check_word k fuel (firstn j rest) ForbidBadForceucase SkipHiddenHomonym ;;
          match r with
          | None => Ret false
          | Some _ => rep_parts n' (skipn (S j) rest)
          end
      end
  end.
(** suggester.rs 468-499. *)
Definition try_rep_suggestion (word : str) (out : list str) : Res (list str) :=
  r <- add_suggestion_if_correct word out ;;
  if fst r then Ret (snd r)
  else match find_char (N.eqb 32) word with
       | None => Ret out
       | Some _ =>
           ok <- rep_parts (S (length word)) word ;;
           Ret (if (ok : bool) then out ++ [word] else out)
       end.

(** suggester.rs 416-466. *)
Definition rep_start_step (word : str) (st : str * list str) (e : str * str) : Res (str * list str) :=
  let '(scratch, out) := st in
  let '(from, to) := e in
  if starts_with from word then
    let s1 := replace_range scratch 0 (length from) to in
    out1 <- try_rep_suggestion s1 out ;;
    Ret (replace_range s1 0 (length to) from, out1)
  else Ret st.
Definition rep_end_step (word : str) (st : str * list str) (e : str * str) : Res (str * list str) :=
  let '(scratch, out) := st in
  let '(from, to) := e in
  if ends_with from word then
    let idx := length word - length from in
    let s1 := firstn idx scratch ++ to in
    out1 <- try_rep_suggestion s1 out ;;
    Ret (firstn idx s1 ++ from, out1)
  else Ret st.
Definition rep_at_step (from to : str) (st : str * list str) (idx : nat) : Res (str * list str) :=
  let '(scratch, out) := st in
  let s1 := replace_range scratch idx (length from) to in
  out1 <- try_rep_suggestion s1 out ;;
  Ret (replace_range s1 idx (length to) from, out1).
Definition rep_any_step (word : str) (st : str * list str) (e : str * str) : Res (str * list str) :=
  foldR (rep_at_step (fst e) (snd e)) (match_indices (fst e) word) st.
Definition rep_suggest (word : str) (out : list str) : Res (list str) :=
  let t := ad_reps aff in
  out0 <- foldR (fun out e => if str_eqb word (fst e) then try_rep_suggestion (snd e) out else Ret out)
            (whole_reps t) out ;;
  if only_whole_reps t then Ret out0
  else
    st1 <- foldR (rep_start_step word) (start_reps t) (word, out0) ;;
    debug_assert dbg (str_eqb (fst st1) word)
    (st2 <- foldR (rep_end_step word) (end_reps t) st1 ;;
     debug_assert dbg (str_eqb (fst st2) word)
     (st3 <- foldR (rep_any_step word) (any_reps t) st2 ;;
      debug_assert dbg (str_eqb (fst st3) word) (Ret (snd st3)))).

(** suggester.rs 980-997.  [u64] arithmetic cannot overflow with fewer than ten million affixes
    of each kind and is modelled without bound. *)
Definition max_attempts (word : str) : Res N :=
  let p := (N.of_nat (length (i_table (ad_prefixes aff))) / 20)%N in
  let s := (N.of_nat (length (i_table (ad_suffixes aff))) / 20)%N in
  let cost := (1 + p + s + p * s +
               (if o_complex_prefixes opts then p * p + 2 * s * p * p else s * s + 2 * p * s * s))%N in
  let cost := N.min (N.max cost 250000) 25000000000 in
  let attempts := (25000000000 / cost)%N in
  if allows_compounding opts then
    match blen word with
    | 0%N => Panic
    | n => Ret (attempts / n)%N
    end
  else Ret attempts.

(** A loop whose body may return from the function: [inr] stops. *)
Fixpoint loopR {S A} (f : S -> A -> Res (S + S)) (l : list A) (s : S) : Res (S + S) :=
  match l with
  | [] => Ret (inl s)
  | a :: l' =>
      r <- f s a ;;
      match r with inl s' => loopR f l' s' | inr s' => Ret (inr s') end
  end.
Definition final {S} (r : S + S) : S := match r with inl s | inr s => s end.

(** suggester.rs 505-609.  The state of a call: the remaining attempts and the suggestions.
    [word] is the word of this call and [buffer] its scratch copy. *)
Definition mstate := (N * list str)%type.
Section MapStep.
(** The recursive call [map_suggest_impl(buffer, out, i, remaining_attempts)], with [i] the
    character position. *)
Variable rec : str -> nat -> mstate -> Res mstate.
(** One replacement (suggester.rs 526-540, 543-559, 567-583, 589-603): [edit] makes the change,
    [undo] takes it back, and the recursion starts at position [next]. *)
Definition map_try (word : str) (edit undo : str -> Res str) (next : nat)
    (st : str * mstate) : Res ((str * mstate) + (str * mstate)) :=
  let '(buffer, (rem, out)) := st in
  if (rem =? 0)%N then Ret (inr st)
  else
    b1 <- edit buffer ;;
    out1 <- try b1 out ;;
    m <- rec b1 next (rem - 1, out1)%N ;;
    b2 <- undo b1 ;;
    debug_assert dbg (str_eqb b2 word) (Ret (inl (b2, m))).
(** [replace_range] at a position inside the buffer. *)
Definition range (i n : nat) (s : str) (b : str) : Res str := Ret (replace_range b i n s).

(** suggester.rs 542-560. *)
Definition map_from_char (word : str) (idx : nat) (ch : N) (g : similarity_group)
    (st : str * mstate) : Res ((str * mstate) + (str * mstate)) :=
  let byte_idx := length (enc (firstn idx word)) in
  r <- loopR (fun st similar_ch =>
         if (similar_ch =? ch)%N then Ret (inl st)
         else map_try word
                (fun b => e <- in_place (plain (fun bs => replace_char_at dbg bs byte_idx ch similar_ch)) b ;; Ret (fst e))
                (fun b => e <- in_place (plain (fun bs => replace_char_at dbg bs byte_idx similar_ch ch)) b ;; Ret (fst e))
                (S idx) st) (sg_chars g) st ;;
  match r with
  | inr s => Ret (inr s)
  | inl s => loopR (fun st similar_str =>
               map_try word (range idx 1 similar_str) (range idx (length similar_str) [ch])
                 (idx + length similar_str) st) (sg_strings g) s
  end.
(** suggester.rs 562-605; [core::ptr::eq] compares positions in the list of strings. *)
Definition map_from_string (word : str) (idx : nat) (g : similarity_group) (st : str * mstate) (e : nat * str)
    : Res ((str * mstate) + (str * mstate)) :=
  let '(pos, string) := e in
  match find_sub string (skipn idx word) with
  | None => Ret (inl st)
  | Some i =>
      let idx := i + idx in
      r <- loopR (fun st similar_ch =>
             map_try word (range idx (length string) [similar_ch]) (range idx 1 string) (S idx) st) (sg_chars g) st ;;
      match r with
      | inr s => Ret (inr s)
      | inl s => loopR (fun st (e2 : nat * str) =>
                   if (fst e2 =? pos)%nat then Ret (inl st)
                   else map_try word (range idx (length string) (snd e2)) (range idx (length (snd e2)) string)
                          (idx + length (snd e2)) st)
                   (combine (seq 0 (length (sg_strings g))) (sg_strings g)) s
      end
  end.
(** suggester.rs 518-608. *)
Definition map_at (word : str) (st : str * mstate) (e : nat * N) : Res ((str * mstate) + (str * mstate)) :=
  let '(idx, ch) := e in
  loopR (fun st g =>
    if memb ch (sg_chars g) then map_from_char word idx ch g st
    else loopR (map_from_string word idx g) (combine (seq 0 (length (sg_strings g))) (sg_strings g)) st)
    (ad_sims aff) st.
Definition map_body (word : str) (i : nat) (m : mstate) : Res mstate :=
  r <- loopR (map_at word) (combine (seq i (length word - i)) (skipn i word)) (word, m) ;;
  Ret (snd (final r)).
End MapStep.
Fixpoint map_suggest_impl (n : nat) (word : str) (i : nat) (m : mstate) : Res mstate :=
  match n with
  | O => NoFuel
  | S n' => map_body (map_suggest_impl n') word i m
  end.
Definition map_suggest (word : str) (out : list str) : Res (list str) :=
  rem <- max_attempts word ;;
  r <- map_suggest_impl fuel word 0 (rem, out) ;;
  Ret (snd r).

(** suggester.rs 614-664. *)
Definition swap_adjacent (i : nat) (a b : N) (s : str) : Res (str * nat) :=
  in_place (fun bs => swap_adjacent_chars dbg bs i a b) s.
Fixpoint adjacent_loop (word rest : str) (idx : nat) (buffer : str) (out : list str) : Res (str * list str) :=
  match rest with
  | c1 :: ((c2 :: _) as rest') =>
      b1 <- swap_adjacent idx c1 c2 buffer ;;
      out1 <- try (fst b1) out ;;
      b2 <- swap_adjacent idx c2 c1 (fst b1) ;;
      debug_assert dbg (str_eqb word (fst b2)) (adjacent_loop word rest' (idx + clen c1) (fst b2) out1)
  | _ => Ret (buffer, out)
  end.
Definition adjacent_swap_suggest (word : str) (out : list str) : Res (list str) :=
  debug_assert dbg (nonempty word)
  (st <- adjacent_loop word word 0 word out ;;
   let '(buffer, out) := st in
   match char_indices 0 word with
   | [(idx1, ch1); (_, ch2); (idx3, ch3); (_, ch4)] =>
       b1 <- swap_adjacent idx1 ch1 ch2 buffer ;;
       b2 <- swap_adjacent idx3 ch3 ch4 (fst b1) ;;
       out1 <- try (fst b2) out ;;
       b3 <- swap_adjacent idx1 ch2 ch1 (fst b2) ;;
       b4 <- swap_adjacent idx3 ch4 ch3 (fst b3) ;;
       debug_assert dbg (str_eqb word (fst b4)) (Ret out1)
   | [(idx1, ch1); (idx2, ch2); (_, ch3); (idx4, ch4); (_, ch5)] =>
       b1 <- swap_adjacent idx1 ch1 ch2 buffer ;;
       b2 <- swap_adjacent idx4 ch4 ch5 (fst b1) ;;
       out1 <- try (fst b2) out ;;
       b3 <- swap_adjacent idx1 ch2 ch1 (fst b2) ;;
       b4 <- swap_adjacent idx2 ch2 ch3 (fst b3) ;;
       out2 <- try (fst b4) out1 ;;
       b5 <- swap_adjacent idx2 ch3 ch2 (fst b4) ;;
       b6 <- swap_adjacent idx4 ch5 ch4 (fst b5) ;;
       debug_assert dbg (str_eqb word (fst b6)) (Ret out2)
   | _ => Ret out
   end).

(** suggester.rs 667-686. *)
Definition swap_distant (i : nat) (a : N) (j : nat) (b : N) (s : str) : Res (str * nat) :=
  in_place (fun bs => swap_distant_chars dbg bs i a j b) s.
Definition bstate := (N * str * list str)%type.
Fixpoint distant_outer (word rest : str) (idx1 : nat) (st : bstate) : Res (bstate + bstate) :=
  match rest with
  | [] => Ret (inl st)
  | ch1 :: rest' =>
      r <- loopR (fun (st : bstate) (e : nat * N) =>
             let '(rem, buffer, out) := st in
             let '(idx2, ch2) := e in
             if (rem =? 0)%N then Ret (inr st)
             else
               b1 <- swap_distant idx1 ch1 idx2 ch2 buffer ;;
               out1 <- try (fst b1) out ;;
               b2 <- swap_distant idx1 ch2 (snd b1) ch1 (fst b1) ;;
               debug_assert dbg (str_eqb word (fst b2)) (Ret (inl ((rem - 1)%N, fst b2, out1))))
             (tl (char_indices idx1 rest)) st ;;
      match r with
      | inr s => Ret (inr s)
      | inl s => distant_outer word rest' (idx1 + clen ch1) s
      end
  end.
Definition distant_swap_suggest (word : str) (out : list str) : Res (list str) :=
  debug_assert dbg (nonempty word)
  (rem <- max_attempts word ;;
   r <- distant_outer word word 0 (rem, word, out) ;;
   Ret (snd (final r))).

(** suggester.rs 692-735.  Positions of a character in the KEY string. *)
Fixpoint positions (c : N) (i : nat) (w : str) : list nat :=
  match w with
  | [] => []
  | e :: w' => if (e =? c)%N then i :: positions c (S i) w' else positions c (S i) w'
  end.
Definition not_bar (o : option N) : option N :=
  match o with Some c => if (c =? 124)%N then None else Some c | None => None end.
Definition kb_try (word : str) (idx : nat) (word_ch : N) (o : option N) (st : str * list str) : Res (str * list str) :=
  let '(buffer, out) := st in
  match o with
  | None => Ret st
  | Some kb_ch =>
      b1 <- remove_at idx buffer ;;
      b2 <- insert_at idx kb_ch b1 ;;
      out1 <- try b2 out ;;
      b3 <- remove_at idx b2 ;;
      b4 <- insert_at idx word_ch b3 ;;
      debug_assert dbg (str_eqb word b4) (Ret (b4, out1))
  end.
Definition keyboard_step (word : str) (st : str * list str) (e : nat * N) : Res (str * list str) :=
  let kb := ad_keyboard aff in
  let '(idx, word_ch) := e in
  st1 <- (let '(buffer, out) := st in
          if str_eqb (u_upper U word_ch) [word_ch] then Ret st
          else
            let b1 := firstn idx buffer ++ u_upper U word_ch ++ skipn 1 (skipn idx word) in
            out1 <- try b1 out ;;
            let b2 := firstn idx b1 ++ skipn idx word in
            debug_assert dbg (str_eqb word b2) (Ret (b2, out1))) ;;
  foldR (fun st m =>
    st2 <- kb_try word idx word_ch (not_bar (match m with O => None | S m' => nth_error kb m' end)) st ;;
    kb_try word idx word_ch (not_bar (nth_error kb (m + 1))) st2)
    (positions word_ch 0 kb) st1.
Definition keyboard_suggest (word : str) (out : list str) : Res (list str) :=
  r <- foldR (keyboard_step word) (combine (seq 0 (length word)) word) (word, out) ;; Ret (snd r).

(** suggester.rs 740-748. *)
Definition extra_char_suggest (word : str) (out : list str) : Res (list str) :=
  foldR (fun out idx => b <- remove_at idx word ;; try b out) (seq 0 (length word)) out.

(** suggester.rs 751-769. *)
Definition forgotten_char_suggest (word : str) (out : list str) : Res (list str) :=
  rem <- max_attempts word ;;
  r <- loopR (fun (st : bstate) ch =>
         loopR (fun (st : bstate) idx =>
           let '(rem, buffer, out) := st in
           if (rem =? 0)%N then Ret (inr st)
           else
             b1 <- insert_at idx ch buffer ;;
             out1 <- try b1 out ;;
             b2 <- remove_at idx b1 ;;
             Ret (inl ((rem - 1)%N, b2, out1)))
           (seq 0 (S (length word))) st)
         (ad_try aff) (rem, word, out) ;;
  Ret (snd (final r)).

(** suggester.rs 772-845. *)
Definition rotate_bytes (f : nat -> list N -> Res (list N)) (n a b : nat) (s : str) : Res str :=
  e <- in_place (plain (on_slice a b (f n))) s ;; Ret (fst e).
Fixpoint move_right (word rest : str) (idx1 : nat) (st : bstate) : Res (bstate + bstate) :=
  match rest with
  | ch1 :: ((ch2 :: _) as rest') =>
      let '(rem, buffer, out) := st in
      let idx2 := idx1 + clen ch1 in
      b1 <- swap_adjacent idx1 ch1 ch2 buffer ;;
      r <- loopR (fun (s : bstate * nat) (e : nat * N) =>
             let '((rem, buffer, out), cursor) := s in
             let '(swap_idx, swap_ch) := e in
             if (rem =? 0)%N then
               b <- rotate_bytes rotate_right (clen ch1) idx1 (swap_idx + idx2) buffer ;;
               debug_assert dbg (str_eqb word b) (Ret (inr ((rem, b, out), cursor)))
             else
               b <- swap_adjacent cursor ch1 swap_ch buffer ;;
               out1 <- try (fst b) out ;;
               Ret (inl (((rem - 1)%N, fst b, out1), snd b)))
             (tl (char_indices 0 rest')) ((rem, fst b1, out), snd b1) ;;
      match r with
      | inr s => Ret (inr (fst s))
      | inl s =>
          let '((rem, buffer, out), _) := s in
          b <- rotate_bytes rotate_right (clen ch1) idx1 (length (enc buffer)) buffer ;;
          debug_assert dbg (str_eqb word b) (move_right word rest' idx2 (rem, b, out))
      end
  | _ => Ret (inl st)
  end.
(** [before] is the rest of the word to the left, last character first. *)
Fixpoint move_left (word before : str) (st : bstate) : Res (bstate + bstate) :=
  match before with
  | ch1 :: ((ch2 :: before2) as before') =>
      let '(rem, buffer, out) := st in
      let idx1 := length (enc (rev before')) in
      let idx2 := length (enc (rev before2)) in
      let end_ := idx1 + clen ch1 in
      b1 <- swap_adjacent idx2 ch2 ch1 buffer ;;
      r <- loopR (fun (st : bstate) (e : nat * N) =>
             let '(rem, buffer, out) := st in
             let '(swap_idx, swap_ch) := e in
             if (rem =? 0)%N then
               b <- rotate_bytes rotate_left (clen ch1) (swap_idx + clen swap_ch) end_ buffer ;;
               debug_assert dbg (str_eqb word b) (Ret (inr (rem, b, out)))
             else
               b <- swap_adjacent swap_idx swap_ch ch1 buffer ;;
               out1 <- try (fst b) out ;;
               Ret (inl ((rem - 1)%N, fst b, out1)))
             (rev (char_indices 0 (rev before2))) (rem, fst b1, out) ;;
      match r with
      | inr s => Ret (inr s)
      | inl s =>
          let '(rem, buffer, out) := s in
          b <- rotate_bytes rotate_left (clen ch1) 0 end_ buffer ;;
          debug_assert dbg (str_eqb word b) (move_left word before' (rem, b, out))
      end
  | _ => Ret (inl st)
  end.
Definition move_char_suggest (word : str) (out : list str) : Res (list str) :=
  debug_assert dbg (nonempty word)
  (rem <- max_attempts word ;;
   r <- move_right word word 0 (rem, word, out) ;;
   match r with
   | inr s => Ret (snd s)
   | inl s =>
       let '(rem, buffer, out) := s in
       debug_assert dbg (str_eqb word buffer)
       (r <- move_left word (rev word) (rem, buffer, out) ;;
        match r with
        | inr s => Ret (snd s)
        | inl s => debug_assert dbg (str_eqb word (snd (fst s))) (Ret (snd s))
        end)
   end).

(** suggester.rs 851-870. *)
Definition wrong_char_suggest (word : str) (out : list str) : Res (list str) :=
  rem <- max_attempts word ;;
  r <- loopR (fun (st : bstate) ch =>
         loopR (fun (st : bstate) (e : nat * N) =>
           let '(rem, buffer, out) := st in
           let '(idx, word_ch) := e in
           if (ch =? word_ch)%N then Ret (inl st)
           else if (rem =? 0)%N then Ret (inr st)
           else
             b1 <- remove_at idx buffer ;;
             b2 <- insert_at idx ch b1 ;;
             out1 <- try b2 out ;;
             b3 <- remove_at idx b2 ;;
             b4 <- insert_at idx word_ch b3 ;;
             Ret (inl ((rem - 1)%N, b4, out1)))
           (combine (seq 0 (length word)) word) st)
         (ad_try aff) (rem, word, out) ;;
  Ret (snd (final r)).

(** suggester.rs 876-910.  [i] is the position of the first character of the window. *)
Fixpoint doubled_loop (word : str) (i : nat) (rest : str) (out : list str) : Res (list str) :=
  match rest with
  | a :: ((b :: c :: d :: e :: _ :: _) as rest') =>
      out1 <- (if (a =? c)%N && (b =? d)%N && (a =? e)%N
               then try (firstn (i + 3) word ++ skipn (i + 5) word) out
               else Ret out) ;;
      doubled_loop word (S i) rest' out1
  | _ => Ret out
  end.
Definition doubled_two_chars_suggest (word : str) (out : list str) : Res (list str) :=
  doubled_loop word 0 word out.

(** suggester.rs 914-973.  The hyphen is written over the byte of the space. *)
Definition two_words_step (word : str) (out : list str) (n : nat) : Res (list str) :=
  let word1 := firstn n word in
  match check_simple_word k word1 SkipHiddenHomonym with
  | None => Ret out
  | Some _ =>
      let word2 := skipn n word in
      match check_simple_word k word2 SkipHiddenHomonym with
      | None => Ret out
      | Some _ =>
          let space := word1 ++ 32%N :: word2 in
          if (1 <? n)%nat && (1 <? length word2)%nat && existsb (fun c => (c =? 97)%N || (c =? 45)%N) (ad_try aff) then
            let idx := length (enc word1) in
            debug_assert dbg (match nth_error (enc space) idx with Some b => (b =? 32)%N | None => false end)
            (h <- in_place (plain (on_slice idx (S idx) (fun _ => Ret [45%N]))) space ;;
             Ret (out ++ [space; fst h]))
          else Ret (out ++ [space])
      end
  end.
Definition two_words_suggest (word : str) (out : list str) : Res (list str) :=
  debug_assert dbg (nonempty word)
  (if o_no_split_sugs opts then Ret out
   else foldR (two_words_step word) (seq 0 (length word)) out).

(** suggester.rs 330-363. *)
Definition suggest_low (word : str) (out : list str) : Res (bool * list str) :=
  let old_len := length out in
  out <- uppercase_suggest word out ;;
  out <- rep_suggest word out ;;
  out <- map_suggest word out ;;
  hq <- (if negb (length out =? old_len)%nat then Ret true
         else if nonempty (ad_sims aff) then
           r <- check_word k fuel word AllowBadForceucase SkipHiddenHomonym ;; Ret (is_someb r)
         else Ret false) ;;
  out <- adjacent_swap_suggest word out ;;
  out <- distant_swap_suggest word out ;;
  out <- keyboard_suggest word out ;;
  out <- extra_char_suggest word out ;;
  out <- forgotten_char_suggest word out ;;
  out <- move_char_suggest word out ;;
  out <- wrong_char_suggest word out ;;
  out <- doubled_two_chars_suggest word out ;;
  out <- two_words_suggest word out ;;
  Ret (hq, out).
End Suggester.

(** suggester.rs 1004-1031. *)
Fixpoint replace_nth {A} (l : list A) (i : nat) (x : A) : list A :=
  match l, i with
  | [], _ => []
  | _ :: l', O => x :: l'
  | y :: l', S i' => y :: replace_nth l' i' x
  end.
(** [slice::swap]. *)
Definition swap {A} (l : list A) (i j : nat) : Res (list A) :=
  match nth_error l i, nth_error l j with
  | Some x, Some y => Ret (replace_nth (replace_nth l i y) j x)
  | _, _ => Panic
  end.
(** suggester.rs 1019-1025: the vector and [result]. *)
Fixpoint dedup_inner (n : nat) (items : list str) (idx first result last : nat) : Res (list str * nat) :=
  if (first <? last)%nat then
    match n with
    | O => NoFuel
    | S n' =>
        match nth_error items first, nth_error items idx with
        | Some a, Some b =>
            if str_eqb a b then dedup_inner n' items idx (S first) result last
            else
              items <- swap items result first ;;
              dedup_inner n' items idx (S first) (S result) last
        | _, _ => Panic
        end
    end
  else Ret (items, result).
Fixpoint position (x : str) (l : list str) : option nat :=
  match l with
  | [] => None
  | y :: l' => if str_eqb y x then Some 0 else option_map S (position x l')
  end.
Fixpoint dedup_outer (n : nat) (items : list str) (idx last : nat) : Res (list str * nat) :=
  if (idx <? last)%nat then
    match n with
    | O => NoFuel
    | S n' =>
        match nth_error items idx with
        | None => Panic
        | Some x =>
            match position x (slice items (S idx) last) with
            | None => dedup_outer n' items (S idx) last
            | Some p =>
                let first := p + idx + 1 in
                r <- dedup_inner (length items) items idx (S first) first last ;;
                dedup_outer n' (fst r) (S idx) (snd r)
            end
        end
    end
  else Ret (items, last).
Definition deduplicate (items : list str) : Res (list str) :=
  match items with
  | [] => Ret []
  | _ :: _ => r <- dedup_outer (length items) items 0 (length items) ;; Ret (firstn (snd r) (fst r))
  end.

Section Suggest.
Variable sg : suggester.
Notation k := (su_checker sg).
Notation aff := (ck_aff (su_checker sg)).
Notation opts := (ad_options (ck_aff (su_checker sg))).
Notation U := (ck_u (su_checker sg)).
Notation case := (o_case (ad_options (ck_aff (su_checker sg)))).
Notation dbg := (su_debug sg).
Variable fuel : nat.

(** suggester.rs 143-146, 150-153, 157-160: suggest for another casing of the word and put it
    in front if it is correct. *)
Definition low_and_first (w : str) (st : bool * list str) : Res (bool * list str) :=
  let '(hq, out) := st in
  r <- suggest_low sg fuel w out ;;
  ok <- check k fuel w ;;
  Ret (hq || fst r, if (ok : bool) then w :: snd r else snd r).

(** suggester.rs 163-188.  [word.len().checked_sub(len).and_then(|s| word.get(s..))] equals the
    tail exactly when the tail is a suffix of the word. *)
Definition fix_space (word : str) (out : list str) (i : nat) : Res (list str) :=
  match nth_error out i with
  | None => Panic
  | Some s =>
      match find_char (N.eqb 32) s with
      | None => Ret out
      | Some j =>
          if ends_with (skipn (S j) s) word then Ret out
          else
            titled <- upper_char_at U case s (S j) ;;
            Ret (titled :: firstn i out ++ skipn (S i) out)
      end
  end.

(** suggester.rs 93-203: the quality of the suggestions and the suggestions; [None] when the
    function returns from here (line 108). *)
Definition by_casing (word : str) (out : list str) : Res ((bool * list str) + list str) :=
  match classify_casing U word with
  | CNone =>
      forced <- (match o_force_upper opts with
                 | Some _ => check_compound k fuel AT_BEGIN word AllowBadForceucase
                 | None => Ret None
                 end) ;;
      match forced with
      | Some _ => t <- titlecase U case word ;; Ret (inr (out ++ [t]))
      | None => r <- suggest_low sg fuel word out ;; Ret (inl r)
      end
  | CInit =>
      r1 <- suggest_low sg fuel word out ;;
      r2 <- suggest_low sg fuel (lowercase U case word) (snd r1) ;;
      Ret (inl (fst r1 || fst r2, snd r2))
  | (CCamel | CPascal) as c =>
      r1 <- suggest_low sg fuel word out ;;
      let out1 :=
        match find_char (N.eqb 46) word with
        | Some dot =>
            match classify_casing U (skipn (S dot) word) with
            | CInit => (firstn (S dot) word ++ 32%N :: skipn (S dot) word) :: snd r1
            | _ => snd r1
            end
        | None => snd r1
        end in
      r2 <- (match c with
             | CPascal => l <- lower_first_char U case word ;; low_and_first l (fst r1, out1)
             | _ => Ret (fst r1, out1)
             end) ;;
      r3 <- low_and_first (lowercase U case word) r2 ;;
      r4 <- (match c with
             | CPascal => t <- titlecase U case word ;; low_and_first t r3
             | _ => Ret r3
             end) ;;
      out4 <- foldR (fix_space word) (seq 0 (length (snd r4))) (snd r4) ;;
      Ret (inl (fst r4, out4))
  | CAll =>
      let lower := lowercase U case word in
      keep <- (match o_keep_case opts with Some _ => check k fuel lower | None => Ret false end) ;;
      let out1 := if (keep : bool) then lower :: out else out in
      r1 <- suggest_low sg fuel lower out1 ;;
      title <- titlecase U case lower ;;
      r2 <- suggest_low sg fuel title (snd r1) ;;
      Ret (inl (fst r1 || fst r2, map (uppercase U case) (snd r2)))
  end.

(** suggester.rs 205-224. *)
Definition by_ngram (word : str) (hq : bool) (out : list str) : Res (list str) :=
  if su_ngram sg && negb hq && negb (o_max_ngram opts =? 0)%N then
    let buffer := match classify_casing U word with CNone => word | _ => lowercase U case word end in
    out1 <- ngram_suggest (su_heaps sg) k (su_words sg) buffer out ;;
    match classify_casing U word with
    | CAll => Ret (firstn (length out) out1 ++ map (uppercase U case) (skipn (length out) out1))
    | _ => Ret out1
    end
  else Ret out.

(** suggester.rs 250-258. *)
Definition dash_push (before : str) (after : option str) (out : list str) (s : str) : Res (list str) :=
  let buffer := before ++ s ++ (match after with Some a => a | None => [] end) in
  r <- check_word k fuel buffer ForbidBadForceucase AcceptHiddenHomonym ;;
  match r with
  | Some flags => if contains flags (o_forbidden opts) then Ret out else Ret (out ++ [buffer])
  | None => Ret (out ++ [buffer])
  end.
(** suggester.rs 232-266.  [rec] is the recursive call on a part with an empty vector. *)
Fixpoint dash_loop (n : nat) (rec : str -> Res (list str)) (word : str) (i : nat) (out : list str) : Res (list str) :=
  match n with
  | O => NoFuel
  | S n' =>
      let rest := skipn i word in
      let j := option_map (Nat.add i) (find_char (N.eqb 45) rest) in
      let part := match j with Some j => slice word i j | None => rest end in
      ok <- check k fuel part ;;
      out1 <- (if (ok : bool) then Ret out
               else
                 tmp <- rec part ;;
                 foldR (dash_push (firstn i word) (option_map (fun j => skipn j word) j)) tmp out) ;;
      match j with
      | Some j => dash_loop n' rec word (S j) out1
      | None => Ret out1
      end
  end.
Definition by_dash (rec : str -> Res (list str)) (word : str) (out : list str) : Res (list str) :=
  if memb 45 word && negb (existsb (memb 45) out)
  then dash_loop (S (length word)) rec word 0 out
  else Ret out.

(** suggester.rs 295-313. *)
Definition retain_step (out : list str) (s : str) : Res (list str) :=
  if memb 32 s then Ret (out ++ [s])
  else
    ok <- check k fuel s ;;
    if (ok : bool) then Ret (out ++ [s])
    else
      let lower := lowercase U case s in
      ok <- check k fuel lower ;;
      if (ok : bool) then Ret (out ++ [lower])
      else
        title <- titlecase U case s ;;
        ok <- check k fuel title ;;
        if (ok : bool) then Ret (out ++ [title]) else Ret out.

(** suggester.rs 83-328.  [n] bounds the depth of the recursion. *)
Fixpoint suggest_impl (n : nat) (word : str) (out : list str) : Res (list str) :=
  match word with
  | [] => Ret out
  | _ :: _ =>
      match n with
      | O => NoFuel
      | S n' =>
          word <- convert (ad_iconv aff) word ;;
          r <- by_casing word out ;;
          match r with
          | inr out1 => Ret out1
          | inl (hq, out1) =>
              out2 <- by_ngram word hq out1 ;;
              out3 <- by_dash (fun part => suggest_impl n' part []) word out2 ;;
              let c := classify_casing U word in
              out4 <- (match c with
                       | CInit | CPascal => mapR (fun s => upper_char_at U case s 0) out3
                       | _ => Ret out3
                       end) ;;
              out5 <- (match c with
                       | CInit | CAll => foldR retain_step out4 []
                       | _ => Ret out4
                       end) ;;
              out6 <- deduplicate out5 ;;
              mapR (convert (ad_oconv aff)) out6
          end
      end
  end.

(** suggester.rs 74-81: [out.clear()], then the length test. *)
Definition suggest (word : str) (out : list str) : Res (list str) :=
  let out := [] in
  if (max_word_len <? blen word)%N then Ret out
  else suggest_impl fuel word out.
End Suggest.
