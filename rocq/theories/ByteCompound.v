(** The compound checker on the bytes of the word and with byte offsets, as checker.rs has it:
    slices are checked for bounds and character boundaries and panic otherwise.  [Properties_Offsets]
    shows that it agrees with the model on characters in Checker.v.  Where the code hands a [&str]
    to a function that is modelled on characters (the lookups of checker.rs 404-467 and
    2147-2233, the syllables) the bytes are decoded; bytes that are not UTF-8 count as a panic. *)
From Coq Require Import List NArith ZArith Lia Bool Arith.
From Verif Require Import Base Utf8 Unicode Flags Condition Affix CompoundRule Conversion Aff Checker.
Import ListNotations.
Local Open Scope nat_scope.
Set Implicit Arguments.

(** [&text[a..b]]. *)
Definition b_cut (bs : list N) (a b : nat) : Res (list N) :=
  if (a <=? b) && (b <=? length bs) && boundary bs a && boundary bs b then Ret (slice bs a b) else Panic.
(** [&text[a..]]. *)
Definition b_from (bs : list N) (a : nat) : Res (list N) := b_cut bs a (length bs).
(** [text.get(a..b)] and [text.get(a..)]. *)
Definition b_get (bs : list N) (a b : nat) : option (list N) :=
  match b_cut bs a b with Ret s => Some s | _ => None end.
Definition b_get_from (bs : list N) (a : nat) : option (list N) := b_get bs a (length bs).
(** The characters of a [&str]. *)
Definition b_text (bs : list N) : Res str := match dec bs with Some w => Ret w | None => Panic end.
(** [String::replace_range(a..b, r)]. *)
Definition b_replace (bs : list N) (a b : nat) (r : list N) : Res (list N) :=
  if (a <=? b) && (b <=? length bs) && boundary bs a && boundary bs b then Ret (firstn a bs ++ r ++ skipn b bs) else Panic.
(** [String::insert(a, c)]. *)
Definition b_insert (bs : list N) (a : nat) (c : N) : Res (list N) :=
  if (a <=? length bs) && boundary bs a then Ret (firstn a bs ++ enc1 c ++ skipn a bs) else Panic.
(** [a - b] on [usize]: a build without overflow checks would wrap, and then go wrong. *)
Definition b_minus (a b : nat) : Res nat := if b <=? a then Ret (a - b) else Panic.
(** The offsets of [str::char_indices]. *)
Definition b_indices (bs : list N) : list nat :=
  filter (fun i => negb (cont (nth i bs 0%N))) (seq 0 (length bs)).

(** checker.rs 2465-2492. *)
Definition b_three_equal (bs : list N) (idx : nat) : Res bool :=
  ahead <- b_from bs idx ;;
  behind <- b_cut bs 0 idx ;;
  ahead <- b_text ahead ;;
  behind <- b_text behind ;;
  Ret (match ahead, rev behind with
       | ch :: ahead, prev :: behind =>
           (prev =? ch)%N &&
           (match ahead with nx :: _ => (nx =? ch)%N | [] => false end ||
            match behind with pp :: _ => (pp =? ch)%N | [] => false end)
       | _, _ => false
       end).
(** checker.rs 2499-2510. *)
Definition b_uppercase_at (U : unicode) (bs : list N) (idx : nat) : Res bool :=
  ahead <- b_from bs idx ;;
  behind <- b_cut bs 0 idx ;;
  ahead <- b_text ahead ;;
  behind <- b_text behind ;;
  Ret (match ahead, rev behind with
       | ch :: _, prev :: _ => (u_is_upper U ch && u_is_alpha U prev) || (u_is_upper U prev && u_is_alpha U ch)
       | _, _ => false
       end).
(** checker.rs 2512-2514. *)
Definition b_prev (bs : list N) (byte : nat) : Res (option (nat * N)) :=
  head <- b_cut bs 0 byte ;;
  w <- b_text head ;;
  Ret (match rev w with [] => None | c :: _ => Some (byte - length (enc1 c), c) end).
(** checker.rs 2521-2558. *)
Fixpoint b_take_while (p : nat -> bool) (l : list nat) : list nat :=
  match l with [] => [] | x :: l' => if p x then x :: b_take_while p l' else [] end.
Definition b_within (bs : list N) (start margin : nat) : Res (list nat) :=
  tail <- b_from bs start ;;
  match nth_error (b_indices tail) margin with
  | None => Ret []
  | Some byte =>
      let sb := byte + start in
      match (if (margin =? 1) then Some (length bs)
             else nth_error (b_take_while (fun b => sb <=? b) (rev (b_indices bs))) (margin - 2)) with
      | None => Ret []
      | Some e => part <- b_cut bs sb e ;; Ret (map (fun b => b + sb) (b_indices part))
      end
  end.

Section Checker.
Variable k : checker.
(** Whether the build has debug assertions. *)
Variable dbg : bool.
Notation aff := (ck_aff k).
Notation opts := (ad_options (ck_aff k)).
Notation U := (ck_u k).

Definition b_part (m : mode) (bs : list N) : Res (option cresult) := w <- b_text bs ;; check_word_in_compound k m w.
Definition b_simple (bs : list N) : Res bool := w <- b_text bs ;; Ret (simple_ok k w).

(** checker.rs 1829-1898. *)
Fixpoint b_rep_start (l : list (str * str)) (word scratch : list N) : Res (bool * list N) :=
  match l with
  | [] => Ret (false, scratch)
  | (from, to) :: l' =>
      if starts_with (enc from) word then
        s1 <- b_replace scratch 0 (length (enc from)) (enc to) ;;
        ok <- b_simple s1 ;;
        if (ok : bool) then Ret (true, s1)
        else s2 <- b_replace s1 0 (length (enc to)) (enc from) ;; b_rep_start l' word s2
      else b_rep_start l' word scratch
  end.
Fixpoint b_rep_end (l : list (str * str)) (word scratch : list N) : Res (bool * list N) :=
  match l with
  | [] => Ret (false, scratch)
  | (from, to) :: l' =>
      if ends_with (enc from) word then
        idx <- b_minus (length word) (length (enc from)) ;;
        s1 <- b_replace scratch idx (length scratch) (enc to) ;;
        ok <- b_simple s1 ;;
        if (ok : bool) then Ret (true, s1)
        else s2 <- b_replace s1 idx (length s1) (enc from) ;; b_rep_end l' word s2
      else b_rep_end l' word scratch
  end.
Fixpoint b_rep_at (idxs : list nat) (from to : str) (scratch : list N) : Res (bool * list N) :=
  match idxs with
  | [] => Ret (false, scratch)
  | i :: idxs' =>
      s1 <- b_replace scratch i (i + length (enc from)) (enc to) ;;
      ok <- b_simple s1 ;;
      if (ok : bool) then Ret (true, s1)
      else s2 <- b_replace s1 i (i + length (enc to)) (enc from) ;; b_rep_at idxs' from to s2
  end.
(** [str::match_indices] yields the byte offsets of the matches. *)
Definition b_matches (from : str) (word : list N) : Res (list nat) :=
  w <- b_text word ;; Ret (map (fun i => length (enc (firstn i w))) (match_indices from w)).
Fixpoint b_rep_any (l : list (str * str)) (word scratch : list N) : Res (bool * list N) :=
  match l with
  | [] => Ret (false, scratch)
  | (from, to) :: l' =>
      idxs <- b_matches from word ;;
      r <- b_rep_at idxs from to scratch ;;
      if fst r then Ret r else b_rep_any l' word (snd r)
  end.
Definition b_assert_eq {A} (a b : list N) (cont : Res A) : Res A := if dbg && negb (str_eqb a b) then Panic else cont.
Definition b_rep_similar (word : list N) : Res bool :=
  let t := ad_reps aff in
  if existsb (fun e => str_eqb word (enc (fst e)) && simple_ok k (snd e)) (whole_reps t) then Ret true
  else if only_whole_reps t then Ret false
  else
    r1 <- b_rep_start (start_reps t) word word ;;
    if fst r1 then Ret true
    else b_assert_eq (snd r1) word (
      r2 <- b_rep_end (end_reps t) word (snd r1) ;;
      if fst r2 then Ret true
      else b_assert_eq (snd r2) word (
        r3 <- b_rep_any (any_reps t) word (snd r2) ;;
        if fst r3 then Ret true
        else b_assert_eq (snd r3) word (Ret false))).

(** checker.rs 2300-2347. *)
Definition b_pattern_matches (p : compound_pattern) (word : list N) (i : nat) (e1 e2 : cresult) : bool :=
  let partition := length (enc (cp_begin p)) in
  if i <? partition then false
  else if negb (match b_get_from word (i - partition) with
                | Some comp => starts_with (enc (cp_begin p ++ cp_end p)) comp
                | None => false
                end) then false
  else if flag_missing (cp_first_flag p) (cr_flags e1) then false
  else if flag_missing (cp_second_flag p) (cr_flags e2) then false
  else if cp_unaffixed p && cr_modified e1 then false
  else true.
Definition b_forbidden_by_patterns (word : list N) (i : nat) (e1 e2 : cresult) : bool :=
  existsb (fun p => b_pattern_matches p word i e1 e2) (ad_patterns aff).

(** [self.is_rep_similar(&word[start_pos..])] with CHECKCOMPOUNDREP. *)
Definition b_rep_check (word : list N) (start : nat) : Res bool :=
  if o_check_rep opts then s <- b_from word start ;; b_rep_similar s else Ret false.
(** checker.rs 1648-1653, 1815-1820. *)
Definition b_rep_check_part2 (word : list N) (start i : nat) (e2 : cresult) : Res bool :=
  if o_check_rep opts then
    if (match b_get_from word i with Some tail => starts_with (enc (cr_stem e2)) tail | None => false end)
    then s <- b_cut word start (i + length (enc (cr_stem e2))) ;; b_rep_similar s
    else Ret false
  else Ret false.
(** The two tests of a part that is itself a compound. *)
Definition b_rep_checks (word : list N) (start i : nat) (e2 : cresult) : Res bool :=
  r <- b_rep_check word start ;; if (r : bool) then Ret true else b_rep_check_part2 word start i e2.

Section Step.
Variable rec : list N -> nat -> nat -> forceucase -> Res (option cresult).

(** checker.rs 1495-1552, 1707-1772. *)
Definition b_second_rejected (word rep_word : list N) (start i : nat) (fu : forceucase) (e1 e2 : cresult) : Res bool :=
  if is_forbidden k (cr_flags e2) || b_forbidden_by_patterns word i e1 e2 || (o_check_duplicate opts && cr_eqb e1 e2) then Ret true
  else
    r <- b_rep_check rep_word start ;;
    if (r : bool) then Ret true else Ret (fu_forbid fu && has_flag (cr_flags e2) (o_force_upper opts)).

(** checker.rs 1786-1826. *)
Definition b_triple_recursive (triple word : list N) (start i num : nat) (fu : forceucase) (e1 : cresult) : Res (option cresult) :=
  r <- rec triple i (num + 1) fu ;;
  match r with
  | None => Ret None
  | Some e2 =>
      if b_forbidden_by_patterns triple i e1 e2 then Ret None
      else c <- b_rep_checks word start i e2 ;; if (c : bool) then Ret None else Ret (Some e1)
  end.

(** checker.rs 1668-1783. *)
Definition b_simplified_triple (word : list N) (start i num : nat) (fu : forceucase) (e1 : cresult) : Res (option cresult) :=
  if negb (o_simplified_triple opts) then Ret None
  else
    p <- b_prev word i ;;
    match p with
    | None => Ret None
    | Some (pi, pc) =>
        if pi =? 0 then Ret None
        else
          p2 <- b_prev word pi ;;
          match p2 with
          | None => Ret None
          | Some (_, pc2) =>
              if negb (pc =? pc2)%N then Ret None
              else
                triple <- b_insert word pi pc ;;
                part <- b_from triple i ;;
                p2 <- b_part AT_END part ;;
                match p2 with
                | None => b_triple_recursive triple word start i num fu e1
                | Some e2 =>
                    c <- b_second_rejected triple word start i fu e1 e2 ;;
                    if (c : bool) then b_triple_recursive triple word start i num fu e1
                    else if exceeds_max k num then Ret None
                    else Ret (Some e1)
                end
          end
    end.

(** checker.rs 1595-1666. *)
Definition b_recursive (word : list N) (start i num : nat) (fu : forceucase) (e1 : cresult) : Res (option cresult) :=
  r <- rec word i (num + 1) fu ;;
  match r with
  | None => b_simplified_triple word start i num fu e1
  | Some e2 =>
      if b_forbidden_by_patterns word i e1 e2 then b_simplified_triple word start i num fu e1
      else c <- b_rep_checks word start i e2 ;; if (c : bool) then b_simplified_triple word start i num fu e1 else Ret (Some e1)
  end.

(** checker.rs 1447-1593. *)
Definition b_classic (m : mode) (word : list N) (start i num : nat) (fu : forceucase) : Res (option cresult) :=
  part1 <- b_cut word start i ;;
  p1 <- b_part m part1 ;;
  match p1 with
  | None => Ret None
  | Some e1 =>
      if is_forbidden k (cr_flags e1) then Ret None
      else
        t <- (if o_check_triple opts then b_three_equal word i else Ret false) ;;
        if (t : bool) then Ret None
        else
          u <- (if o_check_case opts then b_uppercase_at U word i else Ret false) ;;
          if (u : bool) then Ret None
          else
            let num1 := add_part k num e1 in
            part2 <- b_from word i ;;
            p2 <- b_part AT_END part2 ;;
            match p2 with
            | None => b_recursive word start i num1 fu e1
            | Some e2 =>
                c <- b_second_rejected word word start i fu e1 e2 ;;
                if (c : bool) then b_recursive word start i num1 fu e1
                else if reaches_max k (add_part k num1 e2) then
                  if negb (nonempty (ad_vowels aff)) then Ret None
                  else
                    w <- b_text word ;;
                    ns <- usize_add_i16 (ck_overflow_checks k) (count_syllables k w) (cr_syllables e2) ;;
                    if (match o_syllable_max opts with Some n => n | None => 0%N end <? ns)%N
                    then b_recursive word start i num1 fu e1
                    else Ret (Some e1)
                else Ret (Some e1)
            end
  end.

(** checker.rs 1969-2010 and 2066-2113. *)
Definition b_pattern_plain (p : compound_pattern) (word scratch : list N) (start j : nat) (num : nat)
    (fu : forceucase) (e1 : cresult) (cont : unit -> Res (option cresult + unit)) : Res (option cresult + unit) :=
  part <- b_from scratch j ;;
  p2 <- b_part AT_END part ;;
  match p2 with
  | None => cont tt
  | Some e2 =>
      if is_forbidden k (cr_flags e2) || flag_missing (cp_second_flag p) (cr_flags e2) || (o_check_duplicate opts && cr_eqb e1 e2)
      then cont tt
      else
        r <- b_rep_check word start ;;
        if (r || (fu_forbid fu && has_flag (cr_flags e2) (o_force_upper opts)))%bool then cont tt
        else if reaches_max k num then Ret (inl None)
        else Ret (inl (Some e1))
  end.
(** checker.rs 2029-2039: [word] is the surface form, the second test is on [scratch]. *)
Definition b_rep_pattern (word scratch : list N) (start j : nat) (e2 : cresult) : Res bool :=
  if o_check_rep opts then
    s <- b_from word start ;;
    r <- b_rep_similar s ;;
    if (r : bool) then Ret true
    else
      tail <- b_from scratch j ;;
      if starts_with (enc (cr_stem e2)) tail
      then s <- b_cut scratch start (j + length (enc (cr_stem e2))) ;; b_rep_similar s
      else Ret false
  else Ret false.
(** checker.rs 2124-2139. *)
Definition b_rep_pattern_triple (word scratch triple : list N) (start j : nat) (c : N) (e2 : cresult) : Res bool :=
  if o_check_rep opts then
    s <- b_from word start ;;
    r <- b_rep_similar s ;;
    if (r : bool) then Ret true
    else
      tail <- b_from triple j ;;
      if starts_with (enc (cr_stem e2)) tail
      then
        e <- b_minus (j + length (enc (cr_stem e2))) (length (enc1 c)) ;;
        match b_get scratch start e with Some s => b_rep_similar s | None => Ret false end
      else Ret false
  else Ret false.

(** The body of the loop of checker.rs 1929-2142. *)
Definition b_pattern_step (m : mode) (word : list N) (start i num : nat) (fu : forceucase) (p : compound_pattern)
  : Res (option cresult + unit) :=
  match cp_replacement p with
  | None => Ret (inr tt)
  | Some replacement =>
      here <- b_from word i ;;
      if negb (starts_with (enc replacement) here) then Ret (inr tt)
      else
        before <- b_cut word 0 i ;;
        after <- b_from word (i + length (enc replacement)) ;;
        let scratch := before ++ enc (cp_begin p ++ cp_end p) ++ after in
        let j := i + length (enc (cp_begin p)) in
        part1 <- b_cut scratch start j ;;
        p1 <- b_part m part1 ;;
        match p1 with
        | None => Ret (inr tt)
        | Some e1 =>
            if is_forbidden k (cr_flags e1) then Ret (inr tt)
            else if flag_missing (cp_first_flag p) (cr_flags e1) then Ret (inr tt)
            else
              t <- (if o_check_triple opts then b_three_equal scratch j else Ret false) ;;
              if (t : bool) then Ret (inr tt)
              else
                b_pattern_plain p word scratch start j num fu e1 (fun _ =>
                r <- rec scratch j (num + 1) fu ;;
                c <- (match r with
                      | None => Ret true
                      | Some e2 =>
                          if flag_missing (cp_second_flag p) (cr_flags e2) then Ret true
                          else b_rep_pattern word scratch start j e2
                      end) ;;
                if negb c then Ret (inl (Some e1))
                else if negb (o_simplified_triple opts) then Ret (inr tt)
                else
                  q <- b_prev scratch j ;;
                  match q with
                  | None => Ret (inr tt)
                  | Some (pi, pc) =>
                      if pi =? 0 then Ret (inr tt)
                      else
                        q2 <- b_prev scratch pi ;;
                        match q2 with
                        | None => Ret (inr tt)
                        | Some (_, pc2) =>
                            if negb (pc =? pc2)%N then Ret (inr tt)
                            else
                              front <- b_cut scratch 0 j ;;
                              back <- b_from scratch j ;;
                              let triple := front ++ enc1 pc ++ back in
                              b_pattern_plain p word triple start j num fu e1 (fun _ =>
                              r <- rec triple j (num + 1) fu ;;
                              match r with
                              | None => Ret (inr tt)
                              | Some e2 =>
                                  if flag_missing (cp_second_flag p) (cr_flags e2) then Ret (inr tt)
                                  else
                                    c <- b_rep_pattern_triple word scratch triple start j pc e2 ;;
                                    if (c : bool) then Ret (inr tt) else Ret (inl (Some e1))
                              end)
                        end
                  end)
        end
  end.
Fixpoint b_pattern_loop (m : mode) (word : list N) (start i num : nat) (fu : forceucase) (ps : list compound_pattern)
  : Res (option cresult) :=
  match ps with
  | [] => Ret None
  | p :: ps' =>
      r <- b_pattern_step m word start i num fu p ;;
      match r with
      | inl o => Ret o
      | inr _ => b_pattern_loop m word start i num fu ps'
      end
  end.

(** checker.rs 1408-1445. *)
Definition b_compound_impl (m : mode) (word : list N) (start num : nat) (fu : forceucase) : Res (option cresult) :=
  is <- b_within word start (min_chars k) ;;
  firstR (fun i =>
    b_classic m word start i num fu ORELSE
    b_pattern_loop m word start i num fu (ad_patterns aff)) is.
End Step.

Fixpoint b_compound_middle (fuel : nat) (word : list N) (start num : nat) (fu : forceucase) : Res (option cresult) :=
  match fuel with
  | O => NoFuel
  | S fuel' => b_compound_impl (b_compound_middle fuel') AT_MIDDLE word start num fu
  end.

(** checker.rs 2364-2433. *)
Definition b_rule_part (bs : list N) : Res (option flagset) := w <- b_text bs ;; Ret (rule_part k w).
Fixpoint b_rules_impl (fuel : nat) (word : list N) (data : list flagset) (start : nat) (fu : forceucase) : Res (option cresult) :=
  match fuel with
  | O => NoFuel
  | S fuel' =>
      is <- b_within word start (min_chars k) ;;
      firstR (fun i =>
        part1 <- b_cut word start i ;;
        p1 <- b_rule_part part1 ;;
        match p1 with
        | None => Ret None
        | Some f1 =>
            let data1 := data ++ [f1] in
            part2 <- b_from word i ;;
            p2 <- b_rule_part part2 ;;
            direct <- (match p2 with
                       | Some f2 =>
                           ok <- any_rule_matches (ad_rules aff) (data1 ++ [f2]) ;;
                           Ret (ok && negb (fu_forbid fu && has_flag f2 (o_force_upper opts)))
                       | None => Ret false
                       end) ;;
            if (direct : bool) then w1 <- b_text part1 ;; Ret (Some (mkCR w1 f1 0 0 false))
            else b_rules_impl fuel' word data1 i fu
        end) is
  end.

(** checker.rs 1387-1406.  The rules go no deeper than the word has characters. *)
Definition b_check_compound (fuel : nat) (m : mode) (word : list N) (fu : forceucase) : Res (option cresult) :=
  (if allows_compounding opts then b_compound_impl (b_compound_middle fuel) m word 0 0 fu else Ret None)
  ORELSE
  (if nonempty (rt_rules (ad_rules aff)) then b_rules_impl (S (length (b_indices word))) word [] 0 fu else Ret None).
End Checker.
