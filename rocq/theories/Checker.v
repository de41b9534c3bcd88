(** The checker: checker.rs 97-2618. *)
From Coq Require Import List NArith ZArith Lia Bool Arith.
From Coq Require Import ZifyBool ZifyNat ZifyN.
From Verif Require Import Base Utf8 Unicode Flags Condition Affix CompoundRule Conversion Aff.
Import ListNotations.
Set Implicit Arguments.

(** [Checker] (checker.rs 29-35).  [ck_get] is the lookup of the word list
    ([HashBag::get]): the flag sets of the entries whose stem equals the argument, in
    the order the table yields them (modelled in Bag.v).  [ck_overflow_checks] tells
    whether the crate was compiled with overflow checks (debug builds). *)
Record checker := mkChecker {
  ck_u : unicode;
  ck_overflow_checks : bool;
  ck_aff : affdata;
  ck_get : str -> list flagset;
  ck_lower_as_title : bool;
  ck_lower_as_upper : bool }.

(** checker.rs 2561-2587. *)
Inductive forceucase := ForbidBadForceucase | AllowBadForceucase.
Definition fu_forbid (f : forceucase) : bool :=
  match f with ForbidBadForceucase => true | AllowBadForceucase => false end.
Inductive hidden_homonym := AcceptHiddenHomonym | SkipHiddenHomonym.
Definition hh_skip (h : hidden_homonym) : bool :=
  match h with SkipHiddenHomonym => true | AcceptHiddenHomonym => false end.

(** [AffixForm] (checker.rs 2591-2597). *)
Record affix_form := mkForm {
  af_stem : str; af_flags : flagset; af_prefixes : list affix; af_suffixes : list affix }.

(** [CompoundingResult] (checker.rs 2601-2607). *)
Record cresult := mkCR {
  cr_stem : str; cr_flags : flagset; cr_words : N; cr_syllables : Z; cr_modified : bool }.

(** The derived [PartialEq] of [CompoundingResult]. *)
Definition cr_eqb (a b : cresult) : bool :=
  str_eqb (cr_stem a) (cr_stem b) && str_eqb (cr_flags a) (cr_flags b) &&
  (cr_words a =? cr_words b)%N && (cr_syllables a =? cr_syllables b)%Z &&
  Bool.eqb (cr_modified a) (cr_modified b).

(** [if let Some(x) = a { return Some(x) } b] with possible panics. *)
Notation "a 'ORELSE' b" := (match a with Ret None => b | r => r end)
  (at level 62, right associativity, only parsing).

(** *** Small helpers *)

(** [is_number] (checker.rs 2440-2456). *)
Fixpoint number_go (w : str) (separated : bool) : bool :=
  match w with
  | [] => negb separated
  | c :: w' =>
      if (48 <=? c)%N && (c <=? 57)%N then number_go w' false
      else if ((c =? 46) || (c =? 45) || (c =? 44))%N && negb separated then number_go w' true
      else false
  end.
Definition is_number (w : str) : bool :=
  let w' := match strip_prefix [45%N] w with Some r => r | None => w end in
  match w' with [] => false | _ => number_go w' true end.

(** [str::trim_end_matches('.')]. *)
Fixpoint drop_dots (r : str) : str :=
  match r with 46%N :: r' => drop_dots r' | _ => r end.
Definition trim_end_dots (w : str) : str := rev (drop_dots (rev w)).

(** [are_three_chars_equal] (checker.rs 2465-2492). *)
Definition are_three_chars_equal (w : str) (idx : nat) : bool :=
  match skipn idx w, rev (firstn idx w) with
  | ch :: ahead, prev :: behind =>
      (prev =? ch)%N &&
      (match ahead with nx :: _ => (nx =? ch)%N | [] => false end ||
       match behind with pp :: _ => (pp =? ch)%N | [] => false end)
  | _, _ => false
  end.

(** [has_uppercase_at_compound_word_boundary] (checker.rs 2499-2510). *)
Definition has_uppercase_at_boundary (U : unicode) (w : str) (idx : nat) : bool :=
  match skipn idx w, rev (firstn idx w) with
  | ch :: _, prev :: _ =>
      (u_is_upper U ch && u_is_alpha U prev) || (u_is_upper U prev && u_is_alpha U ch)
  | _, _ => false
  end.

(** [prev_codepoint] (checker.rs 2512-2514), with character offsets. *)
Definition prev_codepoint (w : str) (i : nat) : option (nat * N) :=
  match rev (firstn i w) with [] => None | c :: r => Some (length r, c) end.

(** [bytes_within] (checker.rs 2521-2558), with character offsets. *)
Definition within (w : str) (start margin : nat) : list nat :=
  let n := length w in
  let sb := start + margin in
  if (sb <? n)%nat then
    let e := if (margin =? 1)%nat then Some n
             else (* the [margin - 2]th character from the back, if not before [sb] *)
               if (margin - 2 <? n - sb)%nat then Some (n - 1 - (margin - 2)) else None in
    match e with Some e => seq sb (e - sb) | None => [] end
  else [].

(** [String::replace_range]. *)
Definition replace_range (s : str) (i n : nat) (r : str) : str :=
  firstn i s ++ r ++ skipn (i + n) s.

(** [str::match_indices] with a non-empty pattern: leftmost, non-overlapping. *)
Fixpoint match_indices_go (fuel : nat) (p w : str) (off : nat) : list nat :=
  match fuel with
  | O => []
  | S fuel' =>
      match find_sub p w with
      | None => []
      | Some i => (off + i) :: match_indices_go fuel' p (skipn (i + length p) w) (off + i + length p)
      end
  end.
Definition match_indices (p w : str) : list nat := match_indices_go (S (length w)) p w 0.

(** i16 and usize arithmetic. *)
Definition i16_wrap (z : Z) : Z := ((z + 32768) mod 65536 - 32768)%Z.
Definition i16_op (checks : bool) (z : Z) : Res Z :=
  if (-32768 <=? z)%Z && (z <=? 32767)%Z then Ret z
  else if checks then Panic else Ret (i16_wrap z).
(** [num_syllable += modifier as usize] (checker.rs 1571), 64-bit [usize]. *)
Definition usize_add_i16 (checks : bool) (n : N) (m : Z) : Res N :=
  let s := (Z.of_N n + m)%Z in
  if (0 <=? m)%Z then Ret (Z.to_N s)
  else if (0 <=? s)%Z then (if checks then Panic else Ret (Z.to_N s))
  else Ret (Z.to_N (s + 2 ^ 64)).

Section Checker.
Variable k : checker.
Notation aff := (ck_aff k).
Notation opts := (ad_options (ck_aff k)).
Notation U := (ck_u k).
Notation words := (ck_get k).

(** The affix iterators.  [affixes_of] always returns on the indexes the parser builds
    ([affixes_of_spec], Affix.v). *)
Definition pfx_of (w : str) : list affix :=
  match affixes_of Pfx (ad_prefixes aff) w with Ret l => l | _ => [] end.
Definition sfx_of (w : str) : list affix :=
  match affixes_of Sfx (ad_suffixes aff) w with Ret l => l | _ => [] end.

Definition is_full (m : mode) : bool := match m with FULL_WORD => true | _ => false end.
Definition is_begin (m : mode) : bool := match m with AT_BEGIN => true | _ => false end.
Definition is_end (m : mode) : bool := match m with AT_END => true | _ => false end.

(** [Pfx::is_valid] (aff.rs 291-305) and [Sfx::is_valid] (aff.rs 318-332). *)
Definition affix_valid (kd : kind) (m : mode) (a : affix) : bool :=
  if is_full m && has_flag (a_flags a) (o_only_in_compound opts) then false
  else if (match kd with Pfx => is_end m | Sfx => is_begin m end)
          && negb (has_flag (a_flags a) (o_permit opts)) then false
  else if negb (is_full m) && has_flag (a_flags a) (o_forbid opts) then false
  else true.

(** checker.rs 594-607. *)
Definition is_outer_affix_valid (kd : kind) (m : mode) (a : affix) : bool :=
  affix_valid kd m a && negb (has_flag (a_flags a) (o_need_affix opts)).

(** checker.rs 609-611. *)
Definition is_circumfix (a : affix) : bool := has_flag (a_flags a) (o_circumfix opts).

(** checker.rs 613-634. *)
Definition is_valid_inside_compound (m : mode) (flags : flagset) : bool :=
  let c := has_flag flags (o_compound opts) in
  match m with
  | AT_BEGIN => c || has_flag flags (o_compound_begin opts)
  | AT_MIDDLE => c || has_flag flags (o_compound_middle opts)
  | AT_END => c || has_flag flags (o_compound_end opts)
  | FULL_WORD => true
  end.

Definition hidden (hh : hidden_homonym) (flags : flagset) : bool :=
  hh_skip hh && contains flags hidden_homonym_flag.
Definition only_in_compound (flags : flagset) : bool := has_flag flags (o_only_in_compound opts).
Definition need_affix (flags : flagset) : bool := has_flag flags (o_need_affix opts).
Definition pcond (a : affix) (stem : str) : bool := prefix_condition_matches (a_cond a) stem.
Definition scond (a : affix) (stem : str) : bool := suffix_condition_matches (a_cond a) stem.

(** checker.rs 469-529. *)
Definition strip_suffix_only (m : mode) (word : str) (hh : hidden_homonym) : option affix_form :=
  first_some (fun suffix =>
    if negb (is_outer_affix_valid Sfx m suffix) then None
    else if nonempty (a_add suffix) && is_end m && has_flag (a_flags suffix) (o_only_in_compound opts) then None
    else if is_circumfix suffix then None
    else
      let stem := suffix_to_stem suffix word in
      if negb (scond suffix stem) then None
      else first_some (fun flags =>
        if negb (contains flags (a_flag suffix)) then None
        else if is_full m && only_in_compound flags then None
        else if hidden hh flags then None
        else if negb (is_valid_inside_compound m flags) &&
                negb (is_valid_inside_compound m (a_flags suffix)) then None
        else Some (mkForm stem flags [] [suffix])) (words stem)) (sfx_of word).

(** checker.rs 531-591. *)
Definition strip_prefix_only (m : mode) (word : str) (hh : hidden_homonym) : option affix_form :=
  first_some (fun prefix =>
    if negb (is_outer_affix_valid Pfx m prefix) then None
    else if nonempty (a_add prefix) && is_end m && has_flag (a_flags prefix) (o_only_in_compound opts) then None
    else if is_circumfix prefix then None
    else
      let stem := prefix_to_stem prefix word in
      if negb (pcond prefix stem) then None
      else first_some (fun flags =>
        if negb (contains flags (a_flag prefix)) then None
        else if is_full m && only_in_compound flags then None
        else if hidden hh flags then None
        else if negb (is_valid_inside_compound m flags) &&
                negb (is_valid_inside_compound m (a_flags prefix)) then None
        else Some (mkForm stem flags [prefix] [])) (words stem)) (pfx_of word).

(** checker.rs 636-728. *)
Definition strip_prefix_then_suffix_commutative (m : mode) (word : str) (hh : hidden_homonym)
  : option affix_form :=
  first_some (fun prefix =>
    if negb (a_cross prefix) then None
    else if negb (affix_valid Pfx m prefix) then None
    else
      let stem1 := prefix_to_stem prefix word in
      if negb (pcond prefix stem1) then None
      else
        let na_prefix := need_affix (a_flags prefix) in
        let circ_prefix := is_circumfix prefix in
        first_some (fun suffix =>
          if negb (a_cross suffix) then None
          else if negb (affix_valid Sfx m suffix) then None
          else
            let na_suffix := need_affix (a_flags suffix) in
            if na_prefix && na_suffix then None
            else if negb (Bool.eqb circ_prefix (is_circumfix suffix)) then None
            else
              let stem2 := suffix_to_stem suffix stem1 in
              if negb (scond suffix stem2) then None
              else first_some (fun flags =>
                let valid_prefix_outer := negb na_prefix && contains flags (a_flag suffix) &&
                  (contains (a_flags suffix) (a_flag prefix) || contains flags (a_flag prefix)) in
                let valid_suffix_outer := negb na_suffix && contains flags (a_flag prefix) &&
                  (contains (a_flags prefix) (a_flag suffix) || contains flags (a_flag suffix)) in
                if negb valid_prefix_outer && negb valid_suffix_outer then None
                else if is_full m && only_in_compound flags then None
                else if hidden hh flags then None
                else if negb (is_valid_inside_compound m flags) &&
                        negb (is_valid_inside_compound m (a_flags suffix)) &&
                        negb (is_valid_inside_compound m (a_flags prefix)) then None
                else Some (mkForm stem2 flags [prefix] [suffix])) (words stem2))
          (sfx_of stem1)) (pfx_of word).

Definition p_all_flags := i_all_flags (ad_prefixes aff).
Definition s_all_flags := i_all_flags (ad_suffixes aff).

(** checker.rs 730-808. *)
Definition strip_suffix_then_suffix (word : str) (hh : hidden_homonym) : option affix_form :=
  if negb (nonempty s_all_flags) then None
  else first_some (fun outer =>
    if negb (contains s_all_flags (a_flag outer)) then None
    else if negb (is_outer_affix_valid Sfx FULL_WORD outer) then None
    else if is_circumfix outer then None
    else
      let stem := suffix_to_stem outer word in
      if negb (scond outer stem) then None
      else first_some (fun inner =>
        if negb (contains (a_flags inner) (a_flag outer)) then None
        else if negb (affix_valid Sfx FULL_WORD inner) then None
        else if is_circumfix inner then None
        else
          let stem2 := suffix_to_stem inner stem in
          if negb (scond inner stem2) then None
          else first_some (fun flags =>
            if negb (contains flags (a_flag inner)) then None
            else if only_in_compound flags then None
            else if hidden hh flags then None
            else Some (mkForm stem2 flags [] [outer; inner])) (words stem2)) (sfx_of stem)) (sfx_of word).

(** checker.rs 810-885. *)
Definition strip_prefix_then_prefix (word : str) (hh : hidden_homonym) : option affix_form :=
  if negb (nonempty p_all_flags) then None
  else first_some (fun outer =>
    if negb (contains p_all_flags (a_flag outer)) then None
    else if negb (is_outer_affix_valid Pfx FULL_WORD outer) then None
    else if is_circumfix outer then None
    else
      let stem := prefix_to_stem outer word in
      if negb (pcond outer stem) then None
      else first_some (fun inner =>
        if negb (contains (a_flags inner) (a_flag outer)) then None
        else if negb (affix_valid Pfx FULL_WORD inner) then None
        else if is_circumfix inner then None
        else
          let stem2 := prefix_to_stem inner stem in
          if negb (pcond inner stem2) then None
          else first_some (fun flags =>
            if negb (contains flags (a_flag inner)) then None
            else if only_in_compound flags then None
            else if hidden hh flags then None
            else Some (mkForm stem2 flags [outer; inner] [])) (words stem2)) (pfx_of stem)) (pfx_of word).

(** checker.rs 887-994. *)
Definition strip_prefix_then_2_suffixes (word : str) (hh : hidden_homonym) : option affix_form :=
  if negb (nonempty s_all_flags) then None
  else first_some (fun prefix =>
    if negb (a_cross prefix) then None
    else if negb (is_outer_affix_valid Pfx FULL_WORD prefix) then None
    else
      let stem := prefix_to_stem prefix word in
      if negb (pcond prefix stem) then None
      else first_some (fun outer =>
        if negb (contains s_all_flags (a_flag outer)) then None
        else if negb (a_cross outer) then None
        else if negb (affix_valid Sfx FULL_WORD outer) then None
        else if negb (Bool.eqb (is_circumfix prefix) (is_circumfix outer)) then None
        else
          let stem2 := suffix_to_stem outer stem in
          if negb (scond outer stem2) then None
          else first_some (fun inner =>
            if negb (contains (a_flags inner) (a_flag outer)) then None
            else if negb (affix_valid Sfx FULL_WORD inner) then None
            else if is_circumfix inner then None
            else
              let stem3 := suffix_to_stem inner stem2 in
              if negb (scond inner stem3) then None
              else first_some (fun flags =>
                if negb (contains (a_flags outer) (a_flag prefix)) && negb (contains flags (a_flag prefix)) then None
                else if negb (contains flags (a_flag inner)) then None
                else if only_in_compound flags then None
                else if hidden hh flags then None
                else Some (mkForm stem3 flags [prefix] [outer; inner])) (words stem3))
            (sfx_of stem2)) (sfx_of stem)) (pfx_of word).

(** checker.rs 1016-1134.  Note that the prefix condition is tested on [stem], the form
    that still has the prefix (checker.rs 1062). *)
Definition strip_suffix_then_prefix_then_suffix (word : str) (hh : hidden_homonym) : option affix_form :=
  if negb (nonempty p_all_flags) && negb (nonempty s_all_flags) then None
  else first_some (fun outer =>
    if negb (contains p_all_flags (a_flag outer)) && negb (contains s_all_flags (a_flag outer)) then None
    else if negb (a_cross outer) then None
    else if negb (is_outer_affix_valid Sfx FULL_WORD outer) then None
    else
      let stem := suffix_to_stem outer word in
      if negb (scond outer stem) then None
      else first_some (fun prefix =>
        if negb (a_cross prefix) then None
        else if negb (affix_valid Pfx FULL_WORD prefix) then None
        else
          let stem2 := prefix_to_stem prefix stem in
          if negb (pcond prefix stem) then None
          else
            let pf_outer := contains (a_flags prefix) (a_flag outer) in
            first_some (fun inner =>
              if negb (a_cross inner) then None
              else if negb (contains (a_flags inner) (a_flag outer)) && negb pf_outer then None
              else if negb (affix_valid Sfx FULL_WORD inner) then None
              else
                let pc := is_circumfix prefix in
                let ic := is_circumfix inner in
                let oc := is_circumfix outer in
                let ok1 := Bool.eqb pc oc && negb ic in
                let ok2 := Bool.eqb pc ic && negb oc in
                if negb ok1 && negb ok2 then None
                else
                  let stem3 := suffix_to_stem inner stem2 in
                  if negb (scond inner stem3) then None
                  else first_some (fun flags =>
                    if negb (contains (a_flags inner) (a_flag prefix)) && negb (contains flags (a_flag prefix)) then None
                    else if negb (contains flags (a_flag inner)) then None
                    else if only_in_compound flags then None
                    else if hidden hh flags then None
                    else Some (mkForm stem3 flags [prefix] [outer; inner])) (words stem3))
              (sfx_of stem2)) (pfx_of stem)) (sfx_of word).

(** checker.rs 1136-1243.  Note the use of the suffix flags in both fast lanes
    (checker.rs 1142, 1168). *)
Definition strip_suffix_then_2_prefixes (word : str) (hh : hidden_homonym) : option affix_form :=
  if negb (nonempty s_all_flags) then None
  else first_some (fun suffix =>
    if negb (a_cross suffix) then None
    else if negb (is_outer_affix_valid Sfx FULL_WORD suffix) then None
    else
      let stem := suffix_to_stem suffix word in
      if negb (scond suffix stem) then None
      else first_some (fun outer =>
        if negb (contains s_all_flags (a_flag outer)) then None
        else if negb (a_cross outer) then None
        else if negb (affix_valid Pfx FULL_WORD outer) then None
        else if negb (Bool.eqb (is_circumfix suffix) (is_circumfix outer)) then None
        else
          let stem2 := prefix_to_stem outer stem in
          if negb (pcond outer stem2) then None
          else first_some (fun inner =>
            if negb (contains (a_flags inner) (a_flag outer)) then None
            else if negb (affix_valid Pfx FULL_WORD inner) then None
            else if is_circumfix inner then None
            else
              let stem3 := prefix_to_stem inner stem2 in
              if negb (pcond inner stem3) then None
              else first_some (fun flags =>
                if negb (contains (a_flags outer) (a_flag suffix)) && negb (contains flags (a_flag suffix)) then None
                else if negb (contains flags (a_flag inner)) then None
                else if only_in_compound flags then None
                else if hidden hh flags then None
                else Some (mkForm stem3 flags [outer; inner] [suffix])) (words stem3))
            (pfx_of stem2)) (pfx_of stem)) (sfx_of word).

(** checker.rs 1265-1383.  Note that the suffix condition is tested on [stem], the form
    that still has the suffix (checker.rs 1311). *)
Definition strip_prefix_then_suffix_then_prefix (word : str) (hh : hidden_homonym) : option affix_form :=
  if negb (nonempty p_all_flags) && negb (nonempty s_all_flags) then None
  else first_some (fun outer =>
    if negb (contains p_all_flags (a_flag outer)) && negb (contains s_all_flags (a_flag outer)) then None
    else if negb (a_cross outer) then None
    else if negb (is_outer_affix_valid Pfx FULL_WORD outer) then None
    else
      let stem := prefix_to_stem outer word in
      if negb (pcond outer stem) then None
      else first_some (fun suffix =>
        if negb (a_cross suffix) then None
        else if negb (affix_valid Sfx FULL_WORD suffix) then None
        else
          let stem2 := suffix_to_stem suffix stem in
          if negb (scond suffix stem) then None
          else
            let sf_outer := contains (a_flags suffix) (a_flag outer) in
            first_some (fun inner =>
              if negb (a_cross inner) then None
              else if negb (contains (a_flags inner) (a_flag outer)) && negb sf_outer then None
              else if negb (affix_valid Pfx FULL_WORD inner) then None
              else
                let pc := is_circumfix suffix in
                let ic := is_circumfix inner in
                let oc := is_circumfix outer in
                let ok1 := Bool.eqb pc oc && negb ic in
                let ok2 := Bool.eqb pc ic && negb oc in
                if negb ok1 && negb ok2 then None
                else
                  let stem3 := prefix_to_stem inner stem2 in
                  if negb (pcond inner stem3) then None
                  else first_some (fun flags =>
                    if negb (contains (a_flags inner) (a_flag suffix)) && negb (contains flags (a_flag suffix)) then None
                    else if negb (contains flags (a_flag inner)) then None
                    else if only_in_compound flags then None
                    else if hidden hh flags then None
                    else Some (mkForm stem3 flags [outer; inner] [suffix])) (words stem3))
              (pfx_of stem2)) (sfx_of stem)) (pfx_of word).

(** The direct lookup loop of [check_simple_word] (checker.rs 409-420). *)
Definition check_direct (word : str) (hh : hidden_homonym) : option flagset :=
  first_some (fun flags =>
    if need_affix flags then None
    else if only_in_compound flags then None
    else if hidden hh flags then None
    else Some flags) (words word).

(** checker.rs 404-467. *)
Definition check_simple_word (word : str) (hh : hidden_homonym) : option flagset :=
  match check_direct word hh with Some f => Some f | None =>
  match strip_suffix_only FULL_WORD word hh with Some a => Some (af_flags a) | None =>
  match strip_prefix_only FULL_WORD word hh with Some a => Some (af_flags a) | None =>
  match strip_prefix_then_suffix_commutative FULL_WORD word hh with Some a => Some (af_flags a) | None =>
  if o_complex_prefixes opts then
    match strip_prefix_then_prefix word hh with Some a => Some (af_flags a) | None =>
    match strip_suffix_then_2_prefixes word hh with Some a => Some (af_flags a) | None =>
    match strip_prefix_then_suffix_then_prefix word hh with Some a => Some (af_flags a) | None => None
    end end end
  else
    match strip_suffix_then_suffix word hh with Some a => Some (af_flags a) | None =>
    match strip_prefix_then_2_suffixes word hh with Some a => Some (af_flags a) | None =>
    match strip_suffix_then_prefix_then_suffix word hh with Some a => Some (af_flags a) | None => None
    end end end
  end end end end.

(** *** Compounding *)

(** checker.rs 2286-2298. *)
Definition count_syllables (w : str) : N :=
  fold_left (fun n c => (n + N.of_nat (length (filter (N.eqb c) (ad_vowels aff))))%N) w 0%N.

(** checker.rs 2235-2243. *)
Definition num_words_modifier (prefix : affix) : N :=
  match ad_vowels aff with
  | [] => 0%N
  | _ :: _ => (N.max (count_syllables (a_add prefix)) 1 mod 65536)%N
  end.

(** checker.rs 2245-2253 ('I' = 73, 'J' = 74). *)
Definition syllable_modifier (m : mode) (flags : flagset) : Z :=
  if is_end m && nonempty (ad_vowels aff) && contains flags 73 && negb (contains flags 74)
  then (-1)%Z else 0%Z.

(** checker.rs 2255-2284 ('c' = 99, 'i' = 105, 't' = 116, 'y' = 121). *)
Definition syllable_modifier_with_suffix (m : mode) (flags : flagset) (suffix : affix) : Res Z :=
  if negb (is_end m) || negb (nonempty (ad_vowels aff)) then Ret 0%Z
  else
    let append := a_add suffix in
    m0 <- i16_op (ck_overflow_checks k) (0 - i16_wrap (Z.of_N (count_syllables append)))%Z ;;
    let extra := match rev append with
                 | 105%N :: c :: _ => negb (c =? 121)%N && negb (c =? 116)%N
                 | _ => false
                 end in
    m1 <- i16_op (ck_overflow_checks k) (m0 - (if extra then 1 else 0))%Z ;;
    if o_syllable_num opts then
      if (a_flag suffix =? 99)%N then i16_op (ck_overflow_checks k) (m1 + 2)%Z
      else if (a_flag suffix =? 74)%N then i16_op (ck_overflow_checks k) (m1 + 1)%Z
      else if (a_flag suffix =? 73)%N then
        i16_op (ck_overflow_checks k) (m1 + (if contains flags 74 then 1 else 0))%Z
      else Ret m1
    else Ret m1.

(** checker.rs 2147-2233. *)
Definition mode_flag (m : mode) : option N :=
  match m with
  | AT_BEGIN => o_compound_begin opts
  | AT_MIDDLE => o_compound_middle opts
  | AT_END => o_compound_end opts
  | FULL_WORD => None
  end.

Definition check_word_in_compound (m : mode) (word : str) : Res (option cresult) :=
  match first_some (fun flags =>
      if need_affix flags then None
      else if negb (has_flag flags (o_compound opts)) && negb (has_flag flags (mode_flag m)) then None
      else if contains flags hidden_homonym_flag then None
      else Some (mkCR word flags 0 (syllable_modifier m flags) false)) (words word) with
  | Some r => Ret (Some r)
  | None =>
  match strip_suffix_only m word SkipHiddenHomonym with
  | Some f =>
      match af_suffixes f with
      | suffix :: _ =>
          sm <- syllable_modifier_with_suffix m (af_flags f) suffix ;;
          Ret (Some (mkCR (af_stem f) (af_flags f) 0 sm (is_modifying suffix)))
      | [] => Panic
      end
  | None =>
  match strip_prefix_only m word SkipHiddenHomonym with
  | Some f =>
      match af_prefixes f with
      | prefix :: _ =>
          Ret (Some (mkCR (af_stem f) (af_flags f) (num_words_modifier prefix) 0 (is_modifying prefix)))
      | [] => Panic
      end
  | None =>
  match strip_prefix_then_suffix_commutative m word SkipHiddenHomonym with
  | Some f =>
      match af_prefixes f, af_suffixes f with
      | prefix :: _, suffix :: _ =>
          sm <- syllable_modifier_with_suffix m (af_flags f) suffix ;;
          Ret (Some (mkCR (af_stem f) (af_flags f) (num_words_modifier prefix) sm
                          (is_modifying prefix || is_modifying suffix)))
      | _, _ => Panic
      end
  | None => Ret None
  end end end end.

(** checker.rs 1829-1898, with the scratch buffer of the code. *)
Definition simple_ok (w : str) : bool := is_someb (check_simple_word w SkipHiddenHomonym).

Fixpoint rep_start_loop (l : list (str * str)) (word scratch : str) : bool * str :=
  match l with
  | [] => (false, scratch)
  | (from, to) :: l' =>
      if starts_with from word then
        let s1 := replace_range scratch 0 (length from) to in
        if simple_ok s1 then (true, s1)
        else rep_start_loop l' word (replace_range s1 0 (length to) from)
      else rep_start_loop l' word scratch
  end.

Fixpoint rep_end_loop (l : list (str * str)) (word scratch : str) : bool * str :=
  match l with
  | [] => (false, scratch)
  | (from, to) :: l' =>
      if ends_with from word then
        let idx := length word - length from in
        let s1 := firstn idx scratch ++ to in
        if simple_ok s1 then (true, s1)
        else rep_end_loop l' word (firstn idx s1 ++ from)
      else rep_end_loop l' word scratch
  end.

Fixpoint rep_at_loop (idxs : list nat) (from to scratch : str) : bool * str :=
  match idxs with
  | [] => (false, scratch)
  | i :: idxs' =>
      let s1 := replace_range scratch i (length from) to in
      if simple_ok s1 then (true, s1)
      else rep_at_loop idxs' from to (replace_range s1 i (length to) from)
  end.

Fixpoint rep_any_loop (l : list (str * str)) (word scratch : str) : bool * str :=
  match l with
  | [] => (false, scratch)
  | (from, to) :: l' =>
      let r := rep_at_loop (match_indices from word) from to scratch in
      if fst r then r else rep_any_loop l' word (snd r)
  end.

Definition is_rep_similar (word : str) : bool :=
  let t := ad_reps aff in
  if existsb (fun e => str_eqb word (fst e) && simple_ok (snd e)) (whole_reps t) then true
  else if only_whole_reps t then false
  else
    let r1 := rep_start_loop (start_reps t) word word in
    if fst r1 then true
    else
      let r2 := rep_end_loop (end_reps t) word (snd r1) in
      if fst r2 then true
      else fst (rep_any_loop (any_reps t) word (snd r2)).

(** checker.rs 2300-2347.  The code slices at byte [i - partition] and compares with the
    concatenated pair; that is the same as comparing the two halves on both sides of [i]. *)
Definition flag_missing (f : option N) (flags : flagset) : bool :=
  match f with Some f' => negb (contains flags f') | None => false end.

Definition pattern_matches (p : compound_pattern) (word : str) (i : nat) (e1 e2 : cresult) : bool :=
  if negb (ends_with (cp_begin p) (firstn i word) && starts_with (cp_end p) (skipn i word)) then false
  else if flag_missing (cp_first_flag p) (cr_flags e1) then false
  else if flag_missing (cp_second_flag p) (cr_flags e2) then false
  else if cp_unaffixed p && cr_modified e1 then false
  else true.

Definition forbidden_by_patterns (word : str) (i : nat) (e1 e2 : cresult) : bool :=
  existsb (fun p => pattern_matches p word i e1 e2) (ad_patterns aff).

Definition is_forbidden (flags : flagset) : bool := contains flags (o_forbidden opts).

(** [COMPOUNDMIN], 3 if absent (checker.rs 1415-1420, 2382-2387). *)
Definition min_chars : nat := match o_min_length opts with Some n => N.to_nat n | None => 3 end.

Definition add_part (num : nat) (e : cresult) : nat :=
  num + N.to_nat (cr_words e) + (if has_flag (cr_flags e) (o_root opts) then 1 else 0).

(** [compound_max_word_count.is_some_and(|max| num_part + 1 >= max)]. *)
Definition reaches_max (num : nat) : bool :=
  match o_max_words opts with Some m => (m <=? N.of_nat num + 1)%N | None => false end.
(** [... num_part > max] (checker.rs 1774-1781). *)
Definition exceeds_max (num : nat) : bool :=
  match o_max_words opts with Some m => (m <? N.of_nat num)%N | None => false end.

Definition rep_check (w : str) : bool := o_check_rep opts && is_rep_similar w.

(** checker.rs 1648-1653: the text of [word] up to the end of the stem of the second part. *)
Definition rep_check_part2 (word : str) (start i : nat) (e2 : cresult) : bool :=
  o_check_rep opts && starts_with (cr_stem e2) (skipn i word) &&
  is_rep_similar (slice word start (i + length (cr_stem e2))).

Section Step.
(** The recursive call [check_compound_impl::<AT_COMPOUND_MIDDLE>]. *)
Variable rec : str -> nat -> nat -> forceucase -> Res (option cresult).

(** The conditions under which a plain second part is not taken
    (checker.rs 1495-1552, 1707-1772). *)
Definition second_rejected (word rep_word : str) (i : nat) (fu : forceucase) (e1 e2 : cresult) : bool :=
  is_forbidden (cr_flags e2) ||
  forbidden_by_patterns word i e1 e2 ||
  (o_check_duplicate opts && cr_eqb e1 e2) ||
  rep_check rep_word ||
  (fu_forbid fu && has_flag (cr_flags e2) (o_force_upper opts)).

(** checker.rs 1786-1826. *)
Definition triple_recursive (triple word : str) (start i num : nat) (fu : forceucase) (e1 : cresult)
  : Res (option cresult) :=
  r <- rec triple i (num + 1) fu ;;
  match r with
  | None => Ret None
  | Some e2 =>
      if forbidden_by_patterns triple i e1 e2 then Ret None
      else if rep_check (skipn start word) || rep_check_part2 word start i e2 then Ret None
      else Ret (Some e1)
  end.

(** checker.rs 1668-1783. *)
Definition try_simplified_triple (word : str) (start i num : nat) (fu : forceucase) (e1 : cresult)
  : Res (option cresult) :=
  if negb (o_simplified_triple opts) then Ret None
  else match prev_codepoint word i with
  | None => Ret None
  | Some (pi, pc) =>
      if (pi =? 0)%nat then Ret None
      else match prev_codepoint word pi with
      | None => Ret None
      | Some (_, pc2) =>
          if negb (pc =? pc2)%N then Ret None
          else
            let triple := firstn pi word ++ pc :: skipn pi word in
            p2 <- check_word_in_compound AT_END (skipn i triple) ;;
            match p2 with
            | None => triple_recursive triple word start i num fu e1
            | Some e2 =>
                if second_rejected triple (skipn start word) i fu e1 e2
                then triple_recursive triple word start i num fu e1
                else if exceeds_max num then Ret None
                else Ret (Some e1)
            end
      end
  end.

(** checker.rs 1595-1666. *)
Definition try_recursive (word : str) (start i num : nat) (fu : forceucase) (e1 : cresult)
  : Res (option cresult) :=
  r <- rec word i (num + 1) fu ;;
  match r with
  | None => try_simplified_triple word start i num fu e1
  | Some e2 =>
      if forbidden_by_patterns word i e1 e2 then try_simplified_triple word start i num fu e1
      else if rep_check (skipn start word) || rep_check_part2 word start i e2
      then try_simplified_triple word start i num fu e1
      else Ret (Some e1)
  end.

(** checker.rs 1447-1593. *)
Definition compound_classic (m : mode) (word : str) (start i num : nat) (fu : forceucase)
  : Res (option cresult) :=
  p1 <- check_word_in_compound m (slice word start i) ;;
  match p1 with
  | None => Ret None
  | Some e1 =>
      if is_forbidden (cr_flags e1) then Ret None
      else if o_check_triple opts && are_three_chars_equal word i then Ret None
      else if o_check_case opts && has_uppercase_at_boundary U word i then Ret None
      else
        let num1 := add_part num e1 in
        p2 <- check_word_in_compound AT_END (skipn i word) ;;
        match p2 with
        | None => try_recursive word start i num1 fu e1
        | Some e2 =>
            if second_rejected word (skipn start word) i fu e1 e2
            then try_recursive word start i num1 fu e1
            else if reaches_max (add_part num1 e2) then
              if negb (nonempty (ad_vowels aff)) then Ret None
              else
                ns <- usize_add_i16 (ck_overflow_checks k) (count_syllables word) (cr_syllables e2) ;;
                if (match o_syllable_max opts with Some n => n | None => 0%N end <? ns)%N
                then try_recursive word start i num1 fu e1
                else Ret (Some e1)
            else Ret (Some e1)
        end
  end.

(** The body of the loop over the patterns (checker.rs 1929-2142).  [inl r] is
    [return r], [inr tt] is [continue]. *)
Definition pattern_plain (p : compound_pattern) (word scratch : str) (start j : nat) (num : nat)
    (fu : forceucase) (e1 : cresult) (cont : unit -> Res (option cresult + unit))
  : Res (option cresult + unit) :=
  p2 <- check_word_in_compound AT_END (skipn j scratch) ;;
  match p2 with
  | None => cont tt
  | Some e2 =>
      if is_forbidden (cr_flags e2) || flag_missing (cp_second_flag p) (cr_flags e2) ||
         (o_check_duplicate opts && cr_eqb e1 e2) || rep_check (skipn start word) ||
         (fu_forbid fu && has_flag (cr_flags e2) (o_force_upper opts))
      then cont tt
      else if reaches_max num then Ret (inl None)
      else Ret (inl (Some e1))
  end.

Definition pattern_step (m : mode) (word : str) (start i num : nat) (fu : forceucase)
    (p : compound_pattern) : Res (option cresult + unit) :=
  match cp_replacement p with
  | None => Ret (inr tt)
  | Some replacement =>
      if negb (starts_with replacement (skipn i word)) then Ret (inr tt)
      else
        let scratch := firstn i word ++ (cp_begin p ++ cp_end p) ++ skipn (i + length replacement) word in
        let j := i + length (cp_begin p) in
        p1 <- check_word_in_compound m (slice scratch start j) ;;
        match p1 with
        | None => Ret (inr tt)
        | Some e1 =>
            if is_forbidden (cr_flags e1) then Ret (inr tt)
            else if flag_missing (cp_first_flag p) (cr_flags e1) then Ret (inr tt)
            else if o_check_triple opts && are_three_chars_equal scratch j then Ret (inr tt)
            else
              (* 1969-2010 *)
              pattern_plain p word scratch start j num fu e1 (fun _ =>
              (* 2014-2042 *)
              r <- rec scratch j (num + 1) fu ;;
              if (match r with
                  | None => false
                  | Some e2 =>
                      negb (flag_missing (cp_second_flag p) (cr_flags e2)) &&
                      negb (rep_check (skipn start word) || rep_check_part2 scratch start j e2)
                  end)
              then Ret (inl (Some e1))
              else
              (* 2046-2141 *)
              if negb (o_simplified_triple opts) then Ret (inr tt)
              else match prev_codepoint scratch j with
              | None => Ret (inr tt)
              | Some (pi, pc) =>
                  if (pi =? 0)%nat then Ret (inr tt)
                  else match prev_codepoint scratch pi with
                  | None => Ret (inr tt)
                  | Some (_, pc2) =>
                      if negb (pc =? pc2)%N then Ret (inr tt)
                      else
                        let triple := firstn j scratch ++ pc :: skipn j scratch in
                        pattern_plain p word triple start j num fu e1 (fun _ =>
                        r <- rec triple j (num + 1) fu ;;
                        match r with
                        | None => Ret (inr tt)
                        | Some e2 =>
                            if flag_missing (cp_second_flag p) (cr_flags e2) then Ret (inr tt)
                            else if rep_check (skipn start word) then Ret (inr tt)
                            else if o_check_rep opts && starts_with (cr_stem e2) (skipn j triple) &&
                                    (* [scratch.get(start_pos..end)] *)
                                    (let e := j + length (cr_stem e2) - 1 in
                                     (start <=? e)%nat && (e <=? length scratch)%nat &&
                                     is_rep_similar (slice scratch start e))
                            then Ret (inr tt)
                            else Ret (inl (Some e1))
                        end)
                  end
              end)
        end
  end.

(** The loop over the patterns: [inl r] returns from the whole function. *)
Fixpoint pattern_loop (m : mode) (word : str) (start i num : nat) (fu : forceucase)
    (ps : list compound_pattern) : Res (option cresult) :=
  match ps with
  | [] => Ret None
  | p :: ps' =>
      r <- pattern_step m word start i num fu p ;;
      match r with
      | inl o => Ret o
      | inr _ => pattern_loop m word start i num fu ps'
      end
  end.

(** checker.rs 1408-1445. *)
Definition compound_impl (m : mode) (word : str) (start num : nat) (fu : forceucase)
  : Res (option cresult) :=
  firstR (fun i =>
    compound_classic m word start i num fu ORELSE
    pattern_loop m word start i num fu (ad_patterns aff)) (within word start min_chars).
End Step.

(** The recursion of [check_compound_impl].  Nothing in the code bounds its depth; [fuel]
    is the depth the model explores. *)
Fixpoint compound_middle (fuel : nat) (word : str) (start num : nat) (fu : forceucase)
  : Res (option cresult) :=
  match fuel with
  | O => NoFuel
  | S fuel' => compound_impl (compound_middle fuel') AT_MIDDLE word start num fu
  end.

Definition check_compound_flags (fuel : nat) (m : mode) (word : str) (fu : forceucase)
  : Res (option cresult) :=
  compound_impl (compound_middle fuel) m word 0 0 fu.

(** checker.rs 2364-2433.  [data] is the stack [words_data]. *)
Definition rule_part (w : str) : option flagset :=
  find (fun flags => negb (need_affix flags) && has_any_flags (ad_rules aff) flags) (words w).

Fixpoint rules_impl (fuel : nat) (word : str) (data : list flagset) (start : nat) (fu : forceucase)
  : Res (option cresult) :=
  match fuel with
  | O => NoFuel
  | S fuel' =>
      firstR (fun i =>
        match rule_part (slice word start i) with
        | None => Ret None
        | Some f1 =>
            let data1 := data ++ [f1] in
            direct <- (match rule_part (skipn i word) with
                       | Some f2 =>
                           ok <- any_rule_matches (ad_rules aff) (data1 ++ [f2]) ;;
                           Ret (ok && negb (fu_forbid fu && has_flag f2 (o_force_upper opts)))
                       | None => Ret false
                       end) ;;
            if (direct : bool) then Ret (Some (mkCR (slice word start i) f1 0 0 false))
            else rules_impl fuel' word data1 i fu
        end) (within word start min_chars)
  end.

Definition check_compound_with_rules (word : str) (fu : forceucase) : Res (option cresult) :=
  rules_impl (S (length word)) word [] 0 fu.

(** checker.rs 1387-1406. *)
Definition check_compound (fuel : nat) (m : mode) (word : str) (fu : forceucase) : Res (option cresult) :=
  (if allows_compounding opts then check_compound_flags fuel m word fu else Ret None)
  ORELSE
  (if nonempty (rt_rules (ad_rules aff)) then check_compound_with_rules word fu else Ret None).

(** checker.rs 227-239. *)
Definition check_word (fuel : nat) (word : str) (fu : forceucase) (hh : hidden_homonym)
  : Res (option flagset) :=
  match check_simple_word word hh with
  | Some f => Ret (Some f)
  | None => r <- check_compound fuel AT_BEGIN word fu ;; Ret (option_map cr_flags r)
  end.

(** *** Casing *)
Notation case := (o_case opts).
Definition keep_case (flags : flagset) : bool := has_flag flags (o_keep_case opts).

(** [.filter(|flags| !has_flag!(flags, keep_case_flag))]. *)
Definition drop_keep_case (o : option flagset) : option flagset :=
  match o with Some f => if keep_case f then None else Some f | None => None end.

Definition sharp_s : N := 223%N.
Definition ss : str := [115; 115]%N.
Definition SS : str := [83; 83]%N.

(** checker.rs 321-374.  The word is [pre ++ rest], [position] is the end of [pre], [n] is
    [MAX_DEPTH - depth]. *)
Fixpoint do_spell_sharps (fuel : nat) (n : nat) (pre rest : str) (replacements : nat)
  : Res (option flagset) :=
  match n with
  | S n' =>
      match find_sub ss rest with
      | Some idx =>
          do_spell_sharps fuel n' (pre ++ firstn idx rest ++ [sharp_s]) (skipn (idx + 2) rest) (replacements + 1)
          ORELSE
          do_spell_sharps fuel n' (pre ++ firstn idx rest ++ ss) (skipn (idx + 2) rest) (replacements + 1)
      | None =>
          if (0 <? replacements)%nat
          then check_word fuel (pre ++ rest) AllowBadForceucase AcceptHiddenHomonym
          else Ret None
      end
  | O =>
      if (0 <? replacements)%nat
      then check_word fuel (pre ++ rest) AllowBadForceucase AcceptHiddenHomonym
      else Ret None
  end.
Definition spell_sharps (fuel : nat) (word : str) : Res (option flagset) :=
  do_spell_sharps fuel 5 [] word 0.

(** checker.rs 254-285: the split after the first apostrophe, unless it is the last character. *)
Definition apostrophe_split (word : str) : option (str * str) :=
  match find_char (N.eqb 39) word with
  | Some idx => if (idx =? length word - 1)%nat then None
                else Some (firstn (idx + 1) word, skipn (idx + 1) word)
  | None => None
  end.

(** checker.rs 241-319. *)
Definition spell_casing_upper (fuel : nat) (word : str) : Res (option flagset) :=
  check_word fuel word AllowBadForceucase AcceptHiddenHomonym
  ORELSE
  (match apostrophe_split word with
   | Some (part1, part2) =>
       t2 <- titlecase U case part2 ;;
       (check_word fuel (lowercase U case part1 ++ t2) AllowBadForceucase AcceptHiddenHomonym
        ORELSE
        (t1 <- titlecase U case part1 ;;
         check_word fuel (t1 ++ t2) AllowBadForceucase AcceptHiddenHomonym))
   | None => Ret None
   end)
  ORELSE
  (if o_checksharps opts && is_someb (find_sub SS word) then
     spell_sharps fuel (lowercase U case word)
     ORELSE
     (t <- titlecase U case word ;; spell_sharps fuel t)
   else Ret None)
  ORELSE
  (t <- titlecase U case word ;;
   r <- check_word fuel t AllowBadForceucase AcceptHiddenHomonym ;; Ret (drop_keep_case r))
  ORELSE
  (r <- check_word fuel (lowercase U case word) AllowBadForceucase AcceptHiddenHomonym ;;
   Ret (drop_keep_case r)).

(** checker.rs 376-402. *)
Definition spell_casing_title (fuel : nat) (word : str) : Res (option flagset) :=
  check_word fuel word AllowBadForceucase SkipHiddenHomonym
  ORELSE
  (let lower := lowercase U case word in
   r <- check_word fuel lower AllowBadForceucase AcceptHiddenHomonym ;;
   match r with
   | None => Ret None
   | Some flags =>
       if keep_case flags && negb (o_checksharps opts && memb sharp_s lower) then Ret None
       else Ret (Some flags)
   end).

(** checker.rs 196-225. *)
Definition spell_casing (fuel : nat) (word : str) : Res (option flagset) :=
  let c := classify_casing U word in
  match c with
  | CNone | CCamel | CPascal =>
      check_word fuel word ForbidBadForceucase AcceptHiddenHomonym
      ORELSE
      (if ck_lower_as_title k && match c with CPascal => false | _ => true end then
         (t <- titlecase U case word ;; spell_casing_title fuel t)
       else Ret None)
      ORELSE
      (if ck_lower_as_upper k then spell_casing_upper fuel (uppercase U case word) else Ret None)
  | CAll => spell_casing_upper fuel word
  | CInit => spell_casing_title fuel word
  end.

(** checker.rs 143-151. *)
Definition accepted_flags (flags : flagset) : bool :=
  negb (is_forbidden flags) && negb (o_forbid_warn opts && has_flag flags (o_warn opts)).

(** checker.rs 139-194; [n] is [MAX_DEPTH - depth]. *)
Fixpoint do_spell_break (fuel : nat) (n : nat) (word : str) : Res bool :=
  r <- spell_casing fuel word ;;
  match r with
  | Some flags => Ret (accepted_flags flags)
  | None =>
      match n with
      | O => Ret false
      | S n' =>
          b1 <- anyR (fun pattern => match strip_prefix pattern word with
                                     | Some rest => do_spell_break fuel n' rest
                                     | None => Ret false end) (start_breaks (ad_breaks aff)) ;;
          if (b1 : bool) then Ret true else
          b2 <- anyR (fun pattern => match strip_suffix pattern word with
                                     | Some rest => do_spell_break fuel n' rest
                                     | None => Ret false end) (end_breaks (ad_breaks aff)) ;;
          if (b2 : bool) then Ret true else
          anyR (fun pattern => match split_once pattern word with
                               | Some (part1, part2) =>
                                   if negb (nonempty part2) then Ret false
                                   else
                                     c1 <- do_spell_break fuel n' part1 ;;
                                     if (c1 : bool) then do_spell_break fuel n' part2 else Ret false
                               | None => Ret false end) (middle_breaks (ad_breaks aff))
      end
  end.
Definition spell_break (fuel : nat) (word : str) : Res bool := do_spell_break fuel 9 word.

(** checker.rs 98-131. *)
Definition check (fuel : nat) (word : str) : Res bool :=
  if (max_word_len <? blen word)%N then Ret false
  else
    word <- convert (ad_iconv aff) word ;;
    match word with
    | [] => Ret true
    | _ :: _ =>
        let trimmed := trim_end_dots word in
        let abbreviated := negb (length trimmed =? length word)%nat in
        if is_number trimmed then Ret true
        else
          b <- spell_break fuel (erase_chars (ad_ignore aff) trimmed) ;;
          if (b : bool) then Ret true
          else if abbreviated then spell_break fuel word
          else Ret false
    end.
End Checker.
