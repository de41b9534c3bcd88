{
 "claims": [
  {
   "property": "C01",
   "status": "proved",
   "theorems": [
    "C01_check_never_hangs",
    "C01_check_returns",
    "C01_any_options",
    "C01_lower_as_title_panics_refuted",
    "C01_lower_as_upper_panics_refuted",
    "C01_syllable_overflow_refuted",
    "C01_simplified_triple_diverges_refuted",
    "C01_pattern_diverges_refuted"
   ],
   "note": "Restated with its true exceptions; the unrestricted statement (check always returns) is false, with five _refuted witnesses: CHECKCOMPOUNDPATTERN replacement that recurses forever, empty piece with check_lower_as_title/upper, syllable counter overflow under overflow checks, unbounded recursion with SIMPLIFIEDTRIPLE and COMPOUNDMIN 1."
  },
  {
   "property": "C02",
   "status": "proved",
   "theorems": [
    "C02_check_length_limit",
    "C02_suggest_limits"
   ],
   "note": "Exact, for check and for suggest."
  },
  {
   "property": "C03",
   "status": "proved",
   "theorems": [
    "C03_numerals_accepted",
    "C03_only_numerals"
   ],
   "note": "All dictionaries without ICONV, as quantified; the converse is for dictionaries that know no other word."
  },
  {
   "property": "C04",
   "status": "proved",
   "theorems": [
    "C04_lookup_is_the_multiset",
    "C04_nothing_of_another_stem",
    "C04_hashers_agree"
   ],
   "note": "Every hash function, tag function and placement."
  },
  {
   "property": "C05",
   "status": "proved",
   "theorems": [
    "C05_from_list",
    "C05_queries"
   ],
   "note": ""
  },
  {
   "property": "C06",
   "status": "proved",
   "theorems": [
    "C06_history",
    "C06_store"
   ],
   "note": ""
  },
  {
   "property": "C07",
   "status": "proved",
   "theorems": [
    "C07_index_finds_exactly"
   ],
   "note": ""
  },
  {
   "property": "C08",
   "status": "proved",
   "theorems": [
    "C08_condition_matches"
   ],
   "note": ""
  },
  {
   "property": "C09",
   "status": "proved",
   "theorems": [
    "C09_derive_then_strip",
    "C09_strip_then_derive"
   ],
   "note": ""
  },
  {
   "property": "C10",
   "status": "proved",
   "theorems": [
    "C10_single_affix_iff"
   ],
   "note": ""
  },
  {
   "property": "C11",
   "status": "proved",
   "theorems": [
    "C11_prefix_and_suffix_iff",
    "C11_two_of_a_kind_iff",
    "C11_prefix_and_two_suffixes_iff",
    "C11_derived_words_are_accepted",
    "C11_accepted_words_are_derived"
   ],
   "note": ""
  },
  {
   "property": "C12",
   "status": "proved",
   "theorems": [
    "C12_interleaved",
    "C12_interleaved_unconditional",
    "C12_suffix_and_two_prefixes",
    "C12_condition_of_middle_affix_refuted",
    "C12_condition_of_middle_affix_unsound_refuted",
    "C12_two_prefixes_refuted"
   ],
   "note": "Restated as the exact relation the code implements. The natural statement (every condition checked on the form the rule was attached to; the inner prefix lets the outer through) is false in both directions: three _refuted witnesses."
  },
  {
   "property": "C13",
   "status": "proved",
   "theorems": [
    "C13_leftmost_longest",
    "C13_deterministic"
   ],
   "note": ""
  },
  {
   "property": "C14",
   "status": "proved",
   "theorems": [
    "C14_regular_language",
    "C14_any_rule"
   ],
   "note": ""
  },
  {
   "property": "C15",
   "status": "proved",
   "theorems": [
    "C15_rule_compounds_split",
    "C15_rule_compounds_iff",
    "C15_rule_compounds_accepted"
   ],
   "note": ""
  },
  {
   "property": "C16",
   "status": "proved",
   "theorems": [
    "C16_compounds_split",
    "C16_plain_compounds_iff",
    "C16_plain_compounds_accepted",
    "C16_guard_loses_nothing",
    "C16_guards"
   ],
   "note": "C16_guards: the conditions under which the checker looks for compounds at all (a compound flag is set, a rule exists) exclude no compound of the specification."
  },
  {
   "property": "C17",
   "status": "proved",
   "theorems": [
    "C17_max_parts",
    "C17_max_parts_iff",
    "C17_simplified_triple_refuted"
   ],
   "note": "Restated: the bound n fails with SIMPLIFIEDTRIPLE (_refuted, a word of more than two parts with COMPOUNDWORDMAX 2), where n+2 is proved. With COMPOUNDSYLLABLE see C59."
  },
  {
   "property": "C18",
   "status": "proved",
   "theorems": [
    "C18_broken_words_are_glued",
    "C18_break_iff",
    "C18_whole_words_accepted",
    "C18_unbroken_rejected"
   ],
   "note": ""
  },
  {
   "property": "C19",
   "status": "proved",
   "theorems": [
    "C19_readings_accepted",
    "C19_title_case",
    "C19_all_caps",
    "C19_title_in_caps"
   ],
   "note": ""
  },
  {
   "property": "C20",
   "status": "proved",
   "theorems": [
    "C20_keepcase_rejected",
    "C20_all_keepcase",
    "C20_apostrophe_refuted",
    "C20_compound_refuted"
   ],
   "note": "C20_keepcase_rejected is general; C20_all_keepcase is the version with no condition on derivations. The apostrophe split and later compound parts ignore KEEPCASE (_refuted)."
  },
  {
   "property": "C21",
   "status": "proved",
   "theorems": [
    "C21_forbidden_rejected",
    "C21_need_affix_refuted"
   ],
   "note": "Proved. The refuted theorem shows that an entry that may stand alone is needed: a forbidden NEEDAFFIX entry does not keep a derived homonym out."
  },
  {
   "property": "C22",
   "status": "proved",
   "theorems": [
    "C22_accepted_words_explained",
    "C22_unknown_words_rejected",
    "C22_word_list"
   ],
   "note": ""
  },
  {
   "property": "C23",
   "status": "proved",
   "theorems": [
    "C23_add_effect",
    "C23_added_word_accepted",
    "C23_plain_word_accepted",
    "C23_forbidden_homonym_refuted"
   ],
   "note": "Proved. The refuted theorem shows that the clause about forbidden homonyms is needed: adding does not lift an earlier FORBIDDENWORD entry."
  },
  {
   "property": "C24",
   "status": "proved",
   "theorems": [
    "C24_add_like_line",
    "C24_refused_like_line",
    "C24_hidden_homonym_refuted",
    "C24_comment_refuted",
    "C24_line_effect"
   ],
   "note": "Proved with the exact effect of a line of the file (C24_line_effect); the two exceptions are real (_refuted witnesses: 'OpenOffice' and '#tag')."
  },
  {
   "property": "C25",
   "status": "proved",
   "theorems": [
    "C25_remove_effect",
    "C25_removed_stem_rejected",
    "C25_removed_forms_rejected",
    "C25_conjugation_stays_refuted",
    "C25_rule_compound_stays_refuted"
   ],
   "note": "Proved. Forms with another derivation and COMPOUNDRULE compounds stay accepted (_refuted witnesses for the reading 'every form of the stem is rejected')."
  },
  {
   "property": "C26",
   "status": "proved",
   "theorems": [
    "C26_ignored_chars",
    "C26_dotted_words",
    "C26_dotted_entry_refuted"
   ],
   "note": "Proved also with ICONV (uniqueness of the conversion is the only demand). The refuted theorem shows that words ending in full stops have to be excluded from the first part."
  },
  {
   "property": "C27",
   "status": "proved",
   "theorems": [
    "C27_trailing_dots",
    "C27_dotless_conversions",
    "C27_empty_refuted",
    "C27_dotted_entry_refuted"
   ],
   "note": "Proved also with ICONV. Refuted for the empty word and for words that end in a full stop themselves."
  },
  {
   "property": "C28",
   "status": "proved",
   "theorems": [
    "C28_output_replaced"
   ],
   "note": "Every run-time (heap arrangement, table order, debug assertions), every option."
  },
  {
   "property": "C29",
   "status": "proved",
   "theorems": [
    "C29_no_duplicates",
    "C29_oconv_images",
    "C29_oconv_refuted"
   ],
   "note": "Proved. With OCONV two suggestions may be converted to the same string (_refuted)."
  },
  {
   "property": "C30",
   "status": "proved",
   "theorems": [
    "C30_every_suggestion_has_a_source",
    "C30_capitalised_words_accepted",
    "C30_lower_case_words",
    "C30_correct_words_accepted",
    "C30_rep_last_part_refuted",
    "C30_forbidden_pair_refuted",
    "C30_dot_refuted",
    "C30_hyphen_refuted"
   ],
   "note": "Proved as a case distinction that covers every suggestion. The simpler statement (every edit suggestion is accepted and not forbidden) is false in four ways (_refuted): the last part of a REP replacement, forbidden halves, the space after a full stop, hyphenated parts."
  },
  {
   "property": "C31",
   "status": "proved",
   "theorems": [
    "C31_guesses",
    "C31_ngram_suggestions",
    "C31_edits_refuted"
   ],
   "note": "Proved. The edit strategies do not look at NOSUGGEST: 'damn' is proposed for 'dmn' (_refuted)."
  },
  {
   "property": "C32",
   "status": "proved",
   "theorems": [
    "C32_swap_adjacent",
    "C32_swap_distant",
    "C32_replace",
    "C32_move_right",
    "C32_move_left"
   ],
   "note": "Every buffer, position and pair of characters; the edits run on the UTF-8 bytes. Moving a character is proved step by step (each step is a swap of neighbours, and the walk visits every position)."
  },
  {
   "property": "C33",
   "status": "proved",
   "theorems": [
    "C33_approved_words_are_correct",
    "C33_plain_words_are_approved",
    "C33_order",
    "C33_exactly_the_candidates",
    "C33_budget_suffices"
   ],
   "note": "Exact list, with order, for lower-case words without hyphen, n-grams off, no ICONV/OCONV/FORCEUCASE; other casings are covered by C30_every_suggestion_has_a_source. MAP groups are exact when no string of a group begins with one of its characters."
  },
  {
   "property": "C34",
   "status": "proved",
   "theorems": [
    "C34_suggest_never_hangs",
    "C34_edits_return",
    "C34_suggest_returns",
    "C34_iconv_hyphen_diverges_refuted",
    "C34_empty_suggestion_panics_refuted",
    "C34_crossed_prefix_panics_refuted"
   ],
   "note": "C34_suggest_never_hangs: every option of the suggester, when check's affixes shrink (C01) and ICONV introduces no hyphen. C34_edits_return and C34_suggest_returns: it returns, n-grams off and on, under the conditions listed in the statement; ordinary_wieldy derives the size conditions from simple bounds. Shown necessary (_refuted): the hyphen condition, the empty word, the crossed prefix. The length condition is the u16 assertion of CharsStr and is not separately refuted."
  },
  {
   "property": "C35",
   "status": "proved",
   "theorems": [
    "C35_common_prefix",
    "C35_longest_common_subsequence",
    "C35_same_position",
    "C35_swapped",
    "C35_ngrams",
    "C35_ngrams_weighted",
    "C35_length_penalty",
    "C35_bounds",
    "C35_self",
    "C35_symmetric"
   ],
   "note": "Each measure against its mathematical definition (iff for the longest common subsequence), with bounds, the self-similarity and symmetry where they hold."
  },
  {
   "property": "C36",
   "status": "proved",
   "theorems": [
    "C36_ngrams_are_appended",
    "C36_additions_are_new",
    "C36_zero_switches_off",
    "C36_limit_refuted"
   ],
   "note": "Proved. When the edits propose more than sixteen times (repetitions included) MAXNGRAMSUGS does not bound the additions (_refuted)."
  },
  {
   "property": "C37",
   "status": "proved",
   "theorems": [
    "C37_guesses",
    "C37_unconditional_prefixes",
    "C37_words_refuted"
   ],
   "note": "Proved. Guesses of the second kind need not be words (_refuted)."
  },
  {
   "property": "C38",
   "status": "proved",
   "theorems": [
    "C38_flags_exact",
    "C38_flags_round_trip",
    "C38_no_zero_flag",
    "C38_astral_flag_refuted",
    "C38_short_multibyte_refuted"
   ],
   "note": "Proved (iff). One written character can be two units: astral characters with FLAG UTF-8, non-ASCII characters in the default format (_refuted)."
  },
  {
   "property": "C39",
   "status": "proved",
   "theorems": [
    "C39_word_round_trip",
    "C39_line_round_trip",
    "C39_dictionary_file",
    "C39_tab_refuted",
    "C39_field_refuted",
    "C39_empty_flags_refuted"
   ],
   "note": "Proved for lines and files; the exclusions are needed (three _refuted witnesses: tab, field inside the word, empty flag list)."
  },
  {
   "property": "C40",
   "status": "proved",
   "theorems": [
    "C40_tables_exact",
    "C40_short_table1",
    "C40_short_table2",
    "C40_short_affix",
    "C40_found_count_refuted"
   ],
   "note": "Proved. The reported number is one more than the rows found (_refuted for the reading 'how many were found')."
  },
  {
   "property": "C41",
   "status": "proved",
   "theorems": [
    "C41_in_range",
    "C41_default_breaks",
    "C41_breaks_from_table",
    "C41_empty_break_refuted"
   ],
   "note": "Proved. A BREAK row that is only an anchor gives an empty pattern (_refuted)."
  },
  {
   "property": "C42",
   "status": "proved",
   "theorems": [
    "C42_panics_exactly",
    "C42_new_returns",
    "C42_long_title_refuted"
   ],
   "note": "Proved (C42_panics_exactly is a characterisation of both outcomes). The unrestricted statement is false (_refuted: a word of 30000 letters that triples its length)."
  },
  {
   "property": "C43",
   "status": "proved",
   "theorems": [
    "C43_rule_exact",
    "C43_rule_round_trip"
   ],
   "note": ""
  },
  {
   "property": "C44",
   "status": "proved",
   "theorems": [
    "C44_parse_exactly"
   ],
   "note": ""
  },
  {
   "property": "C45",
   "status": "proved",
   "theorems": [
    "C45_map_entry_exact",
    "C45_every_entry"
   ],
   "note": ""
  },
  {
   "property": "C46",
   "status": "proved",
   "theorems": [
    "C46_same_entries_same_answers",
    "C46_order_irrelevant",
    "C46_order_irrelevant_plain",
    "C46_homonym_order_refuted"
   ],
   "note": "Both parts proved; the refuted theorem shows that the hypothesis about differing homonyms is needed."
  },
  {
   "property": "C47",
   "status": "proved",
   "theorems": [
    "C47_rep_similar_iff"
   ],
   "note": ""
  },
  {
   "property": "C48",
   "status": "proved",
   "theorems": [
    "C48_sharp_words_accepted",
    "C48_only_exchanges",
    "C48_exchange"
   ],
   "note": ""
  },
  {
   "property": "C49",
   "status": "proved",
   "theorems": [
    "C49_options_only_add",
    "C49_options_only_add_broken",
    "C49_options_exact",
    "C49_forbidden_lower_refuted",
    "C49_broken_word_refuted"
   ],
   "note": "Proved. Refuted without the conditions about breaking and forbidden entries."
  },
  {
   "property": "C50",
   "status": "proved",
   "theorems": [
    "C50_aff_exact",
    "C50_settings"
   ],
   "note": "Iff between the parser and an independent grammar of the text (directives, values, table rows); settings stated with one list of 41 directives, their places and defaults."
  },
  {
   "property": "C51",
   "status": "proved",
   "theorems": [
    "C51_same_words",
    "C51_layout",
    "C51_unknown_lines"
   ],
   "note": "Proved for every text written from lines with either line end, with or without byte order mark."
  },
  {
   "property": "C52",
   "status": "proved",
   "theorems": [
    "C52_loads_exactly",
    "C52_entries"
   ],
   "note": "The grammar (DicGrammar.v) is stated on positions of the line. It records that blanks before the flags are skipped only when the word has no slash, backslash or blank."
  },
  {
   "property": "C53",
   "status": "proved",
   "theorems": [
    "C53_layout",
    "C53_order"
   ],
   "note": "C53_order needs that no word is listed twice with different flags; C46_homonym_order_refuted shows why. Uses functional extensionality through C46."
  },
  {
   "property": "C54",
   "status": "proved",
   "theorems": [
    "C54_kinds",
    "C54_lowercase",
    "C54_uppercase",
    "C54_titlecase",
    "C54_first_char"
   ],
   "note": "Stated against an arbitrary Unicode table (the record unicode); the table's own contents are not modelled."
  },
  {
   "property": "C55",
   "status": "proved",
   "theorems": [
    "C55_error",
    "C55_source",
    "C55_line"
   ],
   "note": "The specification is nondeterministic where two kinds describe the same fault, such as a number that is too large and has a letter after it. Together with C50 and C52 every pair of texts either loads or has such a fault."
  },
  {
   "property": "C56",
   "status": "proved",
   "theorems": [
    "C56_checker",
    "C56_suggester",
    "C56_check",
    "C56_suggest",
    "C56_capitalised_words"
   ],
   "note": "Proved for every chain of calls."
  },
  {
   "property": "C57",
   "status": "proved",
   "theorems": [
    "C57_ngram_choice"
   ],
   "note": "NgramRank.v specifies the scores and the choice without the functions that compute them. Stated for words without capitals and hyphens; C58 places the guesses in the general case. The room is unlimited when the edits give more than sixteen proposals (see C36)."
  },
  {
   "property": "C58",
   "status": "proved",
   "theorems": [
    "C58_exact_list",
    "C58_complete",
    "C58_forced_unconverted_refuted"
   ],
   "note": "C58_exact_list is for every setting; C58_complete shows that the specification admits one list when n-grams are off. Whether suggest returns at all is C34. Candidate sets of the single strategies are those of C32, C33 and C38-C41."
  },
  {
   "property": "C59",
   "status": "proved",
   "theorems": [
    "C59_words_and_syllables",
    "C59_accepted"
   ],
   "note": "C59_words_and_syllables is an equivalence for the compound search, C59_accepted carries it to check. Restrictions (PlainCompounding, readings of a part that count alike, no overflow checks unless there are no vowels) are hypotheses."
  },
  {
   "property": "C60",
   "status": "proved",
   "theorems": [
    "C60_compounds_iff",
    "C60_accepted_iff",
    "C60_every_compound_refuted"
   ],
   "note": "Exact: C60_compounds_iff for the search, C60_accepted_iff at the interface, for a word that is not itself an entry or a form of one, not capitalised, in a dictionary without COMPOUNDRULE and FORBIDWARN. C60_every_compound_refuted shows a word that is rejected although a segmentation breaks no rule: the recursive call reports only the first way to cut the rest, and a pattern that looks at its first part then hides the others."
  },
  {
   "property": "C61",
   "status": "proved",
   "theorems": [
    "C61_depth_of_word",
    "C61_depth_of_check",
    "C61_answers_at"
   ],
   "note": "Depth is the fuel of the model's check_compound_impl; the bound is proved for every larger fuel as well, and C61_answers_at replaces 'sufficiently large fuel' by one number."
  },
  {
   "property": "C62",
   "status": "proved",
   "theorems": [
    "C62_new",
    "C62_measures"
   ],
   "note": "CharsStr.v models the view on bytes with an explicit Undefined outcome for get_unchecked; the theorems show it never occurs."
  },
  {
   "property": "C63",
   "status": "proved",
   "theorems": [
    "C63_concat",
    "C63_prefix_stem",
    "C63_suffix_stem",
    "C63_stem_length_refuted",
    "C63_sharps",
    "C63_escaped"
   ],
   "note": "Scratch.v. C63_stem_length_refuted: the comment that a stem cannot exceed MAX_WORD_LEN is false; a debug build panics."
  },
  {
   "property": "C64",
   "status": "proved",
   "theorems": [
    "C64_uniform_in_order",
    "C64_flagged_only_adds",
    "C64_only_adds",
    "C64_concerns_only_that_word",
    "C64_checkcompoundrep_refuted",
    "C64_flagged_compound_refuted"
   ],
   "note": "PlainAdd.v: an entry without flags is invisible to affix rules and to compounds. C64_checkcompoundrep_refuted shows the condition on CHECKCOMPOUNDREP is needed; for the order of homonyms see C23_forbidden_homonym_refuted. C64_flagged_only_adds (EntryChange.v) admits flags when there is no compounding, C64_flagged_compound_refuted shows why. Uses functional_extensionality_dep."
  },
  {
   "property": "C65",
   "status": "proved",
   "theorems": [
    "C65_only_removes",
    "C65_concerns_only_that_stem",
    "C65_compound_refuted",
    "C65_shared_flag_refuted"
   ],
   "note": "EntryChange.v: with one flag more on the entries of one stem every route finds what it found, possibly with that flag, and only forms of the stem differ. C65_compound_refuted and C65_shared_flag_refuted show the two conditions are needed. Uses functional_extensionality_dep."
  },
  {
   "property": "C66",
   "status": "proved",
   "theorems": [
    "C66_scores_fit",
    "C66_64_bit",
    "C66_32_bit",
    "C66_32_bit_suggest"
   ],
   "note": "ScoreArith.v writes ngram.rs 72-292 and 568-730 again with every machine operation checked; ScoreProps.v shows it equals the exact version when the type has room for 3n^2 + 100n + 65535(c + 100), n the length of the word and c the growth of a character under case mapping (3 in Unicode)."
  },
  {
   "property": "C67",
   "status": "proved",
   "theorems": [
    "C67_check_ignores_suggestion_directives"
   ],
   "note": "FlagNames.v is a simulation between two checkers, function by function; NamesProps.v derives its hypotheses from the data of reachable dictionaries. COMPOUNDMORESUFFIXES and FULLSTRIP are parsed but never consulted by the code."
  },
  {
   "property": "C68",
   "status": "proved",
   "theorems": [
    "C68_flags_are_names",
    "C68_syllable_flags_refuted"
   ],
   "note": "The same simulation with the flags of one dictionary standing for the flags of the other. C68_syllable_flags_refuted shows why I, J and c are excepted under COMPOUNDSYLLABLE."
  },
  {
   "property": "C69",
   "status": "proved",
   "theorems": [
    "C69_unmentioned_flags_do_not_matter"
   ],
   "note": "The same simulation with only the mentioned flags preserved. Under CHECKCOMPOUNDDUP it rests on searches always ending at the first entry with the same mentioned flags."
  },
  {
   "property": "C70",
   "status": "proved",
   "theorems": [
    "C70_check_reads_only_its_lines",
    "C70_other_lines_can_go"
   ],
   "note": "SilentLines.v works on the grammar of C50: dropping lines drops exactly the settings they write. Properties_Silent.v then uses C67."
  },
  {
   "property": "C71",
   "status": "proved",
   "theorems": [
    "C71_suggest_ignores_unread_directives",
    "C71_flags_are_names",
    "C71_unmentioned_flags_do_not_matter"
   ],
   "note": "SuggestNames.v extends the simulation of C68 to every function of the suggester. Uses functional extensionality. MAXCPDSUGS, SUBSTANDARD and SUGSWITHDOTS are parsed but nothing in the crate reads them. The heaps and the iteration order of the word list are assumed not to look at flags (uniform_runtime); ex_rn_uniform shows the assumption can be met."
  },
  {
   "property": "C72",
   "status": "proved",
   "theorems": [
    "C72_suggest_reads_only_its_lines",
    "C72_other_lines_can_go"
   ],
   "note": "The lemmas of SilentLines.v hold for any set of directives that count; C70 and C72 are two instances. Uses functional extensionality through C71."
  },
  {
   "property": "C73",
   "status": "proved",
   "theorems": [
    "C73_corrections_are_suggested",
    "C73_one_slip",
    "C73_one_slip_capital",
    "C73_missing_space",
    "C73_doubling_at_end_refuted"
   ],
   "note": "C73_corrections_are_suggested is the general form (any casing, conversions, any one edit); C73_one_slip, C73_one_slip_capital and C73_missing_space state it from the side of the typist. C73_doubling_at_end_refuted shows the gap in doubled_two_chars_suggest."
  },
  {
   "property": "C74",
   "status": "proved",
   "theorems": [
    "C74_flag_messages_differ",
    "C74_messages_differ",
    "C74_message",
    "C74_one_line",
    "C74_rows_found_refuted"
   ],
   "note": "C74_message combines the text of the message with the grammar of faults of C55; C74_rows_found_refuted shows that the number of rows found counts the header. The texts of core's ParseIntError are literals of the model."
  },
  {
   "property": "C75",
   "status": "proved",
   "theorems": [
    "C75_same_entries_same_suggestions",
    "C75_order_irrelevant",
    "C75_same_before_guesses",
    "C75_ties_refuted",
    "C75_guess_hides_parts_refuted"
   ],
   "note": "C75_same_entries_same_suggestions and C75_order_irrelevant without n-grams; C75_same_before_guesses with them. C75_ties_refuted: the same dictionary iterated in two orders suggests different words. C75_guess_hides_parts_refuted: turning n-grams on takes hello-phone away from the suggestions for helo-phone. Uses functional extensionality."
  },
  {
   "property": "C76",
   "status": "proved",
   "theorems": [
    "C76_listed_word_is_suggested",
    "C76_added_word_is_suggested",
    "C76_plain_word_is_suggested",
    "C76_removed_word_not_suggested",
    "C76_removed_word_not_suggested_capitals",
    "C76_removed_guess_refuted"
   ],
   "note": "C76_listed_word_is_suggested needs facts about the entry and its homonyms only; C76_added_word_is_suggested and C76_plain_word_is_suggested for add; C76_removed_word_not_suggested and C76_removed_word_not_suggested_capitals for remove_stem. C76_removed_guess_refuted: with n-grams the removed word locks is still suggested as a form of lock."
  },
  {
   "property": "C77",
   "status": "proved",
   "theorems": [
    "C77_slices",
    "C77_insertions",
    "C77_positions",
    "C77_comment_refuted",
    "C77_bytes_agree",
    "C77_cuts_between_characters",
    "C77_words_agree"
   ],
   "note": "ByteCompound.v models checker.rs 1387-2558 on bytes with checked slices; C77_bytes_agree refines it to the model on characters for every reachable dictionary; C77_cuts_between_characters: nothing panics (the arithmetic on syllables set aside, see C01); C77_positions for bytes_within; C77_slices and C77_insertions say when the string operations themselves succeed. C77_comment_refuted: the example in the comment of bytes_within omits a position."
  },
  {
   "property": "C78",
   "status": "proved",
   "theorems": [
    "C78_apostrophe",
    "C78_breaks",
    "C78_full_stops",
    "C78_conversions",
    "C78_check_agrees",
    "C78_check_returns",
    "C78_never_panics"
   ],
   "note": "ByteCheck.v models check, spell_break, the casing attempts and convert on bytes with checked slices. C78_check_agrees: the same result as the model on characters at every depth; C78_check_returns and C78_never_panics follow with C01. C78_apostrophe, C78_breaks, C78_full_stops, C78_conversions say where the word is cut."
  },
  {
   "property": "C79",
   "status": "proved",
   "theorems": [
    "C79_removals",
    "C79_truncations",
    "C79_enumeration",
    "C79_recased",
    "C79_edits_agree",
    "C79_suggest_agrees",
    "C79_suggestions_are_text",
    "C79_edits_return",
    "C79_suggest_returns"
   ],
   "note": "ByteSuggest.v models suggest, suggest_low and every edit on bytes with checked slices, insertions and removals. C79_edits_agree and C79_suggest_agrees: the same result as the model on characters at every depth; C79_edits_return and C79_suggest_returns follow with C34, C79_suggestions_are_text says the results are valid strings. C79_removals, C79_truncations, C79_enumeration and C79_recased fix the operations on the buffers. The n-gram step works on the decoded word (its own offsets are the subject of C62)."
  },
  {
   "property": "C80",
   "status": "proved",
   "theorems": [
    "C80_accepted_words_stand",
    "C80_no_chain_rejected",
    "C80_bare_stem_rejected",
    "C80_open_forms_rejected",
    "C80_only_in_compound_rejected",
    "C80_half_circumfix_rejected"
   ],
   "note": "C80_accepted_words_stand gives the shape of every accepted word, with compounding and breaks and without any assumption on termination; the four rejection theorems follow through C80_no_chain_rejected for words that cannot be broken in dictionaries without compounding. Chain lists the rules outermost first and uses the derivation relation of C09 alone; conditions are the subject of C10 to C12. The example has one word per theorem whose hypotheses are checked by inspecting every chain."
  },
  {
   "property": "C81",
   "status": "proved",
   "theorems": [
    "C81_every_acceptance_has_a_reason",
    "C81_accepted_words",
    "C81_ordinary_words",
    "C81_no_entries",
    "C81_any_options"
   ],
   "note": "C81_every_acceptance_has_a_reason holds for every fuel, so also where other words make the same dictionary recurse for ever. Reason uses Converts (C13), Numeral (C03), Glued (C18) and Explained (C22); it is soundness only, exactness under the termination condition is C18_break_iff and C22. C81_any_options covers the two options of the checker with Recased, the closure under changes of case, as spelling. The example dictionary violates Shrinks."
  },
  {
   "property": "C82",
   "status": "proved",
   "theorems": [
    "C82_all_barred",
    "C82_removed",
    "C82_removed_ordinary",
    "C82_keepcase",
    "C82_unknown"
   ],
   "note": "Consequences of C81 that drop the condition Shrinks from C20, C21, C22 and C25; without that condition only 'not accepted' can be said, since check may recurse for ever (C01). C82_all_barred is for every fuel and both options. The example dictionaries violate Shrinks."
  }
 ]
}
