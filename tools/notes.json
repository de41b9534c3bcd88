{
 "C01": {
  "note": "Restated with its true exceptions; the unrestricted statement (check always returns) is false, with five _refuted witnesses: CHECKCOMPOUNDPATTERN replacement that recurses forever, empty piece with check_lower_as_title/upper, syllable counter overflow under overflow checks, unbounded recursion with SIMPLIFIEDTRIPLE and COMPOUNDMIN 1.",
  "status": "proved"
 },
 "C02": {
  "note": "Exact, for check and for suggest."
 },
 "C03": {
  "note": "All dictionaries without ICONV, as quantified; the converse is for dictionaries that know no other word."
 },
 "C04": {
  "note": "Every hash function, tag function and placement."
 },
 "C12": {
  "note": "Restated as the exact relation the code implements. The natural statement (every condition checked on the form the rule was attached to; the inner prefix lets the outer through) is false in both directions: three _refuted witnesses.",
  "status": "proved"
 },
 "C17": {
  "note": "Restated: the bound n fails with SIMPLIFIEDTRIPLE (_refuted, a word of more than two parts with COMPOUNDWORDMAX 2), where n+2 is proved. With COMPOUNDSYLLABLE see C59.",
  "status": "proved"
 },
 "C21": {
  "note": "Proved. The refuted theorem shows that an entry that may stand alone is needed: a forbidden NEEDAFFIX entry does not keep a derived homonym out.",
  "status": "proved"
 },
 "C23": {
  "note": "Proved. The refuted theorem shows that the clause about forbidden homonyms is needed: adding does not lift an earlier FORBIDDENWORD entry.",
  "status": "proved"
 },
 "C24": {
  "note": "Proved with the exact effect of a line of the file (C24_line_effect); the two exceptions are real (_refuted witnesses: 'OpenOffice' and '#tag').",
  "status": "proved"
 },
 "C25": {
  "note": "Proved. Forms with another derivation and COMPOUNDRULE compounds stay accepted (_refuted witnesses for the reading 'every form of the stem is rejected').",
  "status": "proved"
 },
 "C26": {
  "note": "Proved also with ICONV (uniqueness of the conversion is the only demand). The refuted theorem shows that words ending in full stops have to be excluded from the first part.",
  "status": "proved"
 },
 "C27": {
  "note": "Proved also with ICONV. Refuted for the empty word and for words that end in a full stop themselves.",
  "status": "proved"
 },
 "C28": {
  "note": "Every run-time (heap arrangement, table order, debug assertions), every option."
 },
 "C29": {
  "note": "Proved. With OCONV two suggestions may be converted to the same string (_refuted).",
  "status": "proved"
 },
 "C30": {
  "note": "Proved as a case distinction that covers every suggestion. The simpler statement (every edit suggestion is accepted and not forbidden) is false in four ways (_refuted): the last part of a REP replacement, forbidden halves, the space after a full stop, hyphenated parts.",
  "status": "proved"
 },
 "C31": {
  "note": "Proved. The edit strategies do not look at NOSUGGEST: 'damn' is proposed for 'dmn' (_refuted).",
  "status": "proved"
 },
 "C33": {
  "note": "Exact list, with order, for lower-case words without hyphen, n-grams off, no ICONV/OCONV/FORCEUCASE; other casings are covered by C30_every_suggestion_has_a_source. MAP groups are exact when no string of a group begins with one of its characters."
 },
 "C38": {
  "note": "Proved (iff). One written character can be two units: astral characters with FLAG UTF-8, non-ASCII characters in the default format (_refuted).",
  "status": "proved"
 },
 "C39": {
  "note": "Proved for lines and files; the exclusions are needed (three _refuted witnesses: tab, field inside the word, empty flag list).",
  "status": "proved"
 },
 "C40": {
  "note": "Proved. The reported number is one more than the rows found (_refuted for the reading 'how many were found').",
  "status": "proved"
 },
 "C41": {
  "note": "Proved. A BREAK row that is only an anchor gives an empty pattern (_refuted).",
  "status": "proved"
 },
 "C42": {
  "note": "Proved (C42_panics_exactly is a characterisation of both outcomes). The unrestricted statement is false (_refuted: a word of 30000 letters that triples its length).",
  "status": "proved"
 },
 "C46": {
  "note": "Both parts proved; the refuted theorem shows that the hypothesis about differing homonyms is needed.",
  "status": "proved"
 },
 "C49": {
  "note": "Proved. Refuted without the conditions about breaking and forbidden entries.",
  "status": "proved"
 },
 "C32": {
  "note": "Every buffer, position and pair of characters; the edits run on the UTF-8 bytes. Moving a character is proved step by step (each step is a swap of neighbours, and the walk visits every position)."
 },
 "C35": {
  "note": "Each measure against its mathematical definition (iff for the longest common subsequence), with bounds, the self-similarity and symmetry where they hold."
 },
 "C36": {
  "note": "Proved. When the edits propose more than sixteen times (repetitions included) MAXNGRAMSUGS does not bound the additions (_refuted).",
  "status": "proved"
 },
 "C37": {
  "note": "Proved. Guesses of the second kind need not be words (_refuted).",
  "status": "proved"
 },
 "C34": {
  "status": "proved",
  "note": "C34_suggest_never_hangs: every option of the suggester, when check's affixes shrink (C01) and ICONV introduces no hyphen. C34_edits_return and C34_suggest_returns: it returns, n-grams off and on, under the conditions listed in the statement; ordinary_wieldy derives the size conditions from simple bounds. Shown necessary (_refuted): the hyphen condition, the empty word, the crossed prefix. The length condition is the u16 assertion of CharsStr and is not separately refuted."
 },
 "C50": {
  "note": "Iff between the parser and an independent grammar of the text (directives, values, table rows); settings stated with one list of 41 directives, their places and defaults."
 },
 "C51": {
  "note": "Proved for every text written from lines with either line end, with or without byte order mark."
 },
 "C52": {
  "note": "The grammar (DicGrammar.v) is stated on positions of the line. It records that blanks before the flags are skipped only when the word has no slash, backslash or blank."
 },
 "C53": {
  "note": "C53_order needs that no word is listed twice with different flags; C46_homonym_order_refuted shows why. Uses functional extensionality through C46."
 },
 "C54": {
  "note": "Stated against an arbitrary Unicode table (the record unicode); the table's own contents are not modelled."
 },
 "C55": {
  "note": "The specification is nondeterministic where two kinds describe the same fault, such as a number that is too large and has a letter after it. Together with C50 and C52 every pair of texts either loads or has such a fault."
 },
 "C56": {
  "note": "Proved for every chain of calls."
 },
 "C57": {
  "note": "NgramRank.v specifies the scores and the choice without the functions that compute them. Stated for words without capitals and hyphens; C58 places the guesses in the general case. The room is unlimited when the edits give more than sixteen proposals (see C36)."
 },
 "C58": {
  "note": "C58_exact_list is for every setting; C58_complete shows that the specification admits one list when n-grams are off. Whether suggest returns at all is C34. Candidate sets of the single strategies are those of C32, C33 and C38-C41.",
  "status": "proved"
 },
 "C59": {
  "note": "C59_words_and_syllables is an equivalence for the compound search, C59_accepted carries it to check. Restrictions (PlainCompounding, readings of a part that count alike, no overflow checks unless there are no vowels) are hypotheses."
 },
 "C60": {
  "note": "Exact: C60_compounds_iff for the search, C60_accepted_iff at the interface, for a word that is not itself an entry or a form of one, not capitalised, in a dictionary without COMPOUNDRULE and FORBIDWARN. C60_every_compound_refuted shows a word that is rejected although a segmentation breaks no rule: the recursive call reports only the first way to cut the rest, and a pattern that looks at its first part then hides the others.",
  "status": "proved"
 },
 "C20": {
  "status": "proved",
  "note": "C20_keepcase_rejected is general; C20_all_keepcase is the version with no condition on derivations. The apostrophe split and later compound parts ignore KEEPCASE (_refuted)."
 },
 "C61": {
  "note": "Depth is the fuel of the model's check_compound_impl; the bound is proved for every larger fuel as well, and C61_answers_at replaces 'sufficiently large fuel' by one number."
 },
 "C62": {
  "note": "CharsStr.v models the view on bytes with an explicit Undefined outcome for get_unchecked; the theorems show it never occurs."
 },
 "C63": {
  "status": "proved",
  "note": "Scratch.v. C63_stem_length_refuted: the comment that a stem cannot exceed MAX_WORD_LEN is false; a debug build panics."
 },
 "C64": {
  "status": "proved",
  "note": "PlainAdd.v: an entry without flags is invisible to affix rules and to compounds. C64_checkcompoundrep_refuted shows the condition on CHECKCOMPOUNDREP is needed; for the order of homonyms see C23_forbidden_homonym_refuted. C64_flagged_only_adds (EntryChange.v) admits flags when there is no compounding, C64_flagged_compound_refuted shows why. Uses functional_extensionality_dep."
 },
 "C65": {
  "status": "proved",
  "note": "EntryChange.v: with one flag more on the entries of one stem every route finds what it found, possibly with that flag, and only forms of the stem differ. C65_compound_refuted and C65_shared_flag_refuted show the two conditions are needed. Uses functional_extensionality_dep."
 },
 "C66": {
  "note": "ScoreArith.v writes ngram.rs 72-292 and 568-730 again with every machine operation checked; ScoreProps.v shows it equals the exact version when the type has room for 3n^2 + 100n + 65535(c + 100), n the length of the word and c the growth of a character under case mapping (3 in Unicode)."
 },
 "C67": {
  "note": "FlagNames.v is a simulation between two checkers, function by function; NamesProps.v derives its hypotheses from the data of reachable dictionaries. COMPOUNDMORESUFFIXES and FULLSTRIP are parsed but never consulted by the code."
 },
 "C68": {
  "status": "proved",
  "note": "The same simulation with the flags of one dictionary standing for the flags of the other. C68_syllable_flags_refuted shows why I, J and c are excepted under COMPOUNDSYLLABLE."
 },
 "C69": {
  "note": "The same simulation with only the mentioned flags preserved. Under CHECKCOMPOUNDDUP it rests on searches always ending at the first entry with the same mentioned flags."
 },
 "C70": {
  "note": "SilentLines.v works on the grammar of C50: dropping lines drops exactly the settings they write. Properties_Silent.v then uses C67."
 },
 "C71": {
  "note": "SuggestNames.v extends the simulation of C68 to every function of the suggester. Uses functional extensionality. MAXCPDSUGS, SUBSTANDARD and SUGSWITHDOTS are parsed but nothing in the crate reads them. The heaps and the iteration order of the word list are assumed not to look at flags (uniform_runtime); ex_rn_uniform shows the assumption can be met."
 },
 "C72": {
  "note": "The lemmas of SilentLines.v hold for any set of directives that count; C70 and C72 are two instances. Uses functional extensionality through C71."
 },
 "C73": {
  "status": "proved",
  "note": "C73_corrections_are_suggested is the general form (any casing, conversions, any one edit); C73_one_slip, C73_one_slip_capital and C73_missing_space state it from the side of the typist. C73_doubling_at_end_refuted shows the gap in doubled_two_chars_suggest."
 },
 "C74": {
  "status": "proved",
  "note": "C74_message combines the text of the message with the grammar of faults of C55; C74_rows_found_refuted shows that the number of rows found counts the header. The texts of core's ParseIntError are literals of the model."
 },
 "C75": {
  "status": "proved",
  "note": "C75_same_entries_same_suggestions and C75_order_irrelevant without n-grams; C75_same_before_guesses with them. C75_ties_refuted: the same dictionary iterated in two orders suggests different words. C75_guess_hides_parts_refuted: turning n-grams on takes hello-phone away from the suggestions for helo-phone. Uses functional extensionality."
 },
 "C76": {
  "status": "proved",
  "note": "C76_listed_word_is_suggested needs facts about the entry and its homonyms only; C76_added_word_is_suggested and C76_plain_word_is_suggested for add; C76_removed_word_not_suggested and C76_removed_word_not_suggested_capitals for remove_stem. C76_removed_guess_refuted: with n-grams the removed word locks is still suggested as a form of lock."
 },
 "C77": {
  "status": "proved",
  "note": "ByteCompound.v models checker.rs 1387-2558 on bytes with checked slices; C77_bytes_agree refines it to the model on characters for every reachable dictionary; C77_cuts_between_characters: nothing panics (the arithmetic on syllables set aside, see C01); C77_positions for bytes_within; C77_slices and C77_insertions say when the string operations themselves succeed. C77_comment_refuted: the example in the comment of bytes_within omits a position."
 },
 "C78": {
  "status": "proved",
  "note": "ByteCheck.v models check, spell_break, the casing attempts and convert on bytes with checked slices. C78_check_agrees: the same result as the model on characters at every depth; C78_check_returns and C78_never_panics follow with C01. C78_apostrophe, C78_breaks, C78_full_stops, C78_conversions say where the word is cut."
 },
 "C79": {
  "status": "proved",
  "note": "ByteSuggest.v models suggest, suggest_low and every edit on bytes with checked slices, insertions and removals. C79_edits_agree and C79_suggest_agrees: the same result as the model on characters at every depth; C79_edits_return and C79_suggest_returns follow with C34, C79_suggestions_are_text says the results are valid strings. C79_removals, C79_truncations, C79_enumeration and C79_recased fix the operations on the buffers. The n-gram step works on the decoded word (its own offsets are the subject of C62)."
 },
 "C80": {
  "status": "proved",
  "note": "C80_accepted_words_stand gives the shape of every accepted word, with compounding and breaks and without any assumption on termination; the four rejection theorems follow through C80_no_chain_rejected for words that cannot be broken in dictionaries without compounding. Chain lists the rules outermost first and uses the derivation relation of C09 alone; conditions are the subject of C10 to C12. The example has one word per theorem whose hypotheses are checked by inspecting every chain."
 },
 "C81": {
  "status": "proved",
  "note": "C81_every_acceptance_has_a_reason holds for every fuel, so also where other words make the same dictionary recurse for ever. Reason uses Converts (C13), Numeral (C03), Glued (C18) and Explained (C22); it is soundness only, exactness under the termination condition is C18_break_iff and C22. C81_any_options covers the two options of the checker with Recased, the closure under changes of case, as spelling. The example dictionary violates Shrinks."
 },
 "C82": {
  "status": "proved",
  "note": "Consequences of C81 that drop the condition Shrinks from C20, C21, C22 and C25; without that condition only 'not accepted' can be said, since check may recurse for ever (C01). C82_all_barred is for every fuel and both options. The example dictionaries violate Shrinks."
 },
 "C16": {
  "status": "proved",
  "note": "C16_guards: the conditions under which the checker looks for compounds at all (a compound flag is set, a rule exists) exclude no compound of the specification."
 }
}