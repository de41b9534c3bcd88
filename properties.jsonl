{"id": "C01", "title": "check always returns", "statement": "For every dictionary that Dictionary::new accepts in which SIMPLIFIEDTRIPLE comes with COMPOUNDMIN 2 or more and no CHECKCOMPOUNDPATTERN replacement is undone by COMPOUNDMIN or more additional characters, check never recurses forever, under any Checker option. It returns a boolean if moreover syllable vowels are absent or arithmetic wraps, and check_lower_as_title / check_lower_as_upper are off or breaking the word leaves no empty piece. Each of the exclusions is needed: outside them check panics or recurses forever. (For a build without debug assertions: the one on the length of a stem is refuted under C63.)", "quantifier": "all aff/dic data accepted by new and not excluded above, all checker option settings, all words", "why_tests_cant": "Termination and panic freedom of a backtracking search over arbitrary affix tables and compound settings; the bad configurations are rare and a test that finds one only hangs or aborts.", "anchors": ["src/checker.rs: Checker::check, do_spell_break, spell_casing, check_compound_impl, check_compound_classic_try_simplified_triple, check_compound_with_pattern_replacements", "src/aff.rs: CaseHandling::titlecase"]}
{"id": "C02", "title": "Length limits of check and suggest", "statement": "A word longer than 360 UTF-8 bytes is never accepted by check and gets no suggestions; the empty word is always accepted and gets no suggestions; the limit counts bytes, not characters.", "quantifier": "all dictionaries, all words", "why_tests_cant": "The limit has to cut off for every word of every length and every mix of 1-4 byte characters.", "anchors": ["src/checker.rs: check", "src/suggester.rs: suggest", "src/lib.rs: MAX_WORD_LEN"]}
{"id": "C03", "title": "Numerals are always accepted", "statement": "check accepts every word of the form optional minus, digits, then any number of (one separator out of . , - followed by digits), whatever the dictionary; no other string is treated as a numeral.", "quantifier": "all words (any length), all dictionaries without ICONV", "why_tests_cant": "An unbounded regular language; the scanner's one-bit state has to be right after every prefix.", "anchors": ["src/checker.rs: is_number, check"]}
{"id": "C04", "title": "Word list lookups do not depend on the hasher", "statement": "Whatever BuildHasher the user supplies (including one that maps everything to one value), looking a stem up yields exactly the flag sets inserted under that stem, each as many times as it was inserted, and nothing inserted under another stem.", "quantifier": "all insertion histories, all hash functions, all placements of entries in the table, all keys", "why_tests_cant": "Quantifies over every hash function and every history of insertions and flag mutations.", "anchors": ["src/hash_bag.rs: insert, get, get_mut, GetAllIter::next, GetAllMutIter::next, len, iter", "src/lib.rs: new_with_hasher"]}
{"id": "C05", "title": "Flag sets behave as finite sets", "statement": "Building a flag set from any list of flags never panics, keeps exactly the listed flags without duplicates, and membership, intersection and add-one-flag queries give the set-theoretic answer however large the set is.", "quantifier": "all lists of 16-bit non-zero flags", "why_tests_cant": "Uses two search algorithms switched by size and a merge intersection on sorted data; correctness must hold for every size and content.", "anchors": ["src/lib.rs: FlagSet::from, contains, has_intersection, with_flag", "src/umbra_slice.rs: sorted_contains, try_from"]}
{"id": "C06", "title": "Compact storage is lossless", "statement": "A string or flag list stored in the compact representation reads back unchanged for every length up to 65535, longer ones are refused, two stored values compare equal exactly when their contents are equal, and a clone equals its original.", "quantifier": "all byte strings and flag lists of every length", "why_tests_cant": "Inline/heap switch, prefix/suffix split and word-wise comparison must be right for each length and content.", "anchors": ["src/umbra_slice.rs: UmbraSlice::try_from, as_slice, eq, clone, INLINE_LEN", "src/umbra_slice.rs: UmbraString::from"]}
{"id": "C07", "title": "The affix index finds exactly the applicable rules", "statement": "Looking up the affixes of a word yields exactly the prefix (suffix) rules whose text the word starts (ends) with, each as often as it appears in the .aff file, and never cuts a word inside a multi-byte character.", "quantifier": "all affix tables, all words, every order the unstable sort may produce", "why_tests_cant": "A hand-written radix traversal on sorted bytes with skip logic; a missed or extra rule shows only for particular table shapes.", "anchors": ["src/aff.rs: AffixIndex::from, affixes_of, AffixesIter::next, AffixKind::cmp, nth_byte"]}
{"id": "C08", "title": "Affix conditions mean what the .aff file says", "statement": "A condition built from literal characters, '.', [abc] and [^abc] matches a stem exactly when the stem's leading (for prefixes) or trailing (for suffixes) characters, one per condition element, belong to the listed sets.", "quantifier": "all condition strings, all stems", "why_tests_cant": "Hand-written matcher with a literal fast path and byte/character counting; must agree with the pattern semantics for every input.", "anchors": ["src/aff.rs: Condition::matches, Prefix::condition_matches, Suffix::condition_matches", "src/aff/parser.rs: Condition::from_str"]}
{"id": "C09", "title": "Removing an affix inverts adding it", "statement": "For a stem that starts (ends) with the rule's strip text, deriving a word and stripping the affix again gives back the stem; stripping an applicable affix and deriving again gives back the word.", "quantifier": "all affix rules, all stems and words", "why_tests_cant": "Byte-offset slicing for arbitrary Unicode content.", "anchors": ["src/aff.rs: to_stem_into, to_derived, StemBuf::concat"]}
{"id": "C10", "title": "Single-affix words: accepted exactly when derivable", "statement": "A word is accepted through one suffix or one prefix if and only if some stem carrying the rule's flag, together with a rule whose text and condition fit, derives it, subject to NEEDAFFIX, ONLYINCOMPOUND, CIRCUMFIX and hidden-homonym restrictions.", "quantifier": "all dictionaries, all words", "why_tests_cant": "Soundness and completeness of a search over all rules and all homonyms.", "anchors": ["src/checker.rs: strip_suffix_only, strip_prefix_only, check_simple_word, is_outer_affix_valid"]}
{"id": "C11", "title": "Prefix+suffix and double-affix words: accepted exactly when derivable", "statement": "The cross-product, suffix-on-suffix, prefix-on-prefix and prefix-with-two-suffixes routes accept a word if and only if a stem, applicable rules and continuation flags exist that derive it; the fast-lane shortcuts change nothing.", "quantifier": "all dictionaries, all words", "why_tests_cant": "Nested searches with early exits; the shortcuts are claimed not to affect correctness.", "anchors": ["src/checker.rs: strip_prefix_then_suffix_commutative, strip_suffix_then_suffix, strip_prefix_then_prefix, strip_prefix_then_2_suffixes"]}
{"id": "C12", "title": "Triple-affix words with interleaved or complex prefixes", "statement": "The suffix-prefix-suffix and prefix-suffix-prefix routes accept a word if and only if a stem and applicable rules derive it, where the outer rules' conditions are checked on the form the rule was attached to and the middle rule's condition on the form that still carries the outer affix; without conditions this is plain derivability. The suffix-with-two-prefixes route accepts exactly the derivations in which moreover some suffix rule lets the outer prefix's flag through.", "quantifier": "all dictionaries, all words", "why_tests_cant": "Deeply nested search; a wrong variable in one of the conditions or shortcuts only shows on rare affix combinations.", "anchors": ["src/checker.rs: strip_suffix_then_prefix_then_suffix, strip_prefix_then_suffix_then_prefix, strip_suffix_then_2_prefixes"]}
{"id": "C13", "title": "ICONV/OCONV convert leftmost-longest", "statement": "Character conversion scans the text left to right, at each position applies the longest applicable entry (anchors honoured), copies unmatched characters, and always terminates; the byte-set shortcut never changes the result and text without a match is returned unchanged.", "quantifier": "all conversion tables, all texts", "why_tests_cant": "Fast paths, byte/character boundaries and an anchored longest-match search over an arbitrary table.", "anchors": ["src/aff.rs: ConversionTable::from, match_at, convert, ByteSet"]}
{"id": "C14", "title": "COMPOUNDRULE patterns match their regular language", "statement": "A sequence of words is matched by a COMPOUNDRULE pattern (flags with optional ? and *) exactly when the sequence of their flag sets belongs to the pattern's regular language.", "quantifier": "all patterns, all sequences of flag sets", "why_tests_cant": "A backtracking matcher with early return whose correctness is a statement about every pattern and every sequence.", "anchors": ["src/aff.rs: compound_rule_matches, CompoundRuleTable::any_rule_matches"]}
{"id": "C15", "title": "Words accepted by COMPOUNDRULE split into dictionary words matching a rule", "statement": "If a word is accepted only through COMPOUNDRULE then it is a concatenation of two or more dictionary words, each at least COMPOUNDMIN characters long and not NEEDAFFIX, whose flags match one of the rules; conversely every such word with one eligible homonym per part is accepted.", "quantifier": "all dictionaries, all words", "why_tests_cant": "Backtracking over all segmentations with a shared stack of flags.", "anchors": ["src/checker.rs: check_compound_with_rules, check_compound_with_rules_impl, bytes_within"]}
{"id": "C16", "title": "Words accepted by flag-based compounding split into permitted parts", "statement": "If a word is accepted as a compound then it is a concatenation of at least two parts, each at least COMPOUNDMIN characters, permitted at its position by the compound flags (directly or through one affix of each kind), with no forbidden part and with every CHECKCOMPOUND restriction satisfied at each boundary; and without such restrictions every such concatenation is accepted.", "quantifier": "all dictionaries, all words, all segmentations", "why_tests_cant": "Recursive search with fallbacks over all segmentations.", "anchors": ["src/checker.rs: check_compound, check_compound_impl, check_compound_classic, check_compound_classic_try_recursive, check_word_in_compound, is_compound_forbidden_by_patterns"]}
{"id": "C17", "title": "COMPOUNDWORDMAX bounds the number of parts", "statement": "With COMPOUNDWORDMAX n and no COMPOUNDSYLLABLE exception, every word found by flag-based compounding splits into at most n parts when SIMPLIFIEDTRIPLE is off and into at most n+2 when it is on; with plain compounding and no COMPOUNDROOT the words found are exactly the plain compounds of at most n parts.", "quantifier": "all dictionaries with COMPOUNDWORDMAX, all words", "why_tests_cant": "The counter is threaded through several mutually recursive fallbacks.", "anchors": ["src/checker.rs: check_compound_classic, check_compound_classic_try_simplified_triple, check_compound_with_pattern_replacements"]}
{"id": "C18", "title": "BREAK splitting is sound and bounded", "statement": "A word accepted by breaking is obtained from words accepted on their own by gluing them with break patterns (start, end, middle) nested at most nine deep; a word accepted on its own is accepted; breaking never accepts a word one of whose pieces is rejected on its own and cannot be broken.", "quantifier": "all break tables, all words", "why_tests_cant": "Recursive search over an arbitrary pattern table.", "anchors": ["src/checker.rs: spell_break, do_spell_break", "src/aff.rs: BreakTable::new"]}
{"id": "C19", "title": "Case variants of dictionary words are accepted", "statement": "If a lower-case word is in the dictionary (without KEEPCASE), its title-case and all-caps forms are accepted too; a title-case entry is accepted in all caps.", "quantifier": "all dictionaries, all words, all case mappings satisfying stated laws", "why_tests_cant": "Depends on how casing classification and conversion interact for arbitrary Unicode case mappings.", "anchors": ["src/checker.rs: spell_casing, spell_casing_upper, spell_casing_title", "src/lib.rs: classify_casing", "src/aff.rs: CaseHandling"]}
{"id": "C20", "title": "KEEPCASE words are not accepted in other casings", "statement": "A word that BREAK does not split, and whose lower-case and title-case spellings are found (as entries, affixed forms or compounds) only through entries that carry KEEPCASE, is rejected in title case and in all caps, outside CHECKSHARPS, unless it is found exactly as written or in the spelling with both sides of an apostrophe in title case. In particular a dictionary all of whose entries carry KEEPCASE accepts no apostrophe-free title-case or all-caps word that it does not list or derive as written. KEEPCASE is not looked at after a split at an apostrophe, nor for the later parts of a compound.", "quantifier": "all dictionaries, all words", "why_tests_cant": "Must exclude every acceptance path, including affixes, compounding and breaking.", "anchors": ["src/checker.rs: spell_casing_upper, spell_casing_title"]}
{"id": "C21", "title": "Forbidden words are rejected", "statement": "If every dictionary entry spelled like the word is marked FORBIDDENWORD (or WARN with FORBIDWARN), and one of them is not an entry for affixes or compounds only, then check rejects that spelling, even if it could also be formed by affixes, compounding or breaking.", "quantifier": "all dictionaries, all words that are not numerals", "why_tests_cant": "Must defeat every other acceptance path.", "anchors": ["src/checker.rs: do_spell_break, spell_casing, check_simple_word"]}
{"id": "C22", "title": "Unknown words without any applicable mechanism are rejected", "statement": "A word for which no case variant, affix stripping, compound or break applies to any entry is rejected; in particular with no affixes, compounding or breaks a word is accepted only if one of its casings is a dictionary entry.", "quantifier": "all dictionaries, all words", "why_tests_cant": "Soundness of the whole checker: quantifies over all acceptance paths.", "anchors": ["src/checker.rs: check, spell_casing, check_word"]}
{"id": "C23", "title": "add makes the word known", "statement": "After add(line) succeeds exactly one entry is added, every previous entry is still there, and the added stem is accepted by check unless its own flags or a forbidden entry of the same spelling keep it out; a failing add changes nothing; every word without tabs and spaces can be added by escaping its slashes.", "quantifier": "all dictionaries, all histories of add/remove calls, all lines", "why_tests_cant": "Histories of operations of any length.", "anchors": ["src/lib.rs: Dictionary::add", "src/aff/parser.rs: parse_dic_line"]}
{"id": "C24", "title": "add(line) is equivalent to having the line in the .dic file", "statement": "Adding a line with add gives the same dictionary as having the line at the end of the .dic file, and is refused if the file would be, except for comment lines and for words in mixed case or flagged words in capitals, for which the file gives exactly one more, hidden, title-case entry.", "quantifier": "all dictionaries, all lines, all words", "why_tests_cant": "Equality of two acceptance functions on all words.", "anchors": ["src/lib.rs: Dictionary::add", "src/aff/parser.rs: parse (dic loop, hidden homonyms)"]}
{"id": "C25", "title": "remove_stem forbids the stem and its derived forms", "statement": "remove_stem returns true exactly when the stem was present and not already removed; calling it again returns false and changes nothing; other stems are untouched; afterwards check returns false for the stem and for every form that is not explained by the remaining entries, where COMPOUNDRULE compounds that do not begin with the removed stem remain explained.", "quantifier": "all dictionaries, all histories, all stems and derived words", "why_tests_cant": "Histories of any length and every derived form.", "anchors": ["src/lib.rs: Dictionary::remove_stem"]}
{"id": "C26", "title": "Ignored characters do not matter", "statement": "With IGNORE, two words whose input conversions differ in ignored characters only (neither a numeral nor ending in a full stop) get the same answer from check; if the second ends in full stops it is accepted whenever the first is.", "quantifier": "all dictionaries, all words of at most 360 bytes, all option settings", "why_tests_cant": "Equality of results over all insertions in all words.", "anchors": ["src/lib.rs: erase_chars", "src/checker.rs: check", "src/aff/parser.rs: parse (ignore handling), parse_dic_line"]}
{"id": "C27", "title": "Trailing full stops", "statement": "A non-empty word that does not itself end in a full stop, followed by any number of full stops, is accepted whenever the word is accepted, provided the input conversion leaves the full stops alone.", "quantifier": "all dictionaries, all words and numbers of dots within the length limit, all option settings", "why_tests_cant": "Any number of dots on any word.", "anchors": ["src/checker.rs: check"]}
{"id": "C28", "title": "suggest replaces the output vector", "statement": "suggest's result does not depend on what the output vector held before the call.", "quantifier": "all dictionaries, words, previous contents", "why_tests_cant": "Quantifies over arbitrary previous contents.", "anchors": ["src/suggester.rs: suggest, suggest_impl"]}
{"id": "C29", "title": "No duplicate suggestions", "statement": "The suggestions of suggest are the output conversions of pairwise different strings; without OCONV no string is returned twice.", "quantifier": "all dictionaries, all words, all option settings", "why_tests_cant": "Must hold over all combinations of the suggestion strategies and conversions.", "anchors": ["src/suggester.rs: suggest_impl, deduplicate"]}
{"id": "C30", "title": "Edit suggestions are words the checker accepts and that are not forbidden", "statement": "Every suggestion has one of these sources: a correct spelling reached by one edit (or its case variants) that is not forbidden; a REP replacement with spaces all of whose parts but the last are correct; a cut into two correct words; a space after an inner full stop; an n-gram form of an eligible entry; or a hyphenated word with one part replaced by its own suggestion. Suggestions for capitalised words are accepted by check.", "quantifier": "all dictionaries, all words of at most 360 bytes, all option settings", "why_tests_cant": "Quantifies over all strategies and all candidate edits.", "anchors": ["src/suggester.rs: add_suggestion_if_correct, try_rep_suggestion, two_words_suggest, suggest_low"]}
{"id": "C31", "title": "NOSUGGEST words are never suggested", "statement": "What n-gram ranking contributes to the suggestions never comes from an entry with NOSUGGEST: everything suggest returns beyond what it returns with n-grams off is a form of an entry without NOSUGGEST that is not forbidden.", "quantifier": "all dictionaries with NOSUGGEST, all words without hyphens, any casing, all option settings", "why_tests_cant": "Must hold for each strategy and each candidate.", "anchors": ["src/suggester.rs: add_suggestion_if_correct", "src/suggester/ngram.rs: ngram_suggest"]}
{"id": "C32", "title": "In-place character edits are valid UTF-8 and reversible", "statement": "The unsafe in-place buffer edits (swap adjacent characters, swap distant characters, replace a character, rotate characters) always leave a valid UTF-8 string equal to the character-level edit, and undoing them restores the original string.", "quantifier": "all strings, all positions, all pairs of characters of any encoded lengths", "why_tests_cant": "Unsafe byte manipulation with 16 combinations of encoded lengths at arbitrary positions.", "anchors": ["src/suggester.rs: swap_adjacent_chars, swap_distant_chars, replace_char_at, move_char_suggest, forgotten_char_suggest"]}
{"id": "C33", "title": "Each edit strategy tries exactly its candidates", "statement": "Deleting, inserting, replacing, swapping and moving a character: each strategy proposes exactly those candidates of its edit class that are correct words, in order, as long as the attempt budget is not exhausted.", "quantifier": "all dictionaries, all words, all TRY/KEY/MAP settings", "why_tests_cant": "Completeness and soundness of candidate enumeration on words of any length.", "anchors": ["src/suggester.rs: extra_char_suggest, forgotten_char_suggest, wrong_char_suggest, adjacent_swap_suggest, distant_swap_suggest, move_char_suggest, doubled_two_chars_suggest, keyboard_suggest, map_suggest"]}
{"id": "C34", "title": "suggest always returns", "statement": "For every dictionary accepted by new (followed by any adds/removes) on which check is known to return (C01), and every word, suggest never searches for ever unless ICONV introduces a hyphen. It returns a list, panicking neither, unless in addition one of these holds: the empty string is a correct word; a character's case mapping is empty; or, with n-gram suggestions, an entry that may be proposed has an empty form, a form (or its lower case) is longer than 65535 bytes, or a prefix strips something that a suffixed form begins with but the entry does not. Without these exceptions the claim is false.", "quantifier": "all dictionaries, all histories, all words, all suggester options (never hangs), n-grams on and off (returns)", "why_tests_cant": "Termination and panic freedom over arbitrary tables.", "anchors": ["src/suggester.rs: suggest_impl, map_suggest_impl", "src/aff.rs: CaseHandling::upper_char_at"]}
{"id": "C35", "title": "Similarity measures are what they claim", "statement": "The longest common subsequence, common prefix length, same-position count and n-gram counts used to rank suggestions equal their mathematical definitions and stay within their bounds.", "quantifier": "all pairs of strings", "why_tests_cant": "Dynamic programming over arbitrary strings with in-place row reuse.", "anchors": ["src/suggester/ngram.rs: longest_common_subsequence_length, left_common_substring_length, count_eq_at_same_pos, ngram_similarity, ngram_similarity_longer_worse"]}
{"id": "C36", "title": "MAXNGRAMSUGS bounds n-gram suggestions", "statement": "n-gram ranking appends to the suggestions: at most 200, none when MAXNGRAMSUGS is 0 or the edits gave a good suggestion, at most MAXNGRAMSUGS and sixteen in all when the edits proposed at most sixteen times; for lower-case words no addition contains an earlier suggestion.", "quantifier": "all dictionaries, all words without hyphens, all option settings", "why_tests_cant": "Loop with early exit over arbitrary candidate lists.", "anchors": ["src/suggester/ngram.rs: ngram_suggest", "src/suggester.rs: suggest_impl"]}
{"id": "C37", "title": "n-gram suggestions are forms of eligible stems", "statement": "Every n-gram guess comes from an entry that is not forbidden, NOSUGGEST, ONLYINCOMPOUND or hidden; it is a word of the dictionary, or a stem with a prefix of its entry whose condition holds for a suffixed form of the stem only. If no prefix has a condition every guess is a word.", "quantifier": "all dictionaries, all words without hyphens, any casing", "why_tests_cant": "Quantifies over all stems and all affix combinations.", "anchors": ["src/suggester/ngram.rs: ngram_suggest, expand_stem_for_ngram"]}
{"id": "C38", "title": "Flags decode to what is written", "statement": "Decoding a flag list in the short, long, numeric or UTF-8 format yields exactly the flags of the written units or an error; zero is never produced; decoding the textual form of any legal flag list gives back that list. Units are bytes in the short format and UTF-16 units in the UTF-8 format.", "quantifier": "all flag types, all flag strings, all flag lists", "why_tests_cant": "Round trip over all flag lists.", "anchors": ["src/aff/parser.rs: parse_flag_from_str, parse_flags_from_str, decode_flagset, try_flag_from_u16"]}
{"id": "C39", "title": "Dictionary lines round-trip", "statement": "A dictionary line made of a word (with slashes escaped) and a flag list parses back to that word and those flags if the word has no tab, does not end in a backslash before flags and contains no morphological field; the same for whole files; data after a tab or from a morphological field on is ignored.", "quantifier": "all such words, all flag lists", "why_tests_cant": "Round trip over all words including ones containing slashes, spaces and multi-byte characters.", "anchors": ["src/aff/parser.rs: parse_dic_line"]}
{"id": "C40", "title": "Tables consume exactly the rows they announce", "statement": "A directive announcing n rows consumes exactly the next n non-comment lines, which must carry the directive's name; otherwise parsing fails with an error naming how many rows were expected and the index of the row at fault, counted from one.", "quantifier": "all .aff texts", "why_tests_cant": "Quantifies over all row counts and all texts.", "anchors": ["src/aff/parser.rs: parse_table1, parse_table2, parse_affix_table"]}
{"id": "C41", "title": "Parsed options respect their documented ranges", "statement": "In every accepted dictionary COMPOUNDMIN is at least 1, MAXDIFF is at most 10, COMPOUNDRULE patterns are non-empty, BREAK patterns are non-empty unless the row is a lone anchor, flags are non-zero, and the default break patterns apply exactly when no BREAK directive is given.", "quantifier": "all .aff texts accepted by new", "why_tests_cant": "Invariant over all texts.", "anchors": ["src/aff/parser.rs: parse, parse_compound_min_value, parse_max_diff_factor, parse_break_patterns"]}
{"id": "C42", "title": "Dictionary::new always returns", "statement": "Dictionary::new returns Ok or Err, except that it panics exactly when the .aff text is good and the .dic text is good up to a line whose hidden title-cased entry needs more than 65535 bytes. If case mappings at most triple the length, lines of at most 21845 bytes never do that.", "quantifier": "all pairs of strings", "why_tests_cant": "Panic freedom over all inputs.", "anchors": ["src/aff/parser.rs: parse, Lines", "src/aff.rs: BreakTable::new, CaseHandling::titlecase", "src/umbra_slice.rs: UmbraString::from"]}
{"id": "C43", "title": "COMPOUNDRULE patterns parse back", "statement": "The textual form of any rule (short, long, numeric and UTF-8 flags with ? and *) parses to that rule; malformed rules are rejected.", "quantifier": "all rules, all texts", "why_tests_cant": "Round trip over all rules.", "anchors": ["src/aff/parser.rs: parse_compound_rule"]}
{"id": "C44", "title": "Affix conditions parse exactly when brackets are balanced", "statement": "A condition string is accepted exactly when its brackets are balanced, non-nested and non-empty; the number of characters the condition consumes equals its number of elements.", "quantifier": "all condition strings", "why_tests_cant": "Hand-written scanner over all strings.", "anchors": ["src/aff/parser.rs: Condition::from_str", "src/aff.rs: Condition"]}
{"id": "C45", "title": "MAP groups parse back", "statement": "A MAP entry of characters and parenthesised strings parses into exactly those characters and strings.", "quantifier": "all MAP entries", "why_tests_cant": "Round trip over all entries.", "anchors": ["src/aff/parser.rs: SimilarityGroup::from"]}
{"id": "C46", "title": "Check results depend only on the entries, not on their order", "statement": "Two dictionaries with the same affix data and, for every stem, the same list of flag sets give the same check result; if no two homonyms of a stem differ the order is irrelevant altogether.", "quantifier": "all dictionaries, permutations and words", "why_tests_cant": "Quantifies over all orders of entries.", "anchors": ["src/checker.rs: check", "src/hash_bag.rs: GetAllIter"]}
{"id": "C47", "title": "CHECKCOMPOUNDREP and REP splitting act on exact replacements", "statement": "A word counts as REP-similar exactly when applying one replacement at one matching place gives a simple dictionary word; the scratch buffer is restored after each attempt.", "quantifier": "all replacement tables, all words", "why_tests_cant": "In-place edits must be undone after each unsuccessful attempt at every position.", "anchors": ["src/checker.rs: is_rep_similar", "src/aff.rs: ReplacementTable"]}
{"id": "C48", "title": "Sharp-s search tries only ss/ß exchanges", "statement": "Acceptance through CHECKSHARPS means that replacing some of the first occurrences of ss by ß in the lower- or title-cased word gives an accepted word.", "quantifier": "all words, all dictionaries with CHECKSHARPS", "why_tests_cant": "Recursive in-place byte edits over all subsets of positions.", "anchors": ["src/checker.rs: spell_sharps, do_spell_sharps"]}
{"id": "C49", "title": "check_lower_as_title / check_lower_as_upper only add acceptances", "statement": "Turning on check_lower_as_title or check_lower_as_upper never makes an accepted unbreakable word rejected, nor any word if no entry is forbidden; a lower or camel-case word without forbidden readings is accepted with the option exactly when it or its title (upper) casing is.", "quantifier": "all dictionaries, all words", "why_tests_cant": "Relates two runs of the checker on every word.", "anchors": ["src/checker.rs: spell_casing, check_lower_as_title, check_lower_as_upper"]}
{"id": "C50", "title": "The .aff text is read exactly", "statement": "Dictionary::new accepts an .aff text exactly when its lines form a sequence of well-formed one-line directives, tables with the announced rows, and lines naming no directive; every one-line directive sets its own value and nothing else, the last one of a name wins, values without a directive keep their documented defaults, and flags are read with the flag type in force at that line.", "quantifier": "all .aff texts, all .dic texts", "why_tests_cant": "There are 51 directives writing into one record; a setter that touches a neighbouring field or a directive that leaks into another shows only on particular combinations and orders.", "anchors": ["src/aff/parser.rs: AFF_PARSERS, parse, parse_*_flag, parse_flag_type, parse_compound_syllable, parse_table1, parse_table2, parse_affix_table, parse_compound_pattern_table"]}
{"id": "C51", "title": "Layout of the .aff text does not matter", "statement": "Two .aff texts whose non-comment lines have the same words give the same dictionary: a byte order mark, LF or CRLF line ends, comment lines (also between table rows), indentation and spacing make no difference; a line that names no directive can be added or removed anywhere except between the rows of a table.", "quantifier": "all .aff texts, all .dic texts", "why_tests_cant": "Relates two runs of the parser on arbitrary texts.", "anchors": ["src/aff/parser.rs: Lines, parse"]}
{"id": "C52", "title": "The .dic text is read exactly", "statement": "Dictionary::new accepts a .dic text exactly when its first non-comment line begins with a number and every other line is blank, begins with a slash, or is a word with well-formed flags; the entries of the dictionary are then exactly the ones so written: the word ends before a tab, before a morphological field or before an unescaped slash, escaped slashes are restored, IGNORE characters are dropped, the flags are read with the flag type and aliases of the .aff text, and mixed-case words and all-capital words with flags get one additional hidden title-case entry.", "quantifier": "all .aff texts, all .dic texts", "why_tests_cant": "The line reader is a hand-written scanner with a fast and a slow path, escapes and a look-ahead for morphological fields; only a characterisation over all texts settles which entry a line gives and that no line is lost, duplicated or split elsewhere.", "anchors": ["src/aff/parser.rs: parse, parse_dic_line", "src/lib.rs: Dictionary::new"]}
{"id": "C53", "title": "Layout and order of the .dic text do not matter", "statement": "Two .dic texts that list the same lines give the same dictionary whatever their comments, blank lines, lines beginning with a slash, blanks around lines, line ends, byte order mark and announced number of entries; and lines in another order give a dictionary that answers every check alike, provided no word is listed twice with different flags.", "quantifier": "all .aff texts, all pairs of .dic texts, all words", "why_tests_cant": "Relates two runs of the loader and of the checker on arbitrary texts.", "anchors": ["src/aff/parser.rs: Lines, parse", "src/hash_bag.rs", "src/checker.rs: check"]}
{"id": "C54", "title": "Casing", "statement": "A word is classified by which of its letters are capitals: none, only the first, all, mixed beginning with a capital, mixed beginning otherwise. Lowercasing maps every letter to its lower case, a final capital sigma to the final small sigma, and under Turkic rules I to dotless i and dotted I to i; uppercasing and titlecasing likewise, titlecasing raising the first letter only.", "quantifier": "all Unicode tables, all words, both casing rules", "why_tests_cant": "Depends on the position and neighbours of every letter of an arbitrary word and on an arbitrary case table.", "anchors": ["src/lib.rs: classify_casing", "src/aff.rs: CaseHandling"]}
{"id": "C55", "title": "A parse error says where and what the fault is", "statement": "When Dictionary::new returns an error, its source is the .aff text exactly when that text cannot be read and the .dic text otherwise; its line is the line of the first directive, table row or entry that cannot be read, counting from one with comments counted, and is absent only when a table is cut by the end of the .aff text or the .dic text has no line; its kind describes a fault which that line really has (missing arguments and how many were found, a malformed number, flag, condition, rule or affix, a missing row with the announced count and the row expected, a word that is too long), and every line before it can be read.", "quantifier": "all .aff texts, all .dic texts", "why_tests_cant": "There are arbitrarily many malformed texts, and the position depends on all the lines before the fault.", "anchors": ["src/aff/parser.rs: error, Lines, AFF_PARSERS, parse_dic_line", "src/aff/parser.rs: ParseDictionaryError"]}
{"id": "C56", "title": "Builder options: the last setting wins and nothing else changes", "statement": "After any chain of check_lower_as_title, check_lower_as_upper, into_suggester, with_ngram_suggestions and into_checker calls, the Checker or Suggester behaves as one with each option at the value last given to it; options never set are off, n-gram suggestions are on after into_suggester unless switched off, converting between the two handles keeps the checker's options, and Dictionary::check and Dictionary::suggest are the unconfigured handles. The two checker options make no difference for an unbroken word in title case or in capitals.", "quantifier": "all dictionaries, all chains of builder calls, all words and output vectors", "why_tests_cant": "Chains of calls have no bounded length and each combination would have to be tried on all words.", "anchors": ["src/lib.rs: Dictionary::checker, check, suggester, suggest", "src/checker.rs: check_lower_as_title, check_lower_as_upper, spell_casing", "src/suggester.rs: into_suggester, into_checker, with_ngram_suggestions"]}
{"id": "C57", "title": "N-gram guesses are ranked and chosen as documented", "statement": "When the edits give nothing good, suggest appends exactly the n-gram guesses that the ranking yields: the hundred stems that share most with the word (common beginning plus n-grams up to three, less for longer stems), their forms with all fitting affixes whose first score passes a third of that of three mangled copies of the word, the two hundred best of them rescored by longest common subsequence, weighted bigrams, four-grams, common beginning, equal letters and a swap bonus, only those above 1000 if there is one, none below -100 except a single one when nothing else is found and ONLYMAXDIFF is absent, none that contains an earlier suggestion, and no more than MAXNGRAMSUGS and sixteen in all allow (with no limit when the edits already proposed more than sixteen times).", "quantifier": "all dictionaries, all words without capitals and hyphens, every heap that keeps the best and every order of the word list", "why_tests_cant": "The list depends on the scores of all words of the dictionary against each other, and ties between equal scores may be resolved either way.", "anchors": ["src/suggester/ngram.rs: ngram_suggest, expand_stem_for_ngram, the measures", "src/suggester.rs: suggest_impl 205-224"]}
{"id": "C58", "title": "The whole suggestion list, in order", "statement": "suggest returns exactly the following list, in this order: for the ICONV-converted word the proposals its casing calls for (upper case, REP, MAP, edits and two words, for the word itself and its lower-case, title-case or first-letter forms, with the dot and space rules of camel and Pascal case), then n-gram guesses if the proposals are not good, then for hyphenated words each wrong part replaced by its own suggestions unless the dictionary forbids the result; recased for title and Pascal case, filtered through check for title case and capitals, without repetitions, and OCONV-converted. A lower-case compound that only lacks FORCEUCASE's capital gets that one suggestion. Without n-grams the rules leave no other list.", "quantifier": "all dictionaries, all words of at most 360 bytes, all option settings", "why_tests_cant": "The order interleaves a dozen strategies for five kinds of casing, recursively for hyphenated parts; examples can only fix single interleavings.", "anchors": ["src/suggester.rs: suggest_impl, suggest_low, deduplicate"]}
{"id": "C59", "title": "COMPOUNDWORDMAX counts words, COMPOUNDSYLLABLE makes the exception", "statement": "With COMPOUNDWORDMAX n a compound is found exactly when the word can be cut into parts allowed at their positions that count for at most n words together (a COMPOUNDROOT entry counts twice, a prefix counts as many words as it has syllables), or when COMPOUNDSYLLABLE is given and the word has at most as many syllables as it allows, where suffixes of the last part, a final i and entries with flag I are discounted and SYLLABLENUM gives some back.", "quantifier": "all dictionaries with plain compounding (no patterns, no duplication or case checks, no triple simplification, no forced capitals) in which the readings of one part count alike, all words", "why_tests_cant": "The count runs through a recursion over all cuts of the word; a slip in one of the additions only shows for particular sums.", "anchors": ["src/checker.rs: check_compound_classic, check_compound_with_pattern_replacements, syllable counting 2235-2298"]}
{"id": "C60", "title": "The boundary checks on compounds reject exactly what they say", "statement": "A word that is not itself an entry or a form of one is accepted exactly when it splits into parts allowed at their positions such that no part is forbidden, the last two parts are not the same entry under CHECKCOMPOUNDDUP, no boundary has three equal letters under CHECKCOMPOUNDTRIPLE or a capital next to a letter under CHECKCOMPOUNDCASE, no CHECKCOMPOUNDPATTERN forbids a boundary, the last part may end a compound without a capital (FORCEUCASE) and no CHECKCOMPOUNDREP replacement makes a word of it; a letter dropped by SIMPLIFIEDTRIPLE and a boundary rewritten by a CHECKCOMPOUNDPATTERN replacement are undone first.", "quantifier": "all dictionaries without COMPOUNDWORDMAX in which a part can be read in one way only and, if CHECKCOMPOUNDREP or a pattern with a flag for the second part is used, the ways to cut a rest begin with the same part; all words. Without the last condition it is false.", "why_tests_cant": "A check that rejects too much only shows on the words for which no other segmentation is left.", "anchors": ["src/checker.rs: check_compound_classic, check_compound_classic_try_recursive, check_compound_classic_try_simplified_triple, check_compound_with_pattern_replacements, is_compound_forbidden_by_patterns"]}
{"id": "C61", "title": "check recurses no deeper than the word is long", "statement": "For every dictionary accepted by new (and any adds/removes) whose compounding options shrink the rest of the word at every step, the recursion of check is no deeper than the longest spelling tried: the word's length times the growth of ICONV and of the case mapping. As longer words are refused, one depth, 360 times these factors, serves for all words, and check's answer is the answer at that depth.", "quantifier": "all dictionaries, all histories, all words, all checker options", "why_tests_cant": "A bound over all words and dictionaries; tests sample depths.", "anchors": ["src/checker.rs: check_compound_impl, check, spell_casing_upper, do_spell_break"]}
{"id": "C62", "title": "The n-gram view of a string never reads outside the text", "statement": "For every string of at most 65535 bytes the view that the n-gram step builds has as many characters as the string; any slice of it within range, any character of it and its iteration are the text at those characters, in valid UTF-8; an index out of range panics, and a longer string panics at construction. None of its unchecked accesses is out of bounds or off a character boundary. The similarity scores, the longest common subsequence and the comparison position by position that are computed on bytes through such views are those of the characters.", "quantifier": "all strings, all positions, all n", "why_tests_cant": "Undefined behaviour of unchecked slices at particular mixes of character lengths need not show in a test, and equality with the character-level measures is over all pairs of strings.", "anchors": ["src/suggester/ngram.rs: CharsStr, ngram_similarity, ngram_similarity_longer_worse, ngram_similarity_any_mismatch, ngram_similarity_weighted, ngram_similarity_any_mismatch_weighted, longest_common_subsequence_length, count_eq_at_same_pos"]}
{"id": "C63", "title": "Scratch buffers hold valid text and what they held before does not matter", "statement": "The stem of a word that carries an affix is the affix cut off and its strip put back, in valid UTF-8, whether it is built inline or on the heap and whatever the buffer held before; the search for 'ß' in a word with 'ss' works on one buffer, which is valid UTF-8 at every check and is the original word again after a failed search, and answers as if each spelling were built afresh; unescaping a slash in a dictionary line overwrites a backslash and nothing else. None of these panics or is undefined, except that with debug assertions a stem of more than 360 bytes panics, which is reachable from an accepted word of at most 360 bytes.", "quantifier": "all words, all affixes, all buffers, all lines, all answers of the inner check", "why_tests_cant": "Stale buffer contents and invalid UTF-8 from unchecked writes depend on the mix of character lengths and on the calls before; tests see single calls.", "anchors": ["src/aff.rs: StemBuf::concat, Prefix::to_stem_into, Suffix::to_stem_into", "src/checker.rs: do_spell_sharps", "src/aff/parser.rs: parse_dic_line"]}
{"id": "C64", "title": "Adding a word only adds acceptances, and a word without flags only for texts read as that word", "statement": "After add of a line that is a word without flags, every text that was accepted still is. A text changes its verdict only if one of the pieces that break patterns cut it into has the added word among the spellings tried for it: affixed forms and compounds of other entries are not touched. This holds if CHECKCOMPOUNDREP is off (with it, a new word can take away a compound it resembles) and if the hash table keeps the entries of one spelling in order, which is no condition when no spelling has two entries with different flags. Without compounding, an added entry may have flags: as long as they neither forbid it nor confine it to its casing, every text that was accepted still is. With compounding that fails: a new compound may be found first and be confined to lower case.", "quantifier": "all reachable dictionaries, all added words, all checked texts", "why_tests_cant": "That nothing else changes is a statement about every other text; tests look at the added word and a handful of others.", "anchors": ["src/lib.rs: Dictionary::add", "src/checker.rs: Checker::check"]}
{"id": "C65", "title": "Removing a stem only takes acceptances away, and only from forms of that stem", "statement": "In a dictionary without compounding, whose FORBIDDENWORD flag has no second meaning, every text that is accepted after remove_stem was accepted before. A text changes its verdict only if, for one of the pieces that break patterns cut it into, one of the spellings tried is an entry of that stem or made from it by affixes. With compounding, or when the flag is also the NEEDAFFIX flag, removing a stem can make a rejected text acceptable.", "quantifier": "all reachable dictionaries, all removed stems, all checked texts", "why_tests_cant": "That nothing else changes, and that nothing becomes acceptable, is a statement about every text; the counterexamples need two competing readings of one text.", "anchors": ["src/lib.rs: Dictionary::remove_stem", "src/checker.rs: Checker::check"]}
{"id": "C66", "title": "N-gram scores never overflow", "statement": "Every isize and usize operation of the n-gram suggestion step (scores, score sums, index arithmetic, casts) stays within its type on a 64-bit machine, for every dictionary and every word; on a 32-bit machine for every word of at most 26000 characters, hence for every word suggest accepts when ICONV makes no word more than 24 times as long. So with and without overflow checks the suggestions are those of exact arithmetic.", "quantifier": "all reachable dictionaries, all words, all lists of earlier suggestions, all implementations of the heap", "why_tests_cant": "The scores grow with the square of the word's length and with the lengths of stems and of their lower-case forms; a test shows only the sizes it uses.", "anchors": ["src/suggester/ngram.rs: Suggester::ngram_suggest", "src/suggester/ngram.rs: ngram_similarity", "src/suggester/ngram.rs: ngram_similarity_weighted", "src/suggester/ngram.rs: longest_common_subsequence_length"]}
{"id": "C67", "title": "Directives about suggestions do not change check", "statement": "Two dictionaries with the same entries whose affix files differ only in TRY, KEY, MAP, OCONV, REP (unless CHECKCOMPOUNDREP is given), NOSUGGEST, SUBSTANDARD, MAXCPDSUGS, MAXNGRAMSUGS, MAXDIFF, ONLYMAXDIFF, NOSPLITSUGS, SUGSWITHDOTS, WARN (unless FORBIDWARN is given), FULLSTRIP or COMPOUNDMORESUFFIXES give the same answer to check for every word, including the words on which check panics or does not return.", "quantifier": "all reachable dictionaries, all words, with and without check_lower_as_title/upper, every depth of recursion", "why_tests_cant": "It compares two dictionaries on every word, and the suggestion data is shared with the code that checks words (REP, WARN).", "anchors": ["src/checker.rs: Checker::check", "src/aff.rs: AffData", "src/aff.rs: AffOptions"]}
{"id": "C68", "title": "Flags are only names", "statement": "Renaming the flags of a dictionary consistently and injectively, in all directives and all entries (for instance by rewriting FLAG short as FLAG num), changes no answer of check, provided the internal hidden-homonym flag 65535 keeps its name. With COMPOUNDSYLLABLE the flags I, J and c have a meaning of their own and must keep their names; otherwise the claim is false.", "quantifier": "all reachable dictionaries, all words, with and without check_lower_as_title/upper, every depth of recursion, all injective renamings", "why_tests_cant": "Flags are compared, searched in sorted sets and matched by compound rules; renaming reorders the sets, and a test fixes one renaming.", "anchors": ["src/lib.rs: FlagSet", "src/checker.rs: Checker::check", "src/checker.rs: CompoundingResult", "src/aff.rs: CompoundRuleTable"]}
{"id": "C69", "title": "Flags that no directive mentions do not matter", "statement": "Adding to or deleting from entries flags that no affix rule, compound rule, compound pattern or option that check consults mentions changes no answer of check - also under CHECKCOMPOUNDDUP, which compares the flag sets of two parts, and also if homonyms differ only in such flags.", "quantifier": "all reachable dictionaries, all words, with and without check_lower_as_title/upper, every depth of recursion", "why_tests_cant": "It compares two word lists on every word; the flag sets also take part in an equality test under CHECKCOMPOUNDDUP.", "anchors": ["src/checker.rs: Checker::check", "src/lib.rs: FlagSet"]}
{"id": "C70", "title": "check reads only some lines of the .aff text", "statement": "If two .aff texts load and agree on the lines that check reads - the lines that start with one of 35 directives, REP lines if CHECKCOMPOUNDREP is given, WARN lines if FORBIDWARN is given - then, with the same .dic text and after the same calls of add and remove_stem, the two dictionaries hold the same entries and check answers the same for every word. All other lines (TRY, KEY, MAP, OCONV, NOSUGGEST, MAXDIFF, FULLSTRIP, ..., unknown directives, blank lines) can be dropped from a text that loads: the rest loads, and check answers the same.", "quantifier": "all .aff and .dic texts, all calls of add and remove_stem, all words, with and without check_lower_as_title/upper, every depth of recursion", "why_tests_cant": "It compares two texts on every word; directives are read by one parser into one state, so any of them could disturb another.", "anchors": ["src/aff/parser.rs: parse", "src/aff/parser.rs: AffLineParser", "src/checker.rs: Checker::check", "src/lib.rs: Dictionary::add", "src/lib.rs: Dictionary::remove_stem"]}
{"id": "C71", "title": "suggest does not depend on unread directives, on the names of flags or on unmentioned flags", "statement": "suggest returns the same suggestions in the same order (1) with and without the directives FULLSTRIP, COMPOUNDMORESUFFIXES, MAXCPDSUGS, SUBSTANDARD, SUGSWITHDOTS, FLAG and AF and, unless FORBIDWARN is given, WARN, as long as the other data are the same; (2) when every flag is renamed by a one-to-one map that keeps the hidden-homonym flag (and I, J, c if COMPOUNDSYLLABLE is used), NOSUGGEST and WARN included; (3) when flags that no directive mentions are added to or removed from entries.", "quantifier": "all pairs of dictionaries a caller can hold that differ in this way only, all words, with and without n-gram suggestions and check_lower_as_title/upper, every depth of recursion, every heap and iteration order that does not look at flags", "why_tests_cant": "It compares two dictionaries on every word; every edit, the n-gram step and the filters consult flags, so any of them could look at a flag it should not.", "anchors": ["src/suggester.rs: Suggester::suggest", "src/suggester.rs: Suggester::suggest_low", "src/suggester/ngram.rs: Suggester::ngram_suggest", "src/suggester/ngram.rs: Suggester::expand_stem_for_ngram", "src/aff.rs: AffOptions"]}
{"id": "C72", "title": "suggest reads only some lines of the .aff text", "statement": "If two .aff texts load and agree on the lines that suggest reads - the lines that start with one of 45 directives, and WARN lines if FORBIDWARN is given - then, with the same .dic text and after the same calls of add and remove_stem, suggest returns the same list for every word. All other lines (FULLSTRIP, COMPOUNDMORESUFFIXES, MAXCPDSUGS, SUBSTANDARD, SUGSWITHDOTS, unknown directives, blank lines, comments) can be dropped from a text that loads: the rest loads, and suggest returns the same.", "quantifier": "all .aff and .dic texts, all calls of add and remove_stem, all words, with and without n-gram suggestions and check_lower_as_title/upper, every depth of recursion, every heap and iteration order that does not look at flags", "why_tests_cant": "It compares two texts on every word; directives are read by one parser into one state, so any of them could disturb another.", "anchors": ["src/aff/parser.rs: parse", "src/aff/parser.rs: AffLineParser", "src/suggester.rs: Suggester::suggest", "src/lib.rs: Dictionary::add", "src/lib.rs: Dictionary::remove_stem"]}
{"id": "C73", "title": "One slip of the typist is repaired", "statement": "A correct word that is one slip away from the word typed - a letter too many, one left out or mistaken that TRY lists, one hit beside another on the KEY rows, two letters exchanged, one letter too early or too late, a space left out - is among the suggestions, whatever the casing of the word, recased like it and OCONV-converted, with or without n-grams, ICONV, hyphens; provided the attempts suffice (they do for words up to 200 letters, 400 TRY letters and 400 prefixes and suffixes without compounding and MAP) and, for title case and capitals, check accepts the recased form. A doubled pair of letters at the very end (xyxyx) is not repaired, although the strategy is meant to.", "quantifier": "all dictionaries accepted by new and any adds/removes, all words of at most 360 bytes, all casings, all hashers, heaps and iteration orders", "why_tests_cant": "A test tries some slips of some words; the claim is that no later step - budgets, recasing, the check of capitalised forms, removal of repetitions, n-grams, hyphens - loses the correction.", "anchors": ["src/suggester.rs: Suggester::suggest_impl", "src/suggester.rs: Suggester::suggest_low", "src/suggester.rs: extra_char_suggest", "src/suggester.rs: forgotten_char_suggest", "src/suggester.rs: wrong_char_suggest", "src/suggester.rs: move_char_suggest", "src/suggester.rs: doubled_two_chars_suggest", "src/suggester.rs: two_words_suggest"]}
{"id": "C74", "title": "The message of an error says which text, which line and what is wrong", "statement": "The Display text of the error of Dictionary::new names the text (.aff or .dic), the line in decimal, counted from 1 with the comments, and the fault of the grammar on that line; only two faults have no line: a table cut short by the end of the .aff text and a .dic text without a line. The message is one line, whatever the texts hold. Different errors have different messages, and so have different errors of add. The number of rows found counts the header: a table that lacks one row is reported as having as many rows as expected.", "quantifier": "all .aff and .dic texts, all errors", "why_tests_cant": "A test compares some messages; the claim is that no text makes a message point elsewhere, break over lines or coincide with that of another fault.", "anchors": ["src/aff/parser.rs: impl Display for ParseDictionaryError", "src/aff/parser.rs: impl Display for ParseDictionaryErrorKind", "src/aff/parser.rs: impl Display for ParseFlagError", "src/aff/parser.rs: impl Display for ParseCompoundRuleError", "src/aff/parser.rs: impl Display for ConditionError"]}
{"id": "C75", "title": "Suggestions do not depend on how the word list is stored", "statement": "Two dictionaries with the same settings and the same entries of each spelling give the same suggestions for every word when n-grams are off or MAXNGRAMSUGS is 0, whatever the hashers, the layout of the table, the order of insertion and iteration and the heaps; in particular the order of the .dic lines does not matter when homonyms have equal flags. With n-grams, for words without hyphens, the lists agree up to the n-gram guesses, which come last. Among guesses of equal rank the order of iteration decides, so suggestions may change from run to run; and a guess with a hyphen hides the suggestions for the parts of a hyphenated word.", "quantifier": "all pairs of dictionaries with equal settings and entries, all hashers, table layouts, iteration orders and heaps, all words and options", "why_tests_cant": "A test runs with one hasher seed and one order of insertion; the claim is about all of them.", "anchors": ["src/suggester.rs: Suggester::suggest_impl", "src/suggester/ngram.rs: Suggester::ngram_suggest", "src/hash_bag.rs: HashBag::iter", "src/lib.rs: Dictionary::suggest"]}
{"id": "C76", "title": "Suggestions follow additions and removals", "statement": "In a dictionary without conversions, FORCEUCASE, compounds and MAP and with tables of moderate size, an entry that may stand alone and has no barred homonym is suggested for every word without capitals that comes from it by one slip of the typist, in particular a word that add has just put there. A stem taken out by remove_stem is not suggested without n-grams for any word without capitals and hyphens, nor at all for words in title case or in capitals. With n-grams it may still be suggested, as a form of another stem, although check refuses it.", "quantifier": "all reachable dictionaries, all added lines and removed stems, all words and slips, all suggester options", "why_tests_cant": "A test adds or removes one word and asks for one misspelling; the claim is about all of them, in every dictionary.", "anchors": ["src/lib.rs: Dictionary::add", "src/lib.rs: Dictionary::remove_stem", "src/suggester.rs: Suggester::suggest_low", "src/suggester.rs: Suggester::suggest_impl", "src/suggester/ngram.rs: Suggester::expand_stem_for_ngram"]}
{"id": "C77", "title": "Compound checking cuts words only between characters", "statement": "In every dictionary that can be built, checking a word for compounds never slices a string out of bounds or inside a character, never subtracts a byte offset below zero and never fails one of the debug assertions of the REP check, in whatever script the word is written; and with byte offsets it finds exactly what it would find with character positions. The positions tried for a cut are, in order, exactly those that leave at least COMPOUNDMIN characters on both sides.", "quantifier": "all reachable dictionaries, all words, modes and depths of recursion, with and without debug assertions", "why_tests_cant": "A slice inside a character only shows with a word whose characters have several bytes at the right place and with the right options (replacements in CHECKCOMPOUNDPATTERN, SIMPLIFIEDTRIPLE, REP); tests try a handful of combinations.", "anchors": ["src/checker.rs: Checker::check_compound", "src/checker.rs: Checker::check_compound_impl", "src/checker.rs: Checker::check_compound_with_pattern_replacements", "src/checker.rs: Checker::is_rep_similar", "src/checker.rs: bytes_within"]}
{"id": "C78", "title": "Checking a word on its bytes", "statement": "In every dictionary that can be built, check works on the bytes of the word with byte offsets and gives exactly the answer it would give on characters: input conversion, dropping final full stops, BREAK patterns, the cut after an apostrophe, the exchange of ss and ß in place and compounding only ever cut between characters, in any script, with any checker options, with and without debug assertions. With default options no word makes it panic (COMPOUNDSYLLABLE in builds with overflow checks set aside).", "quantifier": "all reachable dictionaries, all words, all options, all depths of recursion", "why_tests_cant": "Offsets in bytes and in characters coincide on ASCII, which most tests use; a wrong one shows only for certain multi-byte words under certain tables.", "anchors": ["src/checker.rs: Checker::check", "src/checker.rs: Checker::do_spell_break", "src/checker.rs: Checker::spell_casing_upper", "src/checker.rs: Checker::do_spell_sharps", "src/aff.rs: ConversionTable::convert", "src/aff.rs: ConversionTable::match_at"]}
{"id": "C79", "title": "Suggesting for a word on its bytes", "statement": "In every dictionary that can be built, suggest works on the bytes of the word with byte offsets and gives exactly the suggestions it would give on characters: REP and MAP replacements, removed, inserted, swapped, moved and doubled characters, keys of the keyboard, split words, the changes of case, the repair after a full stop or a space, the parts between hyphens and the conversions only ever cut between characters, in any script, with any options, with and without debug assertions. Every suggestion is text, and where suggest returns at all none of these operations panics.", "quantifier": "all reachable dictionaries, all words, all options, all depths of recursion", "why_tests_cant": "Offsets in bytes and in characters coincide on ASCII, which most tests use; a wrong offset shows only for certain multi-byte words under certain tables, and a wrong overwrite is undefined behaviour.", "anchors": ["src/suggester.rs: Suggester::suggest", "src/suggester.rs: Suggester::suggest_impl", "src/suggester.rs: Suggester::suggest_low", "src/suggester.rs: Suggester::rep_suggest", "src/suggester.rs: Suggester::map_suggest_impl", "src/suggester.rs: Suggester::keyboard_suggest", "src/suggester.rs: Suggester::doubled_two_chars_suggest", "src/suggester.rs: Suggester::two_words_suggest", "src/aff.rs: CaseHandling::upper_char_at"]}
{"id": "C80", "title": "What NEEDAFFIX, ONLYINCOMPOUND and CIRCUMFIX keep out", "statement": "Every word that check accepts, after break patterns are taken off and up to casing, is a compound or one entry of the dictionary with at most three affix rules around it, such that: neither the entry nor a rule is marked ONLYINCOMPOUND; an entry without affixes is not marked NEEDAFFIX; of the affixes at least one is not marked NEEDAFFIX; a prefix marked CIRCUMFIX occurs exactly together with a suffix so marked; the entry or another rule of the word carries the flag of each rule; and a prefix and a suffix meet only if rules of both kinds allow cross products. Hence, without compounding and breaks, a bare stem that needs an affix, a form with unfinished affixes only, a form of an ONLYINCOMPOUND entry and a form with half a circumfix are rejected.", "quantifier": "all reachable dictionaries, all words and all chains of rules; the rejections for words without breaks in dictionaries without compounding", "why_tests_cant": "The three flags are tested at many places of the six affix routes; a missing test shows only for a particular combination of rules, flags and word.", "anchors": ["src/checker.rs: Checker::check_simple_word", "src/checker.rs: Checker::strip_suffix_only", "src/checker.rs: Checker::strip_prefix_then_suffix_commutative", "src/checker.rs: Checker::is_outer_affix_valid", "src/checker.rs: Checker::is_circumfix"]}
{"id": "C81", "title": "Every acceptance has a reason", "statement": "Whenever check answers true for a word, in any dictionary that can be built, the word has at most 360 bytes and, after ICONV, it is empty, or a numeral once its final dots are removed, or made of pieces between break patterns (at most nine levels deep) of each of which some spelling is an entry, a derived form or a compound whose entry is neither forbidden nor (with FORBIDWARN) warned about; the pieces are taken from the word without final dots and ignored characters, or from the word as it stands if it ends in dots. This needs no assumption that the search for compounds ends or that arithmetic does not overflow. With check_lower_as_title or check_lower_as_upper the same holds for the recasings of each piece. In particular a dictionary without entries accepts nothing but numerals and the empty word (up to ICONV).", "quantifier": "all reachable dictionaries without exception, all words, all options, all depths of recursion", "why_tests_cant": "Tests show that particular words are accepted; that nothing else is accepted concerns every word and every combination of directives.", "anchors": ["src/checker.rs: Checker::check", "src/checker.rs: Checker::do_spell_break", "src/checker.rs: Checker::spell_casing", "src/checker.rs: Checker::check_word"]}
{"id": "C82", "title": "What bars a word bars it in every dictionary", "statement": "Forbidden entries, removed stems and KEEPCASE keep words out even in dictionaries where the search for compounds need not end or arithmetic may overflow. If every entry is forbidden (or carries WARN under FORBIDWARN), check answers true only for numerals and the empty word (up to ICONV and final dots), whatever the options of the checker. After remove_stem, every accepted word has a reason among the other stems (only inside compounds made by COMPOUNDRULE may the stem still occur). A title-case or all-caps word without apostrophe, not found as written and found in lower or title case only through entries with KEEPCASE, is not accepted. A word of which no spelling tried is found, or is found only through barred entries, is not accepted.", "quantifier": "all reachable dictionaries without a termination condition; for the first two statements all words, for the others ordinary words without breaks", "why_tests_cant": "A test cannot show the absence of an acceptance over all words, and for dictionaries where check may not return it cannot even finish.", "anchors": ["src/checker.rs: Checker::check", "src/checker.rs: Checker::spell_casing", "src/lib.rs: Dictionary::remove_stem"]}
