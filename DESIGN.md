# Formal model of helix-editor/spellbook in Coq

## Approach

* The Rust functions are transcribed, one by one, as total Gallina functions in
  `rocq/theories`. Every definition cites the file and lines it models.
* Strings are lists of Unicode scalar values (`str := list N`) in the checker, parser and
  suggester models. The byte-level parts of the code (UTF-8, compact storage, affix index,
  conversion fast paths, in-place edits) are modelled on lists of bytes and linked to the
  character level by lemmas about the UTF-8 encoder (`Utf8.v`).
* A function that can panic or fail to terminate returns `Res A := Ret a | Panic | NoFuel`.
  Recursion that the Rust type system does not bound takes fuel; theorems about fuel say when
  it suffices.
* External behaviour is a parameter, never an axiom: Unicode tables are a record (`Unicode`),
  the hasher and the hash-table placement are function parameters, the unstable sort is any
  sorted permutation. Laws of the parameters appear as hypotheses of the theorems that need
  them and are met by concrete instances in the Examples.
* `spec` files contain independent specifications; `Properties_*.v` files contain the theorems
  listed in MANIFEST.json, each followed by a non-vacuity Example and `Print Assumptions`.
* A statement that turned out to be false of the code is kept as a `_refuted` theorem
  with a concrete witness.  Its property in properties.jsonl then names the true exceptions,
  and the theorem without suffix proves exactly that; `_partial` is left for statements that
  are believed true beyond what is proved (at present none).

## Plan per property

| id | plan |
|----|------|
| C01 check always returns | Checker model with explicit outcomes Ret/Panic/NoFuel. Prove: terminates and does not panic when (no CHECKCOMPOUNDPATTERN replacement, SIMPLIFIEDTRIPLE off or COMPOUNDMIN>=2, check_lower_as_title off). The full statement is false: prove refutations (titlecase of the empty string; SIMPLIFIEDTRIPLE with COMPOUNDMIN 1 exhausts every fuel; a pattern replacement does so too). |
| C02 Length limits of check and suggest | Direct theorems over `check` and `suggest` with UTF-8 byte length as the measure. |
| C03 Numerals are always accepted | Independent grammar (inductive numeral relation); is_number <-> grammar; check accepts. |
| C04 Word list lookups do not depend on the hasher | Table = list of slots with stored hashes, arbitrary hash/tag function, arbitrary placement; refinement to a multimap over all operation histories. |
| C05 Flag sets behave as finite sets | FlagSet as produced by sort+dedup; binary search / linear search / merge intersection modelled; equality with list membership. |
| C06 Compact storage is lossless | Byte-level model of the (len,prefix,trailing) representation with a heap; round trip, eq, clone. |
| C07 The affix index finds exactly the applicable rules | Byte-level model of index construction and of the iterator's step function; result equals the filter of the table by byte-prefix; UTF-8 lemmas lift it to characters. |
| C08 Affix conditions mean what the .aff file says | Condition matcher model vs. an independent denotation of condition strings as lists of character sets. |
| C09 Removing an affix inverts adding it | to_stem/to_derived model; inverse theorems. |
| C10 Single-affix words: accepted exactly when derivable | strip_suffix_only/strip_prefix_only/check_simple_word model vs. an independent derivation relation: iff. |
| C11 Prefix+suffix and double-affix words: accepted exactly when derivable | Same for cross product, double suffix, double prefix, prefix+2 suffixes; fast lanes shown irrelevant. |
| C12 Triple-affix words with interleaved or complex prefixes | Same; the intended relation is refuted by concrete dictionaries for the three routes (condition checked on the wrong form; wrong flag table in the fast lane); exact relation of what is accepted is proved instead. |
| C13 ICONV/OCONV convert leftmost-longest | Conversion model with fast paths vs. a relational leftmost-longest specification. |
| C14 COMPOUNDRULE patterns match their regular language | Iterative backtracking matcher model vs. regular-language denotation: iff. |
| C15 Words accepted by COMPOUNDRULE split into dictionary words matching a rule | check_compound_with_rules model; soundness; completeness under one homonym per part. |
| C16 Words accepted by flag-based compounding split into permitted parts | check_compound model; segmentation soundness; exact characterisation when no extra restriction is on. |
| C17 COMPOUNDWORDMAX bounds the number of parts | Counter invariant over the compound search; the simplified-triple route violates the bound (refutation). |
| C18 BREAK splitting is sound and bounded | do_spell_break model vs. inductive gluing relation with depth. |
| C19 Case variants of dictionary words are accepted | Case oracle with stated laws; acceptance theorems; ASCII instance as witness. |
| C20 KEEPCASE words are not accepted in other casings | KEEPCASE through every reading of a title-case or all-caps word; refutations for the apostrophe split and later compound parts. |
| C21 Forbidden words are rejected | Theorem on check for words whose entries are all forbidden. |
| C22 Unknown words without any applicable mechanism are rejected | Soundness of check against the union of all mechanisms; simple corollary for plain word lists. |
| C23 add makes the word known | Operation histories on the Dictionary model. |
| C24 add(line) is equivalent to having the line in the .dic file | Refuted (hidden homonyms); proved for lines for which the loader adds no hidden homonym. |
| C25 remove_stem forbids the stem and its derived forms | Return value, idempotence, frame; doc claim refuted in general, proved for the forms whose every derivation uses the removed stem. |
| C26 Ignored characters do not matter | Theorem over erase_chars and check. |
| C27 Trailing full stops | Theorem over check. |
| C28 suggest replaces the output vector | Theorem over suggest. |
| C29 No duplicate suggestions | NoDup when there is no OCONV; refutation with OCONV. |
| C30 Edit suggestions are words the checker accepts and that are not forbidden | Per-strategy soundness; refutations for REP splitting and two-word suggestions. |
| C31 NOSUGGEST words are never suggested | Refuted for edit suggestions; proved for n-gram suggestions. |
| C32 In-place character edits are valid UTF-8 and reversible | Byte-buffer models vs. character-level edits through the UTF-8 encoder. |
| C33 Each edit strategy tries exactly its candidates | Per-strategy equality with the filtered candidate list; budget model; refutation for doubled_two_chars at the end of the word. |
| C34 suggest always returns | Refutations (ICONV introducing '-'; empty stem and upper_char_at; a prefix crossing a suffix in the n-gram step). Termination for every option when check terminates and ICONV introduces no hyphen (Hangs.v); no panic under the listed conditions. |
| C35 Similarity measures are what they claim | Row-reuse DP vs. inductive LCS; the counters vs. their definitions; bounds. |
| C36 MAXNGRAMSUGS bounds n-gram suggestions | Bound proved when at most 16 suggestions were collected before; refuted otherwise. |
| C37 n-gram suggestions are forms of eligible stems | expand_stem_for_ngram soundness for single affixes; refutation for the cross-product case. |
| C38 Flags decode to what is written | Parser model for each flag type; round trip and non-zero theorems. |
| C39 Dictionary lines round-trip | parse_dic_line model; printer/parser round trip. |
| C40 Tables consume exactly the rows they announce | Line-reader model; consumed row count; the reported 'actual' is off by one (refutation). |
| C41 Parsed options respect their documented ranges | Invariant over the directive fold. |
| C42 Dictionary::new always returns | All panicking operations explicit in the parser model; panic-free theorem under the stated size bound; refutation through a title case that outgrows 65535 bytes. |
| C43 COMPOUNDRULE patterns parse back | parse_compound_rule model; printer/parser round trip. |
| C44 Affix conditions parse exactly when brackets are balanced | Condition::from_str model; acceptance characterised by an independent grammar. |
| C45 MAP groups parse back | SimilarityGroup::from model; round trip. |
| C46 Check results depend only on the entries, not on their order | Extensionality theorem in the lookup function; permutation theorem for homonym-free lists. |
| C47 CHECKCOMPOUNDREP and REP splitting act on exact replacements | is_rep_similar with explicit scratch buffer vs. declarative replacement set. |
| C48 Sharp-s search tries only ss/ß exchanges | do_spell_sharps model vs. inductive exchange relation. |
| C49 check_lower_as_title / check_lower_as_upper only add acceptances | Theorem over spell_casing with the option switched on/off. |
| C50 The .aff text is read exactly | Inductive grammar of texts (Grammar.v) over words of lines; iff with parse_aff by showing each of the 51 directive parsers exact; last-directive-wins corollary. |
| C51 Layout of the .aff text does not matter | Corollary of C50: the grammar only sees the words of non-comment lines. |
| C52 The .dic text is read exactly | Grammar of .dic lines over positions (DicGrammar.v); iff with parse_dic by an invariant of the character scanner and induction on lines. |
| C53 Layout and order of the .dic text do not matter | Corollary of C52; order through C46. |
| C54 Casing | Relations on words for each kind and each mapping; final sigma by what precedes and follows, through the list of letters already passed. |
| C55 A parse error says where and what the fault is | Relations describing faulty words, lines, rows and texts (ErrorGrammar.v), with the lines before the fault readable in the sense of C50 and C52; every error of each directive parser is shown to describe such a fault at the line it names. |
| C56 Builder options | The builder calls are modelled one by one (Api.v); the value of an option after a chain is specified as that of the last call that sets it; induction on the chain, then the answers are those of the earlier properties. |
| C57 N-gram choice | NgramRank.v: scores as sums over n-grams, longest common subsequence and so on, the threshold, and the final choice, each an inductive or first-order relation; the model's functions are shown to satisfy them, and the word list is taken up to permutation. |
| C58 The whole list | An inductive relation `Suggestions` built from the strategies, the casing rules, guesses, hyphens and last steps, using `check` only through its answers; induction on the recursion through hyphens. Uniqueness by a nested induction on the relation. |
| C59 Counting words and syllables | `Split`, `Scored`, `Allowed` (Syllables.v) count entries, rules and vowels without the accumulators of the code; induction on the remaining length, both directions. |
| C60 Boundary checks on compounds | `Compound` (CompoundSpec.v) on the parts of the word; if the search misses, every test of every route at the boundary failed (CompoundExact.v), induction on the compound. |
| C61 check recurses no deeper than the word is long | Explicit fuel bound for check_compound_impl carried through casing, CHECKSHARPS and breaking (Depth.v). |
| C62 The n-gram view of a string never reads outside the text | CharsStr on bytes with panics and undefined behaviour explicit; refinement of every measure to the character level through Utf8.v. |
| C63 Scratch buffers hold valid text and what they held before does not matter | Stem buffer, "ss"/"ß" buffer and escaped word on bytes; refinement to the character-level model; the stem length assertion is refuted. |
| C64 Adding a word only adds acceptances, and a word without flags only for texts read as that word | Compare the checker with the one without flagless entries: affix routes and compounds agree, direct look-ups differ only at the word; lift through casing plans and break patterns. |
| C65 Removing a stem only takes acceptances away, and only from forms of that stem | Compare look-ups whose entries differ by one flag on one stem, route by route, against the checker that has the entries of the stem only; lift through casing plans and break patterns. |
| C66 N-gram scores never overflow | Write the n-gram step again on machine integers whose operations panic out of range; bound each measure by the lengths of its arguments; show both versions equal. |
| C67 Directives about suggestions do not change check | Simulation between two checkers, function by function, with equal flags. |
| C68 Flags are only names | The same simulation with renamed flags; refuted for the three flags COMPOUNDSYLLABLE gives a meaning. |
| C69 Flags that no directive mentions do not matter | The same simulation, preserving only the mentioned flags. |
| C70 check reads only some lines of the .aff text | Induction over the grammar of C50: a line that does not count leaves the state alone up to settings check ignores; then C67. |
| C71 suggest does not depend on unread directives, on the names of flags or on unmentioned flags | The simulation of C68 carried through every function of the suggester; roots in the n-gram heap are related pairwise. |
| C72 suggest reads only some lines of the .aff text | As C70, with the larger set of directives and C71. |
| C73 One slip of the typist is repaired | From the exact list (C58): a proposal survives recasing, filtering, deduplication and OCONV. |
| C74 The message of an error says which text, which line and what is wrong | Display.v models the `Display` impls; combined with the faults of C55. |
| C75 Suggestions do not depend on how the word list is stored | The word list and the heaps are read by the n-gram step only; the checkers of two dictionaries with equal entries are equal by extensionality. |
| C76 Suggestions follow additions and removals | A direct entry is found before anything else, so its own flags decide; then C58 and C73 with the effects of C23 and C25. |
| C77 Compound checking cuts words only between characters | The compound checker again on bytes with checked slices, refined to the one on characters function by function through Utf8.v. |
| C78 Checking a word on its bytes | The rest of `check` on bytes (conversion, BREAK, apostrophes, sharps, full stops) on top of C77, refined to the checker on characters. |
| C79 Suggesting for a word on its bytes | `suggest` with every edit on bytes, refined step by step to the suggester on characters; C34 then gives absence of panics. |
| C80 What NEEDAFFIX, ONLYINCOMPOUND and CIRCUMFIX keep out | The alternatives of `SimpleWord` (proved equal to the affix routes in C10-C12) as chains of rules; one record of conditions, from which the rejections follow. |
| C81 Every acceptance has a reason | Soundness of `check` for every fuel, from the soundness of each route; no termination argument, hence no condition on the dictionary. |
| C82 What bars a word bars it in every dictionary | From C81: an explanation by barred, removed or KEEPCASE entries is impossible; the transfer across `remove_stem` is shared with C25. |

## Statements that are false of the code

Each of these would be expected from the documentation or from Hunspell's; each has a
concrete dictionary and word as witness.

| theorem | what the code does |
|---------|--------------------|
| C01_lower_as_title_panics_refuted, C01_lower_as_upper_panics_refuted | check with the option on panics when a piece of the word is empty |
| C01_syllable_overflow_refuted | the syllable counter overflows under overflow checks |
| C01_simplified_triple_diverges_refuted, C01_pattern_diverges_refuted | check recurses forever (SIMPLIFIEDTRIPLE with COMPOUNDMIN 1; a CHECKCOMPOUNDPATTERN replacement that is undone by more characters) |
| C12_condition_of_middle_affix_refuted, C12_condition_of_middle_affix_unsound_refuted, C12_two_prefixes_refuted | interleaved affixes: a condition tested on the wrong form, a fast lane that consults the wrong table |
| C17_simplified_triple_refuted | COMPOUNDWORDMAX exceeded through SIMPLIFIEDTRIPLE |
| C20_apostrophe_refuted, C20_compound_refuted | KEEPCASE is not looked at after a split at an apostrophe, nor for later parts of a compound |
| C60_every_compound_refuted | a pattern with a flag for the second part hides other ways to cut the rest |
| C21_need_affix_refuted, C23_forbidden_homonym_refuted | forbidden entries for affixes only forbid nothing; add does not lift a forbidden homonym |
| C24_hidden_homonym_refuted, C24_comment_refuted | add differs from a line of the file for mixed case and for lines that begin with # |
| C25_conjugation_stays_refuted, C25_rule_compound_stays_refuted | forms of a removed stem that stay accepted |
| C26_dotted_entry_refuted, C27_dotted_entry_refuted, C27_empty_refuted | ignored characters and full stops matter for entries that end in a full stop |
| C29_oconv_refuted | the same suggestion twice through OCONV |
| C30_rep_last_part_refuted, C30_forbidden_pair_refuted, C30_dot_refuted, C30_hyphen_refuted, C31_edits_refuted | suggestions that are not correct words, forbidden or NOSUGGEST |
| C34_iconv_hyphen_diverges_refuted, C34_empty_suggestion_panics_refuted, C34_crossed_prefix_panics_refuted | suggest recurses forever or panics |
| C36_limit_refuted, C37_words_refuted | n-gram guesses beyond MAXNGRAMSUGS; guesses that are no words |
| C38_astral_flag_refuted, C38_short_multibyte_refuted | one written character is two flags |
| C39_tab_refuted, C39_field_refuted, C39_empty_flags_refuted | .dic lines that do not read back |
| C40_found_count_refuted | the reported number of rows found is one too many |
| C41_empty_break_refuted | empty break patterns |
| C42_long_title_refuted | the loader panics on a word whose title case needs more than 65535 bytes |
| C46_homonym_order_refuted | the order of homonyms with different flags matters |
| C49_forbidden_lower_refuted, C49_broken_word_refuted | check_lower_as_title can turn an accepted word into a rejected one |
| C63_stem_length_refuted | a stem longer than 360 bytes, on which a debug build panics, from an accepted word of 359 |
| C64_checkcompoundrep_refuted | under CHECKCOMPOUNDREP adding `foear` takes away the compound `foobar` |
| C64_flagged_compound_refuted | adding `bar/C` takes `Foobar` away: the new compound foo+bar is found first and is KEEPCASE |
| C65_compound_refuted | removing `foo` makes `Foobar` acceptable: the KEEPCASE compound foo+bar no longer comes first |
| C65_shared_flag_refuted | when one flag is FORBIDDENWORD and NEEDAFFIX, removing `tools/K` makes `Tools` acceptable |
| C68_syllable_flags_refuted | under COMPOUNDSYLLABLE renaming the flag I to K makes `foobarkei` unacceptable |
| C73_doubling_at_end_refuted | the doubling of two letters (xyxyx) is not undone at the end of a word |
| C58_forced_unconverted_refuted | the suggestion that only adds FORCEUCASE's capital is not OCONV-converted |
| C74_rows_found_refuted | a table that lacks one row is reported as `expected 2 rows but found 2`: the header is counted |
| C75_ties_refuted | among n-gram guesses of equal rank the order of iteration (the hasher's seed) decides |
| C75_guess_hides_parts_refuted | an n-gram guess with a hyphen hides `hello-phone` among the suggestions for `helo-phone` |
| C76_removed_guess_refuted | n-gram guesses are not looked up: the removed word `locks` is still suggested as a form of `lock` |
| C77_comment_refuted | the comment of `bytes_within` says `[1, 2]` for "abcd" with a margin of 1; it yields 3 as well |

## Files

| file | models or proves |
|------|------------------|
| Base, Utf8, Unicode | results (`Ret`/`Panic`/`NoFuel`), strings, UTF-8 encoder and decoder, casing primitives (aff.rs 1251-1347, lib.rs 440-510) |
| Flags, Umbra, Bag | flag sets (lib.rs 344-417), the compact slice (umbra_slice.rs), the hash bag (hash_bag.rs) |
| Condition, Affix, CompoundRule, Conversion, Aff | the tables of aff.rs |
| Checker | checker.rs |
| AffixSpec, Rep, CompoundSpec, CompoundTotal, RuleCompound, Spell, CheckSpec, CheckMono, CheckProps | specifications of what the checker accepts, and the proofs that connect them to the model |
| Syllables, Properties_Syllable | COMPOUNDWORDMAX with COMPOUNDSYLLABLE |
| CompoundExact, Properties_Boundary | completeness of the compound search under the boundary checks |
| Parser, ParserSafe, ParserProps, TableProps, Grammar, DicGrammar, ErrorGrammar | aff/parser.rs and its properties |
| Lib, LibSpec, LibProps | the type `Dictionary` (lib.rs), reachable dictionaries |
| BufferOps, Suggester, Ngram | suggester.rs, suggester/ngram.rs |
| SuggestSpec, SuggestLow, SuggestMono, Dedup, SuggestProps, SuggestTotal, Hangs, Depth, CharsStr, Scratch, PlainAdd, EntryChange, FlagNames, NamesProps, SilentLines, SuggestNames, ScoreArith, ScoreProps, NgramMeasures, NgramProps, SuggestImpl, LibSuggest, Api | specifications and proofs for suggestions |
| Properties_Sound, Properties_Never, Properties_Chain | soundness of `check` in every dictionary and what it keeps out; accepted words as chains of affix rules |
| ByteCompound, ByteCheck, ByteSuggest; ByteOffsets, ByteCompoundSpec, ByteCheckSpec, ByteSuggestSpec | checker.rs, suggester.rs and `convert` of aff.rs on bytes; the refinement to the model on characters |
| Examples | a concrete platform and concrete dictionaries built by `new` from literal texts |
| Properties_* | the theorems of MANIFEST.json |

`tools/manifest.py` writes MANIFEST.json from the theorem names and `tools/notes.json`.

## Trusted base

* Coq 8.16.1: the kernel, its checker, and the virtual machine (`vm_compute`) for concrete
  witnesses and examples.
* `Print Assumptions` stands under the theorems of every Properties file. It prints "Closed
  under the global context" for all of them except
  * `C46_same_entries_same_answers`, `C46_order_irrelevant` and `C53_order` (through
    `CheckProps.same_entries`), `C64_only_adds`, `C64_flagged_only_adds`,
    `C64_concerns_only_that_word`, `C65_only_removes` and `C65_concerns_only_that_stem`
    (two checkers with the same look-up function are the same), and the positive theorems of C75, and those of C71 and C72
    (two suggesters whose parts do the same are the same):
    `Coq.Logic.FunctionalExtensionality.functional_extensionality_dep`.
* `coqchk` also lists the axioms of `Coq.ssr.ssrunder` (`Under_rel`, `Over_rel`, `Under_relE`,
  `Under_rel_from_rel`, `over_rel`, `over_rel_done`, `under_rel_done`). They are loaded with
  `Lia`; no theorem uses them.
* No axiom, parameter, functor or module type is declared in `rocq/theories`.
* The transcription from Rust to Gallina. Each definition cites the lines it models.

### Parameters (universally quantified)

* `unicode` (Unicode.v): the case tables of `core`: `to_lowercase`, `to_uppercase`,
  `is_alphanumeric`, `is_lowercase`, ... Law: mapping a scalar value gives scalar values
  (`wf_unicode`). C34 asks in addition that no character maps to nothing; `ordinary_wieldy`,
  which derives its size conditions, that `to_lowercase` yields at most twelve bytes.
* `platform` (Parser.v): the case tables, byte order (`from_ne_bytes` for long flags), whether
  arithmetic overflow panics, the two unstable sorts (any sorted permutation), the hasher, the
  place an insertion takes in the table and the slots a probe visits (`wf_platform`).
* `runtime` (LibSuggest.v): the arrangement of the binary heaps and the unstable sort of the
  n-gram step (`wf_heaps`), the iteration order of the table (any permutation), whether debug
  assertions are compiled in.
* Fuel: `answers`, `suggests` and `Eventually` say "for every sufficiently large fuel";
  `check_settles` and `suggest_settles` show that an answer never changes with more fuel.

### Modelled

* lib.rs: `Dictionary::{new, new_with_hasher, add, remove_stem, check, checker, suggest,
  suggester}`, `FlagSet`, flag constants, casing.
* checker.rs: all of it (`check`, numbers, BREAK, casing, sharp s, affix stripping in all
  routes, compounding with flags, patterns, REP, syllables and rules, the two options).
* aff.rs: all tables and searches; the affix index byte by byte; conditions; conversion with
  its byte filters; compound rules; break table; casing.
* aff/parser.rs: all directives, both texts, all errors with their kind and source (line
  numbers included).
* hash_bag.rs: the multimap with stored hashes, tags, insertion, iteration and probing. The
  swiss-table layout is the parameter `pl_place`/`pl_visits`.
* umbra_slice.rs: the (length, prefix, trailing) representation with inline and heap storage,
  equality, clone, comparison.
* suggester.rs, suggester/ngram.rs: all of it, including the unsafe in-place edits on bytes
  and the byte-indexed view `CharsStr`.

### Not modelled

* Allocation failure, addresses and lifetimes; `Debug` output (`Display` of the errors is modelled, with the texts of core's `ParseIntError` as literals); `Send`/`Sync`.
* Layout of `hashbrown`'s `RawTable` (group probing, growth): replaced by the parameters above.
* Scores are computed on `Z` and lengths are `nat` in Ngram.v; ScoreArith.v repeats the n-gram
  step with checked `isize`/`usize` operations and C66 relates the two. Elsewhere lengths and
  indices are `nat`. `CharsStr`'s limit of 65535 bytes and `u16`/`i16` arithmetic where the
  code relies on it are kept.
* Byte offsets into `&str` in the checker and suggester are character positions; the byte-level
  modules (Affix, Conversion, Umbra, BufferOps, CharsStr, Scratch, ByteCompound, ByteCheck,
  ByteSuggest) are related to characters through Utf8.v. ByteCompound repeats the whole compound
  checker with byte offsets (C77), ByteCheck the rest of `check` (C78) and ByteSuggest the whole
  of `suggest` (C79) except for n-gram ranking (C62); the lookup of one word or part works on the
  decoded slice. Vectors of suggestions hold decoded strings. Every `unsafe` block that touches text is modelled on bytes.
* Stack overflow: recursion deeper than the stack is not distinguished from deep recursion.
* Reading the two texts from files, and the encoding of the files (the API takes `&str`).
