# Formal model of lexertl17 in Rocq (Coq 8.16.1)

Source: `/repo/include/lexertl` (header-only C++17). Everything below is about
a hand-written Gallina model of that code; the code itself is not run.

## 1. Approach

* Model files hold computable definitions only, each with a comment citing the
  file and lines it models and the simplifications made: `StringToken`,
  `UtfIterators`, `StateMachine`, `Serialise`, `Slice`, `Lookup`, `Minimise`,
  `Tree`, `Partition`, `Generator`, `ReToken`, `Parser`, `Build`,
  `ReTokeniser` (with the tables `UnicodeData`, `FoldData`), `Rules`,
  `Iterator`, `CharMachine`, `StreamIter`, `GenCpp`, `Debug`, `Dot` and
  `MemoryFile`.
* `*Spec.v` files (and `Grammar`, `RegexSpec`, `DfaSpec`, `RuleSpec`,
  `TableSpec`) hold the independent statements: sets of characters, UTF
  encodings, the denotation of regular expressions, what a lexer has to return.
* Everything else holds proofs. `P_*.v` hold only the property theorems
  (`exact lemma`) with `Print Assumptions`, next to examples that meet the
  hypotheses, and `..._refuted` theorems for behaviour that contradicts a
  property.
* Outcomes: `Ok`, `Throw` (a C++ exception), `UB` (out-of-range access, use of
  an empty stack, overlap in memcpy ...) and `Fuel` (model artefact of a loop
  bound; excluded by theorems).
* Integers: ids, columns, characters are `N`; list positions are `nat`.
  Wrap-around is written explicitly where a property is about it.

## 2. Plan per property

| id | model | proof |
|----|-------|-------|
| C01 C02 C03 C04 | tree builder, charset partition, followpos DFA construction, lookup | Glushkov correctness + subset construction invariant + lookup loop invariant; order-by-rule invariant for C02 |
| C05 C06 C07 | lookup loop on arbitrary tables | loop invariants, induction on remaining input |
| C08 | tables as lists, every access option-valued, UB outcome | well-formedness invariant of build + lookup never UB |
| C09-C12 | string_token as list of ranges | membership semantics, normal form invariant, canonicity |
| C13 | partition_charsets, build_set_mapping, fill_lookup | partition invariant over worklist |
| C14 C15 | node constructors with mutable followpos store, node::copy as its stack machine | Glushkov: paths in the store = words of the denotation |
| C16 | precedence table + shift/reduce loop | stack invariant (soundness), simulation of derivations (completeness) |
| C17 | build returns result, caller's machine replaced only on Ok | case analysis of the model of build |
| C18 C19 | check_zero_len, check_suppressed, used_ids | corollaries of Glushkov / subset construction |
| C20 | minimise_dfa | simulation relation between old and new rows |
| C21 C22 | char_state_machine append, minimise_dfa | pointwise; C22 expected to be refuted (`_id = _end_state`) |
| C23 | serialise save/load over characters: decimal numbers, blanks and line breaks as written | round trip; SaveLines: which numbers end a line in what save() writes (`C23_saved_lines`) |
| C24-C27 | utf iterators over lists of N | arithmetic on bit fields, induction on sequences; moves by any count in UtfMove |
| C28 C29 | slice_range | C28 exact; C29 refuted (line 561); what the code does with every class and for which ranges that is right (SliceAll); exact for the ranges called `tame` (SliceSpec), up to numbers after the last character |
| C30 | bol feature of build and lookup | language of the BOL state; for rules like `^a\|b` the exact meaning `rmatch`: at the beginning of a line the words with `^`, elsewhere the others |
| C31 | generator with prune_*, fix_clashes, eol transitions; lookup | the anchoring half for all rules (EolWords: every path through the followpos sets is part of a word); where no rule goes on with a line break at another rule's `$` (`line_rules`, EolLexSpec) the built lexer returns exactly the longest match (EolPrune: the pruning keeps the sets; EolExact: the table is that of the rules; EolWalk: words of the table; EolLex); outside the condition other rules do change (findings 3, 25, 26, 47, 49, 50, 73, 74) |
| C32 C33 | multi-state / recursive lookup | case analysis per step, induction over runs |
| C34 C35 | iterator, replace | induction on remaining input |
| C36-C39 | regex tokeniser | relations for the notation (SourceSpec), induction on derivations and on strings |
| C40-C42 | rules.hpp token-level rewriting | grammar-level proofs |
| C43 | rules tables as records of lists | invariant over operations |
| C44 | shared stream buffer state machine | invariant relating buffer window to stream |
| C45 | byte reversal | list reversal |
| C46 | abstemious::prune | token-level |
| C47 | feature bits of push, clear and create | invariant over calls; the converse (RulesNeed): a bit that is set was asked for by a rule that is still there |
| C48 | rules::split | grammar-level |
| C49 | the whole tokeniser | induction on the text, invariant of the token vector |
| C50 | rules + build + lookup | composition of C49, C47, C01-C05, C17 |
| C51 | the notation as a relation between texts and languages (SourceSpec), tokens of a text (SourceLexer) | every derivation is what `next` reads, with `check_diff` joining classes and `process_macro` putting in tokens with the meaning of the macro (SourceLex, SourceAll); then C50 (SourceTop). Left out: abstemious operators, macros with `^` or `$`, differences of macros |
| C52 | the statements generate_cpp writes, as a program of a small language with gotos, pointers and uninitialised variables (GenCpp) | stepwise simulation of lookup() (GenCppProofs), then C53 and C47 to choose the flags; scopes and names by themselves |
| C53 | lookup for two flag sets (FlagsSpec) | simulation; what a table lacks follows from C47, C05, C31 |
| C54 | build and lookup with abstemious repeats (LazySpec) | the table loses a transition only at states won by an abstemious rule (DfaSpec `rc_stop`, GenRules), lifted to scans (GenCut) and to lookup (LazyLookup) |
| C55 | parse, build and lookup of rules X L*? Y (LoopSpec, StopSpec) | parse is run symbolically on such tokens (LoopParse, LoopTree, LoopRule), the part of every state that belongs to the rule has a fixed shape (GenOrder, GenLoop), so a state that the rule wins drops every character that no other rule reads (LoopBuild); lifted to lookup (LoopLookup); the texts of such rules in plain words (LoopWords) |
| C56 | debug.hpp:143-529 (dump of a machine) and string_token.hpp:328-401 (Debug) | the lines of a dump (DebugShow); the text of a class derives the class in the declarative syntax of SourceSpec (DebugText, DebugClass), hence by C51's theorem the tokeniser reads it so (DebugRead); determinism of that syntax and the shape of lines make dumps injective (DebugLines, DebugInj); classes of built machines are not empty (DebugBuilt) |
| C57 | dot.hpp (Dot), for char | the text is cut into lines (DotLines); node names contain no blank and determine their numbers, so a line of the form of a node or an edge comes from one state or move (DotThms); targets of built machines are in range, labels by the theorems of C56 (DotBuilt) |
| C58 | parse, build and lookup of rules with repeats of both kinds (MarkSpec, KeptSpec) | expressions that remember the kind of their repeats, with words marked where an optional round of a greedy repeat begins (MarkWords: the same words); parse is run along the derivation and the positions that read a marked character are hard in the tree (MarkTree, MarkParse, MarkRule, a field of BuildTree); an abstemious transition never takes in a hard position, by the position automaton with marks (GenHard); lifted to lookup (LoopBuild, HardLookup) |
| C59 | push_state, push with start states, build and lookup for rules written as texts (SourceStates) | each declaration adds one rule per named state whose numbers stand for the names (StatesTop, on RulesPush and C51); then lookup is followed call by call with names in place of numbers; the description is deterministic |
| C60 | clear, clear(state) (Rules) | clear() is equal to a new object by computation; clear(state) from the alignment of the vectors (RulesNeed) |
| C61 | flags(), and the flags in build_dfa, check_zero_len and check_suppressed | runs of the generator that differ in flags and in the set of used rules are compared step by step (BuildFlags) |
| C62 | push, tokenise, build and lookup for rules with texts as in C51 together with rules `"open"BODY*?"close"` (CommentSpec) | the tokens of such a text have the form of C55, and neither stripping, pruning nor splitting changes them (CommentLex); each hit of C55 is then the longest match where comments end at their first end, because no other rule goes on behind an opening text (CommentTop). Characters of one byte, as C55 |
| C63 | the iterator, replace() with insertion at the end, minimise and generated code without pointers, on machines built from texts as in C51 and C62 (TokenList: `tokens`, `rewritten`, `gen_all`; Routes: `every_route`) | induction over the calls: each moves on by C51 or C62 (`sreads_prog`, `ireads_prog`), so the list ends, and it is unique as each call is. Minimising keeps lookup() by C20, generated code follows it by C52. The caller's loop around generated code (`gen_all`) is not code of the library. Generated code needs flags that cover the machine and no `$` |
| C64 | push, tokenise, build and lookup for texts as in C51 that may end with `$` (LineSpec: `dlongest`, `dreads`, `sapart`); 8 and 16 bit characters | the texts tokenise as in C51 (`text_says`); the object meets the conditions of C31, all of them from the meanings of the texts (LineTop), so C31 applies, and C63's induction over the calls gives all the tokens; the rows of such a machine are clean, so it can be minimised, and it announces its features, so C52 applies (LineRoutes). Outside `sapart` the code does not do this (findings 3, 25, 26, 47, 49, 50, 73, 74) |
| C65 | memory_file.hpp, POSIX branch, over a small model of the system: descriptors in use, mapped pages with their bytes, and what each system call answers (MemoryFile) | invariant over the calls: the objects own disjoint pages and different descriptors, fresh with respect to all others (MemoryProofs); the leaks are counted exactly or refuted by cases |
| C66 | as C63, for lexers with start states as in C59 (StateTokens: `mtokens`, `changed`, `finished`; StateRoutes: `all_roads`) | each call moves on (`mreads_prog`), so the list is finite; iterator, replace() and generated code are compared with it by induction over the list. It may end with a token of id 0 that begins before the end of the input (finding 39), which replace() drops (finding 40); generated code takes states from an empty stack (finding 53, `UB`) |
| C67 | lookup(), the iterator and str() once more for any type of iterators (AnyIter: `iops` is dereference, `++` and `==`, each may fail), with instances for the UTF-8, UTF-16 and flip iterators | AnyIterProofs: `represents` relates iterators to positions; each step of the generic code is the step on the list or the error of `++` (`alookup_same`, `avisit_all_same`). UtfLex: the iterators represent the decoded text, by the sequences before them; junk at the end is a character that no iterator reaches (`avisit_all_never`). UtfTexts adds C63 and C66. In the malformed theorems the sequences before the junk must not decode above 0x10ffff, as in C51 |
| C68 | lookup(), the iterator and str() as programs (StreamLex: `prog`) over the numbered iterators of C44's shared buffer, with every copy, assignment and destruction the code makes; the end iterator passed by value to check_eol is copied and destroyed; the results returned by str() are read character by character. How the elements of the stack or the results themselves are copied by the user is not in the program | StreamLexProofs: a program whose operations are defined on places in the stream does the same on the buffer (`prun_ok`, from the invariant of C44); on places, each function of lookup is the one on the list of characters (`pscan_ok` … `pvisit_all_ok`). StreamTexts adds C63 and C66, StreamComments the lexers with comments of C62, StreamLines those with $ of C64. The overlapping memcpy (finding 14) is taken as memmove; `C68_overlap_refuted` shows that it is reached in lexing, `C68_empty_stream_refuted` what an empty stream gives |
| C69 | No new code: build() of C20 on the rules objects of C51 and C59. `outcome` says what each answer means for the meanings of the texts; `wins` is said with C51's `smatch` | BuildTexts: the rules in the object read what the texts say (`reads_as`), so that build()'s totality (`build_ok`) and the exactness of its checks (`zero_len_complete`, `suppressed_sound`, `suppressed_complete`) become statements about texts; composed with C63 and C66. The converse of the never-match check is stated for characters of one or two bytes: wider classes also hold numbers above 0x10ffff, and a rule that wins only with those is accepted. BuildComments: the same for rules with comments (C62). There the refusal of a rule that cannot be matched is only said to need allow_suppressed_rules off, since the exactness of that check is proved for rules without abstemious repeats |
| C70 | No new code: C23's save and load on the machines of C63 and C66. The ids are unbounded numbers in the model of rules, so the texts' ids are assumed to be values of the id_type; vectors are assumed shorter than 2^64, which is proved for ids of at most 4 bytes | SaveBuilt: `blank` (in rows that do not accept, the cells of id, user id, push and next stay 0) is kept by every step of build_dfa; with C20's tables every cell fits (`built_fits`); minimise() only renumbers (`minimised_fits`). SaveTexts: every call of the rules object keeps the members in their types (`kept_apply`); composed with `load_save`, C63 and C66. SaveComments: the same for the lexers with comments of C62. SaveDollar: `built_fits_all` for all rules, whatever $ and ^ they hold, from the shape of the tables of C31; composed with C64 |
| C71 | `clear_results`, `reset_results`, `drain`, `results_length` (match_results.hpp:81-105, 156-168) beside `lookup` of C01. Plain match_results have no stack, so the model's stack is assumed empty there | Reset: induction over the loop of lookup() shows that the ids of the object given are only written; the rest is comparison field by field and induction over the stack |

## 3. Trusted base

* Coq's kernel and `coqc` 8.16.1. No axioms: `Print Assumptions` says "Closed
  under the global context" for every theorem of the `P_*.v` files (it is
  printed during the build). The library axioms in the vcheck report come from
  `ssrunder`, which `lia`/`ssreflect` loading brings along; no theorem uses them.
* The reading of the C++ by hand. Every definition cites the lines it models.
* The C++ standard library behaves as its specification says: vectors as lists,
  sets and maps as sorted or association lists.
* iostream (C23): writing an integer as decimal text and reading it back.

### Modelled

| header | what |
|--------|------|
| `string_token.hpp` | all of it |
| `utf_iterators.hpp` | `basic_utf8_in/out_iterator`, `basic_utf16_in/out_iterator`, `basic_flip_iterator` |
| `state_machine.hpp` | `basic_state_machine` (tables, `minimise`), `basic_char_state_machine` (`append`, `minimise`) |
| `sm_to_csm.hpp` | all of it |
| `iterator.hpp`, `replace.hpp` | the iterator; `replace` with one format and with a map, through inserting and overwriting output iterators; iterator ranges, not functions that change the iterators |
| `serialise.hpp` | `save`, `load` |
| `lookup.hpp` | `lookup` for all flag combinations, `match_results`, `recursive_match_results` with `clear` and `reset` |
| `partition/*.hpp`, `internals.hpp` | charset partitioning, index sets |
| `parser/tree/*.hpp`, `parser/parser.hpp` | nodes, `copy`, follow sets, precedence parser, slicing of wide characters |
| `parser/tokeniser/*.hpp` | the regex tokeniser for `char`, 16 and 32 bit characters with the Unicode and folding tables |
| `generator.hpp` | `build`, closure, transitions, `$` clash handling, checks, `create` |
| `stream_shared_iterator.hpp` | all of it, for one stream; the istream is the list of characters it delivers |
| `generate_cpp.hpp` | the function it writes, for every combination of features, skip and again, pointers and indexes, narrow and wide; array contents, numbers and array names; not the optional header text, comments and line breaks, nor the text of types |
| `memory_file.hpp` | the POSIX branch; a file does not change while it is mapped |
| `rules.hpp`, `abstemious.hpp` | `push` (all forms), `push_state`, `insert_macro`, `clear`, `flags`, `reverse`, `tokenise`, `split`, `prune` |

### Not modelled, or simplified

* `observer_ptr` (a name for `T*`) and the Windows branch of `memory_file`: not modelled. `dot` is modelled for char only (finding 64).
* `debug::dump(rules)` (debug.hpp:37-141): not modelled, it cannot be instantiated (finding 62). Streams are
  modelled as the characters written; locale and stream state are not modelled.
* Text of exceptions; `narrow()`.
* `char_type` sizes: `g_bytes`/`c_bytes` is 1, 2 or, for 32 bit characters, any greater
  number; a 32 bit character is looked at through its low three bytes, as the code does.
* The tokeniser is modelled for the classic locale, non-Windows, and regex
  characters that are at most `max_char`.
* `assert`s are taken as absent (NDEBUG).
* `split`: an underflow of its parenthesis counter is `UB` in the model (proved
  unreachable).

### Hypotheses that recur

* `rules_wf` (BuildSpec): token vectors as the tokeniser yields them (`tok_ok`),
  no `$`, `^` only at the beginning of words (`bol_rule`; `^a|b` is allowed), and fewer
  distinct byte sets than the id type can number (finding 23). For 32 bit characters
  the ranges of the classes are `tame` (SliceSpec): in at most two planes, or such that
  the middle bytes are the high bytes (finding 1 does no harm). The words of rules are
  then those of `takes`, which adds the numbers of finding 1; among the characters of
  Unicode `takes` is membership (`takes_mem`).
* `known`, `known_chars` (SourceSpec, SourceTop): for 32 bit characters only numbers up
  to 0x10ffff are looked at.
* `setting`: those rules, the machine built from them, flags that agree, a
  position inside the input.
* `proper`, `proper_unsplit` (RulesSpec): objects made by calls whose texts
  consist of existing characters, with numbers below 2^64 (finding 8) and
  abstemious counts of zero written `0` (finding 34); `unsplit`: finding 12.
* `srule_ok` (SourceTop): a rule text with its meaning, characters and numbers in
  range, an id that is neither 0 nor npos, `^` only at the beginning of words (`early`).
* `fair_setting` (EolSpec): as `setting`, but any rules, with `^` and `$` anywhere;
  `dollar_last`: `$` only as the last token, as the tokeniser emits it (C45);
  `substantial`: the rule matches neither the empty text nor only `^` and `$`.
* `simple` (RulesBuild): no `$`, `^` only at the beginning of words, few sets, and for
  32 bit characters tame ranges (`sliceable`).
* `decl_ok` (StatesTop): as `srule_ok`, for a rule with start states: the states have been
  named, none is listed twice, and the id may be 0 (pushed without an id).

## 4. Findings

Behaviour of the code that contradicts a property or the obvious intent; those
marked (T) are theorems.

1. `parser.hpp:561` (slice_range, three byte characters) uses the middle byte
   where the high byte is meant: classes over more than two planes are wrong (T,
   C29). Ranges from one of the first 256 characters to 0x10ffff, such as `.` and
   `[^']`, are right for the characters of Unicode, but also accept the numbers
   0x110000 to 0xfeffff (T, C29_numbers_refuted).
2. `state_machine.hpp:475-478` (`char_state_machine::minimise_dfa`) assigns
   `_id = _end_state` and drops the push/pop members; a further pass then merges
   states of different rules (T, C22). C22_what_is_lost says the same for all machines: a
   machine with two equal states loses every id, push and pop it has, and one
   without comes out unchanged.
3. `$`: all rules share one end-of-line state. With `(a|b)$`, `a\nx`, `b\ny`
   the input `b\nx` is returned as rule 2 (T, C31).
4. `prune_NL` (generator.hpp:352-382) uses an iterator after erase.
5. `lookup`: a rule without id followed by text that does not match discards the
   text; zero length skip/again rules loop for ever when zero length matches are
   allowed (T, C05, C06).
6. At the beginning of a line whether the empty text is matched, and by which rule, is read from row 1, not from
   the state entered: `^b*` does not match it (T, C30).
7. `[:print:]` for wide characters is `[\p{C}]`, not its complement (T, C39).
8. Hexadecimal escapes and repeat counts wrap modulo 2^64 (T, C37, C38).
9. `char_state_machine::append` marks every state that does not accept as
   pushing (T, C21).
10. `serialise` with one byte ids reads and writes characters (T, C23).
12. `rules::push` with state names looks for `^` in the last part of a split rule:
    `^a+?b|c` is not announced as bol (T, C47).
13. `abstemious::remove_sequence`: `a|b*?` becomes `a`.
14. `stream_shared_iterator`: memcpy on overlapping ranges (already when a stream
    shorter than half of the buffer is read to its end); an assignment to an
    iterator that was not used yet registers it twice, one from it does not
    register the copy, one of the end to it leaves a dangling pointer; an empty
    stream has a character; buffer size or increment 0 (T, C44).
15. `basic_utf8_in_iterator` accepts overlong forms, surrogates and values above
    0x10FFFF (T, C24).
16. `prune_eol`: `set_mapping[bol_token]` out of range for `^*a` (T, C30).
17. `a* ?` is reported as an internal error (T, C16).
18. A zero length match ignores the rule's next state (T, C32).
20. 32 bit input characters of 2^24 and more alias smaller ones (T, C04).
21. Without the advance flag lookup does not advance on unmatched text (T, C05).
22. `minimise` leaves the dead column and row 0 unrenumbered (T, C20).
23. With 2^bits-3 or more byte sets column numbers collide with the marker tokens.
24. `unique_id` wraps.
25. Rules `a$` and `a+$`: `set_mapping[eol_token]` out of range (T, C31).
26. `fix_clashes` keeps its counter across iterations (compressed variant): the rules `b$` and `b\nx` match
    `b\nx`, but not when the rule `a$` comes before them (T, C31).
27. The closure records used ids of transitions it drops.
28. `^a|b` is `^a` at the beginning of a line and `b` elsewhere (T, C30): `b` is not
    matched at the beginning of a line (`C30_alternatives_refuted`). All theorems about
    lexers use this meaning (`rmatch`, `smatch`); `natural` is what one would expect, and
    is the same for rules without `^` and for rules all of whose words begin with it.
29. Two repeats in a row are refused, though the grammar in the comment of
    parser.hpp allows them (T, C16).
30. A macro used in its own text, or after its insertion failed, is an empty
    vector whose second element is read (T, C49).
31. Case folding table: `fold2` pairs are swapped, icase `\x100` does not match
    `\x101` (T, C39).
32. `unicode.hpp`: Lo, Co, Cs lack the ranges between First and Last.
33. A macro beginning with `^` used at the beginning of a rule (or ending with `$`
    at its end) is not put in parentheses (T, C40).
34. `a{00,5}?` at the end of a rule becomes `{00}`, which matches `a` once, while `a{0,5}?` is removed (T, C46).
35. `reverse()` leaves the BOL of `^*a` in the middle of the rule (T, C42).
36. `push_state` that overflows throws after adding the state (T, C43).
37. `xa*?|c` is pruned to `xc` (T, C46).
38. `reverse()` does not exchange the bol and eol feature bits (T, C47).
39. An iterator yields an end of input result when a rule that joins (`again`)
    leaves text at the end of the input (T, C34).
40. `replace` loses such text (T, C35).
41. `replace` ignores what `std::copy` returns: through an output iterator that is
    not an inserter every piece is written to the same place (T, C35).
42. `replace` with a single format also replaces characters no rule matches (T, C35).
43. `sm_to_csm` of a machine for 16 or 32 bit characters yields byte transitions (T, C21).
44. `"ab"*`: an operator behind a quoted string applies to its last character (T, C51).
45. 16 bit characters: `[:alpha:]` and other classes whose Unicode sets have
    members above 0xFFFF are refused (T, C39).
46. `^` behind, and `$` in front of, a comment or skipped blank is an ordinary
    character (T, C51).
47. A class containing `\r` directly in front of `$` (`a.$`, `.+$`, `//.*$`): where
    the class is not only in the first set of the state, `prune_eol`
    (generator.hpp:418-515) indexes `set_mapping` with the eol token, out of
    range (T, C31).
48. The rule `$` alone passes `check_zero_len` and is returned at every end of a line
    without moving: lexing does not end (T, C05).
49. `[a-z]+$` with `[a-z]+\n`: the second rule is pruned and build() throws as if it
    were suppressed (T, C31). Of `ab` and `ab$` the latter wins at an end of line,
    also as the later rule (T, C31).
50. 16 bit characters: the repairs for `$` look at single bytes, so `a$`, `a\x{d0a}`,
    `a` are refused because U+0D0A has the bytes of `\r\n` (T, C31).
51. `generate_cpp`: `$` is tested against `\n` only, lookup() also stops at `\r` (T, C52).
52. `generate_cpp`: when the last character of the input fits no rule, `curr_` has
    already passed it, and a `$` rule then matches including that character (T, C52).
53. `generate_cpp`: no check for an empty stack: `<` in the outermost state is
    undefined behaviour where lookup() throws (T, C52).
54. `generate_cpp`: recursion within a single start state uses `start_state_`, which
    is only declared for several: the text does not compile (T, C52).
55. `generate_cpp` with pointers: `$` dereferences a number (T, C52); a start state
    without `^` rules matches nothing at the beginning of a line when another has
    such rules, as entry 0 becomes `dfa_ + 0` (T, C52); from eleven start states on
    arrays are declared as `dfaa_` and addressed as `dfa10_` (T, C52).
56. Abstemious repeats are decided per state of the automaton, not per rule: where
    another rule reads on, the abstemious rule reads on with it. `a.*?b` beside
    `[a-z]+` takes all of `acbcb1b` although neither the first rule stops there
    first nor the second one matches it (T, C55).
57. Nested operators under an abstemious repeat: `a(bc?)+?` takes `abc` from `abcbc`
    although `ab` matches (T, C55).
58. `debug.hpp` dump_charset escapes `-`, `]` and `^` by writing the backslash before the range, not before
    its last character: the class D-^ is written `[\D-^]`, which the tokeniser rejects, and the class of
    `,`, `-` and `a` is written `[\,-a]`, a range (T, C56).
59. A `]` that is not the first range of a class is not escaped: `[(]a]` (T, C56).
60. Numbers run into a following digit: the class of \x1 and `0` is written `[\x10]` (T, C56).
61. With char32_t the number after \x is in decimal, because that overload of stream_num formats with its
    own stream: \x100 is written `\x256` (T, C56).
62. `debug::dump(rules)` compares vectors of `basic_re_token` with std::search, but the type has no
    operator ==, so the function cannot be instantiated (by reading).
63. operator == of recursive iterators ignores the stack: of two equal iterators one may go on and the other
    throw on a pop (T, C34).
64. `wdot` and `u32dot` cannot dump: dump_ex stores the result of rules::state in a `const char*` (by reading).
65. A rule that pops is drawn as an edge to `L65535_S0`, a node that is not declared (T, C57).
66. Drawings show neither the moves at the ends of lines nor whether the first state accepts: the state that
    a lexer with `^` starts in at the beginning of a line has no edge into it (T, C57).
67. Characters such as `<` and `&` are not escaped in the labels, which are HTML (T, C57).
68. `is_end` skips a token behind each `|`: with `xa*?|d|bc` the repeat counts as last and is removed, with
    `xa*?|d|(b)c` it is kept (T, C46).
69. `memory_file::close` passes the number of characters to `munmap`, not that of bytes: with characters of
    2 or 4 bytes the rest of the pages stays mapped (T, C65).
70. `memory_file::open` forgets the descriptor of a file that it could open but not map (an empty file, for
    example) when it is called again: it only closes when `_data` is set (T, C65).
71. `memory_file` takes descriptor 0 to mean that no file is open and never closes it (T, C65).
72. Lexing an empty stream through `stream_shared_iterator` gives a token with the id npos and a character 0 that is
    not in the stream; and with the default buffer of 1024 characters lexing a short text reaches the overlapping
    memcpy of finding 14 (T, C68).
73. `fix_clashes` (uncompressed) moves `ptr_` to the end of line state while treating `\r` and then clears the `\n`
    transition there: of the rules `(a|b)$`, `a\nx` and `b[\r\n]y` the second is lost (T, C31).
74. `fix_clashes` (compressed) reads the `\n` transition from the row it has just made for `\r`: of the rules `b$`
    and `b[\r\n]x` the second no longer matches `b\nx` (T, C31).
