{"id": "C01", "title": "Longest match", "statement": "For a lexer built from rules that use no ^, no $ and no abstemious (?-suffixed) repeats, a call to lookup() on non-empty remaining input returns a token whose text is the longest non-empty prefix of the remaining input that any rule of the current start state matches, whenever some rule matches a non-empty prefix.", "quantifier": "all rule sets of that kind, all start states of the lexer, all inputs and all positions in them", "why_tests_cant": "Rule sets and inputs are both unbounded; a table bug may show only for a particular interaction of overlapping character classes, nested repeats and several rules.", "anchors": ["include/lexertl/generator.hpp:build,build_dfa,closure,build_equiv_list", "include/lexertl/lookup.hpp:detail::next"]}
{"id": "C02", "title": "Earliest rule wins ties", "statement": "Among the rules of the current start state that match the returned longest text, the returned id, user_id and next start state are those of the rule that was pushed first.", "quantifier": "all rule sets without ^, $ and abstemious repeats, all inputs and positions", "why_tests_cant": "Priority is kept only implicitly by the order of node vectors through two levels of set partitioning; a reordering in one rare merge path would be invisible to sampled tests.", "anchors": ["include/lexertl/generator.hpp:closure,closure_ex,build_equiv_list", "include/lexertl/partition/equivset.hpp:intersect"]}
{"id": "C03", "title": "Unmatched input is reported one character at a time", "statement": "If no rule of the current start state matches a non-empty prefix of the remaining input then lookup() returns id npos and user_id npos with the text being exactly the one next character, and the following call continues after it.", "quantifier": "all rule sets without ^, $ and abstemious repeats, all inputs, all positions, default flags", "why_tests_cant": "Requires that the automaton accepts nothing outside the union of the regexes, for every input.", "anchors": ["include/lexertl/lookup.hpp:detail::next,inc_end", "include/lexertl/generator.hpp:build_dfa"]}
{"id": "C04", "title": "Every returned token is justified by a rule", "statement": "Whenever lookup() returns a token with an id other than eoi and npos, the text of that token is matched by some rule that was pushed with that id (and that user_id) into the start state used for that token; this also holds when rules use abstemious repeats.", "quantifier": "all rule sets without ^ and $, all inputs and positions", "why_tests_cant": "A soundness claim over all rule sets and all inputs, including the transitions removed for abstemious repeats.", "anchors": ["include/lexertl/generator.hpp:build_dfa,set_transitions", "include/lexertl/lookup.hpp:detail::next"]}
{"id": "C05", "title": "Lexing terminates and always makes progress", "statement": "If no rule matches the empty string, each call of lookup() that does not report end of input moves the end of the token strictly forward, so the loop \"while (results.id != 0) lookup(...)\" ends after at most one call per input character plus one.", "quantifier": "all state machines whose start rows are not end states, all finite inputs, all start states and bol flags", "why_tests_cant": "Termination is a claim about every run; a non-terminating run cannot be observed by a finite test.", "anchors": ["include/lexertl/lookup.hpp:detail::next", "include/lexertl/iterator.hpp:basic_iterator"]}
{"id": "C06", "title": "Tokens tile the input", "statement": "For machines without skip rules and without rules that have no id, the texts returned by successive lookup() calls, concatenated in order, are exactly the input; with skip rules the gaps between consecutive tokens are exactly concatenations of texts that matched skip rules.", "quantifier": "all state machines, all inputs", "why_tests_cant": "Needs every boundary of every run to agree; off-by-one errors at no-match, at end of input or after a skip depend on the input.", "anchors": ["include/lexertl/lookup.hpp:detail::next"]}
{"id": "C07", "title": "End of input is reported once and for all", "statement": "lookup() on exhausted input returns id eoi (0), user_id npos and an empty text positioned at the end of the input, never touches the table or the stack, and every later call returns the same result.", "quantifier": "all state machines, all match_results whose position is the end of the input", "why_tests_cant": "Idempotence over all later call sequences.", "anchors": ["include/lexertl/lookup.hpp:detail::next"]}
{"id": "C08", "title": "lookup never reads outside the input or the tables", "statement": "On a state machine produced by generator::build (or loaded from one), lookup() dereferences only characters inside [second, eoi) and only existing table cells, whatever the input is; in particular any input character value is acceptable.", "quantifier": "all rule sets accepted by build, all inputs", "why_tests_cant": "Memory safety for every input; an out-of-range row or column exists only for particular tables.", "anchors": ["include/lexertl/lookup.hpp:lookup_state", "include/lexertl/generator.hpp:build_dfa,fill_lookup", "include/lexertl/internals.hpp:add_states"]}
{"id": "C09", "title": "Character class union is exact", "statement": "Inserting a range or a class into a character class gives exactly the union, whatever the insertion order, and keeps the class in its normal form (sorted, disjoint, non adjacent ranges).", "quantifier": "all classes, all ranges, all insertion sequences, any character width", "why_tests_cant": "The merge loop has many overlap cases; correctness depends on every combination of neighbours.", "anchors": ["include/lexertl/string_token.hpp:insert"]}
{"id": "C10", "title": "Character class complement is exact", "statement": "Negating a character class gives exactly the characters of the character type that were not in it; negating twice gives the original class; the result is in normal form.", "quantifier": "all classes and any maximal character value", "why_tests_cant": "Boundary values 0 and max and empty results interact with every possible class.", "anchors": ["include/lexertl/string_token.hpp:negate"]}
{"id": "C11", "title": "Character class intersection and difference are exact", "statement": "intersect() leaves the two difference sets in its operands and puts exactly the common characters in the overlap; remove() (regex {-}) removes exactly the characters of the other class; nothing is lost or duplicated, normal form is kept and no iterator is used after invalidation.", "quantifier": "all pairs of classes", "why_tests_cant": "Two cursor loop that edits the vectors it iterates over; errors need particular alignments of ranges.", "anchors": ["include/lexertl/string_token.hpp:intersect,remove,adjust"]}
{"id": "C12", "title": "Equal character classes are recognised as equal", "statement": "Two classes containing the same characters compare equal (and are assigned the same index by the parser), and classes that differ compare different.", "quantifier": "all pairs of classes built through the public operations", "why_tests_cant": "Canonicity of a representation is a statement about all pairs.", "anchors": ["include/lexertl/string_token.hpp:operator ==,operator <", "include/lexertl/parser/parser.hpp:lookup"]}
{"id": "C13", "title": "The alphabet partition is correct", "statement": "For the classes used by the rules of one start state, every input character is assigned one column; two characters share a column only if no class separates them; a class covers exactly the characters of the columns recorded for it; characters in no class go to the dead column.", "quantifier": "all finite lists of classes, all character values", "why_tests_cant": "Quadratic splitting over arbitrary overlapping classes; every pair of classes matters.", "anchors": ["include/lexertl/generator.hpp:partition_charsets,build_set_mapping,fill_lookup", "include/lexertl/partition/charset.hpp:intersect"]}
{"id": "C14", "title": "Regex operators mean what they say", "statement": "The automaton positions computed for a regex built from character classes, sequence, |, ?, *, + and {n,m} accept exactly the strings of the usual denotation of that regex.", "quantifier": "all regexes, all strings", "why_tests_cant": "Both regexes and strings are unbounded and nested (nullable sub-expressions inside repeats are the classic failure).", "anchors": ["include/lexertl/parser/tree/*.hpp", "include/lexertl/parser/parser.hpp:optional,zero_or_more,one_or_more,repeatn,sequence,perform_or"]}
{"id": "C15", "title": "Bounded repeats count correctly", "statement": "r{n}, r{n,} and r{n,m} match exactly n, at least n, and between n and m concatenated matches of r.", "quantifier": "all r, all n <= m", "why_tests_cant": "The copies are made by a loop with special cases for n = 0, n = 1 and m - n = 1; every n, m is a different tree.", "anchors": ["include/lexertl/parser/parser.hpp:repeatn", "include/lexertl/parser/tree/node.hpp:copy"]}
{"id": "C16", "title": "Regex grammar and precedence", "statement": "The regex parser accepts exactly the token sequences of the documented grammar and groups them with the documented precedence (repeat binds tighter than sequence, sequence tighter than |, | and sequence associate to the left); any other token sequence is reported as a syntax error and never corrupts the stacks.", "quantifier": "all token sequences", "why_tests_cant": "Table driven shift/reduce over a 24x24 table: the claim is about every token sequence, including every malformed one.", "anchors": ["include/lexertl/parser/parser.hpp:parse,reduce", "include/lexertl/parser/tokeniser/re_token.hpp:precedence"]}
{"id": "C17", "title": "build is all or nothing", "statement": "If generator::build throws, the state machine passed to it is unchanged; if it returns, the state machine is exactly the one determined by the rules, independent of its previous contents.", "quantifier": "all rule sets, all previous contents", "why_tests_cant": "Strong exception guarantee over every failing rule set.", "anchors": ["include/lexertl/generator.hpp:build"]}
{"id": "C18", "title": "Empty matches are rejected at build time", "statement": "Unless match_zero_len is set, build throws when some rule without ^ or $ can match the empty string, and does not throw this error otherwise.", "quantifier": "all rule sets", "why_tests_cant": "An iff over all regexes.", "anchors": ["include/lexertl/generator.hpp:check_zero_len"]}
{"id": "C19", "title": "Suppressed rules are rejected at build time", "statement": "Unless allow_suppressed_rules is set, build throws \"cannot be matched\" exactly when some rule can never be returned: every string it matches is also matched by an earlier rule of the same start state (rules without ^, $ and abstemious repeats).", "quantifier": "all rule sets", "why_tests_cant": "Equivalent to a language inclusion over infinite languages.", "anchors": ["include/lexertl/generator.hpp:check_suppressed,closure_ex"]}
{"id": "C20", "title": "minimise preserves behaviour", "statement": "After state_machine::minimise() every lookup on every input, from every start state and bol flag, gives the same results as before; the table never grows, minimise() terminates, and a second minimise() changes nothing.", "quantifier": "all well formed state machines, all inputs", "why_tests_cant": "Behavioural equivalence on all inputs for all tables.", "anchors": ["include/lexertl/state_machine.hpp:basic_state_machine::minimise,minimise_dfa"]}
{"id": "C21", "title": "Conversion to a character based machine preserves transitions", "statement": "The char_state_machine obtained from a state machine (append / sm_to_csm) has, for every state and character, exactly the transition of the source machine, and the same id, user_id, next state and bol/eol targets.", "quantifier": "all state machines and partitions, all states, all characters", "why_tests_cant": "Pointwise equality over all tables and characters.", "anchors": ["include/lexertl/state_machine.hpp:basic_char_state_machine::append", "include/lexertl/sm_to_csm.hpp"]}
{"id": "C22", "title": "Minimising a character based machine preserves behaviour", "statement": "char_state_machine::minimise() keeps id, user_id, push/pop information and the recognised language of every state reachable from the start.", "quantifier": "all character based machines", "why_tests_cant": "Behavioural equivalence for all machines.", "anchors": ["include/lexertl/state_machine.hpp:basic_char_state_machine::minimise_dfa"]}
{"id": "C23", "title": "Saved machines load back unchanged", "statement": "Loading the text written by save() into any machine gives a machine equal to the saved one, whatever followed or preceded it in the stream, for every id_type wider than one byte. The numbers are written in lines of at most 80 characters, each as full as it can be.", "quantifier": "all state machines, all previous contents of the target", "why_tests_cant": "Round trip over all values.", "anchors": ["include/lexertl/serialise.hpp:save,load,output_vec,input_vec"]}
{"id": "C24", "title": "UTF-8 input iterator decodes UTF-8", "statement": "For every sequence of Unicode scalar values, iterating basic_utf8_in_iterator over its UTF-8 encoding yields that sequence and stops exactly at the end; stray continuation bytes, invalid lead bytes and truncated sequences throw instead of reading past the end.", "quantifier": "all code point sequences; all byte strings for the error part", "why_tests_cant": "All byte strings of any length.", "anchors": ["include/lexertl/utf_iterators.hpp:basic_utf8_in_iterator"]}
{"id": "C25", "title": "UTF-8 output iterator encodes UTF-8", "statement": "Iterating basic_utf8_out_iterator over code points yields their UTF-8 encoding; decoding it again gives the code points back.", "quantifier": "all sequences of code points up to 0x10FFFF", "why_tests_cant": "Round trip over all sequences.", "anchors": ["include/lexertl/utf_iterators.hpp:basic_utf8_out_iterator"]}
{"id": "C26", "title": "UTF-16 iterators encode and decode UTF-16", "statement": "basic_utf16_in_iterator decodes and basic_utf16_out_iterator encodes UTF-16, as inverses of each other; lone or truncated surrogates throw.", "quantifier": "all sequences of scalar values; all sequences of code units for the error part", "why_tests_cant": "All sequences of any length.", "anchors": ["include/lexertl/utf_iterators.hpp:basic_utf16_in_iterator,basic_utf16_out_iterator"]}
{"id": "C27", "title": "Moving a UTF iterator back returns to the previous characters", "statement": "iter - 1 after ++iter yields an iterator equal to the original with the same character, anywhere inside well-formed UTF-8. In text encoded in UTF-8 or UTF-16, iter + n from character i stands on character i + n (or at the end), iter - n on character i - n; only more than i steps back leave the buffer.", "quantifier": "all well formed strings, positions and counts", "why_tests_cant": "All strings.", "anchors": ["include/lexertl/utf_iterators.hpp:operator -,operator +"]}
{"id": "C28", "title": "Wide character classes are sliced into bytes exactly (16 bit)", "statement": "For 16 bit character types, the byte pairs generated for a character class are exactly the big-endian byte pairs of its characters.", "quantifier": "all classes over 0..0xFFFF, all characters", "why_tests_cant": "All ranges; boundary cases of high byte and low byte.", "anchors": ["include/lexertl/parser/parser.hpp:slice_range,insert_range,push_ranges"]}
{"id": "C29", "title": "Wide character classes are sliced into bytes exactly (24 bit)", "statement": "For 32 bit character types, the byte triples generated for a character class are exactly the big-endian byte triples of its characters.", "quantifier": "all classes over 0..0x10FFFF, all characters", "why_tests_cant": "All ranges over 2^21 values with three byte boundaries.", "anchors": ["include/lexertl/parser/parser.hpp:slice_range,insert_range"]}
{"id": "C30", "title": "^ anchors at the beginning of a line", "statement": "A rule starting with ^ is returned only for tokens that start at the beginning of the input or after a newline (per the bol flag), and other rules are unaffected by where the token starts.", "quantifier": "all rule sets with ^, all inputs, bol true or false", "why_tests_cant": "All inputs and positions; the BOL start state duplicates part of the automaton.", "anchors": ["include/lexertl/parser/parser.hpp:fixup_bol,bol", "include/lexertl/lookup.hpp:bol_start_state", "include/lexertl/generator.hpp:set_transitions"]}
{"id": "C31", "title": "$ anchors at the end of a line", "statement": "A rule ending in $ is returned only when the token is followed by \\r, \\n or the end of the input, whatever the other rules are. If, in each start state, no rule goes on with a line break (\\r, \\n, or a wide character whose first byte is one) after a text where another rule has its $, lookup returns exactly the longest match of the rules, $ being met where a line ends and then preferred; rules outside this condition may lose texts (stated as counterexamples).", "quantifier": "first part: all rule sets with $, all inputs; second part: all rule sets meeting the condition, all inputs", "why_tests_cant": "Clash fix-ups between $ and explicit newlines edit the finished table.", "anchors": ["include/lexertl/generator.hpp:prune_eol_clashes,fix_clashes", "include/lexertl/lookup.hpp:is_eol,check_eol"]}
{"id": "C32", "title": "Start states switch as declared", "statement": "After a token of a rule pushed with a target state the next lookup uses that state's rules; with \".\" the state stays; rules pushed without states stay in INITIAL.", "quantifier": "all rule sets with several start states, all inputs", "why_tests_cant": "All histories of state switches.", "anchors": ["include/lexertl/lookup.hpp:reset_start_state,start_state", "include/lexertl/rules.hpp:push"]}
{"id": "C33", "title": "Push and pop follow a stack discipline", "statement": "With recursive results a \">\" rule pushes exactly one entry, \"<\" pops exactly one and returns to the start state recorded by the matching push, all other rules leave the stack unchanged; popping an empty stack throws and does not corrupt the results.", "quantifier": "all state machines, all inputs, all stack contents", "why_tests_cant": "All histories of nested pushes and pops.", "anchors": ["include/lexertl/lookup.hpp:pop,reset_recursive", "include/lexertl/rules.hpp:push"]}
{"id": "C34", "title": "The iterator visits exactly the tokens of repeated lookup", "statement": "A lexertl::iterator range over an input yields the same sequence of results as calling lookup() until eoi, never yields the eoi result, and reaches the end iterator.", "quantifier": "all state machines that make progress, all inputs", "why_tests_cant": "All inputs; end detection compares positions, not ids.", "anchors": ["include/lexertl/iterator.hpp:basic_iterator"]}
{"id": "C35", "title": "replace substitutes exactly the matched texts", "statement": "replace() outputs the input with each token text replaced by its format string (or kept when the map has no entry for its id) and all skipped text copied unchanged and in order.", "quantifier": "all state machines that make progress, all inputs, all format maps", "why_tests_cant": "All inputs; skipped text is reconstructed from positions.", "anchors": ["include/lexertl/replace.hpp:replace"]}
{"id": "C36", "title": "Literal regexes match themselves", "statement": "For every byte string s, the regex obtained by escaping every metacharacter of s with a backslash (or by quoting s) is accepted and matches exactly s.", "quantifier": "all non-empty strings over 8, 16 and 32 bit characters; with icase each character also in its other case; escaping with skip_ws off", "why_tests_cant": "All strings; the escape rules differ per character.", "anchors": ["include/lexertl/parser/tokeniser/re_tokeniser.hpp:next,escape", "include/lexertl/parser/tokeniser/re_tokeniser_helper.hpp:chr,escape_sequence"]}
{"id": "C37", "title": "Numeric escapes denote the given character or are rejected", "statement": "\\xH.., \\o, \\oo, \\ooo and \\cX denote exactly the character with that code; values outside the character type are rejected. Hexadecimal values of 2^64 and more are outside the claim: the accumulator wraps.", "quantifier": "all digit strings with values below 2^64, all texts behind them", "why_tests_cant": "Digit strings are unbounded and the accumulator is a machine integer.", "anchors": ["include/lexertl/parser/tokeniser/re_tokeniser_helper.hpp:decode_hex,decode_octal,decode_control_char"]}
{"id": "C38", "title": "Repeat counts are validated", "statement": "{n}, {n,} and {n,m} are accepted exactly when n <= m and they are not {0} (or {0,0}), and denote those counts; malformed braces are rejected.", "quantifier": "all strings after an opening brace whose numbers are below 2^64", "why_tests_cant": "Unbounded digit strings; machine integers.", "anchors": ["include/lexertl/parser/tokeniser/re_tokeniser.hpp:repeat_n"]}
{"id": "C39", "title": "Case-insensitive classes are closed under case", "statement": "With icase, a character class or character of an 8 bit lexer contains both cases of each ASCII letter it mentions and adds nothing else.", "quantifier": "all classes over an 8 bit alphabet; contents of classes also for 16 and 32 bit", "why_tests_cant": "All classes.", "anchors": ["include/lexertl/parser/tokeniser/re_tokeniser_helper.hpp:fold", "include/lexertl/parser/tokeniser/re_tokeniser.hpp:add_char"]}
{"id": "C40", "title": "Macros behave like parenthesised sub-regexes", "statement": "A rule that uses {NAME} has the same language as the rule with the macro text substituted in parentheses; unknown and redefined macros are rejected.", "quantifier": "all macro texts and all rules using them", "why_tests_cant": "All regexes.", "anchors": ["include/lexertl/rules.hpp:insert_macro,process_macro"]}
{"id": "C41", "title": "Redundant outer parentheses are harmless", "statement": "Removing the outermost parentheses of a regex, as rules.push does, never changes its meaning and is only done when they match each other.", "quantifier": "all token sequences", "why_tests_cant": "All nestings.", "anchors": ["include/lexertl/rules.hpp:strip_parens,balanced_parens"]}
{"id": "C42", "title": "Reversed rules match reversed texts", "statement": "After rules::reverse() every rule matches exactly the reversals of the strings it matched before, and reversing twice restores the rules.", "quantifier": "all rules", "why_tests_cant": "All regexes and strings.", "anchors": ["include/lexertl/rules.hpp:reverse"]}
{"id": "C43", "title": "Rule tables stay aligned", "statement": "After any sequence of push, push_state, insert_macro and clear calls (failing or not), the parallel per-state tables (regexes, strings, ids, user ids, next states, pushes, pops) have equal lengths for every state, one state exists per name, and state indices are stable; ids eoi and npos are refused.", "quantifier": "all sequences of API calls", "why_tests_cant": "All histories.", "anchors": ["include/lexertl/rules.hpp:push,push_state,clear"]}
{"id": "C44", "title": "Stream iterators reproduce the stream", "statement": "Advancing stream_shared_iterator copies yields exactly the characters of the stream in order whatever the buffer size and increment, and stays valid for every live copy while the buffer is moved.", "quantifier": "all streams, buffer sizes >= 1, increments >= 1, all interleavings of copies", "why_tests_cant": "All interleavings of iterator copies and reloads.", "anchors": ["include/lexertl/stream_shared_iterator.hpp"]}
{"id": "C45", "title": "Byte swapping iterator is an involution", "statement": "basic_flip_iterator reverses the bytes of each character and applying it twice is the identity.", "quantifier": "all values of any width", "why_tests_cant": "All values.", "anchors": ["include/lexertl/utf_iterators.hpp:basic_flip_iterator"]}
{"id": "C46", "title": "Pruning trailing abstemious repeats keeps the shortest matches", "statement": "Removing a trailing abstemious repeat from a regex leaves a regex whose matches are matches of the original.", "quantifier": "all token sequences with a trailing abstemious repeat", "why_tests_cant": "All token nestings.", "anchors": ["include/lexertl/abstemious.hpp:prune"]}
{"id": "C47", "title": "Feature bits announce what the rules need", "statement": "After any calls of the public members, the feature bits of the built machine contain bol, eol, skip, again and recursive whenever a rule begins with ^, ends with $, is skipped, joins or uses the stack, and multi_state exactly when there are several start states. No bit is set without such a rule, also after states have been cleared.", "quantifier": "all sequences of calls except reverse(), no rule beginning with ^ that is split at | and pushed by state name", "why_tests_cant": "Any number of rules, states and calls.", "anchors": ["include/lexertl/rules.hpp:push", "include/lexertl/generator.hpp:create"]}
{"id": "C48", "title": "Splitting a rule at its alternatives keeps its language", "statement": "When rules::push splits a rule with abstemious repeats at its top level |, a text is matched by the rule exactly if it is matched by one of the parts.", "quantifier": "all token sequences", "why_tests_cant": "All nestings of parentheses and any number of alternatives.", "anchors": ["include/lexertl/rules.hpp:split"]}
{"id": "C49", "title": "Tokenising yields well formed vectors or throws", "statement": "Tokenising any text ends, never leaves the vectors it works on (unless a macro whose insertion failed is used), and either throws or yields vectors BEGIN ... END with balanced parentheses, allowed neighbours, ^ only in front, $ only at the end and non-empty normalised classes.", "quantifier": "all texts of existing characters with numbers below 2^64, all flags, all macros", "why_tests_cant": "All texts.", "anchors": ["include/lexertl/rules.hpp:tokenise", "include/lexertl/parser/tokeniser/re_tokeniser.hpp:next"]}
{"id": "C50", "title": "Calls on a rules object determine the lexer", "statement": "For an object made by any calls of push, push_state, insert_macro, clear and flags, build succeeds or throws for a stated reason, and lookup() on the machine returns what the rules of the object say.", "quantifier": "all such call sequences whose rules have no $ and ^ only at the beginning of words (^a|b is one), 8 and 16 bit characters, all inputs", "why_tests_cant": "End to end over all call sequences and all inputs.", "anchors": ["include/lexertl/rules.hpp:push", "include/lexertl/generator.hpp:build", "include/lexertl/lookup.hpp:lookup"]}
{"id": "C51", "title": "A lexer does what the texts of its rules mean", "statement": "A regular expression text has one meaning, given by the notation alone (characters, escapes, classes, quotes, operators, groups with options, comments, anchors, {-} and {+} between single characters and classes, and macros, which mean what their texts mean). tokenise() yields a token list with that meaning, and a lexer made by pushing such texts returns at every position the longest match among the meanings, the first rule winning ties, skipping and unmatched characters as documented.", "quantifier": "all texts of the notation without abstemious operators, all lists of macros without ^ and $ built on one another, all rule lists, all inputs, 8 and 16 bit characters, and 32 bit characters with classes that slice_range handles (see C29); anchors only ^ at the beginning of words (^a|b is one: ^a at the beginning of a line, b elsewhere)", "why_tests_cant": "All texts and all inputs; composition of tokeniser, parser, generator and lookup.", "anchors": ["include/lexertl/parser/tokeniser/re_tokeniser.hpp:next", "include/lexertl/rules.hpp:insert_macro,process_macro", "include/lexertl/rules.hpp:push", "include/lexertl/generator.hpp:build", "include/lexertl/lookup.hpp:next"]}
{"id": "C52", "title": "Generated C++ lexers behave like lookup()", "statement": "The function that table_based_cpp::generate_cpp writes returns, on every input and from every state, the id, user id, range, start state and stack that lookup() returns for the same machine, with indexes as well as with pointers. The text declares every variable it uses, its numbers denote the table entries, and the names of its arrays are distinct and used as declared.", "quantifier": "all machines built from rules (8 and 16 bit characters), all inputs, results and numbers of calls; with $ only lines ended by \\n, with pointers no $, ^ in all start states or in none, and at most ten start states", "why_tests_cant": "The generated program differs per machine and per set of features; equality with lookup() is needed for all machines and inputs.", "anchors": ["include/lexertl/generate_cpp.hpp:generate_cpp", "include/lexertl/lookup.hpp:next", "include/lexertl/generate_cpp.hpp:dump_tables"]}
{"id": "C53", "title": "Flags that a machine does not need change nothing", "statement": "match_results whose feature flags differ only in features that no rule of the machine uses get the same tokens, positions, states and exceptions from lookup().", "quantifier": "all well formed machines, all machines built from rules, all inputs, all pairs of flag sets", "why_tests_cant": "32 combinations of flags times all machines and inputs; each flag selects different template code.", "anchors": ["include/lexertl/lookup.hpp:next", "include/lexertl/enums.hpp:feature_bit", "include/lexertl/match_results.hpp:recursive_match_results"]}
{"id": "C54", "title": "Abstemious rules give up longer matches, and only they", "statement": "When lookup() returns a token although some rule of the start state matches a longer piece of the input, the rule of the token has an abstemious repeat; and a character is passed over as unmatched only if no rule matches from there on.", "quantifier": "all rules without $ of which no abstemious one matches nothing, all machines built from them, all inputs and results", "why_tests_cant": "The generator drops transitions of the automaton while it is built, depending on the order of positions and on which rule wins; that no transition is lost which some greedy rule needs is a statement about all sets of rules and inputs.", "anchors": ["include/lexertl/generator.hpp:build_dfa", "include/lexertl/parser/tree/leaf_node.hpp:greedy", "include/lexertl/lookup.hpp:next"]}
{"id": "C55", "title": "Tokens of a rule like X L*? Y are the shortest", "statement": "If a rule consists of some characters, one abstemious repeat of a choice of characters, and further characters that the repeat could read as well, for example a C comment, then lookup() never reads on after a match of that rule unless another rule can go on; when no other rule goes on after the opening characters, the token is exactly the shortest text that the rule matches.", "quantifier": "all rules for 8 bit characters without $ of which no abstemious one matches nothing, all machines built from them, all inputs and results", "why_tests_cant": "Which transitions are dropped depends on the order in which positions enter the states of the automaton; that the scan stops at every first match is a statement about all closing sequences, other rules and inputs.", "anchors": ["include/lexertl/generator.hpp:build_dfa", "include/lexertl/generator.hpp:closure_ex", "include/lexertl/parser/parser.hpp:zero_or_more", "include/lexertl/parser/tree/iteration_node.hpp:iteration_node", "include/lexertl/lookup.hpp:next"]}
{"id": "C56", "title": "A dump shows the machine", "statement": "debug::dump of a character machine writes a line for every end state with its ids, next state and stack operation, for every move and for the moves at the ends of lines; if no class needs escaping that debug.hpp gets wrong (no range of two or more characters ends in -, ] or ^; ] comes first; no number is followed by a digit), then the text of a class, read by lexertl's own tokeniser, is exactly that class, and two machines with the same dump have the same states and moves. Every machine built from rules can be dumped.", "quantifier": "all character machines, state names without newlines, char and wchar_t; for building: all rules for 8 bit characters", "why_tests_cant": "Which neighbouring ranges make the text ambiguous depends on all pairs of ranges of all classes; that no two machines share a dump is a statement about all pairs of machines.", "anchors": ["include/lexertl/debug.hpp:dump", "include/lexertl/debug.hpp:dump_ex", "include/lexertl/debug.hpp:dump_charset", "include/lexertl/string_token.hpp:escape_char"]}
{"id": "C57", "title": "A drawing has the states and moves of the machine", "statement": "The DOT text of a character machine declares exactly one kind of node for each state, named after its start state and number, with the id of the rule for accepting states other than the first; it has an edge exactly for every move of a state, labelled with the class, and, when there are several start states, a dashed edge from every accepting state to the first state of the next start state. In drawings of machines built from rules every edge joins declared nodes unless it stands for a return from a pushed start state. A label without escaped characters, read by lexertl's tokeniser, is the class of the move.", "quantifier": "all character machines of char and all state names without newlines; for the ends of edges: all machines built from rules for 8 bit characters", "why_tests_cant": "That no line of the text is an edge that the machine does not have, and that every edge ends in a declared node, are statements about all machines, names and classes.", "anchors": ["include/lexertl/dot.hpp:dump", "include/lexertl/dot.hpp:dump_ex", "include/lexertl/dot.hpp:node_name", "include/lexertl/dot.hpp:dump_ranges"]}
{"id": "C58", "title": "Greedy repeats in abstemious rules are not cut short", "statement": "In the words of a rule, mark every character that begins a round of a greedy repeat (*, +, ?, {n,m}) which the rule could have left out. A token that lookup returns never ends at a place where some rule of the start state matches a longer prefix of the input whose next character is so marked, even if the token's rule is abstemious. The marked words, without their marks, are exactly the words of the rule.", "quantifier": "all rule sets that build and whose abstemious rules do not match the empty text, rules without $, all character sizes, all inputs and positions", "why_tests_cant": "Which transitions survive depends on how the marks of all positions in a state are merged, over all states of all automata and all nestings of the two kinds of repeat.", "anchors": ["include/lexertl/parser/tree/leaf_node.hpp:greedy", "include/lexertl/partition/equivset.hpp:process_greedy", "include/lexertl/parser/parser.hpp:zero_or_more", "include/lexertl/generator.hpp:build_dfa"]}
{"id": "C59", "title": "Lexers with start states do what their rules say", "statement": "For a rules object whose start states are named by push_state and whose rules are pushed as texts for lists of states (or for all of them) with one of the forms '.', name, '>name', '>name:name' and '<', every call of lookup() returns the token described by the texts, the names and a stack of names alone: the longest match among the rules of the present state, the first rule winning ties; skipped tokens; rules without id going on with the same token, also across pops back to a state such a rule pushed; the state and stack afterwards; and an exception exactly when a state is popped from an empty stack.", "quantifier": "all names, macros, rule lists, texts of the notation of C51, inputs, positions, states and stacks", "why_tests_cant": "All combinations of rules, states and stacks; composition of rules, tokeniser, parser, generator and lookup.", "anchors": ["include/lexertl/rules.hpp:push_state,push,check_for_invalid_id", "include/lexertl/generator.hpp:build", "include/lexertl/lookup.hpp:next,pop"]}
{"id": "C60", "title": "Clearing a rules object", "statement": "After clear() a rules object is equal to a newly made one with the default flags (dot_not_newline, whatever flags it was made with): nothing pushed before can influence what is pushed or built later. clear(state) succeeds for every number, takes the rules, texts and feature bits of that state, and leaves the other states, the state names, the macros and the flags as they were.", "quantifier": "all sequences of calls before, all state numbers, also those that do not exist", "why_tests_cant": "All call sequences; eight parallel vectors must be emptied together.", "anchors": ["include/lexertl/rules.hpp:clear"]}
{"id": "C61", "title": "Flags say how texts are read and what is refused, not what is built", "statement": "flags(f) sets the flags and leaves rules, macros and states alone. The flags that build() sees only decide whether it refuses rules that match nothing or rules that can never win: where it succeeds, the machine does not depend on them.", "quantifier": "all rules objects, flags and sizes of characters and ids", "why_tests_cant": "All rule sets; the flags reach the code that numbers states.", "anchors": ["include/lexertl/rules.hpp:flags", "include/lexertl/generator.hpp:build,check_zero_len,check_suppressed,closure_ex"]}
{"id": "C62", "title": "Comments: a lexer with rules like \"/*\"(.|\\n)*?\"*/\" does what its texts say", "statement": "A lexer is made by pushing texts in the notation of C51 and rules for comments, \"open\"BODY*?\"close\", where BODY is one set of characters or a choice of sets that contains the characters of close. No other rule matches a text that begins with the opening text of a comment, and no opening text begins with another one. Then push() accepts the rules, and each call of lookup() returns the first rule with the longest match, where a comment is matched up to the first place where its closing text ends and no further; a comment that is not closed is no match, so shorter tokens are found instead. Comments with the id that is skipped are skipped. The description leaves no choice.", "quantifier": "all rules, opening and closing texts, sets, macros, flags without match_zero_len, and all inputs of 8 bit characters, whatever their length", "why_tests_cant": "All rule sets and inputs; closing texts that overlap themselves, unclosed comments and text that looks like an end need every input.", "anchors": ["include/lexertl/rules.hpp:push,tokenise,split", "include/lexertl/parser/tokeniser/re_tokeniser.hpp:next", "include/lexertl/parser/parser.hpp:sequence,reduce", "include/lexertl/generator.hpp:build,closure", "include/lexertl/lookup.hpp:next"]}
{"id": "C63", "title": "From the texts of the rules to all the tokens, the same by every route", "statement": "For lexers made from texts as in C51 or with comments as in C62, and for every input, there is exactly one list of tokens that the texts of the rules allow. An iterator visits exactly these tokens and ends; replace() writes the input with the text of each of these tokens changed by its format and everything between them copied; both stay the same when the machine is minimised; and the code that generate_cpp writes, called until it returns the id 0, returns these tokens. The tokens lie in order without overlap inside the input, so without a format replace() writes the input unchanged.", "quantifier": "all rule texts, macros and comments as in C51 and C62, all formats, and all inputs whatever their length", "why_tests_cant": "All rule sets and all inputs; four routes through different code have to agree on each of them.", "anchors": ["include/lexertl/iterator.hpp:lookup,operator++", "include/lexertl/replace.hpp:replace", "include/lexertl/state_machine.hpp:minimise", "include/lexertl/generate_cpp.hpp:generate_cpp", "include/lexertl/lookup.hpp:next", "include/lexertl/rules.hpp:push", "include/lexertl/generator.hpp:build"]}
{"id": "C64", "title": "Lexers with rules that end with $ do what their texts say", "statement": "A lexer is made by pushing texts in the notation of C51, with macros, whose words hold $ at most at their end. No rule goes on with a line break (with 16 bits: nor with a character whose upper byte is 10 or 13) where another has its $, and no rule matches a place only. Then push() accepts the rules and each call of lookup() returns the longest match, where a rule matches with its $ only before \\n, before \\r or at the end of the input; of the rules that match up to its end, the first with a $ there comes before the first without; rules with the id that is skipped are skipped, and a character that nothing matches is returned alone. This leaves no choice, so all the tokens are determined: an iterator visits exactly them and replace() changes exactly them, with the machine and with the minimised one; the generated code finds them too, for 8 bit characters, if the input holds no \\r and its last line ends with \\n.", "quantifier": "all such rule texts, macros, flags, and all inputs of 8 or 16 bit characters, whatever their length", "why_tests_cant": "All rule sets and all inputs; the repair of transitions at the end of lines depends on every pair of rules.", "anchors": ["include/lexertl/rules.hpp:push", "include/lexertl/parser/tokeniser/re_tokeniser.hpp:next", "include/lexertl/generator.hpp:build_dfa,fix_clashes", "include/lexertl/lookup.hpp:next", "include/lexertl/iterator.hpp:lookup", "include/lexertl/replace.hpp:replace"]}
{"id": "C65", "title": "memory_file shows the file that was opened last and gives back what it took", "statement": "Whatever objects are opened and closed in whatever order, and whichever system calls fail: data() and size() of an object show exactly the bytes of the file of its last open() (size() counts whole characters), and are null and 0 when that open() failed, found an empty file, or the object was closed; all these bytes are mapped, and no descriptor or page of anybody else is ever closed, unmapped or changed. With characters of one byte, when descriptor 0 is in use and every open() either finds no file or maps it, closing all objects gives back every descriptor and every page. Without these conditions it does not: wide characters leave exactly the pages of the file minus the pages that its number of characters would fill.", "quantifier": "all sequences of open() and close() on any number of objects, all answers of the system, page sizes, file contents and character sizes", "why_tests_cant": "All interleavings and all failing system calls; a lost page or descriptor does not show in the contents.", "anchors": ["include/lexertl/memory_file.hpp:open", "include/lexertl/memory_file.hpp:close"]}
{"id": "C66", "title": "Lexers with start states: from the texts to all the tokens, the same by every route", "statement": "For lexers with start states made from texts as in C59, and for every input, there is exactly one list of tokens that the texts of the rules and the names of the states allow; it ends with the input, or where a rule takes a state from an empty stack. An iterator visits exactly these tokens and ends, or throws there; replace() writes the input with the text of each token changed by its format and everything between them copied, up to a token that the input ends in the middle of, or throws; both stay the same when the machine is minimised; and the code that generate_cpp writes returns the same tokens as long as no state is taken from an empty stack. The tokens lie in order without overlap.", "quantifier": "all rule texts, macros, state names and state changes as in C59, all formats, and all inputs whatever their length", "why_tests_cant": "All rule sets, all inputs and every depth of the stack; four routes through different code have to agree on each of them.", "anchors": ["include/lexertl/iterator.hpp:lookup,operator++", "include/lexertl/replace.hpp:replace", "include/lexertl/state_machine.hpp:minimise", "include/lexertl/generate_cpp.hpp:generate_cpp", "include/lexertl/lookup.hpp:next,push_pop", "include/lexertl/rules.hpp:push,push_state", "include/lexertl/generator.hpp:build"]}
{"id": "C67", "title": "Lexing through the UTF iterators gives the tokens of the decoded text", "statement": "A lookup() or an iteration through any kind of iterators that stand for a list of characters does what it does on the list. In particular, for lexers made from texts as in C51, also with start states as in C59, and every list of code points, iterating over the UTF-8 or UTF-16 encoding through basic_utf8_in_iterator or basic_utf16_in_iterator gives exactly the tokens of the code points and the same exception if one is thrown, for the machine and for the minimised one; each token begins and ends where the encoding of its first character begins and where that of its last one ends, str() gives its code points, and the units it covers are their encoding. A buffer that is not well formed makes the iteration throw a truncated or an invalid sequence error; it never ends as if everything was read, and nothing outside the buffer is read. basic_flip_iterator gives the tokens of the text with the bytes of each character reversed.", "quantifier": "all iterators that represent a list, all rule texts, macros and start states as in C51 and C59, all lists of code points and all buffers whatever their length", "why_tests_cant": "Every position of every text can hold sequences of one to four units, and a rule may end, fail or step back at any of them; malformed sequences can be anywhere.", "anchors": ["include/lexertl/lookup.hpp:next", "include/lexertl/iterator.hpp:lookup,operator++", "include/lexertl/match_results.hpp:str", "include/lexertl/utf_iterators.hpp:basic_utf8_in_iterator,basic_utf16_in_iterator,basic_flip_iterator"]}
{"id": "C68", "title": "Lexing a stream through stream_shared_iterator gives the tokens of its text", "statement": "lookup(), the iterator and str(), run with basic_stream_shared_iterator as the iterator type, are a sequence of constructions, copies, assignments, increments, comparisons and destructions of iterators that share one buffer. For lexers made from texts as in C51, for lexers with start states as in C59, with comments as in C62 and with rules that end with $ as in C64, and every stream that has a character, iterating over the stream gives the ids and the text of exactly the tokens of the stream's characters, and the same exception if one is thrown, whatever the size of the buffer and its increment are, for the machine and the minimised one. Here memcpy in reload() is taken to copy overlapping ranges as memmove does; if that is undefined, the outcome is the same or undefined, and it is undefined for short texts with the default sizes.", "quantifier": "all rule texts, macros, state names and state changes as in C51 and C59, comments as in C62, rules with $ as in C64, all streams with at least one character, all buffer sizes and increments from 1", "why_tests_cant": "Where the buffer is refilled depends on its size, on the length of every token and on how far each match looked ahead; the iterators that lookup() holds at that moment have to be moved together, for every text and every size.", "anchors": ["include/lexertl/stream_shared_iterator.hpp:reload,update_state,operator=,operator++,operator==", "include/lexertl/lookup.hpp:next", "include/lexertl/iterator.hpp:lookup,operator++", "include/lexertl/match_results.hpp:match_results,str"]}
{"id": "C69", "title": "What build() says about rules written as texts", "statement": "For rules made from texts as in C51 and C59, build() always gives an answer, and the answer says something about the texts. It reports that states with no rules are not allowed only if some start state has no rule; it reports that a regex can match zero characters only without match_zero_len and if the empty word is a word of some text; it reports that a regex cannot be matched only without allow_suppressed_rules and if some rule is not the first to match any text in its state; it may throw for too many states; nothing else is thrown and nothing is undefined. If it returns a machine then every state has a rule, without match_zero_len no text has the empty word, and, for characters of one or two bytes and without allow_suppressed_rules, every rule is the first to match some text in its state. Texts to which there is nothing to object always give the same machine (or too many states), and that machine reads every input as the texts say. For the rules of C62, some of which are comments, build() also always answers: comments are never the reason for a refusal for zero characters, a machine without allow_suppressed_rules means that every rule is the first to match some text, and with allow_suppressed_rules and no empty words a lexer comes out (or too many states) that reads every input as C62 says.", "quantifier": "all rule texts, macros, flags, state names and state changes as in C51 and C59, fewer than 2^bits rules; for comments, the rules of C62", "why_tests_cant": "Whether a rule can ever win is a statement about all texts, and it is decided from the states that the subset construction happened to reach, through ids shared by all start states.", "anchors": ["include/lexertl/generator.hpp:build,build_dfa,check_suppressed", "include/lexertl/rules.hpp:push,push_state", "include/lexertl/parser/parser.hpp:parse"]}
{"id": "C70", "title": "Lexers made from texts survive save and load", "statement": "The machine that build() makes of any rules holds only values of the id_type, so save() can write it, and so can it write what minimise() makes of it. For rules written as texts, with start states, with comments, with rules that end with $, or with none of these: whatever surrounds the saved machine in the stream and whatever the machine loaded into held before, load() returns and leaves the stream after the machine, and the loaded machine gives for every input exactly the tokens that the texts say, by iterators, replace(), after minimise() and from generated code; the same for the minimised machine with iterators and replace(). No public call takes a member of the rules object out of its type.", "quantifier": "all rule texts, macros, flags, state names and state changes as in C51, C59, C62 and C64, with fewer distinct character sets than id_type has values and, for characters above 16 bits, sets that are sliced right (C29), all ids and uids of an id_type of 2 to 8 bytes, all inputs, all streams", "why_tests_cant": "Each cell of each table has to be written and read back; a cell that no rule sets and that holds a left over value, or one that does not fit, shows only in machines of a certain shape.", "anchors": ["include/lexertl/serialise.hpp:save,load", "include/lexertl/generator.hpp:build_dfa,closure,create", "include/lexertl/state_machine.hpp:minimise", "include/lexertl/rules.hpp:push,push_state"]}
{"id": "C71", "title": "A match_results object can be used again", "statement": "What lookup() returns depends on the match_results it is given only through second, bol, state and the stack: the id, user id and first of the token before are never read (if it throws, the id and user id are left as they were). reset(start, end) gives the object that the constructor gives for that text, with the stack of a recursive_match_results emptied; a new object has no text, id 0, user id npos and an empty stack. clear() gives the constructor's object at the end of the text, and every lookup() after it reports the end of input there, in start state 0.", "quantifier": "all machines, inputs, flag combinations, character and id types, all match_results and stacks of any depth", "why_tests_cant": "The claim is about every earlier history of the object; a test reuses it after a few particular tokens.", "anchors": ["include/lexertl/match_results.hpp:match_results,clear,reset,length", "include/lexertl/match_results.hpp:recursive_match_results::clear,reset", "include/lexertl/lookup.hpp:next,lookup"]}
