{"id": "C01", "title": "Buffered source behaves as one cursor over the concatenated buffers", "statement": "Whatever legal sequence of add_buffer, next, advance, empty, final_buffer, prepare_rollback, commit_rollback and cancel_rollback is applied to a ContainerSequenceDataSource, every observation (empty, next, final_buffer) is the one a single cursor over the concatenation of all the buffers added so far would give, where marks are a stack of cursor positions; no iterator is ever dereferenced after its buffer was released.", "quantifier": "every sequence of source operations that respects the preconditions (no advance/next on an empty source, no commit/cancel without a pending mark), every way of cutting the data in buffers, empty buffers included", "why_tests_cant": "the state is buffers x cursor x mark stack x starved-mark counter; the tests exercise a handful of fixed scripts", "anchors": ["include/abulafia/data_source/container_sequence.h: ContainerSequenceDataSource::{add_buffer,next,advance,empty,prepare_rollback,commit_rollback,cancel_rollback,cleanup_rollback_}"]}
{"id": "C02", "title": "Iterator-pair source behaves as a cursor with a stack of marks", "statement": "A SingleForwardDataSource over [b,e) behaves, for every legal operation sequence, as a cursor over the fixed sequence with a stack of marks, and always reports final_buffer() = true.", "quantifier": "every sequence of source operations respecting the preconditions, every range", "why_tests_cant": "unbounded operation histories", "anchors": ["include/abulafia/data_source/single_forward.h: SingleForwardDataSource"]}
{"id": "C03", "title": "Buffers are released exactly when no mark needs them", "statement": "After any legal operation sequence, the buffers a ContainerSequenceDataSource still holds are exactly those that start at the buffer holding the oldest pending mark (at the buffer being read if no mark is pending); in particular a fully read buffer is gone as soon as no mark is pending, and a buffer a mark points into is never dropped.", "quantifier": "every legal operation sequence and every cutting of the data", "why_tests_cant": "a leak or an early release depends on the interleaving of marks, reads and buffer boundaries", "anchors": ["include/abulafia/data_source/container_sequence.h: advance, cleanup_rollback_"]}
{"id": "C04", "title": "The outcome does not depend on how the input is cut", "statement": "Feeding a resumable parser (make_parser) with any cutting of an input in buffers, calling consume() between buffers any number of times, yields in the end the same result, the same destination value, the same action calls and the same reading position as one parse() call over the whole input.", "quantifier": "every pattern built with the library, every destination type and initial value, every user callback, every cutting of every input, every schedule of add_buffer/consume calls up to the first non-PARTIAL result", "why_tests_cant": "the number of cuttings is exponential and any parser can be suspended at any character, at any nesting depth", "anchors": ["include/abulafia/operations/make_parser.h", "include/abulafia/operations/parse.h", "include/abulafia/parsers/coroutine/*"]}
{"id": "C05", "title": "An early answer is valid for every continuation", "statement": "If consume() returns SUCCESS or FAILURE before the final buffer was provided, then parse() over the data provided so far followed by any continuation gives that same answer, destination value and position.", "quantifier": "every pattern, every data fed so far, every continuation", "why_tests_cant": "ranges over all continuations", "anchors": ["include/abulafia/parsers/coroutine/*"]}
{"id": "C06", "title": "After the final buffer, consume() never answers PARTIAL", "statement": "Once a buffer flagged FINAL was provided, the next consume() that returns, returns SUCCESS or FAILURE; parse() over an iterator range never returns PARTIAL.", "quantifier": "every pattern, every state of a suspended parser, every input", "why_tests_cant": "any leaf in any nesting could leak a PARTIAL", "anchors": ["include/abulafia/parsers/coroutine/*", "docs/guide/04_resumable_parsers.md"]}
{"id": "C07", "title": "PARTIAL means starved", "statement": "consume() returns PARTIAL only when every character provided so far has been looked at or marked for re-reading: the source is empty and not final at that moment.", "quantifier": "every pattern, every suspended state, every input", "why_tests_cant": "any nesting of rollbacks could suspend while data is left", "anchors": ["include/abulafia/parsers/coroutine/*"]}
{"id": "C08", "title": "No pattern ever reads past the data or pops a mark that is not there", "statement": "parse() and any session of add_buffer()/consume() calls up to the first non-PARTIAL answer never read or advance a source that is empty and never commit or cancel a rollback when no mark is pending: no undefined behaviour arises in the data sources.", "quantifier": "every pattern (Optional included), every input, every cutting, every point of suspension", "why_tests_cant": "safety of every reachable state", "anchors": ["include/abulafia/parsers/coroutine/*", "include/abulafia/data_source/*"]}
{"id": "C09", "title": "A suspended parser is always resumed in the alternative it was suspended in", "statement": "The internal assumptions stated with abu_assume (the active child of a sequence, alternative, list or except is the one being resumed) hold at every call of consume() made through the public interface, both for resumable and for single-range sources.", "quantifier": "every pattern, every schedule of the public operations up to the first non-PARTIAL answer", "why_tests_cant": "violations are undefined behaviour under NDEBUG and need a particular suspension point", "anchors": ["include/abulafia/parsers/coroutine/nary/sequence.h: consume_from", "include/abulafia/parsers/coroutine/nary/alternative.h: consume_from", "include/abulafia/parsers/coroutine/binary/*", "include/abulafia/support/visit_val.h"]}
{"id": "C10", "title": "A finished parse leaves no pending mark", "statement": "When parse()/consume() answers SUCCESS or FAILURE, no rollback mark prepared by the parser is left on the data source, so a buffered source holds no buffer that is already read.", "quantifier": "every pattern, every input, every cutting", "why_tests_cant": "leaks only show in particular success/failure paths", "anchors": ["include/abulafia/parsers/coroutine/unary/optional.h", "include/abulafia/parsers/coroutine/adapters/clean_failure.h", "include/abulafia/parsers/coroutine/leaf/string_symbol.h"]}
{"id": "C11", "title": "Patterns recognise what their grammar says", "statement": "parse() succeeds on an input, leaving the cursor at a given position, exactly when the parsing-expression-grammar reading of the pattern (ordered choice, greedy bounded repetition, negative look-ahead, difference, separated list, literals, character sets, numbers, longest symbol) does.", "quantifier": "every pattern of the grammar language, recursion included, every input", "why_tests_cant": "unbounded nesting and unbounded inputs", "anchors": ["include/abulafia/patterns/*", "include/abulafia/parsers/coroutine/*", "docs/reference.md"]}
{"id": "C12", "title": "Alternatives are all tried from the same place", "statement": "A | B succeeds as A does when A succeeds, and otherwise behaves as B does from the position where the alternative started, whatever A consumed before it failed.", "quantifier": "all patterns A, B, every input", "why_tests_cant": "needs all rollback paths inside A to be balanced", "anchors": ["include/abulafia/parsers/coroutine/nary/alternative.h", "include/abulafia/parsers/coroutine/adapters/clean_failure.h"]}
{"id": "C13", "title": "A sequence runs its parts one after the other", "statement": "A >> B succeeds exactly when A succeeds and B succeeds from where A stopped, and stops where B stops.", "quantifier": "all patterns A, B, every input", "why_tests_cant": "all inputs and patterns", "anchors": ["include/abulafia/parsers/coroutine/nary/sequence.h"]}
{"id": "C14", "title": "Repetition is greedy and respects its bounds", "statement": "repeat<MIN,MAX>(A) matches A as often as it can, never more than MAX times (if MAX is not 0); it succeeds exactly when at least MIN matches were made and stops just behind the last of them.", "quantifier": "all patterns A, all MIN/MAX, every input", "why_tests_cant": "unbounded number of iterations", "anchors": ["include/abulafia/parsers/coroutine/unary/repeat.h"]}
{"id": "C15", "title": "Look-ahead and difference do not consume", "statement": "!A succeeds exactly when A fails and always leaves the position unchanged; A - B fails when B matches and otherwise behaves as A from the same position.", "quantifier": "all patterns A, B, every input", "why_tests_cant": "all inputs and patterns", "anchors": ["include/abulafia/parsers/coroutine/unary/not.h", "include/abulafia/parsers/coroutine/binary/except.h"]}
{"id": "C16", "title": "A separated list never eats a trailing separator and never fails", "statement": "A % S always succeeds; it matches zero or more A separated by S and stops just behind the last A matched, giving back a separator that is not followed by an A.", "quantifier": "all patterns A, S, every input", "why_tests_cant": "unbounded lists, all failure points of the separator or the element", "anchors": ["include/abulafia/parsers/coroutine/binary/list.h"]}
{"id": "C17", "title": "An optional pattern succeeds always and never disturbs what encloses it", "statement": "-A always succeeds: as A where A matches, at the same position otherwise; composing it with other patterns does not change where those restart after a failure.", "quantifier": "all patterns A and all enclosing patterns, every input", "why_tests_cant": "depends on the enclosing rollback structure", "anchors": ["include/abulafia/parsers/coroutine/unary/optional.h"]}
{"id": "C18", "title": "A pattern asked to fail cleanly gives back everything it read", "statement": "Where the library relies on it (alternatives, repeated operands, the right side of a difference, skippers), a failing pattern leaves the position where it started.", "quantifier": "all patterns, every input", "why_tests_cant": "holds only if every pattern's static claim is true in all failing paths", "anchors": ["include/abulafia/parsers/coroutine/parser_factory.h: AdaptedParserFactory", "include/abulafia/parsers/coroutine/*: FAILS_CLEANLY"]}
{"id": "C19", "title": "A pattern asked to be atomic leaves the destination untouched when it fails", "statement": "An element of a repetition, a list or an optional that fails leaves the destination exactly as it was before the element was tried.", "quantifier": "all patterns, destination types and values, every input", "why_tests_cant": "all failure points inside nested patterns", "anchors": ["include/abulafia/parsers/coroutine/adapters/atomic.h", "include/abulafia/parsers/coroutine/*: ATOMIC"]}
{"id": "C20", "title": "An alternative that fails leaves no trace in the destination", "statement": "After A | B succeeded through B, the destination holds what B alone would have stored.", "quantifier": "all patterns A, B, destinations, inputs", "why_tests_cant": "all partial matches of A", "anchors": ["include/abulafia/parsers/coroutine/nary/alternative.h", "docs/reference.md: Nary Patterns"]}
{"id": "C21", "title": "Validating gives the same answer as parsing to a value", "statement": "parse(b,e,pat) and parse(b,e,pat,dst) give the same Result and stop at the same position, for any destination.", "quantifier": "every pattern, destination type and value, every input", "why_tests_cant": "all patterns and destinations", "anchors": ["include/abulafia/operations/parse.h", "include/abulafia/support/nil.h"]}
{"id": "C22", "title": "Digits have their positional value in every base", "statement": "For every base from 2 to 35 a character is accepted as a digit exactly when it is one of the first BASE of 0-9a-z (upper case equivalent), and its value is its rank.", "quantifier": "every base 2..35, every character of the token type", "why_tests_cant": "bases x characters, wide token types included", "anchors": ["include/abulafia/parsers/helpers/digit_values.h"]}
{"id": "C23", "title": "UInt parses the number that is written", "statement": "UInt<BASE,MIN,MAX> reads the longest run of digits (at most MAX when MAX is not 0), succeeds exactly when it has at least MIN digits and stores its positional value, reduced modulo 2^w for an unsigned w-bit destination.", "quantifier": "every base, bounds, destination width, every input", "why_tests_cant": "unbounded digit strings", "anchors": ["include/abulafia/parsers/coroutine/leaf/numeric/uint.h"]}
{"id": "C24", "title": "Int parses every representable number", "statement": "Int<BASE,MIN,MAX> reads an optional sign and digits like UInt and stores the signed value, without undefined behaviour, for every value the destination type can represent.", "quantifier": "every base, bounds, destination width, every input", "why_tests_cant": "the extreme values of the destination type", "anchors": ["include/abulafia/parsers/coroutine/leaf/numeric/int.h"]}
{"id": "C25", "title": "Formatting then parsing an integer is the identity", "statement": "For every integer z in the destination range, parsing the decimal rendering of z with int_ succeeds, consumes it all and stores z.", "quantifier": "every integer of the destination type, any continuation that does not start with a digit", "why_tests_cant": "all integers", "anchors": ["include/abulafia/parsers/coroutine/leaf/numeric/int.h", "include/abulafia/parsers/helpers/digit_values.h"]}
{"id": "C26", "title": "Symbol tables match their longest entry", "statement": "symbol(map<string,V>) matches the longest key of the map that is a prefix of the input, consumes exactly that key and stores its value; it fails when no key is a prefix.", "quantifier": "every map, every input", "why_tests_cant": "every overlap of keys", "anchors": ["include/abulafia/patterns/leaf/string_symbol.h", "include/abulafia/parsers/coroutine/leaf/string_symbol.h"]}
{"id": "C27", "title": "Character symbols consume the character they match", "statement": "symbol(map<char,V>) matches exactly when the next character is a key, stores its value and consumes the character.", "quantifier": "every map, every input", "why_tests_cant": "every map and input", "anchors": ["include/abulafia/patterns/leaf/char_symbol.h", "include/abulafia/parsers/coroutine/leaf/char_symbol.h"]}
{"id": "C28", "title": "String literals match exactly their text", "statement": "lit(s) succeeds exactly when s is a prefix of the input, consumes s and stores nothing.", "quantifier": "every literal, every input, every destination", "why_tests_cant": "all literals and inputs", "anchors": ["include/abulafia/parsers/coroutine/leaf/string_literal.h"]}
{"id": "C29", "title": "Character sets are the sets they describe", "statement": "any, single, range, set, delegated, ~ and | denote the full set, singleton, interval, the listed characters (without the string terminator), the callback's set, complement and union, for every character code, negative ones included.", "quantifier": "every character of the type, every set expression", "why_tests_cant": "all nested set expressions and characters", "anchors": ["include/abulafia/char_set/*"]}
{"id": "C30", "title": "Sequence elements go to the tuple slot of the same rank", "statement": "When a sequence is parsed into a tuple, the k-th part that emits a value writes to element k and no other part writes to it; parts that emit nothing do not shift the numbering.", "quantifier": "every sequence of emitting and non emitting parts", "why_tests_cant": "every mix of parts", "anchors": ["include/abulafia/parsers/coroutine/nary/sequence.h: choose_tuple_index"]}
{"id": "C31", "title": "Grouping of >> and | does not matter", "statement": "(A op B) op C, A op (B op C) and (A op B) op (C op D) build the same n-ary pattern as A op B op C (op D), for op in {>>, |}.", "quantifier": "all patterns and all ways to parenthesise", "why_tests_cant": "all parenthesisations", "anchors": ["include/abulafia/patterns/nary/nary_pattern.h"]}
{"id": "C32", "title": "discard and validation never touch the destination", "statement": "discard(A) never changes the destination whatever A is and whether it matches; parsing to Nil writes nothing.", "quantifier": "all patterns, destinations, inputs", "why_tests_cant": "all nested writers", "anchors": ["include/abulafia/parsers/coroutine/unary/discard.h", "include/abulafia/support/nil.h"]}
{"id": "C33", "title": "Not does nothing to the destination", "statement": "!A never writes to the destination, whether A matches or not.", "quantifier": "all patterns A, destinations, inputs", "why_tests_cant": "all nested writers", "anchors": ["include/abulafia/parsers/coroutine/unary/not.h", "docs/reference.md: Unary Patterns"]}
{"id": "C34", "title": "An action runs exactly once per match, with the value matched", "statement": "pat[act] calls act exactly when pat succeeds, once per success, in input order, with the value pat alone would have stored, and never when pat fails or is starved.", "quantifier": "all patterns, callbacks, inputs, cuttings", "why_tests_cant": "all suspension points and failures", "anchors": ["include/abulafia/parsers/coroutine/unary/action.h: act_dispatch, ActionImpl::consume"]}
{"id": "C35", "title": "A skipper is applied before every sub-parser", "statement": "Under apply_skipper(A, S) each part of A starts behind everything S* can match, so A recognises an input with skippable text before its parts as it recognises the input without it.", "quantifier": "all patterns A and skippers S, every input", "why_tests_cant": "all skippers, positions and parts", "anchors": ["include/abulafia/parsers/coroutine/adapters/skip.h", "docs/guide/03_skippers.md"]}
{"id": "C36", "title": "lexeme switches the skipper off", "statement": "Inside lexeme(A) the skipper in force is not applied: the result is that of A without skipper from where the skipping in front of lexeme ended.", "quantifier": "all patterns A and skippers", "why_tests_cant": "all nestings", "anchors": ["include/abulafia/parsers/coroutine/unary/lexeme.h"]}
{"id": "C37", "title": "Recur is transparent", "statement": "A Recur pattern behaves as the pattern it was defined with.", "quantifier": "all definitions, inputs, contexts", "why_tests_cant": "all definitions incl. self-reference", "anchors": ["include/abulafia/parsers/coroutine/recur.h", "include/abulafia/patterns/recur.h"]}
{"id": "C38", "title": "Parsing terminates", "statement": "parse(), and every session of a resumable parser, terminates on every input for every pattern whose repeated operands (unless bounded), list elements or separators, and skippers cannot match without consuming a character, judged part by part from the structure of the pattern, and whose recursion comes back to itself only behind something of that kind.", "quantifier": "all such patterns and definitions of recursive patterns, all destinations, every input, every cutting", "why_tests_cant": "termination; unbounded inputs and recursion", "anchors": ["include/abulafia/parsers/coroutine/unary/repeat.h", "include/abulafia/parsers/coroutine/adapters/skip.h", "include/abulafia/parsers/coroutine/recur.h"]}
{"id": "C39", "title": "The bracketed integer list of the README round-trips", "statement": "For every list of ints in range and every amount of white space around the tokens, parsing its rendering with apply_skipper('[' >> int_ % ',' >> ']', char_(\" \\t\\r\\n\")) into a vector<int> succeeds and yields that list, one-shot or fed in any cutting.", "quantifier": "all integer lists, all white space, all cuttings", "why_tests_cant": "unbounded lists and spacing", "anchors": ["README.md", "tests/documentation/test_readme.cpp"]}
{"id": "C40", "title": "Repetition and lists append one element per match, in order", "statement": "repeat/list of an element parser into a collection appends, behind what the collection already held, one element per match in input order.", "quantifier": "all element patterns and collections", "why_tests_cant": "unbounded matches", "anchors": ["include/abulafia/parsers/coroutine/unary/repeat.h", "include/abulafia/parsers/coroutine/binary/list.h", "include/abulafia/dst_wrapper/collection_wrapper.h"]}
{"id": "C41", "title": "An indeterminate value is never handed out", "statement": "On success the value stored in the destination or handed to an action was produced by the parse: no uninitialised buffer is copied.", "quantifier": "all patterns, destinations, inputs", "why_tests_cant": "depends on which leaf wrote the buffer", "anchors": ["include/abulafia/parsers/coroutine/adapters/atomic.h", "include/abulafia/parsers/coroutine/unary/action.h: landing"]}
{"id": "C42", "title": "If it compiles, no type confusion occurs at run time", "statement": "A pattern/destination pair accepted by the library's static rules never attempts an ill-typed store and never meets a parser state of another pattern, for any input.", "quantifier": "all accepted pattern/destination pairs, inputs, cuttings", "why_tests_cant": "all pairs", "anchors": ["README.md: Type safety", "include/abulafia/parsers/coroutine/*"]}
{"id": "C43", "title": "The math example computes the value of the expression", "statement": "examples/math_expression: parsing the rendering of an arithmetic expression stores its value with the usual precedence and left associativity, whatever the spacing.", "quantifier": "all expressions", "why_tests_cant": "unbounded expressions", "anchors": ["examples/math_expression/main.cpp"]}
{"id": "C44", "title": "bind_dst lets actions build a value from left to right", "statement": "bind_dst(p[a] >> *q[b]) with void actions that use p.bound_dst: a works on the destination once p has matched, then b once for every following match of q, in input order, each on what the one before left; if p fails the destination keeps its value.", "quantifier": "all operands, actions, skippers, inputs", "why_tests_cant": "unbounded numbers of matches", "anchors": ["include/abulafia/parsers/coroutine/unary/bind_dst.h", "include/abulafia/parsers/coroutine/unary/action.h", "examples/math_expression/main.cpp"]}
{"id": "C45", "title": "Checked patterns always answer", "statement": "A pattern that passes four checks on its text alone - it fits its destination, every scalar buffer it uses is sure to be filled, numbers go into integers whose arithmetic wraps around, and every repetition and recursive call reads something - answers success or failure on every input, from a parser fed in any pieces too: no crash, no undefined behaviour, no endless loop.", "quantifier": "all such patterns, recursive definitions, skippers, actions, destinations, inputs and cuttings", "why_tests_cant": "unbounded nesting and inputs", "anchors": ["README.md", "include/abulafia/parsers/coroutine/*", "include/abulafia/data_source/*"]}
{"id": "C46", "title": "Collections are only appended to, whatever they held", "statement": "Parsing into a collection that already holds elements keeps them and appends exactly the values that parsing into an empty collection would have put there, with the same answer, place and action calls; provided callbacks given p.bound_dst treat it that way too.", "quantifier": "all patterns, recursive definitions, skippers, inputs, cuttings, prior contents", "why_tests_cant": "unbounded prior contents and inputs", "anchors": ["include/abulafia/dst_wrapper/collection_wrapper.h", "include/abulafia/parsers/coroutine/*"]}
{"id": "C47", "title": "Value destinations are write-only", "statement": "With a destination that is neither a collection nor a tuple, the answer, the place reached and the action calls do not depend on what it held before, and in the end it either still holds that or a value that does not depend on it.", "quantifier": "all patterns that fit and fill their buffers and whose callbacks are not given p.bound_dst; inputs, cuttings, prior values", "why_tests_cant": "all pairs of prior values", "anchors": ["include/abulafia/dst_wrapper/value_wrapper.h", "include/abulafia/parsers/coroutine/leaf/numeric/*", "include/abulafia/parsers/coroutine/*"]}
{"id": "C48", "title": "A stream of items keeps only the data of the item under way", "statement": "A resumable parser for repeat<lo, hi>(item) that waits for more data has completed a certain number of items for good, whatever is fed next; it holds no buffer that lies in them, only those a parser started afresh on the rest of the data would hold. A resumable parser for item % sep likewise holds no buffer that lies in the elements completed so far. A resumable parser for header >> repeat<lo, hi>(item) >> ... holds no buffer that lies in the parts it is through with, nor in the items completed so far.", "quantifier": "all items without Optional, all texts, all ways to cut them into buffers and calls of consume()", "why_tests_cant": "unbounded streams; memory use", "anchors": ["docs/guide/04_resumable_parsers.md:33-35", "include/abulafia/data_source/container_sequence.h", "include/abulafia/parsers/coroutine/unary/repeat.h"]}
{"id": "C49", "title": "Runs of digits split into fields of fixed width", "statement": "*UInt<B, K, K> (parse exactly K digits of base B, from 2 to 35, any number of times) into a vector of integers that can hold K digits appends the value of every complete group of K digits in a row, in order, and stops in front of the first digits that are fewer than K, one-shot or fed in pieces.", "quantifier": "all bases, widths, element types, texts, prior contents, cuttings", "why_tests_cant": "unbounded runs of digits", "anchors": ["docs/guide/02_parsers.md:68", "docs/guide/04_resumable_parsers.md:16", "include/abulafia/parsers/coroutine/leaf/numeric/uint.h", "include/abulafia/parsers/coroutine/unary/repeat.h"]}
{"id": "C50", "title": "Words and the player of the guide", "statement": "Below a skipper of single characters, lexeme(*char_(cs)) reads the word behind the skipped text and stops at its end, whereas *char_(cs) without lexeme runs words together; the guide's player pattern reads first name, last name and score, whatever blanks separate them.", "quantifier": "all character sets, words, blanks, prior contents", "why_tests_cant": "unbounded words and blanks", "anchors": ["docs/guide/03_skippers.md", "include/abulafia/parsers/coroutine/unary/lexeme.h", "include/abulafia/parsers/coroutine/adapters/skip.h"]}
{"id": "C51", "title": "A repeated action transduces characters", "statement": "*char_(cs)[f] into a string appends f of every character of the longest run of characters of cs, in order, and calls f exactly once for each.", "quantifier": "all character types, sets, functions, texts", "why_tests_cant": "unbounded texts; number and order of calls", "anchors": ["docs/guide/05_actions.md", "include/abulafia/parsers/coroutine/unary/action.h"]}
{"id": "C52", "title": "The recursive list of the guide accepts exactly nested lists", "statement": "Validating a text with the guide's recursive pattern int_ | ('(' >> my_recur % ',' >> ')') followed by eoi always answers, and accepts exactly the integers and the parenthesised, comma-separated lists of such texts (empty ones included), with white space between the tokens when below a skipper; one-shot or fed in any pieces.", "quantifier": "all texts, all cuttings", "why_tests_cant": "unbounded nesting and length; rejection of everything else", "anchors": ["docs/guide/06_recursivity.md", "include/abulafia/parsers/coroutine/recur.h", "include/abulafia/parsers/coroutine/binary/list.h"]}
{"id": "C53", "title": "User types are built from their fields", "statement": "The README's rectangle patterns and the guide's pair build the user type from exactly the integers written, in order, whichever of the alternatives fits and whatever the white space.", "quantifier": "all ints, all white space, all text behind", "why_tests_cant": "unbounded spacing; all values", "anchors": ["README.md", "docs/guide/08_working_with_structs.md", "include/abulafia/parsers/coroutine/unary/construct.h"]}
{"id": "C54", "title": "Every pattern can be used to validate", "statement": "Nil is a valid destination for every pattern: parsing or resuming into Nil stores nothing, calls nobody, never has undefined behaviour and, for patterns whose loops consume, always answers, whatever the text.", "quantifier": "all patterns, all texts, all cuttings", "why_tests_cant": "absence of undefined behaviour and endless loops for all texts", "anchors": ["include/abulafia/support/nil.h:18-25", "docs/reference.md", "include/abulafia/parsers/coroutine/*"]}
{"id": "C55", "title": "Rewriting a grammar does not change what it recognises", "statement": "Patterns that the usual laws make equal (associativity, units, factoring, A % s = -(A >> *(s >> A)), -A = A | pass, A - B = !B >> A, +A = A >> *A, !!!A = !A, unfolding of Recur, dropping of discard, actions and as<..>(), ...), applied anywhere in the pattern any number of times, accept the same texts and stop at the same place, with or without a skipper.", "quantifier": "all pairs of patterns related by the laws, all texts", "why_tests_cant": "all contexts, unbounded rewriting", "anchors": ["include/abulafia/parsers/coroutine/*", "include/abulafia/patterns/*"]}
{"id": "C56", "title": "Bounds beyond the length of the text change nothing", "statement": "Bounding every *p, +p and every number without a largest number of digits by a bound larger than the whole text changes nothing that can be observed: same answer, same position, same destination, same action calls, for whole parses and for sessions fed in pieces, finished or not. In particular counting in an int is enough for every text shorter than the largest int.", "quantifier": "all patterns whose loops consume (recursive ones included), all texts, all bounds beyond their length, all call sequences", "why_tests_cant": "texts of any length; counters that would have to overflow", "anchors": ["include/abulafia/parsers/coroutine/unary/repeat.h:49-80", "include/abulafia/parsers/coroutine/leaf/numeric/uint.h:26-58", "include/abulafia/parsers/coroutine/leaf/numeric/int.h:30-81"]}
{"id": "C57", "title": "Where the next character decides, a pattern is a context-free grammar", "statement": "Read as a context-free grammar - alternatives without order, repetitions without greed, Recur as a nonterminal - a pattern has a set of texts. Whatever a parse reads is such a text. Conversely, if in the pattern the next character always decides how to go on, every such text, in front of anything that may follow it, is read completely and no further; so p >> eoi answers whether the text is one of the grammar, at once or in pieces, with or without a skipper. JSON (with integers) written down as a pattern accepts every JSON value, however deep and however spaced.", "quantifier": "all patterns, tables of first and following characters, texts, cuttings", "why_tests_cant": "unbounded texts and nesting; both acceptance and rejection", "anchors": ["include/abulafia/parsers/coroutine/*", "include/abulafia/patterns/*", "docs/guide/06_recursivity.md"]}
{"id": "C58", "title": "What ends up in the object and who is called is determined by the grammar", "statement": "Read as a parsing expression grammar with values - sequences store into the elements of a tuple in order, repetitions and lists append their elements, alternatives store into the object as they go, constructors and callbacks get what their operand read - a pattern determines for every text and every object what the object holds afterwards and which calls are made with which arguments and in which order, on success and on failure. parse() and sessions fed in any pieces do exactly that, with or without a skipper.", "quantifier": "all patterns (recursive ones included) without callbacks on the bound destination, all object types and contents, all texts, all cuttings", "why_tests_cant": "unbounded texts, nesting and containers; order and arguments of all calls; contents after failures", "anchors": ["include/abulafia/parsers/coroutine/*", "include/abulafia/dst_wrapper/*", "docs/guide/*"]}
{"id": "C59", "title": "What is written for a value is read back as that value", "statement": "If the next character always decides how to go on in a pattern, and what is tried in vain leaves no trace in the object, then every text that can be written for a value (as a text of the context-free grammar, with the values its parts stand for) is read completely, leaves exactly that value in the object and makes exactly the calls it stands for, at once or in pieces, with or without a skipper; and no text stands for two values. A JSON reader (with integers) written down as a pattern turns every text of every JSON value, however deep, spaced, escaped and cut, into the object for that value; different values give different objects; every other text is refused. The same holds of JSON with comments, read below a skipper for them.", "quantifier": "all patterns and tables of first and following characters, all objects, values, texts, cuttings; all JSON values", "why_tests_cant": "unbounded texts, nesting and containers; a round trip over all values", "anchors": ["include/abulafia/parsers/coroutine/*", "include/abulafia/dst_wrapper/*", "include/abulafia/patterns/*", "docs/guide/06_recursivity.md"]}
{"id": "C60", "title": "What is seen while waiting depends only on the text so far, and is not taken back", "statement": "After a consume(), answered or not, the answer, the destination and the action calls made depend only on the text provided so far: not on the buffers it came in, nor on where consume() was called before; in particular calling consume() again without data changes nothing. The calls made so far are the first calls of every continuation, and the elements so far in a collection are the first elements it has in the end (if callbacks given p.bound_dst only add to it).", "quantifier": "all patterns, destinations, call sequences, continuations", "why_tests_cant": "all cuttings of all texts, observed at every intermediate point", "anchors": ["include/abulafia/operations/make_parser.h:22-52", "include/abulafia/data_source/container_sequence.h:54-190", "include/abulafia/parsers/coroutine/*"]}
{"id": "C61", "title": "Rewriting a grammar by its laws keeps what is stored and who is called", "statement": "Two patterns that the usual laws make equal (| and >> are associative, pass and fail are units, what was tried before need not be tried again, +p is p >> *p, *p is p >> *p | pass, repeat<n>, -p is p | pass, p - q is !q >> p, a common prefix can be factored out, ... and Recur, bind_dst(), lexeme and discard can be unfolded or merged), applied anywhere in the grammar, give the same answer, leave the same object and make the same calls, in the same order, at once or in pieces, with or without a skipper.", "quantifier": "all patterns, rewritings, objects, texts, cuttings", "why_tests_cant": "all patterns in all contexts and all texts", "anchors": ["include/abulafia/parsers/coroutine/*", "include/abulafia/patterns/*", "include/abulafia/dst_wrapper/*"]}
{"id": "C62", "title": "Parentheses in a pattern expression make no difference", "statement": "Two expressions that differ only in the parentheses around >> and |, anywhere in them, and that both compile, give parsers with the same observable behaviour: same answers, positions, destinations, calls, step by step, for parse() and for parsers fed in pieces. In particular a named part p = a >> b that is used as x >> p >> y gives its parts the elements of the destination one by one, as if it had been written out; only bind_dst() makes it one element.", "quantifier": "all expressions, groupings, destinations, texts, call sequences", "why_tests_cant": "all groupings of expressions of any size", "anchors": ["include/abulafia/patterns/nary/nary_pattern.h:20-75", "include/abulafia/patterns/nary/sequence.h:46-53", "include/abulafia/patterns/nary/alternative.h:46-53", "include/abulafia/patterns/traits.h:37-60"]}
{"id": "C63", "title": "A pattern expression recognises what its operators say", "statement": "What an expression made of characters, strings, character sets, pattern objects and the operators >>, |, %, -, *, +, unary -, !, and the functions repeat, discard, lexeme, bind_dst, and p[..], p.as<..>() recognises is determined operator by operator from what its operands recognise, as it is written: a character or a string used as an operand stands for itself, a set for one of its characters; at once or in pieces, with or without a skipper.", "quantifier": "all expressions, texts, cuttings", "why_tests_cant": "all expressions of any size and all texts", "anchors": ["include/abulafia/patterns/traits.h:37-60", "include/abulafia/patterns/nary/*", "include/abulafia/patterns/unary/*", "include/abulafia/patterns/binary/*", "include/abulafia/patterns/leaf/*"]}
{"id": "C64", "title": "apply_skipper is local to its pattern", "statement": "In a pattern that uses apply_skipper(p, s) as a part, s skipping single characters, only that skipper is applied between the parts of p, only the surrounding one (if any) in front of it and elsewhere, and matching goes on right behind what p has read, the text behind p not skipped by p's skipper; when it does not match, the next alternative is tried where it was tried. At once or in pieces.", "quantifier": "all patterns, skippers of one character, texts, cuttings", "why_tests_cant": "all nestings and texts of any size", "anchors": ["include/abulafia/parsers/coroutine/with_skipper.h", "include/abulafia/patterns/with_skipper.h", "include/abulafia/parsers/coroutine/adapters/skip.h", "docs/guide/03_skippers.md"]}
{"id": "C65", "title": "A pattern expression stores what its operators say", "statement": "What an expression stores and which callbacks it calls is determined operator by operator as it is written. Characters and strings used as operands store nothing; the operands of >>, and those of a named part used as an operand of >>, take the elements of a tuple one by one in the order written, those that store nothing taking none; all others store into one object; elements of *, +, repeat, % and the operand of unary - are stored as one value each, when complete; failing alternatives leave behind what C20 says. At once or in pieces, with or without a skipper.", "quantifier": "all expressions, destinations, texts, cuttings", "why_tests_cant": "all expressions of any size, all destinations and all texts", "anchors": ["include/abulafia/patterns/traits.h:37-60", "include/abulafia/patterns/nary/*", "include/abulafia/patterns/unary/*", "include/abulafia/patterns/binary/*", "include/abulafia/patterns/leaf/*", "include/abulafia/parsers/coroutine/nary/sequence.h:32-65", "include/abulafia/parsers/coroutine/adapters/atomic.h"]}
{"id": "C66", "title": "One mark is left per match of an optional", "statement": "Put a callback on the operand of every unary - of a pattern (its skippers and the recursive patterns it uses included). When parse() or a resumable parser answers, its data source is left with exactly as many pending marks as the callback was called, whatever other operators, failures and retries happened; if it was never called, a buffered source holds no buffer that is already read.", "quantifier": "all patterns, destinations, texts, cuttings", "why_tests_cant": "all nestings of any size; a mark too many or too few shows only in certain paths", "anchors": ["include/abulafia/parsers/coroutine/unary/optional.h", "include/abulafia/parsers/coroutine/adapters/clean_failure.h", "include/abulafia/parsers/coroutine/binary/list.h", "include/abulafia/parsers/coroutine/unary/not.h", "include/abulafia/parsers/coroutine/leaf/string_symbol.h", "include/abulafia/data_source/*"]}
{"id": "C67", "title": "The marks a waiting parser has pending are bounded by its pattern", "statement": "While a resumable parser waits for more, it has at most as many marks pending as can be read off its pattern, however long the text was, plus one for each match of an optional so far. A pattern for which that number is zero (sequences, repetitions and alternatives of single characters, numbers and the like) holds none of the buffers it has read while it waits.", "quantifier": "all patterns without recursion through themselves, destinations, texts, cuttings", "why_tests_cant": "texts of any length; growth shows only in long runs", "anchors": ["include/abulafia/parsers/coroutine/**", "include/abulafia/data_source/container_sequence.h"]}
{"id": "C68", "title": "What callbacks make of the bound destination is determined by the grammar", "statement": "Callbacks given p.bound_dst work on the object of the nearest bind_dst() around them (at the start: the destination of parse()) as the patterns have left it at that moment: what was read before, in particular elements, parts of sequences and the work of earlier callbacks, is in it, what is still being collected apart (the element of a repetition, the operand of a callback or constructor) is not, and what the patterns store later is stored into what the callback has made of it. So a pattern determines for every text and every object what the object holds afterwards and which calls are made, on success and on failure, at once or in pieces, with or without a skipper.", "quantifier": "all patterns (recursive ones included), all callbacks, object types and contents, all texts, all cuttings", "why_tests_cant": "unbounded texts and nesting; interleaving of callbacks and patterns writing to one object", "anchors": ["include/abulafia/parsers/coroutine/unary/action.h", "include/abulafia/parsers/coroutine/unary/bind_dst.h", "include/abulafia/dst_wrapper/*", "examples/math_expression/main.cpp", "tests/patterns/test_bind_dst.cpp"]}
{"id": "C69", "title": "The number of steps is bounded by a power of the length of the text", "statement": "Give parse() a pattern without recursion in which everything that is repeated reads at least one character. However the text looks, the iterator is incremented at most c * (n+1)^d times, where n is the length of the text, d how deep the loops of the pattern are nested (repetitions, lists, numbers, and skipping, which is a loop in front of every part) and c depends on the pattern alone. Loops inside loops whose reading is kept do not count: for *(word % ' ' >> ';') one pass is enough. With recursion there is no such bound: steps can double with every character.", "quantifier": "all patterns, destinations, texts of any length", "why_tests_cant": "the bound is about all texts; the worst ones are long and not those one thinks of", "anchors": ["include/abulafia/parsers/coroutine/**", "include/abulafia/data_source/single_forward.h"]}
{"id": "C70", "title": "Resuming reads nothing twice", "statement": "Feed a text to a resumable parser in any buffers, calling consume() whenever and as often as one likes, and count how often the data source is advanced over all calls together. When the answer comes, the count is exactly that of parse() over the whole text: nothing that was read before a call is read again because of the call, and calls without new data cost nothing. At any time before, the count is at most that; so the bound of the previous property holds for sessions with the same constant, however many pieces there are.", "quantifier": "all patterns (recursive ones included), destinations, texts, cuttings, call sequences", "why_tests_cant": "all cuttings of texts of any length; a parser that starts a part over after each wait gives the same answers", "anchors": ["include/abulafia/parsers/coroutine/**", "include/abulafia/data_source/container_sequence.h", "include/abulafia/operations/make_parser.h"]}
{"id": "C71", "title": "Parsers in one program do not disturb each other", "statement": "Make any number of resumable parsers in one program, of the same pattern or of different ones, feed and call them in any order, and in between write to other objects and call parse() into them. As long as no object is the destination of two of the parsers, or of a parser and of parse() or an assignment, each parser gives the answer, makes the callbacks, leaves the unread data and fills its destination as it does when it is the only one; the other objects hold, and the calls of parse() for each of them answer, what they do when what is done to that object is all there is; and the program runs into undefined behaviour only if one of the parsers or one of the calls would by itself. So it does not matter in which order the parsers and the objects are served.", "quantifier": "all programs of any number of parsers, objects and calls, all patterns (recursive ones and callbacks on the bound destination included), all interleavings", "why_tests_cant": "interleavings are unboundedly many; state kept in the pattern or in a static buffer would show only in some", "anchors": ["include/abulafia/operations/make_parser.h", "include/abulafia/operations/parse.h", "include/abulafia/parsers/coroutine/**", "include/abulafia/context.h"]}
{"id": "C72", "title": "A copy of a resumable parser", "statement": "Copying the object make_parser returned gives a parser of its own: the copy goes on from where the original stood, reads what is fed to the copy's data(), and neither of the two disturbs the other; only the destination object is shared.", "quantifier": "all patterns whose parsers can be copied, all destinations, all calls before the copy, all calls on either afterwards", "why_tests_cant": "no test copies a parser; a copy looks right as long as the original lives, is fed instead of the copy and is not asked itself", "anchors": ["include/abulafia/operations/make_parser.h", "include/abulafia/context.h", "include/abulafia/data_source/container_sequence.h"]}
{"id": "C73", "title": "A primitive parser answers as soon as the text settles it, and not before", "statement": "As long as no final buffer was provided, consume() of a resumable parser for a primitive pattern returns PARTIAL exactly while the text so far leaves the answer open: a literal while all characters fit and some are missing, a number while there are only digits (behind the sign) and fewer than its maximum, a symbol table while some longer entry starts with the text, a single character and eoi while there is none.", "quantifier": "all primitive patterns, tables, bases and digit limits, all destinations, all cuttings of the text and all consume() calls in between", "why_tests_cant": "tests feed a handful of texts at a handful of cuts; an answer one character late or early on a particular table or digit count shows up only with that text cut at that place", "anchors": ["include/abulafia/parsers/coroutine/leaf/string_literal.h", "include/abulafia/parsers/coroutine/leaf/string_symbol.h", "include/abulafia/parsers/coroutine/leaf/numeric/uint.h", "include/abulafia/parsers/coroutine/leaf/numeric/int.h", "docs/guide/04_resumable_parsers.md"]}
{"id": "C74", "title": "A parser answers as soon as the part it is at does", "statement": "As long as no final buffer was provided, consume() of a resumable parser without skipper returns PARTIAL exactly if the text so far settles the answers of all parts in front of some part, whatever text may follow, and leaves the answer of that part open: a sequence waits for the first part that is open, an alternative for the first one not yet known to fail, a repetition or list for the round that is open and never behind its last permitted round, !p, -p and p - q for the pattern they look for, and so on through recursion. An answer given before the end was announced is the answer for every text that starts with what was given.", "quantifier": "all patterns without skipper, with recursion, all destinations, all cuttings of the text and all consume() calls in between", "why_tests_cant": "which part is open depends on the pattern, the text and the place of the cut together; tests fix all three", "anchors": ["include/abulafia/parsers/coroutine/nary/sequence.h", "include/abulafia/parsers/coroutine/nary/alternative.h", "include/abulafia/parsers/coroutine/unary/repeat.h", "include/abulafia/parsers/coroutine/binary/list.h", "include/abulafia/parsers/coroutine/binary/except.h", "docs/guide/04_resumable_parsers.md"]}
{"id": "C75", "title": "Below a skipper, too, a parser answers as soon as the part it is at does", "statement": "As long as no final buffer was provided, consume() of a resumable parser of apply_skipper(p, skp), with a skipper that reads single characters, returns PARTIAL exactly if the text so far settles the answers of all parts in front of some part, whatever text may follow, and that part either has nothing in front of it yet but text to skip, or is open behind it as in C74; inside lexeme nothing is skipped and C74 applies. A part with its answer does not wait for more text to skip. An answer given before the end was announced is the answer for every text that starts with what was given.", "quantifier": "all patterns below a skipper, with recursion and lexeme, all skippers of single characters, all destinations, all cuttings of the text and all consume() calls in between", "why_tests_cant": "blanks may be cut anywhere, in front of and behind every part; tests fix the pattern, the text and the cut", "anchors": ["include/abulafia/parsers/coroutine/adapters/skip.h", "include/abulafia/parsers/coroutine/unary/lexeme.h", "include/abulafia/parsers/coroutine/with_skipper.h", "docs/guide/04_resumable_parsers.md"]}
{"id": "C76", "title": "With skippers inside a pattern a parser waits for text behind what is skipped only where something is skipped", "statement": "As long as no final buffer was provided, consume() of a resumable parser whose pattern has apply_skipper and lexeme anywhere, also within each other, returns PARTIAL exactly if the text so far settles the answers of all parts in front of some part, whatever text may follow, and that part is open: below a skipper it has nothing in front of it but text that this skipper skips, or it is open behind that text; outside of every skipper, and within lexeme, it is open at the text as it stands. In front of lexeme and apply_skipper the skipper around them skips, and behind them no more than that.", "quantifier": "all patterns with skippers of single characters anywhere, recursion and lexeme, all destinations, all cuttings of the text and all consume() calls in between", "why_tests_cant": "skippers and lexeme nest without bound, and blanks may be cut anywhere; tests fix the pattern, the text and the cut", "anchors": ["include/abulafia/parsers/coroutine/adapters/skip.h", "include/abulafia/parsers/coroutine/unary/lexeme.h", "include/abulafia/parsers/coroutine/with_skipper.h", "docs/guide/04_resumable_parsers.md"]}
{"id": "C77", "title": "A resumable parser that is moved", "statement": "Moving the object make_parser returned (into a container, out of a function by std::move) gives a parser that goes on from where the original stood and reads what is fed to its data(); the object it was moved from may be destroyed. What was fed before the move is read behind it.", "quantifier": "all patterns, all destinations, all calls before the move, all calls afterwards", "why_tests_cant": "no test moves a parser; a moved parser looks right as long as the object it was moved from lives and is fed instead, and no rollback point was pending", "anchors": ["include/abulafia/operations/make_parser.h", "include/abulafia/context.h", "include/abulafia/data_source/container_sequence.h"]}
