# Formal model of abulafia: design

Source: FrancoisChabot/abulafia (header-only C++17), read as text in /repo and left unchanged.
Model and proofs: `/verif/rocq/theories`, Coq 8.16.1, standard library only.
Build: `coq_makefile -f _CoqProject -o Makefile && make -j4` in `/verif/rocq` (about four minutes).

## Trusted base

* Coq's kernel (`coqc`, and `coqchk` over the compiled files).
* No axioms: `Print Assumptions` follows every theorem of the `Properties*.v` files and
  prints "Closed under the global context" for each.
* That the model is the code: every definition of the model files cites the file and lines
  it transcribes, and says so where it simplifies.  `Conformance.v` runs the project's own
  tests on the model, as evidence, not proof.
* That the statements say what the English does: the theorems are stated with the small
  `Spec*.v` files, the model's `parse`, `run_session` and data source operations, and a few
  computable checks named below.
* `seeded/LOG.jsonl` records wrong programs tried against the theorems.

## What is modelled

| code (below include/abulafia) | model |
|---|---|
| data_source/single_forward.h, container_sequence.h | `Source.v`: cursors, mark stacks, list of buffers, operation by operation |
| char_set/*, parsers/helpers/digit_values.h | `CharSet.v` |
| dst_wrapper/*, support/nil.h, type_traits.h | `Dst.v`: types, values, conversions, stores, tuple slots |
| patterns/** | `Pattern.v`: all patterns, the n-ary builder, symbol tries, static traits (`ATOMIC`, `FAILS_CLEANLY`, dst_behavior); `Expr.v`: the operators and functions that build patterns, what converts to a pattern |
| parsers/coroutine/**, context.h, result.h, support/assert.h | `Parser.v`: the state of every parser, its constructor (`create`), its `consume`, the three adapters and the rule that selects them |
| operations/parse.h, make_parser.h, parser.h | `Session.v`: `parse`, `run_session` (make_parser, then any calls of add_buffer and consume); `Program.v`: programs with any number of parsers, objects and calls of parse(); `Move.v`: a parser that was moved; `Copy.v`: a parser and a copy of it |

Undefined behaviour is a distinct outcome (`EUb`) of every operation: reading, advancing or
releasing marks where that is not allowed, feeding after the final buffer, signed overflow,
reading an uninitialised scalar, an undefined Recur.  So are "would not compile" (`EType`),
"cannot happen" (`EShape`) and "not finished within the fuel" (`EFuel`).  `consume` is a
fuel-indexed function; no theorem takes running out of fuel for an answer (`reaches`,
`does` and `says` speak of answers that are there from some amount of fuel on).

The machine is written over an abstract record of source operations and instantiated with
the range source, the buffered source, and a reference cursor.  Parsers are data (`pst`) as
the C++ objects are; memory is a list of cells, the user's object being cell 0, buffers of
adapters and actions further cells; destinations are references into cells.

User code (action callbacks, delegated character sets, the definitions of Recur patterns)
is an arbitrary function.

## What is not modelled

Template instantiation, overload resolution and compile errors beyond `EType`; floating
point destinations; exceptions thrown by callbacks; callbacks that touch objects other than
the bound destination; allocation failure; threads; copy and move costs; lifetimes other
than those of buffers and, for moved parsers, of the object moved from (`Move.v`, where the
object moved from is not asked any more).  Repetition and digit
counters are unbounded where the code counts in an `int`; C56 shows that counting further
than the length of the text never matters, so the two agree on texts shorter than the
largest `int`.  The headers config.h,
dst_behavior.h, function_traits.h, variant_utils.h contain compile-time machinery only;
abulafia_all.h is a concatenation of an earlier state of the other headers and not modelled
separately; the one difference in behaviour we found is its Lexeme, which builds the context
of its operand without the bound destination (the model follows unary/lexeme.h).

## Layout

Specifications and model first, proofs below.  The `Properties*.v` files hold the theorems
(by `exact` of a lemma), their `Print Assumptions` and, beside each, an Example that meets
the hypotheses; `_refuted` theorems give a witness where the property is false of the code.

| properties | statement | vocabulary | proofs |
|---|---|---|---|
| C01–C03 data sources | Properties | SpecSource | SourceProofs, SourceHist: both sources refine a cursor with a mark stack; induction over histories |
| C04–C10 resumability, misuse, marks | Properties | SpecSession | Rel (simulation between machines), Safety (invariant: owed marks, shapes), Keep, Limit, Resume and Chunk (a run on part of the input resumed), SessionProofs, SessionThms |
| C11–C18, C36 what is recognised | PropertiesGrammar | SpecPeg (inductive PEG relation `m`), SpecRun | Big, BigMk, BigLeaf, BigSound, BigComplete (big-step relation equivalent to the machine), Leaf, PegSound, PegTerm, Run, Comb, SkipAlone |
| C13, C21, C30–C32, C34, C37 values | PropertiesValues | SpecValue | Blind, BlindThms, Local, LocalThms, Unary, Transparent, Group |
| C22–C29 leaves | PropertiesLeaves | SpecLeaf | Leaf, LeafThms |
| C12, C14–C17, C19, C20, C33, C40 collections | PropertiesCollect | SpecCollect | EvDoes, EvReq, Shape, Fill, Frame, Atomic, Collect, Element, Quiet, Gather |
| C34–C37, C39 skippers, round trip | PropertiesSkip | SpecSkip, SpecText | Under, Pieces, RoundTrip |
| C38 termination | PropertiesTerm | SpecTerm | Term (total correctness by a measure), TermThms |
| C41, C42, C45 types, nothing goes wrong | PropertiesType | SpecType | TypeMem, TypeInv, TypeThms |
| C43, C44 math_expression example | PropertiesMath | SpecMath, SpecFold | Fold, MathDemo, MathThms |
| C46, C47 prior contents | PropertiesGrow | SpecGrow | Grow, GrowThms |
| C48 streams | PropertiesStream | SpecStream | Shift, Stream, SkipFront, StreamThms, StreamList, StreamSeq |
| C49–C53 user guide | PropertiesGuide | SpecGuide | Guide, GuideThms, Nest, NestThms |
| C54, C55 validation, laws | PropertiesLaws | SpecNil, SpecLaws | NilThms, LawsThms |
| C56 bounds not reached | PropertiesCut | SpecCut | Term (the measure argument, for all bounds at once), CutThms |
| C57 context-free reading | PropertiesLang | SpecLang (`lang`, `one_ahead`), LangDemo (JSON) | LangThms (soundness of `m` for `lang`; completeness where the next character decides), LangRun |
| C58 values of a grammar | PropertiesAttr | SpecAttr (`mv`, `simple`, `shaped`) | AttrMem (objects, parts, numbers), AttrSound (`ev` gives `mv`), AttrComplete (`mv` gives `ev`), AttrRun |
| C68 values of a grammar, bound destination included | PropertiesBound | SpecBound (`mb`, `reads`, `tidy`) | BoundMem (two objects and the cells they are in), BoundSound (`ev` gives `mb`), BoundComplete (`mb` gives `ev`), BoundRun |
| C59 values are written and read back | PropertiesWrite | SpecWrite (`wv`, `calm`, `tidy`, `one_ahead_for`), SpecJson (`json`, `jtext`, `jval`) | WriteThms (`wv_written`), WriteRun, JsonDemo, JsonRead |
| C57, C59 with comments | PropertiesSpell | SpecSpell (`spells`, `upcoming`, `begins`), SpecSpellValue (`sv`), SpecJson (`gtext commented`) | SpellThms (`m_spells`, `spells_written`), SpellRun, SpellValueThms (`sv_written`), SpellValueRun, JsonComments (what the skipper for comments takes), JsonCommentsRead |
| C60 what is seen while waiting | PropertiesWait | SpecWait (`session_shows`, `appends`, `starts_with`) | WaitThms |
| C61 rewriting keeps the values | PropertiesValueLaws, PropertiesBoundLaws | SpecValueLaws (`vlaw`) | ValueLaws, BoundLaws |
| C62, C63 pattern expressions | PropertiesExpr | SpecExpr (`regrouped`, `written`) | ExprThms |
| C65 values of expressions | PropertiesExprVal, PropertiesExprBound | SpecExprVal, SpecExprBound (`stores`) | ExprVal, ExprBound |
| C66, C67 marks left, marks pending | PropertiesMarks | SpecMarks (`watched`, `called`, `marks`) | MarkCount, MarkBound |
| C69 number of steps | PropertiesSteps | SpecSteps (`counted`, `plain`, `depth`, `order`, `within`) | Cost, StepsThms, StepsRec |
| C70 steps of a resumed parser | PropertiesResume | SpecResume (`session_counted`, `session_bill`) | Resume (over any source that more data extends), ResumeThms |
| C71 several parsers in one program | PropertiesProgram | SpecProgram (`apart`, `sensible`, `calls_of`, `sees`, `alone`, `deeds`, `by_itself`) | LocalAny (Local for any source), ProgramThms |
| C72 copies of a parser | PropertiesCopy | CopyThms (`asking`, `seen`) | CopyThms |
| C58, C63, C65, C68 as stated are false | PropertiesLeaky | those of C58, C63, C65, C68 | witnesses by derivation and computation |
| C73 primitive parsers answer in time | PropertiesReady | SpecReady | Ready |
| C74 composed parsers answer in time | PropertiesAwait | SpecPeg, SpecReady, SpecAwait | Open, FirstRun, Await |
| C75 the same below a skipper | PropertiesAwaitSkip | SpecPeg, SpecReady, SpecAwait, SpecAwaitSkip | AwaitSkip (and Open, FirstRun, Await) |
| C76 the same with skippers inside | PropertiesAwaitAny | SpecPeg, SpecReady, SpecAwaitSkip, SpecAwaitAny | AwaitAny (and Open, FirstRun, AwaitSkip) |
| C77 moved parsers | PropertiesMove | MoveThms (`through_original`, `sees`) | MoveThms, MoveLoss |
| C64 local skippers | PropertiesSkipLocal | SpecPeg (`m_skipper`), SpecRun | PegSound (`sound_exact`), SkipLocal |

`Demo.v` has patterns used in examples.

## Checks that appear in hypotheses

* `nested` (`mok`, Big.v), `all_nested`: marks are properly nested.  It leaves out Optional
  below something that holds a mark (Optional never releases its mark, C10) and skippers
  that take marks.
* `inclass`, `known` (PropertiesGrammar.v): besides, the leaves whose reading deviates from
  the grammar (C14, C18, C22, C26, C27) are left out, and the character types agree.
* `skipper` (PegSound.v): the skipper begins with single characters: `char_(..)`, `lit(..)` of
  a character, and `discard`, `lexeme` and `|` of such.  Behind these it may have alternatives
  of any length: texts, `>>`, `|`, `*`, `+`, `-` of such that read something, as for comments.
  Skippers that begin with one of these take a mark when they are created and do not work
  in the library (C35).  What such a skipper passes over (`over`, `passes` in SpecPeg.v) is
  proved to be what it matches when it is run on its own (SkipAlone.v).
* `skipper1`, `onechars`, `onechar_skippers`: single characters only (C48, C57, C59).
* `begins`: the characters a skipper can begin with, or more; `one_ahead` is to hold with these taken for blanks (C57, C59 with comments).
* `guarded`, `all_guarded` (SpecTerm.v): repetition and recursion consume something.
* `welltyped` (SpecType.v): the pattern fits the destination; with `strict`, scalar buffers
  are sure to be filled.
* `plain`/`unbound`: no callback is given p.bound_dst.  `storable`, `steady`, `careful`,
  `quiet`, `leaf`: see SpecCollect.v, SpecSkip.v.

Each is a function or small inductive definition on the pattern's text, is met by the
Examples, and where it matters a refutation shows what goes wrong without it.

## How the proofs go

| id | how |
|----|-----|
| C01–C03 | simulation relation preserved by each operation, lifted to all histories by induction; the buffer list is characterised by the oldest mark |
| C04–C05 | induction on fuel over `consume`: a run on a shorter non-final source either finishes equally on every extension or is suspended in a state whose resumption equals the run on the extension |
| C06–C09 | invariant of the machine over the cursor by induction on fuel, transported to the sources by C01/C02 |
| C10 | stack balance; refuted for Optional |
| C11–C18 | the machine is equivalent to a big-step relation, that one to the PEG relation; refuted where the code deviates |
| C13, C19–C21, C30–C37, C40, C44 | frame and locality theorems: a part run in place does what parse() of the part does on an object of its own; laws of the combinators as equivalences |
| C22–C29 | inductions on digit strings, maps, literals, set expressions |
| C38, C45 | measure: input left, rank of the recursion, structure of the pattern |
| C54 | C41, C42 and C45 for the types Nil has |
| C55 | each law by inversion of the grammar semantics, then C11 |
| C56 | one run of the termination argument for all bounds at once, then the resumption lemma of Chunk for sessions |
| C57 | induction on the grammar semantics one way; induction on the derivation with the set of following characters as parameter the other way |
| C58 | refinement both ways: induction on the big-step relation with a place for the object, and induction on the reading with values |
| C59 | induction on the derivation of the text with the object, by C58's reading where the next character decides; JSON by mutual induction on texts and strong induction on their length |
| C57, C59 with comments | the same with places (the text from there on) instead of words, as whether a text is a comment depends on what follows; JSON with comments: what the skipper takes is a gap and conversely, by induction on its loops, then as for JSON, every text read up to what is skipped behind it |
| C60 | induction on the calls: a starved state is the run over the text so far (Chunk), whatever the calls; simulations for calls and collections |
| C61 | induction on the rewriting, inversion of the reading with values (C58, C68) |
| C62 | the builders are associative; induction on the expression |
| C63 | induction on the expression, the reading of a sequence splits as its operands do; C11 |
| C65 | induction on the expression, the elements of a sequence split as its operands do; C58 |
| C66 | marks pending plus marks owed by the parser object minus calls is constant: induction on the steps of consume |
| C67 | the shape of a suspended object, with the requirements it was made under, is an invariant; its marks are counted by induction on it; C66 |
| C69 | accounts per part (per character kept, per match, per failure) by induction on the pattern, as in C38 but over a source with a counter; the accounts are then bounded by powers. The counterexamples are exact counts, by induction on the text |
| C70 | the resumption lemma of Resume is about any source that more data extends; the cursor with a counter is one, so its counter is carried over exactly |
| C71 | a parser in its place among other objects simulates the parser on an object of its own, as for C30 but over any source; invariant over the statements of the program |
| C72 | induction on the calls; witnesses by computation |
| C73 | induction on the fuel over the text left; symbol tables by an invariant of the trie (every node has an entry at or below it) |
| C74 | run on a range whose end is not known; a part that answers there answers the same on every longer complete range (Resume), where the evaluation relation and the grammar apply; then induction on the fuel, stage by stage |
| C75 | as C74, with marks that may lie in front of skipped text; only what is left after skipping matters to the specification; inside lexeme, where no mark is taken, C74 itself |
| C76 | as C75, for all skippers at once; lexeme and apply_skipper change the skipper, and take no mark in front of skipped text |
| C77 | a source that holds no buffer is the same after the move; induction on the calls; one that holds a buffer has lost marks, which the parser moved or not would have to end before it answers (simulation, then C10); witnesses by computation |
| C68 | refinement both ways as for C58, for two objects: the bound one, and the one being collected in when it is separate; callbacks change the first behind the back of the second |
| C64 | the correspondence of C11 with exact end positions where the last part consumes |
| C39, C43, C49–C53 | induction on the data written, using the laws; transport to pieces by C04 |
| C41, C42 | typing invariant of memory and states by induction on fuel, over any source |
| C46, C47 | relational invariant between two runs that differ in the destination |
| C48 | a suspended repetition is a fresh parser for the item on the rest of the data; a suspended list is one above the mark of the list; a suspended sequence is a fresh parser for the part on the rest of the data; skipping in front of either makes no difference, as the first thing in it skips as well |

A property that is false of the code as written gets a `_refuted` theorem with a concrete
witness and the largest true part found as `_partial`; MANIFEST.json says what is missing.
