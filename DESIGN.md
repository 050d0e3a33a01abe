# Formal model of TooManySugar/ll1parser in Coq 8.16.1 — design

## 1. What is modelled

Everything under `/repo/pkg` and both programs under `/repo/examples` are modelled function by function. Only Coq's
standard library is used. Every definition of a model file carries a comment citing the Go lines it models.

| Go code | model file | contents |
|---|---|---|
| (runtime) | `Base.v` | byte strings, Go maps as association lists, Go outcomes (`Ok`/`Err`/`Panic`/`NoFuel`), slicing with bounds checks |
| `pkg/bnf/tablegen/byteset` | `ByteSet.v` | the 4x64 bit set, with explicit wrap-around at 2^64; De Bruijn log2, Kernighan count |
| `pkg/cst` | `Cst.v` | nodes, `Walk` with stateful visitors |
| `pkg/parser` | `Parser.v` | operands, stacks, scanner, the parse loop as a step machine, `readSource`, `Parse`, error texts |
| `pkg/parser` with its memory | `SliceMem.v`, `ParserMem.v` | Go slices (arrays, capacity, append, sharing); the whole parser once more on top of them |
| `pkg/parser` with machine integers | `ParserInt.v` | the loop and `Parse` once more with ints of a given number of bits that wrap around |
| io.Readers as sources | `Readers.v` | `io.ReadAll` (Go 1.19) on readers of any behaviour, and `Parse` on top of it |
| `pkg/cst` on any nodes | `WalkAny.v` | `Walk` for arbitrary implementations of `Node` and `Visitor` |
| `pkg/bnf/fromcst` on any nodes | `FromCstAny.v` | `ToAST` for arbitrary implementations of `Node` without effects |
| `pkg/bnf/fromcst`, counting | `FromCstTime.v` | `ToAST` with the number of visits it makes |
| `pkg/bnf/tablegen`, counting | `TableGenTime.v` | `FromGrammar` with the number of rounds of its loops |
| concurrent use of `pkg/parser` | `Concurrent.v` | several `Parse` calls sharing table and naming map, interleaved |
| the same, any parsers | `ConcurrentMany.v` | several `Parse` calls with the same or different tables, naming maps and sources, run by a schedule of turns; which state is about to access its map |
| `pkg/bnf/ast.go` | `Ast.v` | grammar AST and its `String` methods |
| `pkg/bnf/selfgrammar.go` | `SelfGrammar.v` | the literal self grammar |
| `pkg/bnf/tablegen` | `TableGen.v` | FIRST, FOLLOW, table construction, `FromGrammar` |
| `pkg/bnf/tablegen`, its output | `TableGenOutput.v` | the same with the one `fmt.Println` |
| `pkg/bnf/tablegen` with its memory | `TableGenMem.v` | the whole generator once more on slices: grammar, sets and cells are views of arrays |
| `pkg/bnf/fromcst` with its memory | `FromCstMem.v` | ToAST once more on slices: rules, alternatives, symbols and IgnoreNodeTypes are views of arrays, with the memory also when the call fails or panics |
| `pkg/bnf/fromcst` | `FromCst.v` | `lrTraverse`, `ToAST` and the self bindings |
| error texts of `tablegen` and `fromcst` | `Messages.v` | the wording of their errors (`%T` of unknown symbol types is a parameter) |
| the same, access by access | `ParserConc.v` | several `Parse` calls on one memory of operands, nodes and bytes, every read, write, `make` and `append` a step |
| concurrent use of `pkg/bnf/tablegen` | `TableGenConc.v` | several `FromGrammar` calls on one memory, the same way |
| programs that use `parser` | `Histories.v` | maps, sources and parsers as references; the caller may change a map between calls, parsers may share maps; one call at a time (interleavings are in `Concurrent.v`) |
| concurrent use of `pkg/bnf/fromcst` | `ConvertConcurrent.v` | several `ToAST` calls sharing one `IgnoreNodeTypes` slice, sorted in place |
| the same, append by append | `ConvertConc.v` | several `ToAST` calls that build their grammars in one memory |
| `examples/*/main.go` | `Examples.v` | grammar comparison, key listing, and the two programs with standard output, standard error and exit code |
| `examples/json/json.bnf`, `test/testgrammars` | `ExamplesModel.v` | the JSON grammar text, test grammars |
| `test/cst/cst_test.go`, `test/testcommon` | `TestTools.v` | tree printer, map comparison, comparison of readers |
| `test/bnftablegen`, `test/parser` | `GoFmt.v`, `TestFiles.v` | what fmt prints for tables, trees and naming maps; table tests, parser tests and their update, naming map test; `RefTexts.v` holds the reference files byte for byte |
| `test/bnftablegen/*.bin` | `RefTables.v`, `Conformance.v` | the repository's reference tables, and that the model computes them (a test of the model, not a claim) |

Specifications, which the claims are stated with and which do not refer to the algorithms, are in `Spec_*.v`:

| file | specifies |
|---|---|
| `Spec_Messages.v` | decimal notation, bytes and operands as text, error messages |
| `Spec_Histories.v` | histories with calls of Parse left out, what the caller made and wrote, equal answers |
| `Spec_Concurrent.v` | data races, and what calls do alone |
| `Spec_Foreign.v` | operands of neither exported kind and their replacement |
| `Spec_ByteSet.v` | sets of bytes and histories of updates |
| `Spec_Tree.v` | pre-order visits, tiling, leaves, sub-nodes |
| `Spec_Parse.v` | derivations of a table, and rewriting of sentential forms by a table |
| `Spec_Grammar.v` | derivations of a BNF grammar, nullable, FIRST, FOLLOW, LL(1), words of a rule |
| `Spec_Table.v` | what a table for a grammar contains |
| `Spec_Override.v` | grammars that define a name more than once |
| `Spec_Outcome.v` | the faults of a grammar, in the order FromGrammar looks for them |
| `Spec_Convert.v`, `Spec_Reading.v` | bindings with other ignored types; which grammar a tree describes, by inference rules |
| `Spec_Bnf.v` | the documented BNF notation |
| `Spec_Json.v` | the JSON dialect of the example and the keys of a value |
| `Spec_ParseTree.v`, `Spec_Time.v` | parse trees; number of loop iterations |
| `Spec_Viable.v`, `Spec_LeftRec.v`, `Spec_Reorder.v` | prefixes of words; left recursion of tables and grammars; the same grammar written down differently |
| `Spec_Lookup.v`, `Spec_Size.v` | what of its maps a parser looks at; size and depth of trees |
| `Spec_Readers.v` | what it means for an io.Reader to deliver a text, for arbitrary buffers |
| `Spec_Walk.v` | depth-first traversal as a work list |
| `Spec_Sub.v` | moved trees, the same grammar with another first rule, trees with an exchanged sub-tree |
| `Spec_Predict.v` | derivations in which the next byte decides |
| `Spec_Extend.v` | rules that nothing refers to, as hints about FOLLOW sets |
| `Spec_Programs.v` | key listings of any tree, row labels in messages, what the JSON program does on two files |
| `Spec_Printing.v` | grammars with closed names, grammars that print alike |
| `Spec_AnyNode.v` | structures of nodes, the trees they are or look like, nil nodes |
| `Spec_StdJson.v` | standard JSON after json.org, and what separates the example's dialect from it |
| `Spec_Renumber.v` | trees alike up to type numbers, bindings with the same roles, bindings moved along with a rewriting |
| `Spec_Grow.v` | grammars with further alternatives and rules |
| `Spec_Cells.v` | tables with more cells; the errors that report a missing cell |
| `Spec_Stack.v` | the states a running Parse goes through, what waits on its stacks |
| `Spec_GenMem.v` | what a grammar in memory denotes; cells and parts of grammars with arrays of their own |
| `Spec_Mem.v` | what a slice, a table, a source and a tree in memory denote; memory left untouched |
| `Spec_Recode.v` | re-encodings of bytes, tables, sources, errors and grammars |
| `Spec_GenTime.v` | size of a grammar for C97 and the family of slow grammars |
| `Spec_Respell.v` | literals cut into pieces, in grammars, tables and trees (C98) |
| `Spec_Helper.v` | helper rules, trees without their nodes, alternatives of at most two symbols (C100, C101) |
| `Spec_Repeat.v` | rules for repetition, options and lists; the rounds of a repetition node (C102) |
| `Spec_Reduce.v` | grammars without unreachable rules (C103) |
| `Spec_Combine.v` | choice and sequence of two grammars (C104) |
| `Spec_Lead.v` | terminals with the same first byte; alternatives starting with a zero byte (C105) |
| `Spec_Alloc.v` | elements allocated in a heap; steady growth of slices, the growth of Go 1.18 (C106) |
| `Spec_Layout.v` | the tokens of a BNF text, texts with the same tokens (C107) |
| `Spec_SetVars.v` | programs over set variables and their output over mathematical sets (C108) |
| `Spec_Repair.v` | left factoring, removal of left recursion, unfolding of a name, trees without the nodes of the new rule (C109) |
| `Spec_TestFiles.v` | tables and naming maps with the same entries, what a recorded test case wants (C110, C111) |
| `Spec_TableSize.v` | symbols of a grammar, cells and operands of a table, a family of wide grammars (C112) |
| `Spec_ExecuteTests.v` | which names a pattern of `go test -run` selects, the test functions there are (C113) |
| `Spec_GenConc.v` | the array a call is about to access, a race between two calls of FromGrammar (C114) |
| `Spec_ParserConc.v` | the array a call is about to access, a race between two calls of Parse, what the calls are given (C115) |
| `Spec_PipeConc.v` | what a goroutine that builds, parses or does both ends with when alone; races between them (C116) |
| `Spec_ConvertConc.v` | the array a call is about to access, a race between two calls of ToAST, number of nodes of a tree (C117) |
| `Spec_MixConc.v` | races between goroutines that convert, build and parse; the turns of either kind; two memories side by side (C118) |
| `Spec_PipeAll.v` | what goroutines that convert, build and parse end with, and races between them (C119) |
| `Spec_EndConc.v` | what a goroutine has made of a text: a new tree, or an error (C120) |
| `ParserTime.v` | Parse once more with the number of rounds of all its for loops, for C106; proved equal to Parser.v |
| `FromCstDepth.v` | Walk and ToAST once more, with the number of calls of Walk active at the same time (C99) |

The property theorems are in `Props_*.v` and named `Cnn_...`; the other files contain lemmas. A theorem
`Cnn_refuted_...` shows by a concrete witness that a stronger reading of the property is false of the code.

## 2. Plan per property

* C01–C05 (ByteSet): model words as `N` below 2^64; prove bit-level lemmas (`N.testbit`), refine to a
  membership predicate; Bytes/Len by an invariant on the "clear lowest bit" loop; De Bruijn table by a sweep of
  the 64 powers of two (finite domain) lifted to all words.
* C06, C40 (Walk, traversal): structural induction over trees; independent list-of-visits specification.
* C07–C19 (Parse): step machine with fuel; a big-step derivation relation over (table, source) is the
  specification; the run of the machine is related to it by induction on fuel / on derivations. Consequences:
  no panic, unique tree, tiling, leaf texts, errors. NUL findings proved as `_refuted` with witnesses.
* C20: interleaving machine over several parse states sharing the naming map; invariant by induction over schedules.
* C21: fuel bound from the number of set bits still missing.
* C22, C23: invariants (soundness: every bit has a derivation; completeness: fixpoint closed under rules), against
  textbook definitions by sentential-form rewriting in a separate `Spec_Grammar.v`.
* C24–C26, C29–C32: direct analysis of `makeTableRow`.
* C27, C28, C33: relate table derivations to grammar derivations; LL(1) stated in `Spec_Grammar.v`.
* C34–C39: independent inductive specification of the BNF concrete syntax (`Spec_Bnf.v`), equivalence proved both ways.
* C41: sortedness and binary search. C42, C43: instances, by a verified checker evaluated on the literal grammar.
* C44–C46: direct.
* C47, C48: two runs related position by position (a NUL stands for the end of input); conversion depends on spans only.
* C49: composition of C35, C28, C33 and C47.
* C50–C52: JSON dialect specified without reference to json.bnf; equivalence through the words of the grammar that the
  model reads from the literal file; the visitor by induction on values.
* C53: unambiguity from uniqueness of table derivations, then the returned tree as an image of the parse tree.
* C54: potential function over the two stacks; at most (number of rules) expansions between two consumed bytes.
* C55: agreement lemma between every converter function and an inference rule, for arbitrary trees and bindings.
* C56: interleaving machine of the in-place insertion sort; sequential correctness of the sort by loop invariants,
  invariant for sorted slices, ranking function for termination, witness schedule for unsorted ones.
* C57: forms reached by the parser are generated by the grammar (productive: they derive words); errors depend on a prefix only. The general versions need no productivity: they say what an error position is when some form derives no word.
* C58: an infinite run has an infinite run of rewritings at one position, which on finitely many rows repeats a row.
* C59: simulation between the two tables (corresponding cells hold corresponding operands), on derivations and on rewriting.
* C60–C62: induction over trees, over iteration orders, over blocks of the buffer (`Spec_TestTools.v`).
* C63, C64: simulation between the parser with memory and the parser with lists; the invariant keeps the two stacks, the
  arrays of finished children and the caller's arrays apart (an explicit list of owned addresses without repetitions).
* C65: (also for grammars with rules that derive nothing, `TGWords.v`) words in which a chosen non-terminal derives nothing before a chosen byte; the accepting run must leave it out there.
* C66: FIRST sets and rows computed for the two grammars are equal call by call; FOLLOW sets exact by a variant of the C23 proof. `C66_every_word` gives the exact condition for all words, without productivity.
* C67: every step either succeeds or its failure is one of the listed faults; conversely the last round of each fixpoint has looked at every place a fault could be, so success rules all of them out.
* C68: the same functions in a monad with output; erasure lemma, then the invariants of C26 followed up to the first occupied cell.
* C69: the two runs go in lockstep; every non-terminal on the stack is reachable.
* C70: an iteration adds at most two nodes; with C54.
* C71: simulation between the generator with memory and the one with values; the invariant lists the arrays of all cells without repetition.
* C72: simulation between ToAST with memory and with values; the invariant lists the arrays of all finished and unfinished parts without repetition; the in-place sort is described place by place.
* C73: simulation between the loop with wrapping ints and with natural numbers; the invariant (no NUL left to match, offset at most the length) keeps the offset in range. The witness for NUL terminals is by induction on the distance to the largest int.
* C74: induction over the iterations; with C54 for the number of iterations and C26 for the width of generated tables.
* C75: `serves` is an inductive predicate (finitely many calls, arbitrary buffers); induction over it, with the array of
  `ReadAll` and its length as invariant.
* C76: the recursion of `Walk` against a work list; both directions by induction, determinism of the work list for panics and divergence.
* C77: `derives` of the table of `g` on the part of a node is turned into `derives` of the table of the restarted
  grammar on that part alone: in front of the end of the part both tables select the same alternative; at the end the
  old table must have selected the empty cell (a symbol that can start with the next byte takes it), and the end of
  input is in the new FOLLOW set. Acceptance: a conflict of the restarted grammar is one of `g`, because something
  follows every rule that has a node.
* C78: splice of parse trees (`Spec_ParseTree`), then completeness (C65), uniqueness and `collapse` (C53).
* C79: C26 composed with C11 (table derivations and predictive derivations of the grammar are the same, by mutual
  induction); for LL(1) grammars by induction over the parse tree, the empty parts being found as in C65.
* C80: simulation in both directions between rewriting with the table (C11, C19) and the predictive derivation of the grammar.
  C79 and C80 are proved relative to given FOLLOW sets and applied twice: names distinct, and names defined several times (C66).
* C81: grammars read from a BNF text are printable (C38), which excludes most faults of C67; composition of C35/C47
  (reading), C67 (generation) and C79/C80 (parsing).
* C82: derivations from names of the front part stay in it; faults (C67), FOLLOW sets and predictive derivations (C79) are
  monotone in the added rules; hints: completeness (C28) of the longer grammar.
* C83: induction over the bits of a word, as for C02/C03, with the exact number of rounds instead of a sufficient one.
* C84: the two runs are compared step by step (same stacks up to the replaced operands) until one reaches a replaced operand; C07 and C19 for the table with replacements do the rest.
* C85: decimal notation by induction on the digits (unique both ways); byte texts are prefix-free; then case analysis on pairs of errors. That ToAST keeps its sentinels follows from C55.
* C86: two worlds are alike if they differ only in the names -1 and -2 and in sources that have been read; Parse reads no name below 0, so alike worlds give the same answers; induction on the history.
* C87: what a call has reached depends only on the number of its turns (invariant: maps differ from the initial ones at -1 and -2 only, which no call reads); the race theorem constructs the schedule, and conversely reads off the outcome alone from the state before the access.
* C88: stage by stage from C42, C47 (reading the grammar file), C67, C68 (its faults and the printed line), C79, C80 (reading the
  data), C85 (texts); the key listing by induction on the tree; all stages are monotone in the fuel, so exactly one outcome is reached or
  none ever.
* C89: a reader for one symbol (up to the closing bracket or quote) that printed symbols and symbols of the notation have in common; then
  sequences, alternatives, rules and lines by induction on the printed grammar; C47 for texts with byte 0.
* C90: step-by-step comparison of the two runs; rewriting with the smaller table is rewriting with the larger one; determinism and
  monotone positions give how far the larger one gets.
* C91: one relational induction over the whole converter compares two structures level by level (the same structure with more fuel, a
  structure with a tree that looks like it); on trees the general converter equals the modelled one; that a method panic is needed for
  any other panic by a decidable search down to the fuel's depth.
* C92: derivations, FIRST, FOLLOW and conflicts are monotone in the grammar; with C26 every cell of the old table is a cell of the new
  one; then C90. For LL(1): no rule that can be empty starts with what follows it, by induction on the derivation of the first byte.
* C93: standard JSON is defined rule by rule after json.org; one simultaneous induction compares a standard reading and a reading in the
  dialect of the same text (same value, no white space in empty arrays), two more translate readings in both directions; then C50/C51.
* C94: the converter once more with a count of visits (`FromCstTime.v`); erasing the count gives the converter; a traversal costs one
  visit per node plus what its callback costs on disjoint sub-trees, so every level of nesting adds one to the factor.
* C95: every function of the converter gives the same result on alike trees (induction over Walk); names are 1-1 with numbers (C25),
  so moved bindings give corresponding types the same roles; C59 supplies the corresponding tree; the exception 16 by a computed witness.
* C96: one step of Parse commutes with the re-encoding of operands, input and errors (so every run does); for FromGrammar a relation between the two runs (byte sets that correspond, rows that correspond) is carried through every function: first sets, follow sets, rows, table. Witnesses show why 0 and (for operand -2) LF and CR must stay.
* C97: `TableGenTime.v` repeats the generator with a count of loop rounds; erasing the counts gives `TableGen.v`. Upper bound: per round of the two iterations by induction over the grammar, and the number of rounds by the bytes that can still be added (as in C21). Lower bound: in the slow family only one follow set per round can change, because a rule is processed before the one it takes from; the final sets are known from C23.
* C98: simulation. The FIRST and FOLLOW computations are equal for both grammars (only the first byte of a terminal is looked at, and the walk over a sequence passes the extra terminals by); the cells are related by induction over the loops that fill them. Parse: both tables have the same rewriting steps (C11, C19), and a derivation tree of the one is turned into one of the other by induction.
* C99: the functions carry the depth along; erasing it gives back the functions of `Cst.v` and `FromCst.v`. Each search restarts at the node the previous one found, so seven nested searches along a path count six nodes twice. The deep tree is given explicitly and found by C11.
* C100: the version without helpers is the one with them after inlining, a function on symbols; derivations are mapped both ways along it, so FIRST, nullable and FOLLOW of the old rules agree, and a helper has one alternative only. Trees by mutual induction in both directions. The parsers by C53, C57.
* C101: C28 for alternatives of at most two symbols, C100 for the way back. The helpers are found by induction over the number of symbols beyond the second of all alternatives; a new name is a long enough one.
* C102: words by induction over the height of the derivation and over the number of rounds. Trees: by C53 the tree is a parse tree with empty rules cut; a body that can be empty would not be LL(1), so every round takes a byte and the induction is over the bytes left.
* C103: derivations from forms with reachable names only use reachable rules. The rules are found by moving one mentioned rule after the other to the live ones until none is left. Parsers by C29, C79 (predictive derivations, renumbered); C101 for the last part.
* C104: forms over the names of one of the grammars derive the same in the combination, and a derivation from two neighbouring parts is one from each, which gives words, FIRST and FOLLOW of the combination exactly; the generator's four FOLLOW rules by induction both ways. Parsers by C27, C28.
* C105: one simulation for both parts: FIRST and FOLLOW computations are equal call by call, rows agree entry by entry; with equality as the relation between terminals the tables are equal.
* C106: potential argument: every round is paid for by the iteration, an operand that waits or a node that is popped; arrays outgrown by a stack are together at most four times its capacity (steady growth), children arrays are paid for by popped nodes; then C54 for the number of iterations.
* C107: tokens of a text are unique; a text is a grammar in BNF notation exactly when its lines are the tokens of the rules (both directions by induction); with C35 through the API.
* C108: the package again, in a memory of four-word objects with Go's copying of value receivers, parameters and results; simulation by mathematical sets, induction over the program.
* C109: big-step derivations with heights; what the new rule derives is a concatenation of loop words; trees by mutual induction; then C27, C28, C53, C101.
* C110: model of fmt's and strconv's rendering (UTF-8, escapes, sorted maps); a reader for each kind of text shows that the text determines value and end; with C62, C69. The model's texts of the recorded tables are compared with the reference files byte for byte.
* C111: trees by a reader for their text, naming maps by the first blank or bracket; the naming map of the parser is the given one or the extended one throughout (C14); with C08, C61, C62.
* C112: cells from the closed form behind C26, distinct keys by induction over the loops; memory: a potential (five times the capacities of the row so far) pays for every array, and everything before makeTable allocates nothing. Go maps and what Bytes returns are not counted.
* C113: working directories and the outcomes of commands are parameters; a pattern of plain names and bars has one way of being cut at the bars.
* C114: C71's model cut into single memory accesses (a program as a tree of steps); all calls step on one memory. Lock-step relation between a call among others and the same call alone: the same program up to a one-to-one renaming of the addresses of the arrays it made.
* C115: C63's model cut into single memory accesses (a program as a tree of steps); all calls step on one memory. Lock-step relation between a call among others and the same call alone, up to a one-to-one renaming of the addresses of the arrays it made, also inside the nodes it stored; what existed before is only read.
* C116: C114's and C115's programs on one memory, and going from the first to the second with the table that was built. One relation of both kinds between a goroutine among others and the same one alone; the table a goroutine has built stands at different addresses in both, which C115's relation allows.
* C117: ToAST once more as a program of appends (`ConvertConc.v`). A weakest precondition over the slices a call owns says what a call does wherever its arrays are; it is proved along the traversals against FromCst.v. The invariant over schedules: what all calls own, taken together, is held in new arrays, one for each slice.
* C118: The configurations of C116 and C117 on one memory (`MixConc.v`). FromGrammar only reads grammars it can reach from its argument (a predicate on programs, proved function by function), converters only append to arrays of their own, which are new; so the run is the two separate runs side by side, and C116 and C117 apply to each.
* C119: The goroutines of C118 with the stages of one joined (`PipeAll.v`): what comes after ToAST starts in the memory the converters have made so far. Proof: a grammar that ToAST has returned is steady (nobody changes its slices or is about to write to their arrays, at any later time; from the ownership invariant of C117), so a builder reads the same in the memory the converters will have made in the end; hence the run is a run of C117 and a run of C116, which starts in that memory, side by side (`zinv`). Progress: what is left to do is a well-founded tree of steps.
* C120: C119 composed with C35 (the tree of a BNF text is converted to its grammar), C28 and C27 (the generated parser accepts exactly the words, with derivation trees), C33 and C17 (it stops, and more iterations change nothing), C08 (a tree or an error).

## 3. Trusted base

* Coq 8.16.1's kernel (`coqc`, rechecked with `coqchk`), including its bytecode virtual machine: some closed
  computations are done by `vm_compute` (tables of the self grammar and of json.bnf). No native computation, no
  plugins, no extraction, no switched-off checks.
* `Print Assumptions` is run below every property theorem; each prints `Closed under the global context`. No axiom is
  declared, and none of the standard library's is used by any theorem. `coqchk` lists seven constants
  `Coq.ssr.ssrunder.Under_rel.*` (`Under_rel`, `Under_relE`, `Over_rel`, `Under_rel_from_rel`, `over_rel`,
  `over_rel_done`, `under_rel_done`): they are module-type fields of a standard library file that is loaded with `Lia`,
  and no theorem here depends on them.
* The transcription: that the model files say what the Go files say. It is checked in two ways only: by the cited line
  numbers, and by `Conformance.v`, which evaluates the model on the inputs of the repository's own tests and compares
  with the expected values stored there (reference tables, trees, error texts).

### Modelled

All exported functions and methods of `pkg/bnf`, `pkg/bnf/fromcst`, `pkg/bnf/tablegen`, `pkg/bnf/tablegen/byteset`,
`pkg/cst`, `pkg/parser` with all their helpers, including the wording of every error message of the parser, the table
generator and the converter, explicit panics, slice and map panics, nil naming maps, and both example programs.

### Not modelled, and simplifications

* Memory: slices and maps are values, except where sharing is the point (naming map of a parser: C14, C20; IgnoreNodeTypes:
  C56), and except for `pkg/parser`, `pkg/bnf/tablegen` and `pkg/bnf/fromcst`, for which `ParserMem.v`, `TableGenMem.v` and `FromCstMem.v` (and `ByteSetMem.v` for the words of `byteset`: C108) model every slice with array,
  capacity and sharing and C63, C71, C72 prove that the values of `Parser.v`, `TableGen.v` and `FromCst.v` are what that memory holds. Allocation failure and stack overflow are not modelled (so neither is an operand of a caller's type that embeds itself, whose
  `parserOpType` would recurse until the stack is full). The depth of the recursion in `Walk` and
  `lrTraverse` is proved linear (C99), whether Go's growable stack suffices is not modelled.
* Machine integers: positions and node types are unbounded `Z`; C73 proves for the parser that wrapping ints make no difference. In the other packages
  ints are only indices into slices and node types, without arithmetic that could overflow.
  `ByteSet` words do wrap at 2^64. Row numbers are unbounded.
* Loops without a bound (`parse`, FIRST and FOLLOW iterations, `Walk`-free loops of `ByteSet`) are functions with fuel, where
  `NoFuel` means "has not returned yet"; claims say for which inputs some fuel suffices, and for which none does.
* Go's map iteration order is a parameter (a permutation) where it could matter (C32).
* `io.Reader` is the list of chunks it delivers and its final error; C75 proves that `io.ReadAll` concatenates them, and extends this to
  readers of any behaviour. A Read that blocks or keeps its buffer is not modelled.
  `sort.Sort` on ints is insertion sort (the result is unique; for C56 the steps are those of Go 1.19 for at most 12 elements).
* Concurrency is sequentially consistent interleaving of the accesses; a Go data race has fewer guarantees. Where a race
  exists it is stated (C20, C56, C87); C114, C115 and C116 (both mixed) cut `FromGrammar` and `Parse` down to single memory accesses and show
  that there is none, which is when Go promises interleaving.
* `fmt`/`strconv` formatting is modelled for the verbs that occur (`%s`, `%d`, `%02X`, `%c` on bytes ...).
* Example programs: standard output is the list of printed bytes; files are their contents or an error; what the
  operating system does beyond that is not modelled, nor the trace and exit code 2 of a crashed Go program. Writing to standard output
  and standard error is assumed not to fail. The text of the operating system's error for an unreadable file is a parameter.
* Of `/repo/test`, the test functions are modelled with their list of cases as a parameter (C60, C110, C111); the log messages are not
  modelled. For `executetests.go` (C113) what `go test` does is a parameter, and `-run` patterns are of plain names and bars. `strconv.IsPrint` beyond ASCII and the notation of DEL, which differs between releases of Go, are
  parameters of `GoFmt.v`.

## 4. Findings

Proved about the model, each with a witness:

1. FOLLOW is computed from adjacent symbols only: with two adjacent symbols that can be empty, LL(1) grammars are refused or
   words rejected (C23, C28).
2. FIRST/FIRST conflicts and FIRST/FOLLOW conflicts with the empty alternative first are merged silently into one cell (C29).
3. Undefined non-terminals behind a symbol with empty FIRST are not reported (C30).
4. `FromGrammar` panics on the grammar without rules, on empty terminals, on the empty symbol behind a terminal (C31).
5. Left-recursive grammars are accepted and their parser may never return (C33).
6. A NUL byte in the source ends the input: what follows is ignored silently; NULs in terminals match beyond the end (C12, C13, C47).
7. `Parse` writes into the caller's naming map; two successful concurrent calls race on it, and so do a successful one and one that fails at a missing cell (C14, C20, C87); with a nil map a
   successful `Parse` panics (C07). `_nothing` names the end-of-line node type -2 (C18).
8. `ToAST` sorts the caller's `IgnoreNodeTypes` in place; concurrent calls with an unsorted shared slice can lose an
   ignored type for good (C56).
9. Escape sequences are recognised by the fixed node type 16 whatever the bindings say (C46).
10. `ToAST` panics when a node lies outside the text (C45, C55).
11. The tree of a generated parser is not the full parse tree: empty sub-derivations are cut to one `_nothing` node (C53).
12. json.bnf: `[ ]` and tabs are refused, `\u` takes three digits (C50).
13. The comment above the self grammar lists the backslash among the characters of `<symbol>`; the grammar does not have it
    (texts with an unescaped backslash in a literal are refused; `Spec_Bnf.v` follows the grammar).
14. The tests compare result and reference files without looking at the number of bytes read: outputs that differ only by
    bytes left over in the buffer pass (C62).
15. A name defined twice is not reported: the last definition silently counts (C66). On a conflict `FromGrammar` also prints to standard output (C68). Faults that no computed set reaches
    (an empty terminal behind a terminal, any symbol behind a non-terminal that derives nothing) are not reported (C67).
16. Rules that nothing refers to change the parser: they can make it accept words it refused before, and can make
    `FromGrammar` report a conflict; they never change what is a word or remove accepted texts (C82).
17. `Parse` switches on `parserOpType()` and then asserts a concrete type: an operand that is nil, or of a caller's type
    embedding a `ParserOp`, compiles but makes `Parse` panic when (and only when) it is reached (C84; C07 excludes them).
18. The JSON program writes the operands of a contested cell to standard output before its error message, prints two blanks in
    "can't read JSON file:  ", crashes on grammar files with an empty literal behind something else and on trees with a node of
    type 6 of another shape, and never ends for grammar files and data whose derivation never gets stuck (C88).
19. `String` does not check names: a name containing `>` can make the text of a grammar read as a different grammar, with further
    alternatives and rules (C89).
20. A terminal whose first byte is 0 is taken for the empty string by `FromGrammar` (C105).
21. `TestLRecursiveGrammarToParsingTableResErr` can never pass: left-recursive grammars are not refused (C110). The parser tests compare
    naming maps by a text that does not determine the map when names contain blanks (C111).
22. `executetests.go` ends with exit code 0 when tests fail (C113).

## 5. Testing the theorems

`seeded/LOG.jsonl` lists wrong programs: one edit of a model definition each, in a scratch copy. The harness rebuilds the
copy; where a proof breaks it replaces that proof by a marker lemma and goes on, so that at the end it knows every property
theorem that rests on a broken proof. A mutant counts as caught if a theorem of a property that its edit makes false is
among them.
