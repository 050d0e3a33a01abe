{"id": "C01", "title": "ByteSet is a set of bytes", "statement": "After New(values...) followed by any sequence of Add and Remove calls, Contains(b) is true exactly when b is in the mathematical set obtained by starting from the given values and inserting/deleting in the same order; operations on one byte never affect membership of another.", "quantifier": "every list of initial bytes, every history of Add/Remove, every queried byte (all 256)", "why_tests_cant": "Histories are unbounded; a test samples a few of them.", "anchors": ["pkg/bnf/tablegen/byteset/byteset.go: New, Add, Remove, Contains"]}
{"id": "C02", "title": "ByteSet.Len is the cardinality", "statement": "Len() returns the number of distinct bytes in the set (0..256) and its bit-counting loop always ends.", "quantifier": "all 2^256 sets", "why_tests_cant": "2^256 sets cannot be enumerated.", "anchors": ["pkg/bnf/tablegen/byteset/byteset.go: Len, popCount"]}
{"id": "C03", "title": "ByteSet.Bytes enumerates the set in increasing order", "statement": "Bytes() terminates and returns a strictly increasing slice containing exactly the bytes of the set (so the De Bruijn log2 lookup is right for every power of two).", "quantifier": "all 2^256 sets", "why_tests_cant": "2^256 sets cannot be enumerated; a single wrong table slot only shows for sets containing that bit.", "anchors": ["pkg/bnf/tablegen/byteset/byteset.go: Bytes, walkBytes, realBytesF, log2pow2n, lookupTable"]}
{"id": "C04", "title": "ByteSet algebra is extensional", "statement": "Union contains exactly the bytes of either operand; Equal is true exactly when both sets contain the same bytes; IsSubSet / IsSuperSet are true exactly for set inclusion; none of them changes its operands (that part in memory: C108).", "quantifier": "all pairs of sets", "why_tests_cant": "2^512 pairs.", "anchors": ["pkg/bnf/tablegen/byteset/byteset.go: Union, Equal, IsSubSet, IsSuperSet"]}
{"id": "C05", "title": "ByteSet.String format", "statement": "String() of the empty set is \"[]\"; otherwise it is '[' followed by the members in increasing order as two upper-case hex digits separated by single blanks, followed by ']'.", "quantifier": "all sets", "why_tests_cant": "2^256 sets.", "anchors": ["pkg/bnf/tablegen/byteset/byteset.go: String"]}
{"id": "C06", "title": "Walk is a pruned pre-order traversal", "statement": "cst.Walk calls Visit on nodes in pre-order, each node once; the children of a node are visited, left to right and with the visitor Visit returned for that node, exactly when that visitor is non-nil.", "quantifier": "every tree, every visitor (including stateful ones)", "why_tests_cant": "Trees and visitors are unbounded.", "anchors": ["pkg/cst/cst.go: Walk, Visitor, Node"]}
{"id": "C07", "title": "Parse never panics", "statement": "For every table built with the public operand constructors and every non-nil naming map, Parse never panics, whatever the source, table contents (also ill-formed tables) and however long it runs. With a nil naming map, a Parse that would succeed panics.", "quantifier": "every table, naming map, source and number of steps", "why_tests_cant": "Internal stack discipline (pops never exceed pushes) must hold along every run.", "anchors": ["pkg/parser/parser.go: parse, processFunction, processEOS, NewLL1Parser"]}
{"id": "C08", "title": "Parse return contract", "statement": "When Parse returns, either err is nil and tree and naming map are both non-nil, or err is non-nil and tree and naming map are both nil.", "quantifier": "every parser, source and run", "why_tests_cant": "Every return path of every input has to be covered.", "anchors": ["pkg/parser/interface.go: LL1Parser", "pkg/parser/parser.go: Parse, parse, processEOS"]}
{"id": "C09", "title": "CST geometry: children tile their parent", "statement": "In a tree returned by Parse every node has Pos <= End; the children of every node with children tile it without gap or overlap (first starts at Pos, each next starts where the previous ended, last ends at End); the root starts at 0; '_nothing' nodes are empty and have no children.", "quantifier": "every table, source and successful parse, every node of the tree", "why_tests_cant": "Trees are unbounded.", "anchors": ["pkg/parser/parser.go: processFunction, processChar, processTerminal", "pkg/cst/cst.go: Node"]}
{"id": "C10", "title": "CST leaves spell the source", "statement": "In a tree returned by Parse for NUL-free terminals, the '_literal' leaf made for terminal t satisfies source[Pos:End] = t, and concatenating the texts of the '_literal' leaves left to right gives source[0:root.End].", "quantifier": "every table whose terminals are NUL-free, every source, every successful parse", "why_tests_cant": "Trees are unbounded.", "anchors": ["pkg/parser/parser.go: processTerminal, processChar, processFunction"]}
{"id": "C11", "title": "Parse decides table derivability, tree unique", "statement": "Parse succeeds exactly when the table derives a prefix of the source that is followed by end of input: row 0 rewritten by repeatedly replacing a non-terminal by the cell selected by the next source byte and matching terminals byte by byte; the returned tree is the (unique) derivation tree, with one node per non-terminal labelled by its row, one '_literal' per terminal, and a single '_nothing' child for empty cells.", "quantifier": "every table and source", "why_tests_cant": "Unbounded inputs; a test checks a few trees.", "anchors": ["pkg/parser/parser.go: parse, processTableNonTerminal, processTerminal, processFunction, processChar, processEOS"]}
{"id": "C12", "title": "A successful Parse has consumed the whole source", "statement": "If Parse succeeds then root.End equals the length of the source. (True for NUL-free sources and terminals; false in general: a NUL byte in the source counts as end of input, so anything after it is silently ignored.)", "quantifier": "every table and source", "why_tests_cant": "A test that never places a NUL byte cannot see it; must hold for all sources.", "anchors": ["pkg/parser/parser.go: peek, processEOS"]}
{"id": "C13", "title": "Node positions are valid source offsets", "statement": "Every node of a returned tree satisfies 0 <= Pos <= End <= len(source), so slicing the source with them cannot panic. (True when no terminal of the table contains a NUL byte; otherwise NULs are matched beyond the end of the source.)", "quantifier": "every table, source, successful parse and node", "why_tests_cant": "Unbounded inputs.", "anchors": ["pkg/parser/parser.go: peek, next, processChar"]}
{"id": "C14", "title": "Naming map effects and repeatability", "statement": "A successful Parse returns the parser's naming map extended by exactly -1 -> \"_literal\" and -2 -> \"_nothing\" (overwriting user entries for these keys, and writing into the caller's own map); a failing Parse leaves it untouched. Hence any number of Parse calls on one parser, successful or not, in any order, returns the same trees, errors and names as fresh parsers would.", "quantifier": "every parser, every history of Parse calls", "why_tests_cant": "Histories are unbounded.", "anchors": ["pkg/parser/parser.go: processEOS, Parse, NewLL1Parser"]}
{"id": "C15", "title": "Source kinds are equivalent", "statement": "Parse gives the same result for a string, a []byte, a non-nil *bytes.Buffer and an io.Reader delivering the same bytes in any chunking; nil, a nil *bytes.Buffer and any other value are rejected with an error; a reader failing before EOF makes Parse return that error.", "quantifier": "every table, byte sequence, and chunking by the reader", "why_tests_cant": "Chunkings and contents are unbounded.", "anchors": ["pkg/parser/parser.go: readSource, Parse"]}
{"id": "C16", "title": "Unusable tables are rejected before the source is touched", "statement": "If the table is empty or has no row 0, Parse returns the corresponding error for every source (even nil) without reading from an io.Reader and without modifying the naming map.", "quantifier": "every source and naming map", "why_tests_cant": "All sources.", "anchors": ["pkg/parser/parser.go: Parse"]}
{"id": "C17", "title": "Parse is a function: its result is independent of how long it is run, and errors are stable", "statement": "Parse on a given table, naming map and source has at most one result; running it longer never changes it.", "quantifier": "every table, source", "why_tests_cant": "Unbounded runs.", "anchors": ["pkg/parser/parser.go: parse"]}
{"id": "C18", "title": "Built-in end-of-line operand", "statement": "OpNonTerminal(-2) accepts exactly \"\\n\" and \"\\r\\n\", giving a node of type -2 with one resp. two '_literal' children; every other negative non-terminal makes Parse return an error. In the returned naming map this node type is called '_nothing'.", "quantifier": "every table using the built-in operand, every source", "why_tests_cant": "Unbounded inputs.", "anchors": ["pkg/parser/parser.go: processBuiltinNonTerminal, processEOS"]}
{"id": "C19", "title": "Parse errors point at the offending byte", "statement": "When Parse fails on the input, there is a position k such that the parser has matched exactly source[0:k] and the error message names source[k] (NUL at end of input) together with what was expected there: the expected byte, the row whose cell is missing (by its name in the naming map or Unknown_<n>), or end of input.", "quantifier": "every table and source", "why_tests_cant": "Unbounded inputs.", "anchors": ["pkg/parser/parser.go: processTableNonTerminal, processChar, processEOS, charCode"]}
{"id": "C20", "title": "Concurrent Parse calls do not influence each other's results", "statement": "If several Parse calls on one parser are interleaved in any order (steps and map accesses being atomic), each returns the same tree or error as when run alone, and the shared naming map ends up as after running them sequentially. However any two successful calls can reach a point where both are about to write the shared naming map without synchronisation: a data race, for which Go itself promises nothing.", "quantifier": "every number of concurrent calls, every interleaving", "why_tests_cant": "Schedules are unbounded.", "anchors": ["pkg/parser/parser.go: Parse, processEOS, processTableNonTerminal"]}
{"id": "C21", "title": "FromGrammar always terminates", "statement": "FromGrammar returns (or panics, see C31) after finitely many steps for every grammar, recursive or not; the FIRST and FOLLOW iterations take at most a bounded number of rounds.", "quantifier": "every grammar", "why_tests_cant": "Termination is a claim over all grammars.", "anchors": ["pkg/bnf/tablegen/tablegen.go: findFirsts, findFollows, FromGrammar"]}
{"id": "C22", "title": "Predictions use the textbook FIRST sets", "statement": "When FromGrammar succeeds on a well-formed grammar, the FIRST sets behind the table are exactly the textbook ones: byte b is in FIRST(A) iff A =>* b..., and the empty mark is in it iff A =>* empty string.", "quantifier": "every well-formed grammar and rule", "why_tests_cant": "Grammars are unbounded, =>* is unbounded.", "anchors": ["pkg/bnf/tablegen/tablegen.go: sequenceFirsts, substitutuionFirsts, ruleFirsts, findFirsts"]}
{"id": "C23", "title": "FOLLOW sets", "statement": "When FromGrammar succeeds on a well-formed grammar, the FOLLOW sets behind the table are the least sets closed under the four rules quoted in the code's comments; they coincide with the textbook FOLLOW sets when every symbol that follows a non-terminal and can be empty is the last one of its alternative. In general they are neither a superset nor a subset of textbook FOLLOW.", "quantifier": "every well-formed grammar and rule", "why_tests_cant": "Grammars are unbounded.", "anchors": ["pkg/bnf/tablegen/tablegen.go: ruleFollowsInSequence, ruleFollowsInRule, findFollows"]}
{"id": "C24", "title": "Generated tables are closed", "statement": "A table returned by FromGrammar has exactly the rows 0..n-1, one per rule in order; every non-terminal operand in it is one of these rows; so Parse with it never fails with a table error ('no rules for non terminal', unknown built-in, 'prod stack empty', no base entry point).", "quantifier": "every grammar accepted by FromGrammar, every source", "why_tests_cant": "All grammars and sources.", "anchors": ["pkg/bnf/tablegen/tablegen.go: makeTable, makeTableRow, FromGrammar", "pkg/parser/parser.go: processTableNonTerminal, Parse"]}
{"id": "C25", "title": "Row names are the rule heads", "statement": "The naming map returned by FromGrammar has no negative keys, maps i to the head of rule i, and with pairwise distinct heads is a bijection between rows and heads; with a repeated head only the last rule of that name is reachable by name.", "quantifier": "every grammar accepted by FromGrammar", "why_tests_cant": "All grammars.", "anchors": ["pkg/bnf/tablegen/tablegen.go: enumerate, collectRuleHeads, FromGrammar"]}
{"id": "C26", "title": "Contents of table cells", "statement": "In a table returned by FromGrammar the cell of row A and byte b holds exactly the operands of the alternatives of A whose FIRST contains b, one after the other in source order; it is empty but present iff there is none and A has an alternative that can be empty and b is in FOLLOW(A); otherwise it is absent. If at most one alternative qualifies this is the textbook LL(1) table.", "quantifier": "every well-formed grammar, rule and byte", "why_tests_cant": "All grammars.", "anchors": ["pkg/bnf/tablegen/tablegen.go: makeTableRow"]}
{"id": "C27", "title": "Generated parser is sound", "statement": "If the alternatives of every rule have pairwise disjoint FIRST sets, FromGrammar succeeds and Parse accepts a (NUL-free) source, then the source is a word of the grammar and the tree is a derivation tree of it, up to collapsed empty sub-derivations.", "quantifier": "every well-formed grammar with disjoint alternatives, every source", "why_tests_cant": "All grammars and all sources.", "anchors": ["pkg/bnf/tablegen/tablegen.go: FromGrammar", "pkg/parser/parser.go: Parse"]}
{"id": "C28", "title": "Generated parser is complete", "statement": "For every LL(1) grammar whose FOLLOW sets the generator computes correctly for the rules that can be empty (C23), FromGrammar succeeds and Parse accepts every word of the grammar. For LL(1) grammars in general this fails, in two ways, when two adjacent symbols can be empty and a third follows: words are rejected, or the grammar is refused as conflicting.", "quantifier": "every LL(1) grammar, every word of its language", "why_tests_cant": "All grammars and words.", "anchors": ["pkg/bnf/tablegen/tablegen.go: FromGrammar, ruleFollowsInSequence", "pkg/parser/parser.go: Parse"]}
{"id": "C29", "title": "LL(1) conflicts are reported", "statement": "FromGrammar returns an error for every well-formed grammar with an LL(1) conflict. (False: FIRST/FIRST conflicts and FIRST/FOLLOW conflicts whose empty alternative comes first are silently merged into one cell; what is true: an error is returned iff an alternative that can be empty comes after one already occupying a cell of FOLLOW(A).)", "quantifier": "every well-formed grammar", "why_tests_cant": "All grammars.", "anchors": ["pkg/bnf/tablegen/tablegen.go: makeTableRow"]}
{"id": "C30", "title": "Undefined non-terminals are reported", "statement": "FromGrammar returns an error for every grammar using an undefined non-terminal. (True when every rule can start some terminal string; false in general for non-terminals behind a rule with empty FIRST.)", "quantifier": "every grammar", "why_tests_cant": "All grammars.", "anchors": ["pkg/bnf/tablegen/tablegen.go: sequenceFirsts, symbolFirsts, makeTableRow"]}
{"id": "C31", "title": "FromGrammar does not panic", "statement": "FromGrammar never panics on grammars that have a rule, no empty terminal and the empty symbol only as the single symbol of an alternative. Outside it panics: on the grammar without rules, on empty terminals at the start of an alternative, on the empty symbol behind a terminal.", "quantifier": "every grammar", "why_tests_cant": "All grammars.", "anchors": ["pkg/bnf/tablegen/tablegen.go: terminalFirsts, findFollows, makeTableRow"]}
{"id": "C32", "title": "FromGrammar is deterministic", "statement": "Table, names and error returned by FromGrammar do not depend on Go's random map iteration order.", "quantifier": "every grammar, every iteration order of the maps involved", "why_tests_cant": "Iteration orders are chosen by the runtime.", "anchors": ["pkg/bnf/tablegen/tablegen.go: FromGrammar, enumerate"]}
{"id": "C33", "title": "Generated parsers terminate", "statement": "For every LL(1) grammar that FromGrammar accepts, Parse with the generated table terminates on every source (in or out of the language). FromGrammar also accepts left-recursive grammars, and for some of them (every rule of a cycle first selects an alternative that begins with a rule of the cycle) Parse runs forever on every source starting with the byte concerned.", "quantifier": "every LL(1) grammar, every source", "why_tests_cant": "Termination over all sources.", "anchors": ["pkg/bnf/tablegen/tablegen.go: FromGrammar", "pkg/parser/parser.go: parse"]}
{"id": "C34", "title": "Terminal printing is faithful", "statement": "SymbolTerminal.String quotes and escapes its value so that reading the literal back (quotes stripped, escapes \\t \\n \\r \\\" \\\\ replaced) yields the value, for every value; the output contains no raw tab, newline or carriage return and no unescaped delimiter.", "quantifier": "every byte string", "why_tests_cant": "All strings.", "anchors": ["pkg/bnf/ast.go: SymbolTerminal.String"]}
{"id": "C35", "title": "BNF text pipeline implements the documented concrete syntax", "statement": "Parsing a text with the BNF parser (FromGrammar(SelfGrammar())) and converting it with SelfCSTtoASTBindings().ToAST succeeds with grammar g exactly when the text is g written in the documented BNF notation (lines, optional blanks, '::=', '|', '<name>', quoted literals with escapes, \"\" for the empty symbol).", "quantifier": "every text and grammar", "why_tests_cant": "All texts.", "anchors": ["pkg/bnf/fromcst/fromcst.go: ToAST, parseRule, parseSubstitution, parseSequence, parseSymbol, parseTerminalName, parseEscape, SelfCSTtoASTBindings", "pkg/bnf/selfgrammar.go: SelfGrammar", "pkg/parser/parser.go: Parse"]}
{"id": "C36", "title": "Grammar printing round-trips", "statement": "For every printable grammar g (names are letter(letter|digit|-)*, terminals non-empty over the supported characters, no empty rule or alternative list) parsing g.String() with the BNF parser and converting it with ToAST gives back g; hence String is injective on printable grammars.", "quantifier": "every printable grammar", "why_tests_cant": "All grammars.", "anchors": ["pkg/bnf/ast.go: Grammar.String, Rule.String", "pkg/bnf/fromcst/fromcst.go: ToAST", "examples/parseownsyntax/main.go: main"]}
{"id": "C37", "title": "SelfGrammar describes itself", "statement": "FromGrammar(SelfGrammar()) succeeds and the BNF parser reads SelfGrammar().String() back to SelfGrammar(). The example program that checks this prints 'Resulted AST equal to initial', nothing on standard error, and exits with 0.", "quantifier": "the whole pipeline", "why_tests_cant": "It is a closed fact, but the model has to reproduce the whole pipeline exactly; kept as the non-trivial instance of C36.", "anchors": ["pkg/bnf/selfgrammar.go: SelfGrammar", "examples/parseownsyntax/main.go: main"]}
{"id": "C38", "title": "ToAST never fails on trees of the BNF parser", "statement": "For every text accepted by the BNF parser, ToAST with the self bindings and the same text returns a grammar, without error and without panic, and that grammar is printable (C36).", "quantifier": "every accepted text", "why_tests_cant": "All texts.", "anchors": ["pkg/bnf/fromcst/fromcst.go: ToAST"]}
{"id": "C39", "title": "Reading is idempotent up to printing", "statement": "If a text reads as grammar g then g.String() also reads as g: printing is a normal form of BNF texts.", "quantifier": "every BNF text", "why_tests_cant": "All texts.", "anchors": ["pkg/bnf/ast.go: Grammar.String", "pkg/bnf/fromcst/fromcst.go: ToAST"]}
{"id": "C40", "title": "Traversal used by ToAST", "statement": "The tree search used by the converter runs its callback on exactly the outermost nodes of the searched type that are not inside an ignored node, left to right, stops at the first callback error and returns it, and returns nil otherwise.", "quantifier": "every tree, searched type, ignore set, callback", "why_tests_cant": "All trees and callbacks.", "anchors": ["pkg/bnf/fromcst/fromcst.go: lrTraverse, flexVisitor.Visit", "pkg/cst/cst.go: Walk"]}
{"id": "C41", "title": "IgnoreNodeTypes is a set", "statement": "ToAST's result does not depend on the order or multiplicity of IgnoreNodeTypes: a node type is ignored iff it is listed.", "quantifier": "every list of node types, every tree", "why_tests_cant": "All lists: binary search needs the sort.", "anchors": ["pkg/bnf/fromcst/fromcst.go: ToAST, BNFCSTtoASTBindings.lrTraverse"]}
{"id": "C42", "title": "The BNF parser decides the BNF language", "statement": "SelfGrammar is LL(1); the parser generated from it terminates on every source and, on NUL-free sources, accepts exactly the words of SelfGrammar.", "quantifier": "every source", "why_tests_cant": "All sources.", "anchors": ["pkg/bnf/selfgrammar.go: SelfGrammar", "pkg/bnf/tablegen/tablegen.go: FromGrammar", "pkg/parser/parser.go: Parse"]}
{"id": "C43", "title": "The JSON example parser decides its grammar", "statement": "The text examples/json/json.bnf reads as a grammar for which FromGrammar succeeds, and the generated parser terminates on every source and accepts exactly the words of that grammar (NUL-free sources).", "quantifier": "every source", "why_tests_cant": "All sources.", "anchors": ["examples/json/json.bnf", "examples/json/main.go: main"]}
{"id": "C44", "title": "Grammar comparison in the self-syntax example", "statement": "isGrammarsEqual returns true exactly when the two grammars are equal (same rules, alternatives and symbols in the same order).", "quantifier": "all pairs of grammars", "why_tests_cant": "All pairs.", "anchors": ["examples/parseownsyntax/main.go: isGrammarsEqual"]}
{"id": "C45", "title": "ToAST is panic-free when the text covers the tree", "statement": "If every node of the tree satisfies 0 <= Pos <= End <= len(text), ToAST returns (grammar or error) without panicking, for every bindings value.", "quantifier": "every tree, text and bindings", "why_tests_cant": "All trees.", "anchors": ["pkg/bnf/fromcst/fromcst.go: ToAST, nodeName, parseTerminalName"]}
{"id": "C46", "title": "Escape node type of custom bindings", "statement": "The terminal reader recognises escape sequences by the fixed node type 16, not through the bindings: with bindings for a grammar whose escape-sequence rule has another number, escapes are copied verbatim instead of being replaced.", "quantifier": "every bindings value, every terminal node", "why_tests_cant": "All bindings and trees.", "anchors": ["pkg/bnf/fromcst/fromcst.go: parseTerminalName, BNFCSTtoASTBindings"]}
{"id": "C47", "title": "A NUL byte ends the input", "statement": "For a table whose terminals contain no NUL byte, Parse on a source returns the same tree, error and names as on what stands before the first NUL byte of the source. So all statements about NUL-free sources (C27, C35, C38, C42) hold for every source, read up to its first NUL byte; text behind it is silently ignored.", "quantifier": "every table, naming map, source", "why_tests_cant": "Every position of a NUL byte in every source.", "anchors": ["pkg/parser/parser.go: ll1parserScanner, parse", "pkg/bnf/fromcst/fromcst.go: ToAST"]}
{"id": "C48", "title": "ToAST looks at the text only through node spans", "statement": "Two texts that agree on the spans of all nodes of a tree are converted alike (same grammar, same error, same panic), with every bindings value; in particular text behind the end of the tree is irrelevant.", "quantifier": "every bindings value, tree and pair of texts", "why_tests_cant": "All trees and texts.", "anchors": ["pkg/bnf/fromcst/fromcst.go: ToAST, nodeName"]}
{"id": "C49", "title": "From BNF text to parser, end to end", "statement": "For every text in BNF notation describing a well-formed LL(1) grammar with correctly computed FOLLOW sets for the rules that can be empty, the pipeline parse, ToAST, FromGrammar, NewLL1Parser succeeds and the resulting parser terminates on every source and accepts exactly the words of that grammar (up to the first NUL). A parser is obtained from no other text.", "quantifier": "every BNF text, every source", "why_tests_cant": "Two unbounded inputs, a pipeline of four stages.", "anchors": ["pkg/bnf/tablegen/tablegen.go: FromGrammar", "pkg/bnf/fromcst/fromcst.go: ToAST", "pkg/parser/parser.go: Parse", "examples/json/main.go: main"]}
{"id": "C50", "title": "The JSON example accepts its JSON dialect", "statement": "The parser of examples/json accepts exactly the texts of a JSON dialect defined independently of json.bnf (values between optional white space), and no text has two readings. The dialect differs from JSON: \"[ ]\" and tabs are refused, \\u takes three digits.", "quantifier": "every source", "why_tests_cant": "All sources.", "anchors": ["examples/json/json.bnf", "examples/json/main.go: main"]}
{"id": "C51", "title": "The key listing of the JSON example", "statement": "For every accepted text the key visitor never panics and prints exactly the keys of the value, in the order of the text, one per line, indented by two blanks per enclosing object or array.", "quantifier": "every accepted text", "why_tests_cant": "Nesting is unbounded; the visitor indexes children by fixed positions and compares fixed node types.", "anchors": ["examples/json/main.go: keyPrintingVisitor.Visit", "pkg/cst/cst.go: Walk"]}
{"id": "C52", "title": "The JSON example program", "statement": "With json.bnf as grammar file the program terminates without panic for every data file: on a text of the dialect it prints its banner and the key listing and exits with 0 and nothing on standard error; on every other text it prints the first banner line, writes 'ERROR: can't parse JSON text: ' and the parser's error for the offending byte to standard error, and exits with 1. A grammar file that is not BNF, or a missing file, makes it exit with 1 and its message, with nothing on standard output.", "quantifier": "every pair of files", "why_tests_cant": "All file contents.", "anchors": ["examples/json/main.go: main"]}
{"id": "C53", "title": "Generated parsers return the parse tree", "statement": "An LL(1) grammar is unambiguous: a text is a word of it iff it has a parse tree, and then exactly one. When a parser generated from it accepts a (NUL-free) text, the returned tree is that parse tree in which every rule node deriving the empty string is cut down to a single '_nothing' child. (It is not the parse tree itself: empty sub-trees are not spelled out.)", "quantifier": "every well-formed LL(1) grammar accepted by FromGrammar, map iteration order, source kind, text", "why_tests_cant": "ranges over all grammars, all words and all competing parse trees of a word", "anchors": ["pkg/bnf/tablegen/tablegen.go: FromGrammar", "pkg/parser/parser.go: Parse"]}
{"id": "C54", "title": "Generated parsers take linear time", "statement": "For an LL(1) grammar with r rules whose largest alternative has size a (two per symbol plus one per terminal byte), Parse with the generated table returns after at most 3 + r*a*n iterations of its loop on every text of n bytes, in or out of the language.", "quantifier": "every well-formed LL(1) grammar accepted by FromGrammar, every text and naming map", "why_tests_cant": "a worst-case bound over all grammars and all texts, valid and invalid", "anchors": ["pkg/parser/parser.go: parse", "pkg/bnf/tablegen/tablegen.go: FromGrammar"]}
{"id": "C55", "title": "Meaning of ToAST on every tree", "statement": "For every syntax tree, text and bindings (not only trees a parser produced), ToAST returns grammar g exactly when the tree reads as g under the role-by-role rules (outermost nodes of the rule, head, tail, sequence, symbol, terminal and escape types outside ignored nodes, in order), returns error e exactly when e is the error of the first thing in document order that cannot be read, and otherwise panics, which only happens by slicing the text at a node lying outside it.", "quantifier": "every tree, text and Bindings value", "why_tests_cant": "ranges over all trees and all bindings, including trees no parser of the repository builds", "anchors": ["pkg/bnf/fromcst/fromcst.go: ToAST, parseRule, parseSubstitution, parseSequence, parseSymbol, parseTerminalName, parseEscape"]}
{"id": "C56", "title": "ToAST sorts the caller's IgnoreNodeTypes in place", "statement": "A ToAST call on its own leaves the IgnoreNodeTypes slice of the bindings sorted, with the same elements, and returns its grammar; calls one after another do not disturb each other; if the slice is sorted, any number of overlapping calls leave it alone and each returns what it would return alone; every execution ends. If the slice is not sorted, overlapping calls sharing it can permanently lose an ignored type and return a different grammar (refuted by a concrete interleaving).", "quantifier": "every bindings, every number of calls, trees and texts, every interleaving of the comparisons, reads and writes of the sort", "why_tests_cant": "ranges over every schedule; the bad interleavings are rare and the race is silent", "anchors": ["pkg/bnf/fromcst/fromcst.go: ToAST, BNFCSTtoASTBindings.IgnoreNodeTypes, lrTraverse"]}
{"id": "C57", "title": "Errors are detected at the first possible byte", "statement": "A parser generated from an LL(1) grammar (productive rules, FOLLOW computed correctly for the rules that can be empty) that refuses a text names the first byte that no word can have there: what stands before it can be completed to a word of the grammar, no longer prefix of the text can. For every table, the error depends only on the bytes up to the one it is about. The BNF parser and the JSON example parser are instances.", "quantifier": "every such grammar, every text; for the locality part every table", "why_tests_cant": "says that no continuation exists, over all words of the grammar", "anchors": ["pkg/parser/parser.go: parse", "pkg/bnf/tablegen/tablegen.go: FromGrammar"]}
{"id": "C58", "title": "Exactly when Parse returns", "statement": "For every table without NUL in its terminals and every source, Parse returns unless it gets to a row that, before the byte found there, leads back to itself without matching anything; so a table with no such cycle is safe on every source, and so is every parser that FromGrammar makes from a grammar without left recursion, whether LL(1) or not. (With a NUL byte in a terminal, Parse can also run on behind the end of the source for ever.)", "quantifier": "every public table, every source; every grammar without left recursion", "why_tests_cant": "termination on all inputs, and its exact failure condition, cannot be observed by running", "anchors": ["pkg/parser/parser.go: parse, processNonTerminal", "pkg/bnf/tablegen/tablegen.go: FromGrammar"]}
{"id": "C59", "title": "The order of rules and alternatives and the choice of names do not matter", "statement": "If a grammar whose alternatives start with different bytes is written down differently - rules behind the first in another order, alternatives in another order, non-terminals renamed injectively - and FromGrammar accepts both versions, then the two parsers accept the same sources with trees that agree in shape, positions and (renamed) type names, and refuse all others with the same errors (renamed). For grammars without the conflicts FromGrammar looks for, acceptance by FromGrammar does not depend on the order either; with such conflicts it does.", "quantifier": "every pair of such grammars, every source", "why_tests_cant": "relates two runs on all inputs for all grammars and all permutations of them", "anchors": ["pkg/bnf/tablegen/tablegen.go: FromGrammar, makeTable", "pkg/parser/parser.go: Parse"]}
{"id": "C60", "title": "The tree printer of the tests", "statement": "FprintTreeNamed prints one line per node in pre-order - two blanks per level, the name from the map or Unknown_<type>, the text - whenever every node lies inside the text, and panics otherwise; trees returned by Parse (no NUL in terminals) are always printed with the text they came from, and the printout does not depend on the order in which rules and alternatives of the grammar were written.", "quantifier": "every tree, naming map and text; every table and source; every reordering of a grammar", "why_tests_cant": "the repository's test prints one tree", "anchors": ["test/cst/cst_test.go: FprintTreeNamed, namedVisitor", "pkg/cst/cst.go: Walk", "pkg/parser/parser.go: Parse"]}
{"id": "C61", "title": "The map comparison of the tests", "statement": "IsMapsIntStringEqual reports equality exactly for maps with the same entries, and otherwise exactly the entries of either map whose key the other lacks and the keys with different values, whatever the iteration order of Go's maps.", "quantifier": "every two maps, every iteration order of the three loops", "why_tests_cant": "iteration order is random and maps are unbounded", "anchors": ["test/testcommon/testcommon.go: IsMapsIntStringEqual"]}
{"id": "C62", "title": "What the file comparison of the tests proves", "statement": "ReaderContentMustBeEqual on two files or buffers passes exactly if their contents are equal or one is the other plus bytes in the same 4096-byte block that repeat what is left over in the buffer (the byte 4096 positions before, or 0 in the first block); so for contents of equal length it is exact, but different contents can pass (refuted), and equal contents handed out in different pieces can fail (refuted).", "quantifier": "every two contents of any length", "why_tests_cant": "a test helper is itself never tested; its blind spot depends on lengths modulo the block size", "anchors": ["test/testcommon/testcommon.go: ReaderContentMustBeEqual"]}
{"id": "C63", "title": "Parse writes to none of the caller's memory and its tree is final", "statement": "With the table's operand lists, the source bytes and earlier trees living in memory as Go slices that may share arrays and have spare capacity, Parse returns exactly what it would for plain values, leaves every array that existed before the call unchanged (also when it fails, panics or has not returned), and returns a tree made of new arrays no two of whose nodes share one; whatever is parsed or written to older or newer arrays afterwards, the tree stays the same.", "quantifier": "every memory, every table and source in it (any sharing), every growth policy of append, every later sequence of Parse calls and writes", "why_tests_cant": "aliasing bugs show only for particular capacities and sharing patterns, which the runtime chooses", "anchors": ["pkg/parser/parser.go: Parse, parse, processTableNonTerminal, processFunction, ll1parserOpStack, ll1parserProdStack, readSource", "pkg/cst/cst.go: NewNode, Childs"]}
{"id": "C64", "title": "NewParserOpList copies", "statement": "NewParserOpList returns a list holding exactly its arguments, in order; no existing array is written, and later writes to the slice that was passed (or any older array) do not change the list.", "quantifier": "every memory, every argument slice, every growth policy, every later content of older arrays", "why_tests_cant": "ranges over all memories and later writes", "anchors": ["pkg/parser/parser.go: NewParserOpList"]}
{"id": "C65", "title": "Exactly which LL(1) grammars FromGrammar handles", "statement": "For an LL(1) grammar whose rules all derive some string, FromGrammar returns a table whose parser accepts exactly the words of the grammar if and only if the FOLLOW sets it computes (looking only at the symbol next to a non-terminal) miss nothing for the rules that can be empty and put no empty alternative into an occupied cell; given that a table is returned, every word is accepted if and only if nothing is missed. Without the assumption that all rules derive some string the same holds with what follows a rule in derivations of words in place of FOLLOW.", "quantifier": "every well-formed LL(1) grammar with productive rules, every map order, every source", "why_tests_cant": "an equivalence over all grammars and all words", "anchors": ["pkg/bnf/tablegen/tablegen.go: FromGrammar, findFollows", "pkg/parser/parser.go: Parse"]}
{"id": "C66", "title": "A name defined twice: the last definition counts, silently", "statement": "If several rules have the same head, FromGrammar reports nothing and merges nothing: references mean the last definition, the first rule of the grammar stays the start rule; the only possible error is still a conflict (exactly characterised), accepted texts are words of the grammar in which the earlier definitions are set aside under names nothing refers to, and under the LL(1) conditions all of them are accepted; the earlier definitions still take part in the FOLLOW sets.", "quantifier": "every grammar (with any repetition of heads) whose last definitions are well-formed, every map order, every source", "why_tests_cant": "ranges over all grammars and all texts", "anchors": ["pkg/bnf/tablegen/tablegen.go: enumerate, FromGrammar, ruleFollowsInSequence", "pkg/parser/parser.go: Parse"]}
{"id": "C67", "title": "Exactly what FromGrammar does with every grammar", "statement": "For every grammar whose terminals contain no zero byte - with undefined names, misplaced empty symbols, empty terminals or alternatives, unknown symbols, no rules, repeated names - FromGrammar returns, and its outcome is determined by three explicit lists of faults looked for in this order: faults at the possible beginnings of alternatives; faults right behind defined non-terminals, empty alternatives and the empty grammar; conflicts and symbols without operand in alternatives that can start with some byte. It reports (as the stated error or panic) a fault of the first non-empty list; a table is returned iff all three are empty, and then it is the specified one. A 'no rules defined' error always names a name that occurs and has no rule.", "quantifier": "every grammar with terminals free of zero bytes, every map order", "why_tests_cant": "an exact characterisation of acceptance over all grammars", "anchors": ["pkg/bnf/tablegen/tablegen.go: FromGrammar, sequenceFirsts, findFollows, symbolFirsts, ruleFollowsInSequence, makeTable"]}
{"id": "C68", "title": "What FromGrammar writes to standard output", "statement": "FromGrammar prints nothing unless it returns the conflict error; then it prints exactly one line, the operands already stored in the first contested cell (first by rule, then by alternative, then by byte), a cell which is uniquely determined. Printing does not change the result.", "quantifier": "every grammar with terminals free of zero bytes, every map order", "why_tests_cant": "ranges over all grammars; the tests never look at standard output", "anchors": ["pkg/bnf/tablegen/tablegen.go: makeTableRow, FromGrammar"]}
{"id": "C69", "title": "A parser looks at its maps only by lookup, and only where parsing can get to", "statement": "If two tables have the same cells in all rows reachable from row 0, and two naming maps have the same entries, then Parse behaves the same with both on every source: same tree, error, naming, panics and running time; rows that cannot be reached and the way maps are built play no role.", "quantifier": "every pair of tables and naming maps (also hand-made), every source", "why_tests_cant": "ranges over all pairs of tables and all sources", "anchors": ["pkg/parser/parser.go: NewLL1Parser, Parse, processTableNonTerminal"]}
{"id": "C70", "title": "Size of trees", "statement": "A tree returned after k iterations of the parse loop has at most 2(k-1) nodes; for LL(1) grammars the number of nodes, hence also the depth recursion over the tree needs, is linear in the length of the text, with an explicit constant.", "quantifier": "every table and source; every well-formed LL(1) grammar and every text", "why_tests_cant": "a bound over all grammars and texts of any length", "anchors": ["pkg/parser/parser.go: parse, processFunction, processChar", "pkg/cst/cst.go: Walk"]}
{"id": "C71", "title": "FromGrammar overwrites nothing, and its tables own their cells", "statement": "FromGrammar reads its grammar in place: every slice that existed before the call has the same contents afterwards, also when the call fails, panics or is still running. The table it returns lies in memory made by the call; no two cells share an array, so overwriting the operands of a cell or appending to it changes no other cell, and tables of different calls share nothing. A parser using such a table behaves as if the table were a value of its own.", "quantifier": "every grammar in memory (slices sharing arrays in any way), every choice of capacities by append, every map iteration order, every cell and every write to it, every later call of FromGrammar or Parse", "why_tests_cant": "aliasing shows only for particular capacities and histories of appends; a test compares values after one call", "anchors": ["pkg/bnf/tablegen/tablegen.go: FromGrammar, makeTableRow", "pkg/parser/parser.go: Parse"]}
{"id": "C72", "title": "ToAST builds its grammar in new memory", "statement": "ToAST returns a grammar made of memory of its own: the rules, each rule's alternatives and each alternative's symbols lie in arrays made by the call, one each, so appending to one alternative or overwriting it changes no other, and grammars of different calls share nothing. However the call ends, with a grammar, an error or a panic, nothing that existed before it is written, except that the elements of IgnoreNodeTypes are put in ascending order in their own places; neighbouring elements of the same array stay. The grammar can be given to FromGrammar, now or after later calls, with the result of the grammar as a value.", "quantifier": "every tree, text, bindings, slice IgnoreNodeTypes (a view of any array), every choice of capacities by append, every later write to a part and every later call", "why_tests_cant": "aliasing shows only for particular capacities and histories of appends", "anchors": ["pkg/bnf/fromcst/fromcst.go: ToAST, parseRule, parseSubstitution, parseSequence", "pkg/bnf/ast.go: Grammar"]}
{"id": "C73", "title": "Positions do not overflow", "statement": "On every platform, with int of any size that wraps around, Parse returns the same result (tree with all positions, error, naming map) as with unbounded integers: for tables without NUL in their terminals on every source Go can hold, however long it runs; for all tables as long as the loop has done no more iterations than an int can count. (With NUL in a terminal the restriction is needed: matching beyond the end of the source can go on until the offset overflows and Parse panics.)", "quantifier": "every int size, table, naming map, source and number of iterations", "why_tests_cant": "overflow shows only after 2^31 or 2^63 iterations", "anchors": ["pkg/parser/parser.go: ll1parserScanner, processChar, processFunction, parse"]}
{"id": "C74", "title": "Memory of a running Parse", "statement": "After k iterations of its loop Parse holds at most 2 + k*w pending operands and 2k nodes, w being the largest number of operands in a cell or bytes in a terminal (at least 2); for LL(1) grammars both stay linear in the length of the text at every moment, with explicit constants.", "quantifier": "every table, text, moment of the run; every well-formed LL(1) grammar", "why_tests_cant": "a bound over all texts of any length and all moments of a run", "anchors": ["pkg/parser/parser.go: ll1parserOpStack, ll1parserProdStack, parse"]}
{"id": "C75", "title": "Any io.Reader that delivers a text parses like the text", "statement": "If a source of type io.Reader hands over exactly the bytes of a text, in pieces of any sizes (empty ones, single bytes, the last piece together with io.EOF, scribbling over the rest of the buffer), whatever buffers it is called with, then Parse of that reader returns what Parse of the text as a string returns, with the same effect on the naming map. If it ends with another error, Parse returns exactly that error and nil, nil, and leaves the naming map alone; if Read panics, so does Parse, with the same panic and the naming map alone. With an unusable table nothing is read. A reader that never ends keeps Parse from returning, whatever it has delivered. A reader that breaks the contract of Read can make Parse panic.", "quantifier": "all readers (state machines, any buffer sizes chosen by the runtime), all tables, all naming maps", "why_tests_cant": "The ways in which a reader can cut a text into pieces and the buffer sizes of the runtime are unbounded.", "anchors": ["pkg/parser/parser.go: readSource, Parse"]}
{"id": "C76", "title": "Walk on any implementation of Node", "statement": "For every implementation of Node and Visitor (children computed on the fly, cyclic structures, nil nodes, visitors that overwrite the children of a node while it is walked, panicking methods), Walk makes exactly the calls of a depth-first, left-to-right work list: it returns, panics or runs forever exactly when the work list becomes empty, panics or never does, and leaves the same memory. On a nil node Visit is called, and Walk panics unless Visit answers nil. On finite trees built with NewNode it is the traversal of C06.", "quantifier": "all node and visitor types, all memories", "why_tests_cant": "Node and Visitor are interfaces: their implementations cannot be enumerated.", "anchors": ["pkg/cst/cst.go: Node, Visitor, Walk"]}
{"id": "C77", "title": "A part of a text, parsed on its own, gives the same sub-tree", "statement": "Take a grammar accepted by FromGrammar whose alternatives start differently, a tree returned by Parse and any node of it that belongs to a rule. FromGrammar also accepts the grammar with this rule put first, and Parse with that table reads exactly the text of the node (from Pos to End) and returns the same sub-tree: same names, same shape, positions counted from the first byte of the node. So what a tree says about a part of the text does not depend on what stands around it. For a rule that occurs in no tree the first half can fail.", "quantifier": "all well-formed grammars with disjoint FIRST sets, all texts, all nodes of their trees, all orders of the other rules", "why_tests_cant": "Ranges over all grammars, texts and nodes; the table of the restarted grammar has other FOLLOW sets, and the parser sees the end of input where it saw another byte.", "anchors": ["pkg/parser/parser.go: Parse", "pkg/bnf/tablegen/tablegen.go: FromGrammar, findFollows", "pkg/cst/cst.go: Node"]}
{"id": "C78", "title": "A part of a text can be exchanged for another text of the same rule", "statement": "For an LL(1) grammar whose words its parser accepts: take a text it parses, any node of the tree that belongs to a rule, and any text that parses from this rule (grammar with this rule put first). Exchanging the text of the node for the other text gives a text that parses again. If the new part is not empty, the new tree is the old one with the sub-tree exchanged for the tree of the new part, everything behind it moved by the difference in length, and the nodes around it grown by it. With an empty new part nodes around it may disappear as well.", "quantifier": "all well-formed LL(1) grammars with sufficient FOLLOW sets, all texts, nodes and replacement texts", "why_tests_cant": "Ranges over all grammars, texts, nodes and replacements: the byte the parser looks at changes in front of the part and behind it.", "anchors": ["pkg/parser/parser.go: Parse", "pkg/bnf/tablegen/tablegen.go: FromGrammar", "pkg/cst/cst.go: Node"]}
{"id": "C79", "title": "Exactly which texts a generated parser accepts", "statement": "For every grammar FromGrammar accepts (rule names distinct, no byte 0 in terminals), LL(1) or not, Parse accepts exactly the texts with a predictive derivation and returns its tree: a rule stands for all its alternatives that can start with the next byte, one behind the other, and if there is none for nothing, provided an alternative can be empty and the next byte is in the generator's FOLLOW set of the rule. For LL(1) grammars, text by text: a text is accepted exactly when it has a parse tree in which, wherever a rule derives nothing, the next byte is in the generator's FOLLOW set of that rule; what is returned is this tree with its empty parts cut.", "quantifier": "all grammars FromGrammar accepts, all sources and texts, all trees", "why_tests_cant": "An equivalence over all grammars and texts: tests can show texts accepted or refused, not that a description in terms of the grammar misses none.", "anchors": ["pkg/parser/parser.go: Parse", "pkg/bnf/tablegen/tablegen.go: FromGrammar, makeTableRow, ruleFollowsInSequence"]}
{"id": "C80", "title": "Every outcome of a generated parser in terms of its grammar", "statement": "For every grammar FromGrammar accepts (no byte 0 in terminals), LL(1) or not, also with names defined more than once (then the last definitions count), and every naming map: Parse accepts a text exactly when the predictive leftmost derivation of the grammar (the next byte decides which alternatives replace a rule) gets to the end of the text; it fails with an error exactly when that derivation gets stuck, and the message says why in terms of the grammar: a terminal's byte expected and another found, no alternative of the rule which the naming map calls by this name starts with the byte and it cannot be left out before it, or bytes are left; it never returns exactly when the derivation goes on forever.", "quantifier": "all grammars FromGrammar accepts, all sources and texts, all errors", "why_tests_cant": "Describes all outcomes, including not returning, for all grammars and texts.", "anchors": ["pkg/parser/parser.go: Parse, parse, processTableNonTerminal, processChar, processEOS, nodeTypeName", "pkg/bnf/tablegen/tablegen.go: FromGrammar, makeTableRow"]}
{"id": "C81", "title": "From any BNF text to every outcome", "statement": "A grammar read from a BNF text makes FromGrammar return a table, or one of three errors (a name without rule, the empty literal not alone, a conflict between an alternative that can be empty and an earlier one), or panic on an empty literal behind other symbols (as in <S> ::= \"a\" \"\"); nothing else. With all names defined and empty literals alone only the conflict is possible. A byte string gives a parser exactly when, up to its first byte 0, it is BNF notation of a grammar without fault. What that parser accepts, with which trees, with which message it refuses, and when it does not return is described by the grammar written in the text, for every source and naming map; for LL(1) grammars it accepts exactly the words whose empty parts the generator foresaw.", "quantifier": "all byte strings as BNF texts, all sources, texts, naming maps and map iteration orders", "why_tests_cant": "Composition of all parts of the library for all grammar texts and all input texts.", "anchors": ["pkg/bnf/selfgrammar.go: SelfGrammar", "pkg/bnf/fromcst/fromcst.go: ToAST", "pkg/bnf/tablegen/tablegen.go: FromGrammar", "pkg/parser/parser.go: Parse"]}
{"id": "C82", "title": "Rules added at the end of a grammar", "statement": "Add rules with new names behind the rules of a grammar that uses only its own names. If FromGrammar accepts the longer grammar it accepts the shorter one; its parser accepts every text the shorter one's parser accepts, with the same tree; and (alternatives starting differently) whatever else it accepts is a word of the shorter grammar. Rules that nothing refers to are nevertheless not without effect: for an LL(1) grammar, rules X ::= B \"c\" for the FOLLOW bytes the generator misses make the parser accept exactly the words of the grammar, if FromGrammar accepts the longer grammar.", "quantifier": "all grammars, all added rules, all sources, texts, naming maps and iteration orders", "why_tests_cant": "Relates two generated parsers for all grammars, all extensions and all texts.", "anchors": ["pkg/bnf/tablegen/tablegen.go: FromGrammar, findFollows", "pkg/parser/parser.go: Parse"]}
{"id": "C83", "title": "Documented cost of ByteSet.Len, Bytes and String", "statement": "Len and Bytes (and String, which enumerates like Bytes) make exactly one round of their loops per member of the set: on every set, the rounds of the four words add up to the number of members, so the cost is O(n) in the size of the set as byteset.go documents, never the number of possible bytes.", "quantifier": "all ByteSet values", "why_tests_cant": "The number of rounds has to be exact for all 2^256 sets and is not visible in results.", "anchors": ["pkg/bnf/tablegen/byteset/byteset.go: popCount, Len, realBytesF, walkBytes, Bytes"]}
{"id": "C84", "title": "Operands of neither exported kind: Parse panics exactly when it reaches one", "statement": "A hand-made table may hold operands that are neither a NonTerminal nor a Terminal value: nil, or a value of the caller's own type in which a ParserOp is embedded. A call of Parse with such a table panics exactly when the same call, with these operands replaced by a non-terminal whose number means nothing, returns the unknown-builtin error about that number; in every other case the two calls do the same in every respect. So the call panics exactly when matching the text reaches such an operand, and texts which do not reach one are parsed as usual.", "quantifier": "all tables a caller can build, naming maps, sources and numbers of steps", "why_tests_cant": "It ranges over every table and text, and the panic depends on how far matching goes.", "anchors": ["pkg/parser/parser.go: Parse, ParserOp, NewLL1Parser"]}
{"id": "C85", "title": "Error texts are unambiguous", "statement": "Errors of this project are plain texts, so the text is all a caller has. The text of every error of Parse is the documented format with its numbers in decimal notation and its bytes as a UTF-8 character and a number; two calls of Parse that return errors with the same text return the same error (same kind, same bytes, same row name), unless one is the error of the caller's own io.Reader. The errors of FromGrammar have different texts, and so have those of ToAST, which never returns one of the errors it uses internally to end a search.", "quantifier": "all errors, bytes, numbers and names; all calls of Parse, FromGrammar and ToAST", "why_tests_cant": "Unambiguity compares every pair of messages, for all bytes, numbers and names; tests compare a few messages with a literal.", "anchors": ["pkg/parser/parser.go: Parse, charCode", "pkg/bnf/tablegen/tablegen.go: FromGrammar", "pkg/bnf/fromcst/fromcst.go: ToAST"]}
{"id": "C86", "title": "Parsers have no state of their own: calls do not influence later calls", "statement": "In a program that makes any number of tables, naming maps, sources and parsers (parsers may share maps), changes the maps whenever it likes and calls Parse whenever it likes, earlier calls of Parse - of the same parser or of others - can be removed without changing the tree, error or panic of a later call, unless they consumed the io.Reader the later call reads. A used parser answers what a fresh one with the current maps answers. Calls of Parse change no table and no names but those of -1 and -2; a reader that has been read delivers nothing more.", "quantifier": "all histories of making and changing maps, sources and parsers and calling Parse; all later calls", "why_tests_cant": "It ranges over all histories of a program, in which parsers share maps that a successful call does change; tests try a few sequences.", "anchors": ["pkg/parser/parser.go: NewLL1Parser", "pkg/parser/parser.go: LL1Parser.Parse", "pkg/parser/parser.go: processEOS"]}
{"id": "C87", "title": "Concurrent calls of any parsers: results, progress, and exactly when they race", "statement": "For any number of concurrent Parse calls, on the same or different parsers that share tables and naming maps in any way, under every schedule: each call returns the tree, error or panic it returns alone; no call waits for another (it returns after a number of its own turns that does not depend on the others); of the naming maps only the names of -1 and -2 change, and in the end exactly on the maps of successful calls. A schedule with a data race exists if and only if two calls have the same naming map, one of them succeeds, and the other succeeds or fails with an error that names a table row. Calls with naming maps of their own never race, even if they share the table.", "quantifier": "all numbers of calls, tables, maps, sources, sharing patterns and schedules", "why_tests_cant": "Schedules and sharing patterns are unbounded, and races show up only in rare schedules; that no schedule has one cannot be tested.", "anchors": ["pkg/parser/parser.go: LL1Parser.Parse", "pkg/parser/parser.go: processEOS", "pkg/parser/parser.go: processTableNonTerminal", "pkg/parser/parser.go: NewLL1Parser"]}
{"id": "C88", "title": "The JSON example program on any two files", "statement": "Whatever the grammar file and the data file contain, the program does one of the following, and which one is determined by the grammar notation, the grammar and the data: it reports an unreadable file; it reports where the grammar file is not BNF; it reports a fault of the grammar (an undefined name, an empty literal beside something else, or a conflict, in which case one line with the operands of the first contested cell goes to standard output); it crashes on an empty literal behind something else; it reports at which byte the data is refused; it prints its banner and the key listing of the tree and exits with 0; it crashes in the key listing at a node of type 6 without the expected grandchild, having printed what comes before; or it runs forever, exactly when the predictive derivation of the data never gets stuck. Standard output, standard error and exit code are exactly as described, for every map iteration order, and no other message is ever printed.", "quantifier": "all contents of both files, all read errors, all map iteration orders", "why_tests_cant": "All pairs of files; non-termination and absence of other messages cannot be observed by runs.", "anchors": ["examples/json/main.go: main, fatalError, keyPrintingVisitor.Visit", "pkg/bnf/tablegen/tablegen.go: FromGrammar"]}
{"id": "C89", "title": "What a printed grammar reads as: terminals cannot inject notation", "statement": "Print any grammar made of the package's three kinds of symbols whose names contain no '>', with terminals of arbitrary bytes (quotes, line breaks, notation, zero bytes), and read the text with the BNF parser and ToAST: either the text is refused, or it reads as the same grammar with the empty symbol in place of empty terminals; it never reads as anything else, and it is read exactly when names, terminals and alternatives are of the documented form. Any grammar whatsoever reads back as itself exactly when it is printable. Two such grammars have the same text exactly when they differ only in empty terminal versus empty symbol and in no alternatives versus one empty alternative. Names are not protected: with '>' in a name the text can read as another grammar with more rules (refuted).", "quantifier": "all grammars, all bytes in terminals and names", "why_tests_cant": "All byte strings in terminals; absence of injection is a statement about every text.", "anchors": ["pkg/bnf/ast.go: Grammar.String, Rule.String, SymbolTerminal.String, SymbolNonTerminal.String", "pkg/bnf/selfgrammar.go: SelfGrammar", "pkg/bnf/fromcst/fromcst.go: ToAST"]}
{"id": "C90", "title": "Adding cells to a table never changes a parse that does not miss a cell", "statement": "Let a second table have all rows of a first one with all their cells, and possibly further rows and cells. Parse with the second table does exactly what it does with the first one (same tree, error, panic, naming map, source left over, running time), unless with the first one it fails because a cell or a row is missing. And whenever the first one fails, the second one gets at least as far: its error is about the same byte or a later one, and a tree it returns extends at least to that byte.", "quantifier": "all tables with a row 0, all extensions of them, all sources and texts, all naming maps", "why_tests_cant": "Ranges over all tables, all ways of adding cells and all inputs.", "anchors": ["pkg/parser/parser.go: LL1Parser.Parse", "pkg/parser/parser.go: processTableNonTerminal"]}
{"id": "C91", "title": "ToAST on any implementation of Node", "statement": "ToAST on nodes of any type whose methods have no effects (shared nodes, cyclic structures, nil nodes, panicking methods): on a structure that is a finite tree it does what it does on the tree of NewNode values; on any structure it has at most one outcome; when it returns a grammar or an error, it returns the same for every finite tree that looks like the structure as far down as it went, so what is below that, and what replaces nil nodes or panicking methods, does not matter; it panics only with the panic of a method of a reachable node or by slicing the text with a position outside of it; ToAST(nil) panics; if first children lead on for ever through nodes that are neither ignored nor rules, it never returns.", "quantifier": "all node types and structures, all bindings, all texts", "why_tests_cant": "Ranges over all implementations of an interface, including infinite structures, and over all bindings and texts.", "anchors": ["pkg/bnf/fromcst/fromcst.go: ToAST, lrTraverse, flexVisitor.Visit", "pkg/cst/cst.go: Node, Walk"]}
{"id": "C92", "title": "Adding alternatives and rules to a grammar is backwards compatible", "statement": "Add alternatives anywhere in the rules of a grammar, and rules behind it. If FromGrammar accepts the larger (well-formed) grammar it accepts the smaller one. If in the larger grammar alternatives of a rule start differently and no rule that can be empty starts with a byte of the generator's FOLLOW set (so for LL(1) grammars for which that set contains nothing wrong), the new parser does on every source exactly what the old one does, unless the old one reports a byte for which it has no rule: every accepted text stays accepted with the same tree, and where both fail the new error is about the same byte or a later one. Without either condition FromGrammar can accept both grammars and an accepted text is lost (refuted).", "quantifier": "all grammars, all additions, all sources, texts, naming maps and map iteration orders", "why_tests_cant": "Ranges over all pairs of grammars and all texts.", "anchors": ["pkg/bnf/tablegen/tablegen.go: FromGrammar", "pkg/parser/parser.go: LL1Parser.Parse"]}
{"id": "C93", "title": "The JSON example on standard JSON", "statement": "A standard JSON text (json.org, RFC 8259) is accepted by the example's parser if and only if it consists of printable ASCII bytes and line ends (LF or CR LF, no tab, no single CR, no byte from 127 on) and writes every empty array as [] without white space inside; it is then read as what it means, so the keys of its standard reading are listed. Conversely an accepted text is standard JSON if and only if every \\u in its strings and keys is followed by four hexadecimal digits: texts with three digits are all the example accepts beyond the standard.", "quantifier": "every standard JSON text; every accepted text; every source kind and map order", "why_tests_cant": "There are infinitely many JSON texts; test files show single texts, not where exactly the dialect and the standard part.", "anchors": ["examples/json/json.bnf", "examples/json/main.go: keyPrintingVisitor, main", "pkg/parser/parser.go: Parse"]}
{"id": "C94", "title": "ToAST takes linear time", "statement": "ToAST, although made of searches inside searches, visits the nodes of a tree at most (number of terminal types in the bindings + 8) times the number of nodes of the tree, whatever the tree, text and bindings, also when it fails or panics; so reading a BNF text of n bytes takes at most 3+494n iterations of the parse loop and 10(4+988n) visits.", "quantifier": "every tree, text and bindings; every BNF text", "why_tests_cant": "A bound on the work for all inputs cannot be tested; timing tests show samples of one machine.", "anchors": ["pkg/bnf/fromcst/fromcst.go: ToAST, parseRule, parseSubstitution, parseSequence, parseSymbol, parseTerminalName, parseEscape, lrTraverse, flexVisitor.Visit", "pkg/cst/cst.go: Walk"]}
{"id": "C95", "title": "Bindings follow the rules, except for the number 16", "statement": "ToAST uses a node's type only to compare it with the numbers in the bindings, with the terminal type -1 and with the literal 16. Reordering the rules behind the first one, reordering alternatives and renaming non-terminals of a grammar, and changing the numbers in the bindings to those the same rules have now, therefore changes nothing: every text is read as the same grammar or with the same error, provided the rule with the number 16 is the same (or there is none). In particular every such rewriting of the grammar of BNF that leaves its escape rule at number 16 still reads exactly the BNF texts. Without that condition it fails silently: with rules 16 and 17 swapped and the bindings moved along, \"\\n\" is read as a backslash followed by a line feed.", "quantifier": "every tree, text, pair of bindings and correspondence of types; every grammar, rewriting of it, and text", "why_tests_cant": "The example tests use one numbering; the claim is about every rewriting of every grammar, every binding and every text.", "anchors": ["pkg/bnf/fromcst/fromcst.go: ToAST, Bindings, parseTerminalName, parseSymbol, flexVisitor.Visit", "pkg/bnf/selfgrammar.go: SelfGrammar", "pkg/bnf/fromcst/fromcst.go: SelfCSTtoASTBindings", "pkg/bnf/tablegen/tablegen.go: FromGrammar"]}
{"id": "C96", "title": "Bytes mean nothing but themselves", "statement": "Neither the generator nor the parser interprets bytes: exchange the bytes of all terminals of a grammar and of all texts by any one-to-one re-encoding that keeps the byte 0 (another character set, say) and FromGrammar gives the table with its columns and literals re-encoded and the same names, or the same error or panic; Parse gives for the re-encoded source the same tree with the same positions and names, the same amount read, or the same error naming the re-encoded bytes. Some byte values are special: 0 marks the end of the input (a re-encoding that moves it can turn a rejected text into an accepted one), and LF and CR matter to hand-made tables that use the built-in end-of-line operand -2.", "quantifier": "every one-to-one re-encoding of the 256 bytes, every table, grammar, source, map order and number of steps", "why_tests_cant": "There are 256! encodings and unboundedly many grammars and texts; the example tests use ASCII only.", "anchors": ["pkg/parser/parser.go: Parse, processChar, processTableNonTerminal, processBuiltinNonTerminal, processEOS, peek", "pkg/bnf/tablegen/tablegen.go: FromGrammar, sequenceFirsts, symbolFirsts, makeTableRow", "pkg/bnf/tablegen/byteset/byteset.go: ByteSet"]}
{"id": "C97", "title": "FromGrammar takes polynomial time, cubic in the worst case", "statement": "For a grammar of n rules and size m (rules, alternatives and symbols together) FromGrammar goes through at most 2(256n+1)(n+1)(m+1)+1031m rounds of all its loops (those of ByteSet.Bytes included), whether it returns a table, an error or panics; when it returns a table it has gone through at least n*n. The cubic growth is real: for every k there is an accepted grammar of k+1 rules and size 3(k+1) that needs at least k(k+1)(k+1) rounds. A grammar read from a BNF text of N bytes has at most N/8 rules and size N, so its table is made within 2(32N+1)(N+1)(N+1)+1031N rounds.", "quantifier": "every grammar, every iteration order of Go's map, every number k", "why_tests_cant": "The tests run on a handful of small grammars; the bound and the worst case are about all sizes.", "anchors": ["pkg/bnf/tablegen/tablegen.go: FromGrammar, Run, findFirsts, findFollows, makeTable, makeTableRow, ruleFollowsInSequence, sequenceFirsts", "pkg/bnf/tablegen/byteset/byteset.go: Bytes"]}
{"id": "C98", "title": "How literals are cut into pieces does not matter", "statement": "Writing a literal of the grammar as several non-empty literals side by side (\"while\" as \"wh\" \"ile\") changes nothing but the literals in the tree: FromGrammar gives the same error or panic, or tables and names that agree but for the cuts; and with two tables (also hand-written ones) that agree but for such cuts, Parse on every source accepts both times, with trees in which only '_literal' leaves are replaced by several ones covering the same bytes, or fails both times with the same error, or runs forever both times. The pieces must not be empty: with an empty one FromGrammar can panic.", "quantifier": "every grammar, every way of cutting its terminals, every table of public operands, every source and naming map", "why_tests_cant": "all grammars, all cuts and all sources", "anchors": ["pkg/parser/parser.go: Parse, processTerminal, processChar", "pkg/bnf/tablegen/tablegen.go: FromGrammar, sequenceFirsts, ruleFollowsInSequence, makeTableRow"]}
{"id": "C99", "title": "How deep Walk and ToAST recurse", "statement": "However large a tree is and whatever the visitor does, Walk is never active more often at the same time than there are nodes on a longest path of the tree, and exactly so often when the visitor visits everything. ToAST, with its searches inside searches, needs at most six more, for every tree, text and bindings and also when it fails or panics; six are needed. Reading a BNF text of n bytes therefore keeps at most 10 + 988 n calls of Walk active. Linear growth is real: with the one-rule grammar S ::= \"b\" S | \"\" the tree of n bytes is n + 2 deep.", "quantifier": "every tree, visitor, text and bindings; every source and naming map", "why_tests_cant": "all trees of any depth", "anchors": ["pkg/cst/cst.go: Walk", "pkg/bnf/fromcst/fromcst.go: flexVisitor.Visit, lrTraverse, ToAST, parseRule, parseSubstitution, parseSequence, parseSymbol, parseTerminalName, parseEscape"]}
{"id": "C100", "title": "Helper rules: naming a piece of an alternative", "statement": "Give some occurrences of a run of symbols in a grammar a new name, with a rule of that name at the end (any number of times; also pieces of earlier helpers; read backwards: inline such a rule). Then the grammar has the same words, is LL(1) exactly when it was before, and its parse trees are the old ones once every helper node is replaced by its children. So what a parser generated from the version with helpers accepts is a word of the original grammar, and its tree (empty rules cut) is the parse tree of the original up to the helper nodes; where FromGrammar computes FOLLOW correctly for both versions, both parsers refuse a text at the same byte.", "quantifier": "every well-formed grammar, every choice of helpers, every text, source and naming map", "why_tests_cant": "all grammars, all pieces, all texts", "anchors": ["pkg/bnf/tablegen/tablegen.go: FromGrammar", "pkg/parser/parser.go: Parse", "pkg/bnf/ast.go: Grammar"]}
{"id": "C101", "title": "Every LL(1) grammar can be written so that FromGrammar handles it", "statement": "FromGrammar miscomputes FOLLOW when two neighbouring symbols can be empty and a third follows (C28, C65). Helper rules get around it for every LL(1) grammar without useless rules: there always is a version with helpers whose alternatives have at most two symbols; FromGrammar accepts every such version, and its parser accepts exactly the words of the original grammar, with the original's parse tree up to the helper nodes and cut empty rules.", "quantifier": "every well-formed LL(1) grammar whose rules are all reachable, every map order, every source and NUL-free text", "why_tests_cant": "all LL(1) grammars and all texts", "anchors": ["pkg/bnf/tablegen/tablegen.go: FromGrammar, findFollows, ruleFollowsInSequence, makeTable"]}
{"id": "C102", "title": "Repetition, options and lists", "statement": "The rules a user writes for repetition mean what they look like. l ::= body l | \"\" derives exactly the concatenations of any number of words of body; o ::= body | \"\" a word of body or nothing; l ::= x m with m ::= sep x m | \"\" one or more words of x with sep between them. And in every tree Parse returns for an LL(1) grammar, the node of such a repetition unrolls (its children but the last, then those of the last, ...) into rounds that lie behind each other and together cover the node; each round has one child per symbol of the body, of the type of that symbol, is not empty, and spells a word of the body.", "quantifier": "every grammar with such rules, every word; for trees every well-formed LL(1) grammar, every source and NUL-free text, every node of the repetition", "why_tests_cant": "all grammars with such a rule, all texts and all numbers of rounds", "anchors": ["pkg/parser/parser.go: Parse", "pkg/bnf/tablegen/tablegen.go: FromGrammar", "pkg/cst/cst.go: Node"]}
{"id": "C103", "title": "Rules that nothing leads to can be left out", "statement": "Every grammar can be reduced to the rules that a derivation from its first rule can use. The reduced grammar has the same words and FOLLOW sets, is well-formed or LL(1) if the grammar was, and has the same parse trees when rules go by their names. FromGrammar accepts it if it accepts the grammar, and every text its parser accepts is accepted by the other parser with the same tree (the converse is refuted by C82: a dead rule can hide the FOLLOW bug). Hence C101 holds without a condition on useless rules: every well-formed grammar whose reachable rules are LL(1) has a version that FromGrammar handles exactly.", "quantifier": "every non-empty grammar with distinct heads (well-formed for the parsers), every map order, source and text", "why_tests_cant": "all grammars, all dead rules, all texts", "anchors": ["pkg/bnf/tablegen/tablegen.go: FromGrammar, findFollows, makeTable", "pkg/parser/parser.go: Parse", "pkg/bnf/ast.go: Grammar"]}
{"id": "C104", "title": "Putting two grammars together", "statement": "Take two grammars without common names and add a new first rule. With top ::= start1 | start2 the words are those of either grammar, and the result is LL(1) exactly when both are, no byte starts words of both, and not both have the empty word. With top ::= start1 start2 the words are words of the first with words of the second behind them, and the result is LL(1) exactly when the second is and the first is with what the second can start with among what follows its rules. If FromGrammar computes FOLLOW correctly for the rules of both that can be empty, it does so for the combination, accepts it, and the parser accepts exactly these texts.", "quantifier": "every two well-formed grammars without common names, every new name, every word; for the parsers every map order, source and NUL-free text", "why_tests_cant": "all pairs of grammars and all texts", "anchors": ["pkg/bnf/tablegen/tablegen.go: FromGrammar, findFollows", "pkg/parser/parser.go: Parse", "pkg/bnf/ast.go: Grammar"]}
{"id": "C105", "title": "FromGrammar looks at first bytes only, and takes a first byte 0 for the empty string", "statement": "FromGrammar looks at no byte of a terminal but its first: two grammars that differ only behind the first bytes of their terminals give the same error or panic, or the same names and tables with the same cells and corresponding operands. A terminal whose first byte is 0 is silently taken for the empty string: an alternative that starts with one (and has no non-terminal) can be replaced by the empty alternative without changing anything FromGrammar returns. So such a terminal is never looked for, and texts that are not words are accepted.", "quantifier": "every grammar (also with undefined names, faults, repeated heads), every change of terminals behind their first byte, every map order", "why_tests_cant": "all grammars and all terminals; the tests contain no zero bytes", "anchors": ["pkg/bnf/tablegen/tablegen.go: EOS, terminalFirsts, sequenceFirsts, symbolFirsts, makeTableRow, FromGrammar"]}
{"id": "C106", "title": "Total work and total allocation of Parse are linear", "statement": "Within k iterations of Parse's main loop, with a table whose cells have at most w operands and whose terminals at most w bytes (w at least 2), all loops of Parse together make at most k(3+w) rounds, and at most 3k if it returns a tree, whatever the table; and, if the runtime makes full slices at least a quarter larger and never more than a times what they hold (Go's growth does, with a=2), all arrays of operands Parse allocated, garbage included, have at most 5a(2+kw) elements and all arrays of nodes at most (5a+2)k+w, also when it fails or panics. With the table of an LL(1) grammar of r rules with alternatives of size at most s, k is at most 3+rsn for every text of n bytes, so that work and allocation are linear in the text however long Parse runs.", "quantifier": "every table of public operands, every source, every memory (sharing, spare capacity), every steady growth of slices; every LL(1) grammar and every text, in or out of the language", "why_tests_cant": "a bound for all tables, texts and capacities; a slow inner loop or a stack copied too often shows in no result", "anchors": ["pkg/parser/parser.go: parse, processTableNonTerminal, processTerminal, processFunction, Parse; stack Push/Pop"]}
{"id": "C107", "title": "The layout of a BNF text does not matter", "statement": "The grammar the BNF parser and ToAST read from a text depends only on the text's tokens: two texts that differ only in blanks between names, literals, '::=' and '|', in LF versus CR LF line ends, in empty or blank lines behind the first line, and in how literals are quoted and escaped are both refused or read as the same grammar. In particular any text, valid or not, reads the same before and after all its line ends are made CR LF, and blanks may stand between any two tokens. Lines that are empty are not allowed in front of the first rule (refuted).", "quantifier": "every two texts with the same tokens; every text for the line ends", "why_tests_cant": "all texts and all ways of laying them out; the tests read a handful of files", "anchors": ["pkg/bnf/selfgrammar.go: SelfGrammar", "pkg/bnf/fromcst/fromcst.go: ToAST", "pkg/parser/parser.go: Parse"]}
{"id": "C108", "title": "ByteSet variables are independent values", "statement": "A program over any number of ByteSet variables, with New, assignment, Add, Remove, Union and all queries in any order, never panics and prints exactly what it would print if every variable held a mathematical set of its own: a copy and its original, and the operands and the result of Union, never influence each other, also when a variable is both operand and target. Union, Equal, IsSubSet, IsSuperSet, Contains, Len, Bytes and String leave every word of every variable as it was; Add, Remove and an assignment change only their target.", "quantifier": "every program (finite sequence of statements) over any number of variables", "why_tests_cant": "all histories of calls and assignments over all variables; sharing shows up only in particular orders", "anchors": ["pkg/bnf/tablegen/byteset/byteset.go: New, Add, Remove, Contains, Len, Bytes, Union, Equal, IsSubSet, IsSuperSet, String"]}
{"id": "C109", "title": "The textbook repairs: left factoring and removal of left recursion", "statement": "A user whose grammar is refused or not LL(1) may left-factor rules (common t1 | common t2 becomes common h with h ::= t1 | t2) and remove immediate left recursion (a ::= a l | b becomes a ::= b h with h ::= l h | \"\") and unfold a name in a rule by the alternatives of that name (which makes indirect left recursion immediate), any number of times and in any order: every rule keeps its words, and if the repaired grammar is LL(1) with FOLLOW sets that FromGrammar finds, the parser made from it accepts exactly the words of the original grammar; with helper rules this can always be reached. After left factoring the trees are those of the original grammar with the nodes of the new rule in them. The repairs are needed: two alternatives that start alike, or a left-recursive rule that can begin with a byte, are never LL(1).", "quantifier": "all well-formed grammars, all sequences of repairs, all texts, sources and map orders", "why_tests_cant": "all grammars, repairs and texts", "anchors": ["pkg/bnf/tablegen/tablegen.go: FromGrammar", "pkg/parser/parser.go: Parse"]}
{"id": "C110", "title": "What the table tests of the repository check", "statement": "The tests that compare fmt's %#v text of a generated table with a reference file check exactly what they should: two tables have the same text exactly if they have the same rows and cells, no such text is a proper prefix of another, and so (in spite of the weakness of ReaderContentMustBeEqual, C62) the test passes on a file that holds the text of a table exactly if FromGrammar returns that table; then the generated parser and one made of the recorded table behave alike on every input. The test that expects an error for the left-recursive grammar never passes.", "quantifier": "all tables of public operands (terminals of any bytes, UTF-8 or not), all grammars, all map orders, all contents of the file", "why_tests_cant": "it is about the tests themselves: all tables and all files", "anchors": ["test/bnftablegen/tablegen_test.go", "test/testcommon/testcommon.go: ReaderContentMustBeEqual"]}
{"id": "C111", "title": "What the parser tests of the repository check", "statement": "performTestsOnParser passes exactly if a fresh parser does in each case what was recorded: the tree whose %v text is in the file and names with the same entries as the recorded ones, or an error with the expected text; cases do not influence each other, although they share one parser whose naming map successful calls change, so order and selection do not matter. This needs naming maps without blanks and brackets in the names: others can print alike (refuted). After updateTestsOnParser the tests pass, whatever the names. TestParserParseNamingMap passes exactly if FromGrammar accepts the grammar and the parser the source.", "quantifier": "all tables and naming maps, all lists of test cases, all files, all map orders", "why_tests_cant": "it is about the tests themselves: all cases and files", "anchors": ["test/parser/parser_test.go: performTestsOnParser, updateTestsOnParser, TestParserParseNamingMap", "test/testcommon/testcommon.go"]}
{"id": "C112", "title": "Size of generated tables, and what making them allocates", "statement": "A table FromGrammar returns has one row per rule; a row has at most 256 cells, each with at most as many operands as the alternatives of the rule have symbols: at most 256n cells and 256s operands for n rules with s symbols (32N and 256N for a grammar read from N bytes). The factor is real: for every k there is an accepted grammar of two rules and k+256 symbols whose table has at least 255(k+1) operands. If slices grow steadily (by at least a quarter, to at most a times what they hold; Go's growth does, with a=2), all arrays of operands FromGrammar allocates, garbage included, have together at most 1280as elements; it allocates two arrays of n sets besides and no others, whatever its outcome.", "quantifier": "every grammar, every map order, every number k, every memory and every steady growth of slices", "why_tests_cant": "bounds for all grammars, and for garbage no test sees", "anchors": ["pkg/bnf/tablegen/tablegen.go: makeTableRow, makeTable, FromGrammar"]}
{"id": "C113", "title": "Which tests the test runner runs", "statement": "test/executetests.go starts one `go test` in each of its directories, in order, with a pattern that selects exactly the tests in whose names a listed name occurs (all tests if none is listed); of the test functions of the repository these are all but TestLRecursiveGrammarToParsingTableResErr. If all directories can be entered and left its exit code is 0 whatever the tests do, also if they fail; if one cannot be entered, the tests of those before it have run, it says so on standard error and ends with exit code 1.", "quantifier": "all lists of directories and test names, all outcomes of os.Chdir and of the commands", "why_tests_cant": "it is the program that runs the tests: all outcomes of its commands", "anchors": ["test/executetests.go: main"]}
{"id": "C114", "title": "Concurrent calls of FromGrammar", "statement": "Any number of FromGrammar calls may run at the same time, on any grammars, also on the same grammar or on grammars sharing arrays, every single memory access interleaved in any order, all allocating from one memory. No schedule leads to a data race; each call returns the table, error or panic it returns alone (whatever the others' grammars are) after a number of its own steps that does not depend on the others; nothing that existed before is changed at any time or written by anybody, so parsers may go on using earlier tables meanwhile; each table owns its cells, and the tables of two calls share no array.", "quantifier": "all numbers of calls, grammars in memory and their sharing, choices of capacities and map orders, all schedules of single memory accesses", "why_tests_cant": "schedules are unbounded, and a race detector sees only those that happen", "anchors": ["pkg/bnf/tablegen/tablegen.go: FromGrammar, Run and everything they call"]}
{"id": "C115", "title": "Concurrent calls of Parse, access by access", "statement": "Any number of Parse calls whose parsers have naming maps of their own may run at the same time, also with one table and one source for all, or with tables and sources sharing arrays in any way, every single memory access interleaved in any order, all allocating from one memory. No schedule leads to a data race on operands, nodes or bytes; each call returns the tree, error or panic it returns alone after a number of its own steps that does not depend on the others, and it stays returned; nothing that existed before (tables, sources, earlier trees) is changed at any time or written by anybody; each tree is made of new arrays, no two of its nodes share one, and the trees of two calls share no array.", "quantifier": "all numbers of calls, tables and sources in memory and their sharing, choices of capacities, all schedules of single memory accesses", "why_tests_cant": "schedules are unbounded, and a race detector sees only those that happen", "anchors": ["pkg/parser/parser.go: LL1Parser.Parse and everything it calls", "pkg/parser/parser.go: ll1parserOpStack, ll1parserProdStack, ll1parserScanner"]}
{"id": "C116", "title": "Building parsers and parsing at the same time", "statement": "Any number of goroutines may run at the same time of which some call FromGrammar, some call Parse on parsers they have, and some call FromGrammar and then Parse a source with the parser they got, on grammars, tables and sources in one memory that may share arrays in any way, every single memory access interleaved in any order. No schedule leads to a data race; each goroutine ends with the table, tree, error or panic it would have got by itself with plain values, after a number of its own steps that does not depend on the others, and that stays; nothing that existed before is changed at any time or written by anybody; finished tables are written by nobody, and the tables and the trees of two goroutines share no array.", "quantifier": "all numbers of goroutines of the three kinds, all grammars, tables and sources in memory and their sharing, choices of capacities and map orders, all schedules of single memory accesses", "why_tests_cant": "schedules and mixes of goroutines are unbounded, and a race detector sees only those that happen", "anchors": ["pkg/bnf/tablegen/tablegen.go: FromGrammar", "pkg/parser/parser.go: NewLL1Parser, LL1Parser.Parse", "examples/json/main.go: main", "test/parser/parser_test.go: TestLinearMultiRuleParserParse"]}
{"id": "C117", "title": "Concurrent conversions do not disturb each other", "statement": "Any number of goroutines may call ToAST at the same time, on the same or different trees, texts and bindings (whose IgnoreNodeTypes are their own, or shared and in order; C56 is about sharing unordered ones), all appends to rules, alternatives and symbols interleaved in any order on one memory. Every call ends after at most three appends of its own per node of its tree, with the grammar, error or panic that ToAST gives on plain values, and this stays; the grammar it returns then stands in memory in new arrays, one for each part. No two calls are ever about to access the same array with one of them writing; calls write only to arrays that did not exist when they started, nothing that existed is changed at any time, and the grammars of two calls share no array. A call that is alone is the call of C72.", "quantifier": "all numbers of calls, all trees, texts and bindings, all memories before, all choices of capacities for each call, all schedules of single appends", "why_tests_cant": "schedules, capacities and mixes of calls are unbounded, and a race detector sees only those that happen", "anchors": ["pkg/bnf/fromcst/fromcst.go: ToAST, parseRule, parseSubstitution, parseSequence, lrTraverse", "pkg/cst/cst.go: Walk", "pkg/bnf/ast.go: Grammar, Rule, Substitution, Sequence"]}
{"id": "C118", "title": "Converting, building parsers and parsing at the same time", "statement": "Any number of goroutines that call ToAST may run at the same time as any number that call FromGrammar, Parse, or build a parser and parse with it, in one memory, under any schedule of single steps. Those that build and parse are at every time where they would be without those that convert, and the other way round. Everyone ends, after a number of steps of its own that does not depend on the others, with what the plain functions give; no two goroutines are ever about to access the same array with one of them writing; each writes only to arrays that did not exist at the start; nothing that existed is changed at any time. A grammar converted so, from which others then build a parser and parse with it, gives what ToAST, FromGrammar and Parse give one after the other.", "quantifier": "all numbers and mixes of goroutines, all trees, texts, bindings, grammars, tables and sources, all memories before, all choices of capacities, all schedules", "why_tests_cant": "schedules, capacities and mixes of calls are unbounded, and a race detector sees only those that happen", "anchors": ["pkg/bnf/fromcst/fromcst.go: ToAST", "pkg/bnf/tablegen/tablegen.go: FromGrammar", "pkg/parser/parser.go: NewLL1Parser, Parse", "examples/json/main.go: main"]}
{"id": "C119", "title": "Each goroutine converts a grammar, builds a parser of it and parses", "statement": "Any number of goroutines may each call ToAST, pass the grammar they get to FromGrammar, make a parser of the table and parse a source, or stop at one of these stages, while others build and parse with what stood in memory before; all in one memory, under any schedule of single steps. Each one that gets a turn again and again ends, whatever the others do, and it ends with what ToAST, FromGrammar and Parse give one after the other on plain values (the error or panic of the first that has one), and what it ended with stays. What two of them end with, grammars, tables or trees, has no array in common, and nobody is about to write to a cell of a table of another that has ended. No two goroutines are ever about to access the same array with one of them writing, although each builds from arrays that it made while the others were running; what is written did not exist at the start; nothing that existed at the start is changed at any time.", "quantifier": "all numbers and mixes of goroutines, all trees, texts, bindings, grammars, tables and sources, all memories before, all choices of capacities, all schedules", "why_tests_cant": "schedules, capacities and mixes of calls are unbounded, and a race detector sees only those that happen", "anchors": ["pkg/bnf/fromcst/fromcst.go: ToAST", "pkg/bnf/tablegen/tablegen.go: FromGrammar", "pkg/parser/parser.go: NewLL1Parser, Parse", "examples/json/main.go: main"]}
{"id": "C120", "title": "From the text of a grammar to trees, in many goroutines at once", "statement": "Take the tree that the parser of BNF makes of a text that denotes an LL(1) grammar (with FOLLOW sets that the code computes right where they count, as in C28). A goroutine that converts this tree with ToAST, passes the grammar to FromGrammar and parses a text with the parser of the table, in one memory with any number of others that convert, build and parse, under any schedule, ends with a derivation tree of the text, in arrays of its own, when the text (up to its first NUL byte) is in the language of the grammar, and with an error when it is not. There is a number of iterations of Parse that is enough, which depends on neither the schedule nor the other goroutines, and it does end when it gets a turn again and again.", "quantifier": "all LL(1) grammars and their BNF texts, all texts to parse, all iteration orders of the map of rules, all numbers and mixes of other goroutines, all memories before, all choices of capacities, all schedules", "why_tests_cant": "grammars, texts, schedules and the other goroutines are unbounded", "anchors": ["pkg/bnf/fromcst/fromcst.go: ToAST", "pkg/bnf/tablegen/tablegen.go: FromGrammar", "pkg/parser/parser.go: NewLL1Parser, Parse", "examples/json/main.go: main"]}
