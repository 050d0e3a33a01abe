{
 "claims": [
  {
   "property": "C01",
   "status": "proved",
   "theorems": [
    "C01_byteset_is_a_set",
    "C01_no_interference"
   ],
   "note": "Refinement of mathematical sets over every Add/Remove history."
  },
  {
   "property": "C02",
   "status": "proved",
   "theorems": [
    "C02_len_is_cardinality"
   ],
   "note": "Proof: model words as `N` below 2^64; prove bit-level lemmas (`N.testbit`), refine to a membership predicate; Bytes/Len by an invariant on the \"clear lowest bit\" loop; De Bruijn table by a sweep of the 64 powers of two (finite domain) lifted to all words."
  },
  {
   "property": "C03",
   "status": "proved",
   "theorems": [
    "C03_bytes_enumerates",
    "C03_bytes_new_roundtrip"
   ],
   "note": "Proof: model words as `N` below 2^64; prove bit-level lemmas (`N.testbit`), refine to a membership predicate; Bytes/Len by an invariant on the \"clear lowest bit\" loop; De Bruijn table by a sweep of the 64 powers of two (finite domain) lifted to all words."
  },
  {
   "property": "C04",
   "status": "proved",
   "theorems": [
    "C04_algebra"
   ],
   "note": "Proof: model words as `N` below 2^64; prove bit-level lemmas (`N.testbit`), refine to a membership predicate; Bytes/Len by an invariant on the \"clear lowest bit\" loop; De Bruijn table by a sweep of the 64 powers of two (finite domain) lifted to all words."
  },
  {
   "property": "C05",
   "status": "proved",
   "theorems": [
    "C05_string"
   ],
   "note": "Proof: model words as `N` below 2^64; prove bit-level lemmas (`N.testbit`), refine to a membership predicate; Bytes/Len by an invariant on the \"clear lowest bit\" loop; De Bruijn table by a sweep of the 64 powers of two (finite domain) lifted to all words."
  },
  {
   "property": "C06",
   "status": "proved",
   "theorems": [
    "C06_walk_is_pruned_preorder",
    "C06_unpruned_visits_every_node_once",
    "C06_walk_returns"
   ],
   "note": "Proof: structural induction over trees; independent list-of-visits specification."
  },
  {
   "property": "C07",
   "status": "proved",
   "theorems": [
    "C07_parse_never_panics",
    "C07_nil_naming_map"
   ],
   "note": "Nil operands, which public constructors cannot make, are excluded by table_public."
  },
  {
   "property": "C08",
   "status": "proved",
   "theorems": [
    "C08_return_contract"
   ],
   "note": "Proof: step machine with fuel; a big-step derivation relation over (table, source) is the specification; the run of the machine is related to it by induction on fuel / on derivations. Consequences: no panic, unique tree, tiling, leaf texts, errors. NUL findings proved as `_refuted` with witnesses."
  },
  {
   "property": "C09",
   "status": "proved",
   "theorems": [
    "C09_children_tile"
   ],
   "note": "Proof: step machine with fuel; a big-step derivation relation over (table, source) is the specification; the run of the machine is related to it by induction on fuel / on derivations. Consequences: no panic, unique tree, tiling, leaf texts, errors. NUL findings proved as `_refuted` with witnesses."
  },
  {
   "property": "C10",
   "status": "proved",
   "theorems": [
    "C10_leaves_spell_source"
   ],
   "note": "Proof: step machine with fuel; a big-step derivation relation over (table, source) is the specification; the run of the machine is related to it by induction on fuel / on derivations. Consequences: no panic, unique tree, tiling, leaf texts, errors. NUL findings proved as `_refuted` with witnesses."
  },
  {
   "property": "C11",
   "status": "proved",
   "theorems": [
    "C11_parse_iff_derivation",
    "C11_tree_unique",
    "C11_parse_iff_rewriting"
   ],
   "note": "Proof: step machine with fuel; a big-step derivation relation over (table, source) is the specification; the run of the machine is related to it by induction on fuel / on derivations. Consequences: no panic, unique tree, tiling, leaf texts, errors. NUL findings proved as `_refuted` with witnesses."
  },
  {
   "property": "C12",
   "status": "proved",
   "theorems": [
    "C12_whole_source_consumed",
    "C12_general",
    "C12_refuted_nul_truncates"
   ],
   "note": "Proved for NUL-free sources and terminals; the unrestricted claim is refuted by a witness."
  },
  {
   "property": "C13",
   "status": "proved",
   "theorems": [
    "C13_positions_valid",
    "C13_refuted_nul_terminal"
   ],
   "note": "Proved for NUL-free terminals; refuted otherwise by a witness."
  },
  {
   "property": "C14",
   "status": "proved",
   "theorems": [
    "C14_names_effect",
    "C14_repeatable"
   ],
   "note": "Proof: step machine with fuel; a big-step derivation relation over (table, source) is the specification; the run of the machine is related to it by induction on fuel / on derivations. Consequences: no panic, unique tree, tiling, leaf texts, errors. NUL findings proved as `_refuted` with witnesses."
  },
  {
   "property": "C15",
   "status": "proved",
   "theorems": [
    "C15_sources_equivalent",
    "C15_bad_sources",
    "C15_source_kinds"
   ],
   "note": "Readers are modelled by their chunks and final error."
  },
  {
   "property": "C16",
   "status": "proved",
   "theorems": [
    "C16_unusable_table"
   ],
   "note": "Proof: step machine with fuel; a big-step derivation relation over (table, source) is the specification; the run of the machine is related to it by induction on fuel / on derivations. Consequences: no panic, unique tree, tiling, leaf texts, errors. NUL findings proved as `_refuted` with witnesses."
  },
  {
   "property": "C17",
   "status": "proved",
   "theorems": [
    "C17_deterministic",
    "C17_one_outcome"
   ],
   "note": "Proof: step machine with fuel; a big-step derivation relation over (table, source) is the specification; the run of the machine is related to it by induction on fuel / on derivations. Consequences: no panic, unique tree, tiling, leaf texts, errors. NUL findings proved as `_refuted` with witnesses."
  },
  {
   "property": "C18",
   "status": "proved",
   "theorems": [
    "C18_builtin_eol_nodes",
    "C18_eol_accepts_exactly",
    "C18_other_builtins_fail"
   ],
   "note": "Proof: step machine with fuel; a big-step derivation relation over (table, source) is the specification; the run of the machine is related to it by induction on fuel / on derivations. Consequences: no panic, unique tree, tiling, leaf texts, errors. NUL findings proved as `_refuted` with witnesses."
  },
  {
   "property": "C19",
   "status": "proved",
   "theorems": [
    "C19_error_diagnosis",
    "C19_matched_prefix"
   ],
   "note": "Proof: step machine with fuel; a big-step derivation relation over (table, source) is the specification; the run of the machine is related to it by induction on fuel / on derivations. Consequences: no panic, unique tree, tiling, leaf texts, errors. NUL findings proved as `_refuted` with witnesses."
  },
  {
   "property": "C20",
   "status": "proved",
   "theorems": [
    "C20_interleaving_results",
    "C20_interleaving_map",
    "C20_refuted_data_race"
   ],
   "note": "Sequentially consistent interleavings; that the map writes race is itself a theorem."
  },
  {
   "property": "C21",
   "status": "proved",
   "theorems": [
    "C21_terminates",
    "C21_one_result"
   ],
   "note": "Proof: fuel bound from the number of set bits still missing."
  },
  {
   "property": "C22",
   "status": "proved",
   "theorems": [
    "C22_first_sets"
   ],
   "note": "Proof: invariants (soundness: every bit has a derivation; completeness: fixpoint closed under rules), against textbook definitions by sentential-form rewriting in a separate `Spec_Grammar.v`."
  },
  {
   "property": "C23",
   "status": "proved",
   "theorems": [
    "C23_follow_sets",
    "C23_textbook_rules",
    "C23_textbook",
    "C23_refuted_general"
   ],
   "note": "Least sets closed under the code's four rules; equal to textbook FOLLOW under the stated condition; refuted in general in both directions."
  },
  {
   "property": "C24",
   "status": "proved",
   "theorems": [
    "C24_rows",
    "C24_operands",
    "C24_only_input_errors",
    "C24_never_panics"
   ],
   "note": "Proof: direct analysis of `makeTableRow`."
  },
  {
   "property": "C25",
   "status": "proved",
   "theorems": [
    "C25_names",
    "C25_names_distinct_heads"
   ],
   "note": "Proof: direct analysis of `makeTableRow`."
  },
  {
   "property": "C26",
   "status": "proved",
   "theorems": [
    "C26_cells",
    "C26_cells_unique",
    "C26_textbook"
   ],
   "note": "Proof: direct analysis of `makeTableRow`."
  },
  {
   "property": "C27",
   "status": "proved",
   "theorems": [
    "C27_sound"
   ],
   "note": "Proof: relate table derivations to grammar derivations; LL(1) stated in `Spec_Grammar.v`."
  },
  {
   "property": "C28",
   "status": "proved",
   "theorems": [
    "C28_complete",
    "C28_complete_syntactic",
    "C28_refuted_word_rejected",
    "C28_refuted_grammar_refused"
   ],
   "note": "Complete when the code's FOLLOW is right on nullable rules; for all LL(1) grammars refuted by two witnesses."
  },
  {
   "property": "C29",
   "status": "proved",
   "theorems": [
    "C29_reported",
    "C29_last_empty_reported",
    "C29_refuted_first_first",
    "C29_refuted_first_follow"
   ],
   "note": "The exact condition of the reported error is proved; the claim as such is refuted by two witnesses."
  },
  {
   "property": "C30",
   "status": "proved",
   "theorems": [
    "C30_undefined_only_shadowed",
    "C30_undefined_reported",
    "C30_refuted_general"
   ],
   "note": "Exact shadowing condition; the unrestricted claim is refuted."
  },
  {
   "property": "C31",
   "status": "proved",
   "theorems": [
    "C31_no_panic",
    "C31_refuted_general"
   ],
   "note": "No panic on plain grammars; the panicking cases outside are shown."
  },
  {
   "property": "C32",
   "status": "proved",
   "theorems": [
    "C32_order_irrelevant"
   ],
   "note": "Proof: direct analysis of `makeTableRow`."
  },
  {
   "property": "C33",
   "status": "proved",
   "theorems": [
    "C33_terminates",
    "C33_diverges",
    "C33_refuted_left_recursive"
   ],
   "note": "Termination for every LL(1) grammar; general divergence criterion with a left-recursive witness."
  },
  {
   "property": "C34",
   "status": "proved",
   "theorems": [
    "C34_read_back",
    "C34_one_line",
    "C34_injective",
    "C34_notation"
   ],
   "note": "Proof: independent inductive specification of the BNF concrete syntax (`Spec_Bnf.v`), equivalence proved both ways."
  },
  {
   "property": "C35",
   "status": "proved",
   "theorems": [
    "C35_pipeline",
    "C35_unambiguous"
   ],
   "note": "Proof: independent inductive specification of the BNF concrete syntax (`Spec_Bnf.v`), equivalence proved both ways."
  },
  {
   "property": "C36",
   "status": "proved",
   "theorems": [
    "C36_round_trip",
    "C36_injective",
    "C36_refuted_unprintable"
   ],
   "note": "Proof: independent inductive specification of the BNF concrete syntax (`Spec_Bnf.v`), equivalence proved both ways."
  },
  {
   "property": "C37",
   "status": "proved",
   "theorems": [
    "C37_reads_itself",
    "C37_example_succeeds"
   ],
   "note": "Proof: independent inductive specification of the BNF concrete syntax (`Spec_Bnf.v`), equivalence proved both ways."
  },
  {
   "property": "C38",
   "status": "proved",
   "theorems": [
    "C38_never_fails"
   ],
   "note": "Proof: independent inductive specification of the BNF concrete syntax (`Spec_Bnf.v`), equivalence proved both ways."
  },
  {
   "property": "C39",
   "status": "proved",
   "theorems": [
    "C39_normal_form",
    "C39_idempotent"
   ],
   "note": "Proof: independent inductive specification of the BNF concrete syntax (`Spec_Bnf.v`), equivalence proved both ways."
  },
  {
   "property": "C40",
   "status": "proved",
   "theorems": [
    "C40_search",
    "C40_found_nodes",
    "C40_first_error"
   ],
   "note": "Proof: structural induction over trees; independent list-of-visits specification."
  },
  {
   "property": "C41",
   "status": "proved",
   "theorems": [
    "C41_ignored_is_a_set",
    "C41_ignored_iff_listed"
   ],
   "note": "Proof: sortedness and binary search. C42, C43: instances, by a verified checker evaluated on the literal grammar."
  },
  {
   "property": "C42",
   "status": "proved",
   "theorems": [
    "C42_ll1",
    "C42_generated",
    "C42_decides"
   ],
   "note": "Proof: instance of C27, C28, C33, C47 for the literal self grammar, whose conditions a verified checker establishes by computation."
  },
  {
   "property": "C43",
   "status": "proved",
   "theorems": [
    "C43_read",
    "C43_ll1",
    "C43_generated",
    "C43_decides"
   ],
   "note": "Also for sources with NUL bytes, up to the first one."
  },
  {
   "property": "C44",
   "status": "proved",
   "theorems": [
    "C44_comparison"
   ],
   "note": "Proof: direct."
  },
  {
   "property": "C45",
   "status": "proved",
   "theorems": [
    "C45_no_panic",
    "C45_refuted_short_text"
   ],
   "note": "Proof: direct."
  },
  {
   "property": "C46",
   "status": "proved",
   "theorems": [
    "C46_verbatim_without_type_16",
    "C46_refuted_bindings"
   ],
   "note": "Proof: direct."
  },
  {
   "property": "C47",
   "status": "proved",
   "theorems": [
    "C47_before_nul",
    "C47_nul_ends_input",
    "C47_generated",
    "C47_bnf_parser",
    "C47_bnf_pipeline",
    "C47_conversion_never_fails"
   ],
   "note": "Proof: two runs related position by position (a NUL stands for the end of input); conversion depends on spans only."
  },
  {
   "property": "C48",
   "status": "proved",
   "theorems": [
    "C48_only_spans",
    "C48_longer_text"
   ],
   "note": "Proof: two runs related position by position (a NUL stands for the end of input); conversion depends on spans only."
  },
  {
   "property": "C49",
   "status": "proved",
   "theorems": [
    "C49_end_to_end",
    "C49_only_from_bnf"
   ],
   "note": "Proof: composition of C35, C28, C33 and C47."
  },
  {
   "property": "C50",
   "status": "proved",
   "theorems": [
    "C50_accepts_json",
    "C50_unambiguous",
    "C50_refuted_standard_json"
   ],
   "note": "Independent dialect in Spec_Json.v; that it is not standard JSON is shown by witnesses."
  },
  {
   "property": "C51",
   "status": "proved",
   "theorems": [
    "C51_key_listing"
   ],
   "note": "Proof: JSON dialect specified without reference to json.bnf; equivalence through the words of the grammar that the model reads from the literal file; the visitor by induction on values."
  },
  {
   "property": "C52",
   "status": "proved",
   "theorems": [
    "C52_program",
    "C52_bad_grammar_file",
    "C52_missing_files"
   ],
   "note": "Error texts of fatalError and OS errors are not modelled, only which error it was called with."
  },
  {
   "property": "C53",
   "status": "proved",
   "theorems": [
    "C53_unambiguous",
    "C53_parser_tree",
    "C53_refuted_full_tree"
   ],
   "note": "Proof: unambiguity from uniqueness of table derivations, then the returned tree as an image of the parse tree."
  },
  {
   "property": "C54",
   "status": "proved",
   "theorems": [
    "C54_linear"
   ],
   "note": "Proof: potential function over the two stacks; at most (number of rules) expansions between two consumed bytes."
  },
  {
   "property": "C55",
   "status": "proved",
   "theorems": [
    "C55_reads",
    "C55_fails",
    "C55_panics"
   ],
   "note": "Proof: agreement lemma between every converter function and an inference rule, for arbitrary trees and bindings."
  },
  {
   "property": "C56",
   "status": "proved",
   "theorems": [
    "C56_alone",
    "C56_one_after_the_other",
    "C56_sorted_slice",
    "C56_no_endless_sorting",
    "C56_never_stuck",
    "C56_refuted_unsorted"
   ],
   "note": "Proof: interleaving machine of the in-place insertion sort; sequential correctness of the sort by loop invariants, invariant for sorted slices, ranking function for termination, witness schedule for unsorted ones."
  },
  {
   "property": "C57",
   "status": "proved",
   "theorems": [
    "C57_error_position_general",
    "C57_errors_right",
    "C57_error_local",
    "C57_error_position",
    "C57_matched_viable",
    "C57_bnf_and_json"
   ],
   "note": "Proof: forms reached by the parser are generated by the grammar (productive: they derive words); errors depend on a prefix only. The general versions need no productivity: they say what an error position is when some form derives no word."
  },
  {
   "property": "C58",
   "status": "proved",
   "theorems": [
    "C58_returns_iff",
    "C58_no_cycle",
    "C58_no_left_recursion",
    "C58_refuted_nul_terminal"
   ],
   "note": "Proof: an infinite run has an infinite run of rewritings at one position, which on finitely many rows repeats a row."
  },
  {
   "property": "C59",
   "status": "proved",
   "theorems": [
    "C59_same_trees",
    "C59_same_errors",
    "C59_symmetric",
    "C59_still_accepted",
    "C59_refuted_acceptance",
    "C59_refuted_first_first"
   ],
   "note": "Proof: simulation between the two tables (corresponding cells hold corresponding operands), on derivations and on rewriting."
  },
  {
   "property": "C60",
   "status": "proved",
   "theorems": [
    "C60_printout",
    "C60_parsed_trees",
    "C60_order_not_visible"
   ],
   "note": "Proof: induction over trees, over iteration orders, over blocks of the buffer (`Spec_TestTools.v`)."
  },
  {
   "property": "C61",
   "status": "proved",
   "theorems": [
    "C61_map_comparison"
   ],
   "note": "Proof: induction over trees, over iteration orders, over blocks of the buffer (`Spec_TestTools.v`)."
  },
  {
   "property": "C62",
   "status": "proved",
   "theorems": [
    "C62_passes_iff",
    "C62_same_length",
    "C62_refuted_lengths",
    "C62_refuted_pieces"
   ],
   "note": "Proof: induction over trees, over iteration orders, over blocks of the buffer (`Spec_TestTools.v`)."
  },
  {
   "property": "C63",
   "status": "proved",
   "theorems": [
    "C63_result",
    "C63_nothing_overwritten",
    "C63_table_and_trees_survive",
    "C63_tree_is_final"
   ],
   "note": "Proof: simulation between the parser with memory and the parser with lists; the invariant keeps the two stacks, the arrays of finished children and the caller's arrays apart (an explicit list of owned addresses without repetitions)."
  },
  {
   "property": "C64",
   "status": "proved",
   "theorems": [
    "C64_own_list"
   ],
   "note": "Proof: simulation between the parser with memory and the parser with lists; the invariant keeps the two stacks, the arrays of finished children and the caller's arrays apart (an explicit list of owned addresses without repetitions)."
  },
  {
   "property": "C65",
   "status": "proved",
   "theorems": [
    "C65_every_word",
    "C65_handled",
    "C65_every_word_general",
    "C65_handled_general",
    "C65_same_follow"
   ],
   "note": "Proof: (also for grammars with rules that derive nothing, `TGWords.v`) words in which a chosen non-terminal derives nothing before a chosen byte; the accepting run must leave it out there."
  },
  {
   "property": "C66",
   "status": "proved",
   "theorems": [
    "C66_set_aside",
    "C66_outcome",
    "C66_sound",
    "C66_complete",
    "C66_every_word"
   ],
   "note": "Proof: FIRST sets and rows computed for the two grammars are equal call by call; FOLLOW sets exact by a variant of the C23 proof. `C66_every_word` gives the exact condition for all words, without productivity."
  },
  {
   "property": "C67",
   "status": "proved",
   "theorems": [
    "C67_outcome",
    "C67_outcome_distinct",
    "C67_accepted",
    "C67_undefined_name"
   ],
   "note": "Proof: every step either succeeds or its failure is one of the listed faults; conversely the last round of each fixpoint has looked at every place a fault could be, so success rules all of them out."
  },
  {
   "property": "C68",
   "status": "proved",
   "theorems": [
    "C68_result",
    "C68_silent",
    "C68_line",
    "C68_text_unique",
    "C68_line_unique"
   ],
   "note": "Proof: the same functions in a monad with output; erasure lemma, then the invariants of C26 followed up to the first occupied cell."
  },
  {
   "property": "C69",
   "status": "proved",
   "theorems": [
    "C69_lookups"
   ],
   "note": "Proof: the two runs go in lockstep; every non-terminal on the stack is reachable."
  },
  {
   "property": "C70",
   "status": "proved",
   "theorems": [
    "C70_nodes",
    "C70_linear"
   ],
   "note": "Proof: an iteration adds at most two nodes; with C54."
  },
  {
   "property": "C71",
   "status": "proved",
   "theorems": [
    "C71_result",
    "C71_nothing_overwritten",
    "C71_cells_own",
    "C71_cells_independent",
    "C71_tables_apart",
    "C71_parse"
   ],
   "note": "Proof: simulation between the generator with memory and the one with values; the invariant lists the arrays of all cells without repetition."
  },
  {
   "property": "C72",
   "status": "proved",
   "theorems": [
    "C72_result",
    "C72_nothing_else_written",
    "C72_grammar_own",
    "C72_parts_independent",
    "C72_then_FromGrammar"
   ],
   "note": "Proof: simulation between ToAST with memory and with values; the invariant lists the arrays of all finished and unfinished parts without repetition; the in-place sort is described place by place."
  },
  {
   "property": "C73",
   "status": "proved",
   "theorems": [
    "C73_no_overflow",
    "C73_no_overflow_soon",
    "C73_refuted_nul_terminal"
   ],
   "note": "Proof: simulation between the loop with wrapping ints and with natural numbers; the invariant (no NUL left to match, offset at most the length) keeps the offset in range. The witness for NUL terminals is by induction on the distance to the largest int."
  },
  {
   "property": "C74",
   "status": "proved",
   "theorems": [
    "C74_stacks",
    "C74_states",
    "C74_linear"
   ],
   "note": "Proof: induction over the iterations; with C54 for the number of iterations and C26 for the width of generated tables."
  },
  {
   "property": "C75",
   "status": "proved",
   "theorems": [
    "C75_readall",
    "C75_parse_reader",
    "C75_failing_reader",
    "C75_panicking_reader",
    "C75_unusable_table_reads_nothing",
    "C75_endless_reader",
    "C75_chunk_readers",
    "C75_refuted_contract"
   ],
   "note": "Full generality of Read except that it returns (no panic, no blocking) and does not keep the buffer; io.ReadAll of Go 1.19 is modelled too. C75_chunk_readers shows that the chunk lists used elsewhere are an instance."
  },
  {
   "property": "C76",
   "status": "proved",
   "theorems": [
    "C76_walk_any_node",
    "C76_nil_node",
    "C76_on_trees"
   ],
   "note": "Fuel bounds the recursion depth; C76_on_trees links this model of Walk to the one used elsewhere."
  },
  {
   "property": "C77",
   "status": "proved",
   "theorems": [
    "C77_restart_accepted",
    "C77_part_parses_alone",
    "C77_refuted_unused_rule"
   ],
   "note": "Proof: `derives` of the table of `g` on the part of a node is turned into `derives` of the table of the restarted grammar on that part alone: in front of the end of the part both tables select the same alternative; at the end the old table must have selected the empty cell (a symbol that can start with the next byte takes it), and the end of input is in the new FOLLOW set. Acceptance: a conflict of the restarted grammar is one of `g`, because something follows every rule that has a node."
  },
  {
   "property": "C78",
   "status": "proved",
   "theorems": [
    "C78_exchange",
    "C78_refuted_empty_part"
   ],
   "note": "Proof: splice of parse trees (`Spec_ParseTree`), then completeness (C65), uniqueness and `collapse` (C53)."
  },
  {
   "property": "C79",
   "status": "proved",
   "theorems": [
    "C79_exact_last",
    "C79_exact",
    "C79_ll1",
    "C79_word"
   ],
   "note": "Proof: C26 composed with C11 (table derivations and predictive derivations of the grammar are the same, by mutual induction); for LL(1) grammars by induction over the parse tree, the empty parts being found as in C65."
  },
  {
   "property": "C80",
   "status": "proved",
   "theorems": [
    "C80_refused_last",
    "C80_accepted_last",
    "C80_never_returns_last",
    "C80_refused",
    "C80_accepted",
    "C80_never_returns"
   ],
   "note": "Proof: simulation in both directions between rewriting with the table (C11, C19) and the predictive derivation of the grammar. C79 and C80 are proved relative to given FOLLOW sets and applied twice: names distinct, and names defined several times (C66)."
  },
  {
   "property": "C81",
   "status": "proved",
   "theorems": [
    "C81_generate",
    "C81_conflict_only",
    "C81_parser_exists",
    "C81_parser",
    "C81_words"
   ],
   "note": "Proof: grammars read from a BNF text are printable (C38), which excludes most faults of C67; composition of C35/C47 (reading), C67 (generation) and C79/C80 (parsing)."
  },
  {
   "property": "C82",
   "status": "proved",
   "theorems": [
    "C82_shorter_accepted",
    "C82_still_accepted",
    "C82_only_words",
    "C82_hints",
    "C82_refuted_same_texts"
   ],
   "note": "Proof: derivations from names of the front part stay in it; faults (C67), FOLLOW sets and predictive derivations (C79) are monotone in the added rules; hints: completeness (C28) of the longer grammar."
  },
  {
   "property": "C83",
   "status": "proved",
   "theorems": [
    "C83_len_rounds",
    "C83_bytes_rounds"
   ],
   "note": "rounds = the least bound on the loop with which the modelled loop returns; Add, Remove, Contains, Union, Equal have no loop in the model or in the code"
  },
  {
   "property": "C84",
   "status": "proved",
   "theorems": [
    "C84_replacement",
    "C84_parse",
    "C84_when"
   ],
   "note": "Proof: the two runs are compared step by step (same stacks up to the replaced operands) until one reaches a replaced operand; C07 and C19 for the table with replacements do the rest."
  },
  {
   "property": "C85",
   "status": "proved",
   "theorems": [
    "C85_numbers",
    "C85_message",
    "C85_parse",
    "C85_operand",
    "C85_grammar",
    "C85_ast"
   ],
   "note": "Proof: decimal notation by induction on the digits (unique both ways); byte texts are prefix-free; then case analysis on pairs of errors. That ToAST keeps its sentinels follows from C55."
  },
  {
   "property": "C86",
   "status": "proved",
   "theorems": [
    "C86_independent",
    "C86_maps",
    "C86_fresh",
    "C86_reader_once"
   ],
   "note": "Proof: two worlds are alike if they differ only in the names -1 and -2 and in sources that have been read; Parse reads no name below 0, so alike worlds give the same answers; induction on the history."
  },
  {
   "property": "C87",
   "status": "proved",
   "theorems": [
    "C87_results",
    "C87_no_waiting",
    "C87_maps",
    "C87_race",
    "C87_separate"
   ],
   "note": "Proof: what a call has reached depends only on the number of its turns (invariant: maps differ from the initial ones at -1 and -2 only, which no call reads); the race theorem constructs the schedule, and conversely reads off the outcome alone from the state before the access."
  },
  {
   "property": "C88",
   "status": "proved",
   "theorems": [
    "C88_json",
    "C88_json_exact",
    "C88_json_forever",
    "C88_json_stable",
    "C88_json_messages"
   ],
   "note": "Proof: stage by stage from C42, C47 (reading the grammar file), C67, C68 (its faults and the printed line), C79, C80 (reading the data), C85 (texts); the key listing by induction on the tree; all stages are monotone in the fuel, so exactly one outcome is reached or none ever."
  },
  {
   "property": "C89",
   "status": "proved",
   "theorems": [
    "C89_no_injection",
    "C89_round_trip_exactly",
    "C89_same_text",
    "C89_refuted_names"
   ],
   "note": "Proof: a reader for one symbol (up to the closing bracket or quote) that printed symbols and symbols of the notation have in common; then sequences, alternatives, rules and lines by induction on the printed grammar; C47 for texts with byte 0."
  },
  {
   "property": "C90",
   "status": "proved",
   "theorems": [
    "C90_added_cells",
    "C90_gets_as_far"
   ],
   "note": "Proof: step-by-step comparison of the two runs; rewriting with the smaller table is rewriting with the larger one; determinism and monotone positions give how far the larger one gets."
  },
  {
   "property": "C91",
   "status": "proved",
   "theorems": [
    "C91_trees",
    "C91_one_outcome",
    "C91_only_visited",
    "C91_panics",
    "C91_nil",
    "C91_endless"
   ],
   "note": "Proof: one relational induction over the whole converter compares two structures level by level (the same structure with more fuel, a structure with a tree that looks like it); on trees the general converter equals the modelled one; that a method panic is needed for any other panic by a decidable search down to the fuel's depth."
  },
  {
   "property": "C92",
   "status": "proved",
   "theorems": [
    "C92_smaller_accepted",
    "C92_backwards_compatible",
    "C92_same_trees",
    "C92_ll1",
    "C92_refuted_without_conditions"
   ],
   "note": "Proof: derivations, FIRST, FOLLOW and conflicts are monotone in the grammar; with C26 every cell of the old table is a cell of the new one; then C90. For LL(1): no rule that can be empty starts with what follows it, by induction on the derivation of the first byte."
  },
  {
   "property": "C93",
   "status": "proved",
   "theorems": [
    "C93_standard_accepted",
    "C93_standard_keys",
    "C93_one_reading",
    "C93_beyond_standard"
   ],
   "note": "Exact comparison of the example with standard JSON in both directions; UTF-8 validity of standard texts is left open (superset), which only makes the first part stronger."
  },
  {
   "property": "C94",
   "status": "proved",
   "theorems": [
    "C94_same_result",
    "C94_visits",
    "C94_reading_bnf"
   ],
   "note": "Counts calls of Visit; the work between two visits (binary search in IgnoreNodeTypes, slicing, map lookup, append) is not counted."
  },
  {
   "property": "C95",
   "status": "proved",
   "theorems": [
    "C95_renumbered",
    "C95_reordered",
    "C95_bnf",
    "C95_refuted_16"
   ],
   "note": "C95_refuted_16 shows that the condition on number 16 is needed (finding 9)."
  },
  {
   "property": "C96",
   "status": "proved",
   "theorems": [
    "C96_parse",
    "C96_generated",
    "C96_pipeline",
    "C96_refuted_nul",
    "C96_refuted_eol"
   ],
   "note": "C96_refuted_nul and C96_refuted_eol show that the conditions are needed."
  },
  {
   "property": "C97",
   "status": "proved",
   "theorems": [
    "C97_same_result",
    "C97_rounds",
    "C97_at_least",
    "C97_cubic",
    "C97_from_text"
   ],
   "note": "Counted are the rounds of the for loops; what a round does besides inner loops (operations on four words, map accesses, comparisons of names, appends) is not counted."
  },
  {
   "property": "C98",
   "status": "proved",
   "theorems": [
    "C98_parse",
    "C98_generated",
    "C98_pipeline",
    "C98_refuted_empty_piece"
   ],
   "note": "Proof: simulation. The FIRST and FOLLOW computations are equal for both grammars (only the first byte of a terminal is looked at, and the walk over a sequence passes the extra terminals by); the cells are related by induction over the loops that fill them. Parse: both tables have the same rewriting steps (C11, C19), and a derivation tree of the one is turned into one of the other by induction."
  },
  {
   "property": "C99",
   "status": "proved",
   "theorems": [
    "C99_same_result",
    "C99_walk",
    "C99_toast",
    "C99_six_more",
    "C99_reading_bnf",
    "C99_depth_of_text"
   ],
   "note": "Proof: the functions carry the depth along; erasing it gives back the functions of `Cst.v` and `FromCst.v`. Each search restarts at the node the previous one found, so seven nested searches along a path count six nodes twice. The deep tree is given explicitly and found by C11."
  },
  {
   "property": "C100",
   "status": "proved",
   "theorems": [
    "C100_grammars",
    "C100_trees",
    "C100_parser",
    "C100_errors"
   ],
   "note": "Proof: the version without helpers is the one with them after inlining, a function on symbols; derivations are mapped both ways along it, so FIRST, nullable and FOLLOW of the old rules agree, and a helper has one alternative only. Trees by mutual induction in both directions. The parsers by C53, C57."
  },
  {
   "property": "C101",
   "status": "proved",
   "theorems": [
    "C101_short",
    "C101_always_possible",
    "C101_every_ll1_grammar"
   ],
   "note": "Proof: C28 for alternatives of at most two symbols, C100 for the way back. The helpers are found by induction over the number of symbols beyond the second of all alternatives; a new name is a long enough one."
  },
  {
   "property": "C102",
   "status": "proved",
   "theorems": [
    "C102_repetition",
    "C102_option_and_list",
    "C102_tree"
   ],
   "note": "Proof: words by induction over the height of the derivation and over the number of rounds. Trees: by C53 the tree is a parse tree with empty rules cut; a body that can be empty would not be LL(1), so every round takes a byte and the induction is over the bytes left."
  },
  {
   "property": "C103",
   "status": "proved",
   "theorems": [
    "C103_reduced",
    "C103_trees",
    "C103_parser",
    "C103_every_ll1_grammar"
   ],
   "note": "Proof: derivations from forms with reachable names only use reachable rules. The rules are found by moving one mentioned rule after the other to the live ones until none is left. Parsers by C29, C79 (predictive derivations, renumbered); C101 for the last part."
  },
  {
   "property": "C104",
   "status": "proved",
   "theorems": [
    "C104_choice",
    "C104_sequence",
    "C104_parsers"
   ],
   "note": "Proof: forms over the names of one of the grammars derive the same in the combination, and a derivation from two neighbouring parts is one from each, which gives words, FIRST and FOLLOW of the combination exactly; the generator's four FOLLOW rules by induction both ways. Parsers by C27, C28."
  },
  {
   "property": "C105",
   "status": "proved",
   "theorems": [
    "C105_first_bytes",
    "C105_zero_is_empty",
    "C105_refuted_zero_terminal"
   ],
   "note": "Relational proof over every function of the generator; the zero-byte part gives equality of the whole result (table, names, error, panic)."
  },
  {
   "property": "C106",
   "status": "proved",
   "theorems": [
    "C106_same_result",
    "C106_rounds",
    "C106_rounds_success",
    "C106_allocated",
    "C106_linear",
    "C106_go"
   ],
   "note": "Timed model proved equal to Parse; allocation on the memory model of C63. Not counted: reading the source, and map operations (constant in the model of C63)."
  },
  {
   "property": "C107",
   "status": "proved",
   "theorems": [
    "C107_tokens",
    "C107_layout",
    "C107_pipeline",
    "C107_line_ends",
    "C107_blanks",
    "C107_empty_lines",
    "C107_refuted_first_line"
   ],
   "note": "C107_layout is about the documented notation, C107_pipeline through FromGrammar(SelfGrammar), Parse and ToAST."
  },
  {
   "property": "C108",
   "status": "proved",
   "theorems": [
    "C108_values",
    "C108_operands_kept"
   ],
   "note": "C108_values: the output of every program; C108_operands_kept: word-level frame of each statement (also the 'changes no operands' of C04)."
  },
  {
   "property": "C109",
   "status": "proved",
   "theorems": [
    "C109_words",
    "C109_parser",
    "C109_with_helpers",
    "C109_trees",
    "C109_tree",
    "C109_needed"
   ],
   "note": "C109_words for grammars, C109_parser and C109_with_helpers for the generated parser, C109_trees and C109_tree for trees, C109_needed for the failure before."
  },
  {
   "property": "C110",
   "status": "proved",
   "theorems": [
    "C110_text",
    "C110_table_test",
    "C110_passed_test",
    "C110_refuted_error_test"
   ],
   "note": "C110_text: the text determines the table; C110_table_test: exactness of the tests; C110_passed_test: its meaning for parsers; C110_refuted_error_test: the disabled test."
  },
  {
   "property": "C111",
   "status": "proved",
   "theorems": [
    "C111_parser_tests",
    "C111_refuted_names",
    "C111_independent",
    "C111_update",
    "C111_naming_test"
   ],
   "note": "C111_parser_tests, C111_independent, C111_update, C111_naming_test; C111_refuted_names for names with blanks."
  },
  {
   "property": "C112",
   "status": "proved",
   "theorems": [
    "C112_rows",
    "C112_total",
    "C112_wide",
    "C112_from_text",
    "C112_allocated"
   ],
   "note": "C112_rows, C112_total, C112_from_text: bounds; C112_wide: the factor is needed; C112_allocated: allocation, garbage included."
  },
  {
   "property": "C113",
   "status": "proved",
   "theorems": [
    "C113_selection",
    "C113_no_names",
    "C113_repository",
    "C113_runs",
    "C113_missing",
    "C113_stuck"
   ],
   "note": "C113_selection, C113_no_names, C113_repository: the tests selected; C113_runs, C113_missing, C113_stuck: what is run and the exit code."
  },
  {
   "property": "C114",
   "status": "proved",
   "theorems": [
    "C114_results",
    "C114_progress",
    "C114_nothing_overwritten",
    "C114_writes_own",
    "C114_no_race",
    "C114_cells_own",
    "C114_tables_apart",
    "C114_alone"
   ],
   "note": "C114_results, C114_progress, C114_alone: results and termination under every schedule, and the tie to C71; C114_no_race, C114_writes_own, C114_nothing_overwritten: races and shared memory; C114_cells_own, C114_tables_apart: ownership. Go maps made by a call (ruleMap, rows, table) are part of the call's state, as they reach nobody else before it returns; steps are atomic, which the absence of races justifies."
  },
  {
   "property": "C115",
   "status": "proved",
   "theorems": [
    "C115_results",
    "C115_progress",
    "C115_final",
    "C115_nothing_overwritten",
    "C115_writes_own",
    "C115_no_race",
    "C115_trees_apart",
    "C115_alone"
   ],
   "note": "C115_results, C115_progress, C115_final, C115_alone: results under every schedule and the tie to C63; C115_no_race, C115_writes_own, C115_nothing_overwritten: races and shared memory; C115_trees_apart: the trees. Complements C87 (races on shared naming maps, whole iterations as steps): here naming maps and readers are each call's own. Steps are atomic, which the absence of races justifies."
  },
  {
   "property": "C116",
   "status": "proved",
   "theorems": [
    "C116_results",
    "C116_progress",
    "C116_final",
    "C116_nothing_overwritten",
    "C116_writes_own",
    "C116_no_race",
    "C116_alone",
    "C116_trees_apart",
    "C116_tables_apart"
   ],
   "note": "C116_results (spec: as_alone), C116_progress, C116_final, C116_alone: results under every schedule and the tie to C71 and C63; C116_no_race, C116_writes_own, C116_nothing_overwritten: races and shared memory; C116_trees_apart, C116_tables_apart. Naming maps and readers are each goroutine's own (shared naming maps: C87). Steps are atomic, which the absence of races justifies."
  },
  {
   "property": "C117",
   "status": "proved",
   "theorems": [
    "C117_results",
    "C117_progress",
    "C117_final",
    "C117_nothing_overwritten",
    "C117_writes_own",
    "C117_no_race",
    "C117_grammars_apart",
    "C117_alone"
   ],
   "note": "C117_results, C117_progress, C117_final: outcome under every schedule; C117_no_race, C117_writes_own, C117_nothing_overwritten, C117_grammars_apart: memory; C117_alone: the tie to C72's model. Trees, texts and bindings are values (ToAST only reads them; the sort of a shared IgnoreNodeTypes is C56). Steps are atomic, which the absence of races justifies."
  },
  {
   "property": "C118",
   "status": "proved",
   "theorems": [
    "C118_separate",
    "C118_builders",
    "C118_converters",
    "C118_progress",
    "C118_nothing_overwritten",
    "C118_writes_own",
    "C118_no_race",
    "C118_then_build"
   ],
   "note": "C118_separate: the run is the two separate runs; C118_builders, C118_converters, C118_progress: outcomes; C118_no_race, C118_writes_own, C118_nothing_overwritten: memory; C118_then_build: convert, then build and parse. Within one phase, goroutines build from grammars that stood in memory when it began."
  },
  {
   "property": "C119",
   "status": "proved",
   "theorems": [
    "C119_results",
    "C119_final",
    "C119_progress",
    "C119_nothing_overwritten",
    "C119_writes_own",
    "C119_no_race",
    "C119_trees_apart",
    "C119_tables_apart",
    "C119_grammars_apart"
   ],
   "note": "C119_results: outcomes; C119_final: they stay; C119_no_race, C119_writes_own, C119_nothing_overwritten: memory. C119_progress: a goroutine with infinitely many turns ends. C119_trees_apart, C119_tables_apart, C119_grammars_apart: ownership."
  },
  {
   "property": "C120",
   "status": "proved",
   "theorems": [
    "C120_end_to_end",
    "C120_gets_there"
   ],
   "note": "C120_end_to_end: the outcome; C120_gets_there: that it is reached. The tree of the BNF text is a value, as in C119."
  }
 ]
}