(** * Spec_Messages: numbers, bytes and operands as text. *)
From Verif Require Import Base Parser TableGen FromCst.

(** Decimal notation without leading zeros. *)
Definition digits : list ascii := s2b "0123456789".
Inductive decimal : N -> bytes -> Prop :=
| de_digit d c : nth_error digits d = Some c -> decimal (N.of_nat d) [c]
| de_more n text d c :
    (0 < n)%N -> decimal n text -> nth_error digits d = Some c ->
    decimal (10 * n + N.of_nat d) (text ++ [c]).
Inductive integer : Z -> bytes -> Prop :=
| in_natural n text : decimal n text -> integer (Z.of_N n) text
| in_negative n text : (0 < n)%N -> decimal n text -> integer (- Z.of_N n) ("-"%char :: text).

(** A byte as a character: below 128 itself, from 128 the two bytes of UTF-8
    whose payload (the last 5 and 6 bits) is its number. *)
Inductive character : ascii -> bytes -> Prop :=
| ch_ascii c : (code c < 128)%N -> character c [c]
| ch_two c x y :
    (128 <= code c)%N -> (192 <= code x < 224)%N -> (128 <= code y < 192)%N ->
    code c = (64 * (code x - 192) + (code y - 128))%N -> character c [x; y].

(** A byte in a message: the character in quotes and the number. *)
Inductive byte_text : ascii -> bytes -> Prop :=
| bt c text number : character c text -> decimal (code c) number ->
    byte_text c (s2b "'" ++ text ++ s2b "' (" ++ number ++ s2b ")").

(** An operand as fmt prints it (its fields in braces; a byte as a number), and
    a line with a list of them. *)
Inductive operand_text : ParserOp -> bytes -> Prop :=
| ot_row n number : integer n number -> operand_text (OpNonTerminal n) (s2b "{" ++ number ++ s2b "}")
| ot_terminal value : operand_text (OpTerminal value) (s2b "{" ++ value ++ s2b "}")
| ot_node n start parts number text text' :
    integer n number -> decimal (N.of_nat start) text -> decimal (N.of_nat parts) text' ->
    operand_text (OpFunction n start parts)
      (s2b "{" ++ number ++ s2b " " ++ text ++ s2b " " ++ text' ++ s2b "}")
| ot_end : operand_text OpEOS (s2b "{}")
| ot_byte c number : decimal (code c) number ->
    operand_text (OpChar c) (s2b "{" ++ number ++ s2b "}")
| ot_nil : operand_text OpNil (s2b "<nil>")
| ot_embedded_row n number : integer n number ->
    operand_text (OpEmbedding (EmbNonTerminal n)) (s2b "{{" ++ number ++ s2b "}}")
| ot_embedded_terminal value :
    operand_text (OpEmbedding (EmbTerminal value)) (s2b "{{" ++ value ++ s2b "}}")
| ot_embedded_nil : operand_text (OpEmbedding EmbNil) (s2b "{<nil>}").
Inductive operands_text : list ParserOp -> bytes -> Prop :=
| os_none : operands_text [] []
| os_one op text : operand_text op text -> operands_text [op] text
| os_more op text ops rest :
    ops <> [] -> operand_text op text -> operands_text ops rest ->
    operands_text (op :: ops) (text ++ s2b " " ++ rest).
Inductive line_of : list ParserOp -> bytes -> Prop :=
| li ops text : operands_text ops text -> line_of ops (s2b "[" ++ text ++ s2b "]" ++ [LF]).

(** The message of each error of Parse. *)
Inductive message : perror -> bytes -> Prop :=
| me_no_row name : message (ENoRulesForNonTerminal name) (s2b "no rules for non terminal: " ++ name)
| me_no_cell c name text : byte_text c text ->
    message (ENoRulesForByte c name) (s2b "no rules for " ++ text ++ s2b " and non terminal op <" ++ name ++ s2b ">")
| me_eol c text : byte_text c text ->
    message (ENoRulesEOL c) (s2b "no rules for " ++ text ++ s2b " and builtin terminal op <EOL>")
| me_builtin n number : integer n number ->
    message (EUnknownBuiltin n) (s2b "unknown built in type: " ++ number)
| me_end c text : byte_text c text ->
    message (EExpectedEnd c) (s2b "expected end of input got " ++ text)
| me_stack : message EProdStackEmpty (s2b "prod stack empty")
| me_char want got text text' : byte_text want text -> byte_text got text' ->
    message (EExpectedChar want got) (s2b "expected char " ++ text ++ s2b ", got " ++ text')
| me_empty : message EEmptySource (s2b "empty source")
| me_invalid : message EInvalidSource (s2b "invalid source")
| me_reader msg : message (EReader msg) msg
| me_table : message EEmptyTable (s2b "empty parsing table")
| me_entry : message ENoBaseEntry (s2b "can't start parsing: no rule for base entry point - 0").

(** The message of each error of FromGrammar; [typename] is Go's name of the
    type of the symbol that is none of the package's. *)
Inductive grammar_message (typename : bytes) : tgerror -> bytes -> Prop :=
| gm_nothing : grammar_message typename ENothingNotSingle (s2b "empty string is not a single sequence symbol")
| gm_no_rule name : grammar_message typename (ENoRulesDefined name)
    (s2b "no rules defined for non terminal <" ++ name ++ s2b ">")
| gm_index : grammar_message typename ERuleIndex (s2b "ruleIndex exceeding grammar rules")
| gm_terminal : grammar_message typename EEmptyTerminal (s2b "terminal with empty string check grammar")
| gm_symbol : grammar_message typename EUnknownSymbol (s2b "symbol of unknown type: " ++ typename)
| gm_sequence : grammar_message typename EEmptySequence (s2b "empty sequencese")
| gm_num : grammar_message typename ERuleNum (s2b "ruleNum exceeding grammar rules")
| gm_target : grammar_message typename ETargetRuleNum (s2b "targetRuleNum exceeding grammar rules")
| gm_conflict : grammar_message typename EConflict (s2b "grammar lead to multiple parser op sets per table cell").

(** The message of each error ToAST returns. *)
Inductive ast_message : fcerror -> bytes -> Prop :=
| am_escape text : ast_message (EUnknownEscape text) (s2b "unkknown escape character: " ++ text)
| am_no_escape : ast_message EEscapeNotFound (s2b "not found escape character")
| am_symbol text : ast_message (ESymbolType text) (s2b "could not determine terminal type of `" ++ text ++ s2b "`")
| am_name text : ast_message (ENoRuleName text) (s2b "could not find rule name in `" ++ text ++ s2b "`")
| am_substitution text : ast_message (ENoRuleSubstitution text)
    (s2b "could not find rule substitution in `" ++ text ++ s2b "`").
