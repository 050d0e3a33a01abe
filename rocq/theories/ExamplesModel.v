(** * ExamplesModel: model of test/testgrammars/testgrammars.go and
    examples/json/json.bnf (data only; code of the examples is in other files) *)
From Verif Require Import Base Ast.

(** testgrammars.go:8-54 [LinearMultiRule] *)
Definition LinearMultiRule : grammar :=
  [ mkRule (s2b "Expr") [[STerminal (s2b "A"); STerminal (s2b "::="); SNonTerminal (s2b "T")]];
    mkRule (s2b "T") [[STerminal (s2b "C")]] ].

(** testgrammars.go:56-112 [Or] *)
Definition OrGrammar : grammar :=
  [ mkRule (s2b "A") [[STerminal [DQ]; SNonTerminal (s2b "T"); STerminal (s2b "^")]];
    mkRule (s2b "T") [[STerminal (s2b "B")]; [STerminal (s2b "C")]; [SNothing]] ].

(** testgrammars.go:114-148 [LRecursive] *)
Definition LRecursive : grammar :=
  [ mkRule (s2b "T") [[STerminal (s2b "_")]; [SNonTerminal (s2b "T"); STerminal (s2b "B")]] ].

(** testgrammars.go:150-208 [ResolvedLRecursive] *)
Definition ResolvedLRecursive : grammar :=
  [ mkRule (s2b "T") [[STerminal (s2b "_"); SNonTerminal (s2b "Ta")]];
    mkRule (s2b "Ta") [[SNothing]; [STerminal (s2b "B"); SNonTerminal (s2b "Ta")]] ].

(** One line of a text file: the line and its newline. *)
Definition line (s : String.string) : bytes := s2b s ++ [LF].
Arguments line s%string_scope.

(** examples/json/json.bnf, the whole file *)
Definition json_bnf : bytes :=
  line "<json> ::= <element>" ++
  line "<element> ::= <opt-whitespaced-value>" ++
  line "<opt-value-list> ::=  """" | <opt-whitespaced-value> <opt-value-list-tail>" ++
  line "<opt-value-list-tail> ::= """" | "","" <opt-whitespaced-value> <opt-value-list-tail>" ++
  line "<opt-key-value-list> ::= """" | <key-value> <opt-whitespace> <opt-key-value-list-tail>" ++
  line "<opt-key-value-list-tail> ::= """" | "","" <opt-whitespace> <key-value> <opt-whitespace> <opt-key-value-list-tail>" ++
  line "<key-value> ::= <string> <opt-whitespace> "":"" <opt-whitespace> <value>" ++
  line "<opt-whitespaced-value> ::= <opt-whitespace> <value> <opt-whitespace>" ++
  line "<value> ::= <object> | <array> | <string> | <number> | ""true"" | ""false"" | ""null""" ++
  line "<object> ::= ""{"" <opt-whitespace> <opt-key-value-list> ""}""" ++
  line "<array> ::= ""["" <opt-value-list> ""]""" ++
  line "<string> ::= '""' <text> '""'" ++
  line "<text> ::= """" | <character> <text>" ++
  line "<character> ::= <digit> | <letter> | <escape-sequence> | <symbol>" ++
  line "<escape-sequence> ::= '\\' <escape>" ++
  line "<escape> ::= '""' | '\\' | '/' | 'b' | 'f' | 'n' | 'r' | 't' | 'u' <hex> <hex> <hex>" ++
  line "<hex> ::= <digit> | ""A"" | ""B"" | ""C"" | ""D"" | ""E"" | ""F"" | ""a"" | ""b"" | ""c"" | ""d"" | ""e"" | ""f""" ++
  line "<number> ::= <integer> <fraction> <exponent>" ++
  line "<integer> ::= <opt-minus> <unsigned-integer>" ++
  line "<unsigned-integer> ::= ""0"" | <one-nine> <opt-digits>" ++
  line "<opt-minus> ::= """" | ""-""" ++
  line "<fraction> ::= """" | ""."" <digits>" ++
  line "<exponent> ::= """" | ""E"" <opt-sign> <digits> | ""e"" <opt-sign> <digits>" ++
  line "<digits> ::= <digit> <opt-digits>" ++
  line "<opt-digits> ::= """" | <digit> <opt-digits>" ++
  line "<opt-sign> ::= """" | ""+"" | ""-""" ++
  line "<digit> ::= ""0"" | <one-nine>" ++
  line "<one-nine> ::= ""1"" | ""2"" | ""3"" | ""4"" | ""5"" | ""6"" | ""7"" | ""8"" | ""9""" ++
  line "<letter> ::= ""A"" | ""B"" | ""C"" | ""D"" | ""E"" | ""F"" | ""G"" | ""H"" | ""I"" | ""J"" | ""K"" | ""L"" | ""M"" | ""N"" | ""O"" | ""P"" | ""Q"" | ""R"" | ""S"" | ""T"" | ""U"" | ""V"" | ""W"" | ""X"" | ""Y"" | ""Z"" | ""a"" | ""b"" | ""c"" | ""d"" | ""e"" | ""f"" | ""g"" | ""h"" | ""i"" | ""j"" | ""k"" | ""l"" | ""m"" | ""n"" | ""o"" | ""p"" | ""q"" | ""r"" | ""s"" | ""t"" | ""u"" | ""v"" | ""w"" | ""x"" | ""y"" | ""z""" ++
  line "<symbol> ::= ""|"" | "" "" | ""!"" | ""#"" | ""$"" | ""%"" | ""&"" | ""("" | "")"" | ""*"" | ""+"" | "","" | ""-"" | ""."" | ""/"" | "":"" | "";"" | "">"" | ""="" | ""<"" | ""?"" | ""@"" | ""["" | ""]"" | ""^"" | ""_"" | ""`"" | ""{"" | ""}"" | ""~"" | ""'""" ++
  line "<opt-whitespace> ::= """" | <space-symobls> <opt-whitespace>" ++
  line "<space-symobls> ::= "" "" | <EOL>" ++
  line "<EOL> ::= ""\n"" | ""\r\n""".
