(** * SelfGrammar: model of pkg/bnf/selfgrammar.go:59-1335 [SelfGrammar], the BNF
    grammar of BNF texts, as the literal value the Go function returns. *)
From Verif Require Import Base Ast.

(** selfgrammar.go:62.. rule 0 <syntax> *)
Definition self_rule_0 : rule := mkRule (s2b "syntax")
  [ [SNonTerminal (s2b "opt-whitespace"); SNonTerminal (s2b "content"); SNonTerminal (s2b "more-lines")] ].

(** selfgrammar.go:84.. rule 1 <more-lines> *)
Definition self_rule_1 : rule := mkRule (s2b "more-lines")
  [ [SNothing];
    [SNonTerminal (s2b "EOL"); SNonTerminal (s2b "line"); SNonTerminal (s2b "more-lines")] ].

(** selfgrammar.go:111.. rule 2 <line> *)
Definition self_rule_2 : rule := mkRule (s2b "line")
  [ [SNonTerminal (s2b "opt-whitespace"); SNonTerminal (s2b "opt-content")] ].

(** selfgrammar.go:133.. rule 3 <opt-content> *)
Definition self_rule_3 : rule := mkRule (s2b "opt-content")
  [ [SNonTerminal (s2b "content")];
    [SNothing] ].

(** selfgrammar.go:154.. rule 4 <content> *)
Definition self_rule_4 : rule := mkRule (s2b "content")
  [ [STerminal (s2b "<"); SNonTerminal (s2b "rule-name"); STerminal (s2b ">"); SNonTerminal (s2b "opt-whitespace"); STerminal (s2b "::="); SNonTerminal (s2b "opt-whitespace"); SNonTerminal (s2b "expression")] ].

(** selfgrammar.go:188.. rule 5 <expression> *)
Definition self_rule_5 : rule := mkRule (s2b "expression")
  [ [SNonTerminal (s2b "list"); SNonTerminal (s2b "expression-tail")] ].

(** selfgrammar.go:207.. rule 6 <expression-tail> *)
Definition self_rule_6 : rule := mkRule (s2b "expression-tail")
  [ [SNothing];
    [STerminal (s2b "|"); SNonTerminal (s2b "opt-whitespace"); SNonTerminal (s2b "list"); SNonTerminal (s2b "expression-tail")] ].

(** selfgrammar.go:237.. rule 7 <list> *)
Definition self_rule_7 : rule := mkRule (s2b "list")
  [ [SNonTerminal (s2b "term"); SNonTerminal (s2b "opt-whitespace"); SNonTerminal (s2b "list-tail")] ].

(** selfgrammar.go:259.. rule 8 <list-tail> *)
Definition self_rule_8 : rule := mkRule (s2b "list-tail")
  [ [SNothing];
    [SNonTerminal (s2b "term"); SNonTerminal (s2b "opt-whitespace"); SNonTerminal (s2b "list-tail")] ].

(** selfgrammar.go:286.. rule 9 <term> *)
Definition self_rule_9 : rule := mkRule (s2b "term")
  [ [SNonTerminal (s2b "literal")];
    [STerminal (s2b "<"); SNonTerminal (s2b "rule-name"); STerminal (s2b ">")] ].

(** selfgrammar.go:314.. rule 10 <literal> *)
Definition self_rule_10 : rule := mkRule (s2b "literal")
  [ [STerminal (s2b """"); SNonTerminal (s2b "text1"); STerminal (s2b """")];
    [STerminal (s2b "'"); SNonTerminal (s2b "text2"); STerminal (s2b "'")] ].

(** selfgrammar.go:349.. rule 11 <text1> *)
Definition self_rule_11 : rule := mkRule (s2b "text1")
  [ [SNothing];
    [SNonTerminal (s2b "character1"); SNonTerminal (s2b "text1")] ].

(** selfgrammar.go:373.. rule 12 <text2> *)
Definition self_rule_12 : rule := mkRule (s2b "text2")
  [ [SNothing];
    [SNonTerminal (s2b "character2"); SNonTerminal (s2b "text2")] ].

(** selfgrammar.go:397.. rule 13 <character1> *)
Definition self_rule_13 : rule := mkRule (s2b "character1")
  [ [STerminal (s2b "'")];
    [SNonTerminal (s2b "character")] ].

(** selfgrammar.go:420.. rule 14 <character2> *)
Definition self_rule_14 : rule := mkRule (s2b "character2")
  [ [STerminal (s2b """")];
    [SNonTerminal (s2b "character")] ].

(** selfgrammar.go:443.. rule 15 <character> *)
Definition self_rule_15 : rule := mkRule (s2b "character")
  [ [SNonTerminal (s2b "letter")];
    [SNonTerminal (s2b "digit")];
    [SNonTerminal (s2b "symbol")];
    [SNonTerminal (s2b "escape-sequence")] ].

(** selfgrammar.go:480.. rule 16 <escape-sequence> *)
Definition self_rule_16 : rule := mkRule (s2b "escape-sequence")
  [ [STerminal (s2b "\"); SNonTerminal (s2b "escaped-char")] ].

(** selfgrammar.go:499.. rule 17 <escaped-char> *)
Definition self_rule_17 : rule := mkRule (s2b "escaped-char")
  [ [STerminal (s2b "t")];
    [STerminal (s2b "n")];
    [STerminal (s2b "r")];
    [STerminal (s2b """")];
    [STerminal (s2b "\")] ].

(** selfgrammar.go:543.. rule 18 <rule-name> *)
Definition self_rule_18 : rule := mkRule (s2b "rule-name")
  [ [SNonTerminal (s2b "letter"); SNonTerminal (s2b "rule-name-tail")] ].

(** selfgrammar.go:562.. rule 19 <rule-name-tail> *)
Definition self_rule_19 : rule := mkRule (s2b "rule-name-tail")
  [ [SNothing];
    [SNonTerminal (s2b "rule-char"); SNonTerminal (s2b "rule-name-tail")] ].

(** selfgrammar.go:586.. rule 20 <rule-char> *)
Definition self_rule_20 : rule := mkRule (s2b "rule-char")
  [ [SNonTerminal (s2b "letter")];
    [SNonTerminal (s2b "digit")];
    [STerminal (s2b "-")] ].

(** selfgrammar.go:616.. rule 21 <letter> *)
Definition self_rule_21 : rule := mkRule (s2b "letter")
  [ [STerminal (s2b "A")];
    [STerminal (s2b "B")];
    [STerminal (s2b "C")];
    [STerminal (s2b "D")];
    [STerminal (s2b "E")];
    [STerminal (s2b "F")];
    [STerminal (s2b "G")];
    [STerminal (s2b "H")];
    [STerminal (s2b "I")];
    [STerminal (s2b "J")];
    [STerminal (s2b "K")];
    [STerminal (s2b "L")];
    [STerminal (s2b "M")];
    [STerminal (s2b "N")];
    [STerminal (s2b "O")];
    [STerminal (s2b "P")];
    [STerminal (s2b "Q")];
    [STerminal (s2b "R")];
    [STerminal (s2b "S")];
    [STerminal (s2b "T")];
    [STerminal (s2b "U")];
    [STerminal (s2b "V")];
    [STerminal (s2b "W")];
    [STerminal (s2b "X")];
    [STerminal (s2b "Y")];
    [STerminal (s2b "Z")];
    [STerminal (s2b "a")];
    [STerminal (s2b "b")];
    [STerminal (s2b "c")];
    [STerminal (s2b "d")];
    [STerminal (s2b "e")];
    [STerminal (s2b "f")];
    [STerminal (s2b "g")];
    [STerminal (s2b "h")];
    [STerminal (s2b "i")];
    [STerminal (s2b "j")];
    [STerminal (s2b "k")];
    [STerminal (s2b "l")];
    [STerminal (s2b "m")];
    [STerminal (s2b "n")];
    [STerminal (s2b "o")];
    [STerminal (s2b "p")];
    [STerminal (s2b "q")];
    [STerminal (s2b "r")];
    [STerminal (s2b "s")];
    [STerminal (s2b "t")];
    [STerminal (s2b "u")];
    [STerminal (s2b "v")];
    [STerminal (s2b "w")];
    [STerminal (s2b "x")];
    [STerminal (s2b "y")];
    [STerminal (s2b "z")] ].

(** selfgrammar.go:989.. rule 22 <digit> *)
Definition self_rule_22 : rule := mkRule (s2b "digit")
  [ [STerminal (s2b "0")];
    [STerminal (s2b "1")];
    [STerminal (s2b "2")];
    [STerminal (s2b "3")];
    [STerminal (s2b "4")];
    [STerminal (s2b "5")];
    [STerminal (s2b "6")];
    [STerminal (s2b "7")];
    [STerminal (s2b "8")];
    [STerminal (s2b "9")] ].

(** selfgrammar.go:1068.. rule 23 <symbol> *)
Definition self_rule_23 : rule := mkRule (s2b "symbol")
  [ [STerminal (s2b "|")];
    [STerminal (s2b " ")];
    [STerminal (s2b "!")];
    [STerminal (s2b "#")];
    [STerminal (s2b "$")];
    [STerminal (s2b "%")];
    [STerminal (s2b "&")];
    [STerminal (s2b "(")];
    [STerminal (s2b ")")];
    [STerminal (s2b "*")];
    [STerminal (s2b "+")];
    [STerminal (s2b ",")];
    [STerminal (s2b "-")];
    [STerminal (s2b ".")];
    [STerminal (s2b "/")];
    [STerminal (s2b ":")];
    [STerminal (s2b ";")];
    [STerminal (s2b ">")];
    [STerminal (s2b "=")];
    [STerminal (s2b "<")];
    [STerminal (s2b "?")];
    [STerminal (s2b "@")];
    [STerminal (s2b "[")];
    [STerminal (s2b "]")];
    [STerminal (s2b "^")];
    [STerminal (s2b "_")];
    [STerminal (s2b "`")];
    [STerminal (s2b "{")];
    [STerminal (s2b "}")];
    [STerminal (s2b "~")] ].

(** selfgrammar.go:1287.. rule 24 <opt-whitespace> *)
Definition self_rule_24 : rule := mkRule (s2b "opt-whitespace")
  [ [STerminal (s2b " "); SNonTerminal (s2b "opt-whitespace")];
    [SNothing] ].

(** selfgrammar.go:1311.. rule 25 <EOL> *)
Definition self_rule_25 : rule := mkRule (s2b "EOL")
  [ [STerminal ([LF])];
    [STerminal ([CR; LF])] ].

(** selfgrammar.go:59-1335 *)
Definition SelfGrammar : grammar :=
  [self_rule_0;
   self_rule_1;
   self_rule_2;
   self_rule_3;
   self_rule_4;
   self_rule_5;
   self_rule_6;
   self_rule_7;
   self_rule_8;
   self_rule_9;
   self_rule_10;
   self_rule_11;
   self_rule_12;
   self_rule_13;
   self_rule_14;
   self_rule_15;
   self_rule_16;
   self_rule_17;
   self_rule_18;
   self_rule_19;
   self_rule_20;
   self_rule_21;
   self_rule_22;
   self_rule_23;
   self_rule_24;
   self_rule_25].
