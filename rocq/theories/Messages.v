(** * Messages: the texts of the errors of pkg/bnf/tablegen and
    pkg/bnf/fromcst ([err.Error()]).  Those of pkg/parser are [perror_string]
    in Parser.v. *)
From Verif Require Import Base Cst Ast TableGen FromCst.

(** tablegen.go, at the lines listed with [tgerror].  [typename] is what %T
    prints for a symbol of a type the package does not know (tablegen.go:170);
    the model does not know the types of callers. *)
Definition tgerror_string (typename : bytes) (e : tgerror) : bytes :=
  match e with
  | ENothingNotSingle => s2b "empty string is not a single sequence symbol"
  | ENoRulesDefined name => s2b "no rules defined for non terminal <" ++ name ++ s2b ">"
  | ERuleIndex => s2b "ruleIndex exceeding grammar rules"
  | EEmptyTerminal => s2b "terminal with empty string check grammar"
  | EUnknownSymbol => s2b "symbol of unknown type: " ++ typename
  | EEmptySequence => s2b "empty sequencese"
  | ERuleNum => s2b "ruleNum exceeding grammar rules"
  | ETargetRuleNum => s2b "targetRuleNum exceeding grammar rules"
  | EConflict => s2b "grammar lead to multiple parser op " ++ s2b "sets per table cell"
  end.

(** fromcst.go, at the lines listed with [fcerror]. *)
Definition fcerror_string (e : fcerror) : bytes :=
  match e with
  | ESearchComplete _ => s2b "headSearchComplete"
  | EUnknownEscape s => s2b "unkknown escape character: " ++ s
  | EEscapeNotFound => s2b "not found escape character"
  | ESymbolType text => s2b "could not determine terminal type of `" ++ text ++ s2b "`"
  | ENoRuleName text => s2b "could not find rule name in `" ++ text ++ s2b "`"
  | ENoRuleSubstitution text => s2b "could not find rule substitution in `" ++ text ++ s2b "`"
  end.
