(** * Spec_ExecuteTests: which tests [go test -run] runs, and the tests there are. *)
From Verif Require Import Base.

(** [p] occurs somewhere in [s]. *)
Definition occurs (p s : bytes) : Prop := exists a b, s = a ++ p ++ b.

(** [between l pat]: the pattern [pat] consists of the parts [l], separated by bars. *)
Inductive between : list bytes -> bytes -> Prop :=
| bt_last p : ~ In "|"%char p -> between [p] p
| bt_more p l pat : ~ In "|"%char p -> between l pat -> between (p :: l) (p ++ "|"%char :: pat).

(** A regular expression made of plain characters and bars only matches a name
    if one of its parts occurs in the name; [go test -run] runs the tests whose
    name it matches. *)
Definition run_selects (pat name : bytes) : Prop := exists l p, between l pat /\ In p l /\ occurs p name.

(** Names of Go identifiers. *)
Definition plain (c : ascii) : Prop :=
  (48 <= code c <= 57 \/ 65 <= code c <= 90 \/ 97 <= code c <= 122 \/ code c = 95)%N.

(** The test functions of the repository: file by file the functions
    [func TestXxx(t *testing.T)] in test/bnftablegen/tablegen_test.go,
    test/cst/cst_test.go and test/parser/parser_test.go. *)
Definition test_functions : list (bytes * list bytes) :=
  [(s2b "bnftablegen",
     [s2b "TestLinearMultiRuleGrammarToParsingTableResTable";
      s2b "TestOrGrammarToParsingTableResTable";
      s2b "TestLRecursiveGrammarToParsingTableResErr";
      s2b "TestResolvedLRecursiveGrammarToParsingTableResTable";
      s2b "TestBNFGrammarToParsingTableResNamingMap";
      s2b "TestBNFGrammarToParsingTableResTable"]);
   (s2b "cst", [s2b "TestFprintTreeNamed"]);
   (s2b "parser",
     [s2b "TestCustomParserCanParse";
      s2b "TestLinearMultiRuleParserParse";
      s2b "TestOrParserParse";
      s2b "TestResolvedLRecursiveParserParse";
      s2b "TestBNFParserCanParse1";
      s2b "TestParserParseNamingMap"])].
