(** * RefTables: output of the real Go program, recorded in the repository.

    test/bnftablegen/*.bin hold the tables FromGrammar returned for the test
    grammars when the project's authors ran it (printed with %#v).  They are
    transcribed here mechanically and used in Conformance.v as tests of the
    model (tests, not proofs). *)
From Verif Require Import Base Parser.

(** test/bnftablegen/refTestLinearMultiRuleGrammarToParsingTableResTable.bin *)
Definition ref_linear : table :=
[ (0%Z,
   [("065"%char, [OpTerminal (s2b "A"); OpTerminal (s2b "::="); OpNonTerminal 1])]);
  (1%Z,
   [("067"%char, [OpTerminal (s2b "C")])]) ].

(** test/bnftablegen/refTestOrGrammarToParsingTableResTable.bin *)
Definition ref_or : table :=
[ (0%Z,
   [("034"%char, [OpTerminal (s2b """"); OpNonTerminal 1; OpTerminal (s2b "^")])]);
  (1%Z,
   [("066"%char, [OpTerminal (s2b "B")]);
    ("067"%char, [OpTerminal (s2b "C")]);
    ("094"%char, [])]) ].

(** test/bnftablegen/refTestResolvedLRecursiveGrammarToParsingTableResTable.bin *)
Definition ref_resolved : table :=
[ (0%Z,
   [("095"%char, [OpTerminal (s2b "_"); OpNonTerminal 1])]);
  (1%Z,
   [("000"%char, []);
    ("066"%char, [OpTerminal (s2b "B"); OpNonTerminal 1])]) ].

(** test/bnftablegen/refTestBNFGrammarToParsingTableResTable.bin *)
Definition ref_bnf : table :=
[ (0%Z,
   [("032"%char, [OpNonTerminal 24; OpNonTerminal 4; OpNonTerminal 1]);
    ("060"%char, [OpNonTerminal 24; OpNonTerminal 4; OpNonTerminal 1])]);
  (1%Z,
   [("000"%char, []);
    ("010"%char, [OpNonTerminal 25; OpNonTerminal 2; OpNonTerminal 1]);
    ("013"%char, [OpNonTerminal 25; OpNonTerminal 2; OpNonTerminal 1])]);
  (2%Z,
   [("000"%char, []);
    ("010"%char, []);
    ("013"%char, []);
    ("032"%char, [OpNonTerminal 24; OpNonTerminal 3]);
    ("060"%char, [OpNonTerminal 24; OpNonTerminal 3])]);
  (3%Z,
   [("000"%char, []);
    ("010"%char, []);
    ("013"%char, []);
    ("060"%char, [OpNonTerminal 4])]);
  (4%Z,
   [("060"%char, [OpTerminal (s2b "<"); OpNonTerminal 18; OpTerminal (s2b ">"); OpNonTerminal 24; OpTerminal (s2b "::="); OpNonTerminal 24; OpNonTerminal 5])]);
  (5%Z,
   [("034"%char, [OpNonTerminal 7; OpNonTerminal 6]);
    ("039"%char, [OpNonTerminal 7; OpNonTerminal 6]);
    ("060"%char, [OpNonTerminal 7; OpNonTerminal 6])]);
  (6%Z,
   [("000"%char, []);
    ("010"%char, []);
    ("013"%char, []);
    ("124"%char, [OpTerminal (s2b "|"); OpNonTerminal 24; OpNonTerminal 7; OpNonTerminal 6])]);
  (7%Z,
   [("034"%char, [OpNonTerminal 9; OpNonTerminal 24; OpNonTerminal 8]);
    ("039"%char, [OpNonTerminal 9; OpNonTerminal 24; OpNonTerminal 8]);
    ("060"%char, [OpNonTerminal 9; OpNonTerminal 24; OpNonTerminal 8])]);
  (8%Z,
   [("000"%char, []);
    ("010"%char, []);
    ("013"%char, []);
    ("034"%char, [OpNonTerminal 9; OpNonTerminal 24; OpNonTerminal 8]);
    ("039"%char, [OpNonTerminal 9; OpNonTerminal 24; OpNonTerminal 8]);
    ("060"%char, [OpNonTerminal 9; OpNonTerminal 24; OpNonTerminal 8]);
    ("124"%char, [])]);
  (9%Z,
   [("034"%char, [OpNonTerminal 10]);
    ("039"%char, [OpNonTerminal 10]);
    ("060"%char, [OpTerminal (s2b "<"); OpNonTerminal 18; OpTerminal (s2b ">")])]);
  (10%Z,
   [("034"%char, [OpTerminal (s2b """"); OpNonTerminal 11; OpTerminal (s2b """")]);
    ("039"%char, [OpTerminal (s2b "'"); OpNonTerminal 12; OpTerminal (s2b "'")])]);
  (11%Z,
   [("032"%char, [OpNonTerminal 13; OpNonTerminal 11]);
    ("033"%char, [OpNonTerminal 13; OpNonTerminal 11]);
    ("034"%char, []);
    ("035"%char, [OpNonTerminal 13; OpNonTerminal 11]);
    ("036"%char, [OpNonTerminal 13; OpNonTerminal 11]);
    ("037"%char, [OpNonTerminal 13; OpNonTerminal 11]);
    ("038"%char, [OpNonTerminal 13; OpNonTerminal 11]);
    ("039"%char, [OpNonTerminal 13; OpNonTerminal 11]);
    ("040"%char, [OpNonTerminal 13; OpNonTerminal 11]);
    ("041"%char, [OpNonTerminal 13; OpNonTerminal 11]);
    ("042"%char, [OpNonTerminal 13; OpNonTerminal 11]);
    ("043"%char, [OpNonTerminal 13; OpNonTerminal 11]);
    ("044"%char, [OpNonTerminal 13; OpNonTerminal 11]);
    ("045"%char, [OpNonTerminal 13; OpNonTerminal 11]);
    ("046"%char, [OpNonTerminal 13; OpNonTerminal 11]);
    ("047"%char, [OpNonTerminal 13; OpNonTerminal 11]);
    ("048"%char, [OpNonTerminal 13; OpNonTerminal 11]);
    ("049"%char, [OpNonTerminal 13; OpNonTerminal 11]);
    ("050"%char, [OpNonTerminal 13; OpNonTerminal 11]);
    ("051"%char, [OpNonTerminal 13; OpNonTerminal 11]);
    ("052"%char, [OpNonTerminal 13; OpNonTerminal 11]);
    ("053"%char, [OpNonTerminal 13; OpNonTerminal 11]);
    ("054"%char, [OpNonTerminal 13; OpNonTerminal 11]);
    ("055"%char, [OpNonTerminal 13; OpNonTerminal 11]);
    ("056"%char, [OpNonTerminal 13; OpNonTerminal 11]);
    ("057"%char, [OpNonTerminal 13; OpNonTerminal 11]);
    ("058"%char, [OpNonTerminal 13; OpNonTerminal 11]);
    ("059"%char, [OpNonTerminal 13; OpNonTerminal 11]);
    ("060"%char, [OpNonTerminal 13; OpNonTerminal 11]);
    ("061"%char, [OpNonTerminal 13; OpNonTerminal 11]);
    ("062"%char, [OpNonTerminal 13; OpNonTerminal 11]);
    ("063"%char, [OpNonTerminal 13; OpNonTerminal 11]);
    ("064"%char, [OpNonTerminal 13; OpNonTerminal 11]);
    ("065"%char, [OpNonTerminal 13; OpNonTerminal 11]);
    ("066"%char, [OpNonTerminal 13; OpNonTerminal 11]);
    ("067"%char, [OpNonTerminal 13; OpNonTerminal 11]);
    ("068"%char, [OpNonTerminal 13; OpNonTerminal 11]);
    ("069"%char, [OpNonTerminal 13; OpNonTerminal 11]);
    ("070"%char, [OpNonTerminal 13; OpNonTerminal 11]);
    ("071"%char, [OpNonTerminal 13; OpNonTerminal 11]);
    ("072"%char, [OpNonTerminal 13; OpNonTerminal 11]);
    ("073"%char, [OpNonTerminal 13; OpNonTerminal 11]);
    ("074"%char, [OpNonTerminal 13; OpNonTerminal 11]);
    ("075"%char, [OpNonTerminal 13; OpNonTerminal 11]);
    ("076"%char, [OpNonTerminal 13; OpNonTerminal 11]);
    ("077"%char, [OpNonTerminal 13; OpNonTerminal 11]);
    ("078"%char, [OpNonTerminal 13; OpNonTerminal 11]);
    ("079"%char, [OpNonTerminal 13; OpNonTerminal 11]);
    ("080"%char, [OpNonTerminal 13; OpNonTerminal 11]);
    ("081"%char, [OpNonTerminal 13; OpNonTerminal 11]);
    ("082"%char, [OpNonTerminal 13; OpNonTerminal 11]);
    ("083"%char, [OpNonTerminal 13; OpNonTerminal 11]);
    ("084"%char, [OpNonTerminal 13; OpNonTerminal 11]);
    ("085"%char, [OpNonTerminal 13; OpNonTerminal 11]);
    ("086"%char, [OpNonTerminal 13; OpNonTerminal 11]);
    ("087"%char, [OpNonTerminal 13; OpNonTerminal 11]);
    ("088"%char, [OpNonTerminal 13; OpNonTerminal 11]);
    ("089"%char, [OpNonTerminal 13; OpNonTerminal 11]);
    ("090"%char, [OpNonTerminal 13; OpNonTerminal 11]);
    ("091"%char, [OpNonTerminal 13; OpNonTerminal 11]);
    ("092"%char, [OpNonTerminal 13; OpNonTerminal 11]);
    ("093"%char, [OpNonTerminal 13; OpNonTerminal 11]);
    ("094"%char, [OpNonTerminal 13; OpNonTerminal 11]);
    ("095"%char, [OpNonTerminal 13; OpNonTerminal 11]);
    ("096"%char, [OpNonTerminal 13; OpNonTerminal 11]);
    ("097"%char, [OpNonTerminal 13; OpNonTerminal 11]);
    ("098"%char, [OpNonTerminal 13; OpNonTerminal 11]);
    ("099"%char, [OpNonTerminal 13; OpNonTerminal 11]);
    ("100"%char, [OpNonTerminal 13; OpNonTerminal 11]);
    ("101"%char, [OpNonTerminal 13; OpNonTerminal 11]);
    ("102"%char, [OpNonTerminal 13; OpNonTerminal 11]);
    ("103"%char, [OpNonTerminal 13; OpNonTerminal 11]);
    ("104"%char, [OpNonTerminal 13; OpNonTerminal 11]);
    ("105"%char, [OpNonTerminal 13; OpNonTerminal 11]);
    ("106"%char, [OpNonTerminal 13; OpNonTerminal 11]);
    ("107"%char, [OpNonTerminal 13; OpNonTerminal 11]);
    ("108"%char, [OpNonTerminal 13; OpNonTerminal 11]);
    ("109"%char, [OpNonTerminal 13; OpNonTerminal 11]);
    ("110"%char, [OpNonTerminal 13; OpNonTerminal 11]);
    ("111"%char, [OpNonTerminal 13; OpNonTerminal 11]);
    ("112"%char, [OpNonTerminal 13; OpNonTerminal 11]);
    ("113"%char, [OpNonTerminal 13; OpNonTerminal 11]);
    ("114"%char, [OpNonTerminal 13; OpNonTerminal 11]);
    ("115"%char, [OpNonTerminal 13; OpNonTerminal 11]);
    ("116"%char, [OpNonTerminal 13; OpNonTerminal 11]);
    ("117"%char, [OpNonTerminal 13; OpNonTerminal 11]);
    ("118"%char, [OpNonTerminal 13; OpNonTerminal 11]);
    ("119"%char, [OpNonTerminal 13; OpNonTerminal 11]);
    ("120"%char, [OpNonTerminal 13; OpNonTerminal 11]);
    ("121"%char, [OpNonTerminal 13; OpNonTerminal 11]);
    ("122"%char, [OpNonTerminal 13; OpNonTerminal 11]);
    ("123"%char, [OpNonTerminal 13; OpNonTerminal 11]);
    ("124"%char, [OpNonTerminal 13; OpNonTerminal 11]);
    ("125"%char, [OpNonTerminal 13; OpNonTerminal 11]);
    ("126"%char, [OpNonTerminal 13; OpNonTerminal 11])]);
  (12%Z,
   [("032"%char, [OpNonTerminal 14; OpNonTerminal 12]);
    ("033"%char, [OpNonTerminal 14; OpNonTerminal 12]);
    ("034"%char, [OpNonTerminal 14; OpNonTerminal 12]);
    ("035"%char, [OpNonTerminal 14; OpNonTerminal 12]);
    ("036"%char, [OpNonTerminal 14; OpNonTerminal 12]);
    ("037"%char, [OpNonTerminal 14; OpNonTerminal 12]);
    ("038"%char, [OpNonTerminal 14; OpNonTerminal 12]);
    ("039"%char, []);
    ("040"%char, [OpNonTerminal 14; OpNonTerminal 12]);
    ("041"%char, [OpNonTerminal 14; OpNonTerminal 12]);
    ("042"%char, [OpNonTerminal 14; OpNonTerminal 12]);
    ("043"%char, [OpNonTerminal 14; OpNonTerminal 12]);
    ("044"%char, [OpNonTerminal 14; OpNonTerminal 12]);
    ("045"%char, [OpNonTerminal 14; OpNonTerminal 12]);
    ("046"%char, [OpNonTerminal 14; OpNonTerminal 12]);
    ("047"%char, [OpNonTerminal 14; OpNonTerminal 12]);
    ("048"%char, [OpNonTerminal 14; OpNonTerminal 12]);
    ("049"%char, [OpNonTerminal 14; OpNonTerminal 12]);
    ("050"%char, [OpNonTerminal 14; OpNonTerminal 12]);
    ("051"%char, [OpNonTerminal 14; OpNonTerminal 12]);
    ("052"%char, [OpNonTerminal 14; OpNonTerminal 12]);
    ("053"%char, [OpNonTerminal 14; OpNonTerminal 12]);
    ("054"%char, [OpNonTerminal 14; OpNonTerminal 12]);
    ("055"%char, [OpNonTerminal 14; OpNonTerminal 12]);
    ("056"%char, [OpNonTerminal 14; OpNonTerminal 12]);
    ("057"%char, [OpNonTerminal 14; OpNonTerminal 12]);
    ("058"%char, [OpNonTerminal 14; OpNonTerminal 12]);
    ("059"%char, [OpNonTerminal 14; OpNonTerminal 12]);
    ("060"%char, [OpNonTerminal 14; OpNonTerminal 12]);
    ("061"%char, [OpNonTerminal 14; OpNonTerminal 12]);
    ("062"%char, [OpNonTerminal 14; OpNonTerminal 12]);
    ("063"%char, [OpNonTerminal 14; OpNonTerminal 12]);
    ("064"%char, [OpNonTerminal 14; OpNonTerminal 12]);
    ("065"%char, [OpNonTerminal 14; OpNonTerminal 12]);
    ("066"%char, [OpNonTerminal 14; OpNonTerminal 12]);
    ("067"%char, [OpNonTerminal 14; OpNonTerminal 12]);
    ("068"%char, [OpNonTerminal 14; OpNonTerminal 12]);
    ("069"%char, [OpNonTerminal 14; OpNonTerminal 12]);
    ("070"%char, [OpNonTerminal 14; OpNonTerminal 12]);
    ("071"%char, [OpNonTerminal 14; OpNonTerminal 12]);
    ("072"%char, [OpNonTerminal 14; OpNonTerminal 12]);
    ("073"%char, [OpNonTerminal 14; OpNonTerminal 12]);
    ("074"%char, [OpNonTerminal 14; OpNonTerminal 12]);
    ("075"%char, [OpNonTerminal 14; OpNonTerminal 12]);
    ("076"%char, [OpNonTerminal 14; OpNonTerminal 12]);
    ("077"%char, [OpNonTerminal 14; OpNonTerminal 12]);
    ("078"%char, [OpNonTerminal 14; OpNonTerminal 12]);
    ("079"%char, [OpNonTerminal 14; OpNonTerminal 12]);
    ("080"%char, [OpNonTerminal 14; OpNonTerminal 12]);
    ("081"%char, [OpNonTerminal 14; OpNonTerminal 12]);
    ("082"%char, [OpNonTerminal 14; OpNonTerminal 12]);
    ("083"%char, [OpNonTerminal 14; OpNonTerminal 12]);
    ("084"%char, [OpNonTerminal 14; OpNonTerminal 12]);
    ("085"%char, [OpNonTerminal 14; OpNonTerminal 12]);
    ("086"%char, [OpNonTerminal 14; OpNonTerminal 12]);
    ("087"%char, [OpNonTerminal 14; OpNonTerminal 12]);
    ("088"%char, [OpNonTerminal 14; OpNonTerminal 12]);
    ("089"%char, [OpNonTerminal 14; OpNonTerminal 12]);
    ("090"%char, [OpNonTerminal 14; OpNonTerminal 12]);
    ("091"%char, [OpNonTerminal 14; OpNonTerminal 12]);
    ("092"%char, [OpNonTerminal 14; OpNonTerminal 12]);
    ("093"%char, [OpNonTerminal 14; OpNonTerminal 12]);
    ("094"%char, [OpNonTerminal 14; OpNonTerminal 12]);
    ("095"%char, [OpNonTerminal 14; OpNonTerminal 12]);
    ("096"%char, [OpNonTerminal 14; OpNonTerminal 12]);
    ("097"%char, [OpNonTerminal 14; OpNonTerminal 12]);
    ("098"%char, [OpNonTerminal 14; OpNonTerminal 12]);
    ("099"%char, [OpNonTerminal 14; OpNonTerminal 12]);
    ("100"%char, [OpNonTerminal 14; OpNonTerminal 12]);
    ("101"%char, [OpNonTerminal 14; OpNonTerminal 12]);
    ("102"%char, [OpNonTerminal 14; OpNonTerminal 12]);
    ("103"%char, [OpNonTerminal 14; OpNonTerminal 12]);
    ("104"%char, [OpNonTerminal 14; OpNonTerminal 12]);
    ("105"%char, [OpNonTerminal 14; OpNonTerminal 12]);
    ("106"%char, [OpNonTerminal 14; OpNonTerminal 12]);
    ("107"%char, [OpNonTerminal 14; OpNonTerminal 12]);
    ("108"%char, [OpNonTerminal 14; OpNonTerminal 12]);
    ("109"%char, [OpNonTerminal 14; OpNonTerminal 12]);
    ("110"%char, [OpNonTerminal 14; OpNonTerminal 12]);
    ("111"%char, [OpNonTerminal 14; OpNonTerminal 12]);
    ("112"%char, [OpNonTerminal 14; OpNonTerminal 12]);
    ("113"%char, [OpNonTerminal 14; OpNonTerminal 12]);
    ("114"%char, [OpNonTerminal 14; OpNonTerminal 12]);
    ("115"%char, [OpNonTerminal 14; OpNonTerminal 12]);
    ("116"%char, [OpNonTerminal 14; OpNonTerminal 12]);
    ("117"%char, [OpNonTerminal 14; OpNonTerminal 12]);
    ("118"%char, [OpNonTerminal 14; OpNonTerminal 12]);
    ("119"%char, [OpNonTerminal 14; OpNonTerminal 12]);
    ("120"%char, [OpNonTerminal 14; OpNonTerminal 12]);
    ("121"%char, [OpNonTerminal 14; OpNonTerminal 12]);
    ("122"%char, [OpNonTerminal 14; OpNonTerminal 12]);
    ("123"%char, [OpNonTerminal 14; OpNonTerminal 12]);
    ("124"%char, [OpNonTerminal 14; OpNonTerminal 12]);
    ("125"%char, [OpNonTerminal 14; OpNonTerminal 12]);
    ("126"%char, [OpNonTerminal 14; OpNonTerminal 12])]);
  (13%Z,
   [("032"%char, [OpNonTerminal 15]);
    ("033"%char, [OpNonTerminal 15]);
    ("035"%char, [OpNonTerminal 15]);
    ("036"%char, [OpNonTerminal 15]);
    ("037"%char, [OpNonTerminal 15]);
    ("038"%char, [OpNonTerminal 15]);
    ("039"%char, [OpTerminal (s2b "'")]);
    ("040"%char, [OpNonTerminal 15]);
    ("041"%char, [OpNonTerminal 15]);
    ("042"%char, [OpNonTerminal 15]);
    ("043"%char, [OpNonTerminal 15]);
    ("044"%char, [OpNonTerminal 15]);
    ("045"%char, [OpNonTerminal 15]);
    ("046"%char, [OpNonTerminal 15]);
    ("047"%char, [OpNonTerminal 15]);
    ("048"%char, [OpNonTerminal 15]);
    ("049"%char, [OpNonTerminal 15]);
    ("050"%char, [OpNonTerminal 15]);
    ("051"%char, [OpNonTerminal 15]);
    ("052"%char, [OpNonTerminal 15]);
    ("053"%char, [OpNonTerminal 15]);
    ("054"%char, [OpNonTerminal 15]);
    ("055"%char, [OpNonTerminal 15]);
    ("056"%char, [OpNonTerminal 15]);
    ("057"%char, [OpNonTerminal 15]);
    ("058"%char, [OpNonTerminal 15]);
    ("059"%char, [OpNonTerminal 15]);
    ("060"%char, [OpNonTerminal 15]);
    ("061"%char, [OpNonTerminal 15]);
    ("062"%char, [OpNonTerminal 15]);
    ("063"%char, [OpNonTerminal 15]);
    ("064"%char, [OpNonTerminal 15]);
    ("065"%char, [OpNonTerminal 15]);
    ("066"%char, [OpNonTerminal 15]);
    ("067"%char, [OpNonTerminal 15]);
    ("068"%char, [OpNonTerminal 15]);
    ("069"%char, [OpNonTerminal 15]);
    ("070"%char, [OpNonTerminal 15]);
    ("071"%char, [OpNonTerminal 15]);
    ("072"%char, [OpNonTerminal 15]);
    ("073"%char, [OpNonTerminal 15]);
    ("074"%char, [OpNonTerminal 15]);
    ("075"%char, [OpNonTerminal 15]);
    ("076"%char, [OpNonTerminal 15]);
    ("077"%char, [OpNonTerminal 15]);
    ("078"%char, [OpNonTerminal 15]);
    ("079"%char, [OpNonTerminal 15]);
    ("080"%char, [OpNonTerminal 15]);
    ("081"%char, [OpNonTerminal 15]);
    ("082"%char, [OpNonTerminal 15]);
    ("083"%char, [OpNonTerminal 15]);
    ("084"%char, [OpNonTerminal 15]);
    ("085"%char, [OpNonTerminal 15]);
    ("086"%char, [OpNonTerminal 15]);
    ("087"%char, [OpNonTerminal 15]);
    ("088"%char, [OpNonTerminal 15]);
    ("089"%char, [OpNonTerminal 15]);
    ("090"%char, [OpNonTerminal 15]);
    ("091"%char, [OpNonTerminal 15]);
    ("092"%char, [OpNonTerminal 15]);
    ("093"%char, [OpNonTerminal 15]);
    ("094"%char, [OpNonTerminal 15]);
    ("095"%char, [OpNonTerminal 15]);
    ("096"%char, [OpNonTerminal 15]);
    ("097"%char, [OpNonTerminal 15]);
    ("098"%char, [OpNonTerminal 15]);
    ("099"%char, [OpNonTerminal 15]);
    ("100"%char, [OpNonTerminal 15]);
    ("101"%char, [OpNonTerminal 15]);
    ("102"%char, [OpNonTerminal 15]);
    ("103"%char, [OpNonTerminal 15]);
    ("104"%char, [OpNonTerminal 15]);
    ("105"%char, [OpNonTerminal 15]);
    ("106"%char, [OpNonTerminal 15]);
    ("107"%char, [OpNonTerminal 15]);
    ("108"%char, [OpNonTerminal 15]);
    ("109"%char, [OpNonTerminal 15]);
    ("110"%char, [OpNonTerminal 15]);
    ("111"%char, [OpNonTerminal 15]);
    ("112"%char, [OpNonTerminal 15]);
    ("113"%char, [OpNonTerminal 15]);
    ("114"%char, [OpNonTerminal 15]);
    ("115"%char, [OpNonTerminal 15]);
    ("116"%char, [OpNonTerminal 15]);
    ("117"%char, [OpNonTerminal 15]);
    ("118"%char, [OpNonTerminal 15]);
    ("119"%char, [OpNonTerminal 15]);
    ("120"%char, [OpNonTerminal 15]);
    ("121"%char, [OpNonTerminal 15]);
    ("122"%char, [OpNonTerminal 15]);
    ("123"%char, [OpNonTerminal 15]);
    ("124"%char, [OpNonTerminal 15]);
    ("125"%char, [OpNonTerminal 15]);
    ("126"%char, [OpNonTerminal 15])]);
  (14%Z,
   [("032"%char, [OpNonTerminal 15]);
    ("033"%char, [OpNonTerminal 15]);
    ("034"%char, [OpTerminal (s2b """")]);
    ("035"%char, [OpNonTerminal 15]);
    ("036"%char, [OpNonTerminal 15]);
    ("037"%char, [OpNonTerminal 15]);
    ("038"%char, [OpNonTerminal 15]);
    ("040"%char, [OpNonTerminal 15]);
    ("041"%char, [OpNonTerminal 15]);
    ("042"%char, [OpNonTerminal 15]);
    ("043"%char, [OpNonTerminal 15]);
    ("044"%char, [OpNonTerminal 15]);
    ("045"%char, [OpNonTerminal 15]);
    ("046"%char, [OpNonTerminal 15]);
    ("047"%char, [OpNonTerminal 15]);
    ("048"%char, [OpNonTerminal 15]);
    ("049"%char, [OpNonTerminal 15]);
    ("050"%char, [OpNonTerminal 15]);
    ("051"%char, [OpNonTerminal 15]);
    ("052"%char, [OpNonTerminal 15]);
    ("053"%char, [OpNonTerminal 15]);
    ("054"%char, [OpNonTerminal 15]);
    ("055"%char, [OpNonTerminal 15]);
    ("056"%char, [OpNonTerminal 15]);
    ("057"%char, [OpNonTerminal 15]);
    ("058"%char, [OpNonTerminal 15]);
    ("059"%char, [OpNonTerminal 15]);
    ("060"%char, [OpNonTerminal 15]);
    ("061"%char, [OpNonTerminal 15]);
    ("062"%char, [OpNonTerminal 15]);
    ("063"%char, [OpNonTerminal 15]);
    ("064"%char, [OpNonTerminal 15]);
    ("065"%char, [OpNonTerminal 15]);
    ("066"%char, [OpNonTerminal 15]);
    ("067"%char, [OpNonTerminal 15]);
    ("068"%char, [OpNonTerminal 15]);
    ("069"%char, [OpNonTerminal 15]);
    ("070"%char, [OpNonTerminal 15]);
    ("071"%char, [OpNonTerminal 15]);
    ("072"%char, [OpNonTerminal 15]);
    ("073"%char, [OpNonTerminal 15]);
    ("074"%char, [OpNonTerminal 15]);
    ("075"%char, [OpNonTerminal 15]);
    ("076"%char, [OpNonTerminal 15]);
    ("077"%char, [OpNonTerminal 15]);
    ("078"%char, [OpNonTerminal 15]);
    ("079"%char, [OpNonTerminal 15]);
    ("080"%char, [OpNonTerminal 15]);
    ("081"%char, [OpNonTerminal 15]);
    ("082"%char, [OpNonTerminal 15]);
    ("083"%char, [OpNonTerminal 15]);
    ("084"%char, [OpNonTerminal 15]);
    ("085"%char, [OpNonTerminal 15]);
    ("086"%char, [OpNonTerminal 15]);
    ("087"%char, [OpNonTerminal 15]);
    ("088"%char, [OpNonTerminal 15]);
    ("089"%char, [OpNonTerminal 15]);
    ("090"%char, [OpNonTerminal 15]);
    ("091"%char, [OpNonTerminal 15]);
    ("092"%char, [OpNonTerminal 15]);
    ("093"%char, [OpNonTerminal 15]);
    ("094"%char, [OpNonTerminal 15]);
    ("095"%char, [OpNonTerminal 15]);
    ("096"%char, [OpNonTerminal 15]);
    ("097"%char, [OpNonTerminal 15]);
    ("098"%char, [OpNonTerminal 15]);
    ("099"%char, [OpNonTerminal 15]);
    ("100"%char, [OpNonTerminal 15]);
    ("101"%char, [OpNonTerminal 15]);
    ("102"%char, [OpNonTerminal 15]);
    ("103"%char, [OpNonTerminal 15]);
    ("104"%char, [OpNonTerminal 15]);
    ("105"%char, [OpNonTerminal 15]);
    ("106"%char, [OpNonTerminal 15]);
    ("107"%char, [OpNonTerminal 15]);
    ("108"%char, [OpNonTerminal 15]);
    ("109"%char, [OpNonTerminal 15]);
    ("110"%char, [OpNonTerminal 15]);
    ("111"%char, [OpNonTerminal 15]);
    ("112"%char, [OpNonTerminal 15]);
    ("113"%char, [OpNonTerminal 15]);
    ("114"%char, [OpNonTerminal 15]);
    ("115"%char, [OpNonTerminal 15]);
    ("116"%char, [OpNonTerminal 15]);
    ("117"%char, [OpNonTerminal 15]);
    ("118"%char, [OpNonTerminal 15]);
    ("119"%char, [OpNonTerminal 15]);
    ("120"%char, [OpNonTerminal 15]);
    ("121"%char, [OpNonTerminal 15]);
    ("122"%char, [OpNonTerminal 15]);
    ("123"%char, [OpNonTerminal 15]);
    ("124"%char, [OpNonTerminal 15]);
    ("125"%char, [OpNonTerminal 15]);
    ("126"%char, [OpNonTerminal 15])]);
  (15%Z,
   [("032"%char, [OpNonTerminal 23]);
    ("033"%char, [OpNonTerminal 23]);
    ("035"%char, [OpNonTerminal 23]);
    ("036"%char, [OpNonTerminal 23]);
    ("037"%char, [OpNonTerminal 23]);
    ("038"%char, [OpNonTerminal 23]);
    ("040"%char, [OpNonTerminal 23]);
    ("041"%char, [OpNonTerminal 23]);
    ("042"%char, [OpNonTerminal 23]);
    ("043"%char, [OpNonTerminal 23]);
    ("044"%char, [OpNonTerminal 23]);
    ("045"%char, [OpNonTerminal 23]);
    ("046"%char, [OpNonTerminal 23]);
    ("047"%char, [OpNonTerminal 23]);
    ("048"%char, [OpNonTerminal 22]);
    ("049"%char, [OpNonTerminal 22]);
    ("050"%char, [OpNonTerminal 22]);
    ("051"%char, [OpNonTerminal 22]);
    ("052"%char, [OpNonTerminal 22]);
    ("053"%char, [OpNonTerminal 22]);
    ("054"%char, [OpNonTerminal 22]);
    ("055"%char, [OpNonTerminal 22]);
    ("056"%char, [OpNonTerminal 22]);
    ("057"%char, [OpNonTerminal 22]);
    ("058"%char, [OpNonTerminal 23]);
    ("059"%char, [OpNonTerminal 23]);
    ("060"%char, [OpNonTerminal 23]);
    ("061"%char, [OpNonTerminal 23]);
    ("062"%char, [OpNonTerminal 23]);
    ("063"%char, [OpNonTerminal 23]);
    ("064"%char, [OpNonTerminal 23]);
    ("065"%char, [OpNonTerminal 21]);
    ("066"%char, [OpNonTerminal 21]);
    ("067"%char, [OpNonTerminal 21]);
    ("068"%char, [OpNonTerminal 21]);
    ("069"%char, [OpNonTerminal 21]);
    ("070"%char, [OpNonTerminal 21]);
    ("071"%char, [OpNonTerminal 21]);
    ("072"%char, [OpNonTerminal 21]);
    ("073"%char, [OpNonTerminal 21]);
    ("074"%char, [OpNonTerminal 21]);
    ("075"%char, [OpNonTerminal 21]);
    ("076"%char, [OpNonTerminal 21]);
    ("077"%char, [OpNonTerminal 21]);
    ("078"%char, [OpNonTerminal 21]);
    ("079"%char, [OpNonTerminal 21]);
    ("080"%char, [OpNonTerminal 21]);
    ("081"%char, [OpNonTerminal 21]);
    ("082"%char, [OpNonTerminal 21]);
    ("083"%char, [OpNonTerminal 21]);
    ("084"%char, [OpNonTerminal 21]);
    ("085"%char, [OpNonTerminal 21]);
    ("086"%char, [OpNonTerminal 21]);
    ("087"%char, [OpNonTerminal 21]);
    ("088"%char, [OpNonTerminal 21]);
    ("089"%char, [OpNonTerminal 21]);
    ("090"%char, [OpNonTerminal 21]);
    ("091"%char, [OpNonTerminal 23]);
    ("092"%char, [OpNonTerminal 16]);
    ("093"%char, [OpNonTerminal 23]);
    ("094"%char, [OpNonTerminal 23]);
    ("095"%char, [OpNonTerminal 23]);
    ("096"%char, [OpNonTerminal 23]);
    ("097"%char, [OpNonTerminal 21]);
    ("098"%char, [OpNonTerminal 21]);
    ("099"%char, [OpNonTerminal 21]);
    ("100"%char, [OpNonTerminal 21]);
    ("101"%char, [OpNonTerminal 21]);
    ("102"%char, [OpNonTerminal 21]);
    ("103"%char, [OpNonTerminal 21]);
    ("104"%char, [OpNonTerminal 21]);
    ("105"%char, [OpNonTerminal 21]);
    ("106"%char, [OpNonTerminal 21]);
    ("107"%char, [OpNonTerminal 21]);
    ("108"%char, [OpNonTerminal 21]);
    ("109"%char, [OpNonTerminal 21]);
    ("110"%char, [OpNonTerminal 21]);
    ("111"%char, [OpNonTerminal 21]);
    ("112"%char, [OpNonTerminal 21]);
    ("113"%char, [OpNonTerminal 21]);
    ("114"%char, [OpNonTerminal 21]);
    ("115"%char, [OpNonTerminal 21]);
    ("116"%char, [OpNonTerminal 21]);
    ("117"%char, [OpNonTerminal 21]);
    ("118"%char, [OpNonTerminal 21]);
    ("119"%char, [OpNonTerminal 21]);
    ("120"%char, [OpNonTerminal 21]);
    ("121"%char, [OpNonTerminal 21]);
    ("122"%char, [OpNonTerminal 21]);
    ("123"%char, [OpNonTerminal 23]);
    ("124"%char, [OpNonTerminal 23]);
    ("125"%char, [OpNonTerminal 23]);
    ("126"%char, [OpNonTerminal 23])]);
  (16%Z,
   [("092"%char, [OpTerminal (s2b "\"); OpNonTerminal 17])]);
  (17%Z,
   [("034"%char, [OpTerminal (s2b """")]);
    ("092"%char, [OpTerminal (s2b "\")]);
    ("110"%char, [OpTerminal (s2b "n")]);
    ("114"%char, [OpTerminal (s2b "r")]);
    ("116"%char, [OpTerminal (s2b "t")])]);
  (18%Z,
   [("065"%char, [OpNonTerminal 21; OpNonTerminal 19]);
    ("066"%char, [OpNonTerminal 21; OpNonTerminal 19]);
    ("067"%char, [OpNonTerminal 21; OpNonTerminal 19]);
    ("068"%char, [OpNonTerminal 21; OpNonTerminal 19]);
    ("069"%char, [OpNonTerminal 21; OpNonTerminal 19]);
    ("070"%char, [OpNonTerminal 21; OpNonTerminal 19]);
    ("071"%char, [OpNonTerminal 21; OpNonTerminal 19]);
    ("072"%char, [OpNonTerminal 21; OpNonTerminal 19]);
    ("073"%char, [OpNonTerminal 21; OpNonTerminal 19]);
    ("074"%char, [OpNonTerminal 21; OpNonTerminal 19]);
    ("075"%char, [OpNonTerminal 21; OpNonTerminal 19]);
    ("076"%char, [OpNonTerminal 21; OpNonTerminal 19]);
    ("077"%char, [OpNonTerminal 21; OpNonTerminal 19]);
    ("078"%char, [OpNonTerminal 21; OpNonTerminal 19]);
    ("079"%char, [OpNonTerminal 21; OpNonTerminal 19]);
    ("080"%char, [OpNonTerminal 21; OpNonTerminal 19]);
    ("081"%char, [OpNonTerminal 21; OpNonTerminal 19]);
    ("082"%char, [OpNonTerminal 21; OpNonTerminal 19]);
    ("083"%char, [OpNonTerminal 21; OpNonTerminal 19]);
    ("084"%char, [OpNonTerminal 21; OpNonTerminal 19]);
    ("085"%char, [OpNonTerminal 21; OpNonTerminal 19]);
    ("086"%char, [OpNonTerminal 21; OpNonTerminal 19]);
    ("087"%char, [OpNonTerminal 21; OpNonTerminal 19]);
    ("088"%char, [OpNonTerminal 21; OpNonTerminal 19]);
    ("089"%char, [OpNonTerminal 21; OpNonTerminal 19]);
    ("090"%char, [OpNonTerminal 21; OpNonTerminal 19]);
    ("097"%char, [OpNonTerminal 21; OpNonTerminal 19]);
    ("098"%char, [OpNonTerminal 21; OpNonTerminal 19]);
    ("099"%char, [OpNonTerminal 21; OpNonTerminal 19]);
    ("100"%char, [OpNonTerminal 21; OpNonTerminal 19]);
    ("101"%char, [OpNonTerminal 21; OpNonTerminal 19]);
    ("102"%char, [OpNonTerminal 21; OpNonTerminal 19]);
    ("103"%char, [OpNonTerminal 21; OpNonTerminal 19]);
    ("104"%char, [OpNonTerminal 21; OpNonTerminal 19]);
    ("105"%char, [OpNonTerminal 21; OpNonTerminal 19]);
    ("106"%char, [OpNonTerminal 21; OpNonTerminal 19]);
    ("107"%char, [OpNonTerminal 21; OpNonTerminal 19]);
    ("108"%char, [OpNonTerminal 21; OpNonTerminal 19]);
    ("109"%char, [OpNonTerminal 21; OpNonTerminal 19]);
    ("110"%char, [OpNonTerminal 21; OpNonTerminal 19]);
    ("111"%char, [OpNonTerminal 21; OpNonTerminal 19]);
    ("112"%char, [OpNonTerminal 21; OpNonTerminal 19]);
    ("113"%char, [OpNonTerminal 21; OpNonTerminal 19]);
    ("114"%char, [OpNonTerminal 21; OpNonTerminal 19]);
    ("115"%char, [OpNonTerminal 21; OpNonTerminal 19]);
    ("116"%char, [OpNonTerminal 21; OpNonTerminal 19]);
    ("117"%char, [OpNonTerminal 21; OpNonTerminal 19]);
    ("118"%char, [OpNonTerminal 21; OpNonTerminal 19]);
    ("119"%char, [OpNonTerminal 21; OpNonTerminal 19]);
    ("120"%char, [OpNonTerminal 21; OpNonTerminal 19]);
    ("121"%char, [OpNonTerminal 21; OpNonTerminal 19]);
    ("122"%char, [OpNonTerminal 21; OpNonTerminal 19])]);
  (19%Z,
   [("045"%char, [OpNonTerminal 20; OpNonTerminal 19]);
    ("048"%char, [OpNonTerminal 20; OpNonTerminal 19]);
    ("049"%char, [OpNonTerminal 20; OpNonTerminal 19]);
    ("050"%char, [OpNonTerminal 20; OpNonTerminal 19]);
    ("051"%char, [OpNonTerminal 20; OpNonTerminal 19]);
    ("052"%char, [OpNonTerminal 20; OpNonTerminal 19]);
    ("053"%char, [OpNonTerminal 20; OpNonTerminal 19]);
    ("054"%char, [OpNonTerminal 20; OpNonTerminal 19]);
    ("055"%char, [OpNonTerminal 20; OpNonTerminal 19]);
    ("056"%char, [OpNonTerminal 20; OpNonTerminal 19]);
    ("057"%char, [OpNonTerminal 20; OpNonTerminal 19]);
    ("062"%char, []);
    ("065"%char, [OpNonTerminal 20; OpNonTerminal 19]);
    ("066"%char, [OpNonTerminal 20; OpNonTerminal 19]);
    ("067"%char, [OpNonTerminal 20; OpNonTerminal 19]);
    ("068"%char, [OpNonTerminal 20; OpNonTerminal 19]);
    ("069"%char, [OpNonTerminal 20; OpNonTerminal 19]);
    ("070"%char, [OpNonTerminal 20; OpNonTerminal 19]);
    ("071"%char, [OpNonTerminal 20; OpNonTerminal 19]);
    ("072"%char, [OpNonTerminal 20; OpNonTerminal 19]);
    ("073"%char, [OpNonTerminal 20; OpNonTerminal 19]);
    ("074"%char, [OpNonTerminal 20; OpNonTerminal 19]);
    ("075"%char, [OpNonTerminal 20; OpNonTerminal 19]);
    ("076"%char, [OpNonTerminal 20; OpNonTerminal 19]);
    ("077"%char, [OpNonTerminal 20; OpNonTerminal 19]);
    ("078"%char, [OpNonTerminal 20; OpNonTerminal 19]);
    ("079"%char, [OpNonTerminal 20; OpNonTerminal 19]);
    ("080"%char, [OpNonTerminal 20; OpNonTerminal 19]);
    ("081"%char, [OpNonTerminal 20; OpNonTerminal 19]);
    ("082"%char, [OpNonTerminal 20; OpNonTerminal 19]);
    ("083"%char, [OpNonTerminal 20; OpNonTerminal 19]);
    ("084"%char, [OpNonTerminal 20; OpNonTerminal 19]);
    ("085"%char, [OpNonTerminal 20; OpNonTerminal 19]);
    ("086"%char, [OpNonTerminal 20; OpNonTerminal 19]);
    ("087"%char, [OpNonTerminal 20; OpNonTerminal 19]);
    ("088"%char, [OpNonTerminal 20; OpNonTerminal 19]);
    ("089"%char, [OpNonTerminal 20; OpNonTerminal 19]);
    ("090"%char, [OpNonTerminal 20; OpNonTerminal 19]);
    ("097"%char, [OpNonTerminal 20; OpNonTerminal 19]);
    ("098"%char, [OpNonTerminal 20; OpNonTerminal 19]);
    ("099"%char, [OpNonTerminal 20; OpNonTerminal 19]);
    ("100"%char, [OpNonTerminal 20; OpNonTerminal 19]);
    ("101"%char, [OpNonTerminal 20; OpNonTerminal 19]);
    ("102"%char, [OpNonTerminal 20; OpNonTerminal 19]);
    ("103"%char, [OpNonTerminal 20; OpNonTerminal 19]);
    ("104"%char, [OpNonTerminal 20; OpNonTerminal 19]);
    ("105"%char, [OpNonTerminal 20; OpNonTerminal 19]);
    ("106"%char, [OpNonTerminal 20; OpNonTerminal 19]);
    ("107"%char, [OpNonTerminal 20; OpNonTerminal 19]);
    ("108"%char, [OpNonTerminal 20; OpNonTerminal 19]);
    ("109"%char, [OpNonTerminal 20; OpNonTerminal 19]);
    ("110"%char, [OpNonTerminal 20; OpNonTerminal 19]);
    ("111"%char, [OpNonTerminal 20; OpNonTerminal 19]);
    ("112"%char, [OpNonTerminal 20; OpNonTerminal 19]);
    ("113"%char, [OpNonTerminal 20; OpNonTerminal 19]);
    ("114"%char, [OpNonTerminal 20; OpNonTerminal 19]);
    ("115"%char, [OpNonTerminal 20; OpNonTerminal 19]);
    ("116"%char, [OpNonTerminal 20; OpNonTerminal 19]);
    ("117"%char, [OpNonTerminal 20; OpNonTerminal 19]);
    ("118"%char, [OpNonTerminal 20; OpNonTerminal 19]);
    ("119"%char, [OpNonTerminal 20; OpNonTerminal 19]);
    ("120"%char, [OpNonTerminal 20; OpNonTerminal 19]);
    ("121"%char, [OpNonTerminal 20; OpNonTerminal 19]);
    ("122"%char, [OpNonTerminal 20; OpNonTerminal 19])]);
  (20%Z,
   [("045"%char, [OpTerminal (s2b "-")]);
    ("048"%char, [OpNonTerminal 22]);
    ("049"%char, [OpNonTerminal 22]);
    ("050"%char, [OpNonTerminal 22]);
    ("051"%char, [OpNonTerminal 22]);
    ("052"%char, [OpNonTerminal 22]);
    ("053"%char, [OpNonTerminal 22]);
    ("054"%char, [OpNonTerminal 22]);
    ("055"%char, [OpNonTerminal 22]);
    ("056"%char, [OpNonTerminal 22]);
    ("057"%char, [OpNonTerminal 22]);
    ("065"%char, [OpNonTerminal 21]);
    ("066"%char, [OpNonTerminal 21]);
    ("067"%char, [OpNonTerminal 21]);
    ("068"%char, [OpNonTerminal 21]);
    ("069"%char, [OpNonTerminal 21]);
    ("070"%char, [OpNonTerminal 21]);
    ("071"%char, [OpNonTerminal 21]);
    ("072"%char, [OpNonTerminal 21]);
    ("073"%char, [OpNonTerminal 21]);
    ("074"%char, [OpNonTerminal 21]);
    ("075"%char, [OpNonTerminal 21]);
    ("076"%char, [OpNonTerminal 21]);
    ("077"%char, [OpNonTerminal 21]);
    ("078"%char, [OpNonTerminal 21]);
    ("079"%char, [OpNonTerminal 21]);
    ("080"%char, [OpNonTerminal 21]);
    ("081"%char, [OpNonTerminal 21]);
    ("082"%char, [OpNonTerminal 21]);
    ("083"%char, [OpNonTerminal 21]);
    ("084"%char, [OpNonTerminal 21]);
    ("085"%char, [OpNonTerminal 21]);
    ("086"%char, [OpNonTerminal 21]);
    ("087"%char, [OpNonTerminal 21]);
    ("088"%char, [OpNonTerminal 21]);
    ("089"%char, [OpNonTerminal 21]);
    ("090"%char, [OpNonTerminal 21]);
    ("097"%char, [OpNonTerminal 21]);
    ("098"%char, [OpNonTerminal 21]);
    ("099"%char, [OpNonTerminal 21]);
    ("100"%char, [OpNonTerminal 21]);
    ("101"%char, [OpNonTerminal 21]);
    ("102"%char, [OpNonTerminal 21]);
    ("103"%char, [OpNonTerminal 21]);
    ("104"%char, [OpNonTerminal 21]);
    ("105"%char, [OpNonTerminal 21]);
    ("106"%char, [OpNonTerminal 21]);
    ("107"%char, [OpNonTerminal 21]);
    ("108"%char, [OpNonTerminal 21]);
    ("109"%char, [OpNonTerminal 21]);
    ("110"%char, [OpNonTerminal 21]);
    ("111"%char, [OpNonTerminal 21]);
    ("112"%char, [OpNonTerminal 21]);
    ("113"%char, [OpNonTerminal 21]);
    ("114"%char, [OpNonTerminal 21]);
    ("115"%char, [OpNonTerminal 21]);
    ("116"%char, [OpNonTerminal 21]);
    ("117"%char, [OpNonTerminal 21]);
    ("118"%char, [OpNonTerminal 21]);
    ("119"%char, [OpNonTerminal 21]);
    ("120"%char, [OpNonTerminal 21]);
    ("121"%char, [OpNonTerminal 21]);
    ("122"%char, [OpNonTerminal 21])]);
  (21%Z,
   [("065"%char, [OpTerminal (s2b "A")]);
    ("066"%char, [OpTerminal (s2b "B")]);
    ("067"%char, [OpTerminal (s2b "C")]);
    ("068"%char, [OpTerminal (s2b "D")]);
    ("069"%char, [OpTerminal (s2b "E")]);
    ("070"%char, [OpTerminal (s2b "F")]);
    ("071"%char, [OpTerminal (s2b "G")]);
    ("072"%char, [OpTerminal (s2b "H")]);
    ("073"%char, [OpTerminal (s2b "I")]);
    ("074"%char, [OpTerminal (s2b "J")]);
    ("075"%char, [OpTerminal (s2b "K")]);
    ("076"%char, [OpTerminal (s2b "L")]);
    ("077"%char, [OpTerminal (s2b "M")]);
    ("078"%char, [OpTerminal (s2b "N")]);
    ("079"%char, [OpTerminal (s2b "O")]);
    ("080"%char, [OpTerminal (s2b "P")]);
    ("081"%char, [OpTerminal (s2b "Q")]);
    ("082"%char, [OpTerminal (s2b "R")]);
    ("083"%char, [OpTerminal (s2b "S")]);
    ("084"%char, [OpTerminal (s2b "T")]);
    ("085"%char, [OpTerminal (s2b "U")]);
    ("086"%char, [OpTerminal (s2b "V")]);
    ("087"%char, [OpTerminal (s2b "W")]);
    ("088"%char, [OpTerminal (s2b "X")]);
    ("089"%char, [OpTerminal (s2b "Y")]);
    ("090"%char, [OpTerminal (s2b "Z")]);
    ("097"%char, [OpTerminal (s2b "a")]);
    ("098"%char, [OpTerminal (s2b "b")]);
    ("099"%char, [OpTerminal (s2b "c")]);
    ("100"%char, [OpTerminal (s2b "d")]);
    ("101"%char, [OpTerminal (s2b "e")]);
    ("102"%char, [OpTerminal (s2b "f")]);
    ("103"%char, [OpTerminal (s2b "g")]);
    ("104"%char, [OpTerminal (s2b "h")]);
    ("105"%char, [OpTerminal (s2b "i")]);
    ("106"%char, [OpTerminal (s2b "j")]);
    ("107"%char, [OpTerminal (s2b "k")]);
    ("108"%char, [OpTerminal (s2b "l")]);
    ("109"%char, [OpTerminal (s2b "m")]);
    ("110"%char, [OpTerminal (s2b "n")]);
    ("111"%char, [OpTerminal (s2b "o")]);
    ("112"%char, [OpTerminal (s2b "p")]);
    ("113"%char, [OpTerminal (s2b "q")]);
    ("114"%char, [OpTerminal (s2b "r")]);
    ("115"%char, [OpTerminal (s2b "s")]);
    ("116"%char, [OpTerminal (s2b "t")]);
    ("117"%char, [OpTerminal (s2b "u")]);
    ("118"%char, [OpTerminal (s2b "v")]);
    ("119"%char, [OpTerminal (s2b "w")]);
    ("120"%char, [OpTerminal (s2b "x")]);
    ("121"%char, [OpTerminal (s2b "y")]);
    ("122"%char, [OpTerminal (s2b "z")])]);
  (22%Z,
   [("048"%char, [OpTerminal (s2b "0")]);
    ("049"%char, [OpTerminal (s2b "1")]);
    ("050"%char, [OpTerminal (s2b "2")]);
    ("051"%char, [OpTerminal (s2b "3")]);
    ("052"%char, [OpTerminal (s2b "4")]);
    ("053"%char, [OpTerminal (s2b "5")]);
    ("054"%char, [OpTerminal (s2b "6")]);
    ("055"%char, [OpTerminal (s2b "7")]);
    ("056"%char, [OpTerminal (s2b "8")]);
    ("057"%char, [OpTerminal (s2b "9")])]);
  (23%Z,
   [("032"%char, [OpTerminal (s2b " ")]);
    ("033"%char, [OpTerminal (s2b "!")]);
    ("035"%char, [OpTerminal (s2b "#")]);
    ("036"%char, [OpTerminal (s2b "$")]);
    ("037"%char, [OpTerminal (s2b "%")]);
    ("038"%char, [OpTerminal (s2b "&")]);
    ("040"%char, [OpTerminal (s2b "(")]);
    ("041"%char, [OpTerminal (s2b ")")]);
    ("042"%char, [OpTerminal (s2b "*")]);
    ("043"%char, [OpTerminal (s2b "+")]);
    ("044"%char, [OpTerminal (s2b ",")]);
    ("045"%char, [OpTerminal (s2b "-")]);
    ("046"%char, [OpTerminal (s2b ".")]);
    ("047"%char, [OpTerminal (s2b "/")]);
    ("058"%char, [OpTerminal (s2b ":")]);
    ("059"%char, [OpTerminal (s2b ";")]);
    ("060"%char, [OpTerminal (s2b "<")]);
    ("061"%char, [OpTerminal (s2b "=")]);
    ("062"%char, [OpTerminal (s2b ">")]);
    ("063"%char, [OpTerminal (s2b "?")]);
    ("064"%char, [OpTerminal (s2b "@")]);
    ("091"%char, [OpTerminal (s2b "[")]);
    ("093"%char, [OpTerminal (s2b "]")]);
    ("094"%char, [OpTerminal (s2b "^")]);
    ("095"%char, [OpTerminal (s2b "_")]);
    ("096"%char, [OpTerminal (s2b "`")]);
    ("123"%char, [OpTerminal (s2b "{")]);
    ("124"%char, [OpTerminal (s2b "|")]);
    ("125"%char, [OpTerminal (s2b "}")]);
    ("126"%char, [OpTerminal (s2b "~")])]);
  (24%Z,
   [("000"%char, []);
    ("010"%char, []);
    ("013"%char, []);
    ("032"%char, [OpTerminal (s2b " "); OpNonTerminal 24]);
    ("034"%char, []);
    ("039"%char, []);
    ("058"%char, []);
    ("060"%char, []);
    ("124"%char, [])]);
  (25%Z,
   [("010"%char, [OpTerminal ([LF])]);
    ("013"%char, [OpTerminal ([CR; LF])])]) ].

