(** * RefTexts: the reference files of the repository's tests, byte for byte.

    Transcribed mechanically from test/bnftablegen/*.bin and test/parser/*.bin;
    they were written by the real Go program. *)
From Verif Require Import Base.

(** test/bnftablegen/refTestLinearMultiRuleGrammarToParsingTableResTable.bin *)
Definition file_table_linear : bytes :=
  s2b "map[int]map[uint8][]parser.ParserOp{0:map[uint8][]parser.ParserOp{0x41:[]parser.ParserOp{parser.terminal_t{value:""A""}, parser.terminal_t{value:""::=""}, parser.nonTerminal_t{name:1}}}, 1:map[uint8][]parser.ParserOp{0x43:[]parser.ParserOp{parser.terminal_t{value:""C""}}}}".

(** test/bnftablegen/refTestOrGrammarToParsingTableResTable.bin *)
Definition file_table_or : bytes :=
  s2b "map[int]map[uint8][]parser.ParserOp{0:map[uint8][]parser.ParserOp{0x22:[]parser.ParserOp{parser.terminal_t{value:""\""""}, parser.nonTerminal_t{name:1}, parser.terminal_t{value:""^""}}}, 1:map[uint8][]parser.ParserOp{0x42:[]parser.ParserOp{parser.terminal_t{value:""B""}}, 0x43:[]parser.ParserOp{parser.terminal_t{value:""C""}}, 0x5e:[]parser.ParserOp{}}}".

(** test/bnftablegen/refTestResolvedLRecursiveGrammarToParsingTableResTable.bin *)
Definition file_table_resolved : bytes :=
  s2b "map[int]map[uint8][]parser.ParserOp{0:map[uint8][]parser.ParserOp{0x5f:[]parser.ParserOp{parser.terminal_t{value:""_""}, parser.nonTerminal_t{name:1}}}, 1:map[uint8][]parser.ParserOp{0x0:[]parser.ParserOp{}, 0x42:[]parser.ParserOp{parser.terminal_t{value:""B""}, parser.nonTerminal_t{name:1}}}}".

(** test/bnftablegen/refTestBNFGrammarToParsingTableResTable.bin *)
Definition file_table_bnf : bytes :=
  s2b "map[int]map[uint8][]parser.ParserOp{0:map[uint8][]parser.ParserOp{0x20:[]parser.ParserOp{parser.nonTerminal_t{name:24}, parser.nonTerminal_t{name:4}, parser.nonTerminal_t{name:1}}, 0x3c:[]parser.ParserOp{parser.nonTerminal_t{name:24}, parser.nonTerminal_t{name:4}, parser.nonTerminal_t{name:1}}}, 1:map[uint8][]parser.ParserOp{0x0:[]parser.ParserOp{}, 0xa:[]parser.ParserOp{parser.nonTerminal_t{name:25}, parser.nonTerminal_t{name:2}, parser.nonTerminal_t{name:1}}, 0xd:[]parser.ParserOp{parser.nonTerminal_t{name:25}, parser.nonTerminal_t{name:2}, parser.nonTerminal_t{name:1}}}, 2:map[uint8][]parser.ParserOp{0x0:[]parser.ParserOp{}, 0xa:[]parser.ParserOp{}, 0xd:[]parser.ParserOp{}, 0x20:[]parser.ParserOp{parser.nonTerminal_t{name:24}, parser.nonTerminal_t{name:3}}, 0x3c:[]parser.ParserOp{parser.nonTerminal_t{name:24}, parser.nonTerminal_t{name:3}}}, 3:map[uint8][]parser.ParserOp{0x0:[]parser.ParserOp{}, 0xa:[]parser.ParserOp{}, 0xd:[]parser.ParserOp{}, 0x3c:[]parser.ParserOp{parser.nonTermi" ++
  s2b "nal_t{name:4}}}, 4:map[uint8][]parser.ParserOp{0x3c:[]parser.ParserOp{parser.terminal_t{value:""<""}, parser.nonTerminal_t{name:18}, parser.terminal_t{value:"">""}, parser.nonTerminal_t{name:24}, parser.terminal_t{value:""::=""}, parser.nonTerminal_t{name:24}, parser.nonTerminal_t{name:5}}}, 5:map[uint8][]parser.ParserOp{0x22:[]parser.ParserOp{parser.nonTerminal_t{name:7}, parser.nonTerminal_t{name:6}}, 0x27:[]parser.ParserOp{parser.nonTerminal_t{name:7}, parser.nonTerminal_t{name:6}}, 0x3c:[]parser.ParserOp{parser.nonTerminal_t{name:7}, parser.nonTerminal_t{name:6}}}, 6:map[uint8][]parser.ParserOp{0x0:[]parser.ParserOp{}, 0xa:[]parser.ParserOp{}, 0xd:[]parser.ParserOp{}, 0x7c:[]parser.ParserOp{parser.terminal_t{value:""|""}, parser.nonTerminal_t{name:24}, parser.nonTerminal_t{name:7}, parser.nonTerminal_t{name:6}}}, 7:map[uint8][]parser.ParserOp{0x22:[]parser.ParserOp{parser.nonTerminal_t{name:9}, parser.nonTerminal_t{name:24}, parser.nonTerminal_t{name:8}}, 0x27:[]parser.ParserOp{parser.nonT" ++
  s2b "erminal_t{name:9}, parser.nonTerminal_t{name:24}, parser.nonTerminal_t{name:8}}, 0x3c:[]parser.ParserOp{parser.nonTerminal_t{name:9}, parser.nonTerminal_t{name:24}, parser.nonTerminal_t{name:8}}}, 8:map[uint8][]parser.ParserOp{0x0:[]parser.ParserOp{}, 0xa:[]parser.ParserOp{}, 0xd:[]parser.ParserOp{}, 0x22:[]parser.ParserOp{parser.nonTerminal_t{name:9}, parser.nonTerminal_t{name:24}, parser.nonTerminal_t{name:8}}, 0x27:[]parser.ParserOp{parser.nonTerminal_t{name:9}, parser.nonTerminal_t{name:24}, parser.nonTerminal_t{name:8}}, 0x3c:[]parser.ParserOp{parser.nonTerminal_t{name:9}, parser.nonTerminal_t{name:24}, parser.nonTerminal_t{name:8}}, 0x7c:[]parser.ParserOp{}}, 9:map[uint8][]parser.ParserOp{0x22:[]parser.ParserOp{parser.nonTerminal_t{name:10}}, 0x27:[]parser.ParserOp{parser.nonTerminal_t{name:10}}, 0x3c:[]parser.ParserOp{parser.terminal_t{value:""<""}, parser.nonTerminal_t{name:18}, parser.terminal_t{value:"">""}}}, 10:map[uint8][]parser.ParserOp{0x22:[]parser.ParserOp{parser.terminal_" ++
  s2b "t{value:""\""""}, parser.nonTerminal_t{name:11}, parser.terminal_t{value:""\""""}}, 0x27:[]parser.ParserOp{parser.terminal_t{value:""'""}, parser.nonTerminal_t{name:12}, parser.terminal_t{value:""'""}}}, 11:map[uint8][]parser.ParserOp{0x20:[]parser.ParserOp{parser.nonTerminal_t{name:13}, parser.nonTerminal_t{name:11}}, 0x21:[]parser.ParserOp{parser.nonTerminal_t{name:13}, parser.nonTerminal_t{name:11}}, 0x22:[]parser.ParserOp{}, 0x23:[]parser.ParserOp{parser.nonTerminal_t{name:13}, parser.nonTerminal_t{name:11}}, 0x24:[]parser.ParserOp{parser.nonTerminal_t{name:13}, parser.nonTerminal_t{name:11}}, 0x25:[]parser.ParserOp{parser.nonTerminal_t{name:13}, parser.nonTerminal_t{name:11}}, 0x26:[]parser.ParserOp{parser.nonTerminal_t{name:13}, parser.nonTerminal_t{name:11}}, 0x27:[]parser.ParserOp{parser.nonTerminal_t{name:13}, parser.nonTerminal_t{name:11}}, 0x28:[]parser.ParserOp{parser.nonTerminal_t{name:13}, parser.nonTerminal_t{name:11}}, 0x29:[]parser.ParserOp{parser.nonTerminal_t{name:13}, parser." ++
  s2b "nonTerminal_t{name:11}}, 0x2a:[]parser.ParserOp{parser.nonTerminal_t{name:13}, parser.nonTerminal_t{name:11}}, 0x2b:[]parser.ParserOp{parser.nonTerminal_t{name:13}, parser.nonTerminal_t{name:11}}, 0x2c:[]parser.ParserOp{parser.nonTerminal_t{name:13}, parser.nonTerminal_t{name:11}}, 0x2d:[]parser.ParserOp{parser.nonTerminal_t{name:13}, parser.nonTerminal_t{name:11}}, 0x2e:[]parser.ParserOp{parser.nonTerminal_t{name:13}, parser.nonTerminal_t{name:11}}, 0x2f:[]parser.ParserOp{parser.nonTerminal_t{name:13}, parser.nonTerminal_t{name:11}}, 0x30:[]parser.ParserOp{parser.nonTerminal_t{name:13}, parser.nonTerminal_t{name:11}}, 0x31:[]parser.ParserOp{parser.nonTerminal_t{name:13}, parser.nonTerminal_t{name:11}}, 0x32:[]parser.ParserOp{parser.nonTerminal_t{name:13}, parser.nonTerminal_t{name:11}}, 0x33:[]parser.ParserOp{parser.nonTerminal_t{name:13}, parser.nonTerminal_t{name:11}}, 0x34:[]parser.ParserOp{parser.nonTerminal_t{name:13}, parser.nonTerminal_t{name:11}}, 0x35:[]parser.ParserOp{parser" ++
  s2b ".nonTerminal_t{name:13}, parser.nonTerminal_t{name:11}}, 0x36:[]parser.ParserOp{parser.nonTerminal_t{name:13}, parser.nonTerminal_t{name:11}}, 0x37:[]parser.ParserOp{parser.nonTerminal_t{name:13}, parser.nonTerminal_t{name:11}}, 0x38:[]parser.ParserOp{parser.nonTerminal_t{name:13}, parser.nonTerminal_t{name:11}}, 0x39:[]parser.ParserOp{parser.nonTerminal_t{name:13}, parser.nonTerminal_t{name:11}}, 0x3a:[]parser.ParserOp{parser.nonTerminal_t{name:13}, parser.nonTerminal_t{name:11}}, 0x3b:[]parser.ParserOp{parser.nonTerminal_t{name:13}, parser.nonTerminal_t{name:11}}, 0x3c:[]parser.ParserOp{parser.nonTerminal_t{name:13}, parser.nonTerminal_t{name:11}}, 0x3d:[]parser.ParserOp{parser.nonTerminal_t{name:13}, parser.nonTerminal_t{name:11}}, 0x3e:[]parser.ParserOp{parser.nonTerminal_t{name:13}, parser.nonTerminal_t{name:11}}, 0x3f:[]parser.ParserOp{parser.nonTerminal_t{name:13}, parser.nonTerminal_t{name:11}}, 0x40:[]parser.ParserOp{parser.nonTerminal_t{name:13}, parser.nonTerminal_t{name:11}" ++
  s2b "}, 0x41:[]parser.ParserOp{parser.nonTerminal_t{name:13}, parser.nonTerminal_t{name:11}}, 0x42:[]parser.ParserOp{parser.nonTerminal_t{name:13}, parser.nonTerminal_t{name:11}}, 0x43:[]parser.ParserOp{parser.nonTerminal_t{name:13}, parser.nonTerminal_t{name:11}}, 0x44:[]parser.ParserOp{parser.nonTerminal_t{name:13}, parser.nonTerminal_t{name:11}}, 0x45:[]parser.ParserOp{parser.nonTerminal_t{name:13}, parser.nonTerminal_t{name:11}}, 0x46:[]parser.ParserOp{parser.nonTerminal_t{name:13}, parser.nonTerminal_t{name:11}}, 0x47:[]parser.ParserOp{parser.nonTerminal_t{name:13}, parser.nonTerminal_t{name:11}}, 0x48:[]parser.ParserOp{parser.nonTerminal_t{name:13}, parser.nonTerminal_t{name:11}}, 0x49:[]parser.ParserOp{parser.nonTerminal_t{name:13}, parser.nonTerminal_t{name:11}}, 0x4a:[]parser.ParserOp{parser.nonTerminal_t{name:13}, parser.nonTerminal_t{name:11}}, 0x4b:[]parser.ParserOp{parser.nonTerminal_t{name:13}, parser.nonTerminal_t{name:11}}, 0x4c:[]parser.ParserOp{parser.nonTerminal_t{name:13" ++
  s2b "}, parser.nonTerminal_t{name:11}}, 0x4d:[]parser.ParserOp{parser.nonTerminal_t{name:13}, parser.nonTerminal_t{name:11}}, 0x4e:[]parser.ParserOp{parser.nonTerminal_t{name:13}, parser.nonTerminal_t{name:11}}, 0x4f:[]parser.ParserOp{parser.nonTerminal_t{name:13}, parser.nonTerminal_t{name:11}}, 0x50:[]parser.ParserOp{parser.nonTerminal_t{name:13}, parser.nonTerminal_t{name:11}}, 0x51:[]parser.ParserOp{parser.nonTerminal_t{name:13}, parser.nonTerminal_t{name:11}}, 0x52:[]parser.ParserOp{parser.nonTerminal_t{name:13}, parser.nonTerminal_t{name:11}}, 0x53:[]parser.ParserOp{parser.nonTerminal_t{name:13}, parser.nonTerminal_t{name:11}}, 0x54:[]parser.ParserOp{parser.nonTerminal_t{name:13}, parser.nonTerminal_t{name:11}}, 0x55:[]parser.ParserOp{parser.nonTerminal_t{name:13}, parser.nonTerminal_t{name:11}}, 0x56:[]parser.ParserOp{parser.nonTerminal_t{name:13}, parser.nonTerminal_t{name:11}}, 0x57:[]parser.ParserOp{parser.nonTerminal_t{name:13}, parser.nonTerminal_t{name:11}}, 0x58:[]parser.Parse" ++
  s2b "rOp{parser.nonTerminal_t{name:13}, parser.nonTerminal_t{name:11}}, 0x59:[]parser.ParserOp{parser.nonTerminal_t{name:13}, parser.nonTerminal_t{name:11}}, 0x5a:[]parser.ParserOp{parser.nonTerminal_t{name:13}, parser.nonTerminal_t{name:11}}, 0x5b:[]parser.ParserOp{parser.nonTerminal_t{name:13}, parser.nonTerminal_t{name:11}}, 0x5c:[]parser.ParserOp{parser.nonTerminal_t{name:13}, parser.nonTerminal_t{name:11}}, 0x5d:[]parser.ParserOp{parser.nonTerminal_t{name:13}, parser.nonTerminal_t{name:11}}, 0x5e:[]parser.ParserOp{parser.nonTerminal_t{name:13}, parser.nonTerminal_t{name:11}}, 0x5f:[]parser.ParserOp{parser.nonTerminal_t{name:13}, parser.nonTerminal_t{name:11}}, 0x60:[]parser.ParserOp{parser.nonTerminal_t{name:13}, parser.nonTerminal_t{name:11}}, 0x61:[]parser.ParserOp{parser.nonTerminal_t{name:13}, parser.nonTerminal_t{name:11}}, 0x62:[]parser.ParserOp{parser.nonTerminal_t{name:13}, parser.nonTerminal_t{name:11}}, 0x63:[]parser.ParserOp{parser.nonTerminal_t{name:13}, parser.nonTerminal_" ++
  s2b "t{name:11}}, 0x64:[]parser.ParserOp{parser.nonTerminal_t{name:13}, parser.nonTerminal_t{name:11}}, 0x65:[]parser.ParserOp{parser.nonTerminal_t{name:13}, parser.nonTerminal_t{name:11}}, 0x66:[]parser.ParserOp{parser.nonTerminal_t{name:13}, parser.nonTerminal_t{name:11}}, 0x67:[]parser.ParserOp{parser.nonTerminal_t{name:13}, parser.nonTerminal_t{name:11}}, 0x68:[]parser.ParserOp{parser.nonTerminal_t{name:13}, parser.nonTerminal_t{name:11}}, 0x69:[]parser.ParserOp{parser.nonTerminal_t{name:13}, parser.nonTerminal_t{name:11}}, 0x6a:[]parser.ParserOp{parser.nonTerminal_t{name:13}, parser.nonTerminal_t{name:11}}, 0x6b:[]parser.ParserOp{parser.nonTerminal_t{name:13}, parser.nonTerminal_t{name:11}}, 0x6c:[]parser.ParserOp{parser.nonTerminal_t{name:13}, parser.nonTerminal_t{name:11}}, 0x6d:[]parser.ParserOp{parser.nonTerminal_t{name:13}, parser.nonTerminal_t{name:11}}, 0x6e:[]parser.ParserOp{parser.nonTerminal_t{name:13}, parser.nonTerminal_t{name:11}}, 0x6f:[]parser.ParserOp{parser.nonTerminal" ++
  s2b "_t{name:13}, parser.nonTerminal_t{name:11}}, 0x70:[]parser.ParserOp{parser.nonTerminal_t{name:13}, parser.nonTerminal_t{name:11}}, 0x71:[]parser.ParserOp{parser.nonTerminal_t{name:13}, parser.nonTerminal_t{name:11}}, 0x72:[]parser.ParserOp{parser.nonTerminal_t{name:13}, parser.nonTerminal_t{name:11}}, 0x73:[]parser.ParserOp{parser.nonTerminal_t{name:13}, parser.nonTerminal_t{name:11}}, 0x74:[]parser.ParserOp{parser.nonTerminal_t{name:13}, parser.nonTerminal_t{name:11}}, 0x75:[]parser.ParserOp{parser.nonTerminal_t{name:13}, parser.nonTerminal_t{name:11}}, 0x76:[]parser.ParserOp{parser.nonTerminal_t{name:13}, parser.nonTerminal_t{name:11}}, 0x77:[]parser.ParserOp{parser.nonTerminal_t{name:13}, parser.nonTerminal_t{name:11}}, 0x78:[]parser.ParserOp{parser.nonTerminal_t{name:13}, parser.nonTerminal_t{name:11}}, 0x79:[]parser.ParserOp{parser.nonTerminal_t{name:13}, parser.nonTerminal_t{name:11}}, 0x7a:[]parser.ParserOp{parser.nonTerminal_t{name:13}, parser.nonTerminal_t{name:11}}, 0x7b:[]pa" ++
  s2b "rser.ParserOp{parser.nonTerminal_t{name:13}, parser.nonTerminal_t{name:11}}, 0x7c:[]parser.ParserOp{parser.nonTerminal_t{name:13}, parser.nonTerminal_t{name:11}}, 0x7d:[]parser.ParserOp{parser.nonTerminal_t{name:13}, parser.nonTerminal_t{name:11}}, 0x7e:[]parser.ParserOp{parser.nonTerminal_t{name:13}, parser.nonTerminal_t{name:11}}}, 12:map[uint8][]parser.ParserOp{0x20:[]parser.ParserOp{parser.nonTerminal_t{name:14}, parser.nonTerminal_t{name:12}}, 0x21:[]parser.ParserOp{parser.nonTerminal_t{name:14}, parser.nonTerminal_t{name:12}}, 0x22:[]parser.ParserOp{parser.nonTerminal_t{name:14}, parser.nonTerminal_t{name:12}}, 0x23:[]parser.ParserOp{parser.nonTerminal_t{name:14}, parser.nonTerminal_t{name:12}}, 0x24:[]parser.ParserOp{parser.nonTerminal_t{name:14}, parser.nonTerminal_t{name:12}}, 0x25:[]parser.ParserOp{parser.nonTerminal_t{name:14}, parser.nonTerminal_t{name:12}}, 0x26:[]parser.ParserOp{parser.nonTerminal_t{name:14}, parser.nonTerminal_t{name:12}}, 0x27:[]parser.ParserOp{}, 0x28:" ++
  s2b "[]parser.ParserOp{parser.nonTerminal_t{name:14}, parser.nonTerminal_t{name:12}}, 0x29:[]parser.ParserOp{parser.nonTerminal_t{name:14}, parser.nonTerminal_t{name:12}}, 0x2a:[]parser.ParserOp{parser.nonTerminal_t{name:14}, parser.nonTerminal_t{name:12}}, 0x2b:[]parser.ParserOp{parser.nonTerminal_t{name:14}, parser.nonTerminal_t{name:12}}, 0x2c:[]parser.ParserOp{parser.nonTerminal_t{name:14}, parser.nonTerminal_t{name:12}}, 0x2d:[]parser.ParserOp{parser.nonTerminal_t{name:14}, parser.nonTerminal_t{name:12}}, 0x2e:[]parser.ParserOp{parser.nonTerminal_t{name:14}, parser.nonTerminal_t{name:12}}, 0x2f:[]parser.ParserOp{parser.nonTerminal_t{name:14}, parser.nonTerminal_t{name:12}}, 0x30:[]parser.ParserOp{parser.nonTerminal_t{name:14}, parser.nonTerminal_t{name:12}}, 0x31:[]parser.ParserOp{parser.nonTerminal_t{name:14}, parser.nonTerminal_t{name:12}}, 0x32:[]parser.ParserOp{parser.nonTerminal_t{name:14}, parser.nonTerminal_t{name:12}}, 0x33:[]parser.ParserOp{parser.nonTerminal_t{name:14}, parse" ++
  s2b "r.nonTerminal_t{name:12}}, 0x34:[]parser.ParserOp{parser.nonTerminal_t{name:14}, parser.nonTerminal_t{name:12}}, 0x35:[]parser.ParserOp{parser.nonTerminal_t{name:14}, parser.nonTerminal_t{name:12}}, 0x36:[]parser.ParserOp{parser.nonTerminal_t{name:14}, parser.nonTerminal_t{name:12}}, 0x37:[]parser.ParserOp{parser.nonTerminal_t{name:14}, parser.nonTerminal_t{name:12}}, 0x38:[]parser.ParserOp{parser.nonTerminal_t{name:14}, parser.nonTerminal_t{name:12}}, 0x39:[]parser.ParserOp{parser.nonTerminal_t{name:14}, parser.nonTerminal_t{name:12}}, 0x3a:[]parser.ParserOp{parser.nonTerminal_t{name:14}, parser.nonTerminal_t{name:12}}, 0x3b:[]parser.ParserOp{parser.nonTerminal_t{name:14}, parser.nonTerminal_t{name:12}}, 0x3c:[]parser.ParserOp{parser.nonTerminal_t{name:14}, parser.nonTerminal_t{name:12}}, 0x3d:[]parser.ParserOp{parser.nonTerminal_t{name:14}, parser.nonTerminal_t{name:12}}, 0x3e:[]parser.ParserOp{parser.nonTerminal_t{name:14}, parser.nonTerminal_t{name:12}}, 0x3f:[]parser.ParserOp{pars" ++
  s2b "er.nonTerminal_t{name:14}, parser.nonTerminal_t{name:12}}, 0x40:[]parser.ParserOp{parser.nonTerminal_t{name:14}, parser.nonTerminal_t{name:12}}, 0x41:[]parser.ParserOp{parser.nonTerminal_t{name:14}, parser.nonTerminal_t{name:12}}, 0x42:[]parser.ParserOp{parser.nonTerminal_t{name:14}, parser.nonTerminal_t{name:12}}, 0x43:[]parser.ParserOp{parser.nonTerminal_t{name:14}, parser.nonTerminal_t{name:12}}, 0x44:[]parser.ParserOp{parser.nonTerminal_t{name:14}, parser.nonTerminal_t{name:12}}, 0x45:[]parser.ParserOp{parser.nonTerminal_t{name:14}, parser.nonTerminal_t{name:12}}, 0x46:[]parser.ParserOp{parser.nonTerminal_t{name:14}, parser.nonTerminal_t{name:12}}, 0x47:[]parser.ParserOp{parser.nonTerminal_t{name:14}, parser.nonTerminal_t{name:12}}, 0x48:[]parser.ParserOp{parser.nonTerminal_t{name:14}, parser.nonTerminal_t{name:12}}, 0x49:[]parser.ParserOp{parser.nonTerminal_t{name:14}, parser.nonTerminal_t{name:12}}, 0x4a:[]parser.ParserOp{parser.nonTerminal_t{name:14}, parser.nonTerminal_t{name:1" ++
  s2b "2}}, 0x4b:[]parser.ParserOp{parser.nonTerminal_t{name:14}, parser.nonTerminal_t{name:12}}, 0x4c:[]parser.ParserOp{parser.nonTerminal_t{name:14}, parser.nonTerminal_t{name:12}}, 0x4d:[]parser.ParserOp{parser.nonTerminal_t{name:14}, parser.nonTerminal_t{name:12}}, 0x4e:[]parser.ParserOp{parser.nonTerminal_t{name:14}, parser.nonTerminal_t{name:12}}, 0x4f:[]parser.ParserOp{parser.nonTerminal_t{name:14}, parser.nonTerminal_t{name:12}}, 0x50:[]parser.ParserOp{parser.nonTerminal_t{name:14}, parser.nonTerminal_t{name:12}}, 0x51:[]parser.ParserOp{parser.nonTerminal_t{name:14}, parser.nonTerminal_t{name:12}}, 0x52:[]parser.ParserOp{parser.nonTerminal_t{name:14}, parser.nonTerminal_t{name:12}}, 0x53:[]parser.ParserOp{parser.nonTerminal_t{name:14}, parser.nonTerminal_t{name:12}}, 0x54:[]parser.ParserOp{parser.nonTerminal_t{name:14}, parser.nonTerminal_t{name:12}}, 0x55:[]parser.ParserOp{parser.nonTerminal_t{name:14}, parser.nonTerminal_t{name:12}}, 0x56:[]parser.ParserOp{parser.nonTerminal_t{name:" ++
  s2b "14}, parser.nonTerminal_t{name:12}}, 0x57:[]parser.ParserOp{parser.nonTerminal_t{name:14}, parser.nonTerminal_t{name:12}}, 0x58:[]parser.ParserOp{parser.nonTerminal_t{name:14}, parser.nonTerminal_t{name:12}}, 0x59:[]parser.ParserOp{parser.nonTerminal_t{name:14}, parser.nonTerminal_t{name:12}}, 0x5a:[]parser.ParserOp{parser.nonTerminal_t{name:14}, parser.nonTerminal_t{name:12}}, 0x5b:[]parser.ParserOp{parser.nonTerminal_t{name:14}, parser.nonTerminal_t{name:12}}, 0x5c:[]parser.ParserOp{parser.nonTerminal_t{name:14}, parser.nonTerminal_t{name:12}}, 0x5d:[]parser.ParserOp{parser.nonTerminal_t{name:14}, parser.nonTerminal_t{name:12}}, 0x5e:[]parser.ParserOp{parser.nonTerminal_t{name:14}, parser.nonTerminal_t{name:12}}, 0x5f:[]parser.ParserOp{parser.nonTerminal_t{name:14}, parser.nonTerminal_t{name:12}}, 0x60:[]parser.ParserOp{parser.nonTerminal_t{name:14}, parser.nonTerminal_t{name:12}}, 0x61:[]parser.ParserOp{parser.nonTerminal_t{name:14}, parser.nonTerminal_t{name:12}}, 0x62:[]parser.Par" ++
  s2b "serOp{parser.nonTerminal_t{name:14}, parser.nonTerminal_t{name:12}}, 0x63:[]parser.ParserOp{parser.nonTerminal_t{name:14}, parser.nonTerminal_t{name:12}}, 0x64:[]parser.ParserOp{parser.nonTerminal_t{name:14}, parser.nonTerminal_t{name:12}}, 0x65:[]parser.ParserOp{parser.nonTerminal_t{name:14}, parser.nonTerminal_t{name:12}}, 0x66:[]parser.ParserOp{parser.nonTerminal_t{name:14}, parser.nonTerminal_t{name:12}}, 0x67:[]parser.ParserOp{parser.nonTerminal_t{name:14}, parser.nonTerminal_t{name:12}}, 0x68:[]parser.ParserOp{parser.nonTerminal_t{name:14}, parser.nonTerminal_t{name:12}}, 0x69:[]parser.ParserOp{parser.nonTerminal_t{name:14}, parser.nonTerminal_t{name:12}}, 0x6a:[]parser.ParserOp{parser.nonTerminal_t{name:14}, parser.nonTerminal_t{name:12}}, 0x6b:[]parser.ParserOp{parser.nonTerminal_t{name:14}, parser.nonTerminal_t{name:12}}, 0x6c:[]parser.ParserOp{parser.nonTerminal_t{name:14}, parser.nonTerminal_t{name:12}}, 0x6d:[]parser.ParserOp{parser.nonTerminal_t{name:14}, parser.nonTermina" ++
  s2b "l_t{name:12}}, 0x6e:[]parser.ParserOp{parser.nonTerminal_t{name:14}, parser.nonTerminal_t{name:12}}, 0x6f:[]parser.ParserOp{parser.nonTerminal_t{name:14}, parser.nonTerminal_t{name:12}}, 0x70:[]parser.ParserOp{parser.nonTerminal_t{name:14}, parser.nonTerminal_t{name:12}}, 0x71:[]parser.ParserOp{parser.nonTerminal_t{name:14}, parser.nonTerminal_t{name:12}}, 0x72:[]parser.ParserOp{parser.nonTerminal_t{name:14}, parser.nonTerminal_t{name:12}}, 0x73:[]parser.ParserOp{parser.nonTerminal_t{name:14}, parser.nonTerminal_t{name:12}}, 0x74:[]parser.ParserOp{parser.nonTerminal_t{name:14}, parser.nonTerminal_t{name:12}}, 0x75:[]parser.ParserOp{parser.nonTerminal_t{name:14}, parser.nonTerminal_t{name:12}}, 0x76:[]parser.ParserOp{parser.nonTerminal_t{name:14}, parser.nonTerminal_t{name:12}}, 0x77:[]parser.ParserOp{parser.nonTerminal_t{name:14}, parser.nonTerminal_t{name:12}}, 0x78:[]parser.ParserOp{parser.nonTerminal_t{name:14}, parser.nonTerminal_t{name:12}}, 0x79:[]parser.ParserOp{parser.nonTermin" ++
  s2b "al_t{name:14}, parser.nonTerminal_t{name:12}}, 0x7a:[]parser.ParserOp{parser.nonTerminal_t{name:14}, parser.nonTerminal_t{name:12}}, 0x7b:[]parser.ParserOp{parser.nonTerminal_t{name:14}, parser.nonTerminal_t{name:12}}, 0x7c:[]parser.ParserOp{parser.nonTerminal_t{name:14}, parser.nonTerminal_t{name:12}}, 0x7d:[]parser.ParserOp{parser.nonTerminal_t{name:14}, parser.nonTerminal_t{name:12}}, 0x7e:[]parser.ParserOp{parser.nonTerminal_t{name:14}, parser.nonTerminal_t{name:12}}}, 13:map[uint8][]parser.ParserOp{0x20:[]parser.ParserOp{parser.nonTerminal_t{name:15}}, 0x21:[]parser.ParserOp{parser.nonTerminal_t{name:15}}, 0x23:[]parser.ParserOp{parser.nonTerminal_t{name:15}}, 0x24:[]parser.ParserOp{parser.nonTerminal_t{name:15}}, 0x25:[]parser.ParserOp{parser.nonTerminal_t{name:15}}, 0x26:[]parser.ParserOp{parser.nonTerminal_t{name:15}}, 0x27:[]parser.ParserOp{parser.terminal_t{value:""'""}}, 0x28:[]parser.ParserOp{parser.nonTerminal_t{name:15}}, 0x29:[]parser.ParserOp{parser.nonTerminal_t{name:15}" ++
  s2b "}, 0x2a:[]parser.ParserOp{parser.nonTerminal_t{name:15}}, 0x2b:[]parser.ParserOp{parser.nonTerminal_t{name:15}}, 0x2c:[]parser.ParserOp{parser.nonTerminal_t{name:15}}, 0x2d:[]parser.ParserOp{parser.nonTerminal_t{name:15}}, 0x2e:[]parser.ParserOp{parser.nonTerminal_t{name:15}}, 0x2f:[]parser.ParserOp{parser.nonTerminal_t{name:15}}, 0x30:[]parser.ParserOp{parser.nonTerminal_t{name:15}}, 0x31:[]parser.ParserOp{parser.nonTerminal_t{name:15}}, 0x32:[]parser.ParserOp{parser.nonTerminal_t{name:15}}, 0x33:[]parser.ParserOp{parser.nonTerminal_t{name:15}}, 0x34:[]parser.ParserOp{parser.nonTerminal_t{name:15}}, 0x35:[]parser.ParserOp{parser.nonTerminal_t{name:15}}, 0x36:[]parser.ParserOp{parser.nonTerminal_t{name:15}}, 0x37:[]parser.ParserOp{parser.nonTerminal_t{name:15}}, 0x38:[]parser.ParserOp{parser.nonTerminal_t{name:15}}, 0x39:[]parser.ParserOp{parser.nonTerminal_t{name:15}}, 0x3a:[]parser.ParserOp{parser.nonTerminal_t{name:15}}, 0x3b:[]parser.ParserOp{parser.nonTerminal_t{name:15}}, 0x3c:[]" ++
  s2b "parser.ParserOp{parser.nonTerminal_t{name:15}}, 0x3d:[]parser.ParserOp{parser.nonTerminal_t{name:15}}, 0x3e:[]parser.ParserOp{parser.nonTerminal_t{name:15}}, 0x3f:[]parser.ParserOp{parser.nonTerminal_t{name:15}}, 0x40:[]parser.ParserOp{parser.nonTerminal_t{name:15}}, 0x41:[]parser.ParserOp{parser.nonTerminal_t{name:15}}, 0x42:[]parser.ParserOp{parser.nonTerminal_t{name:15}}, 0x43:[]parser.ParserOp{parser.nonTerminal_t{name:15}}, 0x44:[]parser.ParserOp{parser.nonTerminal_t{name:15}}, 0x45:[]parser.ParserOp{parser.nonTerminal_t{name:15}}, 0x46:[]parser.ParserOp{parser.nonTerminal_t{name:15}}, 0x47:[]parser.ParserOp{parser.nonTerminal_t{name:15}}, 0x48:[]parser.ParserOp{parser.nonTerminal_t{name:15}}, 0x49:[]parser.ParserOp{parser.nonTerminal_t{name:15}}, 0x4a:[]parser.ParserOp{parser.nonTerminal_t{name:15}}, 0x4b:[]parser.ParserOp{parser.nonTerminal_t{name:15}}, 0x4c:[]parser.ParserOp{parser.nonTerminal_t{name:15}}, 0x4d:[]parser.ParserOp{parser.nonTerminal_t{name:15}}, 0x4e:[]parser.Par" ++
  s2b "serOp{parser.nonTerminal_t{name:15}}, 0x4f:[]parser.ParserOp{parser.nonTerminal_t{name:15}}, 0x50:[]parser.ParserOp{parser.nonTerminal_t{name:15}}, 0x51:[]parser.ParserOp{parser.nonTerminal_t{name:15}}, 0x52:[]parser.ParserOp{parser.nonTerminal_t{name:15}}, 0x53:[]parser.ParserOp{parser.nonTerminal_t{name:15}}, 0x54:[]parser.ParserOp{parser.nonTerminal_t{name:15}}, 0x55:[]parser.ParserOp{parser.nonTerminal_t{name:15}}, 0x56:[]parser.ParserOp{parser.nonTerminal_t{name:15}}, 0x57:[]parser.ParserOp{parser.nonTerminal_t{name:15}}, 0x58:[]parser.ParserOp{parser.nonTerminal_t{name:15}}, 0x59:[]parser.ParserOp{parser.nonTerminal_t{name:15}}, 0x5a:[]parser.ParserOp{parser.nonTerminal_t{name:15}}, 0x5b:[]parser.ParserOp{parser.nonTerminal_t{name:15}}, 0x5c:[]parser.ParserOp{parser.nonTerminal_t{name:15}}, 0x5d:[]parser.ParserOp{parser.nonTerminal_t{name:15}}, 0x5e:[]parser.ParserOp{parser.nonTerminal_t{name:15}}, 0x5f:[]parser.ParserOp{parser.nonTerminal_t{name:15}}, 0x60:[]parser.ParserOp{pars" ++
  s2b "er.nonTerminal_t{name:15}}, 0x61:[]parser.ParserOp{parser.nonTerminal_t{name:15}}, 0x62:[]parser.ParserOp{parser.nonTerminal_t{name:15}}, 0x63:[]parser.ParserOp{parser.nonTerminal_t{name:15}}, 0x64:[]parser.ParserOp{parser.nonTerminal_t{name:15}}, 0x65:[]parser.ParserOp{parser.nonTerminal_t{name:15}}, 0x66:[]parser.ParserOp{parser.nonTerminal_t{name:15}}, 0x67:[]parser.ParserOp{parser.nonTerminal_t{name:15}}, 0x68:[]parser.ParserOp{parser.nonTerminal_t{name:15}}, 0x69:[]parser.ParserOp{parser.nonTerminal_t{name:15}}, 0x6a:[]parser.ParserOp{parser.nonTerminal_t{name:15}}, 0x6b:[]parser.ParserOp{parser.nonTerminal_t{name:15}}, 0x6c:[]parser.ParserOp{parser.nonTerminal_t{name:15}}, 0x6d:[]parser.ParserOp{parser.nonTerminal_t{name:15}}, 0x6e:[]parser.ParserOp{parser.nonTerminal_t{name:15}}, 0x6f:[]parser.ParserOp{parser.nonTerminal_t{name:15}}, 0x70:[]parser.ParserOp{parser.nonTerminal_t{name:15}}, 0x71:[]parser.ParserOp{parser.nonTerminal_t{name:15}}, 0x72:[]parser.ParserOp{parser.nonTerm" ++
  s2b "inal_t{name:15}}, 0x73:[]parser.ParserOp{parser.nonTerminal_t{name:15}}, 0x74:[]parser.ParserOp{parser.nonTerminal_t{name:15}}, 0x75:[]parser.ParserOp{parser.nonTerminal_t{name:15}}, 0x76:[]parser.ParserOp{parser.nonTerminal_t{name:15}}, 0x77:[]parser.ParserOp{parser.nonTerminal_t{name:15}}, 0x78:[]parser.ParserOp{parser.nonTerminal_t{name:15}}, 0x79:[]parser.ParserOp{parser.nonTerminal_t{name:15}}, 0x7a:[]parser.ParserOp{parser.nonTerminal_t{name:15}}, 0x7b:[]parser.ParserOp{parser.nonTerminal_t{name:15}}, 0x7c:[]parser.ParserOp{parser.nonTerminal_t{name:15}}, 0x7d:[]parser.ParserOp{parser.nonTerminal_t{name:15}}, 0x7e:[]parser.ParserOp{parser.nonTerminal_t{name:15}}}, 14:map[uint8][]parser.ParserOp{0x20:[]parser.ParserOp{parser.nonTerminal_t{name:15}}, 0x21:[]parser.ParserOp{parser.nonTerminal_t{name:15}}, 0x22:[]parser.ParserOp{parser.terminal_t{value:""\""""}}, 0x23:[]parser.ParserOp{parser.nonTerminal_t{name:15}}, 0x24:[]parser.ParserOp{parser.nonTerminal_t{name:15}}, 0x25:[]parser.P" ++
  s2b "arserOp{parser.nonTerminal_t{name:15}}, 0x26:[]parser.ParserOp{parser.nonTerminal_t{name:15}}, 0x28:[]parser.ParserOp{parser.nonTerminal_t{name:15}}, 0x29:[]parser.ParserOp{parser.nonTerminal_t{name:15}}, 0x2a:[]parser.ParserOp{parser.nonTerminal_t{name:15}}, 0x2b:[]parser.ParserOp{parser.nonTerminal_t{name:15}}, 0x2c:[]parser.ParserOp{parser.nonTerminal_t{name:15}}, 0x2d:[]parser.ParserOp{parser.nonTerminal_t{name:15}}, 0x2e:[]parser.ParserOp{parser.nonTerminal_t{name:15}}, 0x2f:[]parser.ParserOp{parser.nonTerminal_t{name:15}}, 0x30:[]parser.ParserOp{parser.nonTerminal_t{name:15}}, 0x31:[]parser.ParserOp{parser.nonTerminal_t{name:15}}, 0x32:[]parser.ParserOp{parser.nonTerminal_t{name:15}}, 0x33:[]parser.ParserOp{parser.nonTerminal_t{name:15}}, 0x34:[]parser.ParserOp{parser.nonTerminal_t{name:15}}, 0x35:[]parser.ParserOp{parser.nonTerminal_t{name:15}}, 0x36:[]parser.ParserOp{parser.nonTerminal_t{name:15}}, 0x37:[]parser.ParserOp{parser.nonTerminal_t{name:15}}, 0x38:[]parser.ParserOp{pa" ++
  s2b "rser.nonTerminal_t{name:15}}, 0x39:[]parser.ParserOp{parser.nonTerminal_t{name:15}}, 0x3a:[]parser.ParserOp{parser.nonTerminal_t{name:15}}, 0x3b:[]parser.ParserOp{parser.nonTerminal_t{name:15}}, 0x3c:[]parser.ParserOp{parser.nonTerminal_t{name:15}}, 0x3d:[]parser.ParserOp{parser.nonTerminal_t{name:15}}, 0x3e:[]parser.ParserOp{parser.nonTerminal_t{name:15}}, 0x3f:[]parser.ParserOp{parser.nonTerminal_t{name:15}}, 0x40:[]parser.ParserOp{parser.nonTerminal_t{name:15}}, 0x41:[]parser.ParserOp{parser.nonTerminal_t{name:15}}, 0x42:[]parser.ParserOp{parser.nonTerminal_t{name:15}}, 0x43:[]parser.ParserOp{parser.nonTerminal_t{name:15}}, 0x44:[]parser.ParserOp{parser.nonTerminal_t{name:15}}, 0x45:[]parser.ParserOp{parser.nonTerminal_t{name:15}}, 0x46:[]parser.ParserOp{parser.nonTerminal_t{name:15}}, 0x47:[]parser.ParserOp{parser.nonTerminal_t{name:15}}, 0x48:[]parser.ParserOp{parser.nonTerminal_t{name:15}}, 0x49:[]parser.ParserOp{parser.nonTerminal_t{name:15}}, 0x4a:[]parser.ParserOp{parser.nonTe" ++
  s2b "rminal_t{name:15}}, 0x4b:[]parser.ParserOp{parser.nonTerminal_t{name:15}}, 0x4c:[]parser.ParserOp{parser.nonTerminal_t{name:15}}, 0x4d:[]parser.ParserOp{parser.nonTerminal_t{name:15}}, 0x4e:[]parser.ParserOp{parser.nonTerminal_t{name:15}}, 0x4f:[]parser.ParserOp{parser.nonTerminal_t{name:15}}, 0x50:[]parser.ParserOp{parser.nonTerminal_t{name:15}}, 0x51:[]parser.ParserOp{parser.nonTerminal_t{name:15}}, 0x52:[]parser.ParserOp{parser.nonTerminal_t{name:15}}, 0x53:[]parser.ParserOp{parser.nonTerminal_t{name:15}}, 0x54:[]parser.ParserOp{parser.nonTerminal_t{name:15}}, 0x55:[]parser.ParserOp{parser.nonTerminal_t{name:15}}, 0x56:[]parser.ParserOp{parser.nonTerminal_t{name:15}}, 0x57:[]parser.ParserOp{parser.nonTerminal_t{name:15}}, 0x58:[]parser.ParserOp{parser.nonTerminal_t{name:15}}, 0x59:[]parser.ParserOp{parser.nonTerminal_t{name:15}}, 0x5a:[]parser.ParserOp{parser.nonTerminal_t{name:15}}, 0x5b:[]parser.ParserOp{parser.nonTerminal_t{name:15}}, 0x5c:[]parser.ParserOp{parser.nonTerminal_t{n" ++
  s2b "ame:15}}, 0x5d:[]parser.ParserOp{parser.nonTerminal_t{name:15}}, 0x5e:[]parser.ParserOp{parser.nonTerminal_t{name:15}}, 0x5f:[]parser.ParserOp{parser.nonTerminal_t{name:15}}, 0x60:[]parser.ParserOp{parser.nonTerminal_t{name:15}}, 0x61:[]parser.ParserOp{parser.nonTerminal_t{name:15}}, 0x62:[]parser.ParserOp{parser.nonTerminal_t{name:15}}, 0x63:[]parser.ParserOp{parser.nonTerminal_t{name:15}}, 0x64:[]parser.ParserOp{parser.nonTerminal_t{name:15}}, 0x65:[]parser.ParserOp{parser.nonTerminal_t{name:15}}, 0x66:[]parser.ParserOp{parser.nonTerminal_t{name:15}}, 0x67:[]parser.ParserOp{parser.nonTerminal_t{name:15}}, 0x68:[]parser.ParserOp{parser.nonTerminal_t{name:15}}, 0x69:[]parser.ParserOp{parser.nonTerminal_t{name:15}}, 0x6a:[]parser.ParserOp{parser.nonTerminal_t{name:15}}, 0x6b:[]parser.ParserOp{parser.nonTerminal_t{name:15}}, 0x6c:[]parser.ParserOp{parser.nonTerminal_t{name:15}}, 0x6d:[]parser.ParserOp{parser.nonTerminal_t{name:15}}, 0x6e:[]parser.ParserOp{parser.nonTerminal_t{name:15}}, " ++
  s2b "0x6f:[]parser.ParserOp{parser.nonTerminal_t{name:15}}, 0x70:[]parser.ParserOp{parser.nonTerminal_t{name:15}}, 0x71:[]parser.ParserOp{parser.nonTerminal_t{name:15}}, 0x72:[]parser.ParserOp{parser.nonTerminal_t{name:15}}, 0x73:[]parser.ParserOp{parser.nonTerminal_t{name:15}}, 0x74:[]parser.ParserOp{parser.nonTerminal_t{name:15}}, 0x75:[]parser.ParserOp{parser.nonTerminal_t{name:15}}, 0x76:[]parser.ParserOp{parser.nonTerminal_t{name:15}}, 0x77:[]parser.ParserOp{parser.nonTerminal_t{name:15}}, 0x78:[]parser.ParserOp{parser.nonTerminal_t{name:15}}, 0x79:[]parser.ParserOp{parser.nonTerminal_t{name:15}}, 0x7a:[]parser.ParserOp{parser.nonTerminal_t{name:15}}, 0x7b:[]parser.ParserOp{parser.nonTerminal_t{name:15}}, 0x7c:[]parser.ParserOp{parser.nonTerminal_t{name:15}}, 0x7d:[]parser.ParserOp{parser.nonTerminal_t{name:15}}, 0x7e:[]parser.ParserOp{parser.nonTerminal_t{name:15}}}, 15:map[uint8][]parser.ParserOp{0x20:[]parser.ParserOp{parser.nonTerminal_t{name:23}}, 0x21:[]parser.ParserOp{parser.non" ++
  s2b "Terminal_t{name:23}}, 0x23:[]parser.ParserOp{parser.nonTerminal_t{name:23}}, 0x24:[]parser.ParserOp{parser.nonTerminal_t{name:23}}, 0x25:[]parser.ParserOp{parser.nonTerminal_t{name:23}}, 0x26:[]parser.ParserOp{parser.nonTerminal_t{name:23}}, 0x28:[]parser.ParserOp{parser.nonTerminal_t{name:23}}, 0x29:[]parser.ParserOp{parser.nonTerminal_t{name:23}}, 0x2a:[]parser.ParserOp{parser.nonTerminal_t{name:23}}, 0x2b:[]parser.ParserOp{parser.nonTerminal_t{name:23}}, 0x2c:[]parser.ParserOp{parser.nonTerminal_t{name:23}}, 0x2d:[]parser.ParserOp{parser.nonTerminal_t{name:23}}, 0x2e:[]parser.ParserOp{parser.nonTerminal_t{name:23}}, 0x2f:[]parser.ParserOp{parser.nonTerminal_t{name:23}}, 0x30:[]parser.ParserOp{parser.nonTerminal_t{name:22}}, 0x31:[]parser.ParserOp{parser.nonTerminal_t{name:22}}, 0x32:[]parser.ParserOp{parser.nonTerminal_t{name:22}}, 0x33:[]parser.ParserOp{parser.nonTerminal_t{name:22}}, 0x34:[]parser.ParserOp{parser.nonTerminal_t{name:22}}, 0x35:[]parser.ParserOp{parser.nonTerminal_t" ++
  s2b "{name:22}}, 0x36:[]parser.ParserOp{parser.nonTerminal_t{name:22}}, 0x37:[]parser.ParserOp{parser.nonTerminal_t{name:22}}, 0x38:[]parser.ParserOp{parser.nonTerminal_t{name:22}}, 0x39:[]parser.ParserOp{parser.nonTerminal_t{name:22}}, 0x3a:[]parser.ParserOp{parser.nonTerminal_t{name:23}}, 0x3b:[]parser.ParserOp{parser.nonTerminal_t{name:23}}, 0x3c:[]parser.ParserOp{parser.nonTerminal_t{name:23}}, 0x3d:[]parser.ParserOp{parser.nonTerminal_t{name:23}}, 0x3e:[]parser.ParserOp{parser.nonTerminal_t{name:23}}, 0x3f:[]parser.ParserOp{parser.nonTerminal_t{name:23}}, 0x40:[]parser.ParserOp{parser.nonTerminal_t{name:23}}, 0x41:[]parser.ParserOp{parser.nonTerminal_t{name:21}}, 0x42:[]parser.ParserOp{parser.nonTerminal_t{name:21}}, 0x43:[]parser.ParserOp{parser.nonTerminal_t{name:21}}, 0x44:[]parser.ParserOp{parser.nonTerminal_t{name:21}}, 0x45:[]parser.ParserOp{parser.nonTerminal_t{name:21}}, 0x46:[]parser.ParserOp{parser.nonTerminal_t{name:21}}, 0x47:[]parser.ParserOp{parser.nonTerminal_t{name:21}}" ++
  s2b ", 0x48:[]parser.ParserOp{parser.nonTerminal_t{name:21}}, 0x49:[]parser.ParserOp{parser.nonTerminal_t{name:21}}, 0x4a:[]parser.ParserOp{parser.nonTerminal_t{name:21}}, 0x4b:[]parser.ParserOp{parser.nonTerminal_t{name:21}}, 0x4c:[]parser.ParserOp{parser.nonTerminal_t{name:21}}, 0x4d:[]parser.ParserOp{parser.nonTerminal_t{name:21}}, 0x4e:[]parser.ParserOp{parser.nonTerminal_t{name:21}}, 0x4f:[]parser.ParserOp{parser.nonTerminal_t{name:21}}, 0x50:[]parser.ParserOp{parser.nonTerminal_t{name:21}}, 0x51:[]parser.ParserOp{parser.nonTerminal_t{name:21}}, 0x52:[]parser.ParserOp{parser.nonTerminal_t{name:21}}, 0x53:[]parser.ParserOp{parser.nonTerminal_t{name:21}}, 0x54:[]parser.ParserOp{parser.nonTerminal_t{name:21}}, 0x55:[]parser.ParserOp{parser.nonTerminal_t{name:21}}, 0x56:[]parser.ParserOp{parser.nonTerminal_t{name:21}}, 0x57:[]parser.ParserOp{parser.nonTerminal_t{name:21}}, 0x58:[]parser.ParserOp{parser.nonTerminal_t{name:21}}, 0x59:[]parser.ParserOp{parser.nonTerminal_t{name:21}}, 0x5a:[]p" ++
  s2b "arser.ParserOp{parser.nonTerminal_t{name:21}}, 0x5b:[]parser.ParserOp{parser.nonTerminal_t{name:23}}, 0x5c:[]parser.ParserOp{parser.nonTerminal_t{name:16}}, 0x5d:[]parser.ParserOp{parser.nonTerminal_t{name:23}}, 0x5e:[]parser.ParserOp{parser.nonTerminal_t{name:23}}, 0x5f:[]parser.ParserOp{parser.nonTerminal_t{name:23}}, 0x60:[]parser.ParserOp{parser.nonTerminal_t{name:23}}, 0x61:[]parser.ParserOp{parser.nonTerminal_t{name:21}}, 0x62:[]parser.ParserOp{parser.nonTerminal_t{name:21}}, 0x63:[]parser.ParserOp{parser.nonTerminal_t{name:21}}, 0x64:[]parser.ParserOp{parser.nonTerminal_t{name:21}}, 0x65:[]parser.ParserOp{parser.nonTerminal_t{name:21}}, 0x66:[]parser.ParserOp{parser.nonTerminal_t{name:21}}, 0x67:[]parser.ParserOp{parser.nonTerminal_t{name:21}}, 0x68:[]parser.ParserOp{parser.nonTerminal_t{name:21}}, 0x69:[]parser.ParserOp{parser.nonTerminal_t{name:21}}, 0x6a:[]parser.ParserOp{parser.nonTerminal_t{name:21}}, 0x6b:[]parser.ParserOp{parser.nonTerminal_t{name:21}}, 0x6c:[]parser.Pars" ++
  s2b "erOp{parser.nonTerminal_t{name:21}}, 0x6d:[]parser.ParserOp{parser.nonTerminal_t{name:21}}, 0x6e:[]parser.ParserOp{parser.nonTerminal_t{name:21}}, 0x6f:[]parser.ParserOp{parser.nonTerminal_t{name:21}}, 0x70:[]parser.ParserOp{parser.nonTerminal_t{name:21}}, 0x71:[]parser.ParserOp{parser.nonTerminal_t{name:21}}, 0x72:[]parser.ParserOp{parser.nonTerminal_t{name:21}}, 0x73:[]parser.ParserOp{parser.nonTerminal_t{name:21}}, 0x74:[]parser.ParserOp{parser.nonTerminal_t{name:21}}, 0x75:[]parser.ParserOp{parser.nonTerminal_t{name:21}}, 0x76:[]parser.ParserOp{parser.nonTerminal_t{name:21}}, 0x77:[]parser.ParserOp{parser.nonTerminal_t{name:21}}, 0x78:[]parser.ParserOp{parser.nonTerminal_t{name:21}}, 0x79:[]parser.ParserOp{parser.nonTerminal_t{name:21}}, 0x7a:[]parser.ParserOp{parser.nonTerminal_t{name:21}}, 0x7b:[]parser.ParserOp{parser.nonTerminal_t{name:23}}, 0x7c:[]parser.ParserOp{parser.nonTerminal_t{name:23}}, 0x7d:[]parser.ParserOp{parser.nonTerminal_t{name:23}}, 0x7e:[]parser.ParserOp{parse" ++
  s2b "r.nonTerminal_t{name:23}}}, 16:map[uint8][]parser.ParserOp{0x5c:[]parser.ParserOp{parser.terminal_t{value:""\\""}, parser.nonTerminal_t{name:17}}}, 17:map[uint8][]parser.ParserOp{0x22:[]parser.ParserOp{parser.terminal_t{value:""\""""}}, 0x5c:[]parser.ParserOp{parser.terminal_t{value:""\\""}}, 0x6e:[]parser.ParserOp{parser.terminal_t{value:""n""}}, 0x72:[]parser.ParserOp{parser.terminal_t{value:""r""}}, 0x74:[]parser.ParserOp{parser.terminal_t{value:""t""}}}, 18:map[uint8][]parser.ParserOp{0x41:[]parser.ParserOp{parser.nonTerminal_t{name:21}, parser.nonTerminal_t{name:19}}, 0x42:[]parser.ParserOp{parser.nonTerminal_t{name:21}, parser.nonTerminal_t{name:19}}, 0x43:[]parser.ParserOp{parser.nonTerminal_t{name:21}, parser.nonTerminal_t{name:19}}, 0x44:[]parser.ParserOp{parser.nonTerminal_t{name:21}, parser.nonTerminal_t{name:19}}, 0x45:[]parser.ParserOp{parser.nonTerminal_t{name:21}, parser.nonTerminal_t{name:19}}, 0x46:[]parser.ParserOp{parser.nonTerminal_t{name:21}, parser.nonTerminal_t{name:19}}, 0x4" ++
  s2b "7:[]parser.ParserOp{parser.nonTerminal_t{name:21}, parser.nonTerminal_t{name:19}}, 0x48:[]parser.ParserOp{parser.nonTerminal_t{name:21}, parser.nonTerminal_t{name:19}}, 0x49:[]parser.ParserOp{parser.nonTerminal_t{name:21}, parser.nonTerminal_t{name:19}}, 0x4a:[]parser.ParserOp{parser.nonTerminal_t{name:21}, parser.nonTerminal_t{name:19}}, 0x4b:[]parser.ParserOp{parser.nonTerminal_t{name:21}, parser.nonTerminal_t{name:19}}, 0x4c:[]parser.ParserOp{parser.nonTerminal_t{name:21}, parser.nonTerminal_t{name:19}}, 0x4d:[]parser.ParserOp{parser.nonTerminal_t{name:21}, parser.nonTerminal_t{name:19}}, 0x4e:[]parser.ParserOp{parser.nonTerminal_t{name:21}, parser.nonTerminal_t{name:19}}, 0x4f:[]parser.ParserOp{parser.nonTerminal_t{name:21}, parser.nonTerminal_t{name:19}}, 0x50:[]parser.ParserOp{parser.nonTerminal_t{name:21}, parser.nonTerminal_t{name:19}}, 0x51:[]parser.ParserOp{parser.nonTerminal_t{name:21}, parser.nonTerminal_t{name:19}}, 0x52:[]parser.ParserOp{parser.nonTerminal_t{name:21}, par" ++
  s2b "ser.nonTerminal_t{name:19}}, 0x53:[]parser.ParserOp{parser.nonTerminal_t{name:21}, parser.nonTerminal_t{name:19}}, 0x54:[]parser.ParserOp{parser.nonTerminal_t{name:21}, parser.nonTerminal_t{name:19}}, 0x55:[]parser.ParserOp{parser.nonTerminal_t{name:21}, parser.nonTerminal_t{name:19}}, 0x56:[]parser.ParserOp{parser.nonTerminal_t{name:21}, parser.nonTerminal_t{name:19}}, 0x57:[]parser.ParserOp{parser.nonTerminal_t{name:21}, parser.nonTerminal_t{name:19}}, 0x58:[]parser.ParserOp{parser.nonTerminal_t{name:21}, parser.nonTerminal_t{name:19}}, 0x59:[]parser.ParserOp{parser.nonTerminal_t{name:21}, parser.nonTerminal_t{name:19}}, 0x5a:[]parser.ParserOp{parser.nonTerminal_t{name:21}, parser.nonTerminal_t{name:19}}, 0x61:[]parser.ParserOp{parser.nonTerminal_t{name:21}, parser.nonTerminal_t{name:19}}, 0x62:[]parser.ParserOp{parser.nonTerminal_t{name:21}, parser.nonTerminal_t{name:19}}, 0x63:[]parser.ParserOp{parser.nonTerminal_t{name:21}, parser.nonTerminal_t{name:19}}, 0x64:[]parser.ParserOp{pa" ++
  s2b "rser.nonTerminal_t{name:21}, parser.nonTerminal_t{name:19}}, 0x65:[]parser.ParserOp{parser.nonTerminal_t{name:21}, parser.nonTerminal_t{name:19}}, 0x66:[]parser.ParserOp{parser.nonTerminal_t{name:21}, parser.nonTerminal_t{name:19}}, 0x67:[]parser.ParserOp{parser.nonTerminal_t{name:21}, parser.nonTerminal_t{name:19}}, 0x68:[]parser.ParserOp{parser.nonTerminal_t{name:21}, parser.nonTerminal_t{name:19}}, 0x69:[]parser.ParserOp{parser.nonTerminal_t{name:21}, parser.nonTerminal_t{name:19}}, 0x6a:[]parser.ParserOp{parser.nonTerminal_t{name:21}, parser.nonTerminal_t{name:19}}, 0x6b:[]parser.ParserOp{parser.nonTerminal_t{name:21}, parser.nonTerminal_t{name:19}}, 0x6c:[]parser.ParserOp{parser.nonTerminal_t{name:21}, parser.nonTerminal_t{name:19}}, 0x6d:[]parser.ParserOp{parser.nonTerminal_t{name:21}, parser.nonTerminal_t{name:19}}, 0x6e:[]parser.ParserOp{parser.nonTerminal_t{name:21}, parser.nonTerminal_t{name:19}}, 0x6f:[]parser.ParserOp{parser.nonTerminal_t{name:21}, parser.nonTerminal_t{name" ++
  s2b ":19}}, 0x70:[]parser.ParserOp{parser.nonTerminal_t{name:21}, parser.nonTerminal_t{name:19}}, 0x71:[]parser.ParserOp{parser.nonTerminal_t{name:21}, parser.nonTerminal_t{name:19}}, 0x72:[]parser.ParserOp{parser.nonTerminal_t{name:21}, parser.nonTerminal_t{name:19}}, 0x73:[]parser.ParserOp{parser.nonTerminal_t{name:21}, parser.nonTerminal_t{name:19}}, 0x74:[]parser.ParserOp{parser.nonTerminal_t{name:21}, parser.nonTerminal_t{name:19}}, 0x75:[]parser.ParserOp{parser.nonTerminal_t{name:21}, parser.nonTerminal_t{name:19}}, 0x76:[]parser.ParserOp{parser.nonTerminal_t{name:21}, parser.nonTerminal_t{name:19}}, 0x77:[]parser.ParserOp{parser.nonTerminal_t{name:21}, parser.nonTerminal_t{name:19}}, 0x78:[]parser.ParserOp{parser.nonTerminal_t{name:21}, parser.nonTerminal_t{name:19}}, 0x79:[]parser.ParserOp{parser.nonTerminal_t{name:21}, parser.nonTerminal_t{name:19}}, 0x7a:[]parser.ParserOp{parser.nonTerminal_t{name:21}, parser.nonTerminal_t{name:19}}}, 19:map[uint8][]parser.ParserOp{0x2d:[]parser.P" ++
  s2b "arserOp{parser.nonTerminal_t{name:20}, parser.nonTerminal_t{name:19}}, 0x30:[]parser.ParserOp{parser.nonTerminal_t{name:20}, parser.nonTerminal_t{name:19}}, 0x31:[]parser.ParserOp{parser.nonTerminal_t{name:20}, parser.nonTerminal_t{name:19}}, 0x32:[]parser.ParserOp{parser.nonTerminal_t{name:20}, parser.nonTerminal_t{name:19}}, 0x33:[]parser.ParserOp{parser.nonTerminal_t{name:20}, parser.nonTerminal_t{name:19}}, 0x34:[]parser.ParserOp{parser.nonTerminal_t{name:20}, parser.nonTerminal_t{name:19}}, 0x35:[]parser.ParserOp{parser.nonTerminal_t{name:20}, parser.nonTerminal_t{name:19}}, 0x36:[]parser.ParserOp{parser.nonTerminal_t{name:20}, parser.nonTerminal_t{name:19}}, 0x37:[]parser.ParserOp{parser.nonTerminal_t{name:20}, parser.nonTerminal_t{name:19}}, 0x38:[]parser.ParserOp{parser.nonTerminal_t{name:20}, parser.nonTerminal_t{name:19}}, 0x39:[]parser.ParserOp{parser.nonTerminal_t{name:20}, parser.nonTerminal_t{name:19}}, 0x3e:[]parser.ParserOp{}, 0x41:[]parser.ParserOp{parser.nonTerminal_t" ++
  s2b "{name:20}, parser.nonTerminal_t{name:19}}, 0x42:[]parser.ParserOp{parser.nonTerminal_t{name:20}, parser.nonTerminal_t{name:19}}, 0x43:[]parser.ParserOp{parser.nonTerminal_t{name:20}, parser.nonTerminal_t{name:19}}, 0x44:[]parser.ParserOp{parser.nonTerminal_t{name:20}, parser.nonTerminal_t{name:19}}, 0x45:[]parser.ParserOp{parser.nonTerminal_t{name:20}, parser.nonTerminal_t{name:19}}, 0x46:[]parser.ParserOp{parser.nonTerminal_t{name:20}, parser.nonTerminal_t{name:19}}, 0x47:[]parser.ParserOp{parser.nonTerminal_t{name:20}, parser.nonTerminal_t{name:19}}, 0x48:[]parser.ParserOp{parser.nonTerminal_t{name:20}, parser.nonTerminal_t{name:19}}, 0x49:[]parser.ParserOp{parser.nonTerminal_t{name:20}, parser.nonTerminal_t{name:19}}, 0x4a:[]parser.ParserOp{parser.nonTerminal_t{name:20}, parser.nonTerminal_t{name:19}}, 0x4b:[]parser.ParserOp{parser.nonTerminal_t{name:20}, parser.nonTerminal_t{name:19}}, 0x4c:[]parser.ParserOp{parser.nonTerminal_t{name:20}, parser.nonTerminal_t{name:19}}, 0x4d:[]pars" ++
  s2b "er.ParserOp{parser.nonTerminal_t{name:20}, parser.nonTerminal_t{name:19}}, 0x4e:[]parser.ParserOp{parser.nonTerminal_t{name:20}, parser.nonTerminal_t{name:19}}, 0x4f:[]parser.ParserOp{parser.nonTerminal_t{name:20}, parser.nonTerminal_t{name:19}}, 0x50:[]parser.ParserOp{parser.nonTerminal_t{name:20}, parser.nonTerminal_t{name:19}}, 0x51:[]parser.ParserOp{parser.nonTerminal_t{name:20}, parser.nonTerminal_t{name:19}}, 0x52:[]parser.ParserOp{parser.nonTerminal_t{name:20}, parser.nonTerminal_t{name:19}}, 0x53:[]parser.ParserOp{parser.nonTerminal_t{name:20}, parser.nonTerminal_t{name:19}}, 0x54:[]parser.ParserOp{parser.nonTerminal_t{name:20}, parser.nonTerminal_t{name:19}}, 0x55:[]parser.ParserOp{parser.nonTerminal_t{name:20}, parser.nonTerminal_t{name:19}}, 0x56:[]parser.ParserOp{parser.nonTerminal_t{name:20}, parser.nonTerminal_t{name:19}}, 0x57:[]parser.ParserOp{parser.nonTerminal_t{name:20}, parser.nonTerminal_t{name:19}}, 0x58:[]parser.ParserOp{parser.nonTerminal_t{name:20}, parser.nonT" ++
  s2b "erminal_t{name:19}}, 0x59:[]parser.ParserOp{parser.nonTerminal_t{name:20}, parser.nonTerminal_t{name:19}}, 0x5a:[]parser.ParserOp{parser.nonTerminal_t{name:20}, parser.nonTerminal_t{name:19}}, 0x61:[]parser.ParserOp{parser.nonTerminal_t{name:20}, parser.nonTerminal_t{name:19}}, 0x62:[]parser.ParserOp{parser.nonTerminal_t{name:20}, parser.nonTerminal_t{name:19}}, 0x63:[]parser.ParserOp{parser.nonTerminal_t{name:20}, parser.nonTerminal_t{name:19}}, 0x64:[]parser.ParserOp{parser.nonTerminal_t{name:20}, parser.nonTerminal_t{name:19}}, 0x65:[]parser.ParserOp{parser.nonTerminal_t{name:20}, parser.nonTerminal_t{name:19}}, 0x66:[]parser.ParserOp{parser.nonTerminal_t{name:20}, parser.nonTerminal_t{name:19}}, 0x67:[]parser.ParserOp{parser.nonTerminal_t{name:20}, parser.nonTerminal_t{name:19}}, 0x68:[]parser.ParserOp{parser.nonTerminal_t{name:20}, parser.nonTerminal_t{name:19}}, 0x69:[]parser.ParserOp{parser.nonTerminal_t{name:20}, parser.nonTerminal_t{name:19}}, 0x6a:[]parser.ParserOp{parser.non" ++
  s2b "Terminal_t{name:20}, parser.nonTerminal_t{name:19}}, 0x6b:[]parser.ParserOp{parser.nonTerminal_t{name:20}, parser.nonTerminal_t{name:19}}, 0x6c:[]parser.ParserOp{parser.nonTerminal_t{name:20}, parser.nonTerminal_t{name:19}}, 0x6d:[]parser.ParserOp{parser.nonTerminal_t{name:20}, parser.nonTerminal_t{name:19}}, 0x6e:[]parser.ParserOp{parser.nonTerminal_t{name:20}, parser.nonTerminal_t{name:19}}, 0x6f:[]parser.ParserOp{parser.nonTerminal_t{name:20}, parser.nonTerminal_t{name:19}}, 0x70:[]parser.ParserOp{parser.nonTerminal_t{name:20}, parser.nonTerminal_t{name:19}}, 0x71:[]parser.ParserOp{parser.nonTerminal_t{name:20}, parser.nonTerminal_t{name:19}}, 0x72:[]parser.ParserOp{parser.nonTerminal_t{name:20}, parser.nonTerminal_t{name:19}}, 0x73:[]parser.ParserOp{parser.nonTerminal_t{name:20}, parser.nonTerminal_t{name:19}}, 0x74:[]parser.ParserOp{parser.nonTerminal_t{name:20}, parser.nonTerminal_t{name:19}}, 0x75:[]parser.ParserOp{parser.nonTerminal_t{name:20}, parser.nonTerminal_t{name:19}}, 0" ++
  s2b "x76:[]parser.ParserOp{parser.nonTerminal_t{name:20}, parser.nonTerminal_t{name:19}}, 0x77:[]parser.ParserOp{parser.nonTerminal_t{name:20}, parser.nonTerminal_t{name:19}}, 0x78:[]parser.ParserOp{parser.nonTerminal_t{name:20}, parser.nonTerminal_t{name:19}}, 0x79:[]parser.ParserOp{parser.nonTerminal_t{name:20}, parser.nonTerminal_t{name:19}}, 0x7a:[]parser.ParserOp{parser.nonTerminal_t{name:20}, parser.nonTerminal_t{name:19}}}, 20:map[uint8][]parser.ParserOp{0x2d:[]parser.ParserOp{parser.terminal_t{value:""-""}}, 0x30:[]parser.ParserOp{parser.nonTerminal_t{name:22}}, 0x31:[]parser.ParserOp{parser.nonTerminal_t{name:22}}, 0x32:[]parser.ParserOp{parser.nonTerminal_t{name:22}}, 0x33:[]parser.ParserOp{parser.nonTerminal_t{name:22}}, 0x34:[]parser.ParserOp{parser.nonTerminal_t{name:22}}, 0x35:[]parser.ParserOp{parser.nonTerminal_t{name:22}}, 0x36:[]parser.ParserOp{parser.nonTerminal_t{name:22}}, 0x37:[]parser.ParserOp{parser.nonTerminal_t{name:22}}, 0x38:[]parser.ParserOp{parser.nonTerminal_t{n" ++
  s2b "ame:22}}, 0x39:[]parser.ParserOp{parser.nonTerminal_t{name:22}}, 0x41:[]parser.ParserOp{parser.nonTerminal_t{name:21}}, 0x42:[]parser.ParserOp{parser.nonTerminal_t{name:21}}, 0x43:[]parser.ParserOp{parser.nonTerminal_t{name:21}}, 0x44:[]parser.ParserOp{parser.nonTerminal_t{name:21}}, 0x45:[]parser.ParserOp{parser.nonTerminal_t{name:21}}, 0x46:[]parser.ParserOp{parser.nonTerminal_t{name:21}}, 0x47:[]parser.ParserOp{parser.nonTerminal_t{name:21}}, 0x48:[]parser.ParserOp{parser.nonTerminal_t{name:21}}, 0x49:[]parser.ParserOp{parser.nonTerminal_t{name:21}}, 0x4a:[]parser.ParserOp{parser.nonTerminal_t{name:21}}, 0x4b:[]parser.ParserOp{parser.nonTerminal_t{name:21}}, 0x4c:[]parser.ParserOp{parser.nonTerminal_t{name:21}}, 0x4d:[]parser.ParserOp{parser.nonTerminal_t{name:21}}, 0x4e:[]parser.ParserOp{parser.nonTerminal_t{name:21}}, 0x4f:[]parser.ParserOp{parser.nonTerminal_t{name:21}}, 0x50:[]parser.ParserOp{parser.nonTerminal_t{name:21}}, 0x51:[]parser.ParserOp{parser.nonTerminal_t{name:21}}, " ++
  s2b "0x52:[]parser.ParserOp{parser.nonTerminal_t{name:21}}, 0x53:[]parser.ParserOp{parser.nonTerminal_t{name:21}}, 0x54:[]parser.ParserOp{parser.nonTerminal_t{name:21}}, 0x55:[]parser.ParserOp{parser.nonTerminal_t{name:21}}, 0x56:[]parser.ParserOp{parser.nonTerminal_t{name:21}}, 0x57:[]parser.ParserOp{parser.nonTerminal_t{name:21}}, 0x58:[]parser.ParserOp{parser.nonTerminal_t{name:21}}, 0x59:[]parser.ParserOp{parser.nonTerminal_t{name:21}}, 0x5a:[]parser.ParserOp{parser.nonTerminal_t{name:21}}, 0x61:[]parser.ParserOp{parser.nonTerminal_t{name:21}}, 0x62:[]parser.ParserOp{parser.nonTerminal_t{name:21}}, 0x63:[]parser.ParserOp{parser.nonTerminal_t{name:21}}, 0x64:[]parser.ParserOp{parser.nonTerminal_t{name:21}}, 0x65:[]parser.ParserOp{parser.nonTerminal_t{name:21}}, 0x66:[]parser.ParserOp{parser.nonTerminal_t{name:21}}, 0x67:[]parser.ParserOp{parser.nonTerminal_t{name:21}}, 0x68:[]parser.ParserOp{parser.nonTerminal_t{name:21}}, 0x69:[]parser.ParserOp{parser.nonTerminal_t{name:21}}, 0x6a:[]par" ++
  s2b "ser.ParserOp{parser.nonTerminal_t{name:21}}, 0x6b:[]parser.ParserOp{parser.nonTerminal_t{name:21}}, 0x6c:[]parser.ParserOp{parser.nonTerminal_t{name:21}}, 0x6d:[]parser.ParserOp{parser.nonTerminal_t{name:21}}, 0x6e:[]parser.ParserOp{parser.nonTerminal_t{name:21}}, 0x6f:[]parser.ParserOp{parser.nonTerminal_t{name:21}}, 0x70:[]parser.ParserOp{parser.nonTerminal_t{name:21}}, 0x71:[]parser.ParserOp{parser.nonTerminal_t{name:21}}, 0x72:[]parser.ParserOp{parser.nonTerminal_t{name:21}}, 0x73:[]parser.ParserOp{parser.nonTerminal_t{name:21}}, 0x74:[]parser.ParserOp{parser.nonTerminal_t{name:21}}, 0x75:[]parser.ParserOp{parser.nonTerminal_t{name:21}}, 0x76:[]parser.ParserOp{parser.nonTerminal_t{name:21}}, 0x77:[]parser.ParserOp{parser.nonTerminal_t{name:21}}, 0x78:[]parser.ParserOp{parser.nonTerminal_t{name:21}}, 0x79:[]parser.ParserOp{parser.nonTerminal_t{name:21}}, 0x7a:[]parser.ParserOp{parser.nonTerminal_t{name:21}}}, 21:map[uint8][]parser.ParserOp{0x41:[]parser.ParserOp{parser.terminal_t{va" ++
  s2b "lue:""A""}}, 0x42:[]parser.ParserOp{parser.terminal_t{value:""B""}}, 0x43:[]parser.ParserOp{parser.terminal_t{value:""C""}}, 0x44:[]parser.ParserOp{parser.terminal_t{value:""D""}}, 0x45:[]parser.ParserOp{parser.terminal_t{value:""E""}}, 0x46:[]parser.ParserOp{parser.terminal_t{value:""F""}}, 0x47:[]parser.ParserOp{parser.terminal_t{value:""G""}}, 0x48:[]parser.ParserOp{parser.terminal_t{value:""H""}}, 0x49:[]parser.ParserOp{parser.terminal_t{value:""I""}}, 0x4a:[]parser.ParserOp{parser.terminal_t{value:""J""}}, 0x4b:[]parser.ParserOp{parser.terminal_t{value:""K""}}, 0x4c:[]parser.ParserOp{parser.terminal_t{value:""L""}}, 0x4d:[]parser.ParserOp{parser.terminal_t{value:""M""}}, 0x4e:[]parser.ParserOp{parser.terminal_t{value:""N""}}, 0x4f:[]parser.ParserOp{parser.terminal_t{value:""O""}}, 0x50:[]parser.ParserOp{parser.terminal_t{value:""P""}}, 0x51:[]parser.ParserOp{parser.terminal_t{value:""Q""}}, 0x52:[]parser.ParserOp{parser.terminal_t{value:""R""}}, 0x53:[]parser.ParserOp{parser.terminal_t{value:""S""}}, 0x54:[]parser.Par" ++
  s2b "serOp{parser.terminal_t{value:""T""}}, 0x55:[]parser.ParserOp{parser.terminal_t{value:""U""}}, 0x56:[]parser.ParserOp{parser.terminal_t{value:""V""}}, 0x57:[]parser.ParserOp{parser.terminal_t{value:""W""}}, 0x58:[]parser.ParserOp{parser.terminal_t{value:""X""}}, 0x59:[]parser.ParserOp{parser.terminal_t{value:""Y""}}, 0x5a:[]parser.ParserOp{parser.terminal_t{value:""Z""}}, 0x61:[]parser.ParserOp{parser.terminal_t{value:""a""}}, 0x62:[]parser.ParserOp{parser.terminal_t{value:""b""}}, 0x63:[]parser.ParserOp{parser.terminal_t{value:""c""}}, 0x64:[]parser.ParserOp{parser.terminal_t{value:""d""}}, 0x65:[]parser.ParserOp{parser.terminal_t{value:""e""}}, 0x66:[]parser.ParserOp{parser.terminal_t{value:""f""}}, 0x67:[]parser.ParserOp{parser.terminal_t{value:""g""}}, 0x68:[]parser.ParserOp{parser.terminal_t{value:""h""}}, 0x69:[]parser.ParserOp{parser.terminal_t{value:""i""}}, 0x6a:[]parser.ParserOp{parser.terminal_t{value:""j""}}, 0x6b:[]parser.ParserOp{parser.terminal_t{value:""k""}}, 0x6c:[]parser.ParserOp{parser.terminal_t{valu" ++
  s2b "e:""l""}}, 0x6d:[]parser.ParserOp{parser.terminal_t{value:""m""}}, 0x6e:[]parser.ParserOp{parser.terminal_t{value:""n""}}, 0x6f:[]parser.ParserOp{parser.terminal_t{value:""o""}}, 0x70:[]parser.ParserOp{parser.terminal_t{value:""p""}}, 0x71:[]parser.ParserOp{parser.terminal_t{value:""q""}}, 0x72:[]parser.ParserOp{parser.terminal_t{value:""r""}}, 0x73:[]parser.ParserOp{parser.terminal_t{value:""s""}}, 0x74:[]parser.ParserOp{parser.terminal_t{value:""t""}}, 0x75:[]parser.ParserOp{parser.terminal_t{value:""u""}}, 0x76:[]parser.ParserOp{parser.terminal_t{value:""v""}}, 0x77:[]parser.ParserOp{parser.terminal_t{value:""w""}}, 0x78:[]parser.ParserOp{parser.terminal_t{value:""x""}}, 0x79:[]parser.ParserOp{parser.terminal_t{value:""y""}}, 0x7a:[]parser.ParserOp{parser.terminal_t{value:""z""}}}, 22:map[uint8][]parser.ParserOp{0x30:[]parser.ParserOp{parser.terminal_t{value:""0""}}, 0x31:[]parser.ParserOp{parser.terminal_t{value:""1""}}, 0x32:[]parser.ParserOp{parser.terminal_t{value:""2""}}, 0x33:[]parser.ParserOp{parser.terminal_t{" ++
  s2b "value:""3""}}, 0x34:[]parser.ParserOp{parser.terminal_t{value:""4""}}, 0x35:[]parser.ParserOp{parser.terminal_t{value:""5""}}, 0x36:[]parser.ParserOp{parser.terminal_t{value:""6""}}, 0x37:[]parser.ParserOp{parser.terminal_t{value:""7""}}, 0x38:[]parser.ParserOp{parser.terminal_t{value:""8""}}, 0x39:[]parser.ParserOp{parser.terminal_t{value:""9""}}}, 23:map[uint8][]parser.ParserOp{0x20:[]parser.ParserOp{parser.terminal_t{value:"" ""}}, 0x21:[]parser.ParserOp{parser.terminal_t{value:""!""}}, 0x23:[]parser.ParserOp{parser.terminal_t{value:""#""}}, 0x24:[]parser.ParserOp{parser.terminal_t{value:""$""}}, 0x25:[]parser.ParserOp{parser.terminal_t{value:""%""}}, 0x26:[]parser.ParserOp{parser.terminal_t{value:""&""}}, 0x28:[]parser.ParserOp{parser.terminal_t{value:""(""}}, 0x29:[]parser.ParserOp{parser.terminal_t{value:"")""}}, 0x2a:[]parser.ParserOp{parser.terminal_t{value:""*""}}, 0x2b:[]parser.ParserOp{parser.terminal_t{value:""+""}}, 0x2c:[]parser.ParserOp{parser.terminal_t{value:"",""}}, 0x2d:[]parser.ParserOp{parser.termina" ++
  s2b "l_t{value:""-""}}, 0x2e:[]parser.ParserOp{parser.terminal_t{value:"".""}}, 0x2f:[]parser.ParserOp{parser.terminal_t{value:""/""}}, 0x3a:[]parser.ParserOp{parser.terminal_t{value:"":""}}, 0x3b:[]parser.ParserOp{parser.terminal_t{value:"";""}}, 0x3c:[]parser.ParserOp{parser.terminal_t{value:""<""}}, 0x3d:[]parser.ParserOp{parser.terminal_t{value:""=""}}, 0x3e:[]parser.ParserOp{parser.terminal_t{value:"">""}}, 0x3f:[]parser.ParserOp{parser.terminal_t{value:""?""}}, 0x40:[]parser.ParserOp{parser.terminal_t{value:""@""}}, 0x5b:[]parser.ParserOp{parser.terminal_t{value:""[""}}, 0x5d:[]parser.ParserOp{parser.terminal_t{value:""]""}}, 0x5e:[]parser.ParserOp{parser.terminal_t{value:""^""}}, 0x5f:[]parser.ParserOp{parser.terminal_t{value:""_""}}, 0x60:[]parser.ParserOp{parser.terminal_t{value:""`""}}, 0x7b:[]parser.ParserOp{parser.terminal_t{value:""{""}}, 0x7c:[]parser.ParserOp{parser.terminal_t{value:""|""}}, 0x7d:[]parser.ParserOp{parser.terminal_t{value:""}""}}, 0x7e:[]parser.ParserOp{parser.terminal_t{value:""~""}}}, 24:map[uin" ++
  s2b "t8][]parser.ParserOp{0x0:[]parser.ParserOp{}, 0xa:[]parser.ParserOp{}, 0xd:[]parser.ParserOp{}, 0x20:[]parser.ParserOp{parser.terminal_t{value:"" ""}, parser.nonTerminal_t{name:24}}, 0x22:[]parser.ParserOp{}, 0x27:[]parser.ParserOp{}, 0x3a:[]parser.ParserOp{}, 0x3c:[]parser.ParserOp{}, 0x7c:[]parser.ParserOp{}}, 25:map[uint8][]parser.ParserOp{0xa:[]parser.ParserOp{parser.terminal_t{value:""\n""}}, 0xd:[]parser.ParserOp{parser.terminal_t{value:""\r\n""}}}}".

(** test/parser/refTetsLinearMultiRuleParserParse10.bin *)
Definition file_linear10 : bytes :=
  s2b "{0 0 5 [{-1 0 1 []} {-1 1 4 []} {1 4 5 [{-1 4 5 []}]}]}".

(** test/parser/refTetsLinearMultiRuleParserParse11.bin *)
Definition file_linear11 : bytes :=
  s2b "map[-2:_nothing -1:_literal 0:Expr 1:T]".

(** test/parser/refTestOrParserParse10.bin *)
Definition file_or10 : bytes :=
  s2b "{0 0 3 [{-1 0 1 []} {1 1 2 [{-1 1 2 []}]} {-1 2 3 []}]}".

(** test/parser/refTestOrParserParse11.bin *)
Definition file_or11 : bytes :=
  s2b "map[-2:_nothing -1:_literal 0:A 1:T]".

(** test/parser/refTestOrParserParse20.bin *)
Definition file_or20 : bytes :=
  s2b "{0 0 2 [{-1 0 1 []} {1 1 1 [{-2 1 1 []}]} {-1 1 2 []}]}".

(** test/parser/refTestOrParserParse21.bin *)
Definition file_or21 : bytes :=
  s2b "map[-2:_nothing -1:_literal 0:A 1:T]".

(** test/parser/refTestResolvedLRecursiveParserParse10.bin *)
Definition file_resolved10 : bytes :=
  s2b "{0 0 2 [{-1 0 1 []} {1 1 2 [{-1 1 2 []} {1 2 2 [{-2 2 2 []}]}]}]}".

(** test/parser/refTestResolvedLRecursiveParserParse11.bin *)
Definition file_resolved11 : bytes :=
  s2b "map[-2:_nothing -1:_literal 0:T 1:Ta]".

(** test/parser/refTestResolvedLRecursiveParserParse20.bin *)
Definition file_resolved20 : bytes :=
  s2b "{0 0 1 [{-1 0 1 []} {1 1 1 [{-2 1 1 []}]}]}".

(** test/parser/refTestResolvedLRecursiveParserParse21.bin *)
Definition file_resolved21 : bytes :=
  s2b "map[-2:_nothing -1:_literal 0:T 1:Ta]".

(** test/parser/refTestResolvedLRecursiveParserParse30.bin *)
Definition file_resolved30 : bytes :=
  s2b "{0 0 8 [{-1 0 1 []} {1 1 8 [{-1 1 2 []} {1 2 8 [{-1 2 3 []} {1 3 8 [{-1 3 4 []} {1 4 8 [{-1 4 5 []} {1 5 8 [{-1 5 6 []} {1 6 8 [{-1 6 7 []} {1 7 8 [{-1 7 8 []} {1 8 8 [{-2 8 8 []}]}]}]}]}]}]}]}]}]}".

(** test/parser/refTestResolvedLRecursiveParserParse31.bin *)
Definition file_resolved31 : bytes :=
  s2b "map[-2:_nothing -1:_literal 0:T 1:Ta]".
