(** * Ast: model of pkg/bnf/ast.go *)
From Verif Require Import Base.

(** ast.go:16-22,24-26,41-43,74-75 [Symbol] and its three implementations.
    [SUnknown] stands for any other implementation of the (exported) interface;
    it carries what its String method returns. *)
Inductive symbol : Type :=
| SNonTerminal (name : bytes)
| STerminal (name : bytes)
| SNothing
| SUnknown (str : bytes).

(** ast.go:86-88, 91-93 [Sequence], [Substitution] *)
Definition sequence := list symbol.
Definition substitution := list sequence.

(** ast.go:96-99 [Rule] *)
Record rule := mkRule { r_head : bytes; r_tail : substitution }.

(** ast.go:119-121 [Grammar] *)
Definition grammar := list rule.

(** strings.ReplaceAll for a one-byte pattern. *)
Definition replace_all (old : ascii) (new : bytes) (s : bytes) : bytes :=
  flat_map (fun c => if Ascii.eqb c old then new else [c]) s.

(** strings.ContainsRune for an ASCII rune (a byte search). *)
Definition contains_byte (s : bytes) (c : ascii) : bool := existsb (Ascii.eqb c) s.

(** ast.go:32-38 [SymbolNonTerminal.String] *)
Definition nonterminal_string (name : bytes) : bytes :=
  "<"%char :: name ++ [">"%char].

(** ast.go:49-71 [SymbolTerminal.String] *)
Definition terminal_string (name : bytes) : bytes :=
  let res := name in
  let res := replace_all BSL [BSL; BSL] res in
  let res := replace_all TAB [BSL; "t"%char] res in
  let res := replace_all LF [BSL; "n"%char] res in
  let res := replace_all CR [BSL; "r"%char] res in
  if contains_byte res DQ && negb (contains_byte res SQ) then
    SQ :: res ++ [SQ]
  else
    let res := replace_all DQ [BSL; DQ] res in
    DQ :: res ++ [DQ].

(** ast.go:32-38, 49-71, 81-83 [Symbol.String] *)
Definition symbol_string (s : symbol) : bytes :=
  match s with
  | SNonTerminal n => nonterminal_string n
  | STerminal n => terminal_string n
  | SNothing => [DQ; DQ]
  | SUnknown str => str
  end.

(** ast.go:109-112 the symbols of one sequence, each preceded by a blank *)
Definition symbols_string (seq : sequence) : bytes :=
  flat_map (fun s => s2b " " ++ symbol_string s) seq.

(** ast.go:105-113 sequences from the second one on are preceded by " |" *)
Definition sequences_string (subst : substitution) : bytes :=
  match subst with
  | [] => []
  | s0 :: rest =>
      symbols_string s0 ++ flat_map (fun s => s2b " |" ++ symbols_string s) rest
  end.

(** ast.go:101-116 [Rule.String] *)
Definition rule_string (r : rule) : bytes :=
  nonterminal_string (r_head r) ++ s2b " ::=" ++ sequences_string (r_tail r).

(** ast.go:123-139 [Grammar.String] *)
Definition grammar_string (g : grammar) : bytes :=
  match g with
  | [] => []
  | r0 :: rest => rule_string r0 ++ flat_map (fun r => LF :: rule_string r) rest
  end.
