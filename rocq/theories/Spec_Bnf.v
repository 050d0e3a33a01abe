(** * Spec_Bnf: the documented BNF notation.

    Written from the description in pkg/bnf/selfgrammar.go:5-57 (and ast.go),
    without reference to SelfGrammar, to its table or to the converter:

    - a text consists of lines ended by LF or CR LF; the first line must hold a
      rule, any further line a rule or nothing; lines may start with blanks;
    - a rule is  <name> ::= alternatives, with optional blanks around ::= ;
    - alternatives are separated by | and optional blanks; each is a sequence
      of at least one symbol, every symbol followed by optional blanks;
    - a symbol is <name> or a literal in double or single quotes, of printable
      ASCII characters, where backslash introduces one of the escapes
      t, n, r, double quote, backslash; the empty literal stands for the empty symbol. *)
From Verif Require Import Base Ast.

Definition between (lo hi : ascii) (c : ascii) : bool := ((code lo <=? code c) && (code c <=? code hi))%N.
Definition is_letter (c : ascii) : bool :=
  between "A"%char "Z"%char c || between "a"%char "z"%char c.
Definition is_digit : ascii -> bool := between "0"%char "9"%char.
Definition is_name_char (c : ascii) : bool := is_letter c || is_digit c || Ascii.eqb c "-"%char.
Definition is_printable : ascii -> bool := between " "%char "~"%char.

Definition all (p : ascii -> bool) (w : bytes) : Prop := Forall (fun c => p c = true) w.

(** letter (letter | digit | -)* *)
Definition name (n : bytes) : Prop :=
  exists c s, n = c :: s /\ is_letter c = true /\ all is_name_char s.

Definition blanks (w : bytes) : Prop := all (Ascii.eqb " "%char) w.

Inductive eol : bytes -> Prop :=
| eol_lf : eol [LF]
| eol_crlf : eol [CR; LF].

(** The character after a backslash, and the byte meant. *)
Inductive escape : ascii -> ascii -> Prop :=
| esc_t : escape "t"%char TAB
| esc_n : escape "n"%char LF
| esc_r : escape "r"%char CR
| esc_quote : escape DQ DQ
| esc_backslash : escape BSL BSL.

(** [quoted q raw v]: between quotes [q], [raw] stands for the bytes [v]. *)
Inductive quoted (q : ascii) : bytes -> bytes -> Prop :=
| qu_nil : quoted q [] []
| qu_plain c raw v :
    is_printable c = true -> c <> q -> c <> BSL ->
    quoted q raw v -> quoted q (c :: raw) (c :: v)
| qu_escape e c raw v :
    escape e c -> quoted q raw v -> quoted q (BSL :: e :: raw) (c :: v).

(** Reading a literal, the opening quote [q] having been read: its bytes and
    the text behind the closing quote. Any byte is taken, not only printable
    ones. *)
Definition unescape (e : ascii) : option ascii :=
  if Ascii.eqb e "t"%char then Some TAB else if Ascii.eqb e "n"%char then Some LF
  else if Ascii.eqb e "r"%char then Some CR else if Ascii.eqb e DQ then Some DQ
  else if Ascii.eqb e BSL then Some BSL else None.
Fixpoint scan (q : ascii) (s : bytes) : option (bytes * bytes) :=
  match s with
  | [] => None
  | c :: s1 =>
      if Ascii.eqb c q then Some ([], s1)
      else if Ascii.eqb c BSL then
        match s1 with
        | [] => None
        | e :: s2 =>
            match unescape e, scan q s2 with
            | Some x, Some (v, rest) => Some (x :: v, rest)
            | _, _ => None
            end
        end
      else match scan q s1 with Some (v, rest) => Some (c :: v, rest) | None => None end
  end.

Definition quote (q : ascii) : Prop := q = DQ \/ q = SQ.

Inductive symbol_text : bytes -> symbol -> Prop :=
| sy_nonterminal n : name n -> symbol_text ("<"%char :: n ++ [">"%char]) (SNonTerminal n)
| sy_terminal q raw v :
    quote q -> quoted q raw v -> v <> [] -> symbol_text (q :: raw ++ [q]) (STerminal v)
| sy_nothing q : quote q -> symbol_text [q; q] SNothing.

Inductive sequence_text : bytes -> sequence -> Prop :=
| sq_last t w s : symbol_text t s -> blanks w -> sequence_text (t ++ w) [s]
| sq_more t w s ts ss :
    symbol_text t s -> blanks w -> sequence_text ts ss -> sequence_text (t ++ w ++ ts) (s :: ss).

Inductive alternatives_text : bytes -> substitution -> Prop :=
| al_last t s : sequence_text t s -> alternatives_text t [s]
| al_more t s w ts ss :
    sequence_text t s -> blanks w -> alternatives_text ts ss ->
    alternatives_text (t ++ "|"%char :: w ++ ts) (s :: ss).

Inductive rule_text : bytes -> rule -> Prop :=
| rl n w1 w2 t alts :
    name n -> blanks w1 -> blanks w2 -> alternatives_text t alts ->
    rule_text ("<"%char :: n ++ ">"%char :: w1 ++ s2b "::=" ++ w2 ++ t) (mkRule n alts).

(** The lines behind the first one. *)
Inductive lines_text : bytes -> grammar -> Prop :=
| li_end : lines_text [] []
| li_blank e w rest g :
    eol e -> blanks w -> lines_text rest g -> lines_text (e ++ w ++ rest) g
| li_rule e w t r rest g :
    eol e -> blanks w -> rule_text t r -> lines_text rest g ->
    lines_text (e ++ w ++ t ++ rest) (r :: g).

(** [text] is [g] in BNF notation. *)
Inductive bnf_text : bytes -> grammar -> Prop :=
| bt w t r rest g :
    blanks w -> rule_text t r -> lines_text rest g -> bnf_text (w ++ t ++ rest) (r :: g).

(** Grammars that can be written down. *)
Definition writable_byte (c : ascii) : bool :=
  is_printable c || Ascii.eqb c TAB || Ascii.eqb c LF || Ascii.eqb c CR.
Definition printable_symbol (s : symbol) : Prop :=
  match s with
  | SNonTerminal n => name n
  | STerminal v => v <> [] /\ all writable_byte v
  | SNothing => True
  | SUnknown _ => False
  end.
Definition printable_sequence (s : sequence) : Prop := s <> [] /\ Forall printable_symbol s.
Definition printable_rule (r : rule) : Prop :=
  name (r_head r) /\ r_tail r <> [] /\ Forall printable_sequence (r_tail r).
Definition printable_grammar (g : grammar) : Prop := g <> [] /\ Forall printable_rule g.
