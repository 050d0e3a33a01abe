(** * Spec_Recode: the same text, table and grammar in another encoding. *)
From Verif Require Import Base Ast Cst Parser.

(** A re-encoding of bytes: one to one, with the inverse [r]; 0 stays 0. *)
Definition recoding (p r : ascii -> ascii) : Prop :=
  (forall c, r (p c) = c) /\ (forall c, p (r c) = c) /\ p NUL = NUL.

(** Literals re-encoded. *)
Definition recoded_op (p : ascii -> ascii) (op : ParserOp) : ParserOp :=
  match op with
  | OpTerminal v => OpTerminal (map p v)
  | OpEmbedding (EmbTerminal v) => OpEmbedding (EmbTerminal (map p v))
  | OpChar c => OpChar (p c)
  | _ => op
  end.

(** The cell of byte [p c] in the second table is the re-encoded cell of byte
    [c] in the first one. *)
Definition recoded_table (p : ascii -> ascii) (t t' : table) : Prop :=
  forall n,
    match table_get n t, table_get n t' with
    | Some r, Some r' => forall c, row_get (p c) r' = option_map (map (recoded_op p)) (row_get c r)
    | None, None => True
    | _, _ => False
    end.

(** The table mentions the built-in end-of-line operand. *)
Definition uses_eol (t : table) : Prop :=
  exists n r c ops, table_get n t = Some r /\ row_get c r = Some ops /\ In (OpNonTerminal (-2)) ops.

Definition recoded_source (p : ascii -> ascii) (src : source) : source :=
  match src with
  | SrcString s => SrcString (map p s)
  | SrcBytes s => SrcBytes (map p s)
  | SrcBuffer s => SrcBuffer (option_map (map p) s)
  | SrcReader r => SrcReader (mkReader (map (map p) (rd_chunks r)) (rd_end r))
  | _ => src
  end.

(** Errors name bytes. *)
Definition recoded_error (p : ascii -> ascii) (e : perror) : perror :=
  match e with
  | ENoRulesForByte c n => ENoRulesForByte (p c) n
  | ENoRulesEOL c => ENoRulesEOL (p c)
  | EExpectedEnd c => EExpectedEnd (p c)
  | EExpectedChar w g => EExpectedChar (p w) (p g)
  | _ => e
  end.
Definition recoded_result (p : ascii -> ascii) (x : gores Empty_set preturn) : gores Empty_set preturn :=
  match x with
  | Ok r => Ok (mkRet (r_tree r) (r_names r) (option_map (recoded_error p) (r_err r)))
  | _ => x
  end.

(** Terminals re-encoded, names left alone. *)
Definition recoded_symbol (p : ascii -> ascii) (x : symbol) : symbol :=
  match x with STerminal t => STerminal (map p t) | _ => x end.
Definition recoded_rule (p : ascii -> ascii) (r : rule) : rule :=
  mkRule (r_head r) (map (map (recoded_symbol p)) (r_tail r)).
Definition recoded_grammar (p : ascii -> ascii) (g : grammar) : grammar := map (recoded_rule p) g.
