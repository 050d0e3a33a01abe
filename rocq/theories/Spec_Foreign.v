(** * Spec_Foreign: operands that are of neither exported kind. *)
From Verif Require Import Base Cst Parser.

(** What a table made outside the package can hold: values of the two exported
    constructors, nil, and values of other types that embed an operand. *)
Definition op_outside (op : ParserOp) : Prop :=
  match op with
  | OpNonTerminal _ | OpTerminal _ | OpNil | OpEmbedding _ => True
  | OpFunction _ _ _ | OpEOS | OpChar _ => False
  end.
Definition table_outside (tbl : table) : Prop :=
  forall n r c ops op, In (n, r) tbl -> In (c, ops) r -> In op ops -> op_outside op.

(** The operands that are of neither exported kind, and the panic each causes. *)
Inductive foreign : ParserOp -> gopanic -> Prop :=
| fo_nil : foreign OpNil PanicNilOperand
| fo_embedded_nil : foreign (OpEmbedding EmbNil) PanicNilOperand
| fo_nonterminal n : foreign (OpEmbedding (EmbNonTerminal n)) PanicCastNonTerminal
| fo_terminal t : foreign (OpEmbedding (EmbTerminal t)) PanicCastTerminal.

(** [a] with every operand of neither exported kind replaced by the
    non-terminal [z]. *)
Definition stands_for (z : Z) (a b : ParserOp) : Prop :=
  (exists p, foreign a p) /\ b = OpNonTerminal z \/ (forall p, ~ foreign a p) /\ b = a.
Definition replaced_row (z : Z) (a b : row) : Prop :=
  Forall2 (fun x y => fst x = fst y /\ Forall2 (stands_for z) (snd x) (snd y)) a b.
Definition replaced (z : Z) (a b : table) : Prop :=
  Forall2 (fun x y => fst x = fst y /\ replaced_row z (snd x) (snd y)) a b.

(** [z] is a negative number that names nothing and that the table does not use. *)
Definition unused (z : Z) (tbl : table) : Prop :=
  (z < -2)%Z /\ forall n r c ops, In (n, r) tbl -> In (c, ops) r -> ~ In (OpNonTerminal z) ops.
