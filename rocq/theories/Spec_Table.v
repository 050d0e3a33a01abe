(** * Spec_Table: LL(1) tables and derivation trees of a grammar. *)
From Verif Require Import Base Ast Cst Parser Spec_Parse Spec_Tree Spec_Grammar.

(** The operand standing for a symbol: rows are numbered like the rules. *)
Inductive operand (g : grammar) : symbol -> ParserOp -> Prop :=
| opr_terminal t : operand g (STerminal t) (OpTerminal t)
| opr_nonterminal n i :
    nth_error (heads g) i = Some n ->
    operand g (SNonTerminal n) (OpNonTerminal (Z.of_nat i)).
Definition operands (g : grammar) : sequence -> list ParserOp -> Prop := Forall2 (operand g).

(** [selected g b l l']: [l'] are the alternatives of [l] that can start with
    byte [b], in the same order. *)
Inductive selected (g : grammar) (b : ascii) : list sequence -> list sequence -> Prop :=
| sel_nil : selected g b [] []
| sel_take s l l' :
    first g (seq_form s) b -> selected g b l l' -> selected g b (s :: l) (s :: l')
| sel_skip s l l' :
    ~ first g (seq_form s) b -> selected g b l l' -> selected g b (s :: l) l'.

(** Rule [r] can be left out before byte [b] (the byte 0: at the end). *)
Definition skippable (g : grammar) (F : bytes -> option ascii -> Prop) (r : rule) (b : ascii)
  : Prop :=
  (exists s, In s (r_tail r) /\ nullable g (seq_form s)) /\ F (r_head r) (ahead b).

(** ** Derivation trees

    [derivation g src x p t q]: [t] is a derivation tree of the grammar for the
    symbol [x] and the bytes of [src] from offset [p] up to [q].  Sub-trees
    deriving the empty string may be collapsed to a single "nothing" node. *)
Inductive derivation (g : grammar) (src : bytes) : symbol -> nat -> node -> nat -> Prop :=
| dv_terminal t p :
    t <> [] -> text_of src (Z.of_nat p) (Z.of_nat (p + length t)) = t ->
    derivation g src (STerminal t) p (literal_at p (p + length t)) (p + length t)
| dv_rule i n s p childs q :
    nth_error (heads g) i = Some n -> alternative g n s ->
    derivations g src s p childs q ->
    derivation g src (SNonTerminal n) p (mk (Z.of_nat i) p q childs) q
| dv_empty i n p :
    nth_error (heads g) i = Some n -> nullable g [NT n] ->
    derivation g src (SNonTerminal n) p (mk (Z.of_nat i) p p [nothing_at p]) p
with derivations (g : grammar) (src : bytes) : sequence -> nat -> list node -> nat -> Prop :=
| dvs_nil p : derivations g src [] p [] p
| dvs_cons x s p t m ts q :
    derivation g src x p t m -> derivations g src s m ts q ->
    derivations g src (x :: s) p (t :: ts) q.

(** A derivation tree of a whole text. *)
Definition derivation_tree (g : grammar) (src : bytes) (t : node) : Prop :=
  derivation g src (SNonTerminal (start g)) 0 t (length src).

(** ** Contents of a generated table *)

(** [c] is the right contents ([None]: absent) of the cell of rule [r] and byte
    [b], given FOLLOW sets [F]: the operands of all alternatives that can start
    with [b], one after the other; empty but present when there is none and the
    rule can be left out before [b]; absent otherwise. *)
Definition cell_spec (g : grammar) (F : bytes -> option ascii -> Prop) (r : rule) (b : ascii)
  (c : option (list ParserOp)) : Prop :=
  match c with
  | Some ops => exists chosen, selected g b (r_tail r) chosen /\ operands g (concat chosen) ops /\
                  (chosen = [] -> skippable g F r b)
  | None => selected g b (r_tail r) [] /\ ~ skippable g F r b
  end.

(** One row per rule, in order, every cell as [cell_spec] says. *)
Definition table_spec_wrt (F : bytes -> option ascii -> Prop) (g : grammar) (tbl : table) : Prop :=
  map fst tbl = map Z.of_nat (seq 0 (length g)) /\
  forall i r b, nth_error g i = Some r ->
    exists rw, map_get Z.eqb (Z.of_nat i) tbl = Some rw /\
      cell_spec g F r b (map_get Ascii.eqb b rw).
(** ... with the FOLLOW sets of the rules quoted in tablegen.go. *)
Definition table_spec (g : grammar) (tbl : table) : Prop := table_spec_wrt (follow_code g) g tbl.

(** An alternative that can be empty comes after one that already occupies a
    cell of the rule's FOLLOW set. *)
Definition late_empty (g : grammar) (F : bytes -> option ascii -> Prop) : Prop :=
  exists n s1 s2 b, two_alternatives g n s1 s2 /\ nullable g (seq_form s2) /\
    F n (ahead b) /\ (nullable g (seq_form s1) \/ first g (seq_form s1) b).

(** Errors about the input, as opposed to errors about the table. *)
Definition input_error (e : perror) : Prop :=
  match e with
  | EExpectedChar _ _ | ENoRulesForByte _ _ | EExpectedEnd _ => True
  | _ => False
  end.

(** In [s], non-terminal [m] stands behind a defined non-terminal that derives
    no terminal string at all (not even a prefix of one). *)
Definition shadowed (g : grammar) (s : sequence) (m : bytes) : Prop :=
  exists a B b, s = a ++ SNonTerminal B :: b /\ In (SNonTerminal m) b /\ nullable g (seq_form a) /\
    defined g B /\ ~ nullable g [NT B] /\ forall c, ~ first g [NT B] c.

(** On texts starting with [c]: every rule named in [S] selects first an
    alternative that begins with a non-terminal named in [S] again. *)
Definition loops (g : grammar) (c : ascii) (S : bytes -> Prop) : Prop :=
  S (start g) /\
  forall r, In r g -> S (r_head r) ->
    exists m s l, selected g c (r_tail r) ((SNonTerminal m :: s) :: l) /\ S m.

(** Symbols that are not the empty symbol, not an empty terminal and not of a
    foreign type. *)
Definition plain_symbol (x : symbol) : Prop :=
  match x with
  | STerminal t => t <> []
  | SNonTerminal _ => True
  | SNothing => False
  | SUnknown _ => False
  end.
(** Plain symbols only, or the empty symbol alone. *)
Definition plain_grammar (g : grammar) : Prop :=
  forall n s, alternative g n s -> s = [SNothing] \/ Forall plain_symbol s.
