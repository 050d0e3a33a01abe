(** * Spec_Reading: which grammar a syntax tree describes, by inference rules.

    Nothing here refers to the converter's functions: only to its bindings (the
    roles of the node types) and to the search for outermost nodes (C40). *)
From Verif Require Import Base Cst Ast FromCst Spec_Tree Spec_Convert.

Section Reading.
  Variable b : bindings.
  Variable str : bytes.

  (** The outermost nodes of type [ty] in [n], outside ignored nodes. *)
  Definition found (n : node) (ty : Z) : list node :=
    outermost (fun t => existsb (Z.eqb t) (IgnoreNodeTypes b)) (fun t => Z.eqb t ty) n.
  (** The first of them. *)
  Definition first_found (n : node) (ty : Z) (m : node) : Prop := exists l, found n ty = m :: l.

  (** The text of a node. *)
  Definition has_text (n : node) (s : bytes) : Prop :=
    inside str n /\ s = text_of str (n_pos n) (n_end n).

  (** ** What is read *)

  Definition reads_escape (n : node) (v : bytes) : Prop :=
    exists c s, first_found n (EscapeCharacterType b) c /\ has_text c s /\
      map_get bytes_eqb s (EscapeMapping b) = Some v.
  (** The literals and the escape sequences (nodes of type 16) of a terminal. *)
  Definition parts (n : node) : list node :=
    outermost (fun _ => false) (fun t => (t =? 16)%Z || (t =? -1)%Z) n.
  Definition reads_part (n : node) (v : bytes) : Prop :=
    (n_type n = (-1)%Z /\ has_text n v) \/ (n_type n <> (-1)%Z /\ reads_escape n v).
  Definition reads_terminal (n : node) (v : bytes) : Prop :=
    exists vs, Forall2 reads_part (parts n) vs /\ v = concat vs.

  (** [m] is the first node of the first of the types [l] that occurs in [n]. *)
  Definition first_of (l : list Z) (n m : node) : Prop :=
    exists l1 t l2, l = l1 ++ t :: l2 /\ (forall t', In t' l1 -> found n t' = []) /\ first_found n t m.
  Definition none_of (l : list Z) (n : node) : Prop := forall t, In t l -> found n t = [].

  Inductive reads_symbol (n : node) : symbol -> Prop :=
  | rs_terminal m v :
      first_of (SymbolTerminalTypes b) n m -> reads_terminal m v -> v <> [] ->
      reads_symbol n (STerminal v)
  | rs_nothing m :
      first_of (SymbolTerminalTypes b) n m -> reads_terminal m [] -> reads_symbol n SNothing
  | rs_nonterminal m v :
      none_of (SymbolTerminalTypes b) n -> first_found n (SymbolNonTerminalType b) m ->
      has_text m v -> reads_symbol n (SNonTerminal v).
  Definition reads_sequence (n : node) (s : sequence) : Prop :=
    Forall2 reads_symbol (found n (SequencesSymbolType b)) s.
  Definition reads_alternatives (n : node) (l : substitution) : Prop :=
    Forall2 reads_sequence (found n (ExpressionSequencesType b)) l.
  Definition reads_rule (n : node) (r : rule) : Prop :=
    exists h e, first_found n (RuleHeadType b) h /\ has_text h (r_head r) /\
      first_found n (RuleTailType b) e /\ reads_alternatives e (r_tail r).
  Definition reads_grammar (n : node) (g : grammar) : Prop :=
    Forall2 reads_rule (found n (RuleType b)) g.

  (** ** What is refused *)

  (** The nodes before the failing one can be read. *)
  Definition fails_in {A} (reads : node -> A -> Prop) (fails : node -> fcerror -> Prop)
    (l : list node) (e : fcerror) : Prop :=
    exists l1 n l2 v, l = l1 ++ n :: l2 /\ Forall2 reads l1 v /\ fails n e.

  Inductive fails_part (n : node) : fcerror -> Prop :=
  | fp_no_escape :
      n_type n <> (-1)%Z -> found n (EscapeCharacterType b) = [] -> fails_part n EEscapeNotFound
  | fp_unknown c s :
      n_type n <> (-1)%Z -> first_found n (EscapeCharacterType b) c -> has_text c s ->
      map_get bytes_eqb s (EscapeMapping b) = None -> fails_part n (EUnknownEscape s).
  Inductive fails_symbol (n : node) : fcerror -> Prop :=
  | fs_terminal m e :
      first_of (SymbolTerminalTypes b) n m -> fails_in reads_part fails_part (parts m) e ->
      fails_symbol n e
  | fs_unknown s :
      none_of (SymbolTerminalTypes b) n -> found n (SymbolNonTerminalType b) = [] ->
      has_text n s -> fails_symbol n (ESymbolType s).
  Definition fails_sequence (n : node) : fcerror -> Prop :=
    fails_in reads_symbol fails_symbol (found n (SequencesSymbolType b)).
  Definition fails_alternatives (n : node) : fcerror -> Prop :=
    fails_in reads_sequence fails_sequence (found n (ExpressionSequencesType b)).
  Inductive fails_rule (n : node) : fcerror -> Prop :=
  | fr_no_head s : found n (RuleHeadType b) = [] -> has_text n s -> fails_rule n (ENoRuleName s)
  | fr_no_tail h name s :
      first_found n (RuleHeadType b) h -> has_text h name -> found n (RuleTailType b) = [] ->
      has_text n s -> fails_rule n (ENoRuleSubstitution s)
  | fr_tail h name t e :
      first_found n (RuleHeadType b) h -> has_text h name -> first_found n (RuleTailType b) t ->
      fails_alternatives t e -> fails_rule n e.
  Definition fails_grammar (n : node) : fcerror -> Prop :=
    fails_in reads_rule fails_rule (found n (RuleType b)).
End Reading.
