(** * Spec_Outcome: what can be wrong with a grammar.

    Three lists of faults, in the order in which FromGrammar looks for them,
    each with what FromGrammar does about it.  Any grammar may be given: nothing
    here assumes that names are defined, that terminals are not empty, or that
    the empty symbol stands alone. *)
From Verif Require Import Base Ast Parser TableGen Spec_Grammar Spec_Table.

(** An error is returned, or the call panics. *)
Inductive fault : Type := Refused (e : tgerror) | Panicked (p : gopanic).
Definition fault_result {A} (f : fault) : tgres A :=
  match f with Refused e => Err e | Panicked p => Panic p end.

(** The beginning of alternatives: [x] stands first in an alternative, or behind
    non-terminals only, all of which can be empty. *)
Definition leads (g : grammar) (names : list bytes) (x : symbol) (rest : sequence) : Prop :=
  (exists n, alternative g n (map SNonTerminal names ++ x :: rest)) /\ nullable g (map NT names).

Inductive first_fault (g : grammar) : fault -> Prop :=
| ff_undefined names m rest :
    leads g names (SNonTerminal m) rest -> ~ defined g m ->
    first_fault g (Refused (ENoRulesDefined m))
| ff_empty_terminal names rest :
    leads g names (STerminal []) rest -> first_fault g (Panicked PanicIndex)
| ff_nothing names rest :
    leads g names SNothing rest -> (names <> [] \/ rest <> []) ->
    first_fault g (Refused ENothingNotSingle)
| ff_unknown names str rest :
    leads g names (SUnknown str) rest -> first_fault g (Panicked PanicUnknownSymbol).

(** Neighbours of defined non-terminals, empty alternatives, the empty grammar. *)
Definition neighbours (g : grammar) (B : bytes) (x : symbol) : Prop :=
  defined g B /\ exists n a b, alternative g n (a ++ SNonTerminal B :: x :: b).

Inductive follow_fault (g : grammar) : fault -> Prop :=
| fo_no_rules : g = [] -> follow_fault g (Panicked PanicIndex)
| fo_empty_sequence n : alternative g n [] -> follow_fault g (Refused EEmptySequence)
| fo_undefined B m :
    neighbours g B (SNonTerminal m) -> ~ defined g m -> follow_fault g (Refused (ENoRulesDefined m))
| fo_empty_terminal B :
    neighbours g B (STerminal []) -> follow_fault g (Refused EEmptyTerminal)
| fo_unknown B str :
    neighbours g B (SUnknown str) -> follow_fault g (Refused EUnknownSymbol).

(** Alternatives that get into the table: [x] is the first symbol without
    operand in an alternative that can start with some byte. *)
Definition without_operand (g : grammar) (x : symbol) : Prop :=
  match x with STerminal _ => False | SNonTerminal m => ~ defined g m | _ => True end.
Definition selectable (g : grammar) (x : symbol) : Prop :=
  exists n a b c, alternative g n (a ++ x :: b) /\ first g (seq_form (a ++ x :: b)) c /\
    Forall (fun y => ~ without_operand g y) a.

Inductive cell_fault (g : grammar) (F : bytes -> option ascii -> Prop) : fault -> Prop :=
| cf_conflict : late_empty g F -> cell_fault g F (Refused EConflict)
| cf_undefined m :
    selectable g (SNonTerminal m) -> ~ defined g m -> cell_fault g F (Refused (ENoRulesDefined m))
| cf_nothing : selectable g SNothing -> cell_fault g F (Panicked PanicNothingInSequence)
| cf_unknown str : selectable g (SUnknown str) -> cell_fault g F (Panicked PanicUnknownSymbol).

(** What FromGrammar does: the FIRST sets come first, then the FOLLOW sets
    ([F]), then the cells; a fault of an earlier kind is reported before one of
    a later kind; without faults the table is returned. *)
Inductive outcome_of (g : grammar) (F : bytes -> option ascii -> Prop)
  : tgres (table * list (Z * bytes)) -> Prop :=
| oc_first f : first_fault g f -> outcome_of g F (fault_result f)
| oc_follow f :
    (forall f, ~ first_fault g f) -> follow_fault g f -> outcome_of g F (fault_result f)
| oc_cell f :
    (forall f, ~ first_fault g f) -> (forall f, ~ follow_fault g f) ->
    cell_fault g F f -> outcome_of g F (fault_result f)
| oc_table tbl names :
    (forall f, ~ first_fault g f) -> (forall f, ~ follow_fault g f) ->
    (forall f, ~ cell_fault g F f) -> table_spec_wrt F g tbl ->
    outcome_of g F (Ok (tbl, names)).

(** ** Contested cells

    In rule [r], the alternative [s], which can be empty, comes behind
    [before], and the cell of byte [b] (the byte 0: of the end) of its FOLLOW
    set is already occupied by one of those. *)
Definition contested (g : grammar) (F : bytes -> option ascii -> Prop) (r : rule)
  (before : list sequence) (s : sequence) (b : ascii) : Prop :=
  nullable g (seq_form s) /\ F (r_head r) (ahead b) /\
  exists s1, In s1 before /\ (nullable g (seq_form s1) \/ first g (seq_form s1) b).

(** [ops] are the operands in the first contested cell: first by rule, then by
    alternative, then by byte. *)
Definition first_contested (g : grammar) (F : bytes -> option ascii -> Prop) (ops : list ParserOp) : Prop :=
  exists i r before s after b,
    nth_error g i = Some r /\ r_tail r = before ++ s :: after /\ contested g F r before s b /\
    cell_spec g F (mkRule (r_head r) before) b (Some ops) /\
    (forall b', (code b' < code b)%N -> ~ contested g F r before s b') /\
    (forall before' s' after' b', before = before' ++ s' :: after' -> ~ contested g F r before' s' b') /\
    (forall j r' before' s' after' b', j < i -> nth_error g j = Some r' ->
       r_tail r' = before' ++ s' :: after' -> ~ contested g F r' before' s' b').
