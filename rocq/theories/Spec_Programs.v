(** * Spec_Programs: what the example programs do, seen from outside. *)
From Verif Require Import Base Cst Ast Parser SelfGrammar TableGen Examples Spec_Parse Spec_Tree Spec_Grammar Spec_Table
  Spec_Bnf Spec_Reading Spec_Override Spec_Outcome Spec_Predict Spec_Messages NulProofs.

(** ** The key listing on any tree

    Nodes of types 9 and 10 (objects and arrays in json.bnf) indent what is below
    them; types over 10 are not looked at; of type 6 (members) the text of the
    first child's second child is printed. *)
Definition indentation (level : nat) : bytes := concat (repeat (s2b "  ") level).
Definition level_below (level : nat) (n : node) : nat :=
  if Z.eq_dec (n_type n) 9 then S level else if Z.eq_dec (n_type n) 10 then S level else level.
Definition key_node (n s : node) : Prop :=
  exists c, nth_error (n_childs n) 0 = Some c /\ nth_error (n_childs c) 1 = Some s.

Inductive own_line (text : bytes) (level : nat) (n : node) : bytes -> Prop :=
| ow_none : n_type n <> 6%Z -> own_line text level n []
| ow_key s : n_type n = 6%Z -> key_node n s ->
    own_line text level n (indentation level ++ text_of text (n_pos s) (n_end s) ++ [LF]).

Inductive lists (text : bytes) : nat -> node -> bytes -> Prop :=
| ls_skip level n : (10 < n_type n)%Z -> lists text level n []
| ls_node level n own below :
    (n_type n <= 10)%Z -> own_line text level n own ->
    lists_all text (level_below level n) (n_childs n) below ->
    lists text level n (own ++ below)
with lists_all (text : bytes) : nat -> list node -> bytes -> Prop :=
| la_none level : lists_all text level [] []
| la_more level n ns first rest :
    lists text level n first -> lists_all text level ns rest ->
    lists_all text level (n :: ns) (first ++ rest).

(** The listing crashes at a node of type 6 without such a child, having printed
    what comes before. *)
Inductive list_crashes (text : bytes) : nat -> node -> bytes -> Prop :=
| lc_here level n :
    n_type n = 6%Z -> (forall s, ~ key_node n s) -> list_crashes text level n []
| lc_below level n own before c after printed part :
    (n_type n <= 10)%Z -> own_line text level n own -> n_childs n = before ++ c :: after ->
    lists_all text (level_below level n) before printed ->
    list_crashes text (level_below level n) c part ->
    list_crashes text level n (own ++ printed ++ part).

(** ** Row names in messages

    The name of the rule, if no later rule has it too; otherwise a number. *)
Inductive label (g g' : grammar) : bytes -> bytes -> Prop :=
| lb_name i n l :
    nth_error (heads g') i = Some n -> nth_error (heads g) i = Some l ->
    (forall j, i < j -> nth_error (heads g) j <> Some l) -> label g g' n l
| lb_number i n l j number :
    nth_error (heads g') i = Some n -> nth_error (heads g) i = Some l ->
    i < j -> nth_error (heads g) j = Some l ->
    integer (Z.of_nat i) number -> label g g' n (s2b "Unknown_" ++ number).

(** ** The JSON program *)

Definition created : bytes := s2b "Created table for JSON parser" ++ [LF].
Definition parsed : bytes := created ++ s2b "Parsed successfully" ++ [LF] ++ s2b "JSON key structure:" ++ [LF].

(** [g]: the rules as written in the grammar file; [g']: only the last
    definition of each name counts. *)
Definition file_grammar (bnf : bytes) (g g' : grammar) : Prop :=
  bnf_text (before_nul bnf) g /\ last_definitions g g'.
Definition faultless (g g' : grammar) : Prop :=
  forall f, ~ first_fault g' f /\ ~ follow_fault g' f /\ ~ cell_fault g' (follow_last g g') f.

Inductive json_does : file -> file -> process -> Prop :=
| jd_no_grammar msg data :
    json_does (Unreadable msg) data
      (Exited [] (s2b "ERROR: can't read JSON BNF text: " ++ msg ++ [LF]) 1)
| jd_no_data bnf msg :
    json_does (Contents bnf) (Unreadable msg)
      (Exited [] (s2b "ERROR: can't read JSON file:  " ++ msg ++ [LF]) 1)
| jd_not_bnf bnf data k e text :
    refused SelfGrammar (follow_code SelfGrammar) eq bnf k e -> message e text ->
    json_does (Contents bnf) (Contents data)
      (Exited [] (s2b "ERROR: can't parse JSON BNF text: " ++ text ++ [LF]) 1)
| jd_refused bnf data g g' e text :
    file_grammar bnf g g' -> outcome_of g' (follow_last g g') (Err e) -> e <> EConflict ->
    grammar_message [] e text ->
    json_does (Contents bnf) (Contents data)
      (Exited [] (s2b "ERROR: can't build parser table from JSON grammar: " ++ text ++ [LF]) 1)
| jd_conflict bnf data g g' ops line text :
    file_grammar bnf g g' -> outcome_of g' (follow_last g g') (Err EConflict) ->
    first_contested g' (follow_last g g') ops -> line_of ops line -> grammar_message [] EConflict text ->
    json_does (Contents bnf) (Contents data)
      (Exited line (s2b "ERROR: can't build parser table from JSON grammar: " ++ text ++ [LF]) 1)
| jd_crash bnf data g g' p :
    file_grammar bnf g g' -> outcome_of g' (follow_last g g') (Panic p) ->
    json_does (Contents bnf) (Contents data) (Crashed [] p)
| jd_not_data bnf data g g' k e text :
    file_grammar bnf g g' -> faultless g g' ->
    refused g' (follow_last g g') (label g g') data k e -> message e text ->
    json_does (Contents bnf) (Contents data)
      (Exited created (s2b "ERROR: can't parse JSON text: " ++ text ++ [LF]) 1)
| jd_listed bnf data g g' t q keys :
    file_grammar bnf g g' -> faultless g g' ->
    predicted g' (follow_last g g') data (SNonTerminal (start g')) 0 t q -> byte_at data q = NUL ->
    lists data 0 t keys ->
    json_does (Contents bnf) (Contents data) (Exited (parsed ++ keys) [] 0)
| jd_list_crash bnf data g g' t q keys :
    file_grammar bnf g g' -> faultless g g' ->
    predicted g' (follow_last g g') data (SNonTerminal (start g')) 0 t q -> byte_at data q = NUL ->
    list_crashes data 0 t keys ->
    json_does (Contents bnf) (Contents data) (Crashed (parsed ++ keys) PanicIndex).

(** It never ends when the parser of the grammar file never gets stuck on the
    data. *)
Definition json_runs_forever (bnfFile dataFile : file) : Prop :=
  exists bnf data g g', bnfFile = Contents bnf /\ dataFile = Contents data /\
    file_grammar bnf g g' /\ faultless g g' /\
    forall c, predicts_star g' (follow_last g g') data (0, [NT (start g')]) c ->
      exists c', predicts g' (follow_last g g') data c c'.
