(** * Props_ConvertTime: property C94, ToAST takes linear time. *)
From Verif Require Import Base Cst Ast Parser SelfGrammar TableGen FromCst FromCstTime Spec_Parse Spec_Grammar Spec_Table Spec_Time
  Spec_Size GrammarProofs ParseApi TGMain Props_Size ConvertTime Props_Bnf Props_Convert.

(** The counting converter is the converter. *)
Theorem C94_same_result :
  forall b root str, snd (ToAST_timed b root str) = ToAST b root str.
Proof. exact timed_result. Qed.
Print Assumptions C94_same_result.

(** Whatever the tree, the text and the bindings: ToAST, with all the searches
    inside searches it is made of, visits each node at most as often as there
    are types of terminals in the bindings, plus eight times. *)
Theorem C94_visits :
  forall b root str,
    fst (ToAST_timed b root str) <= (length (SymbolTerminalTypes b) + 8) * nodes root.
Proof. exact timed_visits. Qed.
Print Assumptions C94_visits.

(** So reading a BNF text takes time linear in its length: the parse loop
    (C54), the tree (C70) and the conversion. *)
Theorem C94_reading_bnf :
  forall order fuel0 tbl names m src text fuel t,
    FromGrammar_order order fuel0 SelfGrammar = Ok (tbl, names) -> delivers src text ->
    parses_to fuel tbl (Some m) src t ->
    parses_to (3 + 494 * length text) tbl (Some m) src t /\
    fst (ToAST_timed SelfCSTtoASTBindings t text) <= 10 * (4 + 2 * (494 * length text)).
Proof.
  intros order fuel0 tbl names m src text fuel t E Hd Hp. destruct C42_ll1 as (W & L).
  assert (G : length SelfGrammar * largest_alternative SelfGrammar = 494) by (vm_compute; reflexivity).
  split.
  - pose proof (Props_Trees.C54_linear order fuel0 SelfGrammar tbl names (Some m) src text W L E Hd) as Nf.
    rewrite G in Nf. destruct Hp as (nm & Hp). exists nm. unfold result in *.
    destruct (Nat.le_ge_cases fuel (3 + 494 * length text)) as [Le|Le].
    + rewrite (result_mono fuel (3 + 494 * length text)); [exact Hp|unfold result; rewrite Hp; discriminate|exact Le].
    + pose proof (result_mono (3 + 494 * length text) fuel tbl (Some m) src Nf Le) as Y. unfold result in Y. rewrite <- Y. exact Hp.
  - destruct (C70_linear _ _ _ _ _ _ _ _ _ _ W L E Hd Hp) as (_ & N). rewrite G in N.
    etransitivity; [apply C94_visits|]. change (length (SymbolTerminalTypes SelfCSTtoASTBindings)) with 2. lia.
Qed.
Print Assumptions C94_reading_bnf.

(** A tree of ten nodes with an escape sequence is converted with 18 visits. *)
Example C94_case :
  ToAST_timed renumbered (escape_tree 16) (s2b "a\n") = (18, Ok [mkRule (s2b "a") [[STerminal [LF]]]]) /\
  nodes (escape_tree 16) = 10.
Proof. vm_compute. auto. Qed.
