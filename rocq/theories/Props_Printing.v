(** * Props_Printing: C89 what a printed grammar reads as. *)
From Verif Require Import Base Cst Ast Parser SelfGrammar TableGen FromCst Spec_Parse Spec_Bnf Spec_Printing
  ParseApi BnfPrint BnfDet NulProofs PrintProofs Props_Bnf Props_Json.

(** Printing a grammar and reading the text with the BNF parser, for all
    grammars whose names have no closing bracket: the text is refused, or it
    reads as the printed grammar, with the empty symbol where an empty terminal
    was. It reads as nothing else, whatever bytes the terminals contain. *)
Theorem C89_no_injection :
  forall order fuel0 tbl names m g h,
    FromGrammar_order order fuel0 SelfGrammar = Ok (tbl, names) -> closed_names g ->
    ((exists fuel t, parses_to fuel tbl (Some m) (SrcString (grammar_string g)) t /\
        ToAST SelfCSTtoASTBindings t (grammar_string g) = Ok h) <->
     printable_grammar (nothing_for_empty g) /\ h = nothing_for_empty g).
Proof.
  intros order fuel0 tbl names m g h E C.
  rewrite (C47_bnf_pipeline order fuel0 tbl names m (SrcString (grammar_string g)) (grammar_string g) h E (dl_string _)).
  split.
  - intros B. assert (HZ : exists Z, grammar_string g = before_nul (grammar_string g) ++ Z /\ (Z = [] \/ exists r, Z = NUL :: r)).
    { destruct (before_nul_split (grammar_string g)) as [N|(rest & Es)].
      - exists []. rewrite before_nul_id, app_nil_r by exact N. auto.
      - exists (NUL :: rest). split; [exact Es|]. right. exists rest. reflexivity. }
    destruct HZ as (Z & Es & HZ).
    destruct (grammar_read g _ h Z (closed_ok g C) B HZ Es) as (-> & _).
    split; [eapply bnf_text_printable, B|reflexivity].
  - intros (P & ->). apply grammar_printed in P. rewrite fill_grammar_string in P.
    rewrite before_nul_id; [exact P|]. eapply bnf_nulfree, P.
Qed.
Print Assumptions C89_no_injection.

(** A grammar (with any names and symbols) reads back as itself exactly when it
    is printable. *)
Theorem C89_round_trip_exactly :
  forall order fuel0 tbl names m g,
    FromGrammar_order order fuel0 SelfGrammar = Ok (tbl, names) ->
    ((exists fuel t, parses_to fuel tbl (Some m) (SrcString (grammar_string g)) t /\
        ToAST SelfCSTtoASTBindings t (grammar_string g) = Ok g) <-> printable_grammar g).
Proof.
  intros order fuel0 tbl names m g E.
  rewrite (C47_bnf_pipeline order fuel0 tbl names m (SrcString (grammar_string g)) (grammar_string g) g E (dl_string _)).
  split; [apply bnf_text_printable|]. intros P. apply grammar_printed in P.
  rewrite before_nul_id; [exact P|]. eapply bnf_nulfree, P.
Qed.
Print Assumptions C89_round_trip_exactly.

(** Exactly which grammars have the same text. *)
Theorem C89_same_text :
  forall g g', closed_names g -> closed_names g' -> (grammar_string g = grammar_string g' <-> alike g g').
Proof.
  intros g g' C C'. split; [|apply alike_string]. apply grammar_lex; apply closed_ok; assumption.
Qed.
Print Assumptions C89_same_text.

(** Names are not protected: with a closing bracket in a name the text can read
    as another grammar, with further alternatives and rules. *)
Definition nested_name : grammar :=
  [mkRule (s2b "a") [[SNonTerminal (s2b "b> | <c")]]; mkRule (s2b "b> ::= 'x'" ++ LF :: s2b "<c") [[STerminal (s2b "y")]]].
Definition read_instead : grammar :=
  [mkRule (s2b "a") [[SNonTerminal (s2b "b")]; [SNonTerminal (s2b "c")]];
   mkRule (s2b "b") [[STerminal (s2b "x")]]; mkRule (s2b "c") [[STerminal (s2b "y")]]].
Lemma same_texts : grammar_string nested_name = s2b "<a> ::= <b> | <c>" ++ LF :: s2b "<b> ::= 'x'" ++ LF :: s2b "<c> ::= " ++ [DQ; "y"%char; DQ].
Proof. reflexivity. Qed.
Lemma read_instead_text : bnf_text (grammar_string nested_name) read_instead.
Proof.
  rewrite same_texts. apply (bt [] (s2b "<a> ::= <b> | <c>") _ (LF :: s2b "<b> ::= 'x'" ++ LF :: s2b "<c> ::= " ++ [DQ; "y"%char; DQ])).
  - constructor.
  - apply (rl (s2b "a") (s2b " ") (s2b " ") (s2b "<b> | <c>")).
    + exists "a"%char, []. repeat split; constructor.
    + repeat constructor.
    + repeat constructor.
    + apply (al_more (s2b "<b> ") _ (s2b " ") (s2b "<c>")).
      * apply (sq_last (s2b "<b>") (s2b " ")); [|repeat constructor].
        apply (sy_nonterminal (s2b "b")). exists "b"%char, []. repeat split; constructor.
      * repeat constructor.
      * apply al_last. apply (sq_last (s2b "<c>") []); [|constructor].
        apply (sy_nonterminal (s2b "c")). exists "c"%char, []. repeat split; constructor.
  - apply (li_rule [LF] [] (s2b "<b> ::= 'x'") _ (LF :: s2b "<c> ::= " ++ [DQ; "y"%char; DQ])); [constructor|constructor| |].
    + apply (rl (s2b "b") (s2b " ") (s2b " ") (s2b "'x'")); [exists "b"%char, []; repeat split; constructor|repeat constructor|repeat constructor|].
      apply al_last. apply (sq_last (s2b "'x'") []); [|constructor].
      apply (sy_terminal SQ (s2b "x")); [right; reflexivity| |discriminate].
      apply qu_plain; [reflexivity|discriminate|discriminate|constructor].
    + apply (li_rule [LF] [] (s2b "<c> ::= " ++ [DQ; "y"%char; DQ]) _ []); [constructor|constructor| |constructor].
      apply (rl (s2b "c") (s2b " ") (s2b " ") [DQ; "y"%char; DQ]); [exists "c"%char, []; repeat split; constructor|repeat constructor|repeat constructor|].
      apply al_last. apply (sq_last [DQ; "y"%char; DQ] []); [|constructor].
      apply (sy_terminal DQ (s2b "y")); [left; reflexivity| |discriminate].
      apply qu_plain; [reflexivity|discriminate|discriminate|constructor].
Qed.
Theorem C89_refuted_names :
  forall order fuel0 tbl names m,
    FromGrammar_order order fuel0 SelfGrammar = Ok (tbl, names) ->
    exists g h fuel t, h <> nothing_for_empty g /\ length h <> length g /\
      parses_to fuel tbl (Some m) (SrcString (grammar_string g)) t /\
      ToAST SelfCSTtoASTBindings t (grammar_string g) = Ok h.
Proof.
  intros order fuel0 tbl names m E. exists nested_name, read_instead.
  pose proof read_instead_text as B.
  destruct (proj2 (C47_bnf_pipeline order fuel0 tbl names m (SrcString (grammar_string nested_name)) _ read_instead E (dl_string _))) as (fuel & t & H).
  { rewrite before_nul_id; [exact B|]. eapply bnf_nulfree, B. }
  exists fuel, t. split; [discriminate|]. split; [discriminate|]. exact H.
Qed.
Print Assumptions C89_refuted_names.

(** Terminals full of notation, quotes and line breaks, an empty terminal: the
    hypothesis holds, the text reads as the grammar with the empty symbol. With
    a byte 200 or 0 in a terminal the text is refused. *)
Definition nasty : grammar :=
  [mkRule (s2b "a") [[STerminal (s2b "' | <b> ::= " ++ [DQ; LF; BSL]); STerminal []]; [SNonTerminal (s2b "a"); STerminal [SQ]]]].
Definition unreadable (c : ascii) : grammar := [mkRule (s2b "a") [[STerminal (s2b "x"); STerminal ["y"%char; c]]]].
Example C89_case :
  closed_names nasty /\ printable_grammar (nothing_for_empty nasty) /\ nothing_for_empty nasty <> nasty /\
  (forall c, closed_names (unreadable c)) /\
  ~ printable_grammar (nothing_for_empty (unreadable NUL)) /\ ~ printable_grammar (nothing_for_empty (unreadable (b8 200))).
Proof.
  split.
  { split.
    - intros s (r & seq & [<-|[]] & Hs & Hi). cbn in Hs.
      destruct Hs as [<-|[<-|[]]]; cbn in Hi; repeat (destruct Hi as [<-|Hi]; [exact I|]); destruct Hi.
    - intros n [(r & [<-|[]] & ->)|(r & seq & [<-|[]] & Hs & Hi)]; cbn in *.
      + intuition discriminate.
      + destruct Hs as [<-|[<-|[]]]; cbn in Hi.
        * destruct Hi as [Hi|[Hi|[]]]; discriminate Hi.
        * destruct Hi as [Hi|[Hi|[]]]; [|discriminate Hi]. injection Hi as <-. cbn. intuition discriminate. }
  split.
  { split; [discriminate|]. constructor; [|constructor]. split; [exists "a"%char, []; repeat split; constructor|].
    split; [discriminate|]. cbn [r_tail map nothing_for_empty_symbol].
    constructor; [|constructor; [|constructor]]; (split; [discriminate|]).
    - constructor; [|constructor; [exact I|constructor]]. split; [discriminate|].
      apply Forall_forall. apply forallb_forall. vm_compute. reflexivity.
    - constructor; [exists "a"%char, []; repeat split; constructor|]. constructor; [|constructor].
      split; [discriminate|]. repeat constructor. }
  split; [discriminate|]. split.
  { intros c. split.
    - intros s (r & seq & [<-|[]] & Hs & Hi). cbn in Hs. destruct Hs as [<-|[]]. cbn in Hi.
      repeat (destruct Hi as [<-|Hi]; [exact I|]); destruct Hi.
    - intros n [(r & [<-|[]] & ->)|(r & seq & [<-|[]] & Hs & Hi)]; cbn in *.
      + intuition discriminate.
      + destruct Hs as [<-|[]]. cbn in Hi. destruct Hi as [Hi|[Hi|[]]]; discriminate Hi. }
  assert (X : forall c, writable_byte c = false -> ~ printable_grammar (nothing_for_empty (unreadable c))).
  { intros c W (_ & P). apply Forall_inv in P. destruct P as (_ & _ & Q). cbn in Q. apply Forall_inv in Q.
    destruct Q as (_ & S). cbn in S. apply Forall_inv_tail, Forall_inv in S. destruct S as (_ & A).
    apply Forall_inv_tail, Forall_inv in A. congruence. }
  split; apply X; reflexivity.
Qed.
