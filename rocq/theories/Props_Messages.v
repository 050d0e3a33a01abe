(** * Props_Messages: property C85, the texts of errors. *)
From Verif Require Import Base ByteSetProofs Cst Ast Parser TableGen TableGenOutput FromCst Messages Spec_Parse Spec_Messages
  Spec_Convert Spec_Reading MessagesProofs ParserProofs TreeProofs ParseApi ParseApi2 Props_Parser Props_Reading.

(** Numbers are written in decimal notation (so are those in names of unnamed
    rows, "Unknown_7"); a number has one notation and a notation one number. *)
Theorem C85_numbers :
  (forall z text, integer z text <-> text = dec_Z z) /\
  (forall z z' text, integer z text -> integer z' text -> z = z').
Proof.
  split; [|exact integer_inj]. intros z text. split; [|intros ->; apply dec_Z_integer].
  intros H. eapply integer_fun; [exact H|apply dec_Z_integer].
Qed.
Print Assumptions C85_numbers.

(** The message of an error of Parse. *)
Theorem C85_message : forall e text, message e text <-> text = perror_string e.
Proof.
  intros e text. split; [|intros ->; apply message_string].
  intros H. eapply message_fun; [exact H|apply message_string].
Qed.
Print Assumptions C85_message.

(** Two calls of Parse (any parsers, any sources but readers that fail) which
    return errors with the same text return the same error: same kind, same
    bytes, same row name. *)
Theorem C85_parse :
  forall fuel fuel' p p' src src' e e' text,
    (forall r msg, src = SrcReader r -> rd_end r <> Some msg) ->
    (forall r msg, src' = SrcReader r -> rd_end r <> Some msg) ->
    po_result (Parse fuel p src) = Ok (mkRet None None (Some e)) ->
    po_result (Parse fuel' p' src') = Ok (mkRet None None (Some e')) ->
    message e text -> message e' text -> e = e'.
Proof.
  assert (X : forall fuel p src e, (forall r msg, src = SrcReader r -> rd_end r <> Some msg) ->
    po_result (Parse fuel p src) = Ok (mkRet None None (Some e)) -> forall m, e <> EReader m).
  { intros fuel p src e R H m ->. unfold Parse in H. destruct (p_table p) as [|x t] eqn:Et; [discriminate|].
    destruct (table_get 0 (x :: t)); [|discriminate].
    destruct (readSource src) as [[s|q|q|] src'] eqn:Es.
    - clear R Es. revert H.
      enough (Y : forall fuel st, fst (run (x :: t) s (p_names p) fuel st) <> Ok (mkRet None None (Some (EReader m)))).
      { specialize (Y fuel init_state). destruct (run (x :: t) s (p_names p) fuel init_state). cbn in *. congruence. }
      clear. induction fuel as [|fuel IH]; intros st; cbn [run]; [discriminate|].
      destruct (step (x :: t) s (p_names p) st) as [st'|r n|q] eqn:S; [apply IH| |discriminate].
      cbn. intros H. injection H as ->. unfold step in S. destruct (ps_ops st) as [|[n0|v|n0 ps k| |c| |em] ops]; try discriminate.
      + unfold processNonTerminal, processBuiltinNonTerminal, processTableNonTerminal in S.
        unfold ret_err in S. destruct (n0 <? 0)%Z.
        * destruct (n0 =? -2)%Z; [destruct (Ascii.eqb _ LF); [discriminate|destruct (Ascii.eqb _ CR); discriminate]|discriminate].
        * destruct (table_get n0 (x :: t)) as [rw|]; [|discriminate]. destruct (row_get _ rw); discriminate.
      + unfold processFunction in S. destruct (Nat.eqb k 0); [discriminate|].
        destruct (pop_childs (n0 =? builtinTerminal)%Z k (ps_prods st) []) as [[ch pr]| [] | |]; discriminate.
      + unfold processEOS in S. destruct (negb _); [discriminate|]. destruct (ps_prods st); [discriminate|destruct (p_names p); discriminate].
      + unfold processChar in S. destruct (negb _); discriminate.
    - cbn in H. injection H as ->. destruct src as [|u|u|[u|]|[ch [em|]]|]; cbn in Es; try discriminate.
      apply (R _ em eq_refl). reflexivity.
    - discriminate.
    - discriminate. }
  intros fuel fuel' p p' src src' e e' text R R' H H' M M'.
  eapply message_inj; [exact (X _ _ _ _ R H)|exact (X _ _ _ _ R' H')|exact M|exact M'].
Qed.
Print Assumptions C85_parse.

(** The operands in the line FromGrammar prints. *)
Theorem C85_operand : forall op text, operand_text op text <-> text = show_op op.
Proof.
  intros op text. split; [|intros ->; apply operand_shown].
  intros H. eapply operand_text_fun; [exact H|apply operand_shown].
Qed.
Print Assumptions C85_operand.

(** The errors of FromGrammar have these texts, all different. *)
Theorem C85_grammar :
  (forall typename e text, grammar_message typename e text <-> text = tgerror_string typename e) /\
  forall typename typename' e e' text,
    grammar_message typename e text -> grammar_message typename' e' text -> e = e'.
Proof.
  assert (X : forall typename e text, grammar_message typename e text <-> text = tgerror_string typename e).
  { intros u e text. split.
    - intros []; reflexivity.
    - intros ->. destruct e; constructor. }
  split; [exact X|]. intros u u' e e' text M M'. apply X in M, M'. subst text. rename M' into H.
  destruct e, e'; cbn [tgerror_string] in H; try reflexivity; try discriminate.
  apply app_inv_head, app_inv_tail in H. congruence.
Qed.
Print Assumptions C85_grammar.

(** The errors ToAST returns have these texts, all different; it never returns
    one of the errors it uses to end a search. *)
Theorem C85_ast :
  (forall b root str e, ToAST b root str = Err e -> ast_message e (fcerror_string e)) /\
  (forall e text, ast_message e text -> text = fcerror_string e) /\
  (forall e e' text, ast_message e text -> ast_message e' text -> e = e').
Proof.
  assert (In : forall A (R : node -> A -> Prop) F l e, fails_in R F l e -> exists n, In n l /\ F n e).
  { intros A R F l e (l1 & n & l2 & v & -> & _ & H). exists n. split; [apply in_or_app; right; left; reflexivity|exact H]. }
  assert (X : forall b root str e, ToAST b root str = Err e -> forall w, e <> ESearchComplete w).
  { intros b root str e H w ->. apply C55_fails in H.
    apply In in H. destruct H as (r & _ & H). inversion H; subst.
    match goal with F : fails_alternatives _ _ _ _ |- _ => rename F into Hf end.
    apply In in Hf. destruct Hf as (s & _ & Hf). apply In in Hf. destruct Hf as (y & _ & Hf).
    inversion Hf; subst.
    match goal with F : fails_in _ _ _ _ |- _ => apply In in F; rename F into F0 end. rename F0 into F. destruct F as (q & _ & F). inversion F. }
  split; [|split].
  - intros b root str e H. destruct e; try (constructor; fail). exfalso. eapply (X _ _ _ _ H). reflexivity.
  - intros e text []; reflexivity.
  - assert (Y : forall e text, ast_message e text -> text = fcerror_string e) by (intros e text []; reflexivity).
    intros e e' text H H'. pose proof (Y _ _ H) as E. rewrite (Y _ _ H') in E. clear Y.
    destruct H; inversion H'; subst; clear H'; cbn [fcerror_string] in E; try discriminate; try reflexivity;
      apply app_inv_head in E; try apply app_inv_tail in E; congruence.
Qed.
Print Assumptions C85_ast.

Example C85_case :
  message (EExpectedChar "a"%char (b8 200)) (s2b "expected char 'a' (97), got '" ++ [b8 195; b8 136] ++ s2b "' (200)") /\
  message (EUnknownBuiltin (-30)) (s2b "unknown built in type: -30") /\
  integer 1009 (s2b "1009") /\
  po_result (Parse 5 (NewLL1Parser (only 3) (Some [])) (SrcString (s2b "x"))) =
    Ok (mkRet None None (Some (ENoRulesForNonTerminal (s2b "Unknown_3")))) /\
  ToAST SelfCSTtoASTBindings (Node 4 0 2 []) (s2b "ab") = Err (ENoRuleName (s2b "ab")) /\
  fcerror_string (ENoRuleName (s2b "ab")) = s2b "could not find rule name in `ab`".
Proof.
  split; [|split; [|split; [|split; [|split]]]].
  - apply C85_message. reflexivity.
  - apply C85_message. reflexivity.
  - apply C85_numbers. reflexivity.
  - vm_compute. reflexivity.
  - vm_compute. reflexivity.
  - reflexivity.
Qed.
