(** * Props_Json: properties C43 and C47 - C52: the JSON example, texts with NUL
    bytes, and the way from a BNF text to a parser. *)
From Verif Require Import Base Cst Ast Parser SelfGrammar TableGen FromCst ExamplesModel Examples Spec_Parse
  Spec_Tree Spec_Grammar Spec_Table Spec_Bnf Spec_Json GrammarProofs ParseApi TGMain TGCells TGClosed TGParse TGCheck Props_Parser BnfDet
  BnfParser BnfWords BnfTrees Checked Props_TableGen Props_Bnf NulProofs ConvertText NulText JsonParser JsonWords JsonTrees JsonDet.

(** ** C47 *)

(** The text before its first NUL byte: [before_nul]. *)
Theorem C47_before_nul :
  forall text, ~ In NUL (before_nul text) /\
    (text = before_nul text \/ exists rest, text = before_nul text ++ NUL :: rest).
Proof.
  intros text. split; [apply before_nul_free|]. destruct (before_nul_split text) as [H|H]; [|right; exact H].
  left. symmetry. apply before_nul_id, H.
Qed.
Print Assumptions C47_before_nul.

(** Tree, error, names: all as if the source ended at its first NUL byte. *)
Theorem C47_nul_ends_input :
  forall fuel tbl names src text,
    table_public tbl -> table_nulfree tbl -> delivers src text ->
    result fuel tbl names src = result fuel tbl names (SrcString (before_nul text)).
Proof. exact nul_ends_input. Qed.
Print Assumptions C47_nul_ends_input.

Theorem C47_generated :
  forall order fuel0 g tbl names fuel m src text,
    terminals_nulfree g -> FromGrammar_order order fuel0 g = Ok (tbl, names) -> delivers src text ->
    result fuel tbl m src = result fuel tbl m (SrcString (before_nul text)).
Proof. intros. eapply generated_before; eassumption. Qed.
Print Assumptions C47_generated.

(** So the parser of an LL(1) grammar with right FOLLOW sets decides, of every
    source, whether what stands before its first NUL is a word. *)
Lemma decides_any order fuel0 g tbl names m src text :
  decidable_grammar g -> FromGrammar_order order fuel0 g = Ok (tbl, names) -> delivers src text ->
  ((exists fuel t, parses_to fuel tbl (Some m) src t) <-> word g (before_nul text)).
Proof.
  intros D E Hd. rewrite <- (proj2 (decides _ _ _ _ _ m _ _ D E (dl_string (before_nul text))) (before_nul_free text)).
  pose proof (wf_nulfree _ (dg_wf _ D)) as Nf.
  split; intros (fuel & t & H); exists fuel, t; apply (parses_before _ _ _ _ _ Nf E _ _ _ _ _ Hd); exact H.
Qed.

Theorem C47_bnf_parser :
  forall order fuel0 tbl names m src text,
    FromGrammar_order order fuel0 SelfGrammar = Ok (tbl, names) -> delivers src text ->
    ((exists fuel t, parses_to fuel tbl (Some m) src t) <-> word SelfGrammar (before_nul text)).
Proof. intros order fuel0 tbl names m src text. apply decides_any, self_dec. Qed.
Print Assumptions C47_bnf_parser.

(** The BNF pipeline on any text. *)
Theorem C47_bnf_pipeline :
  forall order fuel0 tbl names m src text g,
    FromGrammar_order order fuel0 SelfGrammar = Ok (tbl, names) -> delivers src text ->
    ((exists fuel t, parses_to fuel tbl (Some m) src t /\ ToAST SelfCSTtoASTBindings t text = Ok g) <->
     bnf_text (before_nul text) g).
Proof.
  intros order fuel0 tbl names m src text g E Hd. pose proof (wf_nulfree _ (dg_wf _ self_dec)) as Nf.
  rewrite <- (C35_pipeline order fuel0 tbl names m (SrcString (before_nul text)) _ g E (dl_string _) (before_nul_free _)).
  split; intros (fuel & t & Hp & A); exists fuel, t.
  - assert (Ag := parses_agree _ _ _ _ _ Nf E _ _ _ _ _ Hd Hp).
    apply (parses_before _ _ _ _ _ Nf E _ _ _ _ _ Hd) in Hp. split; [exact Hp|].
    rewrite <- (ToAST_same _ _ _ _ Ag). exact A.
  - apply (parses_before _ _ _ _ _ Nf E _ _ _ _ _ Hd) in Hp. split; [exact Hp|].
    rewrite (ToAST_same _ _ _ _ (parses_agree _ _ _ _ _ Nf E _ _ _ _ _ Hd Hp)). exact A.
Qed.
Print Assumptions C47_bnf_pipeline.

(** Conversion of an accepted text never fails. *)
Theorem C47_conversion_never_fails :
  forall order fuel0 fuel tbl names m src text t,
    FromGrammar_order order fuel0 SelfGrammar = Ok (tbl, names) -> delivers src text ->
    parses_to fuel tbl (Some m) src t ->
    exists g, ToAST SelfCSTtoASTBindings t text = Ok g /\ printable_grammar g.
Proof.
  intros order fuel0 fuel tbl names m src text t E Hd Hp. pose proof (wf_nulfree _ (dg_wf _ self_dec)) as Nf.
  rewrite (ToAST_same _ _ _ _ (parses_agree _ _ _ _ _ Nf E _ _ _ _ _ Hd Hp)).
  apply (parses_before _ _ _ _ _ Nf E _ _ _ _ _ Hd) in Hp.
  eapply C38_never_fails; [exact E|apply dl_string|apply before_nul_free|exact Hp].
Qed.
Print Assumptions C47_conversion_never_fails.

Example C47_case : before_nul (s2b "ab" ++ NUL :: s2b "cd") = s2b "ab".
Proof. reflexivity. Qed.

(** ** C48: the converter looks at the text only through the spans of nodes *)

Theorem C48_only_spans :
  forall b root str str',
    (forall m, subnode m root -> slice str (n_pos m) (n_end m) = slice str' (n_pos m) (n_end m)) ->
    ToAST b root str = ToAST b root str'.
Proof. exact ToAST_same. Qed.
Print Assumptions C48_only_spans.

(** In particular text behind the end of the tree does not matter. *)
Theorem C48_longer_text :
  forall b root str more,
    (forall m, subnode m root -> (n_end m <= Z.of_nat (length str))%Z) ->
    ToAST b root (str ++ more) = ToAST b root str.
Proof. intros b root str more H. apply ToAST_same. intros m Hm. apply slice_prefix, H, Hm. Qed.
Print Assumptions C48_longer_text.

(** ** C49: from a BNF text to a parser *)

(** What a program does with the library: read a grammar text, generate a
    parser, run it. [None]: a step failed. *)
Definition bnf_parser (fuel : nat) (bnf : bytes) : option (table * list (Z * bytes)) :=
  match read_grammar fuel fuel bnf with
  | Some g => match FromGrammar fuel g with Ok x => Some x | _ => None end
  | None => None
  end.

Lemma read_grammar_before fuel0 fuel text g : read_grammar fuel0 fuel text = Some g -> bnf_text (before_nul text) g.
Proof.
  unfold read_grammar. destruct (FromGrammar fuel0 SelfGrammar) as [(tbl, names)| | |] eqn:E; try discriminate.
  destruct (po_result (Parse fuel (NewLL1Parser tbl (Some names)) (SrcString text))) as [[[t|] [[nm|]|] [e|]]| | |] eqn:Ep; try discriminate.
  destruct (ToAST SelfCSTtoASTBindings t text) as [g'| | |] eqn:A; try discriminate.
  intros H. injection H as ->. apply (C47_bnf_pipeline _ _ _ _ names _ _ _ E (dl_string text)).
  exists fuel, t. split; [|exact A]. exists nm. exact Ep.
Qed.

Lemma bnf_read text g : bnf_text (before_nul text) g ->
  exists fuel, forall f0 f, fuel <= f0 -> fuel <= f -> read_grammar f0 f text = Some g.
Proof.
  intros B. destruct (C42_generated (fun l => l)) as (tbl & names & E).
  pose proof (E _ (le_n _)) as E1.
  apply (C47_bnf_pipeline _ _ _ _ names _ _ _ E1 (dl_string text)) in B. destruct B as (fuel & t & (nm & Hp) & A).
  exists (256 * length SelfGrammar + 1 + fuel). intros f0 f Hf0 Hf. unfold read_grammar.
  change (FromGrammar f0 SelfGrammar) with (FromGrammar_order (fun l => l) f0 SelfGrammar).
  rewrite E by (eapply Nat.le_trans; [|exact Hf0]; apply Nat.le_add_r).
  assert (H : result f tbl (Some names) (SrcString text) = Ok (mkRet (Some t) (Some (Some nm)) None)).
  { eapply parses_more; [exact Hp|]. eapply Nat.le_trans; [|exact Hf]. apply Nat.le_add_l. }
  unfold result in H. rewrite H, A. reflexivity.
Qed.

(** Conditions as in C28. The source may contain NUL bytes. *)
Theorem C49_end_to_end :
  forall bnf g,
    bnf_text bnf g -> wf_grammar g -> LL1 g ->
    (forall n x, nullable g [NT n] -> (follow_code g n x <-> follow g n x)) ->
    exists fuel tbl names,
      (forall fuel', fuel <= fuel' -> bnf_parser fuel' bnf = Some (tbl, names)) /\
      forall m src text, delivers src text ->
        (exists fuel', result fuel' tbl (Some m) src <> NoFuel) /\
        ((exists fuel' t, parses_to fuel' tbl (Some m) src t) <-> word g (before_nul text)).
Proof.
  intros bnf g B W L FF. assert (B' := B). rewrite <- (before_nul_id bnf) in B' by (eapply bnf_nulfree, B).
  destruct (bnf_read _ _ B') as (fuel & R).
  destruct (C28_complete (fun l => l) g W L FF) as (tbl & names & E & C).
  exists (256 * length g + 1 + fuel), tbl, names. split.
  - intros fuel' Hf. unfold bnf_parser. rewrite R by lia.
    change (FromGrammar fuel' g) with (FromGrammar_order (fun l => l) fuel' g). rewrite E by lia. reflexivity.
  - pose proof (E _ (le_n _)) as E1. pose proof (wf_nulfree _ W) as Nf.
    intros m src text Hd. split; [eapply C33_terminates; eassumption|]. split.
    + intros (fuel' & t & Hp). apply (parses_before _ _ _ _ _ Nf E1 _ _ _ _ _ Hd) in Hp.
      eapply C27_sound; [exact W|exact (ll1_first _ _ L)|exact E1|apply dl_string|apply before_nul_free|exact Hp].
    + intros Hw. destruct (C m _ _ (dl_string (before_nul text)) Hw) as (fuel' & t & Hp). exists fuel', t.
      apply (parses_before _ _ _ _ _ Nf E1 _ _ _ _ _ Hd). exact Hp.
Qed.
Print Assumptions C49_end_to_end.

(** A parser comes only from a text of the notation. *)
Theorem C49_only_from_bnf :
  forall fuel bnf tbl names, bnf_parser fuel bnf = Some (tbl, names) ->
    exists g, bnf_text (before_nul bnf) g /\ FromGrammar fuel g = Ok (tbl, names).
Proof.
  intros fuel bnf tbl names. unfold bnf_parser. destruct (read_grammar fuel fuel bnf) as [g|] eqn:R; [|discriminate].
  destruct (FromGrammar fuel g) as [x| | |] eqn:E; try discriminate. intros H. injection H as ->.
  exists g. split; [eapply read_grammar_before, R|exact E].
Qed.
Print Assumptions C49_only_from_bnf.

(** ** C43 *)

(** The file json.bnf is a text of the notation, of grammar [JsonGrammar]. *)
Theorem C43_read : bnf_text json_bnf JsonGrammar.
Proof. exact json_bnf_text. Qed.
Print Assumptions C43_read.

Theorem C43_ll1 : wf_grammar JsonGrammar /\ LL1 JsonGrammar.
Proof. exact (dec_LL1 _ json_dec). Qed.
Print Assumptions C43_ll1.

Theorem C43_generated :
  forall order, exists tbl names, forall fuel, 256 * length JsonGrammar + 1 <= fuel ->
    FromGrammar_order order fuel JsonGrammar = Ok (tbl, names).
Proof. exact (passes_generated _ _ json_passes). Qed.
Print Assumptions C43_generated.

Theorem C43_decides :
  forall order fuel0 tbl names m src text,
    FromGrammar_order order fuel0 JsonGrammar = Ok (tbl, names) -> delivers src text ->
    (exists fuel, result fuel tbl (Some m) src <> NoFuel) /\
    ((exists fuel t, parses_to fuel tbl (Some m) src t) <-> word JsonGrammar (before_nul text)).
Proof.
  intros order fuel0 tbl names m src text E Hd. split.
  - eapply decides; [exact json_dec|exact E|exact Hd].
  - eapply decides_any; [exact json_dec|exact E|exact Hd].
Qed.
Print Assumptions C43_decides.

(** ** C50: the JSON parser accepts JSON *)

Lemma json_word text : ~ In NUL text -> (word JsonGrammar text <-> exists v, json_text text v).
Proof.
  intros Hn. split.
  - intros W. destruct (passes_tree _ _ _ json_passes Hn W) as (t & T).
    destruct (json_tree _ _ T) as (v & J & _). exists v. exact J.
  - intros (v & J). split; [discriminate|]. apply gen_yields, json_gen with (v := v), J.
Qed.

Theorem C50_accepts_json :
  forall order fuel0 tbl names m src text,
    FromGrammar_order order fuel0 JsonGrammar = Ok (tbl, names) -> delivers src text ->
    ((exists fuel t, parses_to fuel tbl (Some m) src t) <-> exists v, json_text (before_nul text) v).
Proof.
  intros order fuel0 tbl names m src text E Hd. rewrite <- json_word by apply before_nul_free.
  eapply C43_decides; eassumption.
Qed.
Print Assumptions C50_accepts_json.

(** A text is written in one way only. *)
Theorem C50_unambiguous : forall text v v', json_text text v -> json_text text v' -> v = v'.
Proof. exact json_text_det. Qed.
Print Assumptions C50_unambiguous.

(** ** C51: the key listing *)

Theorem C51_key_listing :
  forall order fuel0 fuel tbl names m src text t,
    FromGrammar_order order fuel0 JsonGrammar = Ok (tbl, names) -> delivers src text ->
    parses_to fuel tbl (Some m) src t ->
    exists v, json_text (before_nul text) v /\ printKeys text t = Ok (key_lines 0 v).
Proof.
  intros order fuel0 fuel tbl names m src text t E Hd Hp. pose proof (wf_nulfree _ (dg_wf _ json_dec)) as Nf.
  rewrite (printKeys_same _ _ _ (parses_agree _ _ _ _ _ Nf E _ _ _ _ _ Hd Hp)).
  apply (parses_before _ _ _ _ _ Nf E _ _ _ _ _ Hd) in Hp. apply json_tree.
  eapply dec_tree; [exact json_dec|exact E|apply dl_string|apply before_nul_free|exact Hp].
Qed.
Print Assumptions C51_key_listing.

(** What the parser of a good grammar does, once and for all. *)
Lemma outcome tbl names text : table_public tbl ->
  (exists fuel, result fuel tbl (Some names) (SrcString text) <> NoFuel) ->
  exists fuel, forall f, fuel <= f ->
    (exists t, parses_to f tbl (Some names) (SrcString text) t) \/
    (exists e, result f tbl (Some names) (SrcString text) = Ok (mkRet None None (Some e)) /\
       forall f' t, ~ parses_to f' tbl (Some names) (SrcString text) t).
Proof.
  intros Pu (fuel & H). exists fuel. intros f Hf.
  assert (R : result f tbl (Some names) (SrcString text) = result fuel tbl (Some names) (SrcString text)).
  { unfold result. rewrite (result_mono fuel f); [reflexivity|exact H|exact Hf]. }
  destruct (result fuel tbl (Some names) (SrcString text)) as [r|e|q|] eqn:E.
  - destruct (C08_return_contract _ _ _ _ _ E) as [(t & nm & ->)|(e & ->)].
    + left. exists t, nm. exact R.
    + right. exists e. split; [exact R|]. intros f' t (nm & Hp).
      assert (X : result (f + f') tbl (Some names) (SrcString text) = Ok (mkRet None None (Some e)))
        by (eapply parses_more; [exact R|apply Nat.le_add_r]).
      assert (Y : result (f + f') tbl (Some names) (SrcString text) = Ok (mkRet (Some t) (Some (Some nm)) None))
        by (eapply parses_more; [exact Hp|apply Nat.le_add_l]).
      congruence.
  - destruct e.
  - exfalso. eapply C07_parse_never_panics; [exact Pu|exact E].
  - contradiction.
Qed.

(** ** C52: see Props_Programs.v *)

(** A text with nested keys. *)
Definition json_sample : bytes := s2b "{ ""a"": [1, {""b"":null}], ""c"" : ""x\n"" }" ++ [LF].
Definition json_sample_value : jvalue :=
  JObject [(s2b "a", JArray [JNumber (s2b "1"); JObject [(s2b "b", JNull)]]); (s2b "c", JString (s2b "x\n"))].
Lemma key_body c : is_printable c = true -> c <> DQ -> c <> BSL -> string_body [c].
Proof. intros. apply sb_plain; try assumption. constructor. Qed.
Lemma one_space : spaces (s2b " ").
Proof. apply sp_space. constructor. Qed.
Example C52_case : json_text json_sample json_sample_value /\
  key_lines 0 json_sample_value = s2b "  a" ++ [LF] ++ s2b "      b" ++ [LF] ++ s2b "  c" ++ [LF].
Proof.
  split; [|reflexivity]. unfold json_sample.
  apply (js [] (s2b "{ ""a"": [1, {""b"":null}], ""c"" : ""x\n"" }") _ [LF]); [constructor| |apply sp_lf; constructor].
  apply (vt_object (s2b " ") (s2b """a"": [1, {""b"":null}], ""c"" : ""x\n"" ")); [apply one_space|].
  apply (me_more (s2b """a"": [1, {""b"":null}]") (s2b "a") _ [] (s2b " ") (s2b """c"" : ""x\n"" ")); [|constructor|apply one_space|].
  - apply (mb (s2b "a") [] (s2b " ") (s2b "[1, {""b"":null}]")); [apply key_body; [reflexivity|discriminate|discriminate]|constructor|apply one_space|].
    apply (vt_array (s2b "1, {""b"":null}")).
    apply (el_more [] (s2b "1") _ [] (s2b " {""b"":null}")); [constructor| |constructor|].
    + apply vt_number. exists [], (s2b "1"), [], []. split; [reflexivity|]. split; [left; reflexivity|].
      split; [|split; left; reflexivity]. right. exists "1"%char, []. split; [reflexivity|]. split; [reflexivity|].
      split; [discriminate|constructor].
    + apply (el_last (s2b " ") (s2b "{""b"":null}") _ []); [apply one_space| |constructor].
      apply (vt_object [] (s2b """b"":null")); [constructor|].
      apply (me_last (s2b """b"":null") _ _ []); [|constructor].
      apply (mb (s2b "b") [] [] (s2b "null")); [apply key_body; [reflexivity|discriminate|discriminate]|constructor|constructor|constructor].
  - apply (me_last (s2b """c"" : ""x\n""") (s2b "c") _ (s2b " ")); [|apply one_space].
    apply (mb (s2b "c") (s2b " ") (s2b " ") (s2b """x\n""")); [apply key_body; [reflexivity|discriminate|discriminate]|apply one_space|apply one_space|].
    apply (vt_string (s2b "x\n")). apply sb_plain; [reflexivity|discriminate|discriminate|].
    apply (sb_escape "n"%char []); [vm_compute; tauto|constructor].
Qed.

(** Where the dialect differs from JSON: refused although JSON, and accepted
    although not JSON. *)
Lemma elements_not_space l : ~ elements_text (s2b " ") l.
Proof.
  intros H. inversion H as [w t v w' Hw Hv Hw' E|w t v w' rest l' Hw Hv Hw' Hl E];
    destruct (value_head _ _ Hv) as (c & t' & -> & Hc); destruct w as [|x w]; cbn in E; injection E as E1 E2.
  - subst c. discriminate Hc.
  - destruct w; discriminate E2.
  - subst c. discriminate Hc.
  - destruct w; discriminate E2.
Qed.
Lemma bad_start c rest v : spchar c = false -> vhead c = false -> ~ json_text (c :: rest) v.
Proof.
  intros H1 H2 H. inversion H as [w t v' w' Hw Hv Hw' E]. subst v'. destruct w as [|x w].
  - destruct (value_head _ _ Hv) as (d & t' & -> & Hd). cbn in E. injection E as -> _. congruence.
  - cbn in E. injection E as -> _. inversion Hw; subst; discriminate H1.
Qed.
Theorem C50_refuted_standard_json :
  (forall v, ~ json_text (s2b "[ ]") v) /\
  (forall v, ~ json_text (TAB :: s2b "1") v) /\
  json_text (DQ :: s2b "\u00e" ++ [DQ]) (JString (s2b "\u00e")).
Proof.
  split; [|split].
  - intros v H. inversion H as [w t v' w' Hw Hv Hw' E]. subst v'. clear H. destruct w as [|x w].
    2: { cbn in E. injection E as -> _. inversion Hw. }
    cbn [app] in E. inversion Hv as [u Hu|u m l Hu Hm| |m l Hm|u Hu|u Hu| | |]; subst; try discriminate E.
    + cbn in E. injection E as E. destruct (elements_head _ _ Hm) as (c & m' & -> & Hc). cbn in E. injection E as -> E.
      destruct m' as [|y m']; [exact (elements_not_space _ Hm)|]. cbn in E. injection E as -> E. destruct m'; discriminate E.
    + destruct (number_chars _ Hu) as (Hn & c & t' & ->). cbn in E. injection E as -> _. inversion Hn as [|? ? P _]. discriminate P.
  - intros v. apply bad_start; reflexivity.
  - apply (js [] (DQ :: s2b "\u00e" ++ [DQ]) _ []); [constructor| |constructor].
    apply (vt_string (s2b "\u00e")). apply (sb_unicode "0"%char "0"%char "e"%char []); try reflexivity. constructor.
Qed.
Print Assumptions C50_refuted_standard_json.
