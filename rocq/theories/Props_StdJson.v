(** * Props_StdJson: property C93: the JSON example on standard JSON. *)
From Verif Require Import Base Cst Ast Parser SelfGrammar TableGen FromCst ExamplesModel Examples Spec_Parse
  Spec_Tree Spec_Grammar Spec_Table Spec_Bnf Spec_Json Spec_StdJson ParseApi NulProofs JsonParser JsonDet StdJson Props_Json.
(** A standard JSON text is accepted exactly if it consists of printable ASCII
    and of line ends, and writes its empty arrays without white space. *)
Theorem C93_standard_accepted :
  forall order fuel0 tbl names m src text v gaps,
    FromGrammar_order order fuel0 JsonGrammar = Ok (tbl, names) -> delivers src text ->
    std_text text v gaps ->
    ((exists fuel t, parses_to fuel tbl (Some m) src t) <->
     plain_ascii text /\ forall gap, In gap gaps -> gap = []).
Proof.
  intros order fuel0 tbl names m src text v gaps E Hd H.
  rewrite (C50_accepts_json _ _ _ _ m _ _ E Hd), (before_nul_id text) by (eapply std_nul; exact H).
  assert (G : no_gaps gaps <-> forall gap, In gap gaps -> gap = []).
  { unfold no_gaps. rewrite Forall_forall. split; intros X x Hx; symmetry; apply X, Hx. }
  rewrite <- G. split.
  - intros (v' & H'). apply (std_accepted _ _ _ H v') in H'. apply H'.
  - intros P. exists v. apply (std_accepted _ _ _ H v). split; [reflexivity|exact P].
Qed.
Print Assumptions C93_standard_accepted.

(** And then it is read as what it means: the keys of the standard reading are listed. *)
Theorem C93_standard_keys :
  forall order fuel0 fuel tbl names m src text v gaps t,
    FromGrammar_order order fuel0 JsonGrammar = Ok (tbl, names) -> delivers src text ->
    std_text text v gaps -> parses_to fuel tbl (Some m) src t ->
    printKeys text t = Ok (key_lines 0 v).
Proof.
  intros order fuel0 fuel tbl names m src text v gaps t E Hd H Hp.
  destruct (C51_key_listing _ _ _ _ _ _ _ _ _ E Hd Hp) as (v' & H' & K).
  rewrite (before_nul_id text) in H' by (eapply std_nul; exact H).
  apply (std_accepted _ _ _ H v') in H'. destruct H' as (-> & _). exact K.
Qed.
Print Assumptions C93_standard_keys.

(** A standard text has only one reading, if it is one the example accepts. *)
Theorem C93_one_reading :
  forall order fuel0 fuel tbl names m src text v gaps v' gaps' t,
    FromGrammar_order order fuel0 JsonGrammar = Ok (tbl, names) -> delivers src text ->
    parses_to fuel tbl (Some m) src t ->
    std_text text v gaps -> std_text text v' gaps' -> v = v'.
Proof.
  intros order fuel0 fuel tbl names m src text v gaps v' gaps' t E Hd Hp H H'.
  destruct (C51_key_listing _ _ _ _ _ _ _ _ _ E Hd Hp) as (x & Hx & _).
  rewrite (before_nul_id text) in Hx by (eapply std_nul; exact H).
  destruct (proj1 (std_accepted _ _ _ H x) Hx) as (<- & _). apply (proj1 (std_accepted _ _ _ H' x) Hx).
Qed.
Print Assumptions C93_one_reading.

(** What the example accepts beyond standard JSON: texts in which some "\u" has
    only three hexadecimal digits, and nothing else. *)
Theorem C93_beyond_standard :
  forall order fuel0 fuel tbl names m src text t,
    FromGrammar_order order fuel0 JsonGrammar = Ok (tbl, names) -> delivers src text ->
    parses_to fuel tbl (Some m) src t ->
    exists v, json_text (before_nul text) v /\
      ((exists v' gaps, std_text (before_nul text) v' gaps) <->
       forall s, In s (string_texts v) -> four_digits s).
Proof.
  intros order fuel0 fuel tbl names m src text t E Hd Hp.
  destruct (C51_key_listing _ _ _ _ _ _ _ _ _ E Hd Hp) as (v & H & _). exists v. split; [exact H|].
  rewrite (dialect_standard _ _ H). unfold fours. apply Forall_forall.
Qed.
Print Assumptions C93_beyond_standard.

(** A standard text the example accepts, with every kind of difference avoided,
    and the three kinds it does not accept. *)
Lemma body_chars s : all is_char s -> std_body s.
Proof. induction 1; constructor; assumption. Qed.
Definition std_sample : bytes := s2b "{""a"" : [[], ""\u00e9""]}" ++ [CR; LF].
Example C93_case :
  std_text std_sample (JObject [(s2b "a", JArray [JArray []; JString (s2b "\u00e9")])]) [[]] /\ plain_ascii std_sample.
Proof.
  split.
  - apply (se [] (s2b "{""a"" : [[], ""\u00e9""]}") _ [[]] [CR; LF]); [constructor| |repeat constructor].
    apply (sv_object (s2b """a"" : [[], ""\u00e9""]")). apply sm_last.
    apply (sm [] (s2b "a") (s2b " ") (s2b " [[], ""\u00e9""]") _ [[]]); [constructor|apply body_chars; repeat constructor|repeat constructor|].
    apply (se (s2b " ") (s2b "[[], ""\u00e9""]") _ [[]] []); [repeat constructor| |constructor].
    apply (sv_array (s2b "[], ""\u00e9""")). apply (se_more (s2b "[]") _ [[]] (s2b " ""\u00e9""") _ []).
    + apply (se [] (s2b "[]") _ [[]] []); [constructor| |constructor]. apply (sv_no_elements []). constructor.
    + apply se_last. apply (se (s2b " ") (s2b """\u00e9""") _ [] []); [repeat constructor| |constructor].
      apply (sv_string (s2b "\u00e9")). apply (std_unicode "0"%char "0"%char "e"%char "9"%char []); try reflexivity. constructor.
  - unfold std_sample. cbn. repeat (apply pa_char; [reflexivity|]). apply pa_crlf. constructor.
Qed.
Example C93_case_refused :
  std_text (s2b "[ ]") (JArray []) [s2b " "] /\
  (std_text (TAB :: s2b "1") (JNumber (s2b "1")) [] /\ ~ plain_ascii (TAB :: s2b "1")) /\
  (std_text (DQ :: [b8 195; b8 169] ++ [DQ]) (JString [b8 195; b8 169]) [] /\ ~ plain_ascii (DQ :: [b8 195; b8 169] ++ [DQ])).
Proof.
  split; [|split; split].
  - apply (se [] (s2b "[ ]") _ [s2b " "] []); [constructor| |constructor]. apply (sv_no_elements (s2b " ")). repeat constructor.
  - apply (se [TAB] (s2b "1") _ [] []); [repeat constructor| |constructor]. apply sv_number.
    exists [], (s2b "1"), [], []. split; [reflexivity|]. split; [left; reflexivity|].
    split; [|split; left; reflexivity]. right. exists "1"%char, []. split; [reflexivity|]. split; [reflexivity|].
    split; [discriminate|constructor].
  - intros H. inversion H. discriminate.
  - apply (se [] (DQ :: [b8 195; b8 169] ++ [DQ]) _ [] []); [constructor| |constructor]. apply sv_string. apply body_chars. repeat constructor.
  - intros H. apply plain_tail in H. inversion H. discriminate.
Qed.
