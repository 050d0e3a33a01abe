(** * Props_Pipeline: property C81, from any BNF text to every outcome. *)
From Verif Require Import Base ByteSet Ast Cst Parser TableGen FromCst SelfGrammar Spec_Parse Spec_Tree Spec_Grammar Spec_Table
  Spec_ParseTree Spec_Bnf Spec_Reading Spec_Override Spec_Outcome Spec_Predict GrammarProofs ParserProofs TreeProofs ParseApi ParseApi2
  TGMain TGCells TGClosed TGParse TGNames TGCheck Props_Parser Props_TableGen BnfPrint Examples
  TGOverride TGOutcome Props_Override Props_Outcome NulProofs NulText Props_Bnf Props_Json TGPredict Props_Predict.

Lemma writable_not_nul c : writable_byte c = true -> c <> NUL.
Proof. intros H ->. discriminate H. Qed.

Lemma printable_alternative g n s : printable_grammar g -> alternative g n s -> printable_sequence s.
Proof.
  intros (_ & F) (r & Hr & _ & Hs). rewrite Forall_forall in F. destruct (F _ Hr) as (_ & _ & G).
  rewrite Forall_forall in G. apply G, Hs.
Qed.
Lemma printable_nulfree g : printable_grammar g -> terminals_nulfree g.
Proof.
  intros P n s t Ha Ht. destruct (printable_alternative _ _ _ P Ha) as (_ & F). rewrite Forall_forall in F.
  destruct (F _ Ht) as (_ & A). intros Hi. unfold all in A. rewrite Forall_forall in A.
  exact (writable_not_nul _ (A _ Hi) eq_refl).
Qed.

(** ** What FromGrammar can say about a grammar read from a BNF text *)

(** In terms of the grammar [g'] in which only the last definitions count. *)
Inductive bnf_outcome (g' : grammar) (F : bytes -> option ascii -> Prop)
  : tgres (table * list (Z * bytes)) -> Prop :=
| bo_undefined m n s :
    alternative g' n s -> In (SNonTerminal m) s -> ~ defined g' m ->
    bnf_outcome g' F (Err (ENoRulesDefined m))
| bo_nothing n a b :
    alternative g' n (a ++ SNothing :: b) -> a <> [] \/ b <> [] ->
    bnf_outcome g' F (Err ENothingNotSingle)
| bo_nothing_panic n a b :
    alternative g' n (a ++ SNothing :: b) -> a <> [] ->
    bnf_outcome g' F (Panic PanicNothingInSequence)
| bo_conflict : late_empty g' F -> bnf_outcome g' F (Err EConflict)
| bo_table tbl names :
    ~ late_empty g' F -> table_spec_wrt F g' tbl -> bnf_outcome g' F (Ok (tbl, names)).

Lemma last_printable g g' n s : printable_grammar g -> last_definitions g g' -> alternative g' n s -> printable_sequence s.
Proof. intros P S Ha. destruct (alt_from g g' S _ _ Ha) as (m & Hm). eapply printable_alternative; eassumption. Qed.

Theorem C81_generate :
  forall bnf g g' order fuel,
    bnf_text bnf g -> last_definitions g g' -> 256 * length g + 1 <= fuel ->
    bnf_outcome g' (follow_last g g') (FromGrammar_order order fuel g).
Proof.
  intros bnf g g' order fuel B S Hf. apply bnf_text_printable in B.
  assert (Sy : forall n s x, alternative g' n s -> In x s -> printable_symbol x).
  { intros n s x Ha Hx. destruct (last_printable _ _ _ _ B S Ha) as (_ & F). rewrite Forall_forall in F. apply F, Hx. }
  assert (Sm : forall n a x b, alternative g' n (a ++ x :: b) -> printable_symbol x).
  { intros n a x b Ha. eapply Sy; [exact Ha|]. apply in_or_app. right. left. reflexivity. }
  destruct (C67_outcome order fuel g g' S (printable_nulfree _ B) Hf) as [f Hff|f N1 Hff|f N1 N2 Hff|tbl names N1 N2 N3 TS].
  - destruct Hff as [ns m rest ((n & Ha) & _) Nd|ns rest ((n & Ha) & _)|ns rest ((n & Ha) & _) Hn|ns str rest ((n & Ha) & _)].
    + eapply bo_undefined; [exact Ha|apply in_or_app; right; left; reflexivity|exact Nd].
    + destruct (Sm _ _ _ _ Ha) as (E & _). destruct (E eq_refl).
    + eapply bo_nothing; [exact Ha|]. destruct Hn as [Hn|Hn]; [left|right; exact Hn].
      destruct ns; [congruence|discriminate].
    + destruct (Sm _ _ _ _ Ha).
  - assert (Nb : forall C x, neighbours g' C x -> printable_symbol x).
    { intros C x (_ & n & a & b & Ha). eapply Sy; [exact Ha|]. apply in_or_app. right. right. left. reflexivity. }
    destruct Hff as [E|n Ha|C m Hn Nd|C Hn|C str Hn].
    + exfalso. destruct B as (Ne & _). exact (last_nonempty _ _ S Ne E).
    + destruct (last_printable _ _ _ _ B S Ha) as (E & _). destruct (E eq_refl).
    + destruct Hn as (_ & n & a & b & Ha). eapply bo_undefined; [exact Ha| |exact Nd].
      apply in_or_app. right. right. left. reflexivity.
    + destruct (Nb _ _ Hn) as (E & _). destruct (E eq_refl).
    + destruct (Nb _ _ Hn).
  - destruct Hff as [L|m (n & a & b & c & Ha & _) Nd|(n & a & b & c & Ha & Fi & _)|str (n & a & b & c & Ha & _)].
    + apply bo_conflict, L.
    + eapply bo_undefined; [exact Ha|apply in_or_app; right; left; reflexivity|exact Nd].
    + eapply bo_nothing_panic; [exact Ha|]. intros ->. destruct b as [|y b].
      * cbn in Fi. exact (first_nil _ _ Fi).
      * apply (N1 (Refused ENothingNotSingle)). apply (ff_nothing g' [] (y :: b)); [|right; discriminate].
        split; [exists n; exact Ha|constructor].
    + destruct (Sm _ _ _ _ Ha).
  - apply bo_table; [|exact TS]. intros L. apply (N3 _ (cf_conflict _ _ L)).
Qed.
Print Assumptions C81_generate.

(** All names defined, the empty literal only alone: the single possible error
    is a conflict. *)
Definition names_defined (g : grammar) : Prop :=
  forall n s m, alternative g n s -> In (SNonTerminal m) s -> defined g m.
Definition nothing_alone (g : grammar) : Prop :=
  forall n s, alternative g n s -> In SNothing s -> s = [SNothing].

Lemma bnf_wf bnf g g' : bnf_text bnf g -> names_defined g -> nothing_alone g -> last_definitions g g' -> wf_grammar g'.
Proof.
  intros B Nd Na S. apply bnf_text_printable in B. split.
  - apply (last_nonempty _ _ S), B.
  - apply S.
  - intros n s Ha. destruct (last_printable _ _ _ _ B S Ha) as (Ne & F).
    destruct (alt_from g g' S _ _ Ha) as (m & Hm).
    destruct (in_dec symbol_dec SNothing s) as [Hn|Hn]; [left; eapply Na; eassumption|right].
    split; [exact Ne|]. rewrite Forall_forall in *. intros x Hx. specialize (F x Hx).
    destruct x as [v|t| |str]; cbn in *.
    + apply (last_defined g g' _ _ v S Ha Hx). eapply Nd; eassumption.
    + destruct F as (A & _). split; [exact A|]. eapply (nulfree_last _ _ S (printable_nulfree _ B)); eassumption.
    + contradiction.
    + exact F.
Qed.

Theorem C81_conflict_only :
  forall bnf g g' order fuel,
    bnf_text bnf g -> names_defined g -> nothing_alone g -> last_definitions g g' -> 256 * length g + 1 <= fuel ->
    (FromGrammar_order order fuel g = Err EConflict <-> late_empty g' (follow_last g g')) /\
    ((exists tbl names, FromGrammar_order order fuel g = Ok (tbl, names)) <-> ~ late_empty g' (follow_last g g')).
Proof.
  intros bnf g g' order fuel B Nd Na S Hf.
  destruct (C66_outcome order fuel g g' S (bnf_wf _ _ _ B Nd Na S) Hf) as (A & C & _). split; assumption.
Qed.
Print Assumptions C81_conflict_only.

(** ** The parser that comes out *)

(** Which texts, as bytes, give a parser at all. *)
Theorem C81_parser_exists :
  forall bnf,
    (exists fuel tbl names, bnf_parser fuel bnf = Some (tbl, names)) <->
    (exists g g', bnf_text (before_nul bnf) g /\ last_definitions g g' /\
       forall f, ~ first_fault g' f /\ ~ follow_fault g' f /\ ~ cell_fault g' (follow_last g g') f).
Proof.
  intros bnf. split.
  - intros (fuel & tbl & names & H). destruct (C49_only_from_bnf _ _ _ _ H) as (g & B & E).
    destruct (C66_set_aside g) as (g' & S). exists g, g'. split; [exact B|]. split; [exact S|].
    apply (C67_accepted (fun l => l) (fuel + enough g) g g' S).
    + apply printable_nulfree. eapply bnf_text_printable, B.
    + apply Nat.le_add_l.
    + exists tbl, names. rewrite FromGrammar_more; [exact E|]. change (FromGrammar fuel g <> NoFuel). rewrite E. discriminate.
  - intros (g & g' & B & S & Hn). destruct (bnf_read _ _ B) as (fuel & R).
    assert (E : exists tbl names, FromGrammar_order (fun l => l) (256 * length g + 1 + fuel) g = Ok (tbl, names)).
    { apply (C67_accepted (fun l => l) _ g g' S); [apply printable_nulfree; eapply bnf_text_printable, B|lia|exact Hn]. }
    destruct E as (tbl & names & E). exists (256 * length g + 1 + fuel), tbl, names.
    unfold bnf_parser. rewrite R by lia. change (FromGrammar_order (fun l => l)) with FromGrammar in E. rewrite E. reflexivity.
Qed.
Print Assumptions C81_parser_exists.

(** Everything such a parser does, for every source and naming map. *)
Theorem C81_parser :
  forall fuel0 bnf tbl names, bnf_parser fuel0 bnf = Some (tbl, names) ->
    exists g, bnf_text (before_nul bnf) g /\
      forall g', last_definitions g g' -> forall m src text, delivers src text ->
        (forall t, (exists fuel, parses_to fuel tbl (Some m) src t) <->
           (exists q, predicted g' (follow_last g g') text (SNonTerminal (start g')) 0 t q /\ byte_at text q = NUL)) /\
        (forall e, (exists fuel, fails_with fuel tbl (Some m) src e) <->
           (exists k, refused g' (follow_last g g') (called g' m) text k e)) /\
        ((forall fuel, result fuel tbl (Some m) src = NoFuel) <->
           (forall c, predicts_star g' (follow_last g g') text (0, [NT (start g')]) c ->
              exists c', predicts g' (follow_last g g') text c c')) /\
        (forall fuel p, result fuel tbl (Some m) src <> Panic p).
Proof.
  intros fuel0 bnf tbl names H. destruct (C49_only_from_bnf _ _ _ _ H) as (g & B & E).
  exists g. split; [exact B|]. intros g' S m src text Hd.
  pose proof (bnf_text_printable _ _ B) as P. pose proof (printable_nulfree _ P) as Nf. destruct P as (Ne & _).
  change (FromGrammar_order (fun l => l) fuel0 g = Ok (tbl, names)) in E.
  split; [|split; [|split]].
  - intros t. apply (C79_exact_last (fun l => l) fuel0 g g' tbl names m src text t); assumption.
  - intros e. apply (C80_refused_last (fun l => l) fuel0 g g' tbl names m src text e); assumption.
  - apply (C80_never_returns_last (fun l => l) fuel0 g g' tbl names m src text); assumption.
  - intros fuel p X. exact (C07_parse_never_panics _ _ _ _ _ (FromGrammar_public _ _ _ _ _ E) X).
Qed.
Print Assumptions C81_parser.

(** For an LL(1) grammar: the words of the grammar whose empty parts the
    generator foresaw, read up to the first byte 0; nothing is asked of the FOLLOW sets. *)
Theorem C81_words :
  forall fuel0 bnf g tbl names m src text t,
    bnf_parser fuel0 bnf = Some (tbl, names) -> bnf_text (before_nul bnf) g ->
    names_defined g -> nothing_alone g -> NoDup (heads g) -> LL1 g -> delivers src text ->
    ((exists fuel, parses_to fuel tbl (Some m) src t) <->
     (exists T, parse_tree g (before_nul text) T /\ empty_parts_foreseen g (before_nul text) T /\ t = collapse T)).
Proof.
  intros fuel0 bnf g tbl names m src text t H B Nd Na Di L Hd.
  destruct (C49_only_from_bnf _ _ _ _ H) as (g1 & B1 & E). rewrite (C35_unambiguous _ _ _ B1 B) in E.
  change (FromGrammar_order (fun l => l) fuel0 g = Ok (tbl, names)) in E.
  pose proof (bnf_wf _ _ _ B Nd Na (last_self g Di)) as W.
  rewrite <- (C79_ll1 (fun l => l) fuel0 g tbl names m (SrcString (before_nul text)) (before_nul text) t W L E
    (dl_string _) (before_nul_free _)).
  split; intros (fuel & Hp); exists fuel; apply (parses_before _ _ _ _ _ (wf_nulfree _ W) E _ _ _ _ _ Hd); exact Hp.
Qed.
Print Assumptions C81_words.

(** The BNF text  <S> ::= "a" ""  crashes the generator. *)
Example C81_case_panic :
  let g := [ru "S" [[tm "a"; SNothing]]] in
  bnf_text (grammar_string g) g /\ FromGrammar (256 * length g + 1) g = Panic PanicNothingInSequence.
Proof. split; [apply grammar_printed, printableb_ok; vm_compute; reflexivity|vm_compute; reflexivity]. Qed.

(** A text that defines S and A twice; the parser that comes out refuses "c"
    although the first A would allow it, and calls its start rule, whose name
    belongs to the second S, Unknown_0. *)
Example C81_case :
  bnf_text (grammar_string twice) twice /\ last_definitions twice twice' /\
  bnf_parser 3000 (grammar_string twice) = Some (gen_of twice) /\
  (exists q, predicted twice' (follow_last twice twice') (s2b "ab") (SNonTerminal (start twice')) 0
     (mk 0 0 2 [literal_at 0 1; mk 1 1 2 [literal_at 1 2]]) q /\ byte_at (s2b "ab") q = NUL) /\
  (exists k, refused twice' (follow_last twice twice') (called twice' (snd (gen_of twice))) (s2b "c") k
     (ENoRulesForByte "c"%char (s2b "Unknown_0"))).
Proof.
  assert (B : bnf_text (grammar_string twice) twice) by (apply grammar_printed, printableb_ok; vm_compute; reflexivity).
  assert (E : bnf_parser 3000 (grammar_string twice) = Some (gen_of twice)) by (vm_compute; reflexivity).
  split; [exact B|]. split; [exact twice_last|]. split; [exact E|].
  rewrite (surjective_pairing (gen_of twice)) in E. destruct (C81_parser _ _ _ _ E) as (g & B' & H).
  rewrite (before_nul_id _ (bnf_nulfree _ _ B)) in B'. rewrite (C35_unambiguous _ _ _ B' B) in H. clear B' g.
  specialize (H _ twice_last (snd (gen_of twice))). split.
  - destruct (H _ _ (dl_string (s2b "ab"))) as (A & _). apply A. exists 100. eexists. vm_compute. reflexivity.
  - destruct (H _ _ (dl_string (s2b "c"))) as (_ & A & _). apply A. exists 100. vm_compute. reflexivity.
Qed.
