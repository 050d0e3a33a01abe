(** * Props_Predict: property C79, exactly which texts a generated parser accepts. *)
From Verif Require Import Base ByteSet Ast Cst Parser TableGen Spec_Parse Spec_Tree Spec_Grammar Spec_Table
  Spec_ParseTree Spec_Override Spec_Outcome Spec_Predict GrammarProofs ParserProofs TreeProofs ParseApi ParseApi2
  TGFirsts TGMain TGCells TGClosed TGParse TGNames TGTrees TGCheck Props_Parser Props_TableGen Props_Trees
  TGOverride TGOutcome Props_Override Props_Outcome TGPredict.

(** ** Names defined more than once *)

Lemma FromGrammar_table_last order fuel g g' tbl names :
  last_definitions g g' -> terminals_nulfree g ->
  FromGrammar_order order fuel g = Ok (tbl, names) -> table_spec_wrt (follow_last g g') g' tbl.
Proof.
  intros S Nf E.
  assert (E' : FromGrammar_order order (fuel + enough g) g = Ok (tbl, names)).
  { rewrite FromGrammar_more; [exact E|]. rewrite E. discriminate. }
  pose proof (C67_outcome order (fuel + enough g) g g' S Nf (Nat.le_add_l _ _)) as O.
  rewrite E' in O. inversion O as [f Hff Ef|f N1 Hff Ef|f N1 N2 Hff Ef|t n N1 N2 N3 TS Et]; subst;
    try (destruct f; discriminate Ef). exact TS.
Qed.
Lemma last_nonempty g g' : last_definitions g g' -> g <> [] -> g' <> [].
Proof. intros (S & _) N. inversion S; subst; congruence. Qed.

(** For every grammar that FromGrammar accepts, LL(1) or not, also with names
    defined more than once: the texts and trees are the predictive derivations
    of the grammar, [g'], in which only the last definitions count. *)
Theorem C79_exact_last :
  forall order fuel0 g g' tbl names m src text t,
    g <> [] -> last_definitions g g' -> terminals_nulfree g ->
    FromGrammar_order order fuel0 g = Ok (tbl, names) -> delivers src text ->
    ((exists fuel, parses_to fuel tbl (Some m) src t) <->
     (exists q, predicted g' (follow_last g g') text (SNonTerminal (start g')) 0 t q /\ byte_at text q = NUL)).
Proof.
  intros order fuel0 g g' tbl names m src text t Ne S Nf E Hd.
  pose proof (FromGrammar_table_last _ _ _ _ _ _ S Nf E) as T. pose proof (last_nonempty _ _ S Ne) as Ne'.
  rewrite (parse_iff_derivation tbl m src text t (FromGrammar_public _ _ _ _ _ E) Hd). split.
  - intros (q & H & Hq). exists q. split; [|exact Hq].
    apply (proj1 (derives_predicted_both g' _ tbl T text) _ _ _ _ H). apply start_operand, Ne'.
  - intros (q & H & Hq). exists q. split; [|exact Hq].
    apply (proj1 (predicted_derives_both g' _ tbl (proj2 S) T text) _ _ _ _ H). apply start_operand, Ne'.
Qed.
Print Assumptions C79_exact_last.

(** Every name defined once: the texts and
    trees are the predictive derivations of the grammar up to the end of the
    text (or to a byte 0). *)
Theorem C79_exact :
  forall order fuel0 g tbl names m src text t,
    g <> [] -> NoDup (heads g) -> terminals_nulfree g ->
    FromGrammar_order order fuel0 g = Ok (tbl, names) -> delivers src text ->
    ((exists fuel, parses_to fuel tbl (Some m) src t) <->
     (exists q, predicted g (follow_code g) text (SNonTerminal (start g)) 0 t q /\ byte_at text q = NUL)).
Proof.
  intros order fuel0 g tbl names m src text t Ne Nd Nf E Hd.
  pose proof (FromGrammar_table _ _ _ _ _ Nd Nf E) as T.
  rewrite (parse_iff_derivation tbl m src text t (FromGrammar_public _ _ _ _ _ E) Hd). split.
  - intros (q & H & Hq). exists q. split; [|exact Hq].
    apply (proj1 (derives_predicted_both g _ tbl T text) _ _ _ _ H). apply start_operand, Ne.
  - intros (q & H & Hq). exists q. split; [|exact Hq].
    apply (proj1 (predicted_derives_both g _ tbl Nd T text) _ _ _ _ H). apply start_operand, Ne.
Qed.
Print Assumptions C79_exact.

(** For an LL(1) grammar: a text is accepted exactly when it has a parse tree
    in which the generator foresaw what follows every empty part, and the tree
    returned is that one, with empty parts cut. *)
Theorem C79_ll1 :
  forall order fuel0 g tbl names m src text t,
    wf_grammar g -> LL1 g -> FromGrammar_order order fuel0 g = Ok (tbl, names) ->
    delivers src text -> ~ In NUL text ->
    ((exists fuel, parses_to fuel tbl (Some m) src t) <->
     (exists T, parse_tree g text T /\ empty_parts_foreseen g text T /\ t = collapse T)).
Proof.
  intros order fuel0 g tbl names m src text t W L E Hd Nul.
  pose proof (FromGrammar_table _ _ _ _ _ (wf_distinct _ W) (wf_nulfree _ W) E) as S. split.
  - intros (fuel & Hp).
    destruct (C53_parser_tree _ _ _ _ _ _ _ _ _ _ W L E Hd Nul Hp) as (T & HT & Et).
    exists T. split; [exact HT|]. split; [|exact Et].
    apply (accepted_foreseen g tbl W S L text Nul T HT).
    destruct (proj1 (parse_iff_rewriting tbl m src text (FromGrammar_public _ _ _ _ _ E) Hd)) as (q & R & _); [eauto|].
    exists q. exact R.
  - intros (T & HT & Hf & ->).
    apply (parse_iff_derivation tbl m src text _ (FromGrammar_public _ _ _ _ _ E) Hd).
    apply (foreseen_accepted g tbl W S L text Nul T HT Hf).
Qed.
Print Assumptions C79_ll1.

(** In particular, word by word. *)
Theorem C79_word :
  forall order fuel0 g tbl names m src text T,
    wf_grammar g -> LL1 g -> FromGrammar_order order fuel0 g = Ok (tbl, names) ->
    delivers src text -> parse_tree g text T ->
    ((exists fuel t, parses_to fuel tbl (Some m) src t) <-> empty_parts_foreseen g text T).
Proof.
  intros order fuel0 g tbl names m src text T W L E Hd HT.
  assert (Nul : ~ In NUL text).
  { intros Hin. assert (X : sent g (chars text)) by (exists []; apply (parse_tree_word g text T (wf_nonempty _ W) HT)).
    apply (sent_nulfree g W) in X. apply X. apply in_map, Hin. }
  split.
  - intros (fuel & t & Hp).
    destruct (proj1 (C79_ll1 order fuel0 g tbl names m src text t W L E Hd Nul)) as (T' & HT' & Hf & _); [eauto|].
    rewrite (proj2 (C53_unambiguous g text W L) T T' HT HT'). exact Hf.
  - intros Hf. destruct (proj2 (C79_ll1 order fuel0 g tbl names m src text (collapse T) W L E Hd Nul)) as (fuel & Hp); [eauto|].
    eauto.
Qed.
Print Assumptions C79_word.

(** A grammar with words of both kinds: [two_empty] is
    S ::= A B "c"    A ::= "a" | ""    B ::= "b" | ""
    In "bc" the empty A stands before "b", which the generator knows of; in "c"
    it stands before "c", which it does not. *)
Definition two_empty_bc : node :=
  mk 0 0 2 [mk 1 0 0 [nothing_at 0]; mk 2 0 1 [literal_at 0 1]; literal_at 1 2].
Definition two_empty_c : node :=
  mk 0 0 1 [mk 1 0 0 [nothing_at 0]; mk 2 0 0 [nothing_at 0]; literal_at 0 1].
Ltac alt_at g i := exists (nth i g (ru "" [])); cbn; auto 6.
Example C79_case :
  wf_grammar two_empty /\ LL1 two_empty /\
  FromGrammar (256 * length two_empty + 1) two_empty = Ok (gen_of two_empty) /\
  parse_tree two_empty (s2b "bc") two_empty_bc /\
  (exists fuel t, parses_to fuel (fst (gen_of two_empty)) (Some []) (SrcString (s2b "bc")) t) /\
  empty_parts_foreseen two_empty (s2b "bc") two_empty_bc /\
  parse_tree two_empty (s2b "c") two_empty_c /\
  ~ empty_parts_foreseen two_empty (s2b "c") two_empty_c.
Proof.
  assert (E : FromGrammar (256 * length two_empty + 1) two_empty = Ok (fst (gen_of two_empty), snd (gen_of two_empty))).
  { vm_compute. reflexivity. }
  assert (P1 : parse_tree two_empty (s2b "bc") two_empty_bc).
  { eapply (pt_rule _ _ 0 _ [nt "A"; nt "B"; tm "c"]); [reflexivity|alt_at two_empty 0|].
    eapply pts_cons; [|eapply pts_cons; [|eapply pts_cons; [|apply pts_nil]]].
    - eapply (pt_rule _ _ 1 _ [SNothing]); [reflexivity|alt_at two_empty 1|].
      eapply pts_cons; [apply pt_nothing|apply pts_nil].
    - eapply (pt_rule _ _ 2 _ [tm "b"]); [reflexivity|alt_at two_empty 2|].
      eapply pts_cons; [|apply pts_nil]. apply (pt_terminal _ _ (s2b "b") 0); [discriminate|reflexivity].
    - apply (pt_terminal _ _ (s2b "c") 1); [discriminate|reflexivity]. }
  assert (P2 : parse_tree two_empty (s2b "c") two_empty_c).
  { eapply (pt_rule _ _ 0 _ [nt "A"; nt "B"; tm "c"]); [reflexivity|alt_at two_empty 0|].
    eapply pts_cons; [|eapply pts_cons; [|eapply pts_cons; [|apply pts_nil]]].
    - eapply (pt_rule _ _ 1 _ [SNothing]); [reflexivity|alt_at two_empty 1|].
      eapply pts_cons; [apply pt_nothing|apply pts_nil].
    - eapply (pt_rule _ _ 2 _ [SNothing]); [reflexivity|alt_at two_empty 2|].
      eapply pts_cons; [apply pt_nothing|apply pts_nil].
    - apply (pt_terminal _ _ (s2b "c") 0); [discriminate|reflexivity]. }
  assert (A1 : exists fuel t, parses_to fuel (fst (gen_of two_empty)) (Some []) (SrcString (s2b "bc")) t).
  { exists 30. eexists. eexists. vm_compute. reflexivity. }
  split; [exact two_empty_wf|]. split; [exact two_empty_LL1|]. split; [rewrite E; destruct (gen_of two_empty); reflexivity|].
  split; [exact P1|]. split; [exact A1|]. split.
  { apply (C79_word _ _ _ _ _ [] _ _ _ two_empty_wf two_empty_LL1 E (dl_string _) P1). exact A1. }
  split; [exact P2|]. intros H.
  apply (C79_word _ _ _ _ _ [] _ _ _ two_empty_wf two_empty_LL1 E (dl_string _) P2) in H.
  destruct H as (fuel & t & H). revert fuel t H.
  apply (never_parses _ _ _ 20 (ENoRulesForByte "c"%char (s2b "Unknown_1"))). vm_compute. reflexivity.
Qed.

(** Outside LL(1): [first_first] is A ::= "a" | "a", whose predictive reading
    is "a" twice. *)
Example C79_case_not_ll1 :
  predicted first_first (follow_code first_first) (s2b "aa") (SNonTerminal (start first_first)) 0
    (mk 0 0 2 [literal_at 0 1; literal_at 1 2]) 2.
Proof.
  apply (pr_rule first_first _ (s2b "aa") 0 (ru "A" [[tm "a"]; [tm "a"]]) [[tm "a"]; [tm "a"]]); [reflexivity| |discriminate|].
  - apply sel_take; [exists []; apply ys_refl|]. apply sel_take; [exists []; apply ys_refl|constructor].
  - cbn. eapply prs_cons; [|eapply prs_cons; [|apply prs_nil]].
    + apply (pr_terminal first_first _ (s2b "aa") (s2b "a") 0); [discriminate|]. intros [|i] Hi; [reflexivity|cbn in Hi; lia].
    + apply (pr_terminal first_first _ (s2b "aa") (s2b "a") 1); [discriminate|]. intros [|i] Hi; [reflexivity|cbn in Hi; lia].
Qed.

(** ** C80 *)

(** The naming map names the rules, as the one FromGrammar returns does, also
    after calls of Parse. *)
Definition names_rules (g : grammar) (m : list (Z * bytes)) : Prop :=
  forall i n, nth_error (heads g) i = Some n -> map_get Z.eqb (Z.of_nat i) m = Some n.

Lemma eq_names g m : names_rules g m -> forall i n, nth_error (heads g) i = Some n ->
  exists l, row_name (Some m) (Z.of_nat i) = l /\ n = l.
Proof. intros N i n H. exists n. split; [unfold row_name; rewrite (N _ _ H); reflexivity|reflexivity]. Qed.
Lemma called_names g m : forall i n, nth_error (heads g) i = Some n ->
  exists l, row_name (Some m) (Z.of_nat i) = l /\ called g m n l.
Proof. intros i n H. eexists. split; [reflexivity|]. exists i. auto. Qed.
Lemma called_fun g m : NoDup (heads g) -> forall n l l', called g m n l -> called g m n l' -> l = l'.
Proof.
  intros Nd n l l' (i & A & ->) (j & A' & ->). assert (i = j); [|subst j; congruence].
  apply (NoDup_nth_error (heads g)); [exact Nd|eapply nth_error_bound; exact A|congruence].
Qed.

(** Any grammar, any naming map. Every failure of a generated parser, in terms
    of the grammar: which byte it complains about, what it expected there, and
    the name of which rule it tells. *)
Theorem C80_refused_last :
  forall order fuel0 g g' tbl names m src text e,
    g <> [] -> last_definitions g g' -> terminals_nulfree g ->
    FromGrammar_order order fuel0 g = Ok (tbl, names) -> delivers src text ->
    ((exists fuel, fails_with fuel tbl (Some m) src e) <-> (exists k, refused g' (follow_last g g') (called g' m) text k e)).
Proof.
  intros order fuel0 g g' tbl names m src text e Ne Nd Nf E Hd.
  pose proof (FromGrammar_table_last _ _ _ _ _ _ Nd Nf E) as T. pose proof (last_nonempty _ _ Nd Ne) as Ne'.
  rewrite (C19_error_diagnosis tbl m src text e (FromGrammar_public _ _ _ _ _ E) (FromGrammar_row0 _ _ _ _ _ E) Hd).
  split; intros (k & H); exists k; apply (refuses_refused g' _ tbl (proj2 Nd) T text m _ (called_names g' m) (called_fun g' m (proj2 Nd)) k e Ne'), H.
Qed.
Print Assumptions C80_refused_last.

Theorem C80_accepted_last :
  forall order fuel0 g g' tbl names m src text,
    g <> [] -> last_definitions g g' -> terminals_nulfree g ->
    FromGrammar_order order fuel0 g = Ok (tbl, names) -> delivers src text ->
    ((exists fuel t, parses_to fuel tbl (Some m) src t) <->
     (exists q, predicts_star g' (follow_last g g') text (0, [NT (start g')]) (q, []) /\ byte_at text q = NUL)).
Proof.
  intros order fuel0 g g' tbl names m src text Ne Nd Nf E Hd.
  pose proof (FromGrammar_table_last _ _ _ _ _ _ Nd Nf E) as T. pose proof (last_nonempty _ _ Nd Ne) as Ne'.
  assert (F0 : Forall2 (item_of g') [NT (start g')] [Row 0]).
  { constructor; [|constructor]. apply (io_nt g' _ 0). destruct g'; [congruence|reflexivity]. }
  rewrite (C11_parse_iff_rewriting tbl m src text (FromGrammar_public _ _ _ _ _ E) Hd).
  split; intros (q & R & Hq); exists q; (split; [|exact Hq]).
  - destruct (rewrites_predicts_star g' _ tbl T text _ _ R _ F0) as (u & P & F). inversion F; subst. exact P.
  - destruct (predicts_rewrites_star g' _ tbl (proj2 Nd) T text _ _ R _ F0) as (u & P & F). inversion F; subst. exact P.
Qed.
Print Assumptions C80_accepted_last.

(** Parse runs forever exactly when the predictive derivation never gets stuck. *)
Theorem C80_never_returns_last :
  forall order fuel0 g g' tbl names m src text,
    g <> [] -> last_definitions g g' -> terminals_nulfree g ->
    FromGrammar_order order fuel0 g = Ok (tbl, names) -> delivers src text ->
    ((forall fuel, result fuel tbl (Some m) src = NoFuel) <->
     (forall c, predicts_star g' (follow_last g g') text (0, [NT (start g')]) c -> exists c', predicts g' (follow_last g g') text c c')).
Proof.
  intros order fuel0 g g' tbl names m src text Ne Nd Nf E Hd.
  pose proof (FromGrammar_table_last _ _ _ _ _ _ Nd Nf E) as T. pose proof (last_nonempty _ _ Nd Ne) as Ne'.
  pose proof (FromGrammar_public _ _ _ _ _ E) as Pub.
  assert (F0 : Forall2 (item_of g') [NT (start g')] [Row 0]).
  { constructor; [|constructor]. apply (io_nt g' _ 0). destruct g'; [congruence|reflexivity]. }
  split.
  - intros H (k & u) P.
    destruct (predicts_rewrites_star g' _ tbl (proj2 Nd) T text _ _ P _ F0) as (its & R & F). cbn [fst snd] in *.
    destruct (step_or_stop tbl text (Some m) k its) as [(c & S)|[(-> & Hq)|(e & S)]].
    + destruct (rewrites_predicts g' _ tbl T text _ _ _ _ S F) as (u' & P' & _). eauto.
    + exfalso. destruct (proj2 (C11_parse_iff_rewriting tbl m src text Pub Hd)) as (fuel & t & nm & X); [eauto|].
      rewrite H in X. discriminate.
    + exfalso. destruct (proj2 (C19_error_diagnosis tbl m src text e Pub (FromGrammar_row0 _ _ _ _ _ E) Hd)) as (fuel & X).
      { exists k, its. auto. }
      unfold fails_with in X. rewrite H in X. discriminate.
  - intros H fuel. destruct (result fuel tbl (Some m) src) as [r|e|q|] eqn:X; [|destruct e| |reflexivity]; exfalso.
    + destruct (C08_return_contract _ _ _ _ _ X) as [(t & nm & ->)|(e & ->)].
      * destruct (proj1 (C80_accepted_last order fuel0 g g' tbl names m src text Ne Nd Nf E Hd)) as (q & P & _).
        { exists fuel, t, nm. exact X. }
        destruct (H _ P) as (c & S). inversion S.
      * destruct (proj1 (C80_refused_last order fuel0 g g' tbl names m src text e Ne Nd Nf E Hd)) as (k & u & P & S).
        { exists fuel. exact X. }
        destruct (H _ P) as (c & S'). exact (no_step_final _ _ _ _ _ _ _ (proj2 Nd) S _ S').
    + exact (C07_parse_never_panics _ _ _ _ _ Pub X).
Qed.
Print Assumptions C80_never_returns_last.

(** Every name defined once. Every failure of a generated parser: which byte it
    complains about, what it expected there, and the name of which rule it tells. *)
Theorem C80_refused :
  forall order fuel0 g tbl names m src text e,
    g <> [] -> NoDup (heads g) -> terminals_nulfree g ->
    FromGrammar_order order fuel0 g = Ok (tbl, names) -> names_rules g m -> delivers src text ->
    ((exists fuel, fails_with fuel tbl (Some m) src e) <-> (exists k, refused g (follow_code g) eq text k e)).
Proof.
  intros order fuel0 g tbl names m src text e Ne Nd Nf E Nm Hd.
  pose proof (FromGrammar_table _ _ _ _ _ Nd Nf E) as T.
  rewrite (C19_error_diagnosis tbl m src text e (FromGrammar_public _ _ _ _ _ E) (FromGrammar_row0 _ _ _ _ _ E) Hd).
  split; intros (k & H); exists k; apply (refuses_refused g _ tbl Nd T text m _ (eq_names _ _ Nm) (fun n l l' E1 E2 => eq_trans (eq_sym E1) E2) k e Ne), H.
Qed.
Print Assumptions C80_refused.

Theorem C80_accepted :
  forall order fuel0 g tbl names m src text,
    g <> [] -> NoDup (heads g) -> terminals_nulfree g ->
    FromGrammar_order order fuel0 g = Ok (tbl, names) -> delivers src text ->
    ((exists fuel t, parses_to fuel tbl (Some m) src t) <->
     (exists q, predicts_star g (follow_code g) text (0, [NT (start g)]) (q, []) /\ byte_at text q = NUL)).
Proof.
  intros order fuel0 g tbl names m src text Ne Nd Nf E Hd.
  pose proof (FromGrammar_table _ _ _ _ _ Nd Nf E) as T.
  assert (F0 : Forall2 (item_of g) [NT (start g)] [Row 0]).
  { constructor; [|constructor]. apply (io_nt g _ 0). destruct g; [congruence|reflexivity]. }
  rewrite (C11_parse_iff_rewriting tbl m src text (FromGrammar_public _ _ _ _ _ E) Hd).
  split; intros (q & R & Hq); exists q; (split; [|exact Hq]).
  - destruct (rewrites_predicts_star g _ tbl T text _ _ R _ F0) as (u & P & F). inversion F; subst. exact P.
  - destruct (predicts_rewrites_star g _ tbl Nd T text _ _ R _ F0) as (u & P & F). inversion F; subst. exact P.
Qed.
Print Assumptions C80_accepted.

(** Parse runs forever exactly when the predictive derivation never gets stuck. *)
Theorem C80_never_returns :
  forall order fuel0 g tbl names m src text,
    g <> [] -> NoDup (heads g) -> terminals_nulfree g ->
    FromGrammar_order order fuel0 g = Ok (tbl, names) -> names_rules g m -> delivers src text ->
    ((forall fuel, result fuel tbl (Some m) src = NoFuel) <->
     (forall c, predicts_star g (follow_code g) text (0, [NT (start g)]) c -> exists c', predicts g (follow_code g) text c c')).
Proof.
  intros order fuel0 g tbl names m src text Ne Nd Nf E Nm Hd.
  pose proof (FromGrammar_table _ _ _ _ _ Nd Nf E) as T.
  pose proof (FromGrammar_public _ _ _ _ _ E) as Pub.
  assert (F0 : Forall2 (item_of g) [NT (start g)] [Row 0]).
  { constructor; [|constructor]. apply (io_nt g _ 0). destruct g; [congruence|reflexivity]. }
  split.
  - intros H (k & u) P.
    destruct (predicts_rewrites_star g _ tbl Nd T text _ _ P _ F0) as (its & R & F). cbn [fst snd] in *.
    destruct (step_or_stop tbl text (Some m) k its) as [(c & S)|[(-> & Hq)|(e & S)]].
    + destruct (rewrites_predicts g _ tbl T text _ _ _ _ S F) as (u' & P' & _). eauto.
    + exfalso. destruct (proj2 (C11_parse_iff_rewriting tbl m src text Pub Hd)) as (fuel & t & nm & X); [eauto|].
      rewrite H in X. discriminate.
    + exfalso. destruct (proj2 (C19_error_diagnosis tbl m src text e Pub (FromGrammar_row0 _ _ _ _ _ E) Hd)) as (fuel & X).
      { exists k, its. auto. }
      unfold fails_with in X. rewrite H in X. discriminate.
  - intros H fuel. destruct (result fuel tbl (Some m) src) as [r|e|q|] eqn:X; [|destruct e| |reflexivity]; exfalso.
    + destruct (C08_return_contract _ _ _ _ _ X) as [(t & nm & ->)|(e & ->)].
      * destruct (proj1 (C80_accepted order fuel0 g tbl names m src text Ne Nd Nf E Hd)) as (q & P & _).
        { exists fuel, t, nm. exact X. }
        destruct (H _ P) as (c & S). inversion S.
      * destruct (proj1 (C80_refused order fuel0 g tbl names m src text e Ne Nd Nf E Nm Hd)) as (k & u & P & S).
        { exists fuel. exact X. }
        destruct (H _ P) as (c & S'). exact (no_step_final _ _ _ _ _ _ _ Nd S _ S').
    + exact (C07_parse_never_panics _ _ _ _ _ Pub X).
Qed.
Print Assumptions C80_never_returns.

(** S ::= A "b" S | ""    A ::= "a" | "":  "abc" is refused at "c" because
    nothing of S starts with it, nor does it follow S. *)
Example C80_case :
  names_rules demo (snd (gen_of demo)) /\
  FromGrammar (256 * length demo + 1) demo = Ok (fst (gen_of demo), snd (gen_of demo)) /\
  exists k, refused demo (follow_code demo) eq (s2b "abc") k (ENoRulesForByte "c"%char (s2b "S")).
Proof.
  assert (N : names_rules demo (snd (gen_of demo))).
  { intros i n H. do 2 (destruct i as [|i]; [cbn in H; injection H as <-; vm_compute; reflexivity|]).
    cbn in H. destruct i; discriminate. }
  assert (E : FromGrammar (256 * length demo + 1) demo = Ok (fst (gen_of demo), snd (gen_of demo))) by (vm_compute; reflexivity).
  split; [exact N|]. split; [exact E|].
  apply (C80_refused (fun l => l) _ demo _ _ _ (SrcString (s2b "abc")) _ _) with (3 := wf_nulfree _ demo_wf) (4 := E) (5 := N).
  - discriminate.
  - apply wf_distinct, demo_wf.
  - constructor.
  - exists 100. vm_compute. reflexivity.
Qed.
