(** * Props_Bnf: properties C34 - C39 and C42 of BNF texts: printing, parsing
    with the parser generated from SelfGrammar, and conversion. *)
From Verif Require Import Base Cst Ast Parser SelfGrammar TableGen FromCst Examples Spec_Parse Spec_Grammar Spec_Table
  Spec_Bnf ParseApi TGMain TGCells TGClosed TGParse TGCheck BnfDet BnfPrint BnfParser BnfWords BnfTrees Props_TableGen Checked.

(** ** C34 *)

(** Read behind its opening quote, the printed terminal gives the value, and the
    reader stops right behind the printed text, whatever follows. *)
Theorem C34_read_back :
  forall v rest, exists q body,
    quote q /\ terminal_string v ++ rest = q :: body /\ scan q body = Some (v, rest).
Proof. exact terminal_scanned. Qed.
Print Assumptions C34_read_back.

Theorem C34_one_line :
  forall v c, In c (terminal_string v) -> c <> TAB /\ c <> LF /\ c <> CR.
Proof. exact terminal_control. Qed.
Print Assumptions C34_one_line.

Theorem C34_injective : forall v v', terminal_string v = terminal_string v' -> v = v'.
Proof.
  intros v v' E. destruct (terminal_scanned v []) as (q & b & _ & H1 & H2).
  destruct (terminal_scanned v' []) as (q' & b' & _ & H3 & H4).
  rewrite E in H1. rewrite H1 in H3. injection H3 as <- <-. rewrite H2 in H4. injection H4. auto.
Qed.
Print Assumptions C34_injective.

(** Of writable bytes: a literal of the notation. *)
Theorem C34_notation :
  forall v, v <> [] -> all writable_byte v -> symbol_text (terminal_string v) (STerminal v).
Proof. exact terminal_printed. Qed.
Print Assumptions C34_notation.

Example C34_case :
  terminal_string [SQ; TAB; DQ; BSL] = [DQ; SQ; BSL; "t"%char; BSL; DQ; BSL; BSL; DQ] /\
  terminal_string [DQ; LF] = [SQ; DQ; BSL; "n"%char; SQ].
Proof. split; reflexivity. Qed.

(** ** C42 *)

Theorem C42_ll1 : wf_grammar SelfGrammar /\ LL1 SelfGrammar.
Proof. exact (dec_LL1 _ self_dec). Qed.
Print Assumptions C42_ll1.

Theorem C42_generated :
  forall order, exists tbl names, forall fuel, 256 * length SelfGrammar + 1 <= fuel ->
    FromGrammar_order order fuel SelfGrammar = Ok (tbl, names).
Proof. exact (passes_generated _ _ self_passes). Qed.
Print Assumptions C42_generated.

Theorem C42_decides :
  forall order fuel0 tbl names m src text,
    FromGrammar_order order fuel0 SelfGrammar = Ok (tbl, names) -> delivers src text ->
    (exists fuel, result fuel tbl (Some m) src <> NoFuel) /\
    (~ In NUL text -> ((exists fuel t, parses_to fuel tbl (Some m) src t) <-> word SelfGrammar text)).
Proof. intros order fuel0 tbl names m src text. apply decides, self_dec. Qed.
Print Assumptions C42_decides.

(** The words are the texts of the notation. *)
Lemma word_bnf text : ~ In NUL text -> word SelfGrammar text <-> exists g, bnf_text text g.
Proof.
  intros Hn. split.
  - intros W. destruct (passes_tree _ _ _ self_passes Hn W) as (t & T).
    destruct (tree_converted text t T) as (g & B & _). exists g. exact B.
  - intros (g & B). eapply bnf_word, B.
Qed.

(** ** C35 *)

Theorem C35_pipeline :
  forall order fuel0 tbl names m src text g,
    FromGrammar_order order fuel0 SelfGrammar = Ok (tbl, names) -> delivers src text -> ~ In NUL text ->
    ((exists fuel t, parses_to fuel tbl (Some m) src t /\ ToAST SelfCSTtoASTBindings t text = Ok g) <->
     bnf_text text g).
Proof.
  intros order fuel0 tbl names m src text g E Hd Hn.
  assert (C : forall fuel t, parses_to fuel tbl (Some m) src t ->
            exists g', bnf_text text g' /\ ToAST SelfCSTtoASTBindings t text = Ok g').
  { intros fuel t Hp. apply tree_converted.
    exact (proj1 (dec_tree _ _ _ _ _ _ _ _ _ _ self_dec E Hd Hn Hp)). }
  split.
  - intros (fuel & t & Hp & A). destruct (C fuel t Hp) as (g' & B & A'). congruence.
  - intros B. destruct (C42_decides _ _ _ _ m _ _ E Hd) as (_ & H).
    destruct (proj2 (H Hn) (bnf_word _ _ B)) as (fuel & t & Hp).
    destruct (C fuel t Hp) as (g' & B' & A). exists fuel, t. split; [exact Hp|].
    rewrite (bnf_det _ _ _ B B'). exact A.
Qed.
Print Assumptions C35_pipeline.

(** The notation itself is unambiguous. *)
Theorem C35_unambiguous : forall text g g', bnf_text text g -> bnf_text text g' -> g = g'.
Proof. exact bnf_det. Qed.
Print Assumptions C35_unambiguous.

(** Texts of the notation contain no NUL byte. *)
Lemma bnf_nulfree text g : bnf_text text g -> ~ In NUL text.
Proof.
  assert (A : forall p w, p NUL = false -> all p w -> ~ In NUL w).
  { intros p w Hp H Hi. unfold all in H. rewrite Forall_forall in H. specialize (H _ Hi). congruence. }
  assert (Bl : forall w, blanks w -> ~ In NUL w) by (intros w; apply A; reflexivity).
  assert (Na : forall w, name w -> ~ In NUL w) by (intros w H; apply name_all in H; revert H; apply A; reflexivity).
  assert (Qu : forall q raw v, quoted q raw v -> ~ In NUL raw).
  { induction 1 as [|c raw v P _ _ _ IH|e c raw v E _ IH]; intros Hi.
    - exact Hi.
    - destruct Hi as [->|Hi]; [discriminate P|exact (IH Hi)].
    - destruct Hi as [Hi|[->|Hi]]; [discriminate|inversion E|exact (IH Hi)]. }
  assert (Sy : forall t s, symbol_text t s -> ~ In NUL t).
  { intros t s H. destruct (symbol_text_cases _ _ H) as [(n & Hn & -> & _)|(q & raw & v & Q & Hq & -> & _)].
    - intros [Hi|Hi]; [discriminate|]. apply in_app_or in Hi. destruct Hi as [Hi|[Hi|[]]]; [|discriminate].
      exact (Na _ Hn Hi).
    - intros [Hi|Hi]; [destruct Q as [-> | ->]; discriminate|]. apply in_app_or in Hi.
      destruct Hi as [Hi|[Hi|[]]]; [exact (Qu _ _ _ Hq Hi)|destruct Q as [-> | ->]; discriminate]. }
  assert (Se : forall t s, sequence_text t s -> ~ In NUL t).
  { induction 1; intros Hi; repeat (apply in_app_or in Hi; destruct Hi as [Hi|Hi]); try contradiction;
      first [eapply Sy; eassumption | eapply Bl; eassumption]. }
  assert (Al : forall t s, alternatives_text t s -> ~ In NUL t).
  { induction 1; intros Hi; [eapply Se; eassumption|].
    apply in_app_or in Hi. destruct Hi as [Hi|[Hi|Hi]]; [eapply Se; eassumption|discriminate|].
    apply in_app_or in Hi. destruct Hi as [Hi|Hi]; [eapply Bl; eassumption|contradiction]. }
  assert (Ru : forall t r, rule_text t r -> ~ In NUL t).
  { intros t r [n w1 w2 t0 alts Hn H1 H2 Ha] [Hi|Hi]; [discriminate|].
    apply in_app_or in Hi. destruct Hi as [Hi|[Hi|Hi]]; [exact (Na _ Hn Hi)|discriminate|].
    apply in_app_or in Hi. destruct Hi as [Hi|Hi]; [exact (Bl _ H1 Hi)|].
    apply in_app_or in Hi. destruct Hi as [Hi|Hi]; [vm_compute in Hi; intuition discriminate|].
    apply in_app_or in Hi. destruct Hi as [Hi|Hi]; [exact (Bl _ H2 Hi)|exact (Al _ _ Ha Hi)]. }
  assert (Eo : forall e, eol e -> ~ In NUL e).
  { intros e []; cbn; intuition discriminate. }
  assert (Li : forall t l, lines_text t l -> ~ In NUL t).
  { induction 1; intros Hi; repeat (apply in_app_or in Hi; destruct Hi as [Hi|Hi]); try contradiction;
      first [eapply Eo; eassumption | eapply Bl; eassumption | eapply Ru; eassumption]. }
  intros [w t r rest g0 Hw Hr Hl] Hi. repeat (apply in_app_or in Hi; destruct Hi as [Hi|Hi]);
    first [eapply Bl; eassumption | eapply Ru; eassumption | eapply Li; eassumption].
Qed.

Definition sample : bytes := s2b "  <a>  ::=<b>'x""' | """"" ++ [CR; LF; LF] ++ s2b " <b>::= ""\t\\""" ++ [LF].
Example C35_case : bnf_text sample
  [mkRule (s2b "a") [[SNonTerminal (s2b "b"); STerminal [ "x"%char; DQ]]; [SNothing]];
   mkRule (s2b "b") [[STerminal [TAB; BSL]]]].
Proof.
  unfold sample. apply (bt (s2b "  ") (s2b "<a>  ::=<b>'x""' | """"")).
  - repeat constructor.
  - apply (rl (s2b "a") (s2b "  ") [] (s2b "<b>'x""' | """"")).
    + exists "a"%char, []. repeat split. constructor.
    + repeat constructor.
    + constructor.
    + apply (al_more (s2b "<b>'x""' ") _ (s2b " ") (s2b """""")).
      * apply (sq_more (s2b "<b>") [] _ (s2b "'x""' ")).
        -- apply (sy_nonterminal (s2b "b")). exists "b"%char, []. repeat split. constructor.
        -- constructor.
        -- apply (sq_last (s2b "'x""'") (s2b " ")); [|repeat constructor].
           apply (sy_terminal SQ (s2b "x""")); [right; reflexivity| |discriminate].
           repeat (apply qu_plain; [reflexivity|discriminate|discriminate|]). constructor.
      * repeat constructor.
      * apply al_last. apply (sq_last (s2b """""") []); [|constructor]. apply (sy_nothing DQ). left. reflexivity.
  - apply (li_blank [CR; LF] []); [constructor|constructor|].
    apply (li_rule [LF] (s2b " ") (s2b "<b>::= ""\t\\""")); [constructor|repeat constructor| |].
    + apply (rl (s2b "b") [] (s2b " ") (s2b """\t\\""")).
      * exists "b"%char, []. repeat split. constructor.
      * constructor.
      * repeat constructor.
      * apply al_last. apply (sq_last (s2b """\t\\""") []); [|constructor].
        apply (sy_terminal DQ (s2b "\t\\")); [left; reflexivity| |discriminate].
        apply (qu_escape DQ "t"%char TAB); [constructor|]. apply (qu_escape DQ BSL BSL); [constructor|]. constructor.
    + apply (li_blank [LF] [] []); constructor.
Qed.

(** ** C36 *)

Theorem C36_round_trip :
  forall order fuel0 tbl names m g,
    FromGrammar_order order fuel0 SelfGrammar = Ok (tbl, names) -> printable_grammar g ->
    exists fuel t, parses_to fuel tbl (Some m) (SrcString (grammar_string g)) t /\
      ToAST SelfCSTtoASTBindings t (grammar_string g) = Ok g.
Proof.
  intros order fuel0 tbl names m g E P. pose proof (grammar_printed g P) as B.
  eapply C35_pipeline; [exact E|constructor|eapply bnf_nulfree, B|exact B].
Qed.
Print Assumptions C36_round_trip.

Theorem C36_injective :
  forall g g', printable_grammar g -> printable_grammar g' -> grammar_string g = grammar_string g' -> g = g'.
Proof.
  intros g g' P P' E. apply grammar_printed in P. apply grammar_printed in P'. rewrite E in P.
  eapply bnf_det; eassumption.
Qed.
Print Assumptions C36_injective.

(** Boolean version of [printable_grammar]. *)
Definition nameb (n : bytes) : bool :=
  match n with [] => false | c :: s => is_letter c && forallb is_name_char s end.
Definition symb (s : symbol) : bool :=
  match s with
  | SNonTerminal n => nameb n
  | STerminal v => match v with [] => false | _ => forallb writable_byte v end
  | SNothing => true
  | SUnknown _ => false
  end.
Definition nonnil {A} (l : list A) : bool := match l with [] => false | _ => true end.
Definition printableb (g : grammar) : bool :=
  nonnil g && forallb (fun r => nameb (r_head r) && nonnil (r_tail r) &&
    forallb (fun s => nonnil s && forallb symb s) (r_tail r)) g.
Lemma nonnil_true {A} (l : list A) : nonnil l = true -> l <> [].
Proof. destruct l; [discriminate|discriminate]. Qed.
Lemma forallb_all p w : forallb p w = true -> all p w.
Proof. intros H. rewrite forallb_forall in H. apply Forall_forall. exact H. Qed.
Lemma nameb_name n : nameb n = true -> name n.
Proof.
  destruct n as [|c s]; [discriminate|]. cbn. intros H. apply andb_prop in H. destruct H as (H1 & H2).
  exists c, s. split; [reflexivity|]. split; [exact H1|apply forallb_all, H2].
Qed.
Lemma printableb_ok g : printableb g = true -> printable_grammar g.
Proof.
  unfold printableb. intros H. apply andb_prop in H. destruct H as (H1 & H2).
  split; [apply nonnil_true, H1|]. apply Forall_forall. intros r Hr. rewrite forallb_forall in H2.
  specialize (H2 r Hr). rewrite !andb_true_iff in H2. destruct H2 as ((A & B) & C).
  split; [apply nameb_name, A|]. split; [apply nonnil_true, B|]. apply Forall_forall. intros s Hs.
  rewrite forallb_forall in C. specialize (C s Hs). apply andb_prop in C. destruct C as (C & Dd).
  split; [apply nonnil_true, C|]. apply Forall_forall. intros x Hx. rewrite forallb_forall in Dd.
  specialize (Dd x Hx). destruct x as [n|v| |y]; cbn in *.
  - apply nameb_name, Dd.
  - destruct v as [|c v]; [discriminate|]. split; [discriminate|]. apply forallb_all, Dd.
  - exact I.
  - discriminate.
Qed.

Example C36_case : printable_grammar
  [mkRule (s2b "a-1") [[STerminal [SQ; DQ; BSL; TAB]; SNonTerminal (s2b "a-1")]; [SNothing]]].
Proof. apply printableb_ok. reflexivity. Qed.

(** Without the condition it fails: a one-letter name that is a digit is not
    read, and two different grammars print alike. *)
Theorem C36_refuted_unprintable :
  ~ (exists g, bnf_text (grammar_string [mkRule (s2b "1") [[STerminal (s2b "x")]]]) g) /\
  grammar_string [mkRule (s2b "a") [[STerminal []]]] = grammar_string [mkRule (s2b "a") [[SNothing]]].
Proof.
  split; [|reflexivity]. intros (g & H). inversion H as [w t r rest g0 Hw Hr Hl E]. clear H.
  inversion Hr as [n w1 w2 t0 alts Hn Hb1 Hb2 Ha E2]. subst t. destruct Hn as (c & s & -> & Hc & _).
  destruct w as [|x w]; cbn in E.
  - injection E as -> _. discriminate Hc.
  - injection E as -> _. inversion Hw as [|? ? P _]. discriminate P.
Qed.
Print Assumptions C36_refuted_unprintable.

(** ** C37 *)

Lemma parses_more fuel fuel' tbl names src r :
  result fuel tbl names src = Ok r -> fuel <= fuel' -> result fuel' tbl names src = Ok r.
Proof.
  intros H L. unfold result in *. rewrite (result_mono fuel fuel'); [exact H| |exact L].
  unfold result. rewrite H. discriminate.
Qed.

Lemma self_printable : printable_grammar SelfGrammar.
Proof. apply printableb_ok. vm_compute. reflexivity. Qed.

Theorem C37_reads_itself :
  exists fuel tbl names t,
    FromGrammar fuel SelfGrammar = Ok (tbl, names) /\
    parses_to fuel tbl (Some names) (SrcString (grammar_string SelfGrammar)) t /\
    ToAST SelfCSTtoASTBindings t (grammar_string SelfGrammar) = Ok SelfGrammar.
Proof.
  destruct (C42_generated (fun l => l)) as (tbl & names & E).
  destruct (C36_round_trip _ _ tbl names names _ (E _ (le_n _)) self_printable) as (fuel & t & (nm & Hp) & A).
  exists (256 * length SelfGrammar + 1 + fuel), tbl, names, t.
  split; [apply E, Nat.le_add_r|]. split; [|exact A]. exists nm.
  eapply parses_more; [exact Hp|]. apply Nat.le_add_l.
Qed.
Print Assumptions C37_reads_itself.

(** ** C38 *)

Theorem C38_never_fails :
  forall order fuel0 fuel tbl names m src text t,
    FromGrammar_order order fuel0 SelfGrammar = Ok (tbl, names) -> delivers src text -> ~ In NUL text ->
    parses_to fuel tbl (Some m) src t ->
    exists g, ToAST SelfCSTtoASTBindings t text = Ok g /\ printable_grammar g.
Proof.
  intros order fuel0 fuel tbl names m src text t E Hd Hn Hp.
  destruct (dec_tree _ _ _ _ _ _ _ _ _ _ self_dec E Hd Hn Hp) as (T & _).
  destruct (tree_converted text t T) as (g & B & A). exists g. split; [exact A|]. eapply bnf_text_printable, B.
Qed.
Print Assumptions C38_never_fails.

(** ** C39 *)

Theorem C39_normal_form : forall text g, bnf_text text g -> bnf_text (grammar_string g) g.
Proof. intros text g B. apply grammar_printed. eapply bnf_text_printable, B. Qed.
Print Assumptions C39_normal_form.

Theorem C39_idempotent :
  forall order fuel0 fuel tbl names m src text t g,
    FromGrammar_order order fuel0 SelfGrammar = Ok (tbl, names) -> delivers src text -> ~ In NUL text ->
    parses_to fuel tbl (Some m) src t -> ToAST SelfCSTtoASTBindings t text = Ok g ->
    exists fuel' t', parses_to fuel' tbl (Some m) (SrcString (grammar_string g)) t' /\
      ToAST SelfCSTtoASTBindings t' (grammar_string g) = Ok g.
Proof.
  intros order fuel0 fuel tbl names m src text t g E Hd Hn Hp A.
  destruct (C38_never_fails _ _ _ _ _ _ _ _ _ E Hd Hn Hp) as (g' & A' & P).
  assert (g' = g) by congruence. subst g'. eapply C36_round_trip; eassumption.
Qed.
Print Assumptions C39_idempotent.
