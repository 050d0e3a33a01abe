(** * Props_Repair: property C109: left factoring and removal of left recursion. *)
From Verif Require Import Base Ast Cst Parser TableGen Spec_Parse Spec_Tree Spec_Grammar Spec_Table Spec_ParseTree Spec_Helper
  Spec_Repeat Spec_Repair GrammarProofs ParserProofs ParseApi TGFirsts TGFollows TGMain TGParse TGTrees TGCheck
  Props_TableGen Props_Trees Props_Handled Helper Props_Helper Props_Repeat Repair.

Lemma nt_iff g g' n :
  (forall w, gen g [NT n] w <-> gen g' [NT n] w) ->
  forall w, sequence_word g' [SNonTerminal n] w <-> sequence_word g [SNonTerminal n] w.
Proof. intros H w. rewrite !word_gen. symmetry. apply H. Qed.

Lemma factored_all g g' : wf_grammar g -> left_factored g g' ->
  wf_grammar g' /\ start g' = start g /\ (forall n, defined g n -> defined g' n) /\
  forall n w, defined g n -> (sequence_word g' [SNonTerminal n] w <-> sequence_word g [SNonTerminal n] w).
Proof.
  intros W [g1 g2 a h before common tails after -> -> C1 C2 T N]. split; [|split; [|split]].
  - apply factor_wf; assumption.
  - apply shape_start; assumption.
  - intros n D. unfold defined in *. rewrite (shape_heads g1 g2 a h (before ++ map (app common) tails ++ after)).
    apply in_or_app. left. exact D.
  - intros n w D. apply nt_iff. intros v. split; [apply factor_old_new; assumption|].
    apply factor_new_old; try assumption. intros [E|[]]. injection E as ->. exact (N D).
Qed.
Lemma removed_all g g' : wf_grammar g -> left_recursion_removed g g' ->
  wf_grammar g' /\ start g' = start g /\ (forall n, defined g n -> defined g' n) /\
  forall n w, defined g n -> (sequence_word g' [SNonTerminal n] w <-> sequence_word g [SNonTerminal n] w).
Proof.
  intros W [g1 g2 a h loops bases -> -> N]. split; [|split; [|split]].
  - apply rec_wf; assumption.
  - apply shape_start; assumption.
  - intros n D. unfold defined in *. rewrite (shape_heads g1 g2 a h (map (cons (SNonTerminal a)) loops ++ bases)).
    apply in_or_app. left. exact D.
  - intros n w D. apply nt_iff. intros v. split; [apply rec_old_new; assumption|].
    apply rec_new_old; try assumption. intros [E|[]]. injection E as ->. exact (N D).
Qed.
Lemma unfolded_all g g' : wf_grammar g -> unfolded g g' ->
  wf_grammar g' /\ start g' = start g /\ (forall n, defined g n -> defined g' n) /\
  forall n w, defined g n -> (sequence_word g' [SNonTerminal n] w <-> sequence_word g [SNonTerminal n] w).
Proof.
  intros W [g1 g2 a b before pre post after alts -> Hb ->]. split; [|split; [|split]].
  - eapply unfold_wf; eassumption.
  - destruct g1; reflexivity.
  - intros n D. unfold defined in *. rewrite (unfold_heads g1 g2 a b before pre post). exact D.
  - intros n w D. apply nt_iff. intros v. split; [apply unfold_old_new; assumption|apply unfold_new_old; assumption].
Qed.
Lemma start_defined g : wf_grammar g -> defined g (start g).
Proof. intros W. destruct g as [|r g]; [destruct (wf_nonempty _ W); reflexivity|]. left. reflexivity. Qed.

(** However a grammar is repaired, every rule it had stands for the same words
    as before, and so does the grammar. *)
Theorem C109_words :
  forall g g', wf_grammar g -> repaired g g' ->
    wf_grammar g' /\
    (forall n w, defined g n -> (sequence_word g' [SNonTerminal n] w <-> sequence_word g [SNonTerminal n] w)) /\
    (forall w, word g' w <-> word g w).
Proof.
  assert (K : forall g g', wf_grammar g -> repaired g g' ->
    wf_grammar g' /\ start g' = start g /\
    (forall n w, defined g n -> (sequence_word g' [SNonTerminal n] w <-> sequence_word g [SNonTerminal n] w))).
  { intros g g' W H. induction H as [g|g g1 g2 H _ IH|g g1 g2 H _ IH|g g1 g2 H _ IH]; [intuition| | |].
    - destruct (factored_all g g1 W H) as (W1 & S1 & D1 & A1). destruct (IH W1) as (W2 & S2 & A2).
      split; [exact W2|]. split; [congruence|]. intros n w D. rewrite A2 by (apply D1, D). apply A1, D.
    - destruct (removed_all g g1 W H) as (W1 & S1 & D1 & A1). destruct (IH W1) as (W2 & S2 & A2).
      split; [exact W2|]. split; [congruence|]. intros n w D. rewrite A2 by (apply D1, D). apply A1, D.
    - destruct (unfolded_all g g1 W H) as (W1 & S1 & D1 & A1). destruct (IH W1) as (W2 & S2 & A2).
      split; [exact W2|]. split; [congruence|]. intros n w D. rewrite A2 by (apply D1, D). apply A1, D. }
  intros g g' W H. destruct (K g g' W H) as (W' & S & A). split; [exact W'|]. split; [exact A|].
  intros w. unfold word. rewrite S. specialize (A (start g) w (start_defined g W)). unfold sequence_word in A. cbn in A.
  split; intros [_ Y]; (split; [apply wf_nonempty; assumption|]); apply A, Y.
Qed.
Print Assumptions C109_words.

(** If the repaired grammar is LL(1) and FromGrammar gets its FOLLOW sets right,
    the parser it makes of it accepts exactly the words of the grammar one
    started from. *)
Theorem C109_parser :
  forall order fuel0 g g' tbl names m src text,
    wf_grammar g -> repaired g g' -> LL1 g' ->
    (forall n x, nullable g' [NT n] -> follow g' n x -> follow_code g' n x) ->
    FromGrammar_order order fuel0 g' = Ok (tbl, names) -> delivers src text -> ~ In NUL text ->
    ((exists fuel t, parses_to fuel tbl (Some m) src t) <-> word g text).
Proof.
  intros order fuel0 g g' tbl names m src text W H L F E Hd Nn. destruct (C109_words g g' W H) as (W' & _ & Wo).
  rewrite <- Wo. split.
  - intros (fuel & t & Hp). eapply C27_sound; try eassumption. apply L.
  - intros Hw. eapply ll1_complete; [exact W'|exact L|apply follow_closed|exact F|exact E|exact Hd|exact Hw].
Qed.
Print Assumptions C109_parser.

(** Without the condition on FOLLOW: helper rules (C100, C101) can always be
    added so that it works. *)
Theorem C109_with_helpers :
  forall order g g1, wf_grammar g -> repaired g g1 -> LL1 g1 -> (forall m, defined g1 m -> reachable g1 m) ->
    exists g' fuel0 tbl names, helpers g1 g' /\ FromGrammar_order order fuel0 g' = Ok (tbl, names) /\
      forall m src text, delivers src text -> ~ In NUL text ->
        ((exists fuel t, parses_to fuel tbl (Some m) src t) <-> word g text).
Proof.
  intros order g g1 W H L R. destruct (C109_words g g1 W H) as (W1 & _ & Wo).
  destruct (C101_every_ll1_grammar order g1 W1 L R) as (g' & fuel0 & tbl & names & Hh & E & P).
  exists g', fuel0, tbl, names. split; [exact Hh|]. split; [exact E|]. intros m src text Hd Nn.
  destruct (P m src text Hd Nn) as [A _]. rewrite A. apply Wo.
Qed.
Print Assumptions C109_with_helpers.

(** Left factoring keeps the parse trees: those of [g] are those of [g'] without
    the nodes of the new rule (whose type is the number behind those of [g]). *)
Theorem C109_trees :
  forall g g' text, wf_grammar g -> left_factored g g' ->
    (forall t', parse_tree g' text t' -> exists t, unfactor (Z.of_nat (length g)) t' = [t] /\ parse_tree g text t) /\
    (forall t, parse_tree g text t -> exists t', parse_tree g' text t' /\ unfactor (Z.of_nat (length g)) t' = [t]).
Proof.
  intros g g' text W H. pose proof (factored_all g g' W H) as (_ & S & _).
  pose proof (start_defined g W) as D. destruct H as [g1 g2 a h before common tails after -> -> C1 C2 T N].
  unfold parse_tree. rewrite S. split.
  - intros t' Ht.
    destruct (proj2 (proj1 (factor_tree_back g1 g2 a h before common tails after N W C1 C2 T text) _ _ _ _ Ht)) as (t & E & K).
    + intros X. injection X as X. rewrite X in D. exact (N D).
    + exists t. auto.
  - intros t Ht. apply (proj1 (factor_tree_there g1 g2 a h before common tails after N W C1 C2 T text) _ _ _ _ Ht).
Qed.
Print Assumptions C109_trees.

(** So a tree that Parse returns for the factored grammar is a tree of the
    original one with the new nodes in it (and its empty parts cut, C53). *)
Theorem C109_tree :
  forall order fuel0 fuel g g' tbl names m src text t',
    wf_grammar g -> left_factored g g' -> LL1 g' ->
    FromGrammar_order order fuel0 g' = Ok (tbl, names) ->
    delivers src text -> ~ In NUL text -> parses_to fuel tbl (Some m) src t' ->
    exists T T', parse_tree g text T /\ parse_tree g' text T' /\ t' = collapse T' /\
      unfactor (Z.of_nat (length g)) T' = [T].
Proof.
  intros order fuel0 fuel g g' tbl names m src text t' W H L E Hd Nn Hp.
  destruct (factored_all g g' W H) as (W' & _).
  destruct (C53_parser_tree _ _ _ _ _ _ _ _ _ _ W' L E Hd Nn Hp) as (T' & HT' & ->).
  destruct (proj1 (C109_trees g g' text W H) T' HT') as (T & ET & HT). exists T, T'. auto.
Qed.
Print Assumptions C109_tree.

(** The repairs are needed: a grammar with two alternatives that start alike, or
    with a left-recursive rule that can begin with a byte, is not LL(1). *)
Theorem C109_needed :
  (forall g n l1 common t1 l2 t2 l3 r c,
     In r g -> r_head r = n -> r_tail r = l1 ++ (common ++ t1) :: l2 ++ (common ++ t2) :: l3 ->
     first g (seq_form common) c -> ~ LL1 g) /\
  (forall g a l b l1 l2 r c,
     In r g -> r_head r = a -> r_tail r = l1 ++ (SNonTerminal a :: l) :: l2 -> In b (l1 ++ l2) ->
     first g (seq_form b) c -> ~ LL1 g).
Proof.
  assert (K : forall g u v c, first g u c -> first g (u ++ v) c).
  { intros g u v c (x & H). exists (x ++ v). apply (yields_app g u v (Ch c :: x) v); [exact H|constructor]. }
  split.
  - intros g n l1 common t1 l2 t2 l3 r c Hr Hn Et F L.
    eapply (ll1_first _ _ L n (common ++ t1) (common ++ t2) c).
    + exists r, l1, l2, l3. auto.
    + rewrite seq_form_app. apply K, F.
    + rewrite seq_form_app. apply K, F.
  - intros g a l b l1 l2 r c Hr Ha Et Hb F L.
    assert (Fa : first g (seq_form (SNonTerminal a :: l)) c).
    { change (seq_form (SNonTerminal a :: l)) with ([NT a] ++ seq_form l). apply K.
      destruct F as (x & Hx). exists x. eapply yields_trans; [|exact Hx]. apply yields_alt. exists r. split; [exact Hr|].
      split; [exact Ha|]. rewrite Et. apply in_app_or in Hb. apply in_or_app. destruct Hb; [left|right; right]; assumption. }
    apply in_app_or in Hb. destruct Hb as [Hb|Hb]; apply in_split in Hb; destruct Hb as (x & y & E).
    + eapply (ll1_first _ _ L a b (SNonTerminal a :: l) c); [|exact F|exact Fa].
      exists r, x, y, l2. split; [exact Hr|]. split; [exact Ha|]. rewrite Et, E, <- app_assoc. reflexivity.
    + eapply (ll1_first _ _ L a (SNonTerminal a :: l) b c); [|exact Fa|exact F].
      exists r, l1, x, y. split; [exact Hr|]. split; [exact Ha|]. rewrite Et, E. reflexivity.
Qed.
Print Assumptions C109_needed.

(** A concrete case: sums of calls.  E is left-recursive, the alternatives of T
    start alike; after both repairs FromGrammar makes a parser. *)
Definition sums : grammar :=
  [mkRule (s2b "E") [[nt "E"; tm "+"; nt "T"]; [nt "T"]];
   mkRule (s2b "T") [[tm "x"; tm "("; nt "E"; tm ")"]; [tm "x"]]].
Definition sums1 : grammar :=
  [mkRule (s2b "E") [[nt "T"; nt "H"]];
   mkRule (s2b "T") [[tm "x"; tm "("; nt "E"; tm ")"]; [tm "x"]];
   mkRule (s2b "H") [[tm "+"; nt "T"; nt "H"]; [SNothing]]].
Definition sums2 : grammar :=
  [mkRule (s2b "E") [[nt "T"; nt "H"]];
   mkRule (s2b "T") [[tm "x"; nt "A"]];
   mkRule (s2b "H") [[tm "+"; nt "T"; nt "H"]; [SNothing]];
   mkRule (s2b "A") [[tm "("; nt "E"; tm ")"]; [SNothing]]].
Example C109_case :
  wf_grammar sums /\ ~ LL1 sums /\ left_recursion_removed sums sums1 /\ left_factored sums1 sums2 /\ LL1 sums2 /\
  (forall n x, nullable sums2 [NT n] -> follow sums2 n x -> follow_code sums2 n x) /\
  (exists tbl names t, FromGrammar 2000 sums2 = Ok (tbl, names) /\
     parses_to 200 tbl (Some names) (SrcString (s2b "x(x+x)+x")) t) /\
  exists t, parses_to 200 (fst (gen_of sums2)) (Some []) (SrcString (s2b "x")) t /\
    unfactor 3 t = [mk 0 0 1 [mk 1 0 1 [literal_at 0 1]; mk 2 1 1 [nothing_at 1]]].
Proof.
  assert (P : passes sums2 (auto_cert sums2) = true) by (vm_compute; reflexivity).
  pose proof (proj1 (passes_ok _ _ P)) as Dg.
  split; [apply wfb_spec; vm_compute; reflexivity|]. split.
  { apply (proj2 C109_needed sums (s2b "E") [tm "+"; nt "T"] [nt "T"] [] [[nt "T"]] (mkRule (s2b "E") [[nt "E"; tm "+"; nt "T"]; [nt "T"]]) "x"%char);
      [left; reflexivity|reflexivity|reflexivity|left; reflexivity|].
    exists []. eapply (ys_step _ _ _ _ (y1 _ [] (s2b "T") [tm "x"] [] _)). apply ys_refl. Unshelve.
    eexists. split; [right; left; reflexivity|]. split; [reflexivity|right; left; reflexivity]. }
  split.
  { apply (left_recursion_removed_by sums sums1 [] (tl sums) (s2b "E") (s2b "H") [[tm "+"; nt "T"]] [[nt "T"]]);
      [reflexivity|reflexivity|]. intros [H|[H|[]]]; discriminate. }
  split.
  { apply (left_factored_by sums1 sums2 (firstn 1 sums1) (skipn 2 sums1) (s2b "T") (s2b "A") [] [tm "x"]
             [[tm "("; nt "E"; tm ")"]; []] []);
      [reflexivity|reflexivity|discriminate|discriminate|discriminate|].
    intros [H|[H|[H|[]]]]; discriminate. }
  split; [apply rules_LL1; [discriminate|exact (dg_ll1 _ Dg)]|]. split.
  { intros n x Hn Hf. apply (dg_follow _ Dg); [exact Hn|]. apply follow_in_rules; [discriminate|exact Hf]. }
  split.
  - eexists. eexists. eexists. split; [vm_compute; reflexivity|]. eexists. vm_compute. reflexivity.
  - eexists. split; [eexists; vm_compute; reflexivity|vm_compute; reflexivity].
Qed.

(** Indirect left recursion: unfold first.  S ::= A "x" | "y", A ::= S "z". *)
Definition indirect : grammar :=
  [mkRule (s2b "S") [[nt "A"; tm "x"]; [tm "y"]]; mkRule (s2b "A") [[nt "S"; tm "z"]]].
Definition indirect1 : grammar :=
  [mkRule (s2b "S") [[nt "S"; tm "z"; tm "x"]; [tm "y"]]; mkRule (s2b "A") [[nt "S"; tm "z"]]].
Definition indirect2 : grammar :=
  [mkRule (s2b "S") [[tm "y"; nt "H"]]; mkRule (s2b "A") [[nt "S"; tm "z"]];
   mkRule (s2b "H") [[tm "z"; tm "x"; nt "H"]; [SNothing]]].
(** The rule of [A] is now unused; it still gives "z" to FOLLOW of S, so it is
    left out (C103). *)
Definition indirect3 : grammar :=
  [mkRule (s2b "S") [[tm "y"; nt "H"]]; mkRule (s2b "H") [[tm "z"; tm "x"; nt "H"]; [SNothing]]].
Example C109_case_indirect :
  wf_grammar indirect /\ unfolded indirect indirect1 /\ left_recursion_removed indirect1 indirect2 /\
  repaired indirect indirect2 /\
  exists tbl names t, FromGrammar 2000 indirect3 = Ok (tbl, names) /\
    parses_to 200 tbl (Some names) (SrcString (s2b "yzxzx")) t.
Proof.
  assert (U : unfolded indirect indirect1).
  { apply (unfolded_by indirect indirect1 [] (tl indirect) (s2b "S") (s2b "A") [] [] [tm "x"] [[tm "y"]] [[nt "S"; tm "z"]]);
      [reflexivity|right; left; reflexivity|reflexivity]. }
  assert (R : left_recursion_removed indirect1 indirect2).
  { apply (left_recursion_removed_by indirect1 indirect2 [] (tl indirect1) (s2b "S") (s2b "H") [[tm "z"; tm "x"]] [[tm "y"]]);
      [reflexivity|reflexivity|]. intros [H|[H|[]]]; discriminate. }
  split; [apply wfb_spec; vm_compute; reflexivity|]. split; [exact U|]. split; [exact R|].
  split; [eapply rp_unfold; [exact U|]; eapply rp_recursion; [exact R|]; constructor|].
  eexists. eexists. eexists. split; [vm_compute; reflexivity|]. eexists. vm_compute. reflexivity.
Qed.
