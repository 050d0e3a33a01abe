(** * Props_Extend: property C82, rules added at the end of a grammar. *)
From Verif Require Import Base ByteSet Ast Cst Parser TableGen Spec_Parse Spec_Tree Spec_Grammar Spec_Table
  Spec_ParseTree Spec_Override Spec_Outcome Spec_Predict Spec_Extend GrammarProofs ParserProofs TreeProofs ParseApi ParseApi2
  TGFirsts TGMain TGCells TGClosed TGParse TGNames TGTrees TGCheck Props_Parser Props_TableGen
  TGOverride TGOutcome Props_Override Props_Outcome TGPredict Props_Predict TGExtend Examples ExamplesModel Props_Trees.

Lemma NoDup_front {A} (l l' : list A) : NoDup (l ++ l') -> NoDup l.
Proof.
  induction l as [|a l IH]; intros N; [constructor|]. simpl in N. inversion N as [|? ? Na N']; subst.
  constructor; [|apply IH, N']. intros H. apply Na, in_or_app. left. exact H.
Qed.
Lemma front_heads g h : NoDup (heads (g ++ h)) -> NoDup (heads g).
Proof. unfold heads. rewrite map_app. apply NoDup_front. Qed.
Lemma front_nulfree g h : terminals_nulfree (g ++ h) -> terminals_nulfree g.
Proof. intros Nf n s t Ha. eapply Nf, ext_alt, Ha. Qed.

(** If the longer grammar is accepted, so is the shorter one. *)
Theorem C82_shorter_accepted :
  forall order order' fuel fuel' g h tbl names,
    g <> [] -> NoDup (heads (g ++ h)) -> self_contained g -> terminals_nulfree (g ++ h) ->
    FromGrammar_order order fuel (g ++ h) = Ok (tbl, names) -> 256 * length g + 1 <= fuel' ->
    exists tbl' names', FromGrammar_order order' fuel' g = Ok (tbl', names').
Proof.
  intros order order' fuel fuel' g h tbl names Ne Nd Cl Nf E Hf.
  assert (E' : FromGrammar_order order (fuel + enough (g ++ h)) (g ++ h) = Ok (tbl, names)).
  { rewrite FromGrammar_more; [exact E|]. rewrite E. discriminate. }
  pose proof (C67_outcome_distinct order _ _ Nd Nf (Nat.le_add_l (enough (g ++ h)) fuel)) as O. rewrite E' in O.
  inversion O as [f Hff Ef|f N1 Hff Ef|f N1 N2 Hff Ef|t n N1 N2 N3 TS Et]; subst; try (destruct f; discriminate Ef).
  destruct (C67_outcome_distinct order' fuel' g (front_heads _ _ Nd) (front_nulfree _ _ Nf) Hf)
    as [f Hff|f _ Hff|f _ _ Hff|tbl' names' _ _ _ _].
  - destruct (N1 f (ext_first_fault g h Cl f Hff)).
  - destruct (N2 f (ext_follow_fault g h Ne Cl f Hff)).
  - destruct (N3 f (ext_cell_fault g h Ne Nd Cl f Hff)).
  - eauto.
Qed.
Print Assumptions C82_shorter_accepted.

(** The parser of the longer grammar accepts every text that the parser of the
    shorter one accepts, with the same tree. *)
Theorem C82_still_accepted :
  forall order order' fuel fuel' g h tbl names tbl' names' m m' src text t,
    g <> [] -> NoDup (heads (g ++ h)) -> self_contained g -> terminals_nulfree (g ++ h) ->
    FromGrammar_order order fuel g = Ok (tbl, names) ->
    FromGrammar_order order' fuel' (g ++ h) = Ok (tbl', names') -> delivers src text ->
    (exists f, parses_to f tbl (Some m) src t) -> (exists f, parses_to f tbl' (Some m') src t).
Proof.
  intros order order' fuel fuel' g h tbl names tbl' names' m m' src text t Ne Nd Cl Nf E E' Hd H.
  rewrite (C79_exact _ _ _ _ _ m _ _ _ Ne (front_heads _ _ Nd) (front_nulfree _ _ Nf) E Hd) in H.
  destruct H as (q & P & Hq).
  assert (Ne' : g ++ h <> []) by (destruct g; [congruence|discriminate]).
  apply (C79_exact _ _ _ _ _ m' _ _ _ Ne' Nd Nf E' Hd). exists q. split; [|exact Hq].
  rewrite (ext_start g h Ne Nd Cl). apply (proj1 (ext_predicted_both g h Ne Nd Cl text)), P.
Qed.
Print Assumptions C82_still_accepted.

(** What it accepts in addition is still a word of the shorter grammar. *)
Theorem C82_only_words :
  forall order fuel0 fuel g h tbl names m src text t,
    g <> [] -> self_contained g -> wf_grammar (g ++ h) -> first_disjoint (g ++ h) ->
    FromGrammar_order order fuel0 (g ++ h) = Ok (tbl, names) -> delivers src text -> ~ In NUL text ->
    parses_to fuel tbl (Some m) src t -> word g text.
Proof.
  intros order fuel0 fuel g h tbl names m src text t Ne Cl W D E Hd Nul Hp.
  apply (ext_word g h Ne (wf_distinct _ W) Cl). eapply C27_sound; eassumption.
Qed.
Print Assumptions C82_only_words.

(** ** Hints *)

Lemma wf_self_contained g : wf_grammar g -> self_contained g.
Proof.
  intros W n s m Ha Hm. destruct (wf_sequences _ W _ _ Ha) as [->|(_ & F)].
  - destruct Hm as [Hm|[]]. discriminate.
  - rewrite Forall_forall in F. exact (F _ Hm).
Qed.

Lemma none_found g n : g <> [] -> follow g n None -> follow_code g n None.
Proof.
  intros Ne H. apply follow_in_rules in H; [|exact Ne]. remember None as x eqn:Ex.
  induction H as [N|A a B b c Ha Hf|A a B b x Ha Hn _ IH].
  - apply fc_rule1, N.
  - discriminate.
  - subst x. specialize (IH eq_refl). destruct b as [|X b].
    + eapply fc_rule3; eassumption.
    + eapply fc_rule4; [exact Ha| |exact IH]. cbn [seq_form flat_map] in Hn.
      apply nullable_app in Hn. apply Hn.
Qed.

Lemma hints_wf g h : wf_grammar g -> NoDup (heads (g ++ h)) -> Forall (hint g) h -> wf_grammar (g ++ h).
Proof.
  intros W Nd Fh. split.
  - pose proof (wf_nonempty _ W). destruct g; [congruence|discriminate].
  - exact Nd.
  - intros n s (r & Hr & En & Hs). apply in_app_or in Hr. destruct Hr as [Hr|Hr].
    + destruct (wf_sequences _ W n s) as [E|(Ne & F)]; [exists r; auto|left; exact E|right].
      split; [exact Ne|]. rewrite Forall_forall in *. intros x Hx. specialize (F x Hx).
      destruct x as [m|t| |str]; cbn in *; auto. apply ext_defined, F.
    + rewrite Forall_forall in Fh. destruct (Fh _ Hr) as (B & c & D & Hc & E). rewrite E in Hs.
      destruct Hs as [<-|[]]. right. split; [discriminate|]. repeat constructor.
      * cbn. apply ext_defined, D.
      * cbn. discriminate.
      * cbn. intros [E1|[]]. apply Hc, E1.
Qed.

Lemma hint_two g r s1 s2 l1 l2 l3 : hint g r -> r_tail r <> l1 ++ s1 :: l2 ++ s2 :: l3.
Proof.
  intros (B & c & _ & _ & E) E'. rewrite E in E'. apply (f_equal (@length _)) in E'.
  rewrite !app_length in E'. cbn in E'. rewrite app_length in E'. cbn in E'. lia.
Qed.

Lemma hints_LL1 g h : wf_grammar g -> NoDup (heads (g ++ h)) -> Forall (hint g) h -> LL1 g -> LL1 (g ++ h).
Proof.
  intros W Nd Fh L. pose proof (wf_self_contained _ W) as Cl. pose proof (wf_nonempty _ W) as Ne.
  assert (Two : forall n s1 s2, two_alternatives (g ++ h) n s1 s2 ->
    two_alternatives g n s1 s2 /\ inside g (seq_form s1) /\ inside g (seq_form s2)).
  { intros n s1 s2 (r & l1 & l2 & l3 & Hr & En & Er). apply in_app_or in Hr. destruct Hr as [Hr|Hr].
    - split; [exists r, l1, l2, l3; auto|]. split; apply (inside_tail g Cl r); auto; rewrite Er; apply in_or_app; right.
      + left. reflexivity.
      + right. apply in_or_app. right. left. reflexivity.
    - rewrite Forall_forall in Fh. destruct (hint_two _ _ _ _ _ _ _ (Fh _ Hr) Er). }
  constructor.
  - intros n s1 s2 c H2 F1 F2. destruct (Two _ _ _ H2) as (H2' & I1 & I2).
    apply (ext_first g h Nd Cl) in F1; [|exact I1]. apply (ext_first g h Nd Cl) in F2; [|exact I2].
    exact (ll1_first _ _ L _ _ _ _ H2' F1 F2).
  - intros n s1 s2 H2 F1 F2. destruct (Two _ _ _ H2) as (H2' & I1 & I2).
    apply (ext_nullable g h Nd Cl) in F1; [|exact I1]. apply (ext_nullable g h Nd Cl) in F2; [|exact I2].
    exact (ll1_empty _ _ L _ _ _ H2' F1 F2).
  - intros n s1 s2 c H2 Fo. destruct (Two _ _ _ H2) as (H2' & I1 & I2).
    apply (ext_follow g h Ne Nd Cl) in Fo. destruct (ll1_follow _ _ L _ _ _ _ H2' Fo) as (A & B). split.
    + intros F1 F2. apply (ext_nullable g h Nd Cl) in F1; [|exact I1]. apply (ext_first g h Nd Cl) in F2; [|exact I2].
      exact (A F1 F2).
    + intros F1 F2. apply (ext_nullable g h Nd Cl) in F1; [|exact I2]. apply (ext_first g h Nd Cl) in F2; [|exact I1].
      exact (B F1 F2).
Qed.

(** With hints for what the generator misses, the parser accepts exactly the
    words of the LL(1) grammar; nothing is asked of the generator's FOLLOW sets
    but that the grammar with the hints is accepted. *)
Theorem C82_hints :
  forall order fuel0 g h tbl names m src text,
    wf_grammar g -> LL1 g -> NoDup (heads (g ++ h)) -> hints_enough g h ->
    FromGrammar_order order fuel0 (g ++ h) = Ok (tbl, names) -> delivers src text -> ~ In NUL text ->
    ((exists fuel t, parses_to fuel tbl (Some m) src t) <-> word g text).
Proof.
  intros order fuel0 g h tbl names m src text W L Nd (Fh & Hi) E Hd Nul.
  pose proof (wf_self_contained _ W) as Cl. pose proof (wf_nonempty _ W) as Ne.
  pose proof (hints_wf _ _ W Nd Fh) as W'. pose proof (hints_LL1 _ _ W Nd Fh L) as L'. split.
  - intros (fuel & t & Hp). eapply C82_only_words; [exact Ne|exact Cl|exact W'|apply (ll1_first _ _ L')|exact E|exact Hd|exact Nul|exact Hp].
  - intros Hw. apply (ll1_complete _ _ _ _ _ (follow (g ++ h)) _ _ _ W' L' (follow_closed _)) with (2 := E) (3 := Hd).
    + intros n x Hn Hf. apply (ext_follow g h Ne Nd Cl) in Hf.
      pose proof (follow_defined g h Ne Nd Cl _ _ Hf) as Dn.
      apply (ext_nullable g h Nd Cl) in Hn; [|intros k [Ek|[]]; injection Ek as <-; exact Dn].
      destruct x as [c|]; [|apply (ext_follow_code g h Ne Nd Cl), none_found; assumption].
      destruct (Hi n c Hn Hf) as [Fc|(r & Hr & Er)]; [apply (ext_follow_code g h Ne Nd Cl), Fc|].
      apply (fc_rule2 (g ++ h) (r_head r) [] n (STerminal [c]) [] c).
      * exists r. split; [apply in_or_app; right; exact Hr|]. split; [reflexivity|]. rewrite Er. left. reflexivity.
      * exists []. constructor.
    + apply (ext_word g h Ne Nd Cl), Hw.
Qed.
Print Assumptions C82_hints.

(** [two_empty] is  S ::= A B "c"    A ::= "a" | ""    B ::= "b" | "" ; its
    parser refuses the word "c". With the useless rule  H ::= A "c"  all words
    are accepted: the rule that nothing refers to changes the parser. *)
Definition missing_hint : grammar := [ru "H" [[nt "A"; tm "c"]]].
Lemma two_empty_hints : hints_enough two_empty missing_hint.
Proof.
  split.
  - constructor; [|constructor]. exists (s2b "A"), "c"%char. split; [right; left; reflexivity|]. split; [discriminate|reflexivity].
  - intros B c Hn Hf.
    assert (D : defined two_empty B) by (apply (follow_defined two_empty [] (wf_nonempty _ two_empty_wf)) with (x := Some c);
      [rewrite app_nil_r; apply two_empty_wf|apply wf_self_contained, two_empty_wf|exact Hf]).
    apply follow_in_rules in Hf; [|discriminate].
    destruct two_empty_dec_parts as (_ & K1 & K2 & _). eapply follow_over in Hf; [|exact K1|exact K2].
    apply (nul_over _ _ K1) in Hn.
    destruct D as [<-|[<-|[<-|[]]]].
    + vm_compute in Hn. discriminate.
    + assert (X : forallb (fun c => implb2 (c_follow (auto_cert two_empty) (s2b "A") (Some c)) (Ascii.eqb c "b"%char || Ascii.eqb c "c"%char)) all_bytes = true)
        by (vm_compute; reflexivity).
      rewrite forallb_forall in X. specialize (X c (all_bytes_in c)). rewrite implb2_true in X. specialize (X Hf).
      apply orb_true_iff in X. destruct X as [X|X]; apply Ascii.eqb_eq in X; subst c; [left|right].
      * apply (fc_rule2 _ (s2b "S") [] (s2b "A") (nt "B") [tm "c"] "b"%char); [alt_at two_empty 0|].
        exists []. eapply ys_step; [|apply ys_refl].
        apply (y1 two_empty [] (s2b "B") [tm "b"] []). alt_at two_empty 2.
      * exists (ru "H" [[nt "A"; tm "c"]]). split; [left; reflexivity|reflexivity].
    + assert (X : forallb (fun c => implb2 (c_follow (auto_cert two_empty) (s2b "B") (Some c)) (Ascii.eqb c "c"%char)) all_bytes = true)
        by (vm_compute; reflexivity).
      rewrite forallb_forall in X. specialize (X c (all_bytes_in c)). rewrite implb2_true in X. specialize (X Hf).
      apply Ascii.eqb_eq in X. subst c. left.
      apply (fc_rule2 _ (s2b "S") [nt "A"] (s2b "B") (tm "c") [] "c"%char); [alt_at two_empty 0|].
      exists []. apply ys_refl.
Qed.
Example C82_case :
  wf_grammar two_empty /\ LL1 two_empty /\ NoDup (heads (two_empty ++ missing_hint)) /\
  hints_enough two_empty missing_hint /\
  FromGrammar (256 * length two_empty + 1) two_empty = Ok (gen_of two_empty) /\
  FromGrammar (256 * length (two_empty ++ missing_hint) + 1) (two_empty ++ missing_hint) = Ok (gen_of (two_empty ++ missing_hint)).
Proof.
  split; [exact two_empty_wf|]. split; [exact two_empty_LL1|].
  split; [apply nodupb_spec; vm_compute; reflexivity|].
  split; [exact two_empty_hints|]. split; vm_compute; reflexivity.
Qed.

(** The converse of [C82_still_accepted] is false. *)
Theorem C82_refuted_same_texts :
  exists g h text tbl names tbl' names',
    wf_grammar g /\ LL1 g /\ wf_grammar (g ++ h) /\ LL1 (g ++ h) /\
    (forall r n s, In r h -> alternative (g ++ h) n s -> ~ In (SNonTerminal (r_head r)) s) /\
    FromGrammar (256 * length g + 1) g = Ok (tbl, names) /\
    FromGrammar (256 * length (g ++ h) + 1) (g ++ h) = Ok (tbl', names') /\
    (exists fuel t, parses_to fuel tbl' (Some names') (SrcString text) t) /\
    (forall fuel t, ~ parses_to fuel tbl (Some names) (SrcString text) t).
Proof.
  exists two_empty, missing_hint, (s2b "c"), (fst (gen_of two_empty)), (snd (gen_of two_empty)),
    (fst (gen_of (two_empty ++ missing_hint))), (snd (gen_of (two_empty ++ missing_hint))).
  destruct C82_case as (W & L & Nd & (Fh & _) & _).
  split; [exact W|]. split; [exact L|]. split; [apply hints_wf; assumption|]. split; [apply hints_LL1; assumption|].
  split.
  { intros r n s [<-|[]] (r' & Hr' & _ & Hs) Hin. cbn in Hr'.
    repeat (destruct Hr' as [<-|Hr']; [cbn in Hs; repeat (destruct Hs as [<-|Hs];
      [cbn in Hin; repeat (destruct Hin as [Hin|Hin]; [discriminate|]); exact Hin|]); exact Hs|]); exact Hr'. }
  split; [vm_compute; reflexivity|]. split; [vm_compute; reflexivity|]. split.
  - exists 50. eexists. eexists. vm_compute. reflexivity.
  - apply (never_parses _ _ _ 20 (ENoRulesForByte "c"%char (s2b "A"))). vm_compute. reflexivity.
Qed.
Print Assumptions C82_refuted_same_texts.
