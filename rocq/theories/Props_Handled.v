(** * Props_Handled: property C65, exactly which LL(1) grammars work. *)
From Verif Require Import Base ByteSet Ast Cst Parser TableGen Spec_Parse Spec_Tree Spec_Grammar Spec_Table Spec_Viable
  GrammarProofs ParseApi ParseApi2 TGMain TGCells TGClosed TGParse TGCheck Props_Parser Props_TableGen TGViable
  Props_Viable TGHandled TGWords.

(** The generated parser accepts every word exactly when the generator's FOLLOW
    sets of the rules that can be empty miss nothing. *)
Theorem C65_every_word :
  forall order fuel0 g tbl names m,
    wf_grammar g -> LL1 g -> productive g ->
    FromGrammar_order order fuel0 g = Ok (tbl, names) ->
    ((forall src text, delivers src text -> word g text ->
        exists fuel t, parses_to fuel tbl (Some m) src t) <->
     (forall n x, nullable g [NT n] -> follow g n x -> follow_code g n x)).
Proof.
  intros order fuel0 g tbl names m W L P E. split.
  - intros A. eapply accepts_words_follow; [exact W|exact L|exact P|exact E|].
    intros text Hw. exact (A (SrcString text) text (dl_string text) Hw).
  - intros S src text Hd Hw.
    eapply ll1_complete; [exact W|exact L|apply follow_closed|exact S|exact E|exact Hd|exact Hw].
Qed.
Print Assumptions C65_every_word.

(** The generator makes a parser that decides the language exactly when, in
    addition, it finds no empty alternative in an occupied cell. *)
Theorem C65_handled :
  forall order g, wf_grammar g -> LL1 g -> productive g ->
    ((exists fuel0 tbl names, FromGrammar_order order fuel0 g = Ok (tbl, names) /\
        forall src text, delivers src text -> ~ In NUL text ->
          ((exists fuel t, parses_to fuel tbl (Some names) src t) <-> word g text)) <->
     (~ late_empty g (follow_code g) /\
      forall n x, nullable g [NT n] -> follow g n x -> follow_code g n x)).
Proof.
  intros order g W L P. split.
  - intros (fuel0 & tbl & names & E & A). split.
    + assert (E' : FromGrammar_order order (fuel0 + (256 * length g + 1)) g = Ok (tbl, names)).
      { rewrite FromGrammar_more; [exact E|]. rewrite E. discriminate. }
      apply (C29_reported order (fuel0 + (256 * length g + 1)) g W); [|exists tbl, names; exact E'].
      apply Nat.le_add_l.
    + apply (proj1 (C65_every_word order fuel0 g tbl names names W L P E)).
      intros src text Hd Hw. apply (A src text Hd); [|exact Hw].
      intros Hin. assert (X : sent g (chars text)) by (exists []; apply Hw).
      apply (sent_nulfree g W) in X. apply X. apply in_map, Hin.
  - intros (NL & S).
    destruct (proj2 (proj2 (C29_reported order (256 * length g + 1) g W (le_n _))) NL) as (tbl & names & E).
    exists (256 * length g + 1), tbl, names. split; [exact E|]. intros src text Hd Hn. split.
    + intros (fuel & t & Hp). eapply C27_sound; [exact W|exact (ll1_first _ _ L)|exact E|exact Hd|exact Hn|exact Hp].
    + intros Hw. eapply ll1_complete; [exact W|exact L|apply follow_closed|exact S|exact E|exact Hd|exact Hw].
Qed.
Print Assumptions C65_handled.

(** ** Without the assumption that every rule derives some string *)

(** What counts then is only what stands behind a rule in derivations of words. *)
Theorem C65_every_word_general :
  forall order fuel0 g tbl names m,
    wf_grammar g -> LL1 g -> FromGrammar_order order fuel0 g = Ok (tbl, names) ->
    ((forall src text, delivers src text -> word g text ->
        exists fuel t, parses_to fuel tbl (Some m) src t) <->
     (forall n x, nullable g [NT n] -> follows_in_word g n x -> follow_code g n x)).
Proof.
  intros order fuel0 g tbl names m W L E. split.
  - intros A. eapply accepts_words_needs; [exact W|exact L|exact E|].
    intros text Hw. exact (A (SrcString text) text (dl_string text) Hw).
  - intros S src text Hd Hw. eapply needs_accepts_words; eassumption.
Qed.
Print Assumptions C65_every_word_general.

Theorem C65_handled_general :
  forall order g, wf_grammar g -> LL1 g ->
    ((exists fuel0 tbl names, FromGrammar_order order fuel0 g = Ok (tbl, names) /\
        forall src text, delivers src text -> ~ In NUL text ->
          ((exists fuel t, parses_to fuel tbl (Some names) src t) <-> word g text)) <->
     (~ late_empty g (follow_code g) /\
      forall n x, nullable g [NT n] -> follows_in_word g n x -> follow_code g n x)).
Proof.
  intros order g W L. split.
  - intros (fuel0 & tbl & names & E & A). split.
    + assert (E' : FromGrammar_order order (fuel0 + (256 * length g + 1)) g = Ok (tbl, names)).
      { rewrite FromGrammar_more; [exact E|]. rewrite E. discriminate. }
      apply (C29_reported order (fuel0 + (256 * length g + 1)) g W); [|exists tbl, names; exact E'].
      apply Nat.le_add_l.
    + apply (proj1 (C65_every_word_general order fuel0 g tbl names names W L E)).
      intros src text Hd Hw. apply (A src text Hd); [|exact Hw].
      intros Hin. assert (X : sent g (chars text)) by (exists []; apply Hw).
      apply (sent_nulfree g W) in X. apply X. apply in_map, Hin.
  - intros (NL & S).
    destruct (proj2 (proj2 (C29_reported order (256 * length g + 1) g W (le_n _))) NL) as (tbl & names & E).
    exists (256 * length g + 1), tbl, names. split; [exact E|]. intros src text Hd Hn. split.
    + intros (fuel & t & Hp). eapply C27_sound; [exact W|exact (ll1_first _ _ L)|exact E|exact Hd|exact Hn|exact Hp].
    + intros Hw. eapply needs_accepts_words; eassumption.
Qed.
Print Assumptions C65_handled_general.

(** C57 for every LL(1) grammar that is accepted and misses nothing it needs:
    an error is reported at the first byte behind which no word goes on. That
    what has been matched can be completed needs rules that derive some string. *)
Theorem C57_error_position_general :
  forall order fuel0 g tbl names m src text fuel e,
    wf_grammar g -> LL1 g ->
    (forall n x, nullable g [NT n] -> follows_in_word g n x -> follow_code g n x) ->
    FromGrammar_order order fuel0 g = Ok (tbl, names) -> delivers src text ->
    fails_with fuel tbl (Some m) src e ->
    ~ word g text /\
    exists k, k <= length text /\ about_byte e (byte_at text k) /\
      (productive g -> viable g (firstn k text)) /\
      (forall j, k < j <= length text -> ~ viable g (firstn j text)).
Proof.
  intros order fuel0 g tbl names m src text fuel e W L Sub E Hd Hf.
  pose proof (FromGrammar_public _ _ _ _ _ E) as Pub.
  pose proof (FromGrammar_row0 _ _ _ _ _ E) as R0.
  destruct (proj1 (C19_error_diagnosis tbl m src text e Pub R0 Hd)) as (k & R); [exists fuel; exact Hf|].
  assert (NR : forall w k e, word g w -> ~ refuses tbl w (Some m) k e).
  { intros w k' e' Hw R'.
    destruct (needs_accepts_words _ _ _ _ _ m (SrcString w) w W L E Sub (dl_string w) Hw) as (f & t & Hp).
    destruct (C17_one_outcome tbl m (SrcString w) w Pub R0 (dl_string w)) as (O & _).
    apply (O t k' e'); [|exact R'].
    apply (C11_parse_iff_derivation tbl m (SrcString w) w t Pub (dl_string w)). exists f. exact Hp. }
  split; [intros Hw; exact (NR _ k e Hw R)|]. exists k. pose proof R as (form & H & S).
  destruct (matched_prefix _ _ _ _ (FromGrammar_nulfree _ _ _ _ _ (wf_nulfree _ W) E) H) as (Lk & _).
  split; [exact Lk|]. split; [|split].
  - pose proof (C24_only_input_errors _ _ _ _ _ E _ _ _ _ _ Hd Hf) as I.
    inversion S; subst; cbn in I |- *; try contradiction; reflexivity.
  - intros P. destruct (refused_viable _ _ _ _ _ _ _ _ W (ll1_first _ _ L) P E H) as (_ & V). exact V.
  - intros j Hj (v & Hw). apply (NR _ k e Hw). eapply refuses_agree; [|exact R].
    intros i Hi. unfold byte_at at 2. rewrite app_nth1 by (rewrite firstn_length; lia).
    change (byte_at text i = byte_at (firstn j text) i). symmetry. apply byte_at_firstn. lia.
Qed.
Print Assumptions C57_error_position_general.

(** And exactly then no word is refused. *)
Theorem C57_errors_right :
  forall order fuel0 g tbl names m,
    wf_grammar g -> LL1 g -> FromGrammar_order order fuel0 g = Ok (tbl, names) ->
    ((forall src text fuel e, delivers src text -> fails_with fuel tbl (Some m) src e -> ~ word g text) <->
     (forall n x, nullable g [NT n] -> follows_in_word g n x -> follow_code g n x)).
Proof.
  intros order fuel0 g tbl names m W L E. split.
  - intros A. apply (C65_every_word_general order fuel0 g tbl names m W L E).
    intros src text Hd Hw.
    destruct (C33_terminates order fuel0 g tbl names m src text W L E Hd) as (fuel & Hr).
    pose proof (fun p => C07_parse_never_panics fuel tbl m src p (FromGrammar_public _ _ _ _ _ E)) as NP.
    destruct (result fuel tbl (Some m) src) as [r|[]|p|] eqn:X; [|destruct (NP p eq_refl)|congruence].
    destruct (C08_return_contract _ _ _ _ _ X) as [(t & nm & ->)|(e & ->)].
    + exists fuel, t, nm. exact X.
    + exfalso. exact (A src text fuel e Hd X Hw).
  - intros Sub src text fuel e Hd Hf.
    exact (proj1 (C57_error_position_general _ _ _ _ _ _ _ _ _ _ W L Sub E Hd Hf)).
Qed.
Print Assumptions C57_errors_right.

(** The two readings of what follows agree when every rule derives some string. *)
Theorem C65_same_follow :
  forall g n x, wf_grammar g -> productive g -> (follows_in_word g n x <-> follow g n x).
Proof.
  intros g n x W P. split.
  - intros (a & b & w & w' & Hy & _ & Hb & Hx). destruct w' as [|c w']; cbn in Hx; subst x; cbn.
    + exists a. eapply yields_trans; [exact Hy|]. apply (yields_app g a (NT n :: b) a [NT n]); [constructor|].
      apply (yields_app g [NT n] b [NT n] []); [constructor|exact Hb].
    + exists a, (chars w'). eapply yields_trans; [exact Hy|].
      apply (yields_app g a (NT n :: b) a (NT n :: Ch c :: chars w')); [constructor|].
      apply (yields_app g [NT n] b [NT n] (Ch c :: chars w')); [constructor|exact Hb].
  - assert (Fill : forall u, yields g [NT (start g)] u -> forall v, incl v u -> exists w, yields g v (chars w)).
    { intros u Hu v Hv. apply (productive_form g v P). intros m Hm. eapply (sent_defined g _ W Hu). apply Hv, Hm. }
    destruct x as [c|]; cbn.
    + intros (a & b & H). destruct (Fill _ H a) as (w & Hw); [apply incl_appl, incl_refl|].
      destruct (Fill _ H b) as (w' & Hw').
      { apply incl_appr. intros z Hz. right. right. exact Hz. }
      exists a, (Ch c :: b), w, (c :: w'). split; [exact H|]. split; [exact Hw|]. split; [|reflexivity].
      apply (yields_app g [Ch c] b [Ch c] (chars w')); [constructor|exact Hw'].
    + intros (a & H). destruct (Fill _ H a) as (w & Hw); [apply incl_appl, incl_refl|].
      exists a, [], w, []. split; [exact H|]. split; [exact Hw|]. split; [constructor|reflexivity].
Qed.
Print Assumptions C65_same_follow.

(** S ::= A "b" S | ""    A ::= "a" | ""     is handled, *)
Example C65_case :
  wf_grammar demo /\ LL1 demo /\ productive demo /\ ~ late_empty demo (follow_code demo) /\
  (forall n x, nullable demo [NT n] -> follow demo n x -> follow_code demo n x).
Proof.
  destruct C57_case as (W & L & P & FF & _).
  split; [exact W|]. split; [exact L|]. split; [exact P|]. split.
  - apply (LL1_not_late demo (follow demo) W L). intros n x Hn Hf. apply FF; assumption.
  - intros n x Hn Hf. apply FF; assumption.
Qed.
(** S ::= A B "c"    A ::= "a" | ""    B ::= "b" | ""     is not. *)
Example C65_case_missed :
  wf_grammar two_empty /\ LL1 two_empty /\ productive two_empty /\
  nullable two_empty [NT (s2b "A")] /\ follow two_empty (s2b "A") (Some "c"%char) /\
  ~ follow_code two_empty (s2b "A") (Some "c"%char).
Proof.
  split; [exact two_empty_wf|]. split; [exact two_empty_LL1|].
  split; [apply productiveb_ok; vm_compute; reflexivity|].
  pose proof (follow_code_run two_empty 1000 (s2b "A") (Some "c"%char) 1 eq_refl eq_refl) as R1.
  vm_compute in R1. split; [|split].
  - unfold nullable. rewrite_nt 0 1 1. apply ys_refl.
  - exists [], []. rewrite_nt 0 0 0. rewrite_nt 1 2 1. apply ys_refl.
  - intros H. apply R1 in H; discriminate.
Qed.

(** S ::= "d" | A B "c" X    A ::= "a" | ""    B ::= "b" | ""    X ::= "x" X
    is handled although the same FOLLOW set misses something: no word has an A. *)
Definition dead_end : grammar :=
  [ru "S" [[tm "d"]; [nt "A"; nt "B"; tm "c"; nt "X"]]; ru "A" [[tm "a"]; [SNothing]];
   ru "B" [[tm "b"]; [SNothing]]; ru "X" [[tm "x"; nt "X"]]].
Lemma dead_end_parts : wfb dead_end = true /\ closed_first dead_end (auto_cert dead_end) = true /\
  closed_followb dead_end (auto_cert dead_end) = true /\ ll1b dead_end (auto_cert dead_end) = true.
Proof. vm_compute. repeat split. Qed.

Lemma dead_end_stays u v : yields dead_end u v -> In (NT (s2b "X")) u -> In (NT (s2b "X")) v.
Proof.
  induction 1 as [|u v w Hs _ IH]; [auto|]. intros H. apply IH. destruct Hs as [a n s b Ha].
  apply in_app_or in H. destruct H as [H|[H|H]]; [apply in_or_app; auto| |apply in_or_app; right; apply in_or_app; auto].
  injection H as ->. destruct Ha as (r & Hr & Hh & Hs). apply in_or_app. right. apply in_or_app. left.
  destruct Hr as [<-|[<-|[<-|[<-|[]]]]]; try discriminate. destruct Hs as [<-|[]]. right. left. reflexivity.
Qed.
Lemma dead_end_forms u : yields dead_end [NT (start dead_end)] u ->
  u = [NT (s2b "S")] \/ u = [Ch "d"%char] \/ In (NT (s2b "X")) u.
Proof.
  revert u. refine (yields_snoc_ind dead_end _ [NT (start dead_end)] _ _).
  - left. reflexivity.
  - intros v w Hv [->|[->|H]] Hs.
    + inversion Hs as [a n s b Ha E]; subst. destruct a as [|x a]; [|destruct a; discriminate].
      injection E as -> ->. cbn [app]. rewrite app_nil_r.
      destruct Ha as (r & Hr & Hh & Hin). destruct Hr as [<-|[<-|[<-|[<-|[]]]]]; try discriminate.
      destruct Hin as [<-|[<-|[]]]; [right; left; reflexivity|right; right]. cbn. auto 10.
    + inversion Hs as [a n s b Ha E]; subst. destruct a as [|x a]; [discriminate|]. destruct a; discriminate.
    + right. right. eapply dead_end_stays; [apply yields_one, Hs|exact H].
Qed.

Example C65_case_dead_end :
  wf_grammar dead_end /\ LL1 dead_end /\ ~ productive dead_end /\ ~ late_empty dead_end (follow_code dead_end) /\
  (nullable dead_end [NT (s2b "A")] /\ follow dead_end (s2b "A") (Some "c"%char) /\
   ~ follow_code dead_end (s2b "A") (Some "c"%char)) /\
  (forall n x, nullable dead_end [NT n] -> follows_in_word dead_end n x -> follow_code dead_end n x).
Proof.
  destruct dead_end_parts as (Wb & A & B & C).
  assert (W : wf_grammar dead_end) by (apply wfb_spec, Wb).
  assert (L : LL1 dead_end) by (apply rules_LL1; [discriminate|]; eapply check_LL1; eassumption).
  split; [exact W|]. split; [exact L|]. split; [|split; [|split]].
  - intros P. destruct (P (s2b "X")) as (w & Hw); [cbn; auto|].
    apply dead_end_stays in Hw; [|left; reflexivity]. apply in_map_iff in Hw. destruct Hw as (c & E & _). discriminate.
  - apply (C29_reported (fun l => l) (256 * length dead_end + 1) dead_end W (le_n _)).
    exists (fst (gen_of dead_end)), (snd (gen_of dead_end)). vm_compute. reflexivity.
  - pose proof (follow_code_run dead_end 1000 (s2b "A") (Some "c"%char) 1 eq_refl eq_refl) as R1.
    vm_compute in R1. split; [|split].
    + unfold nullable. rewrite_nt 0 1 1. apply ys_refl.
    + exists [], [NT (s2b "X")]. rewrite_nt 0 0 1. rewrite_nt 1 2 1. apply ys_refl.
    + intros H. apply R1 in H; discriminate.
  - clear W L Wb A B C. intros n x Hn (a & b & w & w' & Hy & Ha & Hb & _). exfalso.
    assert (NX : forall u w, yields dead_end u (chars w) -> ~ In (NT (s2b "X")) u).
    { intros u v Hu Hin. apply (dead_end_stays _ _ Hu) in Hin. apply in_map_iff in Hin.
      destruct Hin as (c & E & _). discriminate. }
    apply dead_end_forms in Hy. destruct Hy as [E|[E|E]].
    + destruct a as [|y a]; [|destruct a; discriminate]. injection E as -> ->.
      apply nullable_nt in Hn. destruct Hn as (s & (r & Hr & Hh & Hs) & Hn).
      destruct Hr as [<-|[<-|[<-|[<-|[]]]]]; try discriminate. destruct Hs as [<-|[<-|[]]].
      * exact (nullable_ch _ _ _ Hn).
      * apply (NX _ [] Hn). cbn. auto 10.
    + destruct a as [|y a]; [discriminate|]. destruct a; discriminate.
    + apply in_app_or in E. destruct E as [E|[E|E]]; [exact (NX _ _ Ha E)| |exact (NX _ _ Hb E)].
      injection E as ->. apply (NX _ [] Hn). left. reflexivity.
Qed.
