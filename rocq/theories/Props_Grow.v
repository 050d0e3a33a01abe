(** * Props_Grow: C92 adding alternatives and rules to a grammar. *)
From Verif Require Import Base ByteSet Ast Cst Parser TableGen Spec_Parse Spec_Tree Spec_Grammar Spec_Table Spec_Cells Spec_Grow
  GrammarProofs ParserProofs ParseApi ParseApi2 TGFirsts TGMain TGCells TGClosed TGParse TGNames TGExtend TGCheck Props_Parser Props_TableGen Props_Extend Props_Cells.

Section Grow.
  Variable g g' : grammar.
  Hypothesis G : grows g g'.

  Lemma put_in_in {A} (l l' : list A) x : put_in l l' -> In x l -> In x l'.
  Proof. induction 1; cbn; intuition. Qed.

  Lemma grow_nth i r : nth_error g i = Some r ->
    exists r', nth_error g' i = Some r' /\ r_head r' = r_head r /\ put_in (r_tail r) (r_tail r').
  Proof.
    destruct G as (base & more & -> & F). clear G. revert i. induction F as [|a b l l' (H1 & H2) _ IH]; intros [|i] E; try discriminate E.
    - injection E as <-. exists b. auto.
    - apply IH, E.
  Qed.
  Lemma grow_in r : In r g -> exists r', In r' g' /\ r_head r' = r_head r /\ put_in (r_tail r) (r_tail r').
  Proof.
    intros H. apply In_nth_error in H as (i & H). destruct (grow_nth i r H) as (r' & E & H1 & H2).
    exists r'. split; [eapply nth_error_In, E|auto].
  Qed.
  Lemma grow_alt n s : alternative g n s -> alternative g' n s.
  Proof.
    intros (r & Hr & Hn & Hs). destruct (grow_in r Hr) as (r' & Hr' & Hh & Hp). exists r'. split; [exact Hr'|].
    split; [congruence|]. eapply put_in_in; eassumption.
  Qed.
  Lemma grow_yields u v : yields g u v -> yields g' u v.
  Proof.
    induction 1 as [|u v w H _ IH]; [constructor|]. econstructor; [|exact IH].
    destruct H as [a n s b Ha]. constructor. apply grow_alt, Ha.
  Qed.
  Lemma grow_first u c : first g u c -> first g' u c.
  Proof. intros (v & H). exists v. apply grow_yields, H. Qed.
  Lemma grow_nullable u : nullable g u -> nullable g' u.
  Proof. apply grow_yields. Qed.
  Lemma grow_start : g <> [] -> start g' = start g /\ g' <> [].
  Proof.
    intros Ne. destruct G as (base & more & -> & F). destruct F as [|a b l l' (H1 & _) F]; [congruence|].
    split; [exact H1|discriminate].
  Qed.
  Lemma grow_follow n x : follow_code g n x -> follow_code g' n x.
  Proof.
    induction 1 as [Ne|A a B X b c Ha Hf|A a B x Ha _ IH|A a B X b x Ha Hn _ IH].
    - destruct (grow_start Ne) as (<- & Ne'). constructor. exact Ne'.
    - eapply fc_rule2; [apply grow_alt, Ha|apply grow_first, Hf].
    - eapply fc_rule3; [apply grow_alt, Ha|exact IH].
    - eapply fc_rule4; [apply grow_alt, Ha|apply grow_nullable, Hn|exact IH].
  Qed.
  Lemma put_in_split {A} (l l' : list A) : put_in l l' -> forall l1 x l2, l = l1 ++ x :: l2 ->
    exists m1 m2, l' = m1 ++ x :: m2 /\ put_in l1 m1 /\ put_in l2 m2.
  Proof.
    induction 1 as [|y l l' H IH|y l l' H IH]; intros l1 x l2 E.
    - destruct l1; discriminate E.
    - destruct l1 as [|z l1]; cbn [app] in E; injection E as <- E.
      + subst l2. exists [], l'. split; [reflexivity|]. split; [constructor|exact H].
      + destruct (IH _ _ _ E) as (m1 & m2 & -> & P1 & P2). exists (y :: m1), m2. split; [reflexivity|]. split; [constructor; exact P1|exact P2].
    - destruct (IH _ _ _ E) as (m1 & m2 & -> & P1 & P2). exists (y :: m1), m2. split; [reflexivity|]. split; [constructor; exact P1|exact P2].
  Qed.
  Lemma grow_two n s1 s2 : two_alternatives g n s1 s2 -> two_alternatives g' n s1 s2.
  Proof.
    intros (r & l1 & l2 & l3 & Hr & Hn & E). destruct (grow_in r Hr) as (r' & Hr' & Hh & Hp).
    destruct (put_in_split _ _ Hp _ _ _ E) as (m1 & m2 & E' & _ & P2).
    destruct (put_in_split _ _ P2 _ _ _ eq_refl) as (m3 & m4 & -> & _ & _).
    exists r', m1, m3, m4. split; [exact Hr'|]. split; [congruence|exact E'].
  Qed.
  Lemma grow_late : late_empty g (follow_code g) -> late_empty g' (follow_code g').
  Proof.
    intros (n & s1 & s2 & b & T & N & F & D). exists n, s1, s2, b. split; [apply grow_two, T|].
    split; [apply grow_nullable, N|]. split; [apply grow_follow, F|].
    destruct D as [D|D]; [left; apply grow_nullable, D|right; apply grow_first, D].
  Qed.
  Lemma grow_heads : exists l, heads g' = heads g ++ l.
  Proof.
    destruct G as (base & more & -> & F). exists (heads more). unfold heads. rewrite map_app. f_equal. clear G.
    induction F as [|a b l l' (H & _) _ IH]; [reflexivity|]. cbn. rewrite H. f_equal. exact IH.
  Qed.
  Lemma grow_nodup : NoDup (heads g') -> NoDup (heads g).
  Proof. destruct grow_heads as (l & ->). apply NoDup_front. Qed.
  Lemma grow_nulfree : terminals_nulfree g' -> terminals_nulfree g.
  Proof. intros H n s t Ha. apply (H n). apply grow_alt, Ha. Qed.
  Lemma grow_operands s ops : operands g s ops -> operands g' s ops.
  Proof.
    intros H. induction H as [|x op s ops Hx _ IH]; constructor; [|exact IH].
    destruct Hx as [t|n i E]; constructor. destruct grow_heads as (l & ->). rewrite nth_error_app1; [exact E|].
    apply nth_error_Some. congruence.
  Qed.

  Lemma only_one h n r b l s : first_disjoint h -> In r h -> r_head r = n -> selected h b (r_tail r) l -> In s l -> l = [s].
  Proof.
    intros D Hr Hn S Hs. destruct l as [|a [|c l]].
    - destruct Hs.
    - destruct Hs as [->|[]]. reflexivity.
    - exfalso. destruct (selected_two _ _ _ _ _ _ S) as (l1 & l2 & l3 & E).
      assert (Ha : first h (seq_form a) b) by (apply (selected_in _ _ _ _ a S); left; reflexivity).
      assert (Hc : first h (seq_form c) b) by (apply (selected_in _ _ _ _ c S); right; left; reflexivity).
      eapply (D n a c b); [exists r, l1, l2, l3; auto|exact Ha|exact Hc].
  Qed.

  Lemma first_of_alt h r s c : In r h -> In s (r_tail r) -> first h (seq_form s) c -> first h [NT (r_head r)] c.
  Proof.
    intros Hr Hs (v & Hv). exists v. econstructor; [|exact Hv].
    pose proof (y1 h [] (r_head r) s [] (ex_intro _ r (conj Hr (conj eq_refl Hs)))) as Y. cbn [app] in Y.
    rewrite app_nil_r in Y. exact Y.
  Qed.
  Lemma nullable_of_alt h r s : In r h -> In s (r_tail r) -> nullable h (seq_form s) -> nullable h [NT (r_head r)].
  Proof.
    intros Hr Hs Hv. econstructor; [|exact Hv].
    pose proof (y1 h [] (r_head r) s [] (ex_intro _ r (conj Hr (conj eq_refl Hs)))) as Y. cbn [app] in Y.
    rewrite app_nil_r in Y. exact Y.
  Qed.

  Lemma grow_cells order order' fuel fuel' tbl names tbl' names' :
    NoDup (heads g') -> terminals_nulfree g' -> first_disjoint g' -> starts_apart g' (follow_code g') ->
    FromGrammar_order order fuel g = Ok (tbl, names) -> FromGrammar_order order' fuel' g' = Ok (tbl', names') ->
    more_cells tbl tbl'.
  Proof.
    intros Nd Nf D A E E' n row En.
    pose proof (C24_rows _ _ _ _ _ E) as Rows.
    assert (Hi : exists i r, n = Z.of_nat i /\ nth_error g i = Some r).
    { assert (Hin : In n (map fst tbl)).
      { unfold table_get in En. apply (in_map fst) with (x := (n, row)). revert En. clear. induction tbl as [|[k v] l IH]; cbn; [discriminate|].
        destruct (Z.eqb_spec n k) as [->|_]; intros H; [injection H as ->; left; reflexivity|right; apply IH, H]. }
      rewrite Rows in Hin. apply in_map_iff in Hin as (i & <- & Hin). apply in_seq in Hin. exists i.
      destruct (nth_error g i) as [r|] eqn:Er; [eauto|]. apply nth_error_None in Er. lia. }
    destruct Hi as (i & r & -> & Er). destruct (grow_nth i r Er) as (r' & Er' & Hh & Hp).
    pose proof (nth_error_In _ _ Er) as Hr. pose proof (nth_error_In _ _ Er') as Hr'.
    assert (X : exists row', table_get (Z.of_nat i) tbl' = Some row').
    { destruct (C26_cells _ _ _ _ _ Nd Nf E' i r' NUL Er') as (rw & Hrw & _). exists rw. exact Hrw. }
    destruct X as (row' & Erow'). exists row'. split; [exact Erow'|]. intros b ops Eops.
    destruct (C26_cells _ _ _ _ _ (grow_nodup Nd) (grow_nulfree Nf) E i r b Er) as (rw & Hrw & C).
    unfold table_get in En. rewrite Hrw in En. injection En as ->. unfold row_get in Eops |- *. rewrite Eops in C.
    destruct (C26_cells _ _ _ _ _ Nd Nf E' i r' b Er') as (rw' & Hrw' & C').
    unfold table_get in Erow'. rewrite Hrw' in Erow'. injection Erow' as ->.
    destruct C as (chosen & S & O & Sk).
    assert (Up : forall s, In s chosen -> In s (r_tail r') /\ first g' (seq_form s) b).
    { intros s Hs. apply (selected_in _ _ _ _ s S) in Hs as (H1 & H2). split; [eapply put_in_in; eassumption|apply grow_first, H2]. }
    destruct (map_get Ascii.eqb b row') as [ops'|] eqn:Eo.
    - f_equal. destruct C' as (chosen' & S' & O' & Sk').
      assert (Q : chosen' = chosen).
      { destruct chosen as [|s chosen].
        - destruct chosen' as [|s' chosen']; [reflexivity|exfalso].
          destruct (Sk eq_refl) as ((s0 & Hs0 & Hn0) & HF).
          destruct (proj1 (selected_in _ _ _ _ s' S') (or_introl eq_refl)) as (H1 & H2).
          assert (Hb : b <> NUL).
          { intros ->. apply (first_alt_nul g' (r_head r') s' Nf); [exists r'; auto|exact H2]. }
          unfold ahead in HF. destruct (Ascii.eqb_spec b NUL) as [|_]; [contradiction|].
          apply (A (r_head r') b).
          + rewrite Hh. rewrite <- Hh. eapply nullable_of_alt; [exact Hr'| |apply grow_nullable, Hn0]. eapply put_in_in; eassumption.
          + eapply first_of_alt; eassumption.
          + rewrite Hh. apply grow_follow, HF.
        - destruct (Up s (or_introl eq_refl)) as (H1 & H2).
          assert (Hs' : In s chosen') by (apply (selected_in _ _ _ _ s S'); auto).
          rewrite (only_one g' _ r' b chosen' s D Hr' eq_refl S' Hs').
          assert (Dg : first_disjoint g).
          { intros m s1 s2 c T F1 F2. eapply D; [apply grow_two, T|apply grow_first, F1|apply grow_first, F2]. }
          symmetry. apply (only_one g _ r b (s :: chosen) s Dg Hr eq_refl S). left. reflexivity. }
      subst chosen'. eapply operands_fun; [exact Nd|exact O'|apply grow_operands, O].
    - exfalso. destruct C' as (S' & Nsk). destruct chosen as [|s chosen].
      + apply Nsk. destruct (Sk eq_refl) as ((s0 & Hs0 & Hn0) & HF). split.
        * exists s0. split; [eapply put_in_in; eassumption|apply grow_nullable, Hn0].
        * rewrite Hh. apply grow_follow, HF.
      + destruct (Up s (or_introl eq_refl)) as (H1 & H2). apply (selected_in _ _ _ _ s S' ). auto.
  Qed.
End Grow.

(** In an LL(1) grammar, no rule that can be empty starts with a byte that follows it. *)
Lemma rule_of_alt g n s1 s2 : NoDup (heads g) -> alternative g n s1 -> alternative g n s2 ->
  s1 = s2 \/ two_alternatives g n s1 s2 \/ two_alternatives g n s2 s1.
Proof.
  intros Nd (r & Hr & Hn & H1) (r' & Hr' & Hn' & H2).
  assert (r' = r) as -> by (apply (rule_unique g); congruence || assumption).
  apply in_split in H1 as (l1 & l2 & E). rewrite E in H2. apply in_app_or in H2 as [H2|[H2|H2]].
  - right; right. apply in_split in H2 as (m1 & m2 & ->). exists r, m1, m2, l2. split; [exact Hr|]. split; [exact Hn|].
    rewrite E, <- app_assoc. reflexivity.
  - left. exact H2.
  - right; left. apply in_split in H2 as (m1 & m2 & ->). exists r, l1, m1, m2. auto.
Qed.
Lemma clash g c u : wf_grammar g -> LL1 g -> firstr g c u -> nullable g u -> forall pre post,
  yields g [NT (start g)] (pre ++ u ++ Ch c :: post) -> False.
Proof.
  intros W L H. induction H as [rest|n s rest Ha Hf IH|n rest Hn Hf IH]; intros N pre post Y.
  - exact (nullable_ch _ _ _ N).
  - change (NT n :: rest) with ([NT n] ++ rest) in N, Y. apply (nullable_app g [NT n] rest) in N as (Nn & Nr).
    assert (Y1 : yields g [NT (start g)] (pre ++ NT n :: Ch c :: post)).
    { eapply yields_trans; [exact Y|]. rewrite <- app_assoc.
      pose proof (yields_ctx g (pre ++ [NT n]) (Ch c :: post) rest [] Nr) as X. rewrite <- !app_assoc in X. exact X. }
    apply (nullable_nt g) in Nn as (s0 & Ha0 & N0).
    destruct (rule_of_alt g n s0 s (wf_distinct _ W) Ha0 Ha) as [->|T].
    + apply (IH N0 pre post). eapply yields_trans; [exact Y1|]. apply yields_one.
      exact (y1 g pre n s (Ch c :: post) Ha).
    + apply firstr_first in Hf. destruct L as [_ _ L].
      assert (F : follow g n (Some c)) by (exists pre, post; exact Y1).
      destruct T as [T|T]; destruct (L _ _ _ c T F) as (L1 & L2); [exact (L1 N0 Hf)|exact (L2 N0 Hf)].
  - change (NT n :: rest) with ([NT n] ++ rest) in N, Y. apply (nullable_app g [NT n] rest) in N as (Nn & Nr).
    apply (IH Nr (pre ++ [NT n]) post). rewrite <- !app_assoc in *. exact Y.
Qed.

(** If FromGrammar accepts the larger grammar, it accepts the smaller one. *)
Theorem C92_smaller_accepted :
  forall order order' fuel fuel' g g' tbl names,
    wf_grammar g -> wf_grammar g' -> grows g g' ->
    FromGrammar_order order fuel g' = Ok (tbl, names) -> 256 * length g + 1 <= fuel' ->
    exists tbl' names', FromGrammar_order order' fuel' g = Ok (tbl', names').
Proof.
  intros order order' fuel fuel' g g' tbl names W W' G E Hf.
  apply (proj2 (C29_reported order' fuel' g W Hf)). intros L. apply (grow_late g g' G) in L. revert L.
  apply (proj2 (C29_reported order (fuel + (256 * length g' + 1)) g' W' ltac:(lia))).
  exists tbl, names. rewrite C21_one_result; [exact E|]. rewrite E. discriminate.
Qed.
Print Assumptions C92_smaller_accepted.

(** If in the larger grammar alternatives start differently and no rule that can
    be empty starts with a byte of the generator's FOLLOW set, then for every text
    the new parser does exactly what the old one does, unless the old one reports
    a byte that no alternative starts with. *)
Theorem C92_backwards_compatible :
  forall order order' fuel fuel' g g' tbl names tbl' names' m src f,
    grows g g' -> NoDup (heads g') -> terminals_nulfree g' ->
    first_disjoint g' -> starts_apart g' (follow_code g') ->
    FromGrammar_order order fuel g = Ok (tbl, names) -> FromGrammar_order order' fuel' g' = Ok (tbl', names') ->
    Parse f (NewLL1Parser tbl' (Some m)) src = Parse f (NewLL1Parser tbl (Some m)) src \/
    exists c n, fails_with f tbl (Some m) src (ENoRulesForByte c n).
Proof.
  intros order order' fuel fuel' g g' tbl names tbl' names' m src f G Nd Nf D A E E'.
  pose proof (grow_cells g g' G _ _ _ _ _ _ _ _ Nd Nf D A E E') as M.
  pose proof (FromGrammar_row0 _ _ _ _ _ E) as H0.
  destruct (C90_added_cells tbl tbl' (Some m) src f H0 M) as [H|(e & He & H)]; [left; exact H|right].
  destruct He as [(n & ->)|(c & n & ->)]; [exfalso|eauto].
  destruct (C15_source_kinds src) as [(text & Hd)|[->|[->|[->|(ch & msg & ->)]]]].
  - exact (C24_only_input_errors _ _ _ _ _ E f m src text _ Hd H).
  - pose proof (proj1 (C15_bad_sources f tbl (Some m) _ H0) eq_refl) as X. unfold fails_with in *. congruence.
  - pose proof (proj1 (proj2 (C15_bad_sources f tbl (Some m) _ H0)) (or_introl eq_refl)) as X. unfold fails_with in *. congruence.
  - pose proof (proj1 (proj2 (C15_bad_sources f tbl (Some m) _ H0)) (or_intror eq_refl)) as X. unfold fails_with in *. congruence.
  - pose proof (proj2 (proj2 (C15_bad_sources f tbl (Some m) _ H0)) ch msg eq_refl) as X. unfold fails_with in *. congruence.
Qed.
Print Assumptions C92_backwards_compatible.

(** In particular accepted texts stay accepted, with the same tree, and errors
    that remain are about the same byte or a later one. *)
Theorem C92_same_trees :
  forall order order' fuel fuel' g g' tbl names tbl' names' m src text,
    grows g g' -> NoDup (heads g') -> terminals_nulfree g' ->
    first_disjoint g' -> starts_apart g' (follow_code g') ->
    FromGrammar_order order fuel g = Ok (tbl, names) -> FromGrammar_order order' fuel' g' = Ok (tbl', names') ->
    delivers src text ->
    (forall f t, parses_to f tbl (Some m) src t -> parses_to f tbl' (Some m) src t) /\
    (forall f e f' e', fails_with f tbl (Some m) src e -> fails_with f' tbl' (Some m) src e' ->
       exists k k', refuses tbl text (Some m) k e /\ refuses tbl' text (Some m) k' e' /\ k <= k').
Proof.
  intros order order' fuel fuel' g g' tbl names tbl' names' m src text G Nd Nf D A E E' Hd. split.
  - intros f t (nm & H).
    destruct (C92_backwards_compatible _ _ _ _ _ _ _ _ _ _ m src f G Nd Nf D A E E') as [X|(c & n & X)].
    + exists nm. unfold result in *. rewrite X. exact H.
    + unfold fails_with in X. rewrite H in X. discriminate X.
  - intros f e f' e' H H'.
    pose proof (FromGrammar_row0 _ _ _ _ _ E) as H0.
    destruct (C90_gets_as_far tbl tbl' m src text f e (FromGrammar_public _ _ _ _ _ E) (FromGrammar_public _ _ _ _ _ E') H0
      (grow_cells g g' G _ _ _ _ _ _ _ _ Nd Nf D A E E') Hd H) as (k & R & X & _).
    destruct (X f' e' H') as (k' & L & R'). exists k, k'. auto.
Qed.
Print Assumptions C92_same_trees.

(** LL(1) grammars, if the generator's FOLLOW sets contain nothing wrong for the
    rules that can be empty. *)
Theorem C92_ll1 :
  forall g, wf_grammar g -> LL1 g ->
    (forall n c, nullable g [NT n] -> follow_code g n (Some c) -> follow g n (Some c)) ->
    first_disjoint g /\ starts_apart g (follow_code g).
Proof.
  intros g W L F. split; [apply (ll1_first _ _ L)|]. intros n c N Hf Hc.
  destruct (F n c N Hc) as (a & b & Y).
  exact (clash g c [NT n] W L (proj2 (firstr_first g c [NT n]) Hf) N a b Y).
Qed.
Print Assumptions C92_ll1.

(** Neither condition can be left out: FromGrammar accepts both grammars, and a
    text is lost. S ::= A "b"  A ::= ""  with the further alternative "b" of A;
    S ::= "a" with the further alternative "a" "b". *)
Definition only_b : grammar := [ru "S" [[nt "A"; tm "b"]]; ru "A" [[SNothing]]].
Definition b_or_b : grammar := [ru "S" [[nt "A"; tm "b"]]; ru "A" [[SNothing]; [tm "b"]]].
Definition only_a : grammar := [ru "S" [[tm "a"]]].
Definition a_or_ab : grammar := [ru "S" [[tm "a"]; [tm "a"; tm "b"]]].
Definition loses_a_text (g g' : grammar) : Prop :=
  wf_grammar g /\ wf_grammar g' /\ grows g g' /\
  exists tbl names tbl' names' text,
    FromGrammar (256 * length g + 1) g = Ok (tbl, names) /\ FromGrammar (256 * length g' + 1) g' = Ok (tbl', names') /\
    (exists fuel t, parses_to fuel tbl (Some names) (SrcString text) t) /\
    forall fuel t, ~ parses_to fuel tbl' (Some names') (SrcString text) t.
Theorem C92_refuted_without_conditions :
  (exists g g', first_disjoint g' /\ loses_a_text g g') /\
  (exists g g', starts_apart g' (follow_code g') /\ loses_a_text g g').
Proof.
  split.
  - exists only_b, b_or_b. split.
    { intros n s1 s2 c (r & l1 & l2 & l3 & [<-|[<-|[]]] & _ & E) F1 F2; cbn [r_tail ru] in E.
      - destruct l1 as [|? [|]]; [destruct l2| |]; discriminate E.
      - destruct l1 as [|y l1].
        + cbn [app] in E. injection E as <- E. exact (first_nil _ _ F1).
        + cbn [app] in E. injection E as <- E. destruct l1 as [|z [|]]; [destruct l2| |]; discriminate E. }
    split; [apply wfb_spec; vm_compute; reflexivity|]. split; [apply wfb_spec; vm_compute; reflexivity|]. split.
    { exists b_or_b, []. split; [reflexivity|]. repeat constructor. }
    exists (fst (gen_of only_b)), (snd (gen_of only_b)), (fst (gen_of b_or_b)), (snd (gen_of b_or_b)), (s2b "b").
    split; [vm_compute; reflexivity|]. split; [vm_compute; reflexivity|]. split.
    + exists 20. eexists _, _. vm_compute. reflexivity.
    + apply (never_parses _ _ _ 20 (EExpectedChar "b"%char NUL)). vm_compute. reflexivity.
  - exists only_a, a_or_ab. split.
    { intros n c N. exfalso. apply (nullable_nt a_or_ab) in N as (s & (r & [<-|[]] & _ & [<-|[<-|[]]]) & N);
        exact (nullable_ch _ _ _ N). }
    split; [apply wfb_spec; vm_compute; reflexivity|]. split; [apply wfb_spec; vm_compute; reflexivity|]. split.
    { exists a_or_ab, []. split; [reflexivity|]. repeat constructor. }
    exists (fst (gen_of only_a)), (snd (gen_of only_a)), (fst (gen_of a_or_ab)), (snd (gen_of a_or_ab)), (s2b "a").
    split; [vm_compute; reflexivity|]. split; [vm_compute; reflexivity|]. split.
    + exists 20. eexists _, _. vm_compute. reflexivity.
    + apply (never_parses _ _ _ 20 (EExpectedChar "a"%char NUL)). vm_compute. reflexivity.
Qed.
Print Assumptions C92_refuted_without_conditions.

(** S ::= A "b" S | ""   A ::= "a"   and the same with A ::= "a" | "". *)
Definition strict_demo : grammar := [ru "S" [[nt "A"; tm "b"; nt "S"]; [SNothing]]; ru "A" [[tm "a"]]].
Example C92_case :
  wf_grammar strict_demo /\ grows strict_demo demo /\ first_disjoint demo /\ starts_apart demo (follow_code demo) /\
  (exists tbl names, FromGrammar 600 strict_demo = Ok (tbl, names) /\
     (exists t, parses_to 50 tbl (Some names) (SrcString (s2b "abab")) t) /\
     fails_with 50 tbl (Some names) (SrcString (s2b "abb")) (ENoRulesForByte "b"%char (s2b "S"))) /\
  exists tbl names, FromGrammar 600 demo = Ok (tbl, names) /\
    (exists t, parses_to 50 tbl (Some names) (SrcString (s2b "abb")) t).
Proof.
  split; [apply wfb_spec; vm_compute; reflexivity|]. split.
  { exists demo, []. split; [reflexivity|]. repeat constructor. }
  destruct C28_case as (W & L & N & R & _).
  destruct (C92_ll1 demo W L) as (D & A).
  { intros n c _. apply C23_textbook; [discriminate|assumption|assumption]. }
  split; [exact D|]. split; [exact A|]. split.
  - exists (fst (gen_of strict_demo)), (snd (gen_of strict_demo)).
    split; [vm_compute; reflexivity|]. split; [eexists _, _; vm_compute; reflexivity|vm_compute; reflexivity].
  - exists (fst (gen_of demo)), (snd (gen_of demo)).
    split; [vm_compute; reflexivity|]. eexists _, _; vm_compute; reflexivity.
Qed.
