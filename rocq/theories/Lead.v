(** * Lead: FromGrammar looks at the first byte of a terminal only, and takes a
    zero there for the empty string. *)
From Verif Require Import Base ByteSet Ast Parser TableGen Spec_Grammar Spec_Lead
  GrammarProofs TGFirsts TGFollows TGTable Recode.

Lemma Forall2_len {A B} (Q : A -> B -> Prop) l l' : Forall2 Q l l' -> length l = length l'.
Proof. induction 1; cbn; congruence. Qed.

(** One proof for both: terminals are related behind their first byte by [R]. *)
Section Lead.
  Variable R : bytes -> bytes -> Prop.

  Inductive srel : symbol -> symbol -> Prop :=
  | sr_lead c u u' : R u u' -> srel (STerminal (c :: u)) (STerminal (c :: u'))
  | sr_same x : srel x x.
  Definition qrel (s s' : sequence) : Prop :=
    Forall2 srel s s' \/ (starts_with_zero s /\ s' = [SNothing]).
  Definition rrel (r r' : rule) : Prop := r_head r' = r_head r /\ Forall2 qrel (r_tail r) (r_tail r').
  Inductive orel : ParserOp -> ParserOp -> Prop :=
  | or_lead c u u' : R u u' -> orel (OpTerminal (c :: u)) (OpTerminal (c :: u'))
  | or_same op : orel op op.
  Definition rowrel : row -> row -> Prop := Forall2 (fun x y => fst y = fst x /\ Forall2 orel (snd x) (snd y)).
  Definition tabrel : table -> table -> Prop := Forall2 (fun x y => fst y = fst x /\ rowrel (snd x) (snd y)).

  Section Firsts.
  Variable rm : list (bytes * nat).

  Lemma l_loop fi total s s' : Forall2 srel s s' -> forall res found,
    sequenceFirsts_loop rm fi total s' res found = sequenceFirsts_loop rm fi total s res found.
  Proof.
    induction 1 as [|x y s s' H _ IH]; intros res found; [reflexivity|]. destruct H as [c u u' _|x]; [reflexivity|].
    cbn [sequenceFirsts_loop]. destruct x as [v|w| |u]; try reflexivity.
    destruct (rm_get rm v); [|reflexivity]. destruct (index fi n); cbn [gobind]; try reflexivity.
    destruct (negb (bs_contains a EOS)); [reflexivity|]. apply IH.
  Qed.
  Lemma l_sequenceFirsts fi s s' : qrel s s' -> sequenceFirsts rm fi s' = sequenceFirsts rm fi s.
  Proof.
    intros [H|((v & rest & -> & _) & ->)].
    - unfold sequenceFirsts. rewrite (Forall2_len _ _ _ H). apply l_loop, H.
    - reflexivity.
  Qed.
  Lemma l_substitution fi l l' : Forall2 qrel l l' -> forall res,
    substitutionFirsts_loop rm fi l' res = substitutionFirsts_loop rm fi l res.
  Proof.
    induction 1 as [|s s' l l' H _ IH]; intros res; cbn [substitutionFirsts_loop]; [reflexivity|].
    rewrite (l_sequenceFirsts fi _ _ H). destruct (sequenceFirsts rm fi s); cbn [gobind]; auto.
  Qed.
  Lemma l_symbolFirsts fi x y : srel x y -> symbolFirsts rm fi y = symbolFirsts rm fi x.
  Proof. intros [c u u' _|z]; reflexivity. Qed.
  Lemma l_named x y n : srel x y -> is_nonterminal_named y n = is_nonterminal_named x n.
  Proof. intros [c u u' _|z]; reflexivity. Qed.
  End Firsts.

  Variables g g' : grammar.
  Hypothesis G : Forall2 rrel g g'.
  Notation rm := (enumerate (heads g)).

  Lemma l_heads : heads g' = heads g.
  Proof.
    assert (X : forall a b, Forall2 rrel a b -> heads b = heads a).
    { induction 1 as [|r r' l l' (H & _) _ IH]; cbn; [reflexivity|]. unfold heads in IH. rewrite H, IH. reflexivity. }
    apply X, G.
  Qed.
  Lemma l_length : length g' = length g.
  Proof. symmetry. apply (Forall2_len _ _ _ G). Qed.

  Lemma l_ruleFirsts i fi ch : ruleFirsts g' rm i fi ch = ruleFirsts g rm i fi ch.
  Proof.
    unfold ruleFirsts, ruleCount, collectRuleHeads. rewrite !map_length, l_length. destruct (Nat.leb _ i); [reflexivity|].
    pose proof (gsim_index _ _ _ i G) as X. destruct (index g i), (index g' i); cbn in X; try contradiction; cbn [gobind]; subst; try reflexivity.
    destruct X as (_ & X). unfold substitutionFirsts. rewrite (l_substitution _ _ _ _ X). reflexivity.
  Qed.
  Lemma l_firsts_round idxs : forall fi ch, firsts_round g' rm idxs fi ch = firsts_round g rm idxs fi ch.
  Proof.
    induction idxs as [|i idxs IH]; intros fi ch; cbn [firsts_round]; [reflexivity|]. rewrite l_ruleFirsts.
    destruct (ruleFirsts g rm i fi ch) as [(a, b)| | |]; cbn [gobind]; auto.
  Qed.
  Lemma l_findFirsts fuel : forall fi, findFirsts g' rm fuel fi = findFirsts g rm fuel fi.
  Proof.
    induction fuel as [|fuel IH]; intros fi; cbn [findFirsts]; [reflexivity|]. rewrite l_length, l_firsts_round.
    destruct (firsts_round g rm _ fi false) as [(a, b)| | |]; cbn [gobind]; auto. destruct b; auto.
  Qed.

  (** FOLLOW *)
  Lemma l_index {A B} (Q : A -> B -> Prop) l l' k : Forall2 Q l l' -> gsim Q (@index A l k) (@index B l' k).
  Proof. apply gsim_index. Qed.

  Section Walk.
  Variables (i j : nat) (fi : list ByteSet).
  Lemma l_rule : match nth_error g i, nth_error g' i with Some r, Some r' => rrel r r' | None, None => True | _, _ => False end.
  Proof.
    assert (X : forall a b, Forall2 rrel a b -> forall k,
      match nth_error a k, nth_error b k with Some r, Some r' => rrel r r' | None, None => True | _, _ => False end).
    { induction 1 as [|r r' l l' H _ IH]; intros [|k]; cbn; auto. apply IH. }
    apply X, G.
  Qed.

  Lemma l_inner s s' : Forall2 srel s s' -> forall k fo ch,
    follows_inner g' rm i s' j fi k fo ch = follows_inner g rm i s j fi k fo ch.
  Proof.
    intros H. induction k as [|k IH]; intros fo ch; cbn [follows_inner]; [reflexivity|].
    pose proof (gsim_index _ _ _ k H) as X. destruct (index s k) as [x| | |], (index s' k) as [y| | |]; cbn in X; try contradiction;
      cbn [gobind]; subst; try reflexivity.
    pose proof (gsim_index _ _ _ i G) as Y. destruct (index g i) as [r| | |], (index g' i) as [r'| | |]; cbn in Y; try contradiction;
      cbn [gobind]; subst; try reflexivity.
    destruct Y as (E & _). rewrite E, (l_named _ _ _ X).
    destruct (negb (is_nonterminal_named x (r_head r))); [apply IH|].
    pose proof (gsim_index _ _ _ (S k) H) as Z. destruct (index s (S k)) as [x2| | |], (index s' (S k)) as [y2| | |]; cbn in Z; try contradiction;
      cbn [gobind]; subst; try reflexivity.
    rewrite (l_symbolFirsts _ fi _ _ Z). destruct (symbolFirsts rm fi x2) as [nf| | |]; cbn [gobind]; try reflexivity.
    match goal with |- gobind ?z _ = gobind ?z _ => destruct z as [(a, b)| | |] end; cbn [gobind]; try reflexivity.
    destruct (add_follows a i (bs_remove nf EOS)) as [[f|]| | |]; cbn [gobind]; auto.
  Qed.

  (** Without non-terminals nothing is added. *)
  Lemma l_silent r s : nth_error g i = Some r -> (forall n, ~ In (SNonTerminal n) s) -> forall k, k <= length s -> forall fo ch,
    follows_inner g rm i s j fi k fo ch = Ok (fo, ch).
  Proof.
    intros E N. induction k as [|k IH]; intros L fo ch; cbn [follows_inner]; [reflexivity|].
    destruct (nth_error s k) as [x|] eqn:Ex; [|apply nth_error_None in Ex; lia].
    unfold index. rewrite Ex, E. cbn [gobind]. destruct x as [v|v| |v]; cbn [is_nonterminal_named negb]; try (apply IH; lia).
    apply nth_error_In in Ex. destruct (N v Ex).
  Qed.

  Lemma l_silent_sequence h gg r s fo ch : gg = h -> nth_error gg i = Some r -> s <> [] -> (forall n, ~ In (SNonTerminal n) s) ->
    (forall k, k <= length s -> forall fo ch, follows_inner gg rm i s j fi k fo ch = Ok (fo, ch)) ->
    ruleFollowsInSequence gg rm i s j fi fo ch = Ok (fo, ch).
  Proof.
    intros _ E Ns N H. unfold ruleFollowsInSequence. destruct s as [|x s]; [congruence|].
    cbn [length Nat.eqb]. rewrite H by (cbn; lia). destruct (negb (Nat.eqb i j)); [|reflexivity].
    destruct (nth_error (x :: s) (S (length s) - 1)) as [y|] eqn:Ex; [|apply nth_error_None in Ex; cbn in Ex; lia].
    unfold index. rewrite Ex, E. cbn [gobind]. destruct y as [v|v| |v]; cbn [is_nonterminal_named]; try reflexivity.
    apply nth_error_In in Ex. destruct (N v Ex).
  Qed.

  Lemma l_inSequence r s s' fo ch : nth_error g i = Some r -> qrel s s' ->
    ruleFollowsInSequence g' rm i s' j fi fo ch = ruleFollowsInSequence g rm i s j fi fo ch.
  Proof.
    intros E [H|((v & rest & -> & N) & ->)].
    - unfold ruleFollowsInSequence. rewrite <- (Forall2_len _ _ _ H). destruct (Nat.eqb (length s) 0); [reflexivity|].
      assert (Rest : forall a c, follows_inner g' rm i s' j fi (length s - 1) a c = follows_inner g rm i s j fi (length s - 1) a c) by (intros; apply l_inner, H).
      destruct (negb (Nat.eqb i j)); [|apply Rest].
      pose proof (gsim_index _ _ _ (length s - 1) H) as X. destruct (index s _) as [x| | |], (index s' _) as [y| | |]; cbn in X; try contradiction;
        cbn [gobind]; subst; try reflexivity.
      pose proof (gsim_index _ _ _ i G) as Y. destruct (index g i) as [r1| | |], (index g' i) as [r'| | |]; cbn in Y; try contradiction;
        cbn [gobind]; subst; try reflexivity.
      destruct Y as (Eh & _). rewrite Eh, (l_named _ _ _ X). destruct (is_nonterminal_named x (r_head r1)); [|apply Rest].
      destruct (index fo j); cbn [gobind]; try reflexivity. destruct (add_follows fo i a) as [[f|]| | |]; cbn [gobind]; auto.
    - assert (N2 : forall n, ~ In (SNonTerminal n) (STerminal (NUL :: v) :: rest)) by (intros n [X|X]; [discriminate|exact (N n X)]).
      rewrite (l_silent_sequence g g r (STerminal (NUL :: v) :: rest) fo ch eq_refl E (fun X => nil_cons (eq_sym X)) N2 (l_silent r _ E N2)).
      pose proof l_rule as L. rewrite E in L. destruct (nth_error g' i) as [r'|] eqn:E'; [|destruct L].
      unfold ruleFollowsInSequence. cbn [length Nat.eqb Nat.sub]. unfold index. cbn [nth_error]. rewrite E'. cbn [gobind is_nonterminal_named follows_inner].
      destruct (negb (Nat.eqb i j)); reflexivity.
  Qed.
  Lemma l_sequences r l l' : nth_error g i = Some r -> Forall2 qrel l l' -> forall fo ch,
    follows_sequences g' rm i l' j fi fo ch = follows_sequences g rm i l j fi fo ch.
  Proof.
    intros E. induction 1 as [|s s' l l' H _ IH]; intros fo ch; cbn [follows_sequences]; [reflexivity|].
    rewrite (l_inSequence r _ _ fo ch E H). destruct (ruleFollowsInSequence g rm i s j fi fo ch) as [(a, b)| | |]; cbn [gobind]; auto.
  Qed.
  End Walk.

  Lemma l_inRule i j fi fo ch : ruleFollowsInRule g' rm i j fi fo ch = ruleFollowsInRule g rm i j fi fo ch.
  Proof.
    unfold ruleFollowsInRule, ruleCount, collectRuleHeads. rewrite !map_length, l_length.
    destruct (Nat.leb_spec (length g) i) as [|Li]; [reflexivity|]. destruct (Nat.leb (length g) j); [reflexivity|].
    destruct (nth_error g i) as [r|] eqn:E; [|apply nth_error_None in E; lia].
    pose proof (gsim_index _ _ _ j G) as X. destruct (index g j) as [u| | |], (index g' j) as [u'| | |]; cbn in X; try contradiction;
      cbn [gobind]; subst; try reflexivity.
    apply (l_sequences i j fi r); [exact E|apply X].
  Qed.
  Lemma l_follows_round pairs : forall fi fo ch, follows_round g' rm pairs fi fo ch = follows_round g rm pairs fi fo ch.
  Proof.
    induction pairs as [|(i, j) pairs IH]; intros fi fo ch; cbn [follows_round]; [reflexivity|]. rewrite l_inRule.
    destruct (ruleFollowsInRule g rm i j fi fo ch) as [(a, b)| | |]; cbn [gobind]; auto.
  Qed.
  Lemma l_follows_loop fuel : forall fi fo, follows_loop g' rm fuel fi fo = follows_loop g rm fuel fi fo.
  Proof.
    induction fuel as [|fuel IH]; intros fi fo; cbn [follows_loop]; [reflexivity|]. unfold all_pairs. rewrite l_length, l_follows_round.
    destruct (follows_round g rm _ fi fo false) as [(a, b)| | |]; cbn [gobind]; auto. destruct b; auto.
  Qed.
  Lemma l_findFollows fuel fi fo : findFollows g' rm fuel fi fo = findFollows g rm fuel fi fo.
  Proof. unfold findFollows. destruct (index fo 0); cbn [gobind]; try reflexivity. apply l_follows_loop. Qed.

  (** Rows *)
  Lemma map_set_rel {K V} (eqb : K -> K -> bool) (Q : V -> V -> Prop) k v v' l l' :
    Forall2 (fun x y => fst y = fst x /\ Q (snd x) (snd y)) l l' -> Q v v' ->
    Forall2 (fun x y => fst y = fst x /\ Q (snd x) (snd y)) (map_set eqb k v l) (map_set eqb k v' l').
  Proof.
    intros H Hv. induction H as [|(a, b) (a', b') l l' (E & X) H IH]; cbn [map_set].
    - repeat constructor; assumption.
    - cbn in E, X. subst a'. destruct (eqb k a); constructor; auto.
  Qed.
  Lemma map_get_rel {K V} (eqb : K -> K -> bool) (Q : V -> V -> Prop) k l l' :
    Forall2 (fun x y => fst y = fst x /\ Q (snd x) (snd y)) l l' ->
    match map_get eqb k l, map_get eqb k l' with Some a, Some b => Q a b | None, None => True | _, _ => False end.
  Proof.
    induction 1 as [|(a, b) (a', b') l l' (E & X) H IH]; cbn; [exact I|]. cbn in E, X. subst a'. destruct (eqb k a); auto.
  Qed.

  Lemma l_row_append t op op' a b : rowrel a b -> orel op op' -> rowrel (row_append t op a) (row_append t op' b).
  Proof.
    intros H O. unfold row_append, row_get. pose proof (map_get_rel Ascii.eqb _ t _ _ H) as X. apply map_set_rel; [exact H|].
    destruct (map_get Ascii.eqb t a), (map_get Ascii.eqb t b); try contradiction; [apply Forall2_app; [exact X|]|cbn [app]]; repeat constructor; assumption.
  Qed.
  Lemma l_fill_symbols t s s' : Forall2 srel s s' -> forall a b, rowrel a b ->
    gsim rowrel (fill_symbols rm t s a) (fill_symbols rm t s' b).
  Proof.
    induction 1 as [|x y s s' H _ IH]; intros a b A; [exact A|]. destruct H as [c u u' HR|x]; cbn [fill_symbols].
    - apply IH. apply l_row_append; [exact A|constructor; exact HR].
    - destruct x as [v|v| |v]; try reflexivity.
      + destruct (rm_get rm v); [|reflexivity]. apply IH. apply l_row_append; [exact A|apply or_same].
      + apply IH. apply l_row_append; [exact A|apply or_same].
  Qed.
  Lemma l_fill_firsts terms s s' : Forall2 srel s s' -> forall a b, rowrel a b ->
    gsim rowrel (fill_firsts rm terms s a) (fill_firsts rm terms s' b).
  Proof.
    intros H. induction terms as [|t terms IH]; intros a b A; cbn [fill_firsts]; [exact A|].
    eapply gsim_bind; [apply l_fill_symbols; eassumption|]. exact IH.
  Qed.
  Lemma l_fill_follows terms : forall a b, rowrel a b -> gsim rowrel (fill_follows terms a) (fill_follows terms b).
  Proof.
    induction terms as [|t terms IH]; intros a b A; cbn [fill_follows]; [exact A|]. pose proof (map_get_rel Ascii.eqb _ t _ _ A) as At. unfold row_get.
    destruct (map_get Ascii.eqb t a), (map_get Ascii.eqb t b); try contradiction; [reflexivity|]. apply IH. apply map_set_rel; [exact A|constructor].
  Qed.
  Lemma l_row_loop fi fol l l' : Forall2 qrel l l' -> forall a b, rowrel a b ->
    gsim rowrel (row_loop rm fi fol l a) (row_loop rm fi fol l' b).
  Proof.
    induction 1 as [|s s' l l' H _ IH]; intros a b A; cbn [row_loop]; [exact A|]. rewrite (l_sequenceFirsts rm fi _ _ H).
    destruct H as [H|((v & rest & -> & N) & ->)].
    - destruct (sequenceFirsts rm fi s) as [u| | |]; cbn [gobind]; try reflexivity.
      eapply (gsim_bind (fun x y => rowrel (fst x) (fst y) /\ snd x = snd y)).
      + destruct (bs_contains u EOS); [|split; [exact A|reflexivity]]. destruct (bs_range fol); cbn [gobind]; try reflexivity.
        eapply gsim_bind; [apply l_fill_follows, A|]. intros x y X. split; [exact X|reflexivity].
      + intros (x, u1) (y, u2) (X & E). cbn in X, E. subst u2. destruct (bs_range u1); cbn [gobind]; try reflexivity.
        eapply gsim_bind; [apply l_fill_firsts; [exact H|exact X]|]. exact IH.
    - change (sequenceFirsts rm fi (STerminal (NUL :: v) :: rest)) with (@Ok tgerror _ (bs_union (bs_new []) (bs_new [NUL]))). cbn [gobind].
      assert (C : bs_contains (bs_union (bs_new []) (bs_new [NUL])) EOS = true) by reflexivity. rewrite C.
      assert (D : bs_range (bs_remove (bs_union (bs_new []) (bs_new [NUL])) EOS) = Ok []) by reflexivity.
      destruct (bs_range fol) as [terms| | |]; cbn [gobind]; try reflexivity.
      pose proof (l_fill_follows terms a b A) as X. destruct (fill_follows terms a), (fill_follows terms b); cbn in X; try contradiction; subst; cbn [gobind];
        try reflexivity. rewrite D. cbn [gobind fill_firsts]. apply IH, X.
  Qed.
  Lemma l_makeTableRow fi fo i : gsim rowrel (makeTableRow g rm fi fo i) (makeTableRow g' rm fi fo i).
  Proof.
    unfold makeTableRow. eapply gsim_bind; [apply (gsim_index _ _ _ i G)|]. intros r r' (_ & H).
    destruct (index fo i); cbn [gobind]; try reflexivity. apply l_row_loop; [exact H|constructor].
  Qed.
  Lemma l_makeTable fi fo idxs : forall t t', tabrel t t' ->
    gsim tabrel (makeTable_loop g rm fi fo idxs t) (makeTable_loop g' rm fi fo idxs t').
  Proof.
    induction idxs as [|i idxs IH]; intros t t' T; cbn [makeTable_loop]; [exact T|].
    eapply gsim_bind; [apply l_makeTableRow|]. intros a b H. apply IH. apply map_set_rel; assumption.
  Qed.
  Lemma l_FromGrammar order fuel :
    gsim (fun x y => tabrel (fst x) (fst y) /\ snd x = snd y) (FromGrammar_order order fuel g) (FromGrammar_order order fuel g').
  Proof.
    unfold FromGrammar_order, collectRuleHeads. change (map r_head g) with (heads g). change (map r_head g') with (heads g').
    rewrite l_heads. unfold Run. rewrite l_findFirsts.
    eapply (gsim_bind tabrel).
    - destruct (findFirsts g rm fuel _) as [fi| | |]; cbn [gobind]; try reflexivity. rewrite l_findFollows.
      destruct (findFollows g rm fuel fi _) as [fo| | |]; cbn [gobind]; try reflexivity. unfold makeTable. rewrite l_length.
      apply l_makeTable. constructor.
    - intros t t' T. split; [exact T|reflexivity].
  Qed.
End Lead.

(** Related by equality: equal. *)
Lemma tabrel_eq t t' : tabrel eq t t' -> t' = t.
Proof.
  assert (O : forall l l', Forall2 (orel eq) l l' -> l' = l).
  { induction 1 as [|x y l l' H _ IH]; [reflexivity|]. f_equal; [|exact IH]. destruct H as [c u u' ->|]; reflexivity. }
  assert (Rw : forall r r', rowrel eq r r' -> r' = r).
  { induction 1 as [|(a, b) (a', b') l l' (E & H) _ IH]; [reflexivity|]. cbn in E, H. subst a'. f_equal; [|exact IH]. f_equal. apply O, H. }
  induction 1 as [|(a, b) (a', b') l l' (E & H) _ IH]; [reflexivity|]. cbn in E, H. subst a'. f_equal; [|exact IH]. f_equal. apply Rw, H.
Qed.
Lemma tabrel_any t t' : tabrel (fun _ _ => True) t t' -> same_lead_table t t'.
Proof.
  intros H n c. pose proof (map_get_rel Z.eqb _ n _ _ H) as X. unfold table_get.
  destruct (map_get Z.eqb n t) as [r|], (map_get Z.eqb n t') as [r'|]; try contradiction; (split; [split; congruence|]); [|congruence].
  intros ? ? [= <-] [= <-]. pose proof (map_get_rel Ascii.eqb _ c _ _ X) as Y. unfold row_get.
  destruct (map_get Ascii.eqb c r), (map_get Ascii.eqb c r'); try contradiction; [|exact I].
  clear - Y. induction Y as [|x y l l' Q _ IH]; constructor; [|exact IH]. destruct Q; constructor.
Qed.
