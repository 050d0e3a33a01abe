(** * Respell: Parse and FromGrammar do not care how literals are cut. *)
From Verif Require Import Base ByteSet Ast Cst Parser TableGen Spec_Parse Spec_Grammar Spec_Respell
  ParserProofs ParseApi ParseApi2 GrammarProofs TGFirsts TGFollows TGTable Recode.

(** ** FromGrammar *)

Lemma cut_cons t parts : cut t parts -> exists c u rest us, parts = (c :: u) :: rest /\ t = c :: us.
Proof.
  intros (N & F & <-). destruct parts as [|p parts]; [congruence|]. inversion F; subst. destruct p as [|c u]; [congruence|].
  eexists _, _, _, _. split; reflexivity.
Qed.
Lemma respelled_refl s : respelled_sequence s s.
Proof.
  exists (map (fun x => [x]) s). split; [induction s; cbn; constructor; [constructor|assumption]|].
  induction s; cbn; [reflexivity|f_equal; assumption].
Qed.

Lemma blocks_nonempty s blocks : Forall2 respelled_symbol s blocks -> Forall (fun b => b <> []) blocks.
Proof.
  induction 1 as [|x b s bl H _ IH]; constructor; [|exact IH]. destruct H as [x|t parts (N & _)]; [discriminate|].
  destruct parts; [congruence|discriminate].
Qed.
Lemma blocks_length s blocks : Forall2 respelled_symbol s blocks -> length s <= length (concat blocks).
Proof.
  intros H. pose proof (blocks_nonempty _ _ H) as N. induction H as [|x b s bl H _ IH]; cbn; [lia|].
  inversion N as [|? ? Nb Nl]; subst. specialize (IH Nl). rewrite app_length. destruct b; [congruence|cbn; lia].
Qed.

Section Firsts.
  Variable rm : list (bytes * nat).

  Lemma firsts_loop_same fi s blocks : Forall2 respelled_symbol s blocks -> forall total total' res found,
    (In SNothing s -> Nat.ltb 1 total = Nat.ltb 1 total') ->
    sequenceFirsts_loop rm fi total s res found = sequenceFirsts_loop rm fi total' (concat blocks) res found.
  Proof.
    induction 1 as [|x b s bl H HF IH]; intros total total' res found T; [reflexivity|]. cbn [concat].
    destruct H as [x|t parts C].
    - cbn [app]. cbn [sequenceFirsts_loop]. destruct x as [v|w| |u]; try reflexivity.
      + destruct (rm_get rm v); [|reflexivity]. destruct (index fi n); cbn [gobind]; try reflexivity.
        destruct (negb (bs_contains a EOS)); [reflexivity|]. apply IH. intros I. apply T. right. exact I.
      + rewrite T by (left; reflexivity). reflexivity.
    - destruct (cut_cons _ _ C) as (c & u & rest & us & -> & ->). reflexivity.
  Qed.
  Lemma sequenceFirsts_same fi s s' : respelled_sequence s s' -> sequenceFirsts rm fi s' = sequenceFirsts rm fi s.
  Proof.
    intros (bl & H & ->). unfold sequenceFirsts. symmetry. apply firsts_loop_same; [exact H|].
    intros I. pose proof (blocks_length _ _ H) as L. pose proof (blocks_nonempty _ _ H) as N.
    destruct s as [|x [|y s]]; [destruct I| |].
    - destruct I as [->|[]]. inversion H as [|? b ? ? Hb Hn]; subst. inversion Hn; subst. inversion Hb; subst. reflexivity.
    - cbn [length] in *. destruct (Nat.ltb_spec 1 (S (S (length s)))); [|lia]. symmetry. apply Nat.ltb_lt. lia.
  Qed.
  Lemma substitutionFirsts_same fi l l' : Forall2 respelled_sequence l l' -> forall res,
    substitutionFirsts_loop rm fi l' res = substitutionFirsts_loop rm fi l res.
  Proof.
    induction 1 as [|s s' l l' H _ IH]; intros res; cbn [substitutionFirsts_loop]; [reflexivity|].
    rewrite (sequenceFirsts_same fi _ _ H). destruct (sequenceFirsts rm fi s); cbn [gobind]; auto.
  Qed.

  Lemma symbolFirsts_same fi x b y rest : respelled_symbol x (y :: rest) -> b = y :: rest -> symbolFirsts rm fi y = symbolFirsts rm fi x.
  Proof.
    intros H _. inversion H as [|t parts C E1 E2]; subst; [reflexivity|].
    destruct (cut_cons _ _ C) as (c & u & r & us & -> & ->). cbn in E2. injection E2 as <- _. reflexivity.
  Qed.
End Firsts.

Lemma heads_same g g' : respelled_grammar g g' -> heads g' = heads g.
Proof. unfold heads. induction 1 as [|r r' l l' (H & _) _ IH]; cbn; [reflexivity|]. rewrite H, IH. reflexivity. Qed.
Lemma rules_same g g' : respelled_grammar g g' -> forall i,
  match nth_error g i, nth_error g' i with Some r, Some r' => respelled_rule r r' | None, None => True | _, _ => False end.
Proof. induction 1 as [|r r' l l' H _ IH]; intros [|i]; cbn; auto. apply IH. Qed.

Section Generating.
  Variables g g' : grammar.
  Hypothesis R : respelled_grammar g g'.
  Notation rm := (enumerate (heads g)).

  Lemma heads_respelled : heads g' = heads g.
  Proof. apply heads_same, R. Qed.
  Lemma len_respelled : length g' = length g.
  Proof. rewrite <- (map_length r_head g), <- (map_length r_head g'). f_equal. apply heads_respelled. Qed.

  Lemma ruleFirsts_same i fi ch : ruleFirsts g' rm i fi ch = ruleFirsts g rm i fi ch.
  Proof.
    unfold ruleFirsts, ruleCount, collectRuleHeads. change (map r_head g') with (heads g'). change (map r_head g) with (heads g).
    rewrite heads_respelled. destruct (Nat.leb _ i); [reflexivity|].
    pose proof (gsim_index _ _ _ i R) as X. destruct (index g i), (index g' i); cbn in X; try contradiction; cbn [gobind]; subst; try reflexivity.
    destruct X as (_ & X). unfold substitutionFirsts. rewrite (substitutionFirsts_same _ _ _ _ X). reflexivity.
  Qed.
  Lemma firsts_round_same idxs : forall fi ch, firsts_round g' rm idxs fi ch = firsts_round g rm idxs fi ch.
  Proof.
    induction idxs as [|i idxs IH]; intros fi ch; cbn [firsts_round]; [reflexivity|]. rewrite ruleFirsts_same.
    destruct (ruleFirsts g rm i fi ch) as [(a, b)| | |]; cbn [gobind]; auto.
  Qed.
  Lemma findFirsts_same fuel : forall fi, findFirsts g' rm fuel fi = findFirsts g rm fuel fi.
  Proof.
    induction fuel as [|fuel IH]; intros fi; cbn [findFirsts]; [reflexivity|]. rewrite len_respelled, firsts_round_same.
    destruct (firsts_round g rm _ fi false) as [(a, b)| | |]; cbn [gobind]; auto. destruct b; auto.
  Qed.

  (** FOLLOW sets: the walk over a sequence from its end, by blocks. *)
  Lemma index_app_l {A} (l : list A) x r : index (l ++ x :: r) (length l) = Ok x.
  Proof. unfold index. rewrite nth_error_app2, Nat.sub_diag by lia. reflexivity. Qed.

  Section Walk.
  Variables (i j : nat) (r r' : rule) (fi : list ByteSet).
  Hypothesis Eg : nth_error g i = Some r.
  Hypothesis Eg' : nth_error g' i = Some r'.
  Hypothesis Eh : r_head r' = r_head r.

  Lemma inner_terminals (ts : list bytes) pre rest : forall fo ch,
    follows_inner g' rm i (pre ++ map STerminal ts ++ rest) j fi (length (pre ++ map STerminal ts)) fo ch =
    follows_inner g' rm i (pre ++ map STerminal ts ++ rest) j fi (length pre) fo ch.
  Proof.
    intros fo ch. revert rest. induction ts as [|t ts IH] using rev_ind; intros rest; [rewrite app_nil_r; reflexivity|].
    rewrite map_app. cbn [map]. rewrite <- app_assoc. cbn [app].
    rewrite <- (IH (STerminal t :: rest)). rewrite !app_length. cbn [length].
    replace (length pre + (length (map STerminal ts) + 1)) with (S (length (pre ++ map STerminal ts))) by (rewrite app_length; lia).
    cbn [follows_inner].
    assert (E : index (pre ++ map STerminal ts ++ STerminal t :: rest) (length (pre ++ map STerminal ts)) = Ok (STerminal t)).
    { rewrite app_assoc. apply index_app_l. }
    rewrite E. cbn [gobind]. unfold index at 1. rewrite Eg'. cbn [gobind is_nonterminal_named negb].
    rewrite app_length. reflexivity.
  Qed.

  Lemma inner_same pre blocks y rest y' rest' : Forall2 respelled_symbol pre blocks ->
    symbolFirsts rm fi y' = symbolFirsts rm fi y -> forall fo ch,
    follows_inner g' rm i (concat blocks ++ y' :: rest') j fi (length (concat blocks)) fo ch =
    follows_inner g rm i (pre ++ y :: rest) j fi (length pre) fo ch.
  Proof.
    intros H.
    revert y rest y' rest'. revert blocks H. induction pre as [|x pre IH] using rev_ind; intros blocks H y rest y' rest' Y fo ch.
    - inversion H; subst. reflexivity.
    - apply Forall2_app_inv_l in H. destruct H as (bl1 & bl2 & H1 & H2 & ->). inversion H2 as [|? b ? ? Hb Hn]; subst. inversion Hn; subst.
      rewrite concat_app. cbn [concat]. rewrite app_nil_r. rewrite <- !app_assoc. cbn [app].
      rewrite (app_length pre). cbn [length]. replace (length pre + 1) with (S (length pre)) by lia.
      destruct Hb as [x|t parts C].
      + rewrite app_length. cbn [length]. replace (length (concat bl1) + 1) with (S (length (concat bl1))) by lia.
        cbn [app follows_inner]. rewrite !index_app_l. cbn [gobind].
        assert (Q : index g i = Ok r) by (unfold index; rewrite Eg; reflexivity).
        assert (Q' : index g' i = Ok r') by (unfold index; rewrite Eg'; reflexivity).
        rewrite Q, Q'. cbn [gobind]. rewrite Eh.
        destruct (negb (is_nonterminal_named x (r_head r))); [apply IH; [exact H1|reflexivity]|].
        assert (A1 : index (concat bl1 ++ x :: y' :: rest') (S (length (concat bl1))) = Ok y').
        { change (x :: y' :: rest') with ([x] ++ y' :: rest'). rewrite app_assoc. rewrite <- index_app_l with (l := concat bl1 ++ [x]) (r := rest').
          f_equal. rewrite app_length. cbn. lia. }
        assert (A2 : index (pre ++ x :: y :: rest) (S (length pre)) = Ok y).
        { change (x :: y :: rest) with ([x] ++ y :: rest). rewrite app_assoc. rewrite <- index_app_l with (l := pre ++ [x]) (r := rest).
          f_equal. rewrite app_length. cbn. lia. }
        rewrite A1, A2. cbn [gobind]. rewrite Y. destruct (symbolFirsts rm fi y) as [nf| | |]; cbn [gobind]; try reflexivity.
        assert (K : forall a b, follows_inner g' rm i (concat bl1 ++ x :: y' :: rest') j fi (length (concat bl1)) a b =
                     follows_inner g rm i (pre ++ x :: y :: rest) j fi (length pre) a b) by (intros; apply IH; [exact H1|reflexivity]).
        match goal with |- gobind ?z _ = gobind ?z _ => destruct z as [(a, b)| | |] end; cbn [gobind]; try reflexivity.
        destruct (add_follows a i (bs_remove nf EOS)) as [[f|]| | |]; cbn [gobind]; auto.
      + (* a terminal, in one or several pieces *)
        rewrite (inner_terminals parts (concat bl1) (y' :: rest')).
        cbn [follows_inner]. rewrite index_app_l. cbn [gobind]. unfold index at 1. rewrite Eg. cbn [gobind is_nonterminal_named negb].
        destruct parts as [|p0 parts]; [destruct C as (C & _); congruence|]. cbn [map app].
        apply IH; [exact H1|]. apply (symbolFirsts_same rm fi (STerminal t) _ _ (map STerminal parts) (rs_cut _ _ C) eq_refl).
  Qed.

  Lemma inSequence_same s s' fo ch : respelled_sequence s s' ->
    ruleFollowsInSequence g' rm i s' j fi fo ch = ruleFollowsInSequence g rm i s j fi fo ch.
  Proof.
    intros (bl & H & ->). pose proof (blocks_length _ _ H) as L. unfold ruleFollowsInSequence.
    destruct s as [|x0 s0] eqn:Es; [inversion H; reflexivity|].
    destruct (exists_last (l := x0 :: s0)) as (pre & x & Ex); [discriminate|]. rewrite Ex in *. clear Ex Es x0 s0.
    apply Forall2_app_inv_l in H. destruct H as (bl1 & bl2 & H1 & H2 & ->). inversion H2 as [|? b ? ? Hb Hn]; subst. inversion Hn; subst.
    rewrite concat_app in *. cbn [concat] in *. rewrite app_nil_r in *.
    assert (Ln : Nat.eqb (length (pre ++ [x])) 0 = false) by (apply Nat.eqb_neq; rewrite app_length; cbn; lia).
    assert (Ln' : Nat.eqb (length (concat bl1 ++ b)) 0 = false) by (apply Nat.eqb_neq; rewrite app_length in L; cbn in L; lia).
    rewrite Ln, Ln'.
    assert (E1 : length (pre ++ [x]) - 1 = length pre) by (rewrite app_length; cbn; lia). rewrite E1.
    assert (Q : index g i = Ok r) by (unfold index; rewrite Eg; reflexivity).
    assert (Q' : index g' i = Ok r') by (unfold index; rewrite Eg'; reflexivity).
    rewrite Q, Q'.
    destruct Hb as [x|t parts C].
    - rewrite app_length. cbn [length]. replace (length (concat bl1) + 1 - 1) with (length (concat bl1)) by lia.
      rewrite !index_app_l. cbn [gobind]. rewrite Eh.
      assert (Rest : forall a c, follows_inner g' rm i (concat bl1 ++ [x]) j fi (length (concat bl1)) a c =
                          follows_inner g rm i (pre ++ [x]) j fi (length pre) a c) by (intros; apply inner_same; [exact H1|reflexivity]).
      destruct (negb (Nat.eqb i j)); [|apply Rest]. destruct (is_nonterminal_named x (r_head r)); [|apply Rest].
      destruct (index fo j); cbn [gobind]; try reflexivity. destruct (add_follows fo i a) as [[f|]| | |]; cbn [gobind]; auto.
    - destruct parts as [|p0 parts]; [destruct C as (C & _); congruence|].
      destruct (exists_last (l := p0 :: parts)) as (ps & pl & Ep); [discriminate|].
      assert (Rest : forall a c, follows_inner g' rm i (concat bl1 ++ map STerminal (p0 :: parts)) j fi (length (concat bl1 ++ map STerminal (p0 :: parts)) - 1) a c =
                          follows_inner g rm i (pre ++ [STerminal t]) j fi (length pre) a c).
      { intros a c.
        transitivity (follows_inner g' rm i (concat bl1 ++ STerminal p0 :: map STerminal parts) j fi (length (concat bl1)) a c).
        - change (STerminal p0 :: map STerminal parts) with (map STerminal (p0 :: parts)). rewrite Ep, map_app. cbn [map].
          replace (length (concat bl1 ++ map STerminal ps ++ [STerminal pl]) - 1) with (length (concat bl1 ++ map STerminal ps)).
          2: { rewrite !app_length. cbn. lia. }
          apply inner_terminals.
        - apply inner_same; [exact H1|]. apply (symbolFirsts_same rm fi (STerminal t) _ _ (map STerminal parts) (rs_cut _ _ C) eq_refl). }
      destruct (negb (Nat.eqb i j)); [|apply Rest].
      assert (X : index (concat bl1 ++ map STerminal (p0 :: parts)) (length (concat bl1 ++ map STerminal (p0 :: parts)) - 1) = Ok (STerminal pl)).
      { rewrite Ep, map_app. cbn [map]. rewrite app_assoc. rewrite app_length. cbn [length].
        replace (length (concat bl1 ++ map STerminal ps) + 1 - 1) with (length (concat bl1 ++ map STerminal ps)) by lia. apply index_app_l. }
      rewrite X, index_app_l. cbn [gobind is_nonterminal_named]. apply Rest.
  Qed.
  Lemma sequences_same l l' : Forall2 respelled_sequence l l' -> forall fo ch,
    follows_sequences g' rm i l' j fi fo ch = follows_sequences g rm i l j fi fo ch.
  Proof.
    induction 1 as [|s s' l l' H _ IH]; intros fo ch; cbn [follows_sequences]; [reflexivity|].
    rewrite (inSequence_same _ _ fo ch H). destruct (ruleFollowsInSequence g rm i s j fi fo ch) as [(a, b)| | |]; cbn [gobind]; auto.
  Qed.
  End Walk.

  Lemma rules_at i : match nth_error g i, nth_error g' i with Some r, Some r' => respelled_rule r r' | None, None => True | _, _ => False end.
  Proof. apply rules_same, R. Qed.

  Lemma inRule_same i j fi fo ch : ruleFollowsInRule g' rm i j fi fo ch = ruleFollowsInRule g rm i j fi fo ch.
  Proof.
    unfold ruleFollowsInRule, ruleCount, collectRuleHeads. rewrite !map_length, len_respelled.
    destruct (Nat.leb_spec (length g) i); [reflexivity|]. destruct (Nat.leb_spec (length g) j); [reflexivity|].
    pose proof (rules_at i) as Hi. pose proof (rules_at j) as Hj. unfold index.
    destruct (nth_error g i) as [r|] eqn:Ei; [|apply nth_error_None in Ei; lia].
    destruct (nth_error g j) as [u|] eqn:Ej; [|apply nth_error_None in Ej; lia].
    destruct (nth_error g' i) as [r'|] eqn:Ei'; [|contradiction]. destruct (nth_error g' j) as [u'|] eqn:Ej'; [|contradiction]. cbn [gobind].
    apply (sequences_same i j r r' fi Ei Ei' (proj1 Hi)), Hj.
  Qed.
  Lemma follows_round_same pairs : forall fi fo ch, follows_round g' rm pairs fi fo ch = follows_round g rm pairs fi fo ch.
  Proof.
    induction pairs as [|(i, j) pairs IH]; intros fi fo ch; cbn [follows_round]; [reflexivity|]. rewrite inRule_same.
    destruct (ruleFollowsInRule g rm i j fi fo ch) as [(a, b)| | |]; cbn [gobind]; auto.
  Qed.
  Lemma follows_loop_same fuel : forall fi fo, follows_loop g' rm fuel fi fo = follows_loop g rm fuel fi fo.
  Proof.
    induction fuel as [|fuel IH]; intros fi fo; cbn [follows_loop]; [reflexivity|]. unfold all_pairs. rewrite len_respelled, follows_round_same.
    destruct (follows_round g rm _ fi fo false) as [(a, b)| | |]; cbn [gobind]; auto. destruct b; auto.
  Qed.
  Lemma findFollows_same fuel fi fo : findFollows g' rm fuel fi fo = findFollows g rm fuel fi fo.
  Proof. unfold findFollows. destruct (index fo 0); cbn [gobind]; try reflexivity. apply follows_loop_same. Qed.

  (** Rows *)
  Lemma respelled_ops_app a a' b b' : respelled_ops a a' -> respelled_ops b b' -> respelled_ops (a ++ b) (a' ++ b').
  Proof.
    intros (x & X & ->) (y & Y & ->). exists (x ++ y). split; [apply Forall2_app; assumption|rewrite concat_app; reflexivity].
  Qed.
  Lemma respelled_ops_one op l : respelled_op op l -> respelled_ops [op] l.
  Proof. intros H. exists [l]. split; [constructor; [exact H|constructor]|cbn; rewrite app_nil_r; reflexivity]. Qed.

  Definition append_all (t : ascii) (ops : list ParserOp) (b : row) : row := fold_left (fun b op => row_append t op b) ops b.
  Lemma append_all_get t ops : forall b c, ops <> [] -> row_get c (append_all t ops b) =
    if Ascii.eqb c t then Some (match row_get t b with Some l => l | None => [] end ++ ops) else row_get c b.
  Proof.
    induction ops as [|op ops IH]; intros b c N; [congruence|]. unfold append_all. cbn [fold_left]. fold (append_all t ops (row_append t op b)).
    destruct ops as [|op2 ops].
    - cbn. rewrite row_append_get. reflexivity.
    - rewrite IH by discriminate. rewrite !row_append_get. rewrite Ascii.eqb_refl. unfold cell_or_nil.
      destruct (Ascii.eqb c t); [rewrite <- app_assoc; reflexivity|reflexivity].
  Qed.
  Lemma row_append_respelled t op ops a b : respelled_row a b -> respelled_op op ops ->
    respelled_row (row_append t op a) (append_all t ops b).
  Proof.
    intros H O c. assert (N : ops <> []) by (destruct O as [|v parts (N & _)]; [discriminate|destruct parts; [congruence|discriminate]]).
    rewrite row_append_get, append_all_get by exact N. destruct (Ascii.eqb c t); [|apply H].
    unfold cell_or_nil. apply respelled_ops_app; [|apply respelled_ops_one, O]. specialize (H t).
    destruct (row_get t a), (row_get t b); try contradiction; [exact H|]. exists []. split; constructor.
  Qed.
  Lemma fill_terminals t ts : forall rest b,
    fill_symbols rm t (map STerminal ts ++ rest) b = fill_symbols rm t rest (append_all t (map OpTerminal ts) b).
  Proof. induction ts as [|v ts IH]; intros rest b; [reflexivity|]. cbn [map app fill_symbols]. rewrite IH. reflexivity. Qed.

  Lemma fill_symbols_respelled t s bl : Forall2 respelled_symbol s bl -> forall a b, respelled_row a b ->
    gsim respelled_row (fill_symbols rm t s a) (fill_symbols rm t (concat bl) b).
  Proof.
    induction 1 as [|x l s bl H _ IH]; intros a b A; cbn [concat]; [exact A|]. destruct H as [x|v parts C].
    - cbn [app]. destruct x as [v|v| |v]; cbn [fill_symbols]; try reflexivity.
      + destruct (rm_get rm v); [|reflexivity]. apply IH. apply (row_append_respelled _ _ _ _ _ A (ro_same _)).
      + apply IH. apply (row_append_respelled _ _ _ _ _ A (ro_same _)).
    - rewrite fill_terminals. cbn [fill_symbols]. apply IH. apply (row_append_respelled _ _ _ _ _ A (ro_cut _ _ C)).
  Qed.
  Lemma fill_firsts_respelled terms s s' : respelled_sequence s s' -> forall a b, respelled_row a b ->
    gsim respelled_row (fill_firsts rm terms s a) (fill_firsts rm terms s' b).
  Proof.
    intros (bl & H & ->). induction terms as [|t terms IH]; intros a b A; cbn [fill_firsts]; [exact A|].
    eapply gsim_bind; [apply fill_symbols_respelled; eassumption|]. exact IH.
  Qed.
  Lemma fill_follows_respelled terms : forall a b, respelled_row a b -> gsim respelled_row (fill_follows terms a) (fill_follows terms b).
  Proof.
    induction terms as [|t terms IH]; intros a b A; cbn [fill_follows]; [exact A|]. pose proof (A t) as At.
    destruct (row_get t a), (row_get t b); try contradiction; [reflexivity|]. apply IH. intros c. unfold row_get. rewrite !map_get_set by apply aeqb_ok.
    destruct (Ascii.eqb c t); [exists []; split; constructor|apply A].
  Qed.
  Lemma row_loop_respelled fi fol l l' : Forall2 respelled_sequence l l' -> forall a b, respelled_row a b ->
    gsim respelled_row (row_loop rm fi fol l a) (row_loop rm fi fol l' b).
  Proof.
    induction 1 as [|s s' l l' H _ IH]; intros a b A; cbn [row_loop]; [exact A|]. rewrite (sequenceFirsts_same rm fi _ _ H).
    destruct (sequenceFirsts rm fi s) as [u| | |]; cbn [gobind]; try reflexivity.
    eapply (gsim_bind (fun x y => respelled_row (fst x) (fst y) /\ snd x = snd y)).
    - destruct (bs_contains u EOS); [|split; [exact A|reflexivity]]. destruct (bs_range fol); cbn [gobind]; try reflexivity.
      eapply gsim_bind; [apply fill_follows_respelled, A|]. intros x y X. split; [exact X|reflexivity].
    - intros (x, u1) (y, u2) (X & E). cbn in X, E. subst u2. destruct (bs_range u1); cbn [gobind]; try reflexivity.
      eapply gsim_bind; [apply fill_firsts_respelled; [exact H|exact X]|]. exact IH.
  Qed.
  Lemma makeTableRow_respelled fi fo i : gsim respelled_row (makeTableRow g rm fi fo i) (makeTableRow g' rm fi fo i).
  Proof.
    unfold makeTableRow. eapply gsim_bind; [apply (gsim_index _ _ _ i R)|]. intros r r' (_ & H).
    destruct (index fo i); cbn [gobind]; try reflexivity. apply row_loop_respelled; [exact H|]. intros c. exact I.
  Qed.
  Lemma makeTable_respelled fi fo idxs : forall t t', respelled_table t t' ->
    gsim respelled_table (makeTable_loop g rm fi fo idxs t) (makeTable_loop g' rm fi fo idxs t').
  Proof.
    induction idxs as [|i idxs IH]; intros t t' T; cbn [makeTable_loop]; [exact T|].
    eapply gsim_bind; [apply makeTableRow_respelled|]. intros a b H. apply IH. intros n. unfold table_get.
    rewrite !map_get_set by apply Z.eqb_eq. destruct (n =? Z.of_nat i)%Z; [exact H|apply T].
  Qed.

  Lemma FromGrammar_respelled order fuel :
    gsim (fun x y => respelled_table (fst x) (fst y) /\ snd x = snd y) (FromGrammar_order order fuel g) (FromGrammar_order order fuel g').
  Proof.
    unfold FromGrammar_order, collectRuleHeads. change (map r_head g) with (heads g). change (map r_head g') with (heads g').
    rewrite heads_respelled. unfold Run. rewrite findFirsts_same.
    eapply (gsim_bind respelled_table).
    - destruct (findFirsts g rm fuel _) as [fi| | |]; cbn [gobind]; try reflexivity. rewrite findFollows_same.
      destruct (findFollows g rm fuel fi _) as [fo| | |]; cbn [gobind]; try reflexivity. unfold makeTable. rewrite len_respelled.
      apply makeTable_respelled. intros n. exact I.
    - intros t t' T. split; [exact T|reflexivity].
  Qed.
End Generating.

(** ** Parse *)

Scheme respelled_tree_ind2 := Induction for respelled_tree Sort Prop
  with respelled_trees_ind2 := Induction for respelled_trees Sort Prop.

Lemma respelled_items_one op b : respelled_op op b -> items b = items_of op.
Proof.
  intros [o|t parts (_ & _ & <-)]; [cbn; apply app_nil_r|]. cbn [items_of]. unfold items.
  induction parts as [|p parts IH]; [reflexivity|]. cbn [map flat_map concat items_of]. rewrite map_app, IH. reflexivity.
Qed.
Lemma respelled_items l l' : respelled_ops l l' -> items l' = items l.
Proof.
  intros (bl & H & ->). induction H as [|op b l bl H _ IH]; [reflexivity|]. cbn [concat]. unfold items in *. rewrite flat_map_app, IH.
  cbn [flat_map]. f_equal. apply (respelled_items_one _ _ H).
Qed.
Lemma respelled_nil l l' : respelled_ops l l' -> (l = [] <-> l' = []).
Proof.
  intros (bl & H & ->). destruct H as [|op b l bl H _]; [split; reflexivity|]. split; [discriminate|]. intros E. exfalso.
  destruct H as [o|t parts (N & _)]; [discriminate|]. destruct parts; [congruence|discriminate].
Qed.

Section Parsing.
  Variables t t' : table.
  Hypothesis T : respelled_table t t'.

  Lemma cell_fwd n c l : cell t n c l -> exists l', cell t' n c l' /\ respelled_ops l l'.
  Proof.
    intros (r & Hr & Hl). specialize (T n). unfold table_get, row_get in T. rewrite Hr in T. destruct (map_get Z.eqb n t') as [r'|] eqn:E; [|destruct T].
    specialize (T c). unfold row_get in T. rewrite Hl in T. destruct (map_get Ascii.eqb c r') as [l'|] eqn:El; [|destruct T].
    exists l'. split; [exists r'; auto|exact T].
  Qed.
  Lemma cell_back n c l' : cell t' n c l' -> exists l, cell t n c l /\ respelled_ops l l'.
  Proof.
    intros (r & Hr & Hl). specialize (T n). unfold table_get, row_get in T. rewrite Hr in T. destruct (map_get Z.eqb n t) as [r'|] eqn:E; [|destruct T].
    specialize (T c). unfold row_get in T. rewrite Hl in T. destruct (map_get Ascii.eqb c r') as [l|] eqn:El; [|destruct T].
    exists l. split; [exists r'; auto|exact T].
  Qed.
  Lemma row0_same : has_row0 t <-> has_row0 t'.
  Proof.
    specialize (T 0%Z). unfold table_get in T. unfold has_row0.
    destruct (map_get Z.eqb 0%Z t) as [r|], (map_get Z.eqb 0%Z t') as [r'|]; try contradiction; split; intros (x & E); eauto; congruence.
  Qed.
  Lemma no_row n : map_get Z.eqb n t = None <-> map_get Z.eqb n t' = None.
  Proof. specialize (T n). unfold table_get in T. destruct (map_get Z.eqb n t), (map_get Z.eqb n t'); try contradiction; split; congruence. Qed.

  Variable src : bytes.
  Lemma rewrites_same c d : rewrites t src c d <-> rewrites t' src c d.
  Proof.
    split; intros H.
    - inversion H as [? ? ? B|n l k f P C| |]; subst; try (constructor; first [assumption|reflexivity]).
      destruct (cell_fwd _ _ _ C) as (l' & C' & E). rewrite <- (respelled_items _ _ E). constructor; assumption.
    - inversion H as [? ? ? B|n l k f P C| |]; subst; try (constructor; first [assumption|reflexivity]).
      destruct (cell_back _ _ _ C) as (l' & C' & E). rewrite (respelled_items _ _ E). constructor; assumption.
  Qed.
  Lemma rewrites_star_same c d : rewrites_star t src c d <-> rewrites_star t' src c d.
  Proof.
    split; induction 1 as [|c1 c2 c3 H _ IH]; try constructor; (econstructor; [apply rewrites_same, H|exact IH]).
  Qed.
  Lemma stuck_same nm k f e : stuck t src nm k f e <-> stuck t' src nm k f e.
  Proof.
    split; intros H; inversion H as [| |n r f0 P E C| | |]; subst; try (constructor; first [assumption|reflexivity]).
    - apply st_no_row; [assumption|]. apply no_row. assumption.
    - pose proof (T n) as Tn. unfold table_get in Tn. rewrite E in Tn. destruct (map_get Z.eqb n t') as [r'|] eqn:E'; [|destruct Tn].
      specialize (Tn (byte_at src k)). unfold row_get in Tn. rewrite C in Tn. eapply st_no_cell; [exact P|exact E'|].
      destruct (map_get Ascii.eqb (byte_at src k) r'); [destruct Tn|reflexivity].
    - apply st_no_row; [assumption|]. apply no_row. assumption.
    - pose proof (T n) as Tn. unfold table_get in Tn. rewrite E in Tn. destruct (map_get Z.eqb n t) as [r'|] eqn:E'; [|destruct Tn].
      specialize (Tn (byte_at src k)). unfold row_get in Tn. rewrite C in Tn. eapply st_no_cell; [exact P|exact E'|].
      destruct (map_get Ascii.eqb (byte_at src k) r'); [destruct Tn|reflexivity].
  Qed.
  Lemma refuses_same nm k e : refuses t src nm k e <-> refuses t' src nm k e.
  Proof. split; intros (f & H & S); exists f; (split; [apply rewrites_star_same, H|apply stuck_same, S]). Qed.

  (** Trees *)
  Lemma derives_all_app tb a : forall b p x m y q, derives_all tb src a p x m -> derives_all tb src b m y q -> derives_all tb src (a ++ b) p (x ++ y) q.
  Proof.
    induction a as [|op a IH]; intros b p x m y q H1 H2; inversion H1; subst; [exact H2|]. cbn. econstructor; [eassumption|]. eapply IH; eassumption.
  Qed.
  Lemma derives_parts v parts p : cut v parts -> occurs_at src p v ->
    exists leaves, derives_all t' src (map OpTerminal parts) p leaves (p + length v) /\ pieces (Z.of_nat p) leaves (Z.of_nat (p + length v)).
  Proof.
    intros (N & F & <-). revert p. induction parts as [|u parts IH]; intros p O; [congruence|]. inversion F as [|? ? Fu Fp]; subst.
    cbn [concat map] in *. assert (Lu : 0 < length u) by (destruct u; [congruence|cbn; lia]).
    assert (Ou : occurs_at src p u).
    { intros k Hk. rewrite O by (rewrite app_length; lia). rewrite app_nth1 by lia. reflexivity. }
    destruct parts as [|u2 parts].
    - cbn [concat map]. rewrite app_nil_r. exists [literal_at p (p + length u)]. split.
      + econstructor; [apply d_terminal; assumption|constructor].
      + apply pc_last. lia.
    - destruct (IH ltac:(discriminate) Fp (p + length u)) as (leaves & D & P).
      { intros k Hk. rewrite <- Nat.add_assoc, O by (rewrite app_length; lia). rewrite app_nth2 by lia. f_equal. lia. }
      exists (literal_at p (p + length u) :: leaves). rewrite app_length.
      replace (p + (length u + length (concat (u2 :: parts)))) with (p + length u + length (concat (u2 :: parts))) by lia.
      split; [econstructor; [apply d_terminal; assumption|exact D]|]. apply pc_more; [lia|exact P].
  Qed.

  Lemma derives_respelled :
    (forall op p n q, derives t src op p n q ->
       (exists n', derives t' src op p n' q /\ respelled_tree n n')) /\
    (forall l p ns q, derives_all t src l p ns q -> forall bl, Forall2 respelled_op l bl ->
       exists ns', derives_all t' src (concat bl) p ns' q /\ respelled_trees ns ns').
  Proof.
    apply derives_both.
    - intros v p N O. exists (literal_at p (p + length v)). split; [apply d_terminal; assumption|]. repeat constructor.
    - intros p. eexists. split; [apply d_terminal_empty|]. repeat constructor.
    - intros n ops p childs q P C N D IH. destruct (cell_fwd _ _ _ C) as (l' & C' & X). pose proof (respelled_nil _ _ X) as E. destruct X as (bl & F & ->).
      destruct (IH bl F) as (ns' & D' & R). eexists. split; [eapply d_nonterminal; [exact P|exact C'|tauto|exact D']|]. constructor. exact R.
    - intros n p P C. destruct (cell_fwd _ _ _ C) as (l' & C' & X). apply respelled_nil in X. assert (l' = []) by tauto. subst l'.
      eexists. split; [apply d_nonterminal_empty; assumption|]. repeat constructor.
    - intros p B. eexists. split; [apply d_eol_lf, B|]. repeat constructor.
    - intros p B B2. eexists. split; [apply d_eol_crlf; assumption|]. repeat constructor.
    - intros p bl F. inversion F; subst. exists []. split; constructor.
    - intros op l p n m ns q D IHn D2 IHl bl F. inversion F as [|? b ? bl' Hb Fb]; subst. destruct (IHl _ Fb) as (ns' & D' & R). cbn [concat].
      destruct Hb as [op|v parts C].
      + destruct IHn as (n' & Dn & Rn). exists (n' :: ns'). split; [econstructor; eassumption|]. constructor; assumption.
      + inversion D as [? ? Nv Ov| | | | |]; subst.
        * destruct (derives_parts v parts p C Ov) as (leaves & DL & PL). exists (leaves ++ ns'). split; [eapply derives_all_app; eassumption|].
          apply rts_literal; assumption.
        * destruct (cut_cons _ _ C) as (? & ? & ? & ? & _ & X). discriminate.
  Qed.
  Lemma derives_text_respelled n : derives_text t src n -> exists n', derives_text t' src n' /\ respelled_tree n n'.
  Proof.
    intros (q & D & B). destruct (proj1 derives_respelled _ _ _ _ D) as (n' & D' & R). exists n'. split; [exists q; auto|exact R].
  Qed.
End Parsing.
