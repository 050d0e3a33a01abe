(** * Recode: Parse and FromGrammar commute with re-encodings of bytes. *)
From Verif Require Import Base ByteSet Ast Cst Parser TableGen Spec_Parse Spec_Grammar Spec_Recode ByteSetProofs GrammarProofs ParseApi2 TGFirsts TGFollows TGTable.
From Coq Require Import Sorting.Sorted.

Section Recode.
  Variables p r : ascii -> ascii.
  Hypothesis P : recoding p r.

  Lemma p_inj a b : p a = p b -> a = b.
  Proof. intros H. rewrite <- (proj1 P a), <- (proj1 P b), H. reflexivity. Qed.
  Lemma p_nul : p NUL = NUL.
  Proof. apply P. Qed.
  Lemma p_eqb a b : Ascii.eqb (p a) (p b) = Ascii.eqb a b.
  Proof.
    destruct (Ascii.eqb_spec a b) as [->|N]; [apply Ascii.eqb_refl|]. apply Ascii.eqb_neq. intros E. apply N, p_inj, E.
  Qed.
  Lemma p_eqb_fix a b : p b = b -> Ascii.eqb (p a) b = Ascii.eqb a b.
  Proof. intros E. rewrite <- E at 1. apply p_eqb. Qed.

  Section Parsing.
    Variables (t t' : table) (text : bytes) (names : names_map).
    Hypothesis T : recoded_table p t t'.
    Hypothesis E : uses_eol t -> p LF = LF /\ p CR = CR.

    Lemma peek_recoded i : peek (map p text) i = p (peek text i).
    Proof.
      unfold peek. rewrite nth_error_map. destruct (nth_error text i); [reflexivity|]. cbn. symmetry. apply p_nul.
    Qed.

    Definition rst (st : pstate) : pstate := mkPS (map (recoded_op p) (ps_ops st)) (ps_prods st) (ps_off st).
    Definition rret (x : preturn) : preturn := mkRet (r_tree x) (r_names x) (option_map (recoded_error p) (r_err x)).
    Definition rstep (x : stepres) : stepres :=
      match x with SNext st => SNext (rst st) | SReturn x nm => SReturn (rret x) nm | SPanic q => SPanic q end.

    Definition eol_ok (op : ParserOp) : Prop := op = OpNonTerminal (-2) -> uses_eol t.

    Lemma push_all_app l st : push_all l st = l ++ st.
    Proof.
      unfold push_all. rewrite <- (rev_involutive l) at 2. generalize (rev l). clear l. intros l. revert st.
      induction l as [|x l IH]; intros st; cbn [fold_left rev]; [reflexivity|]. rewrite IH, <- app_assoc. reflexivity.
    Qed.

    Lemma step_recoded st : Forall eol_ok (ps_ops st) -> step t' (map p text) names (rst st) = rstep (step t text names st).
    Proof.
      intros F. unfold step. destruct st as [[|op ops] prods off]; cbn [rst ps_ops ps_prods ps_off map]; [reflexivity|].
      cbn [ps_ops] in F. destruct op as [n|v|n q a| |c| |e]; cbn [recoded_op].
      - unfold processNonTerminal. destruct (n <? 0)%Z eqn:Hn.
        + unfold processBuiltinNonTerminal. destruct (n =? -2)%Z eqn:H2; [|reflexivity]. apply Z.eqb_eq in H2. subst n.
          destruct (E (Forall_inv F eq_refl)) as [EL EC]. rewrite peek_recoded, (p_eqb_fix _ LF EL), (p_eqb_fix _ CR EC).
          destruct (Ascii.eqb (peek text off) LF); [cbn [rstep]; unfold rst; cbn [ps_ops ps_prods ps_off map recoded_op]; rewrite EL; reflexivity|].
          destruct (Ascii.eqb (peek text off) CR); [cbn [rstep]; unfold rst; cbn [ps_ops ps_prods ps_off map recoded_op]; rewrite EL, EC; reflexivity|]. reflexivity.
        + unfold processTableNonTerminal. specialize (T n). destruct (table_get n t) as [rw|], (table_get n t') as [rw'|]; try contradiction; [|reflexivity].
          rewrite peek_recoded, T. destruct (row_get (peek text off) rw) as [l|]; cbn [option_map]; [|reflexivity].
          cbn [rstep]; unfold rst; cbn [ps_ops ps_prods ps_off map recoded_op]. rewrite !push_all_app, map_app, map_length. reflexivity.
      - unfold processTerminal. cbn [rstep]; unfold rst; cbn [ps_ops ps_prods ps_off map recoded_op]. rewrite !push_all_app, map_app, !map_map, map_length. reflexivity.
      - unfold processFunction. destruct (Nat.eqb a 0); [reflexivity|].
        destruct (pop_childs (n =? builtinTerminal)%Z a prods []) as [[]| | |]; reflexivity.
      - unfold processEOS. rewrite peek_recoded. rewrite (p_eqb_fix _ NUL p_nul).
        destruct (Ascii.eqb (peek text off) NUL); cbn [negb]; [|reflexivity]. destruct prods; [reflexivity|]. destruct names; reflexivity.
      - unfold processChar. rewrite peek_recoded, p_eqb. destruct (Ascii.eqb c (peek text off)); reflexivity.
      - reflexivity.
      - destruct e; reflexivity.
    Qed.

    Lemma step_eol st st' : Forall eol_ok (ps_ops st) -> step t text names st = SNext st' -> Forall eol_ok (ps_ops st').
    Proof.
      intros F. unfold step. destruct st as [[|op ops] prods off]; cbn [ps_ops ps_prods ps_off] in *; [discriminate|].
      inversion F as [|? ? F1 F2]; subst. destruct op as [n|v|n q a| |c| |e]; try discriminate.
      - unfold processNonTerminal. destruct (n <? 0)%Z eqn:Hn.
        + unfold processBuiltinNonTerminal. destruct (n =? -2)%Z; [|discriminate].
          destruct (Ascii.eqb (peek text off) LF); [|destruct (Ascii.eqb (peek text off) CR); [|discriminate]];
            intros H; injection H as <-; cbn; repeat (constructor; [discriminate|]); exact F2.
        + unfold processTableNonTerminal. destruct (table_get n t) as [rw|] eqn:En; [|discriminate].
          destruct (row_get (peek text off) rw) as [l|] eqn:El; [|discriminate]. intros H. injection H as <-. cbn [ps_ops].
          rewrite push_all_app. apply Forall_app. split; [|constructor; [discriminate|exact F2]].
          apply Forall_forall. intros op I ->. exists n, rw, (peek text off), l. auto.
      - unfold processTerminal. intros H. injection H as <-. cbn [ps_ops]. rewrite push_all_app. apply Forall_app.
        split; [|constructor; [discriminate|exact F2]]. apply Forall_forall. intros op I. apply in_map_iff in I. destruct I as (x & <- & _). discriminate.
      - unfold processFunction. destruct (Nat.eqb a 0); [intros H; injection H as <-; exact F2|].
        destruct (pop_childs (n =? builtinTerminal)%Z a prods []) as [[]| | |]; try discriminate. intros H; injection H as <-; exact F2.
      - unfold processEOS. destruct (negb (Ascii.eqb (peek text off) NUL)); [discriminate|]. destruct prods; [discriminate|]. destruct names; discriminate.
      - unfold processChar. destruct (negb (Ascii.eqb c (peek text off))); [discriminate|]. intros H; injection H as <-; exact F2.
    Qed.

    Lemma run_recoded fuel : forall st, Forall eol_ok (ps_ops st) ->
      run t' (map p text) names fuel (rst st) =
        (recoded_result p (fst (run t text names fuel st)), snd (run t text names fuel st)).
    Proof.
      induction fuel as [|fuel IH]; intros st F; [reflexivity|]. cbn [run]. rewrite (step_recoded st F).
      destruct (step t text names st) as [st1|x nm|q] eqn:Es; cbn [rstep]; [|reflexivity|reflexivity]. apply IH. eapply step_eol; eassumption.
    Qed.
  End Parsing.

  Lemma source_recoded src :
    readSource (recoded_source p src) =
      (match fst (readSource src) with Ok s => Ok (map p s) | x => x end, recoded_source p (snd (readSource src))).
  Proof.
    destruct src as [| | |[]|[cs []]|]; cbn; try reflexivity. rewrite concat_map. reflexivity.
  Qed.
  Lemma Parse_recoded t t' names src fuel :
    recoded_table p t t' -> (uses_eol t -> p LF = LF /\ p CR = CR) ->
    Parse fuel (NewLL1Parser t' names) (recoded_source p src) =
      mkOut (recoded_result p (po_result (Parse fuel (NewLL1Parser t names) src)))
            (po_names (Parse fuel (NewLL1Parser t names) src))
            (recoded_source p (po_source (Parse fuel (NewLL1Parser t names) src))).
  Proof.
    intros T E. unfold Parse, NewLL1Parser. cbn [p_table p_names].
    assert (Z0 : t = [] <-> t' = []).
    { split; intros ->.
      - destruct t' as [|[k v] t']; [reflexivity|]. specialize (T k). cbn in T. rewrite Z.eqb_refl in T. destruct T.
      - destruct t as [|[k v] t]; [reflexivity|]. specialize (T k). cbn in T. rewrite Z.eqb_refl in T. destruct T. }
    destruct t as [|x t].
    - destruct t'; [reflexivity|]. discriminate (proj1 Z0 eq_refl).
    - destruct t' as [|x' t']; [discriminate (proj2 Z0 eq_refl)|]. pose proof (T 0%Z) as T0.
      destruct (table_get 0 (x :: t)), (table_get 0 (x' :: t')); try contradiction; [|reflexivity].
      assert (Er : forall e, fst (readSource src) = Err e -> recoded_error p e = e).
      { destruct src as [| | |[]|[cs []]|]; cbn; intros e H; try discriminate; injection H as <-; reflexivity. }
      rewrite source_recoded. destruct (readSource src) as [[s|e|q|] src']; cbn [fst snd]; try reflexivity.
      + pose proof (run_recoded _ _ s names T E fuel init_state) as R. change (rst init_state) with init_state in R.
        rewrite R by (repeat constructor; discriminate).
        destruct (run (x :: t) s names fuel init_state); reflexivity.
      + cbn. unfold ret_err. rewrite (Er e eq_refl). reflexivity.
  Qed.

  (** ** FromGrammar *)
  Definition gsim {A B} (R : A -> B -> Prop) (x : tgres A) (y : tgres B) : Prop :=
    match x, y with
    | Ok a, Ok b => R a b
    | Err e, Err e' => e = e'
    | Panic q, Panic q' => q = q'
    | NoFuel, NoFuel => True
    | _, _ => False
    end.
  Lemma gsim_bind {A B C D} (R : A -> B -> Prop) (Q : C -> D -> Prop) x y f k :
    gsim R x y -> (forall a b, R a b -> gsim Q (f a) (k b)) -> gsim Q (gobind x f) (gobind y k).
  Proof. destruct x, y; cbn; intros H F; try contradiction; auto. Qed.
  Lemma gsim_index {A B} (R : A -> B -> Prop) l l' i : Forall2 R l l' -> gsim R (@index A l i) (@index B l' i).
  Proof.
    intros H. revert i. induction H as [|a b l l' H _ IH]; intros [|i]; cbn; try reflexivity; [exact H|].
    apply (IH i).
  Qed.
  Lemma upd_sim {A B} (R : A -> B -> Prop) l l' i x y : Forall2 R l l' -> R x y -> Forall2 R (upd l i x) (upd l' i y).
  Proof. intros H X. revert i. induction H; intros [|i]; cbn; constructor; auto. Qed.

  (** Sets of re-encoded bytes. *)
  Definition sset (s s' : ByteSet) : Prop :=
    bs_wf s /\ bs_wf s' /\ forall c, bs_contains s' (p c) = bs_contains s c.
  Lemma sset_new l : sset (bs_new l) (bs_new (map p l)).
  Proof.
    split; [apply new_wf|]. split; [apply new_wf|]. intros c. rewrite !contains_new. induction l as [|x l IH]; cbn; [reflexivity|].
    rewrite p_eqb, IH. reflexivity.
  Qed.
  Lemma sset_add s s' : sset s s' -> sset (bs_add s EOS) (bs_add s' EOS).
  Proof.
    intros (W & W' & H). split; [apply add_wf, W|]. split; [apply add_wf, W'|]. intros c. rewrite !contains_add, H. unfold EOS.
    rewrite (p_eqb_fix _ _ p_nul). reflexivity.
  Qed.
  Lemma sset_remove s s' : sset s s' -> sset (bs_remove s EOS) (bs_remove s' EOS).
  Proof.
    intros (W & W' & H). split; [apply remove_wf, W|]. split; [apply remove_wf, W'|]. intros c. rewrite !contains_remove, H. unfold EOS.
    rewrite (p_eqb_fix _ _ p_nul). reflexivity.
  Qed.
  Lemma sset_union s s' o o' : sset s s' -> sset o o' -> sset (bs_union s o) (bs_union s' o').
  Proof.
    intros (W & W' & H) (V & V' & G). split; [apply union_wf; assumption|]. split; [apply union_wf; assumption|].
    intros c. rewrite !contains_union, H, G. reflexivity.
  Qed.
  Lemma sset_eos s s' : sset s s' -> bs_contains s' EOS = bs_contains s EOS.
  Proof. intros (_ & _ & H). unfold EOS. rewrite <- p_nul at 1. apply H. Qed.
  Lemma sset_superset s s' o o' : sset s s' -> sset o o' -> bs_is_superset s' o' = bs_is_superset s o.
  Proof.
    intros (W & W' & H) (V & V' & G). apply Bool.eq_iff_eq_true. rewrite !superset_spec by assumption. split; intros X c Y.
    - rewrite <- H. apply X. rewrite G. exact Y.
    - rewrite <- (proj1 (proj2 P) c), H. apply X. rewrite <- G, (proj1 (proj2 P)). exact Y.
  Qed.
  Definition sterms (l l' : list ascii) : Prop := NoDup l /\ NoDup l' /\ forall c, In (p c) l' <-> In c l.
  Lemma sset_range s s' : sset s s' -> gsim sterms (bs_range s) (bs_range s').
  Proof.
    intros (W & W' & H). destruct (bytes_spec s W) as (l & E & S & I), (bytes_spec s' W') as (l' & E' & S' & I').
    unfold bs_range. rewrite E, E'. cbn. split; [apply ssorted_nodup, S|]. split; [apply ssorted_nodup, S'|].
    intros c. rewrite I, I', H. reflexivity.
  Qed.

  Section Generating.
    Variable g : grammar.
    Notation g' := (recoded_grammar p g).
    Notation rm := (enumerate (heads g)).
    Notation rsym := (recoded_symbol p).

    Lemma heads_recoded : heads g' = heads g.
    Proof. unfold heads, recoded_grammar. rewrite map_map. reflexivity. Qed.

    Lemma sequenceFirsts_loop_sim fi fi' total syms : Forall2 sset fi fi' -> forall res res' found, sset res res' ->
      gsim sset (sequenceFirsts_loop rm fi total syms res found) (sequenceFirsts_loop rm fi' total (map rsym syms) res' found).
    Proof.
      intros F. induction syms as [|x syms IH]; intros res res' found H; cbn [sequenceFirsts_loop map].
      - destruct found; [apply sset_add, H|exact H].
      - destruct x as [v|[|c w]| |u]; cbn [recoded_symbol map].
        + destruct (rm_get rm v) as [i|]; [|reflexivity]. eapply gsim_bind; [apply (gsim_index _ _ _ i F)|]. intros s s' S.
          rewrite (sset_eos _ _ S). destruct (bs_contains s EOS); cbn [negb]; [apply IH|]; apply sset_union; auto using sset_remove.
        + reflexivity.
        + cbn. apply sset_union; [exact H|]. apply (sset_new [c]).
        + destruct (Nat.ltb 1 total); [reflexivity|apply sset_add, H].
        + reflexivity.
    Qed.
    Lemma sequenceFirsts_sim fi fi' syms : Forall2 sset fi fi' ->
      gsim sset (sequenceFirsts rm fi syms) (sequenceFirsts rm fi' (map rsym syms)).
    Proof. intros F. unfold sequenceFirsts. rewrite map_length. apply sequenceFirsts_loop_sim; [exact F|apply (sset_new [])]. Qed.
    Lemma substitutionFirsts_sim fi fi' seqs : Forall2 sset fi fi' -> forall res res', sset res res' ->
      gsim sset (substitutionFirsts_loop rm fi seqs res) (substitutionFirsts_loop rm fi' (map (map rsym) seqs) res').
    Proof.
      intros F. induction seqs as [|s seqs IH]; intros res res' H; cbn [substitutionFirsts_loop map]; [exact H|].
      eapply gsim_bind; [apply sequenceFirsts_sim, F|]. intros a b S. apply IH, sset_union; assumption.
    Qed.

    Definition rrule (x y : rule) : Prop := y = recoded_rule p x.
    Lemma rules_sim : Forall2 rrule g g'.
    Proof. unfold recoded_grammar. induction g as [|x l IH]; cbn; constructor; [reflexivity|exact IH]. Qed.
    Definition ssets (x y : list ByteSet * bool) : Prop := Forall2 sset (fst x) (fst y) /\ snd x = snd y.

    Lemma ruleFirsts_sim i fi fi' ch : Forall2 sset fi fi' -> gsim ssets (ruleFirsts g rm i fi ch) (ruleFirsts g' rm i fi' ch).
    Proof.
      intros F. unfold ruleFirsts, ruleCount, collectRuleHeads. rewrite !map_length. unfold recoded_grammar at 1. rewrite map_length.
      destruct (Nat.leb (length g) i); [reflexivity|].
      eapply gsim_bind; [apply (gsim_index _ _ _ i rules_sim)|]. intros x y ->.
      eapply gsim_bind; [apply (substitutionFirsts_sim _ _ _ F _ _ (sset_new []))|]. intros a b S.
      eapply gsim_bind; [apply (gsim_index _ _ _ i F)|]. intros u v U. rewrite (sset_superset _ _ _ _ U S).
      destruct (bs_is_superset u a); split; cbn; auto. apply upd_sim; [exact F|apply sset_union; assumption].
    Qed.
    Lemma firsts_round_sim idxs : forall fi fi' ch, Forall2 sset fi fi' ->
      gsim ssets (firsts_round g rm idxs fi ch) (firsts_round g' rm idxs fi' ch).
    Proof.
      induction idxs as [|i idxs IH]; intros fi fi' ch F; cbn [firsts_round]; [split; [exact F|reflexivity]|].
      eapply gsim_bind; [apply ruleFirsts_sim, F|]. intros (a, c) (b, d) (H1 & H2). cbn in H1, H2. subst d. apply IH, H1.
    Qed.
    Lemma g_len : length g' = length g.
    Proof. unfold recoded_grammar. apply map_length. Qed.
    Lemma findFirsts_sim fuel : forall fi fi', Forall2 sset fi fi' ->
      gsim (Forall2 sset) (findFirsts g rm fuel fi) (findFirsts g' rm fuel fi').
    Proof.
      induction fuel as [|fuel IH]; intros fi fi' F; cbn [findFirsts]; [exact I|]. rewrite g_len.
      eapply gsim_bind; [apply firsts_round_sim, F|]. intros (a, c) (b, d) (H1 & H2). cbn in H1, H2. subst d.
      destruct c; [apply IH, H1|exact H1].
    Qed.

    Section Follows.
      Variables fi fi' : list ByteSet.
      Hypothesis F : Forall2 sset fi fi'.

      Lemma symbolFirsts_sim x : gsim sset (symbolFirsts rm fi x) (symbolFirsts rm fi' (rsym x)).
      Proof.
        destruct x as [v|[|c w]| |u]; cbn [recoded_symbol map symbolFirsts].
        - destruct (rm_get rm v) as [i|]; [apply gsim_index, F|reflexivity].
        - reflexivity.
        - cbn. apply (sset_new [c]).
        - cbn. pose proof (sset_new [EOS]) as H. cbn [map] in H. unfold EOS in *. rewrite p_nul in H. exact H.
        - reflexivity.
      Qed.
      Lemma named_sim x n : is_nonterminal_named (rsym x) n = is_nonterminal_named x n.
      Proof. destruct x; reflexivity. Qed.
      Definition osets (x y : option (list ByteSet)) : Prop :=
        match x, y with None, None => True | Some a, Some b => Forall2 sset a b | _, _ => False end.
      Lemma add_follows_sim fo fo' i e e' : Forall2 sset fo fo' -> sset e e' -> gsim osets (add_follows fo i e) (add_follows fo' i e').
      Proof.
        intros H E. unfold add_follows. eapply gsim_bind; [apply (gsim_index _ _ _ i H)|]. intros u v U.
        rewrite (sset_superset _ _ _ _ U E). destruct (bs_is_superset u e); cbn; [exact I|]. apply upd_sim; [exact H|apply sset_union; assumption].
      Qed.
      Definition rsymbol (x y : symbol) : Prop := y = rsym x.
      Lemma symbols_sim seq : Forall2 rsymbol seq (map rsym seq).
      Proof. induction seq; cbn; constructor; [reflexivity|assumption]. Qed.

      Lemma follows_inner_sim i seq j k : forall fo fo' ch, Forall2 sset fo fo' ->
        gsim ssets (follows_inner g rm i seq j fi k fo ch) (follows_inner g' rm i (map rsym seq) j fi' k fo' ch).
      Proof.
        induction k as [|k IH]; intros fo fo' ch H; cbn [follows_inner]; [split; [exact H|reflexivity]|].
        eapply gsim_bind; [apply (gsim_index _ _ _ k (symbols_sim seq))|]. intros x y ->.
        eapply gsim_bind; [apply (gsim_index _ _ _ i rules_sim)|]. intros u v ->. cbn [recoded_rule r_head]. rewrite named_sim.
        destruct (negb (is_nonterminal_named x (r_head u))); [apply IH, H|].
        eapply gsim_bind; [apply (gsim_index _ _ _ (S k) (symbols_sim seq))|]. intros x' y' ->.
        eapply gsim_bind; [apply symbolFirsts_sim|]. intros a b S. rewrite (sset_eos _ _ S).
        eapply (gsim_bind ssets).
        - destruct (bs_contains a EOS && negb (Nat.eqb i j)); [|split; [exact H|reflexivity]].
          eapply gsim_bind; [apply (gsim_index _ _ _ j H)|]. intros c d C.
          eapply gsim_bind; [apply add_follows_sim; eassumption|]. intros [w|] [z|] O; try contradiction; split; cbn; auto.
        - intros (f1, c1) (f2, c2) (H1 & H2). cbn in H1, H2. subst c2.
          eapply gsim_bind; [apply add_follows_sim; [exact H1|apply sset_remove, S]|]. intros [w|] [z|] O; try contradiction; apply IH; assumption.
      Qed.
      Lemma inSequence_sim i seq j fo fo' ch : Forall2 sset fo fo' ->
        gsim ssets (ruleFollowsInSequence g rm i seq j fi fo ch) (ruleFollowsInSequence g' rm i (map rsym seq) j fi' fo' ch).
      Proof.
        intros H. unfold ruleFollowsInSequence. rewrite map_length. destruct (Nat.eqb (length seq) 0); [reflexivity|].
        destruct (negb (Nat.eqb i j)); [|apply follows_inner_sim, H].
        eapply gsim_bind; [apply (gsim_index _ _ _ (length seq - 1) (symbols_sim seq))|]. intros x y ->.
        eapply gsim_bind; [apply (gsim_index _ _ _ i rules_sim)|]. intros u v ->. cbn [recoded_rule r_head]. rewrite named_sim.
        destruct (is_nonterminal_named x (r_head u)); [|apply follows_inner_sim, H].
        eapply gsim_bind; [apply (gsim_index _ _ _ j H)|]. intros c d C.
        eapply gsim_bind; [apply add_follows_sim; eassumption|].
        intros [w|] [z|] O; try contradiction; [split; [exact O|reflexivity]|apply follows_inner_sim, H].
      Qed.
      Lemma sequences_sim i seqs j : forall fo fo' ch, Forall2 sset fo fo' ->
        gsim ssets (follows_sequences g rm i seqs j fi fo ch) (follows_sequences g' rm i (map (map rsym) seqs) j fi' fo' ch).
      Proof.
        induction seqs as [|s seqs IH]; intros fo fo' ch H; cbn [follows_sequences map]; [split; [exact H|reflexivity]|].
        eapply gsim_bind; [apply inSequence_sim, H|]. intros (a, c) (b, d) (H1 & H2). cbn in H1, H2. subst d. apply IH, H1.
      Qed.
      Lemma inRule_sim i j fo fo' ch : Forall2 sset fo fo' ->
        gsim ssets (ruleFollowsInRule g rm i j fi fo ch) (ruleFollowsInRule g' rm i j fi' fo' ch).
      Proof.
        intros H. unfold ruleFollowsInRule, ruleCount, collectRuleHeads. rewrite !map_length, g_len.
        destruct (Nat.leb (length g) i); [reflexivity|]. destruct (Nat.leb (length g) j); [reflexivity|].
        eapply gsim_bind; [apply (gsim_index _ _ _ j rules_sim)|]. intros u v ->. apply sequences_sim, H.
      Qed.
      Lemma follows_round_sim pairs : forall fo fo' ch, Forall2 sset fo fo' ->
        gsim ssets (follows_round g rm pairs fi fo ch) (follows_round g' rm pairs fi' fo' ch).
      Proof.
        induction pairs as [|(i, j) pairs IH]; intros fo fo' ch H; cbn [follows_round]; [split; [exact H|reflexivity]|].
        eapply gsim_bind; [apply inRule_sim, H|]. intros (a, c) (b, d) (H1 & H2). cbn in H1, H2. subst d. apply IH, H1.
      Qed.
      Lemma follows_loop_sim fuel : forall fo fo', Forall2 sset fo fo' ->
        gsim (Forall2 sset) (follows_loop g rm fuel fi fo) (follows_loop g' rm fuel fi' fo').
      Proof.
        induction fuel as [|fuel IH]; intros fo fo' H; cbn [follows_loop]; [exact I|]. unfold all_pairs. rewrite g_len.
        eapply gsim_bind; [apply follows_round_sim, H|]. intros (a, c) (b, d) (H1 & H2). cbn in H1, H2. subst d.
        destruct c; [apply IH, H1|exact H1].
      Qed.
      Lemma findFollows_sim fuel fo fo' : Forall2 sset fo fo' ->
        gsim (Forall2 sset) (findFollows g rm fuel fi fo) (findFollows g' rm fuel fi' fo').
      Proof.
        intros H. unfold findFollows. eapply gsim_bind; [apply (gsim_index _ _ _ 0 H)|]. intros a b S.
        apply follows_loop_sim, upd_sim; [exact H|apply sset_add, S].
      Qed.

      (** Rows *)
      Definition rrow (a b : row) : Prop := forall c, row_get (p c) b = option_map (map (recoded_op p)) (row_get c a).
      Lemma terms_eqb l l' c : sterms l l' -> existsb (Ascii.eqb (p c)) l' = existsb (Ascii.eqb c) l.
      Proof.
        intros (_ & _ & H). apply Bool.eq_iff_eq_true. rewrite !existsb_exists. split.
        - intros (x & I & E). apply Ascii.eqb_eq in E. subst x. exists c. split; [apply H, I|apply Ascii.eqb_refl].
        - intros (x & I & E). apply Ascii.eqb_eq in E. subst x. exists (p c). split; [apply H, I|apply Ascii.eqb_refl].
      Qed.
      Lemma fill_follows_sim l l' a b : sterms l l' -> rrow a b -> gsim rrow (fill_follows l a) (fill_follows l' b).
      Proof.
        intros S H. pose proof S as (N & N' & Ht).
        destruct (fill_follows_spec l a N) as (A1 & A2 & A3 & A4), (fill_follows_spec l' b N') as (B1 & B2 & B3 & B4).
        assert (none : forall c, row_get c a = None <-> row_get (p c) b = None).
        { intros c. rewrite H. destruct (row_get c a); cbn; split; congruence. }
        destruct (fill_follows l a) as [x|e|q|] eqn:Ea; [|destruct (A2 e eq_refl) as (-> & c & v & I & E)|congruence|congruence].
        - destruct (A1 x eq_refl) as (C1 & C2). destruct (fill_follows l' b) as [y|e|q|] eqn:Eb; [|destruct (B2 e eq_refl) as (-> & c & v & I & E)|congruence|congruence].
          + cbn. destruct (B1 y eq_refl) as (D1 & D2). intros c. rewrite C2, D2, (terms_eqb _ _ c S). destruct (existsb (Ascii.eqb c) l); [reflexivity|apply H].
          + rewrite <- (proj1 (proj2 P) c) in I, E. apply Ht in I. apply C1 in I. apply none in I. congruence.
        - destruct (fill_follows l' b) as [y|e|q|] eqn:Eb; [|destruct (B2 e eq_refl) as (-> & _); reflexivity|congruence|congruence].
          destruct (B1 y eq_refl) as (D1 & _). apply Ht in I. apply D1 in I. apply none in I. congruence.
      Qed.

      Lemma ops_recoded s : ops_of g (map rsym s) = map (recoded_op p) (ops_of g s).
      Proof.
        unfold ops_of. induction s as [|x s IH]; cbn [map flat_map]; [reflexivity|]. rewrite IH, map_app. f_equal.
        destruct x as [v|w| |u]; cbn; try reflexivity. destruct (rm_get (rm) v); reflexivity.
      Qed.
      Lemma fill_symbols_out t u s : forall a b,
        gsim (fun _ _ => True) (fill_symbols rm t s a) (fill_symbols rm u (map rsym s) b).
      Proof.
        induction s as [|x s IH]; intros a b; cbn [fill_symbols map]; [exact I|].
        destruct x as [v|w| |z]; cbn [recoded_symbol]; [destruct (rm_get rm v); [apply IH|reflexivity]|apply IH|reflexivity|reflexivity].
      Qed.
      Lemma opable_recoded s : Forall (opable g) s <-> Forall (opable g) (map rsym s).
      Proof. rewrite !Forall_forall. split.
        - intros H x I. apply in_map_iff in I. destruct I as (y & <- & I). specialize (H y I). destruct y; exact H.
        - intros H x I. specialize (H (rsym x) (in_map _ _ _ I)). destruct x; exact H.
      Qed.
      Lemma fill_firsts_sim l l' s a b : sterms l l' -> rrow a b ->
        gsim rrow (fill_firsts rm l s a) (fill_firsts rm l' (map rsym s) b).
      Proof.
        intros S H. pose proof S as (N & N' & Ht).
        assert (Out : gsim (fun _ _ => True) (fill_firsts rm l s a) (fill_firsts rm l' (map rsym s) b)).
        { destruct l as [|t l1], l' as [|t' l1']; cbn [fill_firsts]; try exact I.
          - exfalso. apply (proj1 (Ht (r t'))). rewrite (proj1 (proj2 P)). left. reflexivity.
          - exfalso. apply (proj2 (Ht t)). left. reflexivity.
          - pose proof (fill_symbols_out t t' s a b) as O. destruct (fill_symbols rm t s a) as [x| | |] eqn:E.
            + destruct (fill_symbols rm t' (map rsym s) b) as [y| | |]; try contradiction. cbn [gobind].
              pose proof (proj1 (fill_symbols_spec _ _ _ _ _ E)) as Op.
              destruct (fill_firsts_ok g l1 s x Op) as (z & ->). destruct (fill_firsts_ok g l1' _ y (proj1 (opable_recoded s) Op)) as (z' & ->). exact I.
            + destruct (fill_symbols rm t' (map rsym s) b); try contradiction. exact O.
            + destruct (fill_symbols rm t' (map rsym s) b); try contradiction. exact O.
            + destruct (fill_symbols rm t' (map rsym s) b); try contradiction. exact O. }
        destruct (fill_firsts rm l s a) as [x| | |] eqn:Ea, (fill_firsts rm l' (map rsym s) b) as [y| | |] eqn:Eb; try exact Out.
        cbn. destruct (fill_firsts_spec g _ _ _ _ N Ea) as (_ & X), (fill_firsts_spec g _ _ _ _ N' Eb) as (_ & Y).
        intros c. rewrite X, Y, (terms_eqb _ _ c S). destruct (existsb (Ascii.eqb c) l); [|apply H].
        destruct s as [|z s]; [apply H|]. cbn [map]. change (rsym z :: map rsym s) with (map rsym (z :: s)). cbn [option_map].
        rewrite ops_recoded. unfold cell_or_nil. rewrite H, map_app. destruct (row_get c a); reflexivity.
      Qed.

      Lemma row_loop_sim fol fol' seqs : sset fol fol' -> forall a b, rrow a b ->
        gsim rrow (row_loop rm fi fol seqs a) (row_loop rm fi' fol' (map (map rsym) seqs) b).
      Proof.
        intros Sf. induction seqs as [|s seqs IH]; intros a b H; cbn [row_loop map]; [exact H|].
        eapply gsim_bind; [apply sequenceFirsts_sim, F|]. intros u v U. rewrite (sset_eos _ _ U).
        eapply (gsim_bind (fun x y => rrow (fst x) (fst y) /\ sset (snd x) (snd y))).
        - destruct (bs_contains u EOS); [|split; [exact H|exact U]].
          eapply gsim_bind; [apply (sset_range _ _ Sf)|]. intros l l' L.
          eapply gsim_bind; [apply (fill_follows_sim _ _ _ _ L H)|]. intros x y R. split; [exact R|apply sset_remove, U].
        - intros (x, u1) (y, v1) (R & U1). cbn in R, U1.
          eapply gsim_bind; [apply (sset_range _ _ U1)|]. intros l l' L.
          eapply gsim_bind; [apply (fill_firsts_sim _ _ _ _ _ L R)|]. intros z z' Z. apply IH, Z.
      Qed.
      Variables fo fo' : list ByteSet.
      Hypothesis G : Forall2 sset fo fo'.
      Lemma makeTableRow_sim i : gsim rrow (makeTableRow g rm fi fo i) (makeTableRow g' rm fi' fo' i).
      Proof.
        unfold makeTableRow. eapply gsim_bind; [apply (gsim_index _ _ _ i rules_sim)|]. intros u v ->.
        eapply gsim_bind; [apply (gsim_index _ _ _ i G)|]. intros a b S. apply row_loop_sim; [exact S|intros c; reflexivity].
      Qed.
      Lemma makeTable_sim idxs : forall t t', recoded_table p t t' ->
        gsim (recoded_table p) (makeTable_loop g rm fi fo idxs t) (makeTable_loop g' rm fi' fo' idxs t').
      Proof.
        induction idxs as [|i idxs IH]; intros t t' T; cbn [makeTable_loop]; [exact T|].
        eapply gsim_bind; [apply makeTableRow_sim|]. intros a b H. apply IH. intros n. unfold table_get.
        rewrite !map_get_set by apply Z.eqb_eq. destruct (n =? Z.of_nat i)%Z; [exact H|apply T].
      Qed.
    End Follows.

    Lemma FromGrammar_sim order fuel :
      gsim (fun x y => recoded_table p (fst x) (fst y) /\ snd x = snd y)
        (FromGrammar_order order fuel g) (FromGrammar_order order fuel g').
    Proof.
      unfold FromGrammar_order, collectRuleHeads. change (map r_head g) with (heads g). change (map r_head g') with (heads g').
      rewrite heads_recoded. unfold Run.
      assert (E : forall n, Forall2 sset (repeat (bs_new []) n) (repeat (bs_new []) n)).
      { induction n; cbn [repeat]; constructor; [apply (sset_new [])|assumption]. }
      eapply (gsim_bind (recoded_table p)).
      - eapply gsim_bind; [apply findFirsts_sim, E|]. intros fi fi' F.
        eapply gsim_bind; [apply findFollows_sim; [exact F|apply E]|]. intros fo fo' G.
        unfold makeTable. rewrite g_len. apply makeTable_sim; [exact F|exact G|]. intros n. exact I.
      - intros t t' T. split; [exact T|reflexivity].
    Qed.
  End Generating.
End Recode.
