(** * TGMain: FromGrammar as a whole. *)
From Verif Require Import Base ByteSet Ast Cst Parser TableGen Spec_Parse Spec_Tree Spec_Grammar Spec_Table
  ByteSetProofs GrammarProofs ParserProofs ParseApi ParseApi2 TGFirsts TGFollows TGTable.

(** [calm E x]: no panic, and only errors in [E]. *)
Definition calm (E : tgerror -> Prop) {A} (x : tgres A) : Prop :=
  match x with Ok _ => True | Err e => E e | Panic _ => False | NoFuel => True end.

Lemma calm_bind (E : tgerror -> Prop) {A B} (x : tgres A) (f : A -> tgres B) :
  calm E x -> (forall a, x = Ok a -> calm E (f a)) -> calm E (gobind x f).
Proof. destruct x; simpl; auto. Qed.
Lemma calm_index (E : tgerror -> Prop) {A} (l : list A) i : i < length l -> calm E (@index A l i).
Proof. intros H. destruct (index_lt l i H) as (x & ->). exact I. Qed.

Section Calm.
  Variable E : tgerror -> Prop.
  Variable g : grammar.
  Let rm := enumerate (heads g).

  Definition sym_calm (x : symbol) : Prop :=
    match x with
    | STerminal t => t <> []
    | SNonTerminal n => defined g n \/ E (ENoRulesDefined n)
    | _ => False
    end.
  Definition seq_calm (s : sequence) : Prop :=
    s = [SNothing] \/ (Forall sym_calm s /\ (s = [] -> E EEmptySequence)).
  Definition grammar_calm : Prop := forall n s, alternative g n s -> seq_calm s.

  Lemma rm_calm v : defined g v \/ E (ENoRulesDefined v) ->
    match rm_get rm v with Some i => i < length g | None => E (ENoRulesDefined v) end.
  Proof.
    intros H. destruct (rm_get rm v) as [i|] eqn:Ei; [eapply rm_get_lt; exact Ei|].
    destruct H as [H|H]; [|exact H]. apply enumerate_none in Ei. destruct (Ei H).
  Qed.

  Lemma sequenceFirsts_calm firsts s :
    length firsts = length g -> seq_calm s -> calm E (sequenceFirsts rm firsts s).
  Proof.
    intros L [->|[H _]]; [exact I|]. unfold sequenceFirsts.
    generalize (length s) as tot, (bs_new []) as res, true as fd.
    induction H as [|x s Hx _ IH]; intros tot res fd; cbn [sequenceFirsts_loop]; [exact I|].
    destruct x as [v|t| |str]; [destruct Hx as [H|H]| |destruct Hx|destruct Hx]; simpl in *.
    - pose proof (rm_calm v (or_introl H)) as Hr. destruct (rm_get rm v) as [i|]; [|exact Hr].
      apply calm_bind; [apply calm_index; lia|]. intros f _.
      destruct (bs_contains f EOS); simpl; [apply IH|exact I].
    - pose proof (rm_calm v (or_intror H)) as Hr. destruct (rm_get rm v) as [i|]; [|exact Hr].
      apply calm_bind; [apply calm_index; lia|]. intros f _.
      destruct (bs_contains f EOS); simpl; [apply IH|exact I].
    - destruct t; simpl; [congruence|exact I].
  Qed.

  Lemma alt_of i r s : nth_error g i = Some r -> In s (r_tail r) -> alternative g (r_head r) s.
  Proof. intros H Hs. exists r. split; [eapply nth_error_In; exact H|auto]. Qed.

  Lemma ruleFirsts_calm i firsts ch :
    grammar_calm -> length firsts = length g -> i < length g ->
    calm E (ruleFirsts g rm i firsts ch).
  Proof.
    intros C L Hi. unfold ruleFirsts.
    assert (Rc : ruleCount g = length g) by (unfold ruleCount, collectRuleHeads; apply map_length).
    rewrite Rc. destruct (Nat.leb_spec (length g) i); [lia|].
    apply calm_bind; [apply calm_index; lia|]. intros r Hr. apply index_ok in Hr.
    apply calm_bind.
    - unfold substitutionFirsts.
      assert (A : forall s, In s (r_tail r) -> seq_calm s).
      { intros s Hs. eapply C. eapply alt_of; eassumption. }
      revert A. generalize (r_tail r) as seqs, (bs_new []) as res.
      induction seqs as [|s seqs IH]; intros res A; cbn [substitutionFirsts_loop]; [exact I|].
      apply calm_bind; [apply sequenceFirsts_calm; [exact L|apply A; left; reflexivity]|].
      intros f _. apply IH. intros s' Hs'. apply A. right. exact Hs'.
    - intros tmp _. apply calm_bind; [apply calm_index; lia|]. intros f _.
      destruct (bs_is_superset f tmp); exact I.
  Qed.

  Lemma firsts_round_calm idxs : forall firsts ch,
    grammar_calm -> all_wf firsts -> length firsts = length g -> (forall i, In i idxs -> i < length g) ->
    calm E (firsts_round g rm idxs firsts ch).
  Proof.
    induction idxs as [|i idxs IH]; intros firsts ch C W L Hi; cbn [firsts_round]; [exact I|].
    apply calm_bind; [apply ruleFirsts_calm; [exact C|exact L|apply Hi; left; reflexivity]|].
    intros [f1 c1] E1. destruct (ruleFirsts_spec _ _ _ _ _ _ W L E1) as ((W1 & L1 & _) & _ & _).
    apply IH; [exact C|exact W1|congruence|]. intros j Hj. apply Hi. right. exact Hj.
  Qed.

  Lemma findFirsts_calm fuel : forall firsts,
    grammar_calm -> all_wf firsts -> length firsts = length g ->
    calm E (findFirsts g rm fuel firsts).
  Proof.
    induction fuel as [|fuel IH]; intros firsts C W L; cbn [findFirsts]; [exact I|].
    apply calm_bind.
    - apply firsts_round_calm; [exact C|exact W|exact L|]. intros i Hi. apply in_seq in Hi. lia.
    - intros [f1 c1] E1.
      assert (HP : first_inv g (fun _ _ => True)) by (intros ? ? ? ? ? ? ? ? ?; exact I).
      destruct (firsts_round_spec _ _ _ _ _ _ _ HP W L E1) as ((W1 & L1 & _) & _ & _).
      destruct c1; [|exact I]. apply IH; [exact C|exact W1|congruence].
  Qed.

  Section Follows.
    Variable firsts : list ByteSet.
    Hypothesis Wf : all_wf firsts.
    Hypothesis Lf : length firsts = length g.

    Lemma symbolFirsts_calm x : (x = SNothing \/ sym_calm x) -> calm E (symbolFirsts rm firsts x).
    Proof.
      intros [->|Hx]; [exact I|]. destruct x as [v|t| |str]; [destruct Hx as [H|H]| |destruct Hx|destruct Hx]; simpl in *.
      - pose proof (rm_calm v (or_introl H)) as Hr. destruct (rm_get rm v) as [i|]; [|exact Hr].
        apply calm_index. lia.
      - pose proof (rm_calm v (or_intror H)) as Hr. destruct (rm_get rm v) as [i|]; [|exact Hr].
        apply calm_index. lia.
      - destruct t; simpl; [congruence|exact I].
    Qed.

    Lemma add_follows_calm f i e : i < length f -> calm E (add_follows f i e).
    Proof.
      intros H. unfold add_follows. apply calm_bind; [apply calm_index, H|]. intros s _.
      destruct (bs_is_superset s e); exact I.
    Qed.

    Lemma seq_calm_nth s k x : seq_calm s -> nth_error s k = Some x -> x = SNothing \/ sym_calm x.
    Proof.
      intros [->|[H _]] Hk.
      - left. destruct k as [|[|k]]; simpl in Hk; congruence.
      - right. apply nth_error_In in Hk. eapply Forall_forall in H; eassumption.
    Qed.

    Lemma follows_inner_calm i j s k : forall f ch,
      seq_calm s -> length f = length g -> i < length g -> j < length g -> k < length s ->
      calm E (follows_inner g rm i s j firsts k f ch).
    Proof.
      induction k as [|k IH]; intros f ch Hs L Hi Hj Hk; cbn [follows_inner]; [exact I|].
      apply calm_bind; [apply calm_index; lia|]. intros sym _.
      apply calm_bind; [apply calm_index; lia|]. intros r _.
      destruct (is_nonterminal_named sym (r_head r)); simpl; [|apply IH; auto; lia].
      apply calm_bind; [apply calm_index; lia|]. intros next Hnext. apply index_ok in Hnext.
      apply calm_bind; [apply symbolFirsts_calm; eapply seq_calm_nth; eassumption|].
      intros nf _. apply calm_bind.
      - destruct (bs_contains nf EOS && negb (Nat.eqb i j)); [|exact I].
        apply calm_bind; [apply calm_index; lia|]. intros fj _.
        apply calm_bind; [apply add_follows_calm; lia|]. intros [f'|] _; exact I.
      - intros [f1 c1] E1.
        assert (L1 : length f1 = length f).
        { destruct (bs_contains nf EOS && negb (Nat.eqb i j)); [|injection E1 as <- <-; reflexivity].
          unfold index in E1. destruct (nth_error f j) as [fj|]; [|discriminate].
          cbn [gobind] in E1. unfold add_follows, index in E1.
          destruct (nth_error f i) as [fi|]; [|discriminate]. cbn [gobind] in E1.
          destruct (bs_is_superset fi fj); cbn [gobind] in E1; injection E1 as <- <-;
            [reflexivity|apply upd_length]. }
        apply calm_bind; [apply add_follows_calm; lia|]. intros [f2|] E2.
        + assert (L2 : length f2 = length f1).
          { unfold add_follows, index in E2. destruct (nth_error f1 i) as [fi|]; [|discriminate].
            cbn [gobind] in E2. destruct (bs_is_superset fi _); [discriminate|].
            injection E2 as <-. apply upd_length. }
          apply IH; auto; lia.
        + apply IH; auto; lia.
    Qed.

    Lemma inSequence_calm i j s f ch :
      seq_calm s -> length f = length g -> i < length g -> j < length g ->
      calm E (ruleFollowsInSequence g rm i s j firsts f ch).
    Proof.
      intros Hs L Hi Hj. unfold ruleFollowsInSequence.
      destruct (Nat.eqb_spec (length s) 0) as [E0|N0].
      - destruct Hs as [->|[_ Hs]]; [discriminate|]. apply Hs. destruct s; [reflexivity|discriminate].
      - assert (R : calm E (follows_inner g rm i s j firsts (length s - 1) f ch))
          by (apply follows_inner_calm; auto; lia).
        destruct (negb (Nat.eqb i j)); [|exact R].
        apply calm_bind; [apply calm_index; lia|]. intros sym _.
        apply calm_bind; [apply calm_index; lia|]. intros r _.
        destruct (is_nonterminal_named sym (r_head r)); [|exact R].
        apply calm_bind; [apply calm_index; lia|]. intros fj _.
        apply calm_bind; [apply add_follows_calm; lia|]. intros [f2|] _; [exact I|exact R].
    Qed.

    Lemma sequences_calm i j r seqs : forall f ch,
      grammar_calm -> nth_error g j = Some r -> (forall s, In s seqs -> In s (r_tail r)) ->
      all_wf f -> length f = length g -> i < length g -> j < length g ->
      calm E (follows_sequences g rm i seqs j firsts f ch).
    Proof.
      induction seqs as [|s seqs IH]; intros f ch C Hr Hin W L Hi Hj; cbn [follows_sequences]; [exact I|].
      apply calm_bind.
      - apply inSequence_calm; auto. eapply C. eapply alt_of; [exact Hr|apply Hin; left; reflexivity].
      - intros [f1 c1] E1.
        assert (HP : follow_inv g firsts (fun _ _ => True)) by (intros ? ? ? ? ? ? ? ?; auto).
        destruct (inSequence_spec g firsts Wf _ _ _ _ _ _ _ _ _ HP Hr (Hin _ (or_introl eq_refl)) W E1)
          as ((W1 & L1 & _) & _ & _).
        apply IH; auto; [|congruence]. intros s' Hs'. apply Hin. right. exact Hs'.
    Qed.

    Lemma follows_round_calm pairs : forall f ch,
      grammar_calm -> all_wf f -> length f = length g ->
      (forall i j, In (i, j) pairs -> i < length g /\ j < length g) ->
      calm E (follows_round g rm pairs firsts f ch).
    Proof.
      assert (Rc : ruleCount g = length g) by (unfold ruleCount, collectRuleHeads; apply map_length).
      induction pairs as [|[i j] pairs IH]; intros f ch C W L Hin; cbn [follows_round]; [exact I|].
      destruct (Hin i j (or_introl eq_refl)) as [Hi Hj].
      apply calm_bind.
      - unfold ruleFollowsInRule. rewrite Rc.
        destruct (Nat.leb_spec (length g) i); [lia|]. destruct (Nat.leb_spec (length g) j); [lia|].
        apply calm_bind; [apply calm_index; lia|]. intros r Hr. apply index_ok in Hr.
        eapply sequences_calm; eauto.
      - intros [f1 c1] E1. unfold ruleFollowsInRule in E1. rewrite Rc in E1.
        destruct (Nat.leb_spec (length g) i); [lia|]. destruct (Nat.leb_spec (length g) j); [lia|].
        unfold index in E1. destruct (nth_error g j) as [r|] eqn:Hr; [|discriminate]. cbn [gobind] in E1.
        assert (HP : follow_inv g firsts (fun _ _ => True)) by (intros ? ? ? ? ? ? ? ?; auto).
        destruct (sequences_spec g firsts Wf _ _ _ _ _ _ _ _ _ HP Hr (fun s Hs => Hs) W E1)
          as ((W1 & L1 & _) & _ & _).
        apply IH; auto; [congruence|]. intros i' j' H'. apply Hin. right. exact H'.
    Qed.

    Lemma follows_loop_calm fuel : forall f,
      grammar_calm -> all_wf f -> length f = length g ->
      calm E (follows_loop g rm fuel firsts f).
    Proof.
      induction fuel as [|fuel IH]; intros f C W L; cbn [follows_loop]; [exact I|].
      apply calm_bind.
      - apply follows_round_calm; auto. intros i j Hij. apply in_prod_iff in Hij.
        rewrite !in_seq in Hij. lia.
      - intros [f1 c1] E1.
        assert (HP : follow_inv g firsts (fun _ _ => True)) by (intros ? ? ? ? ? ? ? ?; auto).
        destruct (follows_round_spec g firsts Wf _ _ _ _ _ _ HP W E1) as ((W1 & L1 & _) & _ & _).
        destruct c1; [|exact I]. apply IH; auto. congruence.
    Qed.

    Lemma findFollows_calm fuel :
      grammar_calm -> g <> [] ->
      calm E (findFollows g rm fuel firsts (repeat (bs_new []) (length g))).
    Proof.
      intros C Hg. assert (0 < length g) by (destruct g; [congruence|simpl; lia]).
      unfold findFollows. apply calm_bind; [apply calm_index; rewrite repeat_length; lia|].
      intros f0 H0. apply index_ok, nth_error_In, repeat_spec in H0. subst f0.
      apply follows_loop_calm; [exact C| |rewrite upd_length; apply repeat_length].
      apply upd_forall; [apply repeat_wf|apply add_wf, new_wf].
    Qed.

    Lemma fill_calm terms s : forall res,
      s = [SNothing] /\ terms = [] \/ Forall sym_calm s -> calm E (fill_firsts rm terms s res).
    Proof.
      induction terms as [|t terms IH]; intros res H; cbn [fill_firsts]; [exact I|].
      destruct H as [[_ H]|H]; [discriminate|]. apply calm_bind; [|intros; apply IH; auto].
      clear IH. revert res. induction H as [|x s Hx _ IH]; intros res; cbn [fill_symbols]; [exact I|].
      destruct x as [v|w| |str]; [destruct Hx as [H|H]| |destruct Hx|destruct Hx]; simpl in *.
      - pose proof (rm_calm v (or_introl H)) as Hr. destruct (rm_get rm v) as [i|]; [apply IH|exact Hr].
      - pose proof (rm_calm v (or_intror H)) as Hr. destruct (rm_get rm v) as [i|]; [apply IH|exact Hr].
      - apply IH.
    Qed.

    Lemma row_loop_calm fol seqs : forall res,
      E EConflict -> bs_wf fol -> (forall s, In s seqs -> seq_calm s) ->
      calm E (row_loop rm firsts fol seqs res).
    Proof.
      intros res EC Wfol. revert res. induction seqs as [|s seqs IH]; intros res Hin; cbn [row_loop]; [exact I|].
      assert (Hs : seq_calm s) by (apply Hin; left; reflexivity).
      apply calm_bind; [apply sequenceFirsts_calm; assumption|]. intros sf Hsf.
      pose proof (sequenceFirsts_spec _ _ _ _ Hsf) as Spec.
      pose proof (sequenceFirsts_wf _ _ _ _ Wf Hsf) as Wsf.
      assert (Fin : forall r1 f2, bs_wf f2 -> (forall c, bs_contains f2 c = true -> bs_contains sf c = true /\ c <> NUL) ->
        calm E (go terms <- bs_range f2; go res <- fill_firsts rm terms s r1;
                row_loop rm firsts fol seqs res)).
      { intros r1 f2 W2 H2. destruct (bs_range_ok f2 W2) as (l & -> & _ & Hl). cbn [gobind].
        apply calm_bind; [|intros; apply IH; intros s' Hs'; apply Hin; right; exact Hs'].
        apply fill_calm. destruct Hs as [->|[Hs _]]; [left; split; [reflexivity|]|right; exact Hs].
        destruct l as [|c l]; [reflexivity|]. exfalso.
        destruct (H2 c (proj1 (Hl c) (or_introl eq_refl))) as [X Y]. rewrite Spec in X. simpl in X.
        apply Ascii.eqb_eq in X. auto. }
      unfold EOS. destruct (bs_contains sf NUL) eqn:En; cbn [gobind].
      - destruct (bs_range_ok fol Wfol) as (fl & -> & Nfl & _). cbn [gobind].
        destruct (fill_follows_spec fl res Nfl) as (_ & F2 & F3 & F4).
        destruct (fill_follows fl res) as [r1|e|p|]; cbn [gobind].
        + apply Fin; [apply remove_wf, Wsf|]. intros c Hc. rewrite contains_remove in Hc.
          apply andb_true_iff in Hc. destruct Hc as [H1 H2]. apply negb_true_iff, Ascii.eqb_neq in H1.
          auto.
        + destruct (F2 _ eq_refl) as [-> _]. exact EC.
        + destruct (F3 p). reflexivity.
        + exact I.
      - apply Fin; [exact Wsf|]. intros c Hc. split; [exact Hc|]. intros ->. congruence.
    Qed.

    Lemma makeTable_calm follows :
      E EConflict -> grammar_calm -> all_wf follows -> length follows = length g ->
      calm E (makeTable g rm firsts follows).
    Proof.
      intros EC C Wo Lo. unfold makeTable.
      assert (Hi : forall i, In i (seq 0 (length g)) -> i < length g).
      { intros i Hi. apply in_seq in Hi. lia. }
      revert Hi. generalize (seq 0 (length g)) as idxs, (@nil (Z * row)) as tbl.
      induction idxs as [|i idxs IH]; intros tbl Hi; cbn [makeTable_loop]; [exact I|].
      apply calm_bind; [|intros r _; apply IH; intros j Hj; apply Hi; right; exact Hj].
      specialize (Hi i (or_introl eq_refl)). unfold makeTableRow.
      apply calm_bind; [apply calm_index; lia|]. intros r Hr. apply index_ok in Hr.
      apply calm_bind; [apply calm_index; lia|]. intros fol Hfol. apply index_ok in Hfol.
      apply row_loop_calm; [exact EC|eapply all_wf_nth; eassumption|].
      intros s Hs. eapply C. eapply alt_of; eassumption.
    Qed.
  End Follows.
End Calm.

(** Taking FromGrammar apart. *)
Lemma FromGrammar_unfold order fuel g :
  FromGrammar_order order fuel g =
  (go firsts <- findFirsts g (enumerate (heads g)) fuel (repeat (bs_new []) (length g));
   go follows <- findFollows g (enumerate (heads g)) fuel firsts (repeat (bs_new []) (length g));
   go tbl <- makeTable g (enumerate (heads g)) firsts follows;
   Ok (tbl, rowNames_of (order (enumerate (heads g))))).
Proof.
  unfold FromGrammar_order, Run, collectRuleHeads. change (map r_head g) with (heads g).
  assert (L : length (heads g) = length g) by apply map_length. rewrite !L.
  destruct (findFirsts g _ fuel _) as [firsts| | |]; cbn [gobind]; try reflexivity.
  destruct (findFollows g _ fuel firsts _) as [follows| | |]; cbn [gobind]; reflexivity.
Qed.

Lemma FromGrammar_calm E order fuel g :
  g <> [] -> grammar_calm E g -> E EConflict -> calm E (FromGrammar_order order fuel g).
Proof.
  intros Hg C EC. rewrite FromGrammar_unfold.
  apply calm_bind; [apply findFirsts_calm; [exact C|apply repeat_wf|apply repeat_length]|].
  intros firsts Hf.
  assert (HP : first_inv g (fun _ _ => True)) by (intros ? ? ? ? ? ? ? ? ?; exact I).
  destruct (findFirsts_spec g _ _ _ _ HP (repeat_wf _) (repeat_length _ _) Hf) as (Wf & Lf & _ & _).
  apply calm_bind; [apply findFollows_calm; assumption|].
  intros follows Ho. unfold findFollows in Ho.
  destruct (index (repeat (bs_new []) (length g)) 0) as [f0| | |] eqn:E0; try discriminate.
  cbn [gobind] in Ho.
  assert (HP2 : follow_inv g firsts (fun _ _ => True)) by (intros ? ? ? ? ? ? ? ?; auto).
  apply index_ok, nth_error_In, repeat_spec in E0. subst f0.
  apply (follows_loop_spec g firsts Wf _ _ _ _ HP2) in Ho;
    [|apply upd_forall; [apply repeat_wf|apply add_wf, new_wf]].
  destruct Ho as (Wo & Lo & _). rewrite upd_length, repeat_length in Lo.
  apply calm_bind; [apply makeTable_calm; assumption|]. intros tbl _. exact I.
Qed.

(** ** Fuel *)

Definition enough (g : grammar) : nat := 256 * length g + 1.
Lemma all_bytes_256 : length all_bytes = 256.
Proof. unfold all_bytes. rewrite map_length, seq_length. reflexivity. Qed.

Lemma findFirsts_more g fuel : forall firsts k,
  findFirsts g (enumerate (heads g)) fuel firsts <> NoFuel ->
  findFirsts g (enumerate (heads g)) (fuel + k) firsts = findFirsts g (enumerate (heads g)) fuel firsts.
Proof.
  induction fuel as [|fuel IH]; intros firsts k H; cbn [findFirsts Nat.add] in *; [congruence|].
  destruct (firsts_round g (enumerate (heads g)) (seq 0 (length g)) firsts false) as [[f1 [|]]| | |];
    cbn [gobind] in *; try reflexivity. apply IH, H.
Qed.
Lemma follows_loop_more g firsts fuel : forall f k,
  follows_loop g (enumerate (heads g)) fuel firsts f <> NoFuel ->
  follows_loop g (enumerate (heads g)) (fuel + k) firsts f =
  follows_loop g (enumerate (heads g)) fuel firsts f.
Proof.
  induction fuel as [|fuel IH]; intros f k H; cbn [follows_loop Nat.add] in *; [congruence|].
  destruct (follows_round g (enumerate (heads g)) (all_pairs g) firsts f false) as [[f1 [|]]| | |];
    cbn [gobind] in *; try reflexivity. apply IH, H.
Qed.

Lemma parts_fuel g fuel :
  length all_bytes * length g < fuel ->
  findFirsts g (enumerate (heads g)) fuel (repeat (bs_new []) (length g)) <> NoFuel /\
  (forall firsts, findFirsts g (enumerate (heads g)) fuel (repeat (bs_new []) (length g)) = Ok firsts ->
     findFollows g (enumerate (heads g)) fuel firsts (repeat (bs_new []) (length g)) <> NoFuel /\
     forall follows, findFollows g (enumerate (heads g)) fuel firsts (repeat (bs_new []) (length g)) = Ok follows ->
       makeTable g (enumerate (heads g)) firsts follows <> NoFuel).
Proof.
  intros Hf. split.
  - apply findFirsts_fuel; [apply repeat_wf|apply repeat_length|lia].
  - intros firsts H.
    assert (HP : first_inv g (fun _ _ => True)) by (intros ? ? ? ? ? ? ? ? ?; exact I).
    destruct (findFirsts_spec g _ _ _ _ HP (repeat_wf _) (repeat_length _ _) H) as (Wf & Lf & _ & _).
    split.
    + unfold findFollows, index. destruct (nth_error (repeat (bs_new []) (length g)) 0) as [f0|] eqn:E0;
        cbn [gobind]; [|discriminate]. apply nth_error_In, repeat_spec in E0. subst f0.
      apply follows_loop_fuel; [exact Wf| |rewrite upd_length; apply repeat_length|lia].
      apply upd_forall; [apply repeat_wf|apply add_wf, new_wf].
    + intros follows Ho. unfold findFollows in Ho.
      destruct (index (repeat (bs_new []) (length g)) 0) as [f0| | |] eqn:E0; try discriminate.
      cbn [gobind] in Ho.
      assert (HP2 : follow_inv g firsts (fun _ _ => True)) by (intros ? ? ? ? ? ? ? ?; auto).
      apply index_ok, nth_error_In, repeat_spec in E0. subst f0.
      apply (follows_loop_spec g firsts Wf _ _ _ _ HP2) in Ho;
        [|apply upd_forall; [apply repeat_wf|apply add_wf, new_wf]].
      destruct Ho as (Wo & Lo & _).
      unfold makeTable. generalize (seq 0 (length g)) as idxs, (@nil (Z * row)) as tbl.
      induction idxs as [|i idxs IH]; intros tbl; cbn [makeTable_loop]; [discriminate|].
      assert (R : makeTableRow g (enumerate (heads g)) firsts follows i <> NoFuel).
      { unfold makeTableRow, index. destruct (nth_error g i) as [r|]; cbn [gobind]; [|discriminate].
        destruct (nth_error follows i) as [fol|] eqn:Efol; cbn [gobind]; [|discriminate].
        pose proof (all_wf_nth _ _ _ Wo Efol) as Wfol.
        generalize (@nil (ascii * list ParserOp)) as res. generalize (r_tail r) as seqs.
        induction seqs as [|s seqs IHs]; intros res; cbn [row_loop]; [discriminate|].
        assert (NS : sequenceFirsts (enumerate (heads g)) firsts s <> NoFuel).
        { unfold sequenceFirsts. generalize (length s) as tot, (bs_new []) as rs, true as fd.
          induction s as [|x s IHx]; intros tot rs fd; cbn [sequenceFirsts_loop]; [discriminate|].
          destruct x as [v|t| |str].
          - destruct (rm_get _ v); [|discriminate]. unfold index.
            destruct (nth_error firsts n); cbn [gobind]; [|discriminate].
            destruct (bs_contains b EOS); cbn [negb]; [apply IHx|discriminate].
          - destruct t; discriminate.
          - destruct (Nat.ltb 1 tot); discriminate.
          - discriminate. }
        destruct (sequenceFirsts (enumerate (heads g)) firsts s) as [sf| | |] eqn:Esf;
          cbn [gobind]; try discriminate; [|congruence].
        pose proof (sequenceFirsts_wf _ _ _ _ Wf Esf) as Wsf.
        assert (Fin : forall r1 f2, bs_wf f2 ->
          (go terms <- bs_range f2; go res <- fill_firsts (enumerate (heads g)) terms s r1;
           row_loop (enumerate (heads g)) firsts fol seqs res) <> NoFuel).
        { intros r1 f2 W2. destruct (bs_range_ok f2 W2) as (l & -> & _ & _). cbn [gobind].
          assert (FF : fill_firsts (enumerate (heads g)) l s r1 <> NoFuel).
          { revert r1. induction l as [|t l IHl]; intros r1; cbn [fill_firsts]; [discriminate|].
            assert (FS : fill_symbols (enumerate (heads g)) t s r1 <> NoFuel).
            { clear. revert r1. induction s as [|x s IHx]; intros r1; cbn [fill_symbols]; [discriminate|].
              destruct x; try discriminate; [|apply IHx]. destruct (rm_get _ name); [apply IHx|discriminate]. }
            destruct (fill_symbols (enumerate (heads g)) t s r1); cbn [gobind]; try discriminate;
              [apply IHl|congruence]. }
          destruct (fill_firsts (enumerate (heads g)) l s r1); cbn [gobind]; try discriminate;
            [apply IHs|congruence]. }
        destruct (bs_contains sf EOS); cbn [gobind]; [|apply Fin, Wsf].
        destruct (bs_range_ok fol Wfol) as (fl & -> & Nfl & _). cbn [gobind].
        destruct (fill_follows_spec fl res Nfl) as (_ & _ & _ & F4).
        destruct (fill_follows fl res); cbn [gobind]; try discriminate; [|congruence].
        apply Fin, remove_wf, Wsf. }
      destruct (makeTableRow g (enumerate (heads g)) firsts follows i); cbn [gobind]; try discriminate;
        [apply IH|congruence].
Qed.

Lemma FromGrammar_fuel order g fuel :
  enough g <= fuel -> FromGrammar_order order fuel g <> NoFuel.
Proof.
  intros H. rewrite FromGrammar_unfold.
  assert (H' : length all_bytes * length g < fuel).
  { rewrite all_bytes_256. unfold enough in H. lia. }
  destruct (parts_fuel g fuel H') as [H1 H2].
  destruct (findFirsts g (enumerate (heads g)) fuel (repeat (bs_new []) (length g))) as [firsts| | |];
    cbn [gobind]; try discriminate; [|congruence].
  destruct (H2 _ eq_refl) as [H3 H4].
  destruct (findFollows g (enumerate (heads g)) fuel firsts (repeat (bs_new []) (length g))) as [follows| | |];
    cbn [gobind]; try discriminate; [|congruence].
  specialize (H4 _ eq_refl).
  destruct (makeTable g (enumerate (heads g)) firsts follows); cbn [gobind]; try discriminate. congruence.
Qed.

Lemma FromGrammar_more order g fuel k :
  FromGrammar_order order fuel g <> NoFuel ->
  FromGrammar_order order (fuel + k) g = FromGrammar_order order fuel g.
Proof.
  rewrite !FromGrammar_unfold. intros H.
  assert (H1 : findFirsts g (enumerate (heads g)) fuel (repeat (bs_new []) (length g)) <> NoFuel).
  { intros E. rewrite E in H. apply H. reflexivity. }
  rewrite findFirsts_more by exact H1.
  destruct (findFirsts g (enumerate (heads g)) fuel (repeat (bs_new []) (length g))) as [firsts| | |];
    cbn [gobind] in *; try reflexivity.
  assert (H2 : findFollows g (enumerate (heads g)) (fuel + k) firsts (repeat (bs_new []) (length g)) =
               findFollows g (enumerate (heads g)) fuel firsts (repeat (bs_new []) (length g))).
  { unfold findFollows. unfold findFollows in H.
    destruct (index (repeat (bs_new []) (length g)) 0); cbn [gobind] in *; try reflexivity.
    apply follows_loop_more. intros E. rewrite E in H. apply H. reflexivity. }
  rewrite H2. reflexivity.
Qed.
