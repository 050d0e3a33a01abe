(** * GenTime: how many loop rounds FromGrammar makes. *)
From Verif Require Import Base ByteSet Ast Cst Parser TableGen TableGenTime FromCstTime Spec_Parse Spec_Grammar Spec_GenTime Spec_Bnf
  ByteSetProofs GrammarProofs ParseApi2 TGFirsts TGFollows TGTable TGMain TGNames.
From Coq Require Import Permutation.

(** ** Erasing the counts gives TableGen.v *)
Lemma tbind_snd {A B} (x : timed (tgres A)) (f : A -> timed (tgres B)) : snd (tbind x f) = gobind (snd x) (fun a => snd (f a)).
Proof. destruct x as [k [a|e|p|]]; cbn; try reflexivity. destruct (f a); reflexivity. Qed.
Lemma tick_snd {A} (x : timed A) : snd (tick x) = snd x.
Proof. reflexivity. Qed.
Lemma gobind_ext {E A B} (x : gores E A) (f k : A -> gores E B) : (forall a, f a = k a) -> gobind x f = gobind x k.
Proof. intros H. destruct x; cbn; auto. Qed.

Section Erase.
  Variable g : grammar.
  Variable rm : list (bytes * nat).

  Lemma sequenceFirsts_snd firsts s : snd (sequenceFirsts_t rm firsts s) = sequenceFirsts rm firsts s.
  Proof.
    unfold sequenceFirsts_t, sequenceFirsts. generalize (length s), (bs_new []), true. intros n res fd. revert res fd.
    induction s as [|x s IH]; intros res fd; cbn [sequenceFirsts_loop_t sequenceFirsts_loop]; [reflexivity|].
    destruct x as [v|w| |u]; rewrite tick_snd; try reflexivity. destruct (rm_get rm v); [|reflexivity]. rewrite tbind_snd. cbn [at_once snd].
    apply gobind_ext. intros f. cbv zeta. destruct (negb (bs_contains f EOS)); [reflexivity|apply IH].
  Qed.
  Lemma substitutionFirsts_snd firsts s : snd (substitutionFirsts_t rm firsts s) = substitutionFirsts rm firsts s.
  Proof.
    unfold substitutionFirsts_t, substitutionFirsts. generalize (bs_new []). induction s as [|x s IH]; intros res; [reflexivity|].
    cbn [substitutionFirsts_loop_t substitutionFirsts_loop]. rewrite tick_snd, tbind_snd, sequenceFirsts_snd. apply gobind_ext. intros a. apply IH.
  Qed.
  Lemma ruleFirsts_snd i firsts ch : snd (ruleFirsts_t g rm i firsts ch) = ruleFirsts g rm i firsts ch.
  Proof.
    unfold ruleFirsts_t, ruleFirsts. destruct (Nat.leb (ruleCount g) i); [reflexivity|]. rewrite tbind_snd. apply gobind_ext. intros r.
    rewrite tbind_snd, substitutionFirsts_snd. apply gobind_ext. intros a. rewrite tbind_snd. reflexivity.
  Qed.
  Lemma firsts_round_snd idxs : forall firsts ch, snd (firsts_round_t g rm idxs firsts ch) = firsts_round g rm idxs firsts ch.
  Proof.
    induction idxs as [|i idxs IH]; intros firsts ch; [reflexivity|]. cbn [firsts_round_t firsts_round].
    rewrite tick_snd, tbind_snd, ruleFirsts_snd. apply gobind_ext. intros (a, b). apply IH.
  Qed.
  Lemma findFirsts_snd fuel : forall firsts, snd (findFirsts_t g rm fuel firsts) = findFirsts g rm fuel firsts.
  Proof.
    induction fuel as [|fuel IH]; intros firsts; [reflexivity|]. cbn [findFirsts_t findFirsts].
    rewrite tick_snd, tbind_snd, firsts_round_snd. apply gobind_ext. intros (a, b). destruct b; [apply IH|reflexivity].
  Qed.

  Lemma follows_inner_snd i s j firsts k : forall fo ch,
    snd (follows_inner_t g rm i s j firsts k fo ch) = follows_inner g rm i s j firsts k fo ch.
  Proof.
    induction k as [|k IH]; intros fo ch; [reflexivity|]. cbn [follows_inner_t follows_inner].
    rewrite tick_snd, tbind_snd. apply gobind_ext. intros sym. rewrite tbind_snd. apply gobind_ext. intros r.
    destruct (negb (is_nonterminal_named sym (r_head r))); [apply IH|]. rewrite tbind_snd. apply gobind_ext. intros x.
    rewrite tbind_snd. apply gobind_ext. intros nf. rewrite tbind_snd.
    destruct (bs_contains nf EOS && negb (Nat.eqb i j)); rewrite ?tick_snd; cbn [at_once snd]; apply gobind_ext; intros (fo1, ch1);
      rewrite tbind_snd; apply gobind_ext; intros [w|]; apply IH.
  Qed.
  Lemma inSequence_snd i s j firsts fo ch :
    snd (ruleFollowsInSequence_t g rm i s j firsts fo ch) = ruleFollowsInSequence g rm i s j firsts fo ch.
  Proof.
    unfold ruleFollowsInSequence_t, ruleFollowsInSequence. destruct (Nat.eqb (length s) 0); [reflexivity|].
    destruct (negb (Nat.eqb i j)); [|apply follows_inner_snd]. rewrite tick_snd, tbind_snd. apply gobind_ext. intros x.
    rewrite tbind_snd. apply gobind_ext. intros r. destruct (is_nonterminal_named x (r_head r)); [|apply follows_inner_snd].
    rewrite tbind_snd. apply gobind_ext. intros u. rewrite tbind_snd. apply gobind_ext. intros [w|]; [reflexivity|apply follows_inner_snd].
  Qed.
  Lemma follows_sequences_snd i j firsts seqs : forall fo ch,
    snd (follows_sequences_t g rm i seqs j firsts fo ch) = follows_sequences g rm i seqs j firsts fo ch.
  Proof.
    induction seqs as [|s seqs IH]; intros fo ch; [reflexivity|]. cbn [follows_sequences_t follows_sequences].
    rewrite tick_snd, tbind_snd, inSequence_snd. apply gobind_ext. intros (a, b). apply IH.
  Qed.
  Lemma inRule_snd i j firsts fo ch :
    snd (ruleFollowsInRule_t g rm i j firsts fo ch) = ruleFollowsInRule g rm i j firsts fo ch.
  Proof.
    unfold ruleFollowsInRule_t, ruleFollowsInRule. destruct (Nat.leb (ruleCount g) i); [reflexivity|].
    destruct (Nat.leb (ruleCount g) j); [reflexivity|]. rewrite tbind_snd. apply gobind_ext. intros r. apply follows_sequences_snd.
  Qed.
  Lemma follows_row_snd i js : forall firsts fo ch,
    snd (follows_row_t g rm i js firsts fo ch) = follows_round g rm (map (pair i) js) firsts fo ch.
  Proof.
    induction js as [|j js IH]; intros firsts fo ch; [reflexivity|]. cbn [follows_row_t follows_round map].
    rewrite tick_snd, tbind_snd, inRule_snd. apply gobind_ext. intros (a, b). apply IH.
  Qed.
  Lemma follows_round_app p1 p2 firsts : forall fo ch,
    follows_round g rm (p1 ++ p2) firsts fo ch =
      (go (fo', ch') <- follows_round g rm p1 firsts fo ch; follows_round g rm p2 firsts fo' ch').
  Proof.
    induction p1 as [|(i, j) p1 IH]; intros fo ch; [reflexivity|]. cbn [app follows_round].
    destruct (ruleFollowsInRule g rm i j firsts fo ch) as [(a, b)| | |]; cbn [gobind]; try reflexivity. apply IH.
  Qed.
  Lemma follows_round_snd is : forall firsts fo ch,
    snd (follows_round_t g rm is firsts fo ch) = follows_round g rm (list_prod is (seq 0 (length g))) firsts fo ch.
  Proof.
    induction is as [|i is IH]; intros firsts fo ch; [reflexivity|]. cbn [follows_round_t list_prod].
    rewrite tick_snd, tbind_snd, follows_row_snd, follows_round_app. apply gobind_ext. intros (a, b). apply IH.
  Qed.
  Lemma follows_loop_snd fuel : forall firsts fo, snd (follows_loop_t g rm fuel firsts fo) = follows_loop g rm fuel firsts fo.
  Proof.
    induction fuel as [|fuel IH]; intros firsts fo; [reflexivity|]. cbn [follows_loop_t follows_loop].
    rewrite tick_snd, tbind_snd, follows_round_snd. apply gobind_ext. intros (a, b). destruct b; [apply IH|reflexivity].
  Qed.
  Lemma findFollows_snd fuel firsts fo : snd (findFollows_t g rm fuel firsts fo) = findFollows g rm fuel firsts fo.
  Proof. unfold findFollows_t, findFollows. rewrite tbind_snd. apply gobind_ext. intros a. apply follows_loop_snd. Qed.

  Lemma bs_range_snd s : snd (bs_range_t s) = bs_range s.
  Proof. unfold bs_range_t. destruct (bs_range s); reflexivity. Qed.
  Lemma fill_follows_snd l : forall res, snd (fill_follows_t l res) = fill_follows l res.
  Proof.
    induction l as [|t l IH]; intros res; [reflexivity|]. cbn [fill_follows_t fill_follows]. rewrite tick_snd.
    destruct (row_get t res); [reflexivity|apply IH].
  Qed.
  Lemma fill_symbols_snd t s : forall res, snd (fill_symbols_t rm t s res) = fill_symbols rm t s res.
  Proof.
    induction s as [|x s IH]; intros res; [reflexivity|]. destruct x as [v|w| |u]; cbn [fill_symbols_t fill_symbols]; rewrite tick_snd; try reflexivity.
    - destruct (rm_get rm v); [apply IH|reflexivity].
    - apply IH.
  Qed.
  Lemma fill_firsts_snd l s : forall res, snd (fill_firsts_t rm l s res) = fill_firsts rm l s res.
  Proof.
    induction l as [|t l IH]; intros res; [reflexivity|]. cbn [fill_firsts_t fill_firsts]. rewrite tick_snd, tbind_snd, fill_symbols_snd.
    apply gobind_ext. intros a. apply IH.
  Qed.
  Lemma row_loop_snd firsts fol seqs : forall res, snd (row_loop_t rm firsts fol seqs res) = row_loop rm firsts fol seqs res.
  Proof.
    induction seqs as [|s seqs IH]; intros res; [reflexivity|]. cbn [row_loop_t row_loop]. rewrite tick_snd, tbind_snd, sequenceFirsts_snd.
    apply gobind_ext. intros u. rewrite tbind_snd.
    match goal with |- gobind (snd ?y) _ = gobind ?z _ => assert (X : snd y = z) end.
    { destruct (bs_contains u EOS); [|reflexivity]. rewrite tbind_snd, bs_range_snd. apply gobind_ext. intros l.
      rewrite tbind_snd, fill_follows_snd. reflexivity. }
    refine (eq_trans (f_equal (fun z => gobind z _) X) _). apply gobind_ext. intros (res1, u1). rewrite tbind_snd, bs_range_snd. apply gobind_ext. intros l.
    rewrite tbind_snd, fill_firsts_snd. apply gobind_ext. intros a. apply IH.
  Qed.
  Lemma makeTableRow_snd firsts fo i : snd (makeTableRow_t g rm firsts fo i) = makeTableRow g rm firsts fo i.
  Proof.
    unfold makeTableRow_t, makeTableRow. rewrite tbind_snd. apply gobind_ext. intros r. rewrite tbind_snd. apply gobind_ext. intros f. apply row_loop_snd.
  Qed.
  Lemma makeTable_snd firsts fo : snd (makeTable_t g rm firsts fo) = makeTable g rm firsts fo.
  Proof.
    unfold makeTable_t, makeTable. generalize (seq 0 (length g)), (@nil (Z * row)). intros l. induction l as [|i l IH]; intros t; [reflexivity|].
    cbn [makeTable_loop_t makeTable_loop]. rewrite tick_snd, tbind_snd, makeTableRow_snd. apply gobind_ext. intros a. apply IH.
  Qed.
  Lemma Run_snd fuel firsts fo : snd (Run_t g rm fuel firsts fo) = Run g rm fuel firsts fo.
  Proof.
    unfold Run_t, Run. rewrite tbind_snd, findFirsts_snd. apply gobind_ext. intros a. rewrite tbind_snd, findFollows_snd. apply gobind_ext. intros b.
    apply makeTable_snd.
  Qed.
End Erase.

Lemma FromGrammar_snd order fuel g : snd (FromGrammar_t order fuel g) = FromGrammar_order order fuel g.
Proof.
  unfold FromGrammar_t, FromGrammar_order, collectRuleHeads_t, enumerate_t.
  match goal with |- context [tbind ?x ?f] => pose proof (tbind_snd x f) as E; destruct (tbind x f) as [k r] end.
  cbn [snd] in *. rewrite E, Run_snd. reflexivity.
Qed.

(** ** Upper bound *)
Lemma tbind_le {A B} (x : timed (tgres A)) (f : A -> timed (tgres B)) a b :
  fst x <= a -> (forall v, snd x = Ok v -> fst (f v) <= b) -> fst (tbind x f) <= a + b.
Proof.
  destruct x as [k [v|e|p|]]; cbn; intros H F; try lia. specialize (F v eq_refl). destruct (f v); cbn in *. lia.
Qed.
Lemma tbind_once {A B} (x : tgres A) (f : A -> timed (tgres B)) b :
  (forall v, x = Ok v -> fst (f v) <= b) -> fst (tbind (at_once x) f) <= b.
Proof. intros H. change b with (0 + b). apply tbind_le; [reflexivity|exact H]. Qed.
Lemma tick_le {A} (x : timed A) b : fst x <= b -> fst (tick x) <= S b.
Proof. unfold tick. cbn. lia. Qed.

Section Upper.
  Variable g : grammar.
  Notation rm := (enumerate (heads g)).
  Definition size_at (i : nat) : nat := match nth_error g i with Some r => S (alternatives_size (r_tail r)) | None => 1 end.

  Lemma sizes_from l : forall pre, g = pre ++ l -> list_sum (map size_at (seq (length pre) (length l))) = grammar_size l.
  Proof.
    unfold grammar_size. induction l as [|r l IH]; intros pre E; [reflexivity|]. cbn [length seq map].
    change (list_sum (?a :: ?b)) with (a + list_sum b). unfold size_at at 1. rewrite E, nth_error_app2 by lia. rewrite Nat.sub_diag.
    cbn [nth_error]. f_equal. specialize (IH (pre ++ [r])). rewrite app_length in IH. cbn [length] in IH. rewrite Nat.add_1_r in IH.
    rewrite <- IH; [reflexivity|]. rewrite <- app_assoc. exact E.
  Qed.
  Lemma sizes_all : list_sum (map size_at (seq 0 (length g))) = grammar_size g.
  Proof. exact (sizes_from g [] eq_refl). Qed.

  Lemma sequenceFirsts_le firsts s : fst (sequenceFirsts_t rm firsts s) <= length s.
  Proof.
    unfold sequenceFirsts_t. generalize (length s) at 1. generalize (bs_new []), true. intros res fd n. revert res fd.
    induction s as [|x s IH]; intros res fd; cbn [sequenceFirsts_loop_t length]; [cbn; lia|].
    destruct x as [v|w| |u]; apply tick_le; try (cbn; lia). destruct (rm_get rm v); [|cbn; lia]. apply tbind_once. intros f _. cbv zeta.
    destruct (negb (bs_contains f EOS)); [cbn; lia|apply IH].
  Qed.
  Lemma substitutionFirsts_le firsts s : fst (substitutionFirsts_t rm firsts s) <= alternatives_size s.
  Proof.
    unfold substitutionFirsts_t, alternatives_size. generalize (bs_new []). induction s as [|x s IH]; intros res; [cbn; lia|].
    cbn [substitutionFirsts_loop_t map]. change (list_sum (?a :: ?b)) with (a + list_sum b). apply tick_le.
    apply tbind_le; [apply sequenceFirsts_le|]. intros a _. apply IH.
  Qed.
  Lemma firsts_round_le idxs : forall firsts ch, fst (firsts_round_t g rm idxs firsts ch) <= list_sum (map size_at idxs).
  Proof.
    induction idxs as [|i idxs IH]; intros firsts ch; [cbn; lia|]. cbn [firsts_round_t map]. change (list_sum (?a :: ?b)) with (a + list_sum b).
    assert (H : fst (ruleFirsts_t g rm i firsts ch) + 1 <= size_at i).
    { unfold ruleFirsts_t, size_at. destruct (Nat.leb (ruleCount g) i); [destruct (nth_error g i); cbn; lia|].
      unfold index at 1. destruct (nth_error g i) as [r|]; [|cbn; lia]. rewrite Nat.add_1_r. apply le_n_S. apply tbind_once. intros r' E. injection E as <-.
      etransitivity; [apply tbind_le with (b := 0); [apply substitutionFirsts_le|]|lia]. intros a _. apply tbind_once. intros f _. cbn. lia. }
    etransitivity; [apply tick_le, (tbind_le _ _ (fst (ruleFirsts_t g rm i firsts ch)) (list_sum (map size_at idxs))); [apply Nat.le_refl|]|].
    - intros (a, b) _. apply IH.
    - set (x := fst _) in *. clearbody x. lia.
  Qed.

  (** Rounds still possible: each but the last adds a byte to a set. *)
  Definition room (f : list ByteSet) : nat := length all_bytes * length g - total f.
  Lemma findFirsts_le fuel : forall firsts, all_wf firsts -> length firsts = length g ->
    fst (findFirsts_t g rm fuel firsts) <= S (room firsts) * S (grammar_size g).
  Proof.
    induction fuel as [|fuel IH]; intros firsts W L; [apply Nat.le_0_l|]. cbn [findFirsts_t].
    pose proof (firsts_round_le (seq 0 (length g)) firsts false) as R. rewrite sizes_all in R.
    etransitivity; [apply tick_le, (tbind_le _ _ (grammar_size g) (room firsts * S (grammar_size g))); [exact R|]|rewrite (Nat.mul_succ_l (room _)); lia].
    intros (f1, c1) E. rewrite firsts_round_snd in E.
    assert (HP : first_inv g (fun _ _ => True)) by (intros ? ? ? ? ? ? ? ? ?; exact I).
    destruct (firsts_round_spec _ _ _ _ _ _ _ HP W L E) as (M & _ & _).
    destruct c1; [|apply Nat.le_0_l]. destruct M as (W1 & L1 & [[_ Hc]|(_ & T & _)]); [discriminate|].
    etransitivity; [apply IH; [exact W1|congruence]|]. apply Nat.mul_le_mono_r.
    pose proof (total_le f1) as Tl. rewrite L1, L in Tl. unfold room. lia.
  Qed.

  Lemma follows_inner_le i s j firsts k : forall fo ch, fst (follows_inner_t g rm i s j firsts k fo ch) <= 2 * k.
  Proof.
    induction k as [|k IH]; intros fo ch; [cbn; lia|]. cbn [follows_inner_t]. replace (2 * S k) with (S (S (2 * k))) by lia. apply tick_le.
    apply tbind_once. intros sym _. apply tbind_once. intros r _.
    destruct (negb (is_nonterminal_named sym (r_head r))); [etransitivity; [apply IH|lia]|].
    apply tbind_once. intros x _. apply tbind_once. intros nf _. change (S (2 * k)) with (1 + 2 * k). apply tbind_le.
    - destruct (bs_contains nf EOS && negb (Nat.eqb i j)); cbn; lia.
    - intros (fo1, ch1) _. cbv zeta. apply tbind_once. intros [w|] _; apply IH.
  Qed.
  Lemma inSequence_le i s j firsts fo ch : fst (ruleFollowsInSequence_t g rm i s j firsts fo ch) <= 2 * length s.
  Proof.
    unfold ruleFollowsInSequence_t. destruct (Nat.eqb_spec (length s) 0); [cbn; lia|].
    assert (H : forall fo1 ch1, fst (follows_inner_t g rm i s j firsts (length s - 1) fo1 ch1) <= 2 * length s - 2).
    { intros fo1 ch1. etransitivity; [apply follows_inner_le|lia]. }
    destruct (negb (Nat.eqb i j)); [|etransitivity; [apply H|lia]].
    etransitivity; [apply tick_le with (b := 2 * length s - 2)|lia]. apply tbind_once. intros x _. apply tbind_once. intros r _.
    destruct (is_nonterminal_named x (r_head r)); [|apply H]. apply tbind_once. intros u _. apply tbind_once. intros [w|] _; [cbn; lia|apply H].
  Qed.
  Lemma follows_sequences_le i j firsts seqs : forall fo ch,
    fst (follows_sequences_t g rm i seqs j firsts fo ch) <= 2 * alternatives_size seqs.
  Proof.
    unfold alternatives_size. induction seqs as [|s seqs IH]; intros fo ch; [cbn; lia|]. cbn [follows_sequences_t map].
    change (list_sum (?a :: ?b)) with (a + list_sum b).
    etransitivity; [apply tick_le, tbind_le; [apply inSequence_le|]|]; [intros (a, b) _; apply IH|]. lia.
  Qed.
  Lemma follows_row_le i js : forall firsts fo ch,
    fst (follows_row_t g rm i js firsts fo ch) <= 2 * list_sum (map size_at js).
  Proof.
    induction js as [|j js IH]; intros firsts fo ch; [cbn; lia|]. cbn [follows_row_t map]. change (list_sum (?a :: ?b)) with (a + list_sum b).
    assert (H : fst (ruleFollowsInRule_t g rm i j firsts fo ch) + 1 <= 2 * size_at j).
    { unfold ruleFollowsInRule_t, size_at. destruct (Nat.leb (ruleCount g) i); [destruct (nth_error g j); cbn; lia|].
      destruct (Nat.leb (ruleCount g) j); [destruct (nth_error g j); cbn; lia|]. unfold index.
      destruct (nth_error g j) as [r|]; [|cbn; lia]. 
      assert (X : fst (tbind (at_once (Ok r)) (fun r0 => follows_sequences_t g rm i (r_tail r0) j firsts fo ch)) <= 2 * alternatives_size (r_tail r)).
      { apply tbind_once. intros r' E. injection E as <-. apply follows_sequences_le. }
      etransitivity; [apply Nat.add_le_mono_r, X|]. lia. }
    etransitivity; [apply tick_le, (tbind_le _ _ (fst (ruleFollowsInRule_t g rm i j firsts fo ch)) (2 * list_sum (map size_at js))); [apply Nat.le_refl|]|].
    - intros (a, b) _. apply IH.
    - set (x := fst _) in *. clearbody x. lia.
  Qed.
  Lemma follows_round_le is : forall firsts fo ch,
    fst (follows_round_t g rm is firsts fo ch) <= length is * (1 + 2 * grammar_size g).
  Proof.
    induction is as [|i is IH]; intros firsts fo ch; [cbn; lia|]. cbn [follows_round_t length].
    etransitivity; [apply tick_le, tbind_le; [apply follows_row_le|]|]; [intros (a, b) _; apply IH|]. rewrite sizes_all. lia.
  Qed.
  Lemma follows_loop_le fuel : forall firsts fo, all_wf firsts -> all_wf fo -> length fo = length g ->
    fst (follows_loop_t g rm fuel firsts fo) <= S (room fo) * S (length g * (1 + 2 * grammar_size g)).
  Proof.
    induction fuel as [|fuel IH]; intros firsts fo Wf W L; [apply Nat.le_0_l|]. cbn [follows_loop_t].
    pose proof (follows_round_le (seq 0 (length g)) firsts fo false) as R. rewrite seq_length in R.
    set (q := length g * (1 + 2 * grammar_size g)) in *. clearbody q.
    etransitivity; [apply tick_le, (tbind_le _ _ q (room fo * S q)); [exact R|]|rewrite (Nat.mul_succ_l (room _)); lia].
    intros (f1, c1) E. rewrite follows_round_snd in E.
    assert (HP : follow_inv g firsts (fun _ _ => True)) by (intros ? ? ? ? ? ? ? ?; auto).
    destruct (follows_round_spec g firsts Wf _ _ _ _ _ _ HP W E) as (M & _ & _).
    destruct c1; [|apply Nat.le_0_l]. destruct M as (W1 & L1 & [[_ Hc]|(_ & T & _)]); [discriminate|].
    etransitivity; [apply IH; [exact Wf|exact W1|congruence]|]. apply Nat.mul_le_mono_r.
    pose proof (total_le f1) as Tl. rewrite L1, L in Tl. unfold room. lia.
  Qed.

  Lemma bs_range_le s : bs_wf s -> fst (bs_range_t s) <= 256 /\ forall l, snd (bs_range_t s) = Ok l -> length l <= 256.
  Proof.
    intros W. destruct (bs_range_ok s W) as (l & E & N & _). unfold bs_range_t. rewrite E. cbn [fst snd].
    pose proof (all_bytes_length l N). split; [assumption|]. intros l' X. injection X as <-. assumption.
  Qed.
  Lemma fill_follows_le l : forall res, fst (fill_follows_t l res) <= length l.
  Proof.
    induction l as [|t l IH]; intros res; [apply Nat.le_0_l|]. cbn [fill_follows_t length]. apply tick_le.
    destruct (row_get t res); [apply Nat.le_0_l|apply IH].
  Qed.
  Lemma fill_symbols_le t s : forall res, fst (fill_symbols_t rm t s res) <= length s.
  Proof.
    induction s as [|x s IH]; intros res; [apply Nat.le_0_l|].
    destruct x as [v|w| |u]; cbn [fill_symbols_t length]; apply tick_le; try apply Nat.le_0_l; [|apply IH].
    destruct (rm_get rm v); [apply IH|apply Nat.le_0_l].
  Qed.
  Lemma fill_firsts_le l s : forall res, fst (fill_firsts_t rm l s res) <= length l * S (length s).
  Proof.
    induction l as [|t l IH]; intros res; [apply Nat.le_0_l|]. cbn [fill_firsts_t length].
    etransitivity; [apply tick_le, tbind_le; [apply fill_symbols_le|]|]; [intros a _; apply IH|]. rewrite Nat.mul_succ_l. lia.
  Qed.
  Lemma row_loop_le firsts fol seqs : all_wf firsts -> bs_wf fol -> forall res,
    fst (row_loop_t rm firsts fol seqs res) <= 1025 * alternatives_size seqs.
  Proof.
    intros Wf Wo. unfold alternatives_size. induction seqs as [|s seqs IH]; intros res; [apply Nat.le_0_l|].
    cbn [row_loop_t map]. change (list_sum (?a :: ?b)) with (a + list_sum b). set (rest := list_sum _) in *. clearbody rest.
    apply Nat.le_trans with (S (length s + (512 + (256 + (256 * S (length s) + 1025 * rest))))); [|lia].
    apply tick_le, tbind_le; [apply sequenceFirsts_le|]. intros u Eu. rewrite sequenceFirsts_snd in Eu.
    pose proof (sequenceFirsts_wf _ _ _ _ Wf Eu) as Wu.
    apply tbind_le.
    - destruct (bs_contains u EOS); [|apply Nat.le_0_l]. destruct (bs_range_le fol Wo) as (R1 & R2).
      change 512 with (256 + (256 + 0)). apply tbind_le; [exact R1|]. intros l El. apply tbind_le; [|intros; apply Nat.le_0_l].
      etransitivity; [apply fill_follows_le|apply R2, El].
    - intros (res1, u1) E1.
      assert (W1 : bs_wf u1).
      { destruct (bs_contains u EOS); [|cbn in E1; congruence]. rewrite tbind_snd in E1.
        destruct (snd (bs_range_t fol)); try discriminate. cbn [gobind] in E1. rewrite tbind_snd in E1.
        destruct (snd (fill_follows_t a res)); try discriminate. cbn [gobind at_once snd] in E1. injection E1 as _ <-. apply remove_wf, Wu. }
      destruct (bs_range_le u1 W1) as (R1 & R2). apply tbind_le; [exact R1|]. intros l El. apply tbind_le; [|intros a _; apply IH].
      etransitivity; [apply fill_firsts_le|]. apply Nat.mul_le_mono_r, R2, El.
  Qed.
  Lemma makeTable_le firsts fo : all_wf firsts -> all_wf fo -> fst (makeTable_t g rm firsts fo) <= 1025 * grammar_size g.
  Proof.
    intros Wf Wo. unfold makeTable_t. rewrite <- sizes_all. generalize (seq 0 (length g)), (@nil (Z * row)). intros l.
    induction l as [|i l IH]; intros t; [apply Nat.le_0_l|]. cbn [makeTable_loop_t map]. change (list_sum (?a :: ?b)) with (a + list_sum b).
    assert (H : fst (makeTableRow_t g rm firsts fo i) + 1 <= 1025 * size_at i).
    { unfold makeTableRow_t, size_at. unfold index at 1. destruct (nth_error g i) as [r|]; [|cbn; lia].
      assert (X : fst (tbind (at_once (Ok r)) (fun rule => tbind (at_once (index fo i)) (fun ruleFollows => row_loop_t rm firsts ruleFollows (r_tail rule) [])))
        <= 1025 * alternatives_size (r_tail r)).
      { apply tbind_once. intros r' E. injection E as <-. apply tbind_once. intros f E. apply row_loop_le; [exact Wf|].
        apply index_ok in E. eapply all_wf_nth; eassumption. }
      etransitivity; [apply Nat.add_le_mono_r, X|]. lia. }
    etransitivity; [apply tick_le, (tbind_le _ _ (fst (makeTableRow_t g rm firsts fo i)) (1025 * list_sum (map size_at l))); [apply Nat.le_refl|]|].
    - intros a _. apply IH.
    - set (x := fst _) in *. clearbody x. lia.
  Qed.

  Lemma Run_le fuel :
    fst (Run_t g rm fuel (repeat (bs_new []) (length g)) (repeat (bs_new []) (length g))) <=
      (256 * length g + 1) * (grammar_size g + 1) +
      ((256 * length g + 1) * (length g * (2 * grammar_size g + 1) + 1) + 1025 * grammar_size g).
  Proof.
    unfold Run_t.
    assert (Rm : forall f, room f <= 256 * length g) by (intros f; unfold room; rewrite all_bytes_256; lia).
    apply tbind_le.
    - etransitivity; [apply findFirsts_le; [apply repeat_wf|apply repeat_length]|]. rewrite !Nat.add_1_r. apply Nat.mul_le_mono_r, le_n_S, Rm.
    - intros firsts E. rewrite findFirsts_snd in E.
      assert (HP : first_inv g (fun _ _ => True)) by (intros ? ? ? ? ? ? ? ? ?; exact I).
      destruct (findFirsts_spec g _ _ _ _ HP (repeat_wf _) (repeat_length _ _) E) as (Wf & Lf & _ & _).
      assert (X : forall f0, index (repeat (bs_new []) (length g)) 0 = Ok f0 -> all_wf (upd (repeat (bs_new []) (length g)) 0 (bs_add f0 EOS))).
      { intros f0 E0. apply index_ok, nth_error_In, repeat_spec in E0. subst f0. apply upd_forall; [apply repeat_wf|apply add_wf, new_wf]. }
      apply tbind_le.
      + unfold findFollows_t. apply tbind_once. intros f0 E0.
        etransitivity; [apply follows_loop_le; [exact Wf|apply X, E0|rewrite upd_length; apply repeat_length]|].
        rewrite !Nat.add_1_r. apply Nat.mul_le_mono; [apply le_n_S, Rm|]. apply le_n_S. apply Nat.mul_le_mono_l. lia.
      + intros follows Ho. rewrite findFollows_snd in Ho. unfold findFollows in Ho.
        destruct (index (repeat (bs_new []) (length g)) 0) as [f0| | |] eqn:E0; try discriminate. cbn [gobind] in Ho.
        assert (HP2 : follow_inv g firsts (fun _ _ => True)) by (intros ? ? ? ? ? ? ? ?; auto).
        apply (follows_loop_spec g firsts Wf _ _ _ _ HP2) in Ho; [|apply X; reflexivity]. destruct Ho as (Wo & _).
        apply makeTable_le; assumption.
  Qed.
End Upper.

Lemma enumerate_length l : length (enumerate l) <= length l.
Proof.
  rewrite <- (map_length fst (enumerate l)). apply NoDup_incl_length; [apply enumerate_keys|].
  intros v I. apply in_map_iff in I. destruct I as ((n, i) & <- & I). cbn [fst].
  destruct (in_dec bytes_eq_dec n l) as [H|H]; [exact H|]. apply enumerate_none in H.
  exfalso. revert I H. clear. generalize (enumerate l). induction l0 as [|(k, x) l0 IH]; intros I H; [destruct I|]. cbn in *.
  destruct (bytes_eqb n k) eqn:E; [discriminate|]. destruct I as [I|I]; [|exact (IH I H)]. injection I as -> ->.
  assert (bytes_eqb n n = true) by (apply bytes_eqb_eq; reflexivity). congruence.
Qed.
Lemma rules_size g : length g <= grammar_size g.
Proof. unfold grammar_size. induction g as [|r g IH]; [apply Nat.le_refl|]. cbn [map length]. change (list_sum (?a :: ?b)) with (a + list_sum b). lia. Qed.

Lemma FromGrammar_rounds order fuel g : (forall l, Permutation (order l) l) ->
  fst (FromGrammar_t order fuel g) <= 2 * (256 * length g + 1) * (length g + 1) * (grammar_size g + 1) + 1031 * grammar_size g.
Proof.
  intros O. unfold FromGrammar_t, collectRuleHeads_t, enumerate_t, collectRuleHeads. change (map r_head g) with (heads g).
  assert (L : length (heads g) = length g) by (unfold heads; apply map_length). rewrite !L.
  match goal with |- context [tbind ?x ?f] => assert (H : fst (tbind x f) <=
      ((256 * length g + 1) * (grammar_size g + 1) +
      ((256 * length g + 1) * (length g * (2 * grammar_size g + 1) + 1) + 1025 * grammar_size g)) + length g);
    [apply tbind_le; [apply Run_le|]|destruct (tbind x f) as [k r]] end.
  - intros t _. cbn [fst]. rewrite (Permutation_length (O _)). rewrite <- L. apply enumerate_length.
  - cbn [fst] in *. pose proof (rules_size g) as Hn. set (n := length g) in *. set (m := grammar_size g) in *. clearbody n m.
    assert (Q : (256 * n + 1) * (m + 1) + (256 * n + 1) * (n * (2 * m + 1) + 1) <= 2 * (256 * n + 1) * (n + 1) * (m + 1)).
    { set (c := 256 * n + 1). clearbody c. nia. }
    lia.
Qed.

(** ** Grammars read from texts *)
Lemma symbol_bytes t s : symbol_text t s -> 2 <= length t.
Proof.
  intros H. destruct H as [n _|q raw v _ _ _|q _]; cbn [length]; rewrite ?app_length; cbn [length]; lia.
Qed.
Lemma sequence_bytes t s : sequence_text t s -> S (length s) <= length t /\ 2 <= length t.
Proof.
  intros H. induction H as [t w s H _|t w s ts ss H _ _ IH]; apply symbol_bytes in H; rewrite !app_length; cbn [length]; lia.
Qed.
Lemma alternatives_bytes t l : alternatives_text t l -> alternatives_size l <= length t /\ 2 <= length t.
Proof.
  unfold alternatives_size. intros H. induction H as [t s H|t s w ts ss H _ _ IH]; apply sequence_bytes in H.
  - cbn. lia.
  - cbn [map]. change (list_sum (?a :: ?b)) with (a + list_sum b). rewrite app_length. cbn [length]. rewrite app_length. lia.
Qed.
Lemma rule_bytes t r : rule_text t r -> 6 + alternatives_size (r_tail r) <= length t /\ 8 <= length t.
Proof.
  intros [n w1 w2 t1 alts (c & s & -> & _) _ _ H]. cbn [r_tail]. apply alternatives_bytes in H.
  change (s2b "::=") with [":"%char; ":"%char; "="%char]. cbn [length app]. rewrite !app_length. cbn [length]. rewrite !app_length. cbn [length]. rewrite app_length. lia.
Qed.
Lemma lines_bytes t g : lines_text t g -> grammar_size g <= length t /\ 8 * length g <= length t.
Proof.
  unfold grammar_size. intros H. induction H as [|e w rest g _ _ _ IH|e w t r rest g _ _ H _ IH]; [cbn; lia|rewrite !app_length; lia|].
  apply rule_bytes in H. cbn [map length]. change (list_sum (?a :: ?b)) with (a + list_sum b). rewrite !app_length. lia.
Qed.
Lemma text_bytes t g : bnf_text t g -> grammar_size g <= length t /\ 8 * length g <= length t.
Proof.
  intros [w t1 r rest g1 _ H L]. apply rule_bytes in H. apply lines_bytes in L. unfold grammar_size in *. cbn [map length].
  change (list_sum (?a :: ?b)) with (a + list_sum b). rewrite !app_length. lia.
Qed.
Lemma text_rounds order fuel t g : (forall l, Permutation (order l) l) -> bnf_text t g ->
  let N := length t in fst (FromGrammar_t order fuel g) <= 2 * (32 * N + 1) * (N + 1) * (N + 1) + 1031 * N.
Proof.
  intros O H N. pose proof (FromGrammar_rounds order fuel g O) as R. apply text_bytes in H. fold N in H. destruct H as (H1 & H2).
  set (n := length g) in *. set (m := grammar_size g) in *. clearbody n m N.
  etransitivity; [exact R|]. apply Nat.add_le_mono; [|apply Nat.mul_le_mono_l, H1].
  apply Nat.mul_le_mono; [|lia]. apply Nat.mul_le_mono; [|lia]. lia.
Qed.
