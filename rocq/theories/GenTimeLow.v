(** * GenTimeLow: grammars on which FromGrammar takes cubic time. *)
From Verif Require Import Base ByteSet Ast Cst Parser TableGen TableGenTime FromCstTime Spec_Parse Spec_Grammar Spec_Table Spec_GenTime
  ByteSetProofs GrammarProofs ParseApi2 TGFirsts TGFollows TGTable TGMain TGCells TGClosed GenTime.
From Coq Require Import Permutation.

(** ** At least one round of the follow iteration *)
Lemma tbind_ok {A B} (x : timed (tgres A)) (f : A -> timed (tgres B)) v : snd (tbind x f) = Ok v ->
  exists a, snd x = Ok a /\ snd (f a) = Ok v /\ fst (tbind x f) = fst x + fst (f a).
Proof.
  destruct x as [k [a|e|p|]]; cbn; intros H; try discriminate. exists a. destruct (f a); cbn in *. auto.
Qed.

Section Lower.
  Variable g : grammar.
  Notation rm := (enumerate (heads g)).
  Lemma follows_row_ge i js : forall firsts fo ch v,
    snd (follows_row_t g rm i js firsts fo ch) = Ok v -> length js <= fst (follows_row_t g rm i js firsts fo ch).
  Proof.
    induction js as [|j js IH]; intros firsts fo ch v H; [apply Nat.le_0_l|]. cbn [follows_row_t] in *. rewrite tick_snd in H.
    destruct (tbind_ok _ _ _ H) as ((a, b) & _ & H2 & E). unfold tick. cbn [fst length]. rewrite E.
    specialize (IH _ _ _ _ H2). lia.
  Qed.
  Lemma follows_round_ge is : forall firsts fo ch v,
    snd (follows_round_t g rm is firsts fo ch) = Ok v -> length is * length g <= fst (follows_round_t g rm is firsts fo ch).
  Proof.
    induction is as [|i is IH]; intros firsts fo ch v H; [apply Nat.le_0_l|]. cbn [follows_round_t] in *. rewrite tick_snd in H.
    destruct (tbind_ok _ _ _ H) as ((a, b) & H1 & H2 & E). unfold tick. cbn [fst length]. rewrite E.
    specialize (IH _ _ _ _ H2). pose proof (follows_row_ge _ _ _ _ _ _ H1) as R. rewrite seq_length in R. lia.
  Qed.
  Lemma follows_loop_ge fuel firsts fo v :
    snd (follows_loop_t g rm fuel firsts fo) = Ok v -> length g * length g <= fst (follows_loop_t g rm fuel firsts fo).
  Proof.
    destruct fuel as [|fuel]; [discriminate|]. cbn [follows_loop_t]. rewrite tick_snd. intros H.
    destruct (tbind_ok _ _ _ H) as ((a, b) & H1 & H2 & E). unfold tick. cbn [fst]. rewrite E.
    pose proof (follows_round_ge _ _ _ _ _ H1) as R. rewrite seq_length in R. lia.
  Qed.
End Lower.

Lemma FromGrammar_t_parts order fuel g x :
  snd (FromGrammar_t order fuel g) = Ok x ->
  exists firsts follows,
    findFirsts g (enumerate (heads g)) fuel (repeat (bs_new []) (length g)) = Ok firsts /\
    findFollows g (enumerate (heads g)) fuel firsts (repeat (bs_new []) (length g)) = Ok follows /\
    fst (findFollows_t g (enumerate (heads g)) fuel firsts (repeat (bs_new []) (length g))) <= fst (FromGrammar_t order fuel g).
Proof.
  unfold FromGrammar_t, collectRuleHeads_t, enumerate_t, collectRuleHeads. change (map r_head g) with (heads g).
  assert (L : length (heads g) = length g) by (unfold heads; apply map_length). rewrite !L.
  match goal with |- context [tbind ?y ?f] => destruct (tbind y f) as [k r] eqn:Et end. cbn [fst snd]. intros ->.
  match type of Et with tbind ?y ?f = _ => pose proof (tbind_ok y f x) as T; rewrite Et in T end. cbn [snd fst] in T.
  destruct (T eq_refl) as (t & H1 & _ & H3). unfold Run_t in H1, H3.
  destruct (tbind_ok _ _ _ H1) as (firsts & F1 & F2 & F3). destruct (tbind_ok _ _ _ F2) as (follows & G1 & G2 & G3).
  exists firsts, follows. rewrite findFirsts_snd in F1. rewrite findFollows_snd in G1. split; [exact F1|]. split; [exact G1|].
  unfold tgres in *. rewrite H3, F3, G3. lia.
Qed.
Lemma FromGrammar_at_least order fuel g x :
  FromGrammar_order order fuel g = Ok x -> length g * length g <= fst (FromGrammar_t order fuel g).
Proof.
  rewrite <- FromGrammar_snd. intros H. destruct (FromGrammar_t_parts _ _ _ _ H) as (firsts & follows & _ & E & L).
  etransitivity; [|exact L]. rewrite <- findFollows_snd in E. unfold findFollows_t in *.
  destruct (tbind_ok _ _ _ E) as (f0 & _ & H2 & H3). unfold tgres in *. rewrite H3. etransitivity; [eapply follows_loop_ge, H2|]. apply Nat.le_add_l.
Qed.

(** ** A family on which it takes cubic time
    r ::= <r..r>      rr ::= "x"      rrr ::= <rr>      rrrr ::= <rrr>   ... *)
Section Slow.
  Variable k : nat.
  Notation g := (slow (S k)).
  Notation rm := (enumerate (heads g)).
  Definition slow_symbol (j : nat) : symbol :=
    match j with 0 => SNonTerminal (slow_name (S k)) | 1 => STerminal [slow_x] | S j => SNonTerminal (slow_name j) end.

  Lemma slow_name_inj i j : slow_name i = slow_name j -> i = j.
  Proof. intros H. apply (f_equal (@length ascii)) in H. unfold slow_name in H. rewrite !repeat_length in H. lia. Qed.
  Lemma slow_length : length g = S (S k).
  Proof. unfold slow. cbn [length]. rewrite map_length, seq_length. reflexivity. Qed.
  Lemma slow_nth j r : nth_error g j = Some r -> j <= S k /\ r = mkRule (slow_name j) [[slow_symbol j]].
  Proof.
    intros H. assert (L : j < length g) by (apply nth_error_Some; congruence). rewrite slow_length in L. split; [lia|].
    unfold slow in H. destruct j as [|j]; cbn [nth_error] in H; [injection H as <-; reflexivity|].
    rewrite nth_error_map in H. destruct (nth_error (seq 0 (S k)) j) as [i|] eqn:E; [|discriminate].
    assert (i = j) as ->.
    { apply nth_error_nth with (d := 0) in E. rewrite seq_nth in E by lia. lia. }
    injection H as <-. destruct j; reflexivity.
  Qed.
  Lemma slow_rule j : j <= S k -> nth_error g j = Some (mkRule (slow_name j) [[slow_symbol j]]).
  Proof.
    intros H. destruct (nth_error g j) as [r|] eqn:E; [destruct (slow_nth _ _ E) as (_ & ->); reflexivity|].
    apply nth_error_None in E. rewrite slow_length in E. lia.
  Qed.
  Lemma slow_heads : heads g = map slow_name (seq 0 (S (S k))).
  Proof.
    assert (A : forall (l : list bytes) (d : nat -> bytes), (forall j, j < length l -> nth_error l j = Some (d j)) -> l = map d (seq 0 (length l))).
    { intros l d H. apply nth_ext with (d := []) (d' := []).
      - rewrite map_length, seq_length. reflexivity.
      - intros n Hn. rewrite (nth_error_nth _ _ _ (H n Hn)). symmetry. apply nth_error_nth. rewrite nth_error_map.
        rewrite (nth_error_nth' (seq 0 (length l)) 0) by (rewrite seq_length; exact Hn). rewrite seq_nth by exact Hn. reflexivity. }
    assert (L : length (heads g) = S (S k)) by (unfold heads; rewrite map_length; apply slow_length).
    rewrite <- L. apply A. intros j Hj. unfold heads. rewrite nth_error_map, slow_rule by lia. reflexivity.
  Qed.
  Lemma slow_alternative n s : alternative g n s -> exists j, j <= S k /\ n = slow_name j /\ s = [slow_symbol j].
  Proof.
    intros (r & I & <- & Is). apply In_nth_error in I. destruct I as (j & E). destruct (slow_nth _ _ E) as (L & ->).
    exists j. cbn in Is. destruct Is as [<-|[]]. auto.
  Qed.
  Lemma slow_alt j : j <= S k -> alternative g (slow_name j) [slow_symbol j].
  Proof.
    intros H. exists (mkRule (slow_name j) [[slow_symbol j]]). split; [eapply nth_error_In, slow_rule, H|]. split; [reflexivity|left; reflexivity].
  Qed.
  Lemma slow_wf : wf_grammar g.
  Proof.
    split.
    - discriminate.
    - rewrite slow_heads. apply FinFun.Injective_map_NoDup; [exact slow_name_inj|apply seq_NoDup].
    - intros n s H. apply slow_alternative in H. destruct H as (j & L & _ & ->). right. split; [discriminate|]. constructor; [|constructor].
      destruct j as [|[|j]]; cbn [slow_symbol wf_symbol].
      + unfold defined. rewrite slow_heads. apply in_map, in_seq. lia.
      + split; [discriminate|]. intros [H|[]]. discriminate H.
      + unfold defined. rewrite slow_heads. apply in_map_iff. exists (S j). split; [reflexivity|]. apply in_seq. lia.
  Qed.
  Lemma slow_accepted order fuel : 256 * length g + 1 <= fuel -> exists tbl names, FromGrammar_order order fuel g = Ok (tbl, names).
  Proof.
    intros F. destruct (FromGrammar_wf order fuel g slow_wf F) as [(_ & X)|(tbl & names & E & _)]; [|exists tbl, names; exact E].
    exfalso. destruct X as (n & s1 & s2 & b & (r & l1 & l2 & l3 & I & _ & E) & _).
    apply In_nth_error in I. destruct I as (j & Ej). apply slow_nth in Ej. destruct Ej as (_ & ->). cbn in E.
    destruct l1 as [|x [|y l1]]; [destruct l2| |]; discriminate.
  Qed.
  Lemma slow_follow j : follow_code g (slow_name (S k - j)) None.
  Proof.
    assert (X : follow_code g (slow_name (S k)) None).
    { eapply (fc_rule3 g (slow_name 0) []); [apply (slow_alt 0); lia|]. apply (fc_rule1 g). discriminate. }
    induction j as [|j IH]; [rewrite Nat.sub_0_r; exact X|].
    destruct (le_lt_dec (S k) (S j)) as [H|H].
    - replace (S k - S j) with 0 by lia. change (slow_name 0) with (start g). apply fc_rule1. discriminate.
    - eapply (fc_rule3 g (slow_name (S k - j)) []); [|exact IH]. replace (S k - j) with (S (S k - S j)) by lia.
      destruct (S k - S j) as [|i] eqn:E; [lia|]. apply (slow_alt (S (S i))). lia.
  Qed.

  (** The rules from 1 to [c] have empty follow sets. *)
  Definition low (c : nat) (fo : list ByteSet) : Prop := forall i, 1 <= i <= c -> nth_error fo i = Some (bs_new []).
  Lemma superset_empty s : bs_is_superset s (bs_new []) = true.
  Proof. reflexivity. Qed.

  Lemma slow_inRule i j firsts fo ch fo' ch' :
    ruleFollowsInRule g rm i j firsts fo ch = Ok (fo', ch') ->
    fo' = fo \/ (slow_symbol j = SNonTerminal (slow_name i) /\ nth_error fo j <> Some (bs_new []) /\ exists x, fo' = upd fo i x).
  Proof.
    unfold ruleFollowsInRule. destruct (Nat.leb (ruleCount g) i); [discriminate|]. destruct (Nat.leb (ruleCount g) j); [discriminate|].
    unfold index at 1. destruct (nth_error g j) as [r|] eqn:Ej; [|discriminate]. destruct (slow_nth _ _ Ej) as (Lj & ->).
    cbn [gobind r_tail follows_sequences]. unfold ruleFollowsInSequence. cbn [length Nat.eqb Nat.sub follows_inner].
    destruct (negb (Nat.eqb i j)); cbn [gobind]; [|intros H; injection H as <- _; left; reflexivity].
    unfold index at 1. cbn [nth_error gobind]. unfold index at 1. destruct (nth_error g i) as [r|] eqn:Ei; [|discriminate].
    destruct (slow_nth _ _ Ei) as (Li & ->). cbn [gobind r_head].
    destruct (is_nonterminal_named (slow_symbol j) (slow_name i)) eqn:En; cbn [gobind]; [|intros H; injection H as <- _; left; reflexivity].
    assert (Es : slow_symbol j = SNonTerminal (slow_name i)).
    { destruct (slow_symbol j) as [v| | |]; try discriminate. unfold is_nonterminal_named in En. apply bytes_eqb_eq in En. rewrite En. reflexivity. }
    unfold add_follows, index. destruct (nth_error fo j) as [s|] eqn:Es'; [|discriminate]. cbn [gobind].
    destruct (nth_error fo i) as [u|]; [|discriminate]. cbn [gobind]. destruct (bs_is_superset u s) eqn:Eu; cbn [gobind].
    - intros H; injection H as <- _; left; reflexivity.
    - intros H. injection H as <- _. right. split; [exact Es|]. split; [|eexists; reflexivity].
      intros E. injection E as ->. rewrite superset_empty in Eu. discriminate.
  Qed.
  Lemma slow_before i j : slow_symbol j = SNonTerminal (slow_name i) -> i = S k /\ j = 0 \/ 1 <= i /\ j = S i.
  Proof.
    assert (X : forall a b, SNonTerminal (slow_name a) = SNonTerminal (slow_name b) -> a = b).
    { intros a b H. apply slow_name_inj. congruence. }
    destruct j as [|[|j]]; cbn [slow_symbol]; intros H; try discriminate; apply X in H; [left|right]; lia.
  Qed.
  Lemma nth_upd_other {A} (l : list A) i j x : i <> j -> nth_error (upd l i x) j = nth_error l j.
  Proof. revert i j. induction l as [|y l IH]; intros [|i] [|j] H; cbn; try reflexivity; try lia. apply IH. lia. Qed.

  Lemma slow_row_low c i js firsts : i <= c -> c <= k -> forall fo ch fo' ch', low (S c) fo ->
    follows_round g rm (map (pair i) js) firsts fo ch = Ok (fo', ch') -> low (S c) fo'.
  Proof.
    intros Hi Hc. induction js as [|j js IH]; intros fo ch fo' ch' L H; cbn [map follows_round] in H; [injection H as <- _; exact L|].
    destruct (ruleFollowsInRule g rm i j firsts fo ch) as [(f1, c1)| | |] eqn:E; try discriminate. cbn [gobind] in H.
    apply (IH _ _ _ _) in H; [exact H|]. apply slow_inRule in E. destruct E as [->|(Es & Ne & _)]; [exact L|].
    exfalso. apply slow_before in Es. destruct Es as [(-> & ->)|(H1 & ->)]; [lia|]. apply Ne. apply L. lia.
  Qed.
  Lemma slow_row_high c i js firsts : c < i -> forall fo ch fo' ch', low c fo ->
    follows_round g rm (map (pair i) js) firsts fo ch = Ok (fo', ch') -> low c fo'.
  Proof.
    intros Hi. induction js as [|j js IH]; intros fo ch fo' ch' L H; cbn [map follows_round] in H; [injection H as <- _; exact L|].
    destruct (ruleFollowsInRule g rm i j firsts fo ch) as [(f1, c1)| | |] eqn:E; try discriminate. cbn [gobind] in H.
    apply (IH _ _ _ _) in H; [exact H|]. apply slow_inRule in E. destruct E as [->|(Es & Ne & (x & ->))]; [exact L|].
    intros m Hm. rewrite nth_upd_other by lia. apply L. exact Hm.
  Qed.
  Lemma slow_rows_low c is firsts : Forall (fun i => i <= c) is -> c <= k -> forall fo ch fo' ch', low (S c) fo ->
    follows_round g rm (list_prod is (seq 0 (length g))) firsts fo ch = Ok (fo', ch') -> low (S c) fo'.
  Proof.
    intros F Hc. induction F as [|i is Hi _ IH]; intros fo ch fo' ch' L H; cbn [list_prod] in H; [injection H as <- _; exact L|].
    rewrite follows_round_app in H. destruct (follows_round g rm (map (pair i) (seq 0 (length g))) firsts fo ch) as [(f1, c1)| | |] eqn:E; try discriminate.
    cbn [gobind] in H. apply (IH _ _ _ _) in H; [exact H|]. eapply slow_row_low; eassumption.
  Qed.
  Lemma slow_rows_high c is firsts : Forall (fun i => c < i) is -> forall fo ch fo' ch', low c fo ->
    follows_round g rm (list_prod is (seq 0 (length g))) firsts fo ch = Ok (fo', ch') -> low c fo'.
  Proof.
    intros F. induction F as [|i is Hi _ IH]; intros fo ch fo' ch' L H; cbn [list_prod] in H; [injection H as <- _; exact L|].
    rewrite follows_round_app in H. destruct (follows_round g rm (map (pair i) (seq 0 (length g))) firsts fo ch) as [(f1, c1)| | |] eqn:E; try discriminate.
    cbn [gobind] in H. apply (IH _ _ _ _) in H; [exact H|]. eapply slow_row_high; eassumption.
  Qed.
  Lemma list_prod_app {A B} (l1 l2 : list A) (m : list B) : list_prod (l1 ++ l2) m = list_prod l1 m ++ list_prod l2 m.
  Proof. induction l1; cbn; [reflexivity|]. rewrite IHl1. apply app_assoc. Qed.
  Lemma slow_round c firsts fo ch fo' ch' : c <= k -> low (S c) fo ->
    follows_round g rm (all_pairs g) firsts fo ch = Ok (fo', ch') -> low c fo'.
  Proof.
    intros Hc L H. unfold all_pairs in H. rewrite slow_length in H at 1. replace (S (S k)) with (S c + (S k - c)) in H by lia.
    rewrite seq_app, list_prod_app, follows_round_app in H.
    destruct (follows_round g rm (list_prod (seq 0 (S c)) (seq 0 (length g))) firsts fo ch) as [(f1, c1)| | |] eqn:E; try discriminate. cbn [gobind] in H.
    apply slow_rows_low with (c := c) in E; [|apply Forall_forall; intros i I; apply in_seq in I; lia|exact Hc|exact L].
    eapply slow_rows_high in H; [exact H|apply Forall_forall; intros i I; apply in_seq in I; lia|]. intros i Hi. apply E. lia.
  Qed.
  Lemma slow_loop fuel firsts out : all_wf firsts -> set_at out 1 EOS = true -> forall c fo, c <= S k -> all_wf fo -> low c fo ->
    snd (follows_loop_t g rm fuel firsts fo) = Ok out ->
    c * (length g * length g) <= fst (follows_loop_t g rm fuel firsts fo).
  Proof.
    intros Wf S1. induction fuel as [|fuel IH]; intros [|c] fo Hc W L H; [discriminate|discriminate|apply Nat.le_0_l|].
    cbn [follows_loop_t] in *. rewrite tick_snd in H. destruct (tbind_ok _ _ _ H) as ((a, b) & H1 & H2 & E). unfold tick. cbn [fst].
    rewrite E. clear E. pose proof (follows_round_ge _ _ _ _ _ _ H1) as R. rewrite seq_length in R.
    rewrite follows_round_snd in H1. change (list_prod (seq 0 (length g)) (seq 0 (length g))) with (all_pairs g) in H1.
    assert (HP : follow_inv g firsts (fun _ _ => True)) by (intros ? ? ? ? ? ? ? ?; auto).
    destruct (follows_round_spec g firsts Wf _ _ _ _ _ _ HP W H1) as (M & _ & _). destruct M as (W1 & L1 & M). destruct b.
    - apply slow_round with (c := c) in H1; [|lia|exact L]. specialize (IH c a ltac:(lia) W1 H1 H2). rewrite Nat.mul_succ_l. lia.
    - destruct M as [(-> & _)|(X & _)]; [|discriminate]. cbn in H2. injection H2 as <-. exfalso.
      unfold set_at in S1. rewrite (L 1 ltac:(lia)) in S1. discriminate.
  Qed.
  Lemma slow_cubic order fuel x : FromGrammar_order order fuel g = Ok x ->
    S k * (length g * length g) <= fst (FromGrammar_t order fuel g).
  Proof.
    rewrite <- FromGrammar_snd. intros H. destruct (FromGrammar_t_parts _ _ _ _ H) as (firsts & follows & E0 & E & L).
    etransitivity; [|exact L]. pose proof (wf_distinct _ slow_wf) as Nd. pose proof (wf_nulfree _ slow_wf) as Nf.
    pose proof (findFirsts_exact _ _ _ Nd Nf E0) as FE. pose proof (findFollows_exact _ _ _ _ Nd Nf FE E) as FO.
    assert (S1 : set_at follows 1 EOS = true).
    { apply (fo_rules _ _ FO 1 EOS); [rewrite slow_length; lia|]. change (ahead EOS) with (@None ascii).
      rewrite (head_at_nth g 1 _ (slow_rule 1 ltac:(lia))). cbn [r_head]. pose proof (slow_follow k) as X. replace (S k - k) with 1 in X by lia. exact X. }
    rewrite <- findFollows_snd in E. unfold findFollows_t in *. destruct (tbind_ok _ _ _ E) as (f0 & H0 & H2 & H3).
    unfold tgres in *. rewrite H3. cbn [at_once snd fst Nat.add] in *. apply index_ok, nth_error_In, repeat_spec in H0. subst f0.
    eapply slow_loop; [exact (fe_wf _ _ FE)|exact S1|lia|apply upd_forall; [apply repeat_wf|apply add_wf, new_wf]| |exact H2].
    intros i Hi. rewrite nth_upd_other by lia. apply nth_error_repeat. rewrite slow_length. lia.
  Qed.
End Slow.
