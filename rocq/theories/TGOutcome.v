(** * TGOutcome: every outcome of FromGrammar, for every grammar. *)
From Verif Require Import Base ByteSet Ast Cst Parser TableGen Spec_Parse Spec_Tree Spec_Grammar Spec_Table Spec_Override
  Spec_Outcome ByteSetProofs GrammarProofs ParserProofs TreeProofs ParseApi ParseApi2
  TGFirsts TGFollows TGTable TGMain TGCells TGClosed TGParse TGOverride.

(** [blames D x]: if [x] is an error or a panic then [D] explains it. *)
Definition blames (D : fault -> Prop) {A} (x : tgres A) : Prop :=
  match x with Ok _ => True | Err e => D (Refused e) | Panic p => D (Panicked p) | NoFuel => True end.
Lemma blames_bind (D : fault -> Prop) {A B} (x : tgres A) (f : A -> tgres B) :
  blames D x -> (forall a, x = Ok a -> blames D (f a)) -> blames D (gobind x f).
Proof. destruct x; simpl; auto. Qed.
Lemma blames_index (D : fault -> Prop) {A} (l : list A) i : i < length l -> blames D (@index A l i).
Proof. intros H. destruct (index_lt l i H) as (x & ->). exact I. Qed.

(** ** FIRST *)
Section First.
  Variable g : grammar.
  Hypothesis T : terminals_nulfree g.
  Let rm := enumerate (heads g).
  Definition fsound (firsts : list ByteSet) : Prop :=
    forall j d, set_at firsts j d = true -> first_mark g [NT (head_at g j)] d.

  Lemma sequenceFirsts_blames firsts n s :
    length firsts = length g -> fsound firsts -> alternative g n s ->
    blames (first_fault g) (sequenceFirsts rm firsts s).
  Proof.
    intros L Sd Ha. unfold sequenceFirsts.
    assert (G : forall syms names res, s = map SNonTerminal names ++ syms -> nullable g (map NT names) ->
      forall fd, blames (first_fault g) (sequenceFirsts_loop rm firsts (length s) syms res fd)).
    { induction syms as [|x syms IH]; intros names res Es Hn fd; cbn [sequenceFirsts_loop]; [exact I|].
      assert (Ld : leads g names x syms) by (split; [exists n; rewrite <- Es; exact Ha|exact Hn]).
      destruct x as [v|t| |str].
      - destruct (rm_get rm v) as [i|] eqn:E.
        + pose proof (rm_get_lt g v i E) as Hi.
          apply blames_bind; [apply blames_index; lia|]. intros f Hf. apply index_ok in Hf.
          destruct (bs_contains f EOS) eqn:Ef; cbn [negb]; [|exact I].
          apply (IH (names ++ [v])).
          * rewrite map_app, <- app_assoc. exact Es.
          * rewrite map_app. apply nullable_app. split; [exact Hn|].
            assert (X : first_mark g [NT v] NUL).
            { apply (first_of_mark g firsts v NUL Sd). unfold first_of. fold rm. rewrite E.
              unfold set_at. rewrite Hf. exact Ef. }
            apply X. reflexivity.
        + eapply ff_undefined; [exact Ld|]. apply (rm_get_none g v), E.
      - destruct t as [|c t]; cbn; [|exact I]. eapply ff_empty_terminal, Ld.
      - destruct (Nat.ltb_spec 1 (length s)) as [H|H]; [|exact I]. eapply ff_nothing; [exact Ld|].
        rewrite Es, app_length, map_length in H. simpl in H.
        destruct names; [right|left; discriminate]. destruct syms; [simpl in H; lia|discriminate].
      - eapply ff_unknown, Ld. }
    apply (G s [] _ eq_refl). apply nullable_nil.
  Qed.

  Lemma substitutionFirsts_blames firsts r : In r g ->
    length firsts = length g -> fsound firsts -> blames (first_fault g) (substitutionFirsts rm firsts (r_tail r)).
  Proof.
    intros Hr L Sd. unfold substitutionFirsts.
    assert (A : forall s, In s (r_tail r) -> alternative g (r_head r) s) by (intros s Hs; exists r; auto).
    revert A. generalize (r_tail r) as seqs, (bs_new []) as res.
    induction seqs as [|s seqs IH]; intros res A; cbn [substitutionFirsts_loop]; [exact I|].
    apply blames_bind; [eapply sequenceFirsts_blames; [exact L|exact Sd|apply A; left; reflexivity]|].
    intros f _. apply IH. intros s' Hs'. apply A. right. exact Hs'.
  Qed.

  Lemma findFirsts_blames fuel : forall firsts,
    all_wf firsts -> length firsts = length g -> fsound firsts ->
    blames (first_fault g) (findFirsts g rm fuel firsts).
  Proof.
    assert (Rc : ruleCount g = length g) by (unfold ruleCount, collectRuleHeads; apply map_length).
    assert (R : forall idxs firsts ch, all_wf firsts -> length firsts = length g -> fsound firsts ->
      (forall i, In i idxs -> i < length g) -> blames (first_fault g) (firsts_round g rm idxs firsts ch)).
    { induction idxs as [|i idxs IH]; intros firsts ch W L Sd Hi; cbn [firsts_round]; [exact I|].
      apply blames_bind.
      - unfold ruleFirsts. rewrite Rc. specialize (Hi i (or_introl eq_refl)).
        destruct (Nat.leb_spec (length g) i); [lia|].
        apply blames_bind; [apply blames_index; lia|]. intros r Hr. apply index_ok in Hr.
        apply blames_bind; [apply substitutionFirsts_blames; [eapply nth_error_In, Hr|exact L|exact Sd]|].
        intros tmp _. apply blames_bind; [apply blames_index; lia|]. intros f _.
        destruct (bs_is_superset f tmp); exact I.
      - intros [f1 c1] E1. destruct (ruleFirsts_spec _ _ _ _ _ _ W L E1) as ((W1 & L1 & _) & S1 & _).
        apply IH; [exact W1|congruence| |intros j Hj; apply Hi; right; exact Hj].
        intros j d Hj. destruct (S1 _ _ Hj) as [H1|(-> & r & s & Hr & Hs & Hf)]; [apply Sd, H1|].
        eapply (first_inv_sound g T); eassumption. }
    induction fuel as [|fuel IH]; intros firsts W L Sd; cbn [findFirsts]; [exact I|].
    apply blames_bind.
    - apply R; [exact W|exact L|exact Sd|]. intros i Hi. apply in_seq in Hi. lia.
    - intros [f1 c1] E1.
      destruct (firsts_round_spec _ _ _ _ _ _ _ (first_inv_sound g T) W L E1) as ((W1 & L1 & _) & S1 & _).
      destruct c1; [|exact I]. apply IH; [exact W1|congruence|]. exact (S1 Sd).
  Qed.

  (** The last round has looked at every alternative with the final sets. *)
  Lemma findFirsts_all fuel : forall firsts out,
    all_wf firsts -> length firsts = length g -> findFirsts g rm fuel firsts = Ok out ->
    forall n s, alternative g n s -> exists sf, sequenceFirsts rm out s = Ok sf.
  Proof.
    assert (R : forall idxs firsts f1, all_wf firsts -> length firsts = length g ->
      firsts_round g rm idxs firsts false = Ok (f1, false) ->
      forall i r s, In i idxs -> nth_error g i = Some r -> In s (r_tail r) ->
      exists sf, sequenceFirsts rm firsts s = Ok sf).
    { assert (HP : first_inv g (fun _ _ => True)) by (intros ? ? ? ? ? ? ? ? ?; exact I).
      induction idxs as [|j idxs IH]; intros firsts f1 W L H i r s Hi Hr Hs; [destruct Hi|].
      cbn [firsts_round] in H. destruct (ruleFirsts g rm j firsts false) as [[f2 c2]| | |] eqn:E; try discriminate.
      cbn [gobind] in H. destruct (ruleFirsts_spec _ _ _ _ _ _ W L E) as (M1 & _ & _). pose proof M1 as (W1 & L1 & _).
      destruct (firsts_round_spec g _ _ _ _ _ _ HP W1 (eq_trans L1 L) H) as (M2 & _ & _).
      destruct (moves_false _ _ _ M2) as (-> & ->). destruct (moves_false _ _ _ M1) as (-> & _).
      destruct Hi as [<-|Hi]; [|eapply IH; eassumption].
      unfold ruleFirsts in E. destruct (Nat.leb (ruleCount g) j); [discriminate|].
      unfold index in E. rewrite Hr in E. cbn [gobind] in E. unfold substitutionFirsts in E.
      destruct (substitutionFirsts_loop rm firsts (r_tail r) (bs_new [])) as [tmp| | |] eqn:Es; try discriminate.
      clear -Es Hs. revert tmp Es Hs. generalize (r_tail r) as seqs, (bs_new []) as res.
      induction seqs as [|x seqs IH]; intros res tmp Es Hs; [destruct Hs|]. cbn [substitutionFirsts_loop] in Es.
      destruct (sequenceFirsts rm firsts x) as [f| | |] eqn:Ef; try discriminate. cbn [gobind] in Es.
      destruct Hs as [<-|Hs]; [eauto|]. eapply IH; eassumption. }
    assert (HP : first_inv g (fun _ _ => True)) by (intros ? ? ? ? ? ? ? ? ?; exact I).
    induction fuel as [|fuel IH]; intros firsts out W L H n s Ha; cbn [findFirsts] in H; [discriminate|].
    destruct (firsts_round g rm (seq 0 (length g)) firsts false) as [[f1 c1]| | |] eqn:E; try discriminate.
    cbn [gobind] in H. destruct (firsts_round_spec _ _ _ _ _ _ _ HP W L E) as (M & _ & _).
    pose proof M as (W1 & L1 & _). destruct c1; [eapply IH; [exact W1|congruence|exact H|exact Ha]|].
    injection H as <-. destruct (moves_false _ _ _ M) as [-> _].
    destruct Ha as (r & Hr & _ & Hs). apply In_nth_error in Hr. destruct Hr as (i & Hr).
    eapply R; [exact W|exact L|exact E| |exact Hr|exact Hs]. apply in_seq.
    assert (i < length g) by (apply nth_error_Some; congruence). lia.
  Qed.

  (** ... so no fault is left. *)
  Lemma firsts_no_fault firsts : first_exact g firsts ->
    (forall n s, alternative g n s -> exists sf, sequenceFirsts rm firsts s = Ok sf) ->
    forall f, ~ first_fault g f.
  Proof.
    intros FE All f Hf.
    assert (G : forall names x rest, leads g names x rest ->
      exists res sf, sequenceFirsts_loop rm firsts (length names + S (length rest)) (x :: rest) res true = Ok sf).
    { intros names x rest ((n & Ha) & Hn). destruct (All _ _ Ha) as (sf & Hs). unfold sequenceFirsts in Hs.
      rewrite app_length, map_length in Hs. cbn [length] in Hs. clear Ha. revert Hs Hn.
      generalize (length names + S (length rest)) as tot, (bs_new []) as res.
      induction names as [|m names IH]; intros tot res Hs Hn; cbn [map app] in *.
      - exists res, sf. exact Hs.
      - change (NT m :: map NT names) with ([NT m] ++ map NT names) in Hn. apply nullable_app in Hn.
        destruct Hn as (Hm & Hn). cbn [sequenceFirsts_loop] in Hs.
        assert (X : first_of g firsts m NUL = true).
        { rewrite <- (form_has_nt g firsts). apply (fe_forms _ _ FE); [intros [Z|[]]; discriminate|].
          split; [auto|]. intros Z. destruct Z. reflexivity. }
        unfold first_of in X. fold rm in X. destruct (rm_get rm m) as [i|]; [|discriminate].
        unfold set_at in X. unfold index in Hs. destruct (nth_error firsts i) as [fi|]; [|discriminate].
        cbn [gobind] in Hs. unfold EOS in Hs. rewrite X in Hs. cbn [negb] in Hs. eapply IH; [exact Hs|exact Hn]. }
    destruct Hf as [names m rest Ld Nd|names rest Ld|names rest Ld Hr|names str rest Ld];
      destruct (G _ _ _ Ld) as (res & sf & E); cbn [sequenceFirsts_loop] in E.
    - apply (rm_get_none g m) in Nd. fold rm in Nd. rewrite Nd in E. discriminate.
    - discriminate.
    - destruct (Nat.ltb_spec 1 (length names + S (length rest))) as [H|H]; [discriminate|].
      destruct Hr as [Hr|Hr]; apply Hr.
      + destruct names; [reflexivity|simpl in H; lia].
      + destruct rest; [reflexivity|simpl in H; lia].
    - discriminate.
  Qed.
End First.

(** ** FOLLOW *)
Section Follow.
  Variable g : grammar.
  Let rm := enumerate (heads g).
  Variable firsts : list ByteSet.
  Hypothesis Wf : all_wf firsts.
  Hypothesis Lf : length firsts = length g.
  Let D := follow_fault g.

  Lemma symbolFirsts_blames B x : neighbours g B x -> blames D (symbolFirsts rm firsts x).
  Proof.
    intros N. destruct x as [v|t| |str]; cbn [symbolFirsts].
    - destruct (rm_get rm v) as [i|] eqn:E.
      + apply blames_index. pose proof (rm_get_lt g v i E). lia.
      + eapply fo_undefined; [exact N|]. apply (rm_get_none g v), E.
    - destruct t; cbn; [|exact I]. eapply fo_empty_terminal, N.
    - exact I.
    - eapply fo_unknown, N.
  Qed.

  Lemma add_follows_blames f i e : i < length f -> blames D (add_follows f i e).
  Proof.
    intros H. unfold add_follows. apply blames_bind; [apply blames_index, H|]. intros s _.
    destruct (bs_is_superset s e); exact I.
  Qed.

  Lemma nth_neighbours n s k v x : alternative g n s -> nth_error s k = Some (SNonTerminal v) ->
    nth_error s (S k) = Some x -> defined g v -> neighbours g v x.
  Proof.
    intros Ha Hk Hx Hd. split; [exact Hd|]. apply nth_error_split in Hk. destruct Hk as (a & b & -> & La).
    rewrite nth_error_app2 in Hx by lia. replace (S k - length a) with 1 in Hx by lia.
    destruct b as [|y b]; [discriminate|]. simpl in Hx. injection Hx as ->. exists n, a, b. exact Ha.
  Qed.

  Lemma follows_inner_blames n i j s k : alternative g n s -> forall f ch,
    length f = length g -> i < length g -> j < length g -> k < length s ->
    blames D (follows_inner g rm i s j firsts k f ch).
  Proof.
    intros Ha. induction k as [|k IH]; intros f ch L Hi Hj Hk; cbn [follows_inner]; [exact I|].
    apply blames_bind; [apply blames_index; lia|]. intros sym Hsym. apply index_ok in Hsym.
    apply blames_bind; [apply blames_index; lia|]. intros r Hr. apply index_ok in Hr.
    destruct (is_nonterminal_named sym (r_head r)) eqn:En; simpl; [|apply IH; auto; lia].
    apply is_named_spec in En. subst sym.
    apply blames_bind; [apply blames_index; lia|]. intros next Hnext. apply index_ok in Hnext.
    apply blames_bind.
    - eapply symbolFirsts_blames. eapply nth_neighbours; [exact Ha|exact Hsym|exact Hnext|].
      unfold defined, heads. apply in_map. eapply nth_error_In, Hr.
    - intros nf _. apply blames_bind.
      + destruct (bs_contains nf EOS && negb (Nat.eqb i j)); [|exact I].
        apply blames_bind; [apply blames_index; lia|]. intros fj _.
        apply blames_bind; [apply add_follows_blames; lia|]. intros [f'|] _; exact I.
      + intros [f1 c1] E1.
        assert (L1 : length f1 = length f).
        { destruct (bs_contains nf EOS && negb (Nat.eqb i j)); [|injection E1 as <- <-; reflexivity].
          unfold index in E1. destruct (nth_error f j) as [fj|]; [|discriminate].
          cbn [gobind] in E1. unfold add_follows, index in E1.
          destruct (nth_error f i) as [fi|]; [|discriminate]. cbn [gobind] in E1.
          destruct (bs_is_superset fi fj); cbn [gobind] in E1; injection E1 as <- <-;
            [reflexivity|apply upd_length]. }
        apply blames_bind; [apply add_follows_blames; lia|]. intros [f2|] E2.
        * assert (L2 : length f2 = length f1).
          { unfold add_follows, index in E2. destruct (nth_error f1 i) as [fi|]; [|discriminate].
            cbn [gobind] in E2. destruct (bs_is_superset fi _); [discriminate|].
            injection E2 as <-. apply upd_length. }
          apply IH; auto; lia.
        * apply IH; auto; lia.
  Qed.

  Lemma inSequence_blames n i j s f ch : alternative g n s ->
    length f = length g -> i < length g -> j < length g ->
    blames D (ruleFollowsInSequence g rm i s j firsts f ch).
  Proof.
    intros Ha L Hi Hj. unfold ruleFollowsInSequence.
    destruct (Nat.eqb_spec (length s) 0) as [E0|N0].
    - destruct s; [|discriminate]. eapply fo_empty_sequence, Ha.
    - assert (R : blames D (follows_inner g rm i s j firsts (length s - 1) f ch))
        by (eapply follows_inner_blames; [exact Ha|lia..]).
      destruct (negb (Nat.eqb i j)); [|exact R].
      apply blames_bind; [apply blames_index; lia|]. intros sym _.
      apply blames_bind; [apply blames_index; lia|]. intros r _.
      destruct (is_nonterminal_named sym (r_head r)); [|exact R].
      apply blames_bind; [apply blames_index; lia|]. intros fj _.
      apply blames_bind; [apply add_follows_blames; lia|]. intros [f2|] _; [exact I|exact R].
  Qed.

  Lemma sequences_blames i j r seqs : forall f ch,
    nth_error g j = Some r -> (forall s, In s seqs -> In s (r_tail r)) ->
    all_wf f -> length f = length g -> i < length g -> j < length g ->
    blames D (follows_sequences g rm i seqs j firsts f ch).
  Proof.
    induction seqs as [|s seqs IH]; intros f ch Hr Hin W L Hi Hj; cbn [follows_sequences]; [exact I|].
    apply blames_bind.
    - eapply inSequence_blames; auto. eapply alt_of; [exact Hr|apply Hin; left; reflexivity].
    - intros [f1 c1] E1.
      assert (HP : follow_inv g firsts (fun _ _ => True)) by (intros ? ? ? ? ? ? ? ?; auto).
      destruct (inSequence_spec g firsts Wf _ _ _ _ _ _ _ _ _ HP Hr (Hin _ (or_introl eq_refl)) W E1)
        as ((W1 & L1 & _) & _ & _).
      apply IH; auto; [|congruence]. intros s' Hs'. apply Hin. right. exact Hs'.
  Qed.

  Lemma follows_round_blames pairs : forall f ch,
    all_wf f -> length f = length g ->
    (forall i j, In (i, j) pairs -> i < length g /\ j < length g) ->
    blames D (follows_round g rm pairs firsts f ch).
  Proof.
    assert (Rc : ruleCount g = length g) by (unfold ruleCount, collectRuleHeads; apply map_length).
    induction pairs as [|[i j] pairs IH]; intros f ch W L Hin; cbn [follows_round]; [exact I|].
    destruct (Hin i j (or_introl eq_refl)) as [Hi Hj].
    apply blames_bind.
    - unfold ruleFollowsInRule. rewrite Rc.
      destruct (Nat.leb_spec (length g) i); [lia|]. destruct (Nat.leb_spec (length g) j); [lia|].
      apply blames_bind; [apply blames_index; lia|]. intros r Hr. apply index_ok in Hr.
      eapply sequences_blames; eauto.
    - intros [f1 c1] E1. unfold ruleFollowsInRule in E1. rewrite Rc in E1.
      destruct (Nat.leb_spec (length g) i); [lia|]. destruct (Nat.leb_spec (length g) j); [lia|].
      unfold index in E1. destruct (nth_error g j) as [r|] eqn:Hr; [|discriminate]. cbn [gobind] in E1.
      assert (HP : follow_inv g firsts (fun _ _ => True)) by (intros ? ? ? ? ? ? ? ?; auto).
      destruct (sequences_spec g firsts Wf _ _ _ _ _ _ _ _ _ HP Hr (fun s Hs => Hs) W E1)
        as ((W1 & L1 & _) & _ & _).
      apply IH; auto; [congruence|]. intros i' j' H'. apply Hin. right. exact H'.
  Qed.

  Lemma follows_loop_blames fuel : forall f,
    all_wf f -> length f = length g -> blames D (follows_loop g rm fuel firsts f).
  Proof.
    induction fuel as [|fuel IH]; intros f W L; cbn [follows_loop]; [exact I|].
    apply blames_bind.
    - apply follows_round_blames; auto. intros i j Hij. apply in_prod_iff in Hij. rewrite !in_seq in Hij. lia.
    - intros [f1 c1] E1.
      assert (HP : follow_inv g firsts (fun _ _ => True)) by (intros ? ? ? ? ? ? ? ?; auto).
      destruct (follows_round_spec g firsts Wf _ _ _ _ _ _ HP W E1) as ((W1 & L1 & _) & _ & _).
      destruct c1; [|exact I]. apply IH; auto. congruence.
  Qed.

  Lemma findFollows_blames fuel :
    blames D (findFollows g rm fuel firsts (repeat (bs_new []) (length g))).
  Proof.
    unfold findFollows.
    assert (Hg : g = [] \/ 0 < length g) by (destruct g; [left; reflexivity|right; simpl; lia]).
    destruct Hg as [Eg|Hg]; [replace (length g) with 0 by (rewrite Eg; reflexivity); apply fo_no_rules, Eg|].
    apply blames_bind; [apply blames_index; rewrite repeat_length; lia|].
    intros f0 H0. apply index_ok, nth_error_In, repeat_spec in H0. subst f0.
    apply follows_loop_blames; [|rewrite upd_length; apply repeat_length].
    apply upd_forall; [apply repeat_wf|apply add_wf, new_wf].
  Qed.

  (** The last round has looked at every pair of neighbours. *)
  Lemma follows_inner_all i j s k : forall f ch x,
    follows_inner g rm i s j firsts k f ch = Ok x ->
    forall p r y, p < k -> nth_error g i = Some r -> nth_error s p = Some (SNonTerminal (r_head r)) ->
      nth_error s (S p) = Some y -> exists nf, symbolFirsts rm firsts y = Ok nf.
  Proof.
    induction k as [|k IH]; intros f ch x H p r y Hp Hr Hs Hy; [lia|]. cbn [follows_inner] in H.
    unfold index at 1 2 in H. rewrite Hr in H.
    destruct (nth_error s k) as [sym|] eqn:Ek; [|discriminate]. cbn [gobind] in H.
    destruct (Nat.eq_dec p k) as [->|Nk].
    - rewrite Hs in Ek. injection Ek as <-.
      assert (X : is_nonterminal_named (SNonTerminal (r_head r)) (r_head r) = true) by (apply is_named_spec; reflexivity).
      rewrite X in H. cbn [negb] in H. unfold index at 1 in H. rewrite Hy in H. cbn [gobind] in H.
      destruct (symbolFirsts rm firsts y) as [nf| | |]; try discriminate. eauto.
    - assert (Hp' : p < k) by lia.
      destruct (is_nonterminal_named sym (r_head r)); cbn [negb] in H; [|eapply IH; eassumption].
      destruct (index s (S k)) as [nx| | |]; try discriminate. cbn [gobind] in H.
      destruct (symbolFirsts rm firsts nx) as [nf| | |]; try discriminate. cbn [gobind] in H.
      match type of H with gobind ?m _ = _ => destruct m as [[f1 c1]| | |] end; try discriminate. cbn [gobind] in H.
      destruct (add_follows f1 i (bs_remove nf EOS)) as [[f2|]| | |]; try discriminate; cbn [gobind] in H;
        eapply IH; eassumption.
  Qed.

  Definition looked (i : nat) (s : sequence) : Prop :=
    s <> [] /\ forall p r y, nth_error g i = Some r -> nth_error s p = Some (SNonTerminal (r_head r)) ->
      nth_error s (S p) = Some y -> exists nf, symbolFirsts rm firsts y = Ok nf.

  Lemma inSequence_all i j s f f' :
    ruleFollowsInSequence g rm i s j firsts f false = Ok (f', false) -> looked i s.
  Proof.
    unfold ruleFollowsInSequence. intros H. destruct (Nat.eqb_spec (length s) 0) as [E0|N0]; [discriminate|].
    split; [intros ->; simpl in N0; lia|].
    assert (R : exists f2 c2 x, follows_inner g rm i s j firsts (length s - 1) f2 c2 = Ok x).
    { destruct (negb (Nat.eqb i j)); [|eauto].
      destruct (index s (length s - 1)) as [sym| | |]; try discriminate. cbn [gobind] in H.
      destruct (index g i) as [r| | |]; try discriminate. cbn [gobind] in H.
      destruct (is_nonterminal_named sym (r_head r)); [|eauto].
      destruct (index f j) as [fj| | |]; try discriminate. cbn [gobind] in H.
      destruct (add_follows f i fj) as [[f2|]| | |]; try discriminate; cbn [gobind] in H; eauto. }
    destruct R as (f2 & c2 & x & R). intros p r y Hr Hs Hy.
    eapply follows_inner_all; [exact R| |exact Hr|exact Hs|exact Hy].
    assert (S p < length s) by (apply nth_error_Some; congruence). lia.
  Qed.

  Lemma findFollows_all fuel follows :
    findFollows g rm fuel firsts (repeat (bs_new []) (length g)) = Ok follows ->
    forall i n s, i < length g -> alternative g n s -> looked i s.
  Proof.
    assert (HP : follow_inv g firsts (fun _ _ => True)) by (intros ? ? ? ? ? ? ? ?; auto).
    assert (S1 : forall i j rj seqs f f', nth_error g j = Some rj -> (forall s, In s seqs -> In s (r_tail rj)) -> all_wf f ->
      follows_sequences g rm i seqs j firsts f false = Ok (f', false) -> forall s, In s seqs -> looked i s).
    { intros i j rj. induction seqs as [|x seqs IH]; intros f f' Hj Hin W H s Hs; [destruct Hs|].
      cbn [follows_sequences] in H.
      destruct (ruleFollowsInSequence g rm i x j firsts f false) as [[f1 c1]| | |] eqn:E; try discriminate.
      cbn [gobind] in H.
      destruct (inSequence_spec g firsts Wf _ _ _ _ _ _ _ _ _ HP Hj (Hin _ (or_introl eq_refl)) W E) as (M1 & _ & _).
      pose proof M1 as (W1 & _).
      destruct (sequences_spec g firsts Wf _ _ _ _ _ _ _ _ _ HP Hj (fun y Hy => Hin y (or_intror Hy)) W1 H) as (M2 & _ & _).
      destruct (moves_false _ _ _ M2) as (-> & ->).
      destruct Hs as [<-|Hs]; [eapply inSequence_all, E|].
      eapply IH; [exact Hj|intros y Hy; apply Hin; right; exact Hy|exact W1|exact H|exact Hs]. }
    assert (S2 : forall pairs f f', all_wf f -> follows_round g rm pairs firsts f false = Ok (f', false) ->
      forall i j r s, In (i, j) pairs -> nth_error g j = Some r -> In s (r_tail r) -> looked i s).
    { induction pairs as [|[i0 j0] pairs IH]; intros f f' W H i j r s Hij Hr Hs; [destruct Hij|].
      cbn [follows_round] in H.
      destruct (ruleFollowsInRule g rm i0 j0 firsts f false) as [[f1 c1]| | |] eqn:E; try discriminate.
      cbn [gobind] in H. unfold ruleFollowsInRule in E.
      destruct (Nat.leb (ruleCount g) i0); [discriminate|]. destruct (Nat.leb (ruleCount g) j0); [discriminate|].
      unfold index in E. destruct (nth_error g j0) as [rj|] eqn:Ej; [|discriminate]. cbn [gobind] in E.
      destruct (sequences_spec g firsts Wf _ _ _ _ _ _ _ _ _ HP Ej (fun s Hs => Hs) W E) as (M1 & _ & _).
      pose proof M1 as (W1 & _).
      destruct (follows_round_spec g firsts Wf _ _ _ _ _ _ HP W1 H) as (M2 & _ & _).
      destruct (moves_false _ _ _ M2) as (-> & ->).
      destruct Hij as [Eij|Hij]; [|eapply IH; eassumption].
      injection Eij as -> ->. rewrite Hr in Ej. injection Ej as ->.
      eapply (S1 i j rj); [exact Hr|intros y Hy; exact Hy|exact W|exact E|exact Hs]. }
    assert (S3 : forall fuel f out, all_wf f -> follows_loop g rm fuel firsts f = Ok out ->
      forall i n s, i < length g -> alternative g n s -> looked i s).
    { clear fuel. induction fuel as [|fuel IH]; intros f out W H i n s Hi Ha; cbn [follows_loop] in H; [discriminate|].
      destruct (follows_round g rm (all_pairs g) firsts f false) as [[f1 c1]| | |] eqn:E; try discriminate.
      cbn [gobind] in H. destruct (follows_round_spec g firsts Wf _ _ _ _ _ _ HP W E) as ((W1 & _) & _ & _).
      destruct c1; [eapply IH; eassumption|].
      destruct Ha as (r & Hr & _ & Hs). apply In_nth_error in Hr. destruct Hr as (j & Hr).
      eapply S2; [exact W|exact E| |exact Hr|exact Hs]. apply in_prod_iff. rewrite !in_seq.
      assert (j < length g) by (apply nth_error_Some; congruence). lia. }
    unfold findFollows. intros H.
    destruct (index (repeat (bs_new []) (length g)) 0) as [f0| | |] eqn:E0; try discriminate.
    cbn [gobind] in H. apply index_ok, nth_error_In, repeat_spec in E0. subst f0.
    eapply S3; [|exact H]. apply upd_forall; [apply repeat_wf|apply add_wf, new_wf].
  Qed.

  Lemma follows_no_fault fuel follows :
    findFollows g rm fuel firsts (repeat (bs_new []) (length g)) = Ok follows ->
    forall f, ~ follow_fault g f.
  Proof.
    intros H f Hf. pose proof (findFollows_all fuel follows H) as All.
    assert (Gne : 0 < length g).
    { clear -H. destruct g; [discriminate|simpl; lia]. }
    assert (N : forall B x, neighbours g B x -> exists nf, symbolFirsts rm firsts x = Ok nf).
    { intros B x (Hd & n & a & b & Ha). apply In_nth_error in Hd. destruct Hd as (i & Hi).
      apply heads_some in Hi. destruct Hi as (r & Hr & Eh).
      assert (Hi : i < length g) by (apply nth_error_Some; congruence).
      destruct (All i n _ Hi Ha) as (_ & L). apply (L (length a) r x Hr).
      - rewrite nth_error_app2 by lia. rewrite Nat.sub_diag. simpl. congruence.
      - rewrite nth_error_app2 by lia. replace (S (length a) - length a) with 1 by lia. reflexivity. }
    destruct Hf as [E|n Ha|B m Hn Nd|B Hn|B str Hn].
    - rewrite E in Gne. simpl in Gne. lia.
    - destruct (All 0 n [] Gne Ha) as (X & _). apply X. reflexivity.
    - destruct (N _ _ Hn) as (nf & E). cbn in E. apply (rm_get_none g m) in Nd. fold rm in Nd. rewrite Nd in E. discriminate.
    - destruct (N _ _ Hn) as (nf & E). discriminate.
    - destruct (N _ _ Hn) as (nf & E). discriminate.
  Qed.
End Follow.

(** ** The table *)
Section Table.
  Variable g : grammar.
  Let rm := enumerate (heads g).
  Variable firsts follows : list ByteSet.
  Hypothesis Nf : terminals_nulfree g.
  Hypothesis FE : first_exact g firsts.
  Variable FC : bytes -> option ascii -> Prop.
  Hypothesis Wo : all_wf follows.
  Hypothesis Lo : length follows = length g.
  Hypothesis FO : forall i c, i < length g -> (set_at follows i c = true <-> FC (head_at g i) (ahead c)).
  Hypothesis All : forall n s, alternative g n s -> exists sf, sequenceFirsts rm firsts s = Ok sf.
  Let D := cell_fault g FC.
  Let Wf := fe_wf _ _ FE.

  Lemma fill_symbols_blames n c t s : alternative g n s -> first g (seq_form s) c ->
    forall syms a res, s = a ++ syms -> Forall (fun y => ~ without_operand g y) a ->
    blames D (fill_symbols rm t syms res).
  Proof.
    intros Ha Hc. induction syms as [|x syms IH]; intros a res Es Fa; cbn [fill_symbols]; [exact I|].
    assert (Sel : selectable g x) by (exists n, a, syms, c; rewrite <- Es; auto).
    assert (Next : ~ without_operand g x -> forall res, blames D (fill_symbols rm t syms res)).
    { intros Hx res'. apply (IH (a ++ [x])); [rewrite <- app_assoc; exact Es|].
      apply Forall_app. split; [exact Fa|]. constructor; [exact Hx|constructor]. }
    destruct x as [v|w| |str].
    - destruct (rm_get rm v) as [i|] eqn:E.
      + apply Next. intros Nd. apply (rm_get_none g v) in Nd. fold rm in Nd. congruence.
      + apply cf_undefined; [exact Sel|]. apply (rm_get_none g v), E.
    - apply Next. intros [].
    - apply cf_nothing, Sel.
    - eapply cf_unknown, Sel.
  Qed.

  Lemma fill_firsts_blames n s terms : alternative g n s -> (forall c, In c terms -> first g (seq_form s) c) ->
    forall res, blames D (fill_firsts rm terms s res).
  Proof.
    intros Ha. induction terms as [|t terms IH]; intros Hc res; cbn [fill_firsts]; [exact I|].
    apply blames_bind.
    - eapply (fill_symbols_blames n t t s Ha (Hc t (or_introl eq_refl)) s []); [reflexivity|constructor].
    - intros r _. apply IH. intros c Hin. apply Hc. right. exact Hin.
  Qed.

  Lemma row_blames i r fol : nth_error g i = Some r -> nth_error follows i = Some fol ->
    blames D (row_loop rm firsts fol (r_tail r) []).
  Proof.
    intros Hr Hfol. pose proof (all_wf_nth _ _ _ Wo Hfol) as Wfol.
    assert (G : forall seqs pre res, r_tail r = pre ++ seqs -> row_inv g firsts fol pre res ->
      blames D (row_loop rm firsts fol seqs res)).
    { induction seqs as [|s seqs IH]; intros pre res Et Inv; [exact I|]. unfold rm. rewrite row_loop_cons. fold rm.
      assert (Ha : alternative g (r_head r) s).
      { eapply rule_alts; [exact Hr|]. rewrite Et. apply in_or_app. right. left. reflexivity. }
      apply blames_bind.
      - unfold row_one. destruct (All _ _ Ha) as (sf & Esf). fold rm. rewrite Esf. cbn [gobind].
        pose proof (sequenceFirsts_spec _ _ _ _ Esf) as Hsf.
        pose proof (sequenceFirsts_wf _ _ _ _ Wf Esf) as Wsf.
        assert (Fin : forall f2 r1, bs_wf f2 -> (forall c, bs_contains f2 c = true -> takes g firsts c s = true) ->
          blames D (go terms <- bs_range f2; fill_firsts rm terms s r1)).
        { intros f2 r1 W2 H2. destruct (bs_range_ok f2 W2) as (l & -> & _ & Il). cbn [gobind].
          eapply fill_firsts_blames; [exact Ha|]. intros c Hc. apply (takes_first g firsts Nf FE _ _ c Ha).
          apply H2, Il, Hc. }
        unfold EOS. destruct (bs_contains sf NUL) eqn:En; cbn [gobind].
        + destruct (bs_range_ok fol Wfol) as (fl & -> & Nfl & Ifl). cbn [gobind].
          destruct (fill_follows_spec fl res Nfl) as (_ & F2 & F3 & F4).
          destruct (fill_follows fl res) as [r1|e|p|] eqn:Eff; cbn [gobind].
          * apply Fin; [apply remove_wf, Wsf|]. intros c Hc. rewrite contains_remove in Hc.
            apply andb_true_iff in Hc. destruct Hc as (H1 & H2). unfold takes, has. rewrite <- Hsf, H2.
            exact H1.
          * destruct (F2 _ eq_refl) as (-> & t & l & Ht & Hl). apply cf_conflict.
            assert (Cl : clash g firsts fol (r_tail r)).
            { exists pre, s, seqs, t. split; [exact Et|]. split; [unfold has; rewrite <- Hsf; exact En|].
              split; [apply Ifl, Ht|]. rewrite <- Inv. congruence. }
            apply (clash_exact g firsts follows Nf FE _ FO i r fol Hr Hfol) in Cl.
            destruct Cl as (l1 & s1 & l2 & s2 & l3 & b & E & Hc). exists (r_head r), s1, s2, b.
            split; [|exact Hc]. exists r, l1, l2, l3. split; [eapply nth_error_In; exact Hr|auto].
          * destruct (F3 p eq_refl).
          * exact I.
        + apply Fin; [exact Wsf|]. intros c Hc. unfold takes, has. rewrite <- Hsf, Hc. cbn [andb].
          apply negb_true_iff, Ascii.eqb_neq. intros ->. congruence.
      - intros r1 E1. destruct (row_one_spec g firsts Wf fol Wfol s pre res Inv) as (O1 & _).
        destruct (O1 _ E1) as (Inv1 & _). apply (IH (pre ++ [s])); [rewrite <- app_assoc; exact Et|exact Inv1]. }
    apply (G _ []); [reflexivity|]. intros b. reflexivity.
  Qed.

  Lemma makeTable_blames : blames D (makeTable g rm firsts follows).
  Proof.
    unfold makeTable. assert (B : forall i, In i (seq 0 (length g)) -> i < length g) by (intros i Hi; apply in_seq in Hi; lia).
    revert B. generalize (@nil (Z * row)) as tbl. induction (seq 0 (length g)) as [|i l IH]; intros tbl B; [exact I|].
    cbn [makeTable_loop]. apply blames_bind.
    - specialize (B i (or_introl eq_refl)). unfold makeTableRow.
      apply blames_bind; [apply blames_index, B|]. intros r Hr. apply index_ok in Hr.
      apply blames_bind; [apply blames_index; lia|]. intros fol Hfol. apply index_ok in Hfol.
      eapply row_blames; eassumption.
    - intros r _. apply IH. intros j Hj. apply B. right. exact Hj.
  Qed.

  Lemma makeTable_no_fault tbl : makeTable g rm firsts follows = Ok tbl ->
    (forall f, ~ cell_fault g FC f) /\ table_spec_wrt FC g tbl.
  Proof.
    intros Et. unfold makeTable in Et.
    destruct (makeTable_loop_spec _ _ _ _ _ 0 [] _ eq_refl Et) as (T1 & _ & T3).
    assert (G : forall i r, nth_error g i = Some r ->
      exists rw fol, map_get Z.eqb (Z.of_nat i) tbl = Some rw /\ nth_error follows i = Some fol /\
      (forall b, row_get b rw = cell_of g firsts fol (r_tail r) b) /\
      ~ clash g firsts fol (r_tail r) /\
      (forall s b, In s (r_tail r) -> takes g firsts b s = true -> Forall (opable g) s)).
    { intros i r Hr. assert (Hi : i < length g) by (apply nth_error_Some; congruence).
      destruct (T3 i ltac:(lia)) as (rw & Hrw & Emk). unfold makeTableRow, index in Emk.
      rewrite Hr in Emk. cbn [gobind] in Emk.
      destruct (nth_error follows i) as [fol|] eqn:Efol; [|discriminate]. cbn [gobind] in Emk.
      pose proof (all_wf_nth _ _ _ Wo Efol) as Wfol.
      destruct (row_full g firsts Wf fol Wfol (r_tail r)) as [R1 _].
      destruct (R1 _ Emk) as (J1 & J2 & J3). exists rw, fol. auto. }
    assert (Sel : forall x, selectable g x -> opable g x).
    { intros x (n & a & b & c & Ha & Hc & _). pose proof (proj2 (takes_first g firsts Nf FE _ _ c Ha) Hc) as Tk.
      destruct Ha as (r & Hr & _ & Hs). apply In_nth_error in Hr. destruct Hr as (i & Hr).
      destruct (G i r Hr) as (_ & _ & _ & _ & _ & _ & Hop). specialize (Hop _ _ Hs Tk).
      rewrite Forall_forall in Hop. apply Hop. apply in_or_app. right. left. reflexivity. }
    split.
    - intros f Hf. destruct Hf as [(n & s1 & s2 & b & (r & l1 & l2 & l3 & Hin & <- & E) & H2 & Hb & H1)|m Hs Nd|Hs|str Hs].
      + apply In_nth_error in Hin. destruct Hin as (i & Hi).
        destruct (G i r Hi) as (rw & fol & _ & Hfol & _ & Hcl & _).
        apply Hcl. apply (clash_exact g firsts follows Nf FE _ FO i r fol Hi Hfol).
        exists l1, s1, l2, s2, l3, b. auto.
      + apply Nd, (Sel _ Hs).
      + exact (Sel _ Hs).
      + exact (Sel _ Hs).
    - split; [exact T1|]. intros i r b Hi.
      destruct (G i r Hi) as (rw & fol & Hrw & Hfol & Hc & _ & Hop).
      exists rw. split; [exact Hrw|]. fold (row_get b rw). rewrite Hc.
      exact (cell_of_exact g firsts follows Nf FE _ FO i r fol b Hi Hfol Hop).
  Qed.
End Table.

(** ** All together *)
Lemma last_defined g g' n s v : last_definitions g g' -> alternative g' n s -> In (SNonTerminal v) s ->
  (defined g v <-> defined g' v).
Proof.
  intros S Ha Hv. destruct (alt_from g g' S _ _ Ha) as (m & Hm).
  assert (M : mentioned g v) by (right; eauto). pose proof (rm_agree g g' S v M) as E.
  split; intros Hd; [destruct (in_dec bytes_eq_dec v (heads g')) as [H|H]|destruct (in_dec bytes_eq_dec v (heads g)) as [H|H]];
    try exact H; apply enumerate_none in H; unfold rm_get in E.
  - rewrite H in E. apply enumerate_none in E. contradiction.
  - rewrite H in E. symmetry in E. apply enumerate_none in E. contradiction.
Qed.

Lemma follow_fault_last g g' f : last_definitions g g' -> (follow_fault g f <-> follow_fault g' f).
Proof.
  intros S. assert (N : forall B x, neighbours g B x <-> neighbours g' B x).
  { intros B x. split; intros (Hd & n & a & b & Ha).
    - destruct (alt_to g g' S _ _ Ha) as (m & Hm). split; [|exists m, a, b; exact Hm].
      apply (last_defined g g' _ _ B S Hm); [apply in_or_app; right; left; reflexivity|exact Hd].
    - destruct (alt_from g g' S _ _ Ha) as (m & Hm). split; [|exists m, a, b; exact Hm].
      apply (last_defined g g' _ _ B S Ha); [apply in_or_app; right; left; reflexivity|exact Hd]. }
  assert (X : forall B m, neighbours g' B (SNonTerminal m) -> (defined g m <-> defined g' m)).
  { intros B m (_ & n & a & b & Ha). apply (last_defined g g' _ _ m S Ha). apply in_or_app. right. right. left. reflexivity. }
  pose proof (sa_length _ _ _ (proj1 S)) as Lg.
  split; intros [E|n Ha|B m Hn Nd|B Hn|B str Hn].
  - apply fo_no_rules. rewrite E in Lg. destruct g'; [reflexivity|discriminate].
  - destruct (alt_to g g' S _ _ Ha) as (m & Hm). eapply fo_empty_sequence, Hm.
  - apply N in Hn. eapply fo_undefined; [exact Hn|]. rewrite <- (X _ _ Hn). exact Nd.
  - eapply fo_empty_terminal, N, Hn.
  - eapply fo_unknown, N, Hn.
  - apply fo_no_rules. rewrite E in Lg. destruct g; [reflexivity|discriminate].
  - destruct (alt_from g g' S _ _ Ha) as (m & Hm). eapply fo_empty_sequence, Hm.
  - eapply fo_undefined; [apply N, Hn|]. rewrite (X _ _ Hn). exact Nd.
  - eapply fo_empty_terminal, N, Hn.
  - eapply fo_unknown, N, Hn.
Qed.

Lemma nulfree_last g g' : last_definitions g g' -> terminals_nulfree g -> terminals_nulfree g'.
Proof. intros S T n s t Ha. destruct (alt_from g g' S _ _ Ha) as (m & Hm). eapply T, Hm. Qed.

Lemma blamed (D : fault -> Prop) {A} (x : tgres A) : blames D x -> x <> NoFuel ->
  (exists a, x = Ok a) \/ exists f, D f /\ forall B (k : A -> tgres B), gobind x k = fault_result f.
Proof.
  destruct x as [a|e|p|]; cbn; intros H Hn.
  - left. eauto.
  - right. exists (Refused e). auto.
  - right. exists (Panicked p). auto.
  - congruence.
Qed.

Lemma FromGrammar_outcome order fuel g g' :
  last_definitions g g' -> terminals_nulfree g -> enough g <= fuel ->
  outcome_of g' (follow_last g g') (FromGrammar_order order fuel g).
Proof.
  intros S T0 Hfuel. pose proof (nulfree_last _ _ S T0) as T. pose proof (sa_length _ _ _ (proj1 S)) as Lg.
  pose proof (FromGrammar_fuel order g fuel Hfuel) as NoF. rewrite FromGrammar_unfold in *.
  (* FIRST *)
  assert (B1 : blames (first_fault g') (findFirsts g (enumerate (heads g)) fuel (repeat (bs_new []) (length g)))).
  { rewrite (findFirsts_same g g' S), <- Lg. apply findFirsts_blames; [exact T|apply repeat_wf|apply repeat_length|].
    intros j d E. rewrite repeat_empty in E. discriminate. }
  destruct (blamed _ _ B1) as [(firsts & E1)|(f & Hf & E1)].
  { intros E. rewrite E in NoF. apply NoF. reflexivity. }
  2:{ rewrite E1. apply oc_first, Hf. }
  rewrite E1 in *. cbn [gobind] in *.
  rewrite (findFirsts_same g g' S), <- Lg in E1.
  pose proof (findFirsts_exact g' fuel firsts (proj2 S) T E1) as FE.
  pose proof (findFirsts_all g' fuel _ _ (repeat_wf _) (repeat_length _ _) E1) as All.
  pose proof (firsts_no_fault g' firsts FE All) as NF.
  pose proof (fe_wf _ _ FE) as Wf. pose proof (fe_length _ _ FE) as Lf.
  (* FOLLOW *)
  pose proof (findFollows_blames g firsts Wf (eq_trans Lf Lg) fuel) as B2.
  destruct (blamed _ _ B2) as [(follows & E2)|(f & Hf & E2)].
  { intros E. rewrite E in NoF. apply NoF. reflexivity. }
  2:{ rewrite E2. apply oc_follow; [exact NF|]. apply (follow_fault_last g g' f S), Hf. }
  rewrite E2 in *. cbn [gobind] in *.
  assert (NO : forall f, ~ follow_fault g' f).
  { intros f Hf. apply (follow_fault_last g g' f S) in Hf. exact (follows_no_fault g firsts Wf (eq_trans Lf Lg) fuel follows E2 f Hf). }
  destruct (findFollows_facts _ _ _ _ Wf E2) as (Wo & Lo). rewrite <- Lg in Lo.
  pose proof (findFollows_last g g' S T firsts FE fuel follows E2) as FO.
  (* cells *)
  rewrite (makeTable_same g g' S) in *.
  pose proof (makeTable_blames g' firsts follows T FE (follow_last g g') Wo Lo FO All) as B3.
  destruct (blamed _ _ B3) as [(tbl & E3)|(f & Hf & E3)].
  { intros E. rewrite E in NoF. apply NoF. reflexivity. }
  2:{ rewrite E3. apply oc_cell; assumption. }
  rewrite E3. cbn [gobind].
  destruct (makeTable_no_fault g' firsts follows T FE (follow_last g g') Wo Lo FO tbl E3) as (NC & TS).
  apply oc_table; assumption.
Qed.

(** Without repeated heads. *)
Lemma last_self g : NoDup (heads g) -> last_definitions g g.
Proof.
  intros N. split; [|exact N]. generalize (fun n => ~ mentioned g n) as P. intros P.
  induction g as [|r g IH]; [constructor|]. inversion N; subst. constructor; auto.
Qed.
Lemma written_self g n h : NoDup (heads g) -> (written g g n h <-> n = h /\ defined g n).
Proof.
  intros _. split.
  - intros (i & H1 & H2). split; [congruence|]. eapply nth_error_In, H1.
  - intros (-> & Hd). apply In_nth_error in Hd. destruct Hd as (i & Hi). exists i. auto.
Qed.
Lemma follow_last_self g n x : NoDup (heads g) -> defined g n -> (follow_last g g n x <-> follow_code g n x).
Proof.
  intros N Hd. split.
  - intros H. clear Hd. induction H as [Hg|A a B X b c n Ha Hw Hc|A a B x n Ha Hw _ IH|A a B X b x n Ha Hw Hn _ IH].
    + apply fc_rule1, Hg.
    + apply written_self in Hw; [|exact N]. destruct Hw as (-> & _). eapply fc_rule2; eassumption.
    + apply written_self in Hw; [|exact N]. destruct Hw as (-> & _). eapply fc_rule3; eassumption.
    + apply written_self in Hw; [|exact N]. destruct Hw as (-> & _). eapply fc_rule4; eassumption.
  - intros H.
    assert (DA : forall A s, alternative g A s -> defined g A).
    { intros A s (r & Hr & <- & _). unfold defined, heads. apply in_map, Hr. }
    induction H as [Hg|A a B X b c Ha Hc|A a B x Ha _ IH|A a B X b x Ha Hn _ IH].
    + constructor. exact Hg.
    + eapply fl_next; [exact Ha|apply written_self; auto|exact Hc].
    + eapply fl_end; [exact Ha|apply written_self; auto|]. apply IH. eapply DA, Ha.
    + eapply fl_empty; [exact Ha|apply written_self; auto|exact Hn|]. apply IH. eapply DA, Ha.
Qed.

Lemma cell_fault_wrt g F G f : (forall n x, defined g n -> (F n x <-> G n x)) -> cell_fault g F f -> cell_fault g G f.
Proof.
  intros H [(n & s1 & s2 & b & Ht & Hn & Hf & Ho)|m Hs Hd|Hs|str Hs].
  - apply cf_conflict. exists n, s1, s2, b. repeat split; auto. apply H; [|exact Hf].
    destruct Ht as (r & l1 & l2 & l3 & Hr & <- & _). unfold defined, heads. apply in_map, Hr.
  - apply cf_undefined; assumption.
  - apply cf_nothing; assumption.
  - eapply cf_unknown; eassumption.
Qed.
