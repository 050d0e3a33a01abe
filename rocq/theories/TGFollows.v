(** * TGFollows: the FOLLOW iteration of the table generator. *)
From Verif Require Import Base ByteSet Ast Parser TableGen Spec_Parse Spec_Grammar
  ByteSetProofs GrammarProofs ParseApi2 TGFirsts.

Section Gen.
  Variable g : grammar.
  Let rm := enumerate (heads g).
  Variable firsts : list ByteSet.
  Hypothesis Wfirsts : all_wf firsts.
  Let has := form_has (first_of g firsts).

  Lemma form_has_nt v c : has [NT v] c = first_of g firsts v c.
  Proof.
    unfold has. cbn [form_has]. destruct (Ascii.eqb_spec c NUL) as [->|N].
    - rewrite andb_false_r, andb_true_r. reflexivity.
    - rewrite andb_true_r, andb_false_r, orb_false_r. reflexivity.
  Qed.

  Lemma symbolFirsts_spec x out :
    symbolFirsts rm firsts x = Ok out ->
    bs_wf out /\ forall c, bs_contains out c = has (sym_form x) c.
  Proof.
    destruct x as [v|t| |str]; cbn [symbolFirsts sym_form].
    - intros H. split.
      + destruct (rm_get rm v) as [i|]; [|discriminate]. apply index_ok in H.
        eapply all_wf_nth; eassumption.
      + intros c. rewrite form_has_nt. unfold first_of. fold rm.
        destruct (rm_get rm v) as [i|]; [|discriminate]. apply index_ok in H.
        unfold set_at. rewrite H. reflexivity.
    - destruct t as [|a t]; [discriminate|]. cbn [terminalFirsts length Nat.eqb]. intros H.
      injection H as <-. split; [apply new_wf|]. intros c. cbn [map]. unfold has. cbn [form_has].
      rewrite contains_new. unfold existsb. apply orb_false_r.
    - intros H. injection H as <-. split; [apply new_wf|]. intros c. unfold has. cbn [form_has].
      rewrite contains_new. unfold existsb. apply orb_false_r.
    - discriminate.
  Qed.

  (** The two ways a FOLLOW set of rule [i] grows from position [k] of an
      alternative [s] of rule [j]. *)
  Definition name_at (i : nat) (s : sequence) (k : nat) : Prop :=
    exists r, nth_error g i = Some r /\ nth_error s k = Some (SNonTerminal (r_head r)).
  Definition passes_end (s : sequence) (k : nat) : Prop :=
    match nth_error s (S k) with
    | None => True
    | Some x => has (sym_form x) NUL = true
    end.
  Definition starts_next (s : sequence) (k : nat) (c : ascii) : Prop :=
    exists x, nth_error s (S k) = Some x /\ has (sym_form x) c = true /\ c <> NUL.

  Definition closed_pos (follows : list ByteSet) (i j : nat) (s : sequence) (k : nat) : Prop :=
    name_at i s k ->
    (passes_end s k -> i <> j -> forall c, set_at follows j c = true -> set_at follows i c = true) /\
    (forall c, starts_next s k c -> set_at follows i c = true).

  (** Preserved by every growth. *)
  Definition follow_inv (P : nat -> ascii -> Prop) : Prop :=
    forall i j r s k, nth_error g j = Some r -> In s (r_tail r) -> name_at i s k ->
      (passes_end s k -> forall c, P j c -> P i c) /\ (forall c, starts_next s k c -> P i c).

  Definition keeps (P : nat -> ascii -> Prop) (f f' : list ByteSet) : Prop :=
    (forall j d, set_at f j d = true -> P j d) -> (forall j d, set_at f' j d = true -> P j d).

  Lemma add_follows_spec f i extra ch r :
    all_wf f -> bs_wf extra -> add_follows f i extra = Ok r ->
    match r with
    | None => forall c, bs_contains extra c = true -> set_at f i c = true
    | Some f' => moves f ch f' true /\
        forall j c, set_at f' j c = true -> set_at f j c = true \/ (j = i /\ bs_contains extra c = true)
    end.
  Proof.
    intros W We. unfold add_follows, index.
    destruct (nth_error f i) as [s|] eqn:E; cbn [gobind]; [|discriminate].
    assert (L : i < length f) by (apply nth_error_Some; congruence).
    destruct (bs_is_superset s extra) eqn:Es; intros H; injection H as <-.
    - intros c Hc. unfold set_at. rewrite E. apply (proj1 (superset_spec s extra We) Es), Hc.
    - split; [apply add_moves; assumption|]. intros j c H. rewrite set_at_upd in H by exact L.
      destruct (Nat.eqb_spec j i) as [->|N]; [|left; exact H].
      rewrite contains_union in H. apply orb_true_iff in H. destruct H as [H|H]; [|right; auto].
      left. unfold set_at. rewrite E. exact H.
  Qed.

  Lemma is_named_spec x v : is_nonterminal_named x v = true <-> x = SNonTerminal v.
  Proof.
    destruct x as [w|t| |str]; simpl; try (split; [discriminate|discriminate]).
    rewrite bytes_eqb_eq. split; [intros ->; reflexivity|intros H; injection H as ->; reflexivity].
  Qed.

  Lemma follows_inner_spec P i j s rj k : forall f ch f' ch',
    follow_inv P -> nth_error g j = Some rj -> In s (r_tail rj) ->
    all_wf f -> k < length s ->
    follows_inner g rm i s j firsts k f ch = Ok (f', ch') ->
    moves f ch f' ch' /\ keeps P f f' /\
    (ch' = false -> forall k', k' < k -> closed_pos f i j s k').
  Proof.
    induction k as [|k IH]; intros f ch f' ch' HP Hj Hs W Hk H; cbn [follows_inner] in H.
    - injection H as <- <-. split; [apply moves_refl, W|]. split; [intros ?; assumption|].
      intros _ k' Hk'. lia.
    - unfold index in H. destruct (nth_error s k) as [sym|] eqn:Esym; [|discriminate].
      cbn [gobind] in H. destruct (nth_error g i) as [ri|] eqn:Ei; [|discriminate].
      cbn [gobind] in H.
      destruct (is_nonterminal_named sym (r_head ri)) eqn:En; cbn [negb] in H.
      + apply is_named_spec in En. subst sym.
        destruct (nth_error s (S k)) as [next|] eqn:Enext; [|discriminate]. cbn [gobind] in H.
        destruct (symbolFirsts rm firsts next) as [nf| | |] eqn:Enf; try discriminate.
        cbn [gobind] in H. destruct (symbolFirsts_spec _ _ Enf) as [Wnf Hnf].
        assert (Hname : name_at i s k) by (exists ri; auto).
        destruct (HP i j rj s k Hj Hs Hname) as [HP1 HP2].
        assert (Pass : bs_contains nf NUL = true -> passes_end s k).
        { intros E. unfold passes_end. rewrite Enext, <- Hnf. exact E. }
        (* rule 4 *)
        match type of H with gobind ?m _ = _ => destruct m as [[f1 ch1]| | |] eqn:E4 end;
          try discriminate. cbn [gobind] in H.
        assert (R4 : moves f ch f1 ch1 /\ keeps P f f1 /\
          (ch1 = false -> passes_end s k -> i <> j ->
             forall c, set_at f j c = true -> set_at f i c = true)).
        { destruct (bs_contains nf EOS && negb (Nat.eqb i j)) eqn:Ec.
          - apply andb_true_iff in Ec. destruct Ec as [Ec1 Ec2].
            apply negb_true_iff, Nat.eqb_neq in Ec2.
            destruct (nth_error f j) as [fj|] eqn:Efj; [|discriminate]. cbn [gobind] in E4.
            destruct (add_follows f i fj) as [added| | |] eqn:Ea; try discriminate.
            cbn [gobind] in E4.
            pose proof (add_follows_spec f i fj ch _ W (all_wf_nth _ _ _ W Efj) Ea) as A.
            destruct added as [fa|]; injection E4 as <- <-.
            + destruct A as [A1 A2]. split; [exact A1|]. split; [|discriminate].
              intros H0 jj d Hd. destruct (A2 _ _ Hd) as [H1|[-> H1]]; [apply H0, H1|].
              apply HP1; [apply Pass, Ec1|]. apply H0. unfold set_at. rewrite Efj. exact H1.
            + split; [apply moves_refl, W|]. split; [intros ?; assumption|].
              intros _ _ _ c Hc. apply A. unfold set_at in Hc. rewrite Efj in Hc. exact Hc.
          - injection E4 as <- <-. split; [apply moves_refl, W|]. split; [intros ?; assumption|].
            intros _ Hp Hij. exfalso. unfold passes_end in Hp. rewrite Enext, <- Hnf in Hp.
            unfold EOS in Ec. rewrite Hp in Ec. apply Nat.eqb_neq in Hij. rewrite Hij in Ec.
            discriminate. }
        destruct R4 as (M4 & K4 & C4). pose proof M4 as (W4 & L4 & _).
        (* rule 2 *)
        destruct (add_follows f1 i (bs_remove nf EOS)) as [added| | |] eqn:Ea; try discriminate.
        cbn [gobind] in H.
        pose proof (add_follows_spec f1 i _ ch1 _ W4 (remove_wf _ _ Wnf) Ea) as A.
        destruct added as [f2|].
        * destruct A as [A1 A2]. pose proof A1 as (W5 & L5 & _).
          destruct (IH _ _ _ _ HP Hj Hs W5 ltac:(lia) H) as (M & K & C).
          split; [eapply moves_trans; [exact M4|eapply moves_trans; eassumption]|].
          split.
          { intros H0. apply K. intros jj d Hd. destruct (A2 _ _ Hd) as [H1|[-> H1]].
            - apply K4; assumption.
            - apply HP2. exists next. rewrite <- Hnf.
              rewrite contains_remove in H1. apply andb_true_iff in H1. destruct H1 as [H1 H2].
              apply negb_true_iff, Ascii.eqb_neq in H1. auto. }
          intros ->. destruct (moves_false _ _ _ M) as [_ E]. discriminate.
        * destruct (IH _ _ _ _ HP Hj Hs W4 ltac:(lia) H) as (M & K & C).
          split; [eapply moves_trans; eassumption|]. split; [intros H0; apply K, K4, H0|].
          intros ->. destruct (moves_false _ _ _ M) as [-> ->].
          destruct (moves_false _ _ _ M4) as [-> ->]. intros k' Hk'.
          destruct (Nat.eq_dec k' k) as [->|N]; [|apply C; [reflexivity|lia]].
          intros _. split; [apply C4; reflexivity|].
          intros c (x & Ex & Hx & Hc). rewrite Enext in Ex. injection Ex as <-.
          apply A. rewrite contains_remove, Hnf, Hx. apply Ascii.eqb_neq in Hc.
          unfold EOS. rewrite Hc. reflexivity.
      + destruct (IH _ _ _ _ HP Hj Hs W ltac:(lia) H) as (M & K & C).
        split; [exact M|]. split; [exact K|]. intros -> k' Hk'.
        destruct (Nat.eq_dec k' k) as [->|N]; [|apply C; [reflexivity|lia]].
        intros (r & Hr & Hn). rewrite Ei in Hr. injection Hr as <-. rewrite Esym in Hn.
        injection Hn as ->. assert (X : is_nonterminal_named (SNonTerminal (r_head ri)) (r_head ri) = true)
          by (apply is_named_spec; reflexivity). congruence.
  Qed.

  Lemma inSequence_spec P i j s rj f ch f' ch' :
    follow_inv P -> nth_error g j = Some rj -> In s (r_tail rj) -> all_wf f ->
    ruleFollowsInSequence g rm i s j firsts f ch = Ok (f', ch') ->
    moves f ch f' ch' /\ keeps P f f' /\
    (ch' = false -> forall k, closed_pos f i j s k).
  Proof.
    intros HP Hj Hs W. unfold ruleFollowsInSequence.
    destruct (Nat.eqb_spec (length s) 0) as [E0|N0]; [discriminate|].
    assert (Out : forall k, length s <= k -> closed_pos f i j s k).
    { intros k Hk (r & _ & Hn). apply nth_error_None in Hk. congruence. }
    assert (Rest : forall f' ch', 
       (closed_pos f i j s (length s - 1)) ->
       follows_inner g rm i s j firsts (length s - 1) f ch = Ok (f', ch') ->
       moves f ch f' ch' /\ keeps P f f' /\ (ch' = false -> forall k, closed_pos f i j s k)).
    { intros f1 ch1 Hlast H.
      assert (Lk : length s - 1 < length s) by lia.
      destruct (follows_inner_spec P i j s rj _ _ _ _ _ HP Hj Hs W Lk H) as (M & K & C).
      split; [exact M|]. split; [exact K|]. intros -> k.
      destruct (Nat.lt_ge_cases k (length s - 1)) as [L|L]; [apply C; [reflexivity|exact L]|].
      destruct (Nat.eq_dec k (length s - 1)) as [->|Nk]; [exact Hlast|]. apply Out. lia. }
    assert (Elast : nth_error s (S (length s - 1)) = None) by (apply nth_error_None; lia).
    assert (NoStart : forall c, ~ starts_next s (length s - 1) c).
    { intros c (x & Ex & _). congruence. }
    destruct (Nat.eqb_spec i j) as [Eij|Nij]; cbn [negb].
    - intros H. apply Rest; [|exact H]. intros _. split; [congruence|].
      intros c Hc. destruct (NoStart _ Hc).
    - unfold index. destruct (nth_error s (length s - 1)) as [sym|] eqn:Esym; [|discriminate].
      cbn [gobind]. destruct (nth_error g i) as [ri|] eqn:Ei; [|discriminate]. cbn [gobind].
      destruct (is_nonterminal_named sym (r_head ri)) eqn:En.
      + apply is_named_spec in En. subst sym.
        assert (Hname : name_at i s (length s - 1)) by (exists ri; auto).
        destruct (HP i j rj s _ Hj Hs Hname) as [HP1 _].
        destruct (nth_error f j) as [fj|] eqn:Efj; [|discriminate]. cbn [gobind].
        destruct (add_follows f i fj) as [added| | |] eqn:Ea; cbn [gobind]; try discriminate.
        pose proof (add_follows_spec f i fj ch _ W (all_wf_nth _ _ _ W Efj) Ea) as A.
        destruct added as [fa|].
        * intros H. injection H as <- <-. destruct A as [A1 A2].
          split; [exact A1|]. split; [|discriminate].
          intros H0 jj d Hd. destruct (A2 _ _ Hd) as [H1|[-> H1]]; [apply H0, H1|].
          apply HP1; [unfold passes_end; rewrite Elast; exact I|].
          apply H0. unfold set_at. rewrite Efj. exact H1.
        * apply Rest. intros _. split; [|intros c Hc; destruct (NoStart _ Hc)].
          intros _ _ c Hc. apply A. unfold set_at in Hc. rewrite Efj in Hc. exact Hc.
      + apply Rest. intros (r & Hr & Hn). rewrite Ei in Hr. injection Hr as <-. rewrite Esym in Hn.
        injection Hn as ->. assert (X : is_nonterminal_named (SNonTerminal (r_head ri)) (r_head ri) = true)
          by (apply is_named_spec; reflexivity). congruence.
  Qed.

  Lemma sequences_spec P i j rj seqs : forall f ch f' ch',
    follow_inv P -> nth_error g j = Some rj -> (forall s, In s seqs -> In s (r_tail rj)) ->
    all_wf f ->
    follows_sequences g rm i seqs j firsts f ch = Ok (f', ch') ->
    moves f ch f' ch' /\ keeps P f f' /\
    (ch' = false -> forall s k, In s seqs -> closed_pos f i j s k).
  Proof.
    induction seqs as [|s seqs IH]; intros f ch f' ch' HP Hj Hin W H; cbn [follows_sequences] in H.
    - injection H as <- <-. split; [apply moves_refl, W|]. split; [intros ?; assumption|].
      intros _ s k [].
    - destruct (ruleFollowsInSequence g rm i s j firsts f ch) as [[f1 ch1]| | |] eqn:E;
        try discriminate. cbn [gobind] in H.
      destruct (inSequence_spec P _ _ _ _ _ _ _ _ HP Hj (Hin _ (or_introl eq_refl)) W E) as (M1 & K1 & C1).
      pose proof M1 as (W1 & _ & _).
      destruct (IH _ _ _ _ HP Hj (fun x Hx => Hin x (or_intror Hx)) W1 H) as (M2 & K2 & C2).
      split; [eapply moves_trans; eassumption|]. split; [intros H0; apply K2, K1, H0|].
      intros ->. destruct (moves_false _ _ _ M2) as [-> ->].
      destruct (moves_false _ _ _ M1) as [-> ->].
      intros s' k [<-|Hs']; [apply C1; reflexivity|apply C2; [reflexivity|exact Hs']].
  Qed.

  Definition closed_pair (f : list ByteSet) (i j : nat) : Prop :=
    forall r s k, nth_error g j = Some r -> In s (r_tail r) -> closed_pos f i j s k.

  Lemma follows_round_spec P pairs : forall f ch f' ch',
    follow_inv P -> all_wf f ->
    follows_round g rm pairs firsts f ch = Ok (f', ch') ->
    moves f ch f' ch' /\ keeps P f f' /\
    (ch' = false -> forall i j, In (i, j) pairs -> closed_pair f i j).
  Proof.
    induction pairs as [|[i j] pairs IH]; intros f ch f' ch' HP W H; cbn [follows_round] in H.
    - injection H as <- <-. split; [apply moves_refl, W|]. split; [intros ?; assumption|].
      intros _ i j [].
    - destruct (ruleFollowsInRule g rm i j firsts f ch) as [[f1 ch1]| | |] eqn:E;
        try discriminate. cbn [gobind] in H. unfold ruleFollowsInRule in E.
      destruct (Nat.leb (ruleCount g) i); [discriminate|].
      destruct (Nat.leb (ruleCount g) j); [discriminate|].
      unfold index in E. destruct (nth_error g j) as [rj|] eqn:Ej; [|discriminate].
      cbn [gobind] in E.
      destruct (sequences_spec P _ _ _ _ _ _ _ _ HP Ej (fun s Hs => Hs) W E) as (M1 & K1 & C1).
      pose proof M1 as (W1 & _ & _).
      destruct (IH _ _ _ _ HP W1 H) as (M2 & K2 & C2).
      split; [eapply moves_trans; eassumption|]. split; [intros H0; apply K2, K1, H0|].
      intros ->. destruct (moves_false _ _ _ M2) as [-> ->].
      destruct (moves_false _ _ _ M1) as [-> ->].
      intros i' j' [Heq|Hin]; [|apply C2; [reflexivity|exact Hin]].
      injection Heq as <- <-. intros r s k Hr Hs. rewrite Ej in Hr. injection Hr as <-.
      apply C1; [reflexivity|exact Hs].
  Qed.

  Lemma follows_loop_spec P fuel : forall f out,
    follow_inv P -> all_wf f ->
    follows_loop g rm fuel firsts f = Ok out ->
    all_wf out /\ length out = length f /\ keeps P f out /\
    (forall i c, set_at f i c = true -> set_at out i c = true) /\
    (forall i j, i < length g -> j < length g -> closed_pair out i j).
  Proof.
    induction fuel as [|fuel IH]; intros f out HP W H; cbn [follows_loop] in H; [discriminate|].
    destruct (follows_round g rm (all_pairs g) firsts f false) as [[f1 ch1]| | |] eqn:E;
      try discriminate. cbn [gobind] in H.
    destruct (follows_round_spec P _ _ _ _ _ HP W E) as (M & K & C).
    pose proof M as (W1 & L1 & _). destruct ch1.
    - destruct (IH _ _ HP W1 H) as (W2 & L2 & K2 & I2 & C2).
      split; [exact W2|]. split; [congruence|]. split; [intros H0; apply K2, K, H0|].
      split; [|exact C2]. intros i c Hc. apply I2. eapply moves_incl; eassumption.
    - injection H as <-. destruct (moves_false _ _ _ M) as [-> _].
      split; [exact W|]. split; [reflexivity|]. split; [intros ?; assumption|]. split; [auto|].
      intros i j Hi Hj. apply C; [reflexivity|]. apply in_prod_iff. rewrite !in_seq. lia.
  Qed.

  (** ** No panic of the fuel *)
  Lemma follows_inner_fuel i j s k : forall f ch,
    follows_inner g rm i s j firsts k f ch <> NoFuel.
  Proof.
    assert (SF : forall x, symbolFirsts rm firsts x <> NoFuel).
    { intros [v|t| |str]; cbn [symbolFirsts]; try discriminate.
      - destruct (rm_get rm v); [|discriminate]. unfold index.
        destruct (nth_error firsts n); discriminate.
      - destruct t; cbn [length Nat.eqb terminalFirsts]; discriminate. }
    assert (AF : forall f i e, add_follows f i e <> NoFuel).
    { intros f i' e. unfold add_follows, index. destruct (nth_error f i'); cbn [gobind]; [|discriminate].
      destruct (bs_is_superset _ _); discriminate. }
    induction k as [|k IH]; intros f ch; cbn [follows_inner]; [discriminate|].
    unfold index. destruct (nth_error s k) as [sym|]; cbn [gobind]; [|discriminate].
    destruct (nth_error g i) as [ri|]; cbn [gobind]; [|discriminate].
    destruct (is_nonterminal_named sym (r_head ri)); cbn [negb]; [|apply IH].
    destruct (nth_error s (S k)) as [next|]; cbn [gobind]; [|discriminate].
    specialize (SF next). destruct (symbolFirsts rm firsts next) as [nf| | |]; cbn [gobind];
      try discriminate; [|congruence].
    match goal with |- gobind ?m _ <> _ => assert (X : m <> NoFuel); [|destruct m as [[f1 ch1]| | |]] end;
      cbn [gobind]; try discriminate; [| |congruence].
    - destruct (bs_contains nf EOS && negb (Nat.eqb i j)); [|discriminate].
      destruct (nth_error f j); cbn [gobind]; [|discriminate].
      pose proof (AF f i b). destruct (add_follows f i b) as [[|]| | |]; cbn [gobind]; try discriminate.
      congruence.
    - pose proof (AF f1 i (bs_remove nf EOS)).
      destruct (add_follows f1 i (bs_remove nf EOS)) as [[|]| | |]; cbn [gobind]; try discriminate;
        [apply IH|apply IH|congruence].
  Qed.

  Lemma follows_round_fuel pairs : forall f ch,
    follows_round g rm pairs firsts f ch <> NoFuel.
  Proof.
    assert (AF : forall f i e, add_follows f i e <> NoFuel).
    { intros f i' e. unfold add_follows, index. destruct (nth_error f i'); cbn [gobind]; [|discriminate].
      destruct (bs_is_superset _ _); discriminate. }
    assert (R1 : forall i s j f ch, ruleFollowsInSequence g rm i s j firsts f ch <> NoFuel).
    { intros i s j f ch. unfold ruleFollowsInSequence.
      destruct (Nat.eqb (length s) 0); [discriminate|].
      destruct (negb (Nat.eqb i j)); [|apply follows_inner_fuel].
      unfold index. destruct (nth_error s (length s - 1)); cbn [gobind]; [|discriminate].
      destruct (nth_error g i); cbn [gobind]; [|discriminate].
      destruct (is_nonterminal_named _ _); [|apply follows_inner_fuel].
      destruct (nth_error f j) as [fj|]; cbn [gobind]; [|discriminate].
      pose proof (AF f i fj). destruct (add_follows f i fj) as [[|]| | |]; cbn [gobind]; try discriminate;
        [apply follows_inner_fuel|congruence]. }
    assert (R2 : forall i j seqs f ch, follows_sequences g rm i seqs j firsts f ch <> NoFuel).
    { intros i j seqs. induction seqs as [|s seqs IH]; intros f ch; cbn [follows_sequences]; [discriminate|].
      pose proof (R1 i s j f ch). destruct (ruleFollowsInSequence g rm i s j firsts f ch) as [[f1 c1]| | |];
        cbn [gobind]; try discriminate; [apply IH|congruence]. }
    induction pairs as [|[i j] pairs IH]; intros f ch; cbn [follows_round]; [discriminate|].
    match goal with |- gobind ?m _ <> _ => assert (X : m <> NoFuel); [|destruct m as [[f1 ch1]| | |]] end;
      cbn [gobind]; try discriminate; [|apply IH|congruence].
    unfold ruleFollowsInRule.
    destruct (Nat.leb (ruleCount g) i); [discriminate|].
    destruct (Nat.leb (ruleCount g) j); [discriminate|].
    unfold index. destruct (nth_error g j); cbn [gobind]; [|discriminate]. apply R2.
  Qed.

  Lemma follows_loop_fuel fuel : forall f,
    all_wf f -> length f = length g ->
    length all_bytes * length g - total f < fuel ->
    follows_loop g rm fuel firsts f <> NoFuel.
  Proof.
    induction fuel as [|fuel IH]; intros f W L Hf; [lia|]. cbn [follows_loop].
    pose proof (follows_round_fuel (all_pairs g) f false) as R.
    destruct (follows_round g rm (all_pairs g) firsts f false) as [[f1 c1]| | |] eqn:E;
      cbn [gobind]; try discriminate; [|congruence].
    assert (HP : follow_inv (fun _ _ => True)) by (intros ? ? ? ? ? ? ? ?; auto).
    destruct (follows_round_spec _ _ _ _ _ _ HP W E) as (M & _ & _).
    destruct c1; [|discriminate]. destruct M as (W1 & L1 & [[_ Hc]|(_ & T & _)]); [discriminate|].
    apply IH; [exact W1|congruence|].
    pose proof (total_le f1) as TL. rewrite L1, L in TL. lia.
  Qed.
End Gen.

(** ** The iteration computes the sets of the four rules *)
Section Exact.
  Variable g : grammar.
  Let rm := enumerate (heads g).

  Lemma head_start : g <> [] -> head_at g 0 = start g.
  Proof. destruct g as [|r g']; [congruence|reflexivity]. Qed.

  Lemma follow_inv_sound firsts :
    terminals_nulfree g -> first_exact g firsts ->
    follow_inv g firsts (fun i c => follow_code g (head_at g i) (ahead c)).
  Proof.
    intros T FE i j r s k Hr Hs (ri & Hri & Hk).
    assert (Ha : alternative g (r_head r) s).
    { exists r. split; [eapply nth_error_In; exact Hr|auto]. }
    rewrite (head_at_nth _ _ _ Hri), (head_at_nth _ _ _ Hr).
    apply nth_error_split in Hk. destruct Hk as (a & b & -> & La).
    assert (Nx : forall x b', b = x :: b' -> ~ In (Ch NUL) (sym_form x)).
    { intros x b' -> Hin. apply (form_nulfree_alt _ _ _ T Ha). rewrite seq_form_nt.
      apply in_or_app. right. right. simpl. apply in_or_app. left. exact Hin. }
    assert (Enth : nth_error (a ++ SNonTerminal (r_head ri) :: b) (S k) = nth_error b 0).
    { rewrite nth_error_app2 by lia. replace (S k - length a) with 1 by lia. reflexivity. }
    split.
    - intros Hp c Hc. unfold passes_end in Hp. rewrite Enth in Hp.
      destruct b as [|x b]; simpl in Hp.
      + eapply fc_rule3; eassumption.
      + eapply fc_rule4; [exact Ha| |exact Hc].
        apply (fe_forms _ _ FE) in Hp; [|eapply Nx; reflexivity]. apply Hp. reflexivity.
    - intros c (x & Hx & Hf & Hc). rewrite Enth in Hx. destruct b as [|y b]; [discriminate|].
      simpl in Hx. injection Hx as ->. unfold ahead. pose proof Hc as Hc'.
      apply Ascii.eqb_neq in Hc'. rewrite Hc'.
      eapply fc_rule2; [exact Ha|]. apply (fe_forms _ _ FE) in Hf; [|eapply Nx; reflexivity].
      apply Hf. exact Hc.
  Qed.

  (** FOLLOW sets of the generator, exact. *)
  Record follow_exact (follows : list ByteSet) : Prop := {
    fo_wf : all_wf follows;
    fo_length : length follows = length g;
    fo_rules : forall i c, i < length g ->
      (set_at follows i c = true <-> follow_code g (head_at g i) (ahead c)) }.

  Lemma follow_code_defined n x : 
    (forall n s m, alternative g n s -> In (SNonTerminal m) s -> defined g m) ->
    follow_code g n x -> defined g n.
  Proof.
    intros D H. induction H.
    - destruct g; [congruence|]. left. reflexivity.
    - eapply D; [eassumption|]. apply in_or_app. right. left. reflexivity.
    - eapply D; [eassumption|]. apply in_or_app. right. left. reflexivity.
    - eapply D; [eassumption|]. apply in_or_app. right. left. reflexivity.
  Qed.

  Lemma defined_index n : defined g n -> exists i, i < length g /\ head_at g i = n.
  Proof.
    intros H. unfold defined in H. apply In_nth with (d := []) in H.
    destruct H as (i & Hi & E). exists i. unfold heads in Hi. rewrite map_length in Hi. auto.
  Qed.

  Lemma nodup_head i j :
    NoDup (heads g) -> i < length g -> j < length g -> head_at g i = head_at g j -> i = j.
  Proof.
    intros N Hi Hj E. apply (proj1 (NoDup_nth (heads g) []) N); unfold heads; rewrite ?map_length; auto.
  Qed.

  Lemma alternative_idx A s : NoDup (heads g) -> alternative g A s ->
    forall i, i < length g -> head_at g i = A -> exists r, nth_error g i = Some r /\ In s (r_tail r).
  Proof.
    intros N (r & Hin & <- & Hs) i Hi E. apply In_nth_error in Hin. destruct Hin as (j & Hj).
    assert (i = j) as ->.
    { apply nodup_head; [exact N|exact Hi|apply nth_error_Some; congruence|].
      rewrite E. symmetry. apply head_at_nth. exact Hj. }
    eauto.
  Qed.

  Lemma findFollows_exact fuel firsts follows :
    NoDup (heads g) -> terminals_nulfree g ->
    first_exact g firsts ->
    findFollows g rm fuel firsts (repeat (bs_new []) (length g)) = Ok follows ->
    follow_exact follows.
  Proof.
    intros N T FE H. unfold findFollows, index in H.
    destruct (nth_error (repeat (bs_new []) (length g)) 0) as [f0|] eqn:E0; [|discriminate].
    cbn [gobind] in H.
    assert (Hg : 0 < length g).
    { rewrite <- (repeat_length (bs_new []) (length g)). apply nth_error_Some. congruence. }
    assert (Gne : g <> []) by (intros E; rewrite E in Hg; simpl in Hg; lia).
    assert (E0' : f0 = bs_new []) by (apply nth_error_In, repeat_spec in E0; exact E0). subst f0.
    set (init := upd (repeat (bs_new []) (length g)) 0 (bs_add (bs_new []) EOS)) in H.
    assert (Wi : all_wf init).
    { apply upd_forall; [apply repeat_wf|apply add_wf, new_wf]. }
    assert (Li : length init = length g) by (unfold init; rewrite upd_length; apply repeat_length).
    assert (Si : forall i c, set_at init i c = (Nat.eqb i 0 && Ascii.eqb c NUL)).
    { intros i c. unfold init. rewrite set_at_upd by (rewrite repeat_length; exact Hg).
      destruct (Nat.eqb i 0); [|apply repeat_empty]. rewrite contains_add, contains_empty.
      apply orb_false_r. }
    destruct (follows_loop_spec g firsts (fe_wf _ _ FE) _ _ _ _ (follow_inv_sound _ T FE) Wi H)
      as (W & L & K & I & C).
    split; [exact W|congruence|]. intros i c Hi. split.
    - apply K. intros j d Hd. rewrite Si in Hd. apply andb_true_iff in Hd. destruct Hd as [H1 H2].
      apply Nat.eqb_eq in H1. apply Ascii.eqb_eq in H2. subst.
      change (ahead NUL) with (@None ascii). rewrite head_start by exact Gne. constructor. exact Gne.
    - intros Hf. remember (head_at g i) as n eqn:En. remember (ahead c) as x eqn:Ex.
      revert i c Hi En Ex.
      assert (NN : forall A a B b, alternative g A (a ++ SNonTerminal B :: b) ->
        ~ In (Ch NUL) (seq_form b)).
      { intros A a B b Ha Hin. apply (form_nulfree_alt _ _ _ T Ha). rewrite seq_form_nt.
        apply in_or_app. right. right. exact Hin. }
      assert (Loc : forall A a B b i j, alternative g A (a ++ SNonTerminal B :: b) ->
        i < length g -> j < length g -> head_at g i = B -> head_at g j = A ->
        name_at g i (a ++ SNonTerminal B :: b) (length a) /\
        closed_pos g firsts follows i j (a ++ SNonTerminal B :: b) (length a) /\
        nth_error (a ++ SNonTerminal B :: b) (S (length a)) = nth_error b 0).
      { intros A a B b i j Ha Hi Hj Ei Ej.
        destruct (alternative_idx _ _ N Ha j Hj Ej) as (rj & Hrj & Hs).
        destruct (nth_error g i) as [ri|] eqn:Eri; [|apply nth_error_None in Eri; lia].
        pose proof (head_at_nth _ _ _ Eri) as Hh. split; [|split].
        - exists ri. split; [exact Eri|]. rewrite nth_error_app2 by lia.
          rewrite Nat.sub_diag. simpl. congruence.
        - eapply C; eassumption.
        - rewrite nth_error_app2 by lia. replace (S (length a) - length a) with 1 by lia. reflexivity. }
      induction Hf as [_|A a B X b d Ha Hd|A a B y Ha Hf IH|A a B X b y Ha Hn Hf IH];
        intros i c Hi En Ex.
      + apply I. rewrite Si. assert (i = 0) as ->.
        { apply nodup_head; [exact N|exact Hi|exact Hg|]. rewrite head_start by exact Gne. auto. }
        unfold ahead in Ex. destruct (Ascii.eqb c NUL); [reflexivity|discriminate].
      + assert (Ad : exists j, j < length g /\ head_at g j = A).
        { apply defined_index. destruct Ha as (r & Hin & <- & _). apply in_map, Hin. }
        destruct Ad as (j & Hj & Ej).
        destruct (Loc _ _ _ _ i j Ha Hi Hj (eq_sym En) Ej) as (Hname & Hcl & Hnx).
        apply (Hcl Hname). exists X. split; [rewrite Hnx; reflexivity|].
        unfold ahead in Ex. destruct (Ascii.eqb_spec c NUL) as [->|Nc]; [discriminate|].
        injection Ex as ->. split; [|exact Nc]. apply (fe_forms _ _ FE).
        * intros Hin. apply (NN _ _ _ _ Ha). simpl. apply in_or_app. left. exact Hin.
        * split; [congruence|auto].
      + assert (Ad : exists j, j < length g /\ head_at g j = A).
        { apply defined_index. destruct Ha as (r & Hin & <- & _). apply in_map, Hin. }
        destruct Ad as (j & Hj & Ej).
        destruct (Nat.eq_dec i j) as [<-|Nij]; [apply IH; congruence|].
        destruct (Loc _ _ _ _ i j Ha Hi Hj (eq_sym En) Ej) as (Hname & Hcl & Hnx).
        destruct (Hcl Hname) as [Hcl1 _]. apply Hcl1; [|exact Nij|].
        * unfold passes_end. rewrite Hnx. exact Logic.I.
        * apply IH; congruence.
      + assert (Ad : exists j, j < length g /\ head_at g j = A).
        { apply defined_index. destruct Ha as (r & Hin & <- & _). apply in_map, Hin. }
        destruct Ad as (j & Hj & Ej).
        destruct (Nat.eq_dec i j) as [<-|Nij]; [apply IH; congruence|].
        destruct (Loc _ _ _ _ i j Ha Hi Hj (eq_sym En) Ej) as (Hname & Hcl & Hnx).
        destruct (Hcl Hname) as [Hcl1 _]. apply Hcl1; [|exact Nij|].
        * unfold passes_end. rewrite Hnx. simpl. apply (fe_forms _ _ FE).
          -- intros Hin. apply (NN _ _ _ _ Ha). simpl. apply in_or_app. left. exact Hin.
          -- split; [auto|]. intros Hc. destruct Hc. reflexivity.
        * apply IH; congruence.
  Qed.
End Exact.
