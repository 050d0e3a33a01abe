(** * Props_Reading: property C55, ToAST on arbitrary trees and bindings.

    Reading guide: [ToAST b root str] is the call b.ToAST(root, str);
    [reads_grammar] and [fails_grammar] are the inference rules of
    Spec_Reading.v. *)
From Verif Require Import Base Cst Ast Parser FromCst Spec_Tree Spec_Convert Spec_Reading WalkProofs
  ConvertProofs.

(** ** Results of the converter against a relation *)

Definition agrees {A} (x : node -> fcres A) (reads : node -> A -> Prop) (fails : node -> fcerror -> Prop)
  : Prop :=
  (forall n v, x n = Ok v <-> reads n v) /\ (forall n e, x n = Err e <-> fails n e).

Lemma collect_agrees {A} (x : node -> fcres A) reads fails : agrees x reads fails ->
  (forall l v, collect x l = Ok v <-> Forall2 reads l v) /\
  (forall l e, collect x l = Err e <-> fails_in reads fails l e).
Proof.
  intros [R E]. assert (K : forall l v, collect x l = Ok v <-> Forall2 reads l v).
  { induction l as [|n l IH]; intros v; cbn [collect].
    - split; [intros H; injection H as <-; constructor|intros H; inversion H; reflexivity].
    - split.
      + destruct (x n) as [a|e|p|] eqn:Ex; try discriminate. cbn [gobind].
        destruct (collect x l) as [vs|e|p|] eqn:Ec; try discriminate. cbn [gobind].
        intros H. injection H as <-. constructor; [apply R, Ex|apply IH; reflexivity].
      + intros H. inversion H as [|n0 a l0 vs H1 H2]; subst. apply R in H1. apply IH in H2.
        rewrite H1. cbn [gobind]. rewrite H2. reflexivity. }
  split; [exact K|]. induction l as [|n l IH]; intros e; cbn [collect].
  - split; [discriminate|]. intros (l1 & m & l2 & v & H & _). destruct l1; discriminate.
  - split.
    + destruct (x n) as [a|e'|p|] eqn:Ex; try discriminate.
      * cbn [gobind]. destruct (collect x l) as [vs|e'|p|] eqn:Ec; try discriminate.
        cbn [gobind]. intros H. injection H as ->.
        destruct (proj1 (IH e) eq_refl) as (l1 & m & l2 & v & -> & F & Fm).
        exists (n :: l1), m, l2, (a :: v). split; [reflexivity|]. split; [|exact Fm].
        constructor; [apply R, Ex|exact F].
      * cbn [gobind]. intros H. injection H as ->. exists [], n, l, []. split; [reflexivity|].
        split; [constructor|apply E, Ex].
    + intros (l1 & m & l2 & v & H & F & Fm). destruct l1 as [|n1 l1].
      * injection H as -> ->. apply E in Fm. rewrite Fm. reflexivity.
      * injection H as -> ->. inversion F as [|n0 a l0 vs H1 H2]; subst. apply R in H1.
        rewrite H1. cbn [gobind].
        rewrite (proj2 (IH e)); [reflexivity|]. exists l1, m, l2, vs. auto.
Qed.

Section Reading.
  Variable b : bindings.
  Variable str : bytes.
  Let sb := sort_bindings b.

  Lemma nodes_with_found n ty : nodes_with sb n ty = found b n ty.
  Proof.
    unfold nodes_with, found. apply outermost_ext; [|reflexivity].
    intros t. apply isNodeIgnored_listed.
  Qed.

  Lemma text_spec n s : text str n = Ok s <-> has_text str n s.
  Proof.
    unfold text, nodeName, slice, has_text, inside, text_of.
    destruct ((0 <=? n_pos n) && (n_pos n <=? n_end n) && (n_end n <=? Z.of_nat (length str)))%Z eqn:C; cbn [lift].
    - rewrite !andb_true_iff in C. split.
      + intros H. injection H as <-. split; [lia|reflexivity].
      + intros [_ ->]. reflexivity.
    - split; [discriminate|]. intros [H _].
      assert (X : ((0 <=? n_pos n) && (n_pos n <=? n_end n) && (n_end n <=? Z.of_nat (length str)))%Z = true)
        by (rewrite !andb_true_iff; lia).
      congruence.
  Qed.
  Lemma text_no_err n e : text str n <> Err e.
  Proof. unfold text, nodeName, slice. destruct (_ && _ && _)%bool; discriminate. Qed.

  Lemma bind_text {A} n (f : bytes -> fcres A) r : (forall p, r <> Panic p) -> r <> NoFuel ->
    (gobind (text str n) f = r <-> exists s, has_text str n s /\ f s = r).
  Proof.
    intros N1 N2. split.
    - destruct (text str n) as [s|e|p|] eqn:E; cbn [gobind]; intros H.
      + exists s. split; [apply text_spec, E|exact H].
      + destruct (text_no_err _ _ E).
      + destruct (N1 p). auto.
      + destruct N2. auto.
    - intros (s & Hs & <-). apply text_spec in Hs. rewrite Hs. reflexivity.
  Qed.

  Lemma first_found_inv n ty m l : found b n ty = m :: l -> forall m', first_found b n ty m' <-> m' = m.
  Proof.
    intros E m'. unfold first_found. rewrite E. split.
    - intros (l' & H). congruence.
    - intros ->. exists l. reflexivity.
  Qed.
  Lemma has_text_fun n s s' : has_text str n s -> has_text str n s' -> s = s'.
  Proof. intros [_ ->] [_ ->]. reflexivity. Qed.

  Lemma escape_agrees n :
    (forall v, parseEscape sb str n = Ok v <-> reads_escape b str n v) /\
    (forall e, parseEscape sb str n = Err e <->
       (found b n (EscapeCharacterType b) = [] /\ e = EEscapeNotFound) \/
       exists c s, first_found b n (EscapeCharacterType b) c /\ has_text str c s /\
         map_get bytes_eqb s (EscapeMapping b) = None /\ e = EUnknownEscape s).
  Proof.
    rewrite parseEscape_eq, nodes_with_found. change (EscapeCharacterType sb) with (EscapeCharacterType b).
    change (EscapeMapping sb) with (EscapeMapping b). unfold reads_escape.
    destruct (found b n (EscapeCharacterType b)) as [|c l] eqn:Ef.
    - split.
      + intros v. split; [discriminate|]. intros (c & s & (l & H) & _). congruence.
      + intros e. split.
        * intros H. injection H as <-. left. auto.
        * intros [[_ ->]|(c & s & (l & H) & _)]; [reflexivity|congruence].
    - pose proof (first_found_inv _ _ _ _ Ef) as FF. split.
      + intros v. rewrite bind_text; [|discriminate|discriminate]. split.
        * intros (s & Hs & H). exists c, s. rewrite FF. split; [reflexivity|]. split; [exact Hs|].
          destruct (map_get bytes_eqb s (EscapeMapping b)); [congruence|discriminate].
        * intros (c' & s & H & Hs & Hm). apply FF in H. subst c'. exists s. split; [exact Hs|].
          rewrite Hm. reflexivity.
      + intros e. rewrite bind_text; [|discriminate|discriminate]. split.
        * intros (s & Hs & H). right. exists c, s. rewrite FF. split; [reflexivity|]. split; [exact Hs|].
          destruct (map_get bytes_eqb s (EscapeMapping b)); [discriminate|]. split; congruence.
        * intros [[H _]|(c' & s & H & Hs & Hm & ->)]; [discriminate|]. apply FF in H. subst c'.
          exists s. split; [exact Hs|]. rewrite Hm. reflexivity.
  Qed.

  Lemma part_agrees : agrees (piece sb str) (reads_part b str) (fails_part b str).
  Proof.
    split; intros n; unfold piece; destruct (Z.eqb_spec (n_type n) (-1)) as [T|T].
    - intros v. rewrite text_spec. unfold reads_part. tauto.
    - intros v. rewrite (proj1 (escape_agrees n)). unfold reads_part. tauto.
    - intros e. split; [intros H; destruct (text_no_err _ _ H)|]. intros H. destruct H; contradiction.
    - intros e. rewrite (proj2 (escape_agrees n)). split.
      + intros [[H ->]|(c & s & H1 & H2 & H3 & ->)]; [constructor; assumption|econstructor; eassumption].
      + intros H. destruct H; [left; auto|right; eauto 8].
  Qed.

  Lemma terminal_agrees :
    agrees (parseTerminalName sb str) (reads_terminal b str)
      (fun n => fails_in (reads_part b str) (fails_part b str) (parts n)).
  Proof.
    destruct (collect_agrees _ _ _ part_agrees) as [K1 K2].
    split; intros n; [intros v|intros e]; rewrite parseTerminalName_eq; fold (parts n).
    - unfold reads_terminal. change (pieces_of n) with (parts n). split.
      + destruct (collect (piece sb str) (parts n)) as [vs|e|p|] eqn:E; try discriminate.
        cbn [gobind]. intros H. injection H as <-. exists vs. split; [apply K1, E|reflexivity].
      + intros (vs & H & ->). apply K1 in H. rewrite H. reflexivity.
    - rewrite <- K2. change (pieces_of n) with (parts n).
      destruct (collect (piece sb str) (parts n)) as [vs|e'|p|]; cbn [gobind]; split; intros H; try discriminate; injection H as ->; reflexivity.
  Qed.

  Lemma first_of_types_spec n l :
    match first_of_types sb l n with
    | Some m => forall m', first_of b l n m' <-> m' = m
    | None => none_of b l n
    end.
  Proof.
    induction l as [|t l IH]; cbn [first_of_types]; [intros t []|].
    rewrite nodes_with_found. destruct (found b n t) as [|m k] eqn:Ef.
    - destruct (first_of_types sb l n) as [m|].
      + intros m'. rewrite <- IH. unfold first_of. split.
        * intros (l1 & t0 & l2 & H & Hn & Hf). destruct l1 as [|x l1]; injection H as -> ->.
          -- destruct Hf as (k & Hf). congruence.
          -- exists l1, t0, l2. split; [reflexivity|]. split; [intros t' H'; apply Hn; right; exact H'|exact Hf].
        * intros (l1 & t0 & l2 & -> & Hn & Hf). exists (t :: l1), t0, l2. split; [reflexivity|].
          split; [|exact Hf]. intros t' [<-|H']; [exact Ef|apply Hn, H'].
      + intros t' [<-|H']; [exact Ef|apply IH, H'].
    - intros m'. split.
      + intros (l1 & t0 & l2 & H & Hn & Hf). destruct l1 as [|x l1]; injection H as -> ->.
        * apply (first_found_inv _ _ _ _ Ef), Hf.
        * specialize (Hn x (or_introl eq_refl)). congruence.
      + intros ->. exists [], t, l. split; [reflexivity|]. split; [intros t' []|].
        exists k. exact Ef.
  Qed.
  Lemma first_none_of n l m : first_of b l n m -> none_of b l n -> False.
  Proof.
    intros (l1 & t & l2 & -> & _ & (k & H)) N. rewrite (N t) in H; [discriminate|].
    apply in_or_app. right. left. reflexivity.
  Qed.

  Lemma symbol_agrees : agrees (parseSymbol sb str) (reads_symbol b str) (fails_symbol b str).
  Proof.
    destruct terminal_agrees as [K1 K2].
    split; intros n; [intros v|intros e]; rewrite parseSymbol_eq;
      change (SymbolTerminalTypes sb) with (SymbolTerminalTypes b);
      pose proof (first_of_types_spec n (SymbolTerminalTypes b)) as FT;
      destruct (first_of_types sb (SymbolTerminalTypes b) n) as [m|].
    - split.
      + destruct (parseTerminalName sb str m) as [s|e|p|] eqn:E; try discriminate. cbn [gobind].
        intros H. injection H as <-. apply K1 in E. unfold terminal_symbol. destruct s as [|c s].
        * apply rs_nothing with m; [apply FT; reflexivity|exact E].
        * apply rs_terminal with m; [apply FT; reflexivity|exact E|discriminate].
      + intros H. destruct H as [m' s Hm Hs Hne|m' Hm Hs|m' s Hm _ _].
        * apply FT in Hm. subst m'. apply K1 in Hs. rewrite Hs. cbn [gobind]. destruct s; [congruence|reflexivity].
        * apply FT in Hm. subst m'. apply K1 in Hs. rewrite Hs. reflexivity.
        * exfalso. eapply first_none_of; [apply FT; reflexivity|exact Hm].
    - rewrite nodes_with_found. change (SymbolNonTerminalType sb) with (SymbolNonTerminalType b).
      destruct (found b n (SymbolNonTerminalType b)) as [|m l] eqn:Ef.
      + rewrite bind_text; [|discriminate|discriminate]. split; [intros (s & _ & H); discriminate|].
        intros H. destruct H as [m' s Hm Hs Hne|m' Hm Hs|m' s Hm (k & Hk) _].
        * destruct (first_none_of _ _ _ Hm FT).
        * destruct (first_none_of _ _ _ Hm FT).
        * congruence.
      + rewrite bind_text; [|discriminate|discriminate]. split.
        * intros (s & Hs & H). injection H as <-. apply rs_nonterminal with m; [exact FT|exists l; exact Ef|exact Hs].
        * intros H. destruct H as [m' s Hm Hs Hne|m' Hm Hs|m' s Hm Hk Hs].
          -- destruct (first_none_of _ _ _ Hm FT).
          -- destruct (first_none_of _ _ _ Hm FT).
          -- apply (first_found_inv _ _ _ _ Ef) in Hk. subst m'. exists s. auto.
    - split.
      + destruct (parseTerminalName sb str m) as [s|e'|p|] eqn:E; try discriminate. cbn [gobind].
        intros H. injection H as <-. apply K2 in E. apply fs_terminal with m; [apply FT; reflexivity|exact E].
      + intros H. destruct H as [m' e Hm He|s Hm _ _].
        * apply FT in Hm. subst m'. apply K2 in He. rewrite He. reflexivity.
        * exfalso. eapply first_none_of; [apply FT; reflexivity|exact Hm].
    - rewrite nodes_with_found. change (SymbolNonTerminalType sb) with (SymbolNonTerminalType b).
      destruct (found b n (SymbolNonTerminalType b)) as [|m l] eqn:Ef.
      + rewrite bind_text; [|discriminate|discriminate]. split.
        * intros (s & Hs & H). injection H as <-. apply fs_unknown; assumption.
        * intros H. destruct H as [m' e Hm He|s Hm _ Hs]; [destruct (first_none_of _ _ _ Hm FT)|].
          exists s. auto.
      + rewrite bind_text; [|discriminate|discriminate]. split; [intros (s & _ & H); discriminate|].
        intros H. destruct H as [m' e Hm He|s Hm Hk Hs]; [destruct (first_none_of _ _ _ Hm FT)|congruence].
  Qed.

  Lemma sequence_agrees : agrees (parseSequence sb str) (reads_sequence b str) (fails_sequence b str).
  Proof.
    destruct (collect_agrees _ _ _ symbol_agrees) as [K1 K2].
    split; intros n; [intros v|intros e]; rewrite parseSequence_eq, nodes_with_found; [apply K1|apply K2].
  Qed.
  Lemma alternatives_agree :
    agrees (parseSubstitution sb str) (reads_alternatives b str) (fails_alternatives b str).
  Proof.
    destruct (collect_agrees _ _ _ sequence_agrees) as [K1 K2].
    split; intros n; [intros v|intros e]; rewrite parseSubstitution_eq, nodes_with_found; [apply K1|apply K2].
  Qed.

  Lemma rule_agrees : agrees (parseRule sb str) (reads_rule b str) (fails_rule b str).
  Proof.
    destruct alternatives_agree as [K1 K2].
    split; intros n; [intros v|intros e]; rewrite parseRule_eq, !nodes_with_found;
      change (RuleHeadType sb) with (RuleHeadType b); change (RuleTailType sb) with (RuleTailType b);
      destruct (found b n (RuleHeadType b)) as [|h l] eqn:Eh.
    - rewrite bind_text; [|discriminate|discriminate]. split; [intros (s & _ & H); discriminate|].
      intros (h & t & (l & H) & _). congruence.
    - rewrite bind_text; [|discriminate|discriminate]. pose proof (first_found_inv _ _ _ _ Eh) as FH.
      destruct (found b n (RuleTailType b)) as [|t l'] eqn:Et.
      + split.
        * intros (s & _ & H). rewrite bind_text in H; [|discriminate|discriminate].
          destruct H as (s' & _ & H). discriminate.
        * intros (h' & t & _ & _ & (l' & H) & _). congruence.
      + pose proof (first_found_inv _ _ _ _ Et) as FT. split.
        * intros (s & Hs & H). destruct (parseSubstitution sb str t) as [tl|e|p|] eqn:E; try discriminate.
          cbn [gobind] in H. injection H as <-. exists h, t. rewrite FH, FT. cbn [r_head r_tail].
          split; [reflexivity|]. split; [exact Hs|]. split; [reflexivity|apply K1, E].
        * intros (h' & t' & H1 & Hs & H2 & H3). apply FH in H1. apply FT in H2. subst h' t'.
          exists (r_head v). split; [exact Hs|]. apply K1 in H3. rewrite H3. destruct v. reflexivity.
    - rewrite bind_text; [|discriminate|discriminate]. split.
      + intros (s & Hs & H). injection H as <-. apply fr_no_head; assumption.
      + intros H. destruct H as [s _ Hs|h name s (l & H) _ _ _|h name t e (l & H) _ _ _]; [|congruence|congruence].
        exists s. auto.
    - rewrite bind_text; [|discriminate|discriminate]. pose proof (first_found_inv _ _ _ _ Eh) as FH.
      destruct (found b n (RuleTailType b)) as [|t l'] eqn:Et.
      + split.
        * intros (s & Hs & H). rewrite bind_text in H; [|discriminate|discriminate].
          destruct H as (s' & Hs' & H). injection H as <-.
          apply fr_no_tail with h s; [apply FH; reflexivity|exact Hs|exact Et|exact Hs'].
        * intros H. destruct H as [s H _|h' name s H1 Hs _ Hs'|h' name t e _ _ (l' & H) _]; [congruence| |congruence].
          apply FH in H1. subst h'. exists name. split; [exact Hs|].
          apply bind_text; [discriminate|discriminate|]. exists s. auto.
      + pose proof (first_found_inv _ _ _ _ Et) as FT. split.
        * intros (s & Hs & H). destruct (parseSubstitution sb str t) as [tl|e'|p|] eqn:E; try discriminate.
          cbn [gobind] in H. injection H as <-. apply K2 in E.
          apply fr_tail with h s t; [apply FH; reflexivity|exact Hs|apply FT; reflexivity|exact E].
        * intros H. destruct H as [s H _|h' name s _ _ H _|h' name t' e H1 Hs H2 H3]; [congruence|congruence|].
          apply FH in H1. apply FT in H2. subst h' t'. exists name. split; [exact Hs|].
          apply K2 in H3. rewrite H3. reflexivity.
  Qed.
End Reading.

(** ** C55 *)

(** ToAST returns exactly the grammar the tree describes ... *)
Theorem C55_reads :
  forall b root str g, ToAST b root str = Ok g <-> reads_grammar b str root g.
Proof.
  intros b root str g. unfold ToAST. rewrite ToAST_sorted_eq, nodes_with_found.
  apply (collect_agrees _ _ _ (rule_agrees b str)).
Qed.
Print Assumptions C55_reads.

(** ... and exactly the error of the first thing that cannot be read. *)
Theorem C55_fails :
  forall b root str e, ToAST b root str = Err e <-> fails_grammar b str root e.
Proof.
  intros b root str g. unfold ToAST. rewrite ToAST_sorted_eq, nodes_with_found.
  apply (collect_agrees _ _ _ (rule_agrees b str)).
Qed.
Print Assumptions C55_fails.

(** Otherwise it panics, slicing the text at a node that lies outside it. *)
Definition slicing {X} (r : fcres X) : Prop := match r with Panic p => p = PanicSlice | NoFuel => False | _ => True end.
Lemma slicing_bind {X Y} (x : fcres X) (f : X -> fcres Y) :
  slicing x -> (forall a, slicing (f a)) -> slicing (gobind x f).
Proof. destruct x; cbn; auto. Qed.
Lemma slicing_text str n : slicing (text str n).
Proof. unfold text, nodeName, slice. destruct (_ && _ && _)%bool; [exact I|reflexivity]. Qed.
Lemma slicing_collect {X} (h : node -> fcres X) l : (forall n, slicing (h n)) -> slicing (collect h l).
Proof.
  intros H. induction l as [|n l IH]; [exact I|]. cbn. apply slicing_bind; [apply H|].
  intros x. apply slicing_bind; [exact IH|]. intros xs. exact I.
Qed.
Lemma slicing_escape b str n : slicing (parseEscape b str n).
Proof.
  rewrite parseEscape_eq. destruct (nodes_with b n (EscapeCharacterType b)) as [|c l]; [exact I|].
  apply slicing_bind; [apply slicing_text|]. intros a. destruct (map_get bytes_eqb a _); exact I.
Qed.
Lemma slicing_terminal b str n : slicing (parseTerminalName b str n).
Proof.
  rewrite parseTerminalName_eq. apply slicing_bind; [apply slicing_collect|intros a; exact I].
  intros m. unfold piece. destruct (n_type m =? -1)%Z; [apply slicing_text|apply slicing_escape].
Qed.
Lemma slicing_symbol b str n : slicing (parseSymbol b str n).
Proof.
  rewrite parseSymbol_eq. destruct (first_of_types b _ n) as [m|].
  - apply slicing_bind; [apply slicing_terminal|]. intros a; exact I.
  - destruct (nodes_with b n (SymbolNonTerminalType b)) as [|m l];
      (apply slicing_bind; [apply slicing_text|intros a; exact I]).
Qed.
Lemma slicing_alternatives b str n : slicing (parseSubstitution b str n).
Proof.
  rewrite parseSubstitution_eq. apply slicing_collect. intros m. rewrite parseSequence_eq.
  apply slicing_collect, slicing_symbol.
Qed.
Lemma slicing_rule b str n : slicing (parseRule b str n).
Proof.
  rewrite parseRule_eq. destruct (nodes_with b n (RuleHeadType b)) as [|h l].
  - apply slicing_bind; [apply slicing_text|intros a; exact I].
  - apply slicing_bind; [apply slicing_text|]. intros a.
    destruct (nodes_with b n (RuleTailType b)) as [|e l'].
    + apply slicing_bind; [apply slicing_text|intros x; exact I].
    + apply slicing_bind; [apply slicing_alternatives|intros x; exact I].
Qed.

Lemma inside_dec str n : {inside str n} + {~ inside str n}.
Proof.
  unfold inside.
  destruct (Z_le_dec 0 (n_pos n)), (Z_le_dec (n_pos n) (n_end n)), (Z_le_dec (n_end n) (Z.of_nat (length str)));
    (left; lia) || (right; lia).
Qed.
Lemma outside_or str root :
  (forall m, subnode m root -> inside str m) \/ (exists m, subnode m root /\ ~ inside str m).
Proof.
  induction root as [ty p q childs IH] using node_ind'.
  destruct (inside_dec str (Node ty p q childs)) as [H|H].
  - assert (K : (forall c, In c childs -> forall m, subnode m c -> inside str m) \/
                exists c m, In c childs /\ subnode m c /\ ~ inside str m).
    { clear H. induction IH as [|c l Hc _ IHl]; [left; intros c []|].
      destruct Hc as [Hc|(m & Hm & N)].
      - destruct IHl as [Hl|(c' & m & H1 & H2 & H3)].
        + left. intros c' [<-|H]; [exact Hc|apply Hl, H].
        + right. exists c', m. split; [right; exact H1|auto].
      - right. exists c, m. split; [left; reflexivity|auto]. }
    destruct K as [K|(c & m & H1 & H2 & H3)].
    + left. intros m Hm. inversion Hm as [|? ? ? ? c Hc Hs]; subst; [exact H|eapply K; eassumption].
    + right. exists m. split; [econstructor; eassumption|exact H3].
  - right. exists (Node ty p q childs). split; [constructor|exact H].
Qed.

Theorem C55_panics :
  forall b root str,
    (exists g, reads_grammar b str root g) \/ (exists e, fails_grammar b str root e) \/
    (ToAST b root str = Panic PanicSlice /\ exists m, subnode m root /\ ~ inside str m).
Proof.
  intros b root str.
  destruct (ToAST b root str) as [g|e|p|] eqn:E.
  - left. exists g. apply C55_reads, E.
  - right. left. exists e. apply C55_fails, E.
  - right. right. assert (S : slicing (ToAST b root str)).
    { unfold ToAST. rewrite ToAST_sorted_eq. apply slicing_collect, slicing_rule. }
    rewrite E in S. simpl in S. subst p. split; [reflexivity|].
    destruct (outside_or str root) as [H|H]; [|exact H].
    pose proof (ToAST_returns b root str H) as R. rewrite E in R. destruct R.
  - exfalso. assert (S : slicing (ToAST b root str)).
    { unfold ToAST. rewrite ToAST_sorted_eq. apply slicing_collect, slicing_rule. }
    rewrite E in S. exact S.
Qed.
Print Assumptions C55_panics.

(** A tree with two rules, the second with an unknown escape sequence. *)
Definition two_rules (q : Z) : node :=
  Node 0 0 4
    [Node 4 0 1 [Node 18 0 1 []; Node 5 1 1 [Node 7 1 1 [Node 9 1 1 [Node 12 1 1 []]]]];
     Node 4 1 4 [Node 18 1 2 []; Node 5 2 4 [Node 7 2 4 [Node 9 2 4
       [Node 11 2 4 [Node 16 2 4 [Node (-1) 2 3 []; Node 17 3 q []]]]]]]].
Example C55_case_reads :
  reads_grammar SelfCSTtoASTBindings (s2b "ab\n") (two_rules 4)
    [mkRule (s2b "a") [[SNothing]]; mkRule (s2b "b") [[STerminal [LF]]]].
Proof. apply C55_reads. vm_compute. reflexivity. Qed.
Example C55_case_fails :
  fails_grammar SelfCSTtoASTBindings (s2b "ab\x") (two_rules 4) (EUnknownEscape (s2b "x")).
Proof. apply C55_fails. vm_compute. reflexivity. Qed.
Example C55_case_panics : ToAST SelfCSTtoASTBindings (two_rules 5) (s2b "ab\n") = Panic PanicSlice.
Proof. vm_compute. reflexivity. Qed.
