(** * TGPredict: what a generated parser accepts, text by text. *)
From Verif Require Import Base ByteSet Ast Cst Parser TableGen Spec_Parse Spec_Tree Spec_Grammar Spec_Table
  Spec_ParseTree Spec_Predict Spec_Viable
  ByteSetProofs GrammarProofs ParserProofs TreeProofs ParseApi ParseApi2
  TGFirsts TGFollows TGTable TGMain TGCells TGClosed TGParse TGNames TGTrees TGViable TGHandled TGWords.

Scheme predicted_ind2 := Induction for predicted Sort Prop
with predicteds_ind2 := Induction for predicteds Sort Prop.
Combined Scheme predicted_both from predicted_ind2, predicteds_ind2.

Section Exact.
  Variable g : grammar.
  Variable F : bytes -> option ascii -> Prop.
  Variable tbl : table.
  Hypothesis Nd : NoDup (heads g).
  Hypothesis T : table_spec_wrt F g tbl.
  Variable src : bytes.

  Lemma chosen_not_empty b l ch : selected g b l ch -> ch <> [] -> concat ch <> [].
  Proof.
    intros S N E. destruct ch as [|s ch]; [apply N; reflexivity|]. simpl in E. apply app_eq_nil in E. destruct E as (-> & _).
    destruct (proj1 (selected_in _ _ _ _ [] S) (or_introl eq_refl)) as (_ & Fs). exact (first_nil _ _ Fs).
  Qed.

  Lemma row_cell i r b ops : nth_error g i = Some r -> cell tbl (Z.of_nat i) b ops ->
    exists ch, selected g b (r_tail r) ch /\ operands g (concat ch) ops /\ (ch = [] -> skippable g F r b).
  Proof.
    intros Hr (rw & H1 & H2). destruct (proj2 T i r b Hr) as (rw' & H1' & C). rewrite H1 in H1'. injection H1' as <-.
    rewrite H2 in C. exact C.
  Qed.
  Lemma cell_row i n b ops : nth_error (heads g) i = Some n -> cell tbl (Z.of_nat i) b ops -> exists r, nth_error g i = Some r /\ r_head r = n.
  Proof. intros H _. apply heads_nth, H. Qed.

  Lemma head_nth i r : nth_error g i = Some r -> nth_error (heads g) i = Some (r_head r).
  Proof. intros H. unfold heads. rewrite nth_error_map, H. reflexivity. Qed.

  Lemma operand_row i r x : nth_error g i = Some r -> operand g x (OpNonTerminal (Z.of_nat i)) -> x = SNonTerminal (r_head r).
  Proof.
    intros Hr H. inversion H as [|n j Hj]; subst. assert (j = i) by lia. subst j. apply head_nth in Hr. congruence.
  Qed.

  Lemma derives_predicted_both :
    (forall op p t q, derives tbl src op p t q -> forall x, operand g x op -> predicted g F src x p t q) /\
    (forall ops p ts q, derives_all tbl src ops p ts q -> forall s, operands g s ops -> predicteds g F src s p ts q).
  Proof.
    apply (derives_both tbl src (fun op p t q _ => forall x, operand g x op -> predicted g F src x p t q)
             (fun ops p ts q _ => forall s, operands g s ops -> predicteds g F src s p ts q)).
    - intros t p Ht Ho x Hx. inversion Hx; subst. constructor; assumption.
    - intros p x Hx. inversion Hx; subst. constructor.
    - intros n ops p childs q Hn Hc Hne _ IH x Hx. inversion Hx as [|m i Hi]; subst.
      destruct (heads_nth _ _ _ Hi) as (r & Hr & <-).
      destruct (row_cell i r _ _ Hr Hc) as (ch & S & O & K).
      apply (pr_rule g F src i r ch); [exact Hr|exact S| |apply IH, O].
      intros ->. simpl in O. inversion O; subst. apply Hne. reflexivity.
    - intros n p Hn Hc x Hx. inversion Hx as [|m i Hi]; subst.
      destruct (heads_nth _ _ _ Hi) as (r & Hr & <-).
      destruct (row_cell i r _ _ Hr Hc) as (ch & S & O & K).
      assert (E : ch = []).
      { destruct ch as [|s ch]; [reflexivity|exfalso]. apply (chosen_not_empty _ _ _ S); [discriminate|].
        inversion O as [Hz|]. exact (eq_sym Hz). }
      subst ch. apply (pr_empty g F src i r); auto.
    - intros p _ x Hx. inversion Hx. lia.
    - intros p _ _ x Hx. inversion Hx. lia.
    - intros p s Hs. inversion Hs; subst. constructor.
    - intros op ops p t m ts q _ IH1 _ IH2 s Hs. inversion Hs; subst. econstructor; eauto.
  Qed.

  Lemma predicted_derives_both :
    (forall x p t q, predicted g F src x p t q -> forall op, operand g x op -> derives tbl src op p t q) /\
    (forall s p ts q, predicteds g F src s p ts q -> forall ops, operands g s ops -> derives_all tbl src ops p ts q).
  Proof.
    apply (predicted_both g F src (fun x p t q _ => forall op, operand g x op -> derives tbl src op p t q)
             (fun s p ts q _ => forall ops, operands g s ops -> derives_all tbl src ops p ts q)).
    - intros t p Ht Ho op Hx. inversion Hx; subst. constructor; assumption.
    - intros p op Hx. inversion Hx; subst. constructor.
    - intros i r ch p childs q Hr S N _ IH op Hx. inversion Hx as [|m j Hj]; subst.
      assert (j = i).
      { apply (NoDup_nth_error (heads g)); [exact Nd|eapply nth_error_bound; exact Hj|]. rewrite (head_nth _ _ Hr). exact Hj. }
      subst j. destruct (proj2 T i r (byte_at src p) Hr) as (rw & H1 & C).
      destruct (map_get Ascii.eqb (byte_at src p) rw) as [ops|] eqn:H2.
      + destruct C as (ch' & S' & O & _). rewrite (selected_fun _ _ _ _ _ S' S) in O.
        apply d_nonterminal with (ops := ops); [lia|exists rw; auto| |apply IH, O].
        intros ->. apply (chosen_not_empty _ _ _ S N). inversion O. reflexivity.
      + destruct C as (S' & _). exfalso. apply N. eapply selected_fun; eassumption.
    - intros i r p Hr S K op Hx. inversion Hx as [|m j Hj]; subst.
      assert (j = i).
      { apply (NoDup_nth_error (heads g)); [exact Nd|eapply nth_error_bound; exact Hj|]. rewrite (head_nth _ _ Hr). exact Hj. }
      subst j. destruct (proj2 T i r (byte_at src p) Hr) as (rw & H1 & C).
      destruct (map_get Ascii.eqb (byte_at src p) rw) as [ops|] eqn:H2.
      + destruct C as (ch' & S' & O & _). rewrite (selected_fun _ _ _ _ _ S' S) in O. inversion O; subst.
        apply d_nonterminal_empty; [lia|exists rw; auto].
      + destruct C as (_ & C). destruct (C K).
    - intros p ops Ho. inversion Ho; subst. constructor.
    - intros x s p t m ts q _ IH1 _ IH2 ops Ho. inversion Ho; subst. econstructor; eauto.
  Qed.
End Exact.

(** ** LL(1) grammars *)
Section Words.
  Variable g : grammar.
  Variable tbl : table.
  Hypothesis W : wf_grammar g.
  Hypothesis T : table_spec g tbl.
  Hypothesis L : LL1 g.
  Variable src : bytes.
  Hypothesis Nsrc : ~ In NUL src.
  Let D := ll1_first _ _ L.
  Let CF := follow_closed g.

  Definition foreseen (t : node) : Prop :=
    forall i n p childs, nth_error (heads g) i = Some n ->
      subnode (Node (Z.of_nat i) (Z.of_nat p) (Z.of_nat p) childs) t -> follow_code g n (nth_error src p).

  Lemma next_skipn p : next (skipn p src) = nth_error src p.
  Proof. clear. revert p. induction src as [|c w IH]; intros [|p]; simpl; try reflexivity. apply IH. Qed.

  Lemma gen_slice s p ts q : ptrees g src s p ts q -> gen g (seq_form s) (slice_nat src p q).
  Proof. intros H. apply yields_gen. apply (proj2 (ptree_facts_both g src) _ _ _ _ H). Qed.
  Lemma slice_skipn p q : p <= q -> slice_nat src p q ++ skipn q src = skipn p src.
  Proof.
    intros H. unfold slice_nat. rewrite <- (firstn_skipn (q - p) (skipn p src)) at 2. f_equal.
    rewrite skipn_skipn_add. f_equal. lia.
  Qed.

  Lemma occurs_text p t : p <= length src -> text_of src (Z.of_nat p) (Z.of_nat (p + length t)) = t -> occurs_at src p t.
  Proof.
    intros Hp E i Hi. rewrite text_of_nat in E. rewrite <- E. unfold slice_nat, byte_at.
    rewrite nth_firstn_lt by lia. rewrite nth_skipn. reflexivity.
  Qed.

  Lemma ptree_derives_both :
    (forall x p t q, ptree g src x p t q -> forall op u, operand g x op -> p <= length src ->
       sent g (sym_form x ++ u) -> gen g u (skipn q src) -> foreseen t ->
       derives tbl src op p (collapse t) q) /\
    (forall s p ts q, ptrees g src s p ts q -> forall ops u, operands g s ops -> p <= length src ->
       sent g (seq_form s ++ u) -> gen g u (skipn q src) -> (forall t, In t ts -> foreseen t) ->
       derives_all tbl src ops p (map collapse ts) q).
  Proof.
    apply (ptree_both g src
      (fun x p t q _ => forall op u, operand g x op -> p <= length src ->
         sent g (sym_form x ++ u) -> gen g u (skipn q src) -> foreseen t -> derives tbl src op p (collapse t) q)
      (fun s p ts q _ => forall ops u, operands g s ops -> p <= length src ->
         sent g (seq_form s ++ u) -> gen g u (skipn q src) -> (forall t, In t ts -> foreseen t) ->
         derives_all tbl src ops p (map collapse ts) q)).
    - intros t p Ht E op u Ho Hp _ _ _. inversion Ho; subst. apply d_terminal; [exact Ht|apply occurs_text; assumption].
    - intros p op u Ho. inversion Ho.
    - intros i n s p childs q Hi Ha Hts IH op u Ho Hp Hs Hg Hf. inversion Ho as [|n' j Hj]; subst.
      assert (j = i).
      { apply (NoDup_nth_error (heads g)); [apply W|eapply nth_error_bound; exact Hj|congruence]. }
      subst j. cbn [sym_form app] in Hs.
      destruct (proj2 (ptree_facts_both g src) _ _ _ _ Hts) as (Lpq & _ & B & _). specialize (B Hp).
      unfold mk. cbn [collapse]. replace (0 <=? Z.of_nat i)%Z with true by (symmetry; apply Z.leb_le; lia). cbn [andb].
      destruct (Z.of_nat p =? Z.of_nat q)%Z eqn:E.
      + (* nothing *)
        apply Z.eqb_eq in E. assert (q = p) by lia. subst q.
        assert (Fc : follow_code g n (nth_error src p)).
        { eapply (Hf i n p); [exact Hi|constructor]. }
        rewrite <- next_skipn in Fc.
        assert (Hn : nullable g [NT n]).
        { apply nullable_nt. exists s. split; [exact Ha|]. eapply ptrees_nullable, Hts. }
        pose proof (next_ahead src Nsrc p _ eq_refl) as Hah.
        assert (Fn : follow g n (next (skipn p src))).
        { eapply sent_behind; [exact CF|exact Hs|]. apply behind_next, Hg. }
        assert (NoF : forall s', alternative g n s' -> ~ first g (seq_form s') (byte_at src p)).
        { intros s' Ha' Hf'. assert (Hnz : byte_at src p <> NUL).
          { intros E'. rewrite E' in Hf'. eapply first_alt_nul; [apply wf_nulfree, W|exact Ha'|exact Hf']. }
          unfold ahead in Hah. destruct (Ascii.eqb_spec (byte_at src p) NUL) as [|_]; [contradiction|].
          rewrite <- Hah in Fn. eapply (no_first_nt g (follow g) W L CF); [eapply sent_reachable, Hs|exact Fn|exact Hn|].
          apply first_nt. exists s'. auto. }
        rewrite <- Hah in Fc.
        destruct (cell_total g tbl W T i n (byte_at src p) Hi) as [(ops & Hcell)|(rw & _ & _ & _ & X)].
        * destruct (cell_alternative g tbl W T D _ _ _ _ Hi Hcell) as [(s' & Ha' & Hf' & _)|(-> & _)].
          -- destruct (NoF _ Ha' Hf').
          -- apply d_nonterminal_empty; [lia|exact Hcell].
        * destruct X. auto.
      + apply Z.eqb_neq in E. assert (Hlt : p < q) by lia.
        assert (Hf1 : first g (seq_form s) (byte_at src p)) by (eapply ptrees_first; eassumption).
        destruct (cell_total g tbl W T i n (byte_at src p) Hi) as [(ops & Hcell)|(rw & _ & _ & X & _)].
        * destruct (cell_alternative g tbl W T D _ _ _ _ Hi Hcell) as [(s' & Ha' & Hf' & Hop & Hne)|(_ & _ & _ & X)].
          -- rewrite (alternative_same g (follow g) W L _ _ _ _ Ha' Ha Hf' Hf1) in Hop.
             apply d_nonterminal with (ops := ops); [lia|exact Hcell|exact Hne|].
             apply (IH ops u); [exact Hop|exact Hp|eapply sent_alt; eassumption|exact Hg|].
             intros t Ht i' n' p' c' H1 H2. eapply Hf; [exact H1|]. eapply sub_child; eassumption.
          -- destruct (X s Ha Hf1).
        * destruct (X s Ha Hf1).
    - intros p ops u Ho _ _ _ _. inversion Ho; subst. constructor.
    - intros x s p t m ts q Ht IH1 Hts IH2 ops u Ho Hp Hs Hg Hf. inversion Ho as [|? op ? ops' Hx Hxs]; subst.
      destruct (proj1 (ptree_facts_both g src) _ _ _ _ Ht) as (L1 & _ & _ & B1 & Y1). specialize (B1 Hp).
      destruct (proj2 (ptree_facts_both g src) _ _ _ _ Hts) as (L2 & _ & _ & Y2).
      cbn [seq_form flat_map] in Hs. fold (seq_form s) in Hs. rewrite <- app_assoc in Hs.
      simpl. apply d_cons with (m := m).
      + apply (IH1 op (seq_form s ++ u)); [exact Hx|exact Hp|exact Hs| |apply Hf; left; reflexivity].
        rewrite <- (slice_skipn m q L2). apply gen_app; [apply yields_gen, Y2|exact Hg].
      + apply (IH2 ops' u); [exact Hxs|exact B1| |exact Hg|intros t' Ht'; apply Hf; right; exact Ht'].
        destruct Hs as (v & Y). exists (v ++ chars (slice_nat src p m)).
        eapply yields_trans; [exact Y|]. rewrite <- app_assoc. apply (yields_app g v _ v _); [constructor|].
        apply (yields_app g (sym_form x) _ (chars (slice_nat src p m)) _); [exact Y1|constructor].
  Qed.

  (** An empty node of a parse tree, as a derivation with a gap. *)
  Lemma subnode_mgen i n z ch : nth_error (heads g) i = Some n ->
    (forall x p t q, ptree g src x p t q -> p <= length src -> subnode (Node (Z.of_nat i) (Z.of_nat z) (Z.of_nat z) ch) t ->
       exists w1 w2, mgen g n (sym_form x) w1 w2 /\ slice_nat src p q = w1 ++ w2 /\ z = p + length w1) /\
    (forall s p ts q, ptrees g src s p ts q -> p <= length src -> (exists t, In t ts /\ subnode (Node (Z.of_nat i) (Z.of_nat z) (Z.of_nat z) ch) t) ->
       exists w1 w2, mgen g n (seq_form s) w1 w2 /\ slice_nat src p q = w1 ++ w2 /\ z = p + length w1).
  Proof.
    intros Hi.
    apply (ptree_both g src
      (fun x p t q _ => p <= length src -> subnode (Node (Z.of_nat i) (Z.of_nat z) (Z.of_nat z) ch) t ->
         exists w1 w2, mgen g n (sym_form x) w1 w2 /\ slice_nat src p q = w1 ++ w2 /\ z = p + length w1)
      (fun s p ts q _ => p <= length src -> (exists t, In t ts /\ subnode (Node (Z.of_nat i) (Z.of_nat z) (Z.of_nat z) ch) t) ->
         exists w1 w2, mgen g n (seq_form s) w1 w2 /\ slice_nat src p q = w1 ++ w2 /\ z = p + length w1)).
    - intros t p Ht E Hp H. unfold literal_at, mk in H. inversion H; subst; [lia|contradiction].
    - intros p Hp H. unfold nothing_at, mk in H. inversion H; subst; [lia|contradiction].
    - intros i' n' s p childs q Hi' Ha Hts IH Hp H. unfold mk in H. inversion H as [E|ty p0 q0 cs c Hc Hsub]; subst.
      + assert (i' = i) by lia. assert (p = z) by lia. assert (q = z) by lia. subst.
        assert (n' = n) by congruence. subst n'. exists [], []. split; [|split; [apply slice_empty|simpl; lia]].
        apply mg_here; [|constructor]. apply nullable_nt. exists s. split; [exact Ha|eapply ptrees_nullable, Hts].
      + destruct (IH Hp) as (w1 & w2 & Hm & Es & Ez); [eauto|].
        exists w1, (w2 ++ []). split; [|split; [rewrite app_nil_r; exact Es|exact Ez]].
        simpl. eapply mg_into; [exact Ha|exact Hm|constructor].
    - intros p _ (t & [] & _).
    - intros x s p t m ts q Ht IH1 Hts IH2 Hp (t' & [<-|Hin] & Hsub).
      + destruct (IH1 Hp Hsub) as (w1 & w2 & Hm & Es & Ez).
        destruct (proj1 (ptree_facts_both g src) _ _ _ _ Ht) as (L1 & _).
        destruct (proj2 (ptree_facts_both g src) _ _ _ _ Hts) as (L2 & _).
        exists w1, (w2 ++ slice_nat src m q). split; [|split; [|exact Ez]].
        * cbn [seq_form flat_map]. apply mgen_app_l; [exact Hm|]. eapply gen_slice, Hts.
        * rewrite (slice_split src p m q) by assumption. rewrite Es. symmetry. apply app_assoc.
      + destruct (proj1 (ptree_facts_both g src) _ _ _ _ Ht) as (L1 & _ & _ & B & Y). specialize (B Hp).
        destruct (IH2 B (ex_intro _ t' (conj Hin Hsub))) as (w1 & w2 & Hm & Es & Ez).
        destruct (proj2 (ptree_facts_both g src) _ _ _ _ Hts) as (L2 & _).
        exists (slice_nat src p m ++ w1), w2. split; [|split].
        * cbn [seq_form flat_map]. apply mgen_app_r; [apply yields_gen, Y|exact Hm].
        * rewrite (slice_split src p m q) by assumption. rewrite Es. apply app_assoc.
        * rewrite app_length. unfold slice_nat. rewrite firstn_length, skipn_length. lia.
  Qed.

  Lemma accepted_foreseen t : parse_tree g src t ->
    (exists q, rewrites_star tbl src (0, [Row 0]) (q, [])) -> foreseen t.
  Proof.
    intros Ht (q & R) i n z ch Hi Hsub.
    destruct (proj1 (subnode_mgen i n z ch Hi) _ _ _ _ Ht (Nat.le_0_l _) Hsub) as (w1 & w2 & Hm & Es & Ez).
    unfold slice_nat in Es. rewrite Nat.sub_0_r, firstn_all2 in Es by (simpl; lia). simpl in Es, Ez.
    assert (E : next w2 = nth_error src z).
    { rewrite <- next_skipn, Es, Ez, skipn_app, skipn_all, Nat.sub_diag. reflexivity. }
    rewrite <- E. eapply (run_finds g tbl W T (follow_code_inherits g) L src Nsrc n _ _ R eq_refl [NT (start g)]); cbn [fst snd].
    - constructor; [|constructor]. apply (io_nt g _ 0). pose proof (wf_nonempty _ W). destruct g; [congruence|reflexivity].
    - exists []. constructor.
    - exact Hm.
    - exact Es.
  Qed.

  Lemma foreseen_accepted t : parse_tree g src t -> foreseen t -> derives_text tbl src (collapse t).
  Proof.
    intros Ht Hf. exists (length src). split; [|apply byte_at_out; lia].
    apply (proj1 ptree_derives_both _ _ _ _ Ht _ []); [apply start_operand, W|lia| | |exact Hf].
    - simpl. exists []. constructor.
    - rewrite skipn_all. constructor.
  Qed.
End Words.

(** ** Failures *)
Section Refused.
  Variable g : grammar.
  Variable F : bytes -> option ascii -> Prop.
  Variable tbl : table.
  Hypothesis Nd : NoDup (heads g).
  Hypothesis T : table_spec_wrt F g tbl.
  Variable src : bytes.
  Notation forms := (Forall2 (item_of g)).

  Lemma rewrites_predicts k its c' u : rewrites tbl src (k, its) c' -> forms u its ->
    exists u', predicts g F src (k, u) (fst c', u') /\ forms u' (snd c').
  Proof.
    intros R Fo. inversion R as [c k0 f Hb|z ops k0 f Hz Hc|k0 f Hb|k0 f Hb]; subst;
      inversion Fo as [|x y l l' Hxy Hl]; subst; cbn [fst snd].
    - inversion Hxy; subst. exists l. split; [constructor; reflexivity|exact Hl].
    - inversion Hxy as [|n i Hi]; subst. destruct (heads_nth _ _ _ Hi) as (r & Hr & <-).
      destruct (row_cell g F tbl T i r _ _ Hr Hc) as (ch & S & O & K).
      exists (seq_form (concat ch) ++ l). split; [|apply Forall2_app; [apply operands_items, O|exact Hl]].
      apply pd_rule; [eapply nth_error_In, Hr|exact S|exact K].
    - inversion Hxy as [|n i Hi]. lia.
    - inversion Hxy as [|n i Hi]. lia.
  Qed.
  Lemma rewrites_predicts_star c c' : rewrites_star tbl src c c' -> forall u, forms u (snd c) ->
    exists u', predicts_star g F src (fst c, u) (fst c', u') /\ forms u' (snd c').
  Proof.
    induction 1 as [c|c1 c2 c3 R _ IH]; intros u Fo.
    - exists u. split; [constructor|exact Fo].
    - destruct c1 as (k, its). destruct (rewrites_predicts _ _ _ _ R Fo) as (u' & P & Fo').
      destruct (IH _ Fo') as (u'' & P' & Fo''). exists u''. split; [|exact Fo'']. eapply pds_step; [exact P|exact P'].
  Qed.

  Lemma head_index n i r : nth_error (heads g) i = Some n -> In r g -> r_head r = n -> nth_error g i = Some r.
  Proof.
    intros Hi Hr E. apply In_nth_error in Hr. destruct Hr as (j & Hj).
    assert (i = j); [|subst; exact Hj].
    apply (NoDup_nth_error (heads g)); [exact Nd|eapply nth_error_bound; exact Hi|].
    rewrite (head_nth g _ _ Hj). congruence.
  Qed.

  Lemma predicts_rewrites k u c' its : predicts g F src (k, u) c' -> forms u its ->
    exists its', rewrites tbl src (k, its) (fst c', its') /\ forms (snd c') its'.
  Proof.
    intros P Fo. inversion P as [c k0 f Hb|r ch k0 f Hr S K]; subst;
      inversion Fo as [|x y l l' Hxy Hl]; subst; cbn [fst snd]; inversion Hxy as [|n i Hi]; subst.
    - exists l'. split; [constructor; reflexivity|exact Hl].
    - pose proof (head_index _ _ _ Hi Hr eq_refl) as Hg.
      destruct (proj2 T i r (byte_at src k) Hg) as (rw & H1 & C).
      destruct (map_get Ascii.eqb (byte_at src k) rw) as [ops|] eqn:H2.
      + destruct C as (ch' & S' & O & _). rewrite (selected_fun _ _ _ _ _ S' S) in O.
        exists (items ops ++ l'). split; [apply rw_row; [lia|exists rw; auto]|].
        apply Forall2_app; [apply operands_items, O|exact Hl].
      + exfalso. destruct C as (S' & C). apply C, K. eapply selected_fun; eassumption.
  Qed.
  Lemma predicts_rewrites_star c c' : predicts_star g F src c c' -> forall its, forms (snd c) its ->
    exists its', rewrites_star tbl src (fst c, its) (fst c', its') /\ forms (snd c') its'.
  Proof.
    induction 1 as [c|c1 c2 c3 R _ IH]; intros its Fo.
    - exists its. split; [constructor|exact Fo].
    - destruct c1 as (k, u). destruct (predicts_rewrites _ _ _ _ R Fo) as (its' & P & Fo').
      destruct (IH _ Fo') as (u'' & P' & Fo''). exists u''. split; [|exact Fo'']. econstructor; [exact P|exact P'].
  Qed.

  Lemma none_selected b l : selected g b l [] <-> (forall s, In s l -> ~ first g (seq_form s) b).
  Proof.
    split.
    - intros S s Hs Hf. destruct (proj2 (selected_in _ _ _ _ s S) (conj Hs Hf)).
    - induction l as [|s l IH]; intros H; [constructor|]. apply sel_skip; [apply H; left; reflexivity|].
      apply IH. intros s' Hs'. apply H. right. exact Hs'.
  Qed.

  Variable m : list (Z * bytes).
  Variable label : bytes -> bytes -> Prop.
  Hypothesis Nm : forall i n, nth_error (heads g) i = Some n ->
    exists l, row_name (Some m) (Z.of_nat i) = l /\ label n l.
  Hypothesis Nf : forall n l l', label n l -> label n l' -> l = l'.

  Lemma stuck_no_step k its u e : stuck tbl src (Some m) k its e -> forms u its -> no_step g F label src k u e.
  Proof.
    intros S Fo. destruct S as [c f Hb|z f Hz H1|z r f Hz H1 H2|f H1 H2|z f H1 H2|Hb];
      inversion Fo as [|x y l l' Hxy Hl]; subst.
    - inversion Hxy; subst. constructor. exact Hb.
    - exfalso. inversion Hxy as [|n i Hi]; subst. destruct (heads_nth _ _ _ Hi) as (r & Hr & <-).
      destruct (proj2 T i r NUL Hr) as (rw & H & _). congruence.
    - inversion Hxy as [|n i Hi]; subst. destruct (heads_nth _ _ _ Hi) as (r' & Hr & <-).
      destruct (proj2 T i r' (byte_at src k) Hr) as (rw & H & C). rewrite H1 in H. injection H as <-. rewrite H2 in C.
      destruct C as (C & K). destruct (Nm _ _ Hi) as (nm & El & Hl'). rewrite El.
      apply ns_rule; [eapply nth_error_In, Hr|apply none_selected, C|exact K|exact Hl'].
    - inversion Hxy as [|n i Hi]. lia.
    - inversion Hxy as [|n i Hi]. lia.
    - constructor. exact Hb.
  Qed.
  Lemma no_step_stuck k its u e : no_step g F label src k u e -> forms u its -> stuck tbl src (Some m) k its e.
  Proof.
    intros S Fo. destruct S as [c f Hb|r nm f Hr H1 H2 H3|Hb]; inversion Fo as [|x y l l' Hxy Hl]; subst.
    - inversion Hxy; subst. constructor. exact Hb.
    - inversion Hxy as [|n i Hi]; subst. pose proof (head_index _ _ _ Hi Hr eq_refl) as Hg.
      destruct (proj2 T i r (byte_at src k) Hg) as (rw & H & C).
      destruct (map_get Ascii.eqb (byte_at src k) rw) as [ops|] eqn:E.
      + exfalso. destruct C as (ch & S & _ & K). apply none_selected in H1.
        apply H2, K. eapply selected_fun; eassumption.
      + pose proof (st_no_cell tbl src (Some m) k (Z.of_nat i) rw l' (Zle_0_nat _) H E) as X.
        destruct (Nm _ _ Hi) as (nm' & El & Hl'). rewrite El, (Nf _ _ _ Hl' H3) in X. exact X.
    - constructor. exact Hb.
  Qed.

  Lemma refuses_refused k e : g <> [] -> refuses tbl src (Some m) k e <-> refused g F label src k e.
  Proof.
    intros Ne.
    assert (F0 : forms [NT (start g)] [Row 0]).
    { constructor; [|constructor]. apply (io_nt g _ 0). destruct g; [congruence|reflexivity]. }
    split.
    - intros (f & R & S). destruct (rewrites_predicts_star _ _ R _ F0) as (u & P & Fo).
      exists u. split; [exact P|]. eapply stuck_no_step; eassumption.
    - intros (u & P & S). destruct (predicts_rewrites_star _ _ P _ F0) as (f & R & Fo).
      exists f. split; [exact R|]. eapply no_step_stuck; eassumption.
  Qed.
End Refused.

Lemma step_or_stop tbl src names k form :
  (exists c, rewrites tbl src (k, form) c) \/
  (form = [] /\ byte_at src k = NUL) \/ exists e, stuck tbl src names k form e.
Proof.
  destruct form as [|[n|c] form].
  - right. destruct (ascii_dec (byte_at src k) NUL) as [E|N]; [left; auto|right; eexists; constructor; exact N].
  - destruct (Z_lt_le_dec n 0) as [Hn|Hn].
    + destruct (Z.eq_dec n (-2)) as [->|N2]; [|right; right; eexists; apply st_builtin; assumption].
      destruct (ascii_dec (byte_at src k) LF) as [E|N1]; [left; eexists; apply rw_eol_lf, E|].
      destruct (ascii_dec (byte_at src k) CR) as [E|N3]; [left; eexists; apply rw_eol_cr, E|].
      right. right. eexists. apply st_eol; assumption.
    + destruct (map_get Z.eqb n tbl) as [rw|] eqn:E1; [|right; right; eexists; apply st_no_row; assumption].
      destruct (map_get Ascii.eqb (byte_at src k) rw) as [ops|] eqn:E2.
      * left. eexists. apply rw_row; [exact Hn|]. exists rw. split; eassumption.
      * right. right. eexists. eapply st_no_cell; eassumption.
  - destruct (ascii_dec (byte_at src k) c) as [E|N]; [left; eexists; apply rw_byte, E|].
    right. right. eexists. constructor. exact N.
Qed.

Lemma no_step_final g F label src k u e : NoDup (heads g) -> no_step g F label src k u e -> forall c, ~ predicts g F src (k, u) c.
Proof.
  intros Nd S c P. destruct S as [b u Hb|r l u Hr H1 H2 H3|Hb]; inversion P as [b' k' u' Hb'|r' ch k' u' Hr' S K]; subst.
  - apply Hb. reflexivity.
  - assert (r' = r) by (eapply rule_unique; [exact Nd|exact Hr'|exact Hr|congruence]). subst r'.
    destruct ch as [|s ch]; [apply H2, K; reflexivity|].
    destruct (proj1 (selected_in _ _ _ _ s S) (or_introl eq_refl)) as (A & B). exact (H1 _ A B).
Qed.
