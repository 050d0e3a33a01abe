(** * TGWords: which words a generated parser accepts, without assuming that
    every rule derives some string. *)
From Verif Require Import Base ByteSet Ast Cst Parser TableGen Spec_Parse Spec_Tree Spec_Grammar Spec_Table Spec_Viable
  ByteSetProofs GrammarProofs ParserProofs TreeProofs ParseApi ParseApi2
  TGFirsts TGFollows TGTable TGMain TGCells TGClosed TGParse TGCheck Props_Parser Props_TableGen TGViable TGHandled.

Section Words.
  Variable g : grammar.
  Variable tbl : table.
  Context {FC : bytes -> option ascii -> Prop}.
  Hypothesis W : wf_grammar g.
  Hypothesis T : table_spec_wrt FC g tbl.
  Hypothesis L : LL1 g.
  Hypothesis Sub : forall n x, nullable g [NT n] -> follows_in_word g n x -> FC n x.
  Variable src : bytes.
  Hypothesis Nsrc : ~ In NUL src.
  Let D := ll1_first _ _ L.
  Let CF := follow_closed g.

  Lemma gen_accepts u w : gen g u w -> forall its k rest form p wp v,
    Forall2 (item_of g) u its -> skipn k src = w ++ rest ->
    yields g [NT (start g)] (p ++ u ++ v) -> gen g p wp -> gen g v rest ->
    rewrites_star tbl src (k, its ++ form) (k + length w, form).
  Proof.
    induction 1 as [|c u w Hu IH|n s u w1 w2 Ha Hg1 IH1 Hg2 IH2]; intros its k rest form p wp v Hi Hk Hy Hp Hv.
    - inversion Hi; subst. simpl. rewrite Nat.add_0_r. constructor.
    - inversion Hi as [|a b l l' Hab Hl]; subst. inversion Hab; subst. simpl.
      econstructor; [apply rw_byte; apply (skipn_byte src _ _ _ Hk)|].
      replace (k + S (length w)) with (S k + length w) by lia.
      eapply (IH l' (S k) rest form (p ++ [Ch c]) (wp ++ [c]) v); [exact Hl| | | |exact Hv].
      + replace (S k) with (k + 1) by lia. rewrite <- skipn_skipn_add, Hk. reflexivity.
      + rewrite <- app_assoc. exact Hy.
      + apply gen_app; [exact Hp|]. constructor. constructor.
    - inversion Hi as [|a b l l' Hab Hl]; subst. inversion Hab as [|n0 i Hin]; subst. cbn [app].
      assert (Huv : gen g (u ++ v) (w2 ++ rest)) by (apply gen_app; assumption).
      assert (Hsent : sent g (NT n :: u ++ v)) by (exists p; exact Hy).
      assert (Fn : follow g n (next (w2 ++ rest))).
      { eapply sent_behind; [exact CF|exact Hsent|]. apply behind_next, Huv. }
      assert (Fw : follows_in_word g n (next (w2 ++ rest))).
      { exists p, (u ++ v), wp, (w2 ++ rest). split; [exact Hy|]. split; [apply gen_yields, Hp|].
        split; [apply gen_yields, Huv|]. destruct (w2 ++ rest); reflexivity. }
      assert (Hk2 : skipn (k + length w1) src = w2 ++ rest).
      { rewrite <- skipn_skipn_add, Hk, <- !app_assoc.
        rewrite skipn_app, skipn_all2, Nat.sub_diag by lia. reflexivity. }
      rewrite app_length, Nat.add_assoc. eapply rws_trans.
      2:{ eapply (IH2 l' _ rest form (p ++ [NT n]) (wp ++ w1) v); [exact Hl|exact Hk2| | |exact Hv].
          - rewrite <- app_assoc. exact Hy.
          - apply gen_app; [exact Hp|]. rewrite <- (app_nil_r w1). econstructor; [exact Ha|exact Hg1|constructor]. }
      destruct w1 as [|c w1].
      + (* the rule is left out *)
        cbn [length] in *. rewrite Nat.add_0_r in *.
        apply gen_nullable in Hg1.
        assert (Hn : nullable g [NT n]) by (apply nullable_nt; exists s; auto).
        pose proof (next_ahead src Nsrc _ _ Hk2) as Hah.
        assert (NoF : forall s', alternative g n s' -> ~ first g (seq_form s') (byte_at src k)).
        { intros s' Ha' Hf. assert (Hnz : byte_at src k <> NUL).
          { intros E. rewrite E in Hf. eapply first_alt_nul; [apply wf_nulfree, W|exact Ha'|exact Hf]. }
          unfold ahead in Hah. destruct (Ascii.eqb_spec (byte_at src k) NUL) as [|_]; [contradiction|].
          rewrite <- Hah in Fn.
          eapply (no_first_nt g (follow g) W L CF); [eapply sent_reachable, Hsent|exact Fn|exact Hn|].
          apply first_nt. exists s'. auto. }
        apply (Sub _ _ Hn) in Fw. rewrite <- Hah in Fw.
        destruct (cell_total g tbl W T i n (byte_at src k) Hin) as [(ops & Hcell)|(rw & _ & _ & _ & X)].
        * destruct (cell_alternative g tbl W T D _ _ _ _ Hin Hcell) as [(s' & Ha' & Hf & _)|(-> & _)].
          -- destruct (NoF _ Ha' Hf).
          -- apply rws_one. apply (rw_row tbl src (Z.of_nat i) [] k); [lia|exact Hcell].
        * destruct X. auto.
      + (* the rule is rewritten *)
        assert (Hb : byte_at src k = c).
        { rewrite <- app_assoc in Hk. rewrite (skipn_byte src _ _ _ Hk). reflexivity. }
        pose proof (gen_first _ _ _ _ Hg1) as Hf.
        destruct (cell_total g tbl W T i n (byte_at src k) Hin) as [(ops & Hcell)|(rw & _ & _ & X & _)].
        * destruct (cell_alternative g tbl W T D _ _ _ _ Hin Hcell) as [(s' & Ha' & Hf' & Ho & _)|(_ & _ & _ & X)].
          -- rewrite Hb in Hf'. rewrite (alternative_same g (follow g) W L _ _ _ _ Ha' Ha Hf' Hf) in Ho.
             econstructor; [apply rw_row; [lia|exact Hcell]|].
             eapply (IH1 _ k (w2 ++ rest) _ p wp (u ++ v)); [apply operands_items, Ho| | |exact Hp|exact Huv].
             ++ rewrite <- app_assoc in Hk. exact Hk.
             ++ eapply yields_trans; [exact Hy|]. apply yields_one. cbn [app]. apply (y1 g p n s (u ++ v) Ha).
          -- destruct (X s Ha). rewrite Hb. exact Hf.
        * destruct (X s Ha). rewrite Hb. exact Hf.
  Qed.

  Lemma word_accepted : word g src -> table_public tbl -> exists t, derives_text tbl src t.
  Proof.
    intros [Hg Hy] Hp. apply yields_gen in Hy.
    apply (rws_derives_text tbl src None Hp (length src)).
    - apply (gen_accepts _ _ Hy [Row 0] 0 [] [] [] [] []).
      + constructor; [|constructor]. apply (io_nt g _ 0). destruct g; [congruence|reflexivity].
      + rewrite app_nil_r. reflexivity.
      + constructor.
      + constructor.
      + constructor.
    - apply byte_at_out. lia.
  Qed.
End Words.

(** A word with [n] deriving nothing before [x]. *)
Lemma follows_mgen g n x : nullable g [NT n] -> follows_in_word g n x ->
  exists w1 w2, mgen g n [NT (start g)] w1 w2 /\ next w2 = x.
Proof.
  intros Hn (a & b & w & w' & Hy & Ha & Hb & Hx). exists (w ++ []), w'. split.
  - eapply yields_mgen; [exact Hy|]. apply mgen_app_r; [apply yields_gen, Ha|].
    constructor; [exact Hn|apply yields_gen, Hb].
  - rewrite <- Hx. destruct w'; reflexivity.
Qed.

Lemma accepts_words_needs_wrt g FC tbl m :
  wf_grammar g -> LL1 g -> table_spec_wrt FC g tbl -> inherits g FC -> table_public tbl ->
  (forall text, word g text -> exists fuel t, parses_to fuel tbl (Some m) (SrcString text) t) ->
  forall n x, nullable g [NT n] -> follows_in_word g n x -> FC n x.
Proof.
  intros W L T I Pub A n x Hn Hf.
  destruct (follows_mgen g n x Hn Hf) as (w1 & w2 & Hm & <-).
  assert (Y : yields g [NT (start g)] (chars (w1 ++ w2))) by (apply gen_yields; eapply mgen_gen, Hm).
  assert (Nsrc : ~ In NUL (w1 ++ w2)).
  { intros Hin. assert (X : sent g (chars (w1 ++ w2))) by (exists []; exact Y).
    apply (sent_nulfree g W) in X. apply X. apply in_map, Hin. }
  destruct (A (w1 ++ w2)) as (fuel & t & Hp); [split; [apply W|exact Y]|].
  destruct (proj1 (parse_iff_rewriting tbl m (SrcString (w1 ++ w2)) (w1 ++ w2) Pub (dl_string _)))
    as (q & R & _); [eauto|].
  eapply (run_finds g tbl W T I L (w1 ++ w2) Nsrc n _ _ R eq_refl [NT (start g)]); cbn [fst snd].
  - constructor; [|constructor]. apply (io_nt g _ 0). pose proof (wf_nonempty _ W). destruct g; [congruence|reflexivity].
  - exists []. constructor.
  - exact Hm.
  - reflexivity.
Qed.

Lemma needs_accepts_words_wrt g FC tbl m src text :
  wf_grammar g -> LL1 g -> table_spec_wrt FC g tbl -> table_public tbl ->
  (forall n x, nullable g [NT n] -> follows_in_word g n x -> FC n x) ->
  delivers src text -> word g text -> exists fuel t, parses_to fuel tbl (Some m) src t.
Proof.
  intros W L T Pub Sub Hd Hw.
  assert (Nsrc : ~ In NUL text).
  { intros Hin. assert (X : sent g (chars text)) by (exists []; apply Hw).
    apply (sent_nulfree g W) in X. apply X. apply in_map, Hin. }
  destruct (word_accepted g tbl W T L Sub text Nsrc Hw Pub) as (t & Ht).
  destruct (proj2 (parse_iff_derivation tbl m src text t Pub Hd) Ht) as (fuel & Hf).
  exists fuel, t. exact Hf.
Qed.

Lemma accepts_words_needs order fuel0 g tbl names m :
  wf_grammar g -> LL1 g -> FromGrammar_order order fuel0 g = Ok (tbl, names) ->
  (forall text, word g text -> exists fuel t, parses_to fuel tbl (Some m) (SrcString text) t) ->
  forall n x, nullable g [NT n] -> follows_in_word g n x -> follow_code g n x.
Proof.
  intros W L E. apply (accepts_words_needs_wrt g (follow_code g) tbl m W L).
  - exact (FromGrammar_table _ _ _ _ _ (wf_distinct _ W) (wf_nulfree _ W) E).
  - apply follow_code_inherits.
  - exact (FromGrammar_public _ _ _ _ _ E).
Qed.

Lemma needs_accepts_words order fuel0 g tbl names m src text :
  wf_grammar g -> LL1 g -> FromGrammar_order order fuel0 g = Ok (tbl, names) ->
  (forall n x, nullable g [NT n] -> follows_in_word g n x -> follow_code g n x) ->
  delivers src text -> word g text -> exists fuel t, parses_to fuel tbl (Some m) src t.
Proof.
  intros W L E. apply (needs_accepts_words_wrt g (follow_code g) tbl m src text W L).
  - exact (FromGrammar_table _ _ _ _ _ (wf_distinct _ W) (wf_nulfree _ W) E).
  - exact (FromGrammar_public _ _ _ _ _ E).
Qed.
