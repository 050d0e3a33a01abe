(** * TGViable: where generated parsers detect errors. *)
From Verif Require Import Base ByteSet Ast Cst Parser TableGen Spec_Parse Spec_Tree Spec_Grammar Spec_Table Spec_Viable
  ByteSetProofs GrammarProofs ParserProofs TreeProofs ParseApi ParseApi2
  TGFirsts TGFollows TGTable TGMain TGCells TGClosed TGParse TGCheck Props_Parser Props_TableGen.

(** Rewriting up to offset [k] looks at no byte behind [k]. *)
Lemma rws_agree tbl a b : forall c d, rewrites_star tbl a c d ->
  (forall i, i <= fst d -> byte_at a i = byte_at b i) -> rewrites_star tbl b c d /\ fst c <= fst d.
Proof.
  intros c d H. induction H as [c|c1 c2 c3 S H IH]; intros A; [split; [constructor|lia]|].
  destruct (IH A) as (H2 & L).
  assert (G : rewrites tbl b c1 c2 /\ fst c1 <= fst c3).
  { inversion S; subst; cbn [fst] in *; (split; [|lia]).
    - rewrite (A k) by lia. apply rw_byte. reflexivity.
    - apply rw_row; [assumption|]. rewrite <- (A k) by lia. assumption.
    - apply rw_eol_lf. rewrite <- (A k) by lia. assumption.
    - apply rw_eol_cr. rewrite <- (A k) by lia. assumption. }
  destruct G as (G & L2). split; [econstructor; eassumption|exact L2].
Qed.

Lemma stuck_agree tbl a b nm k form e :
  byte_at a k = byte_at b k -> stuck tbl a nm k form e -> stuck tbl b nm k form e.
Proof.
  intros A H. inversion H; subst; try rewrite A in *; econstructor; eassumption.
Qed.

Lemma refuses_agree tbl a b nm k e :
  (forall i, i <= k -> byte_at a i = byte_at b i) -> refuses tbl a nm k e -> refuses tbl b nm k e.
Proof.
  intros A (form & H & S). exists form. split.
  - apply (rws_agree tbl a b _ _ H). exact A.
  - eapply stuck_agree; [apply A; lia|exact S].
Qed.

(** What the table generates, the grammar does. *)
Lemma generates_yields g tbl : wf_grammar g -> table_spec g tbl -> first_disjoint g ->
  forall its its', generates tbl its its' -> forall u, Forall2 (item_of g) u its ->
  exists u', Forall2 (item_of g) u' its' /\ yields g u u'.
Proof.
  intros W T D its its' H. induction H as [f|f a n c ops b Hn Hc H IH|f a b H IH|f a b H IH]; intros u Hu.
  - exists u. split; [exact Hu|constructor].
  - destruct (IH u Hu) as (u' & F & Y). apply Forall2_app_inv_r in F. destruct F as (u1 & u2 & F1 & F2 & ->).
    inversion F2 as [|x ? u3 ? X F3]; subst. inversion X as [|m i Hi]; subst.
    destruct (cell_alternative g tbl W T D _ _ _ _ Hi Hc) as [(s & Ha & _ & Ho & _)|(-> & Hnul & _)].
    + exists (u1 ++ seq_form s ++ u3). split.
      * apply Forall2_app; [exact F1|]. apply Forall2_app; [apply operands_items, Ho|exact F3].
      * eapply yields_trans; [exact Y|]. apply yields_one, y1, Ha.
    + exists (u1 ++ u3). split; [apply Forall2_app; assumption|].
      eapply yields_trans; [exact Y|]. change (NT m :: u3) with ([NT m] ++ u3).
      apply (yields_ctx g u1 u3 [NT m] []), Hnul.
  - destruct (IH u Hu) as (u' & F & _). apply Forall2_app_inv_r in F. destruct F as (u1 & u2 & _ & F2 & _).
    inversion F2 as [|x ? u3 ? X F3]; subst. inversion X; subst. lia.
  - destruct (IH u Hu) as (u' & F & _). apply Forall2_app_inv_r in F. destruct F as (u1 & u2 & _ & F2 & _).
    inversion F2 as [|x ? u3 ? X F3]; subst. inversion X; subst. lia.
Qed.

Lemma bytes_items g w : forall u, Forall2 (item_of g) u (map Byte w) -> u = chars w.
Proof.
  induction w as [|c w IH]; intros u F; inversion F as [|x ? u' ? X F']; subst; [reflexivity|].
  inversion X; subst. cbn. f_equal. apply IH, F'.
Qed.

Lemma item_defined g u its : Forall2 (item_of g) u its -> forall n, In (NT n) u -> defined g n.
Proof.
  induction 1 as [|x it u its X F IH]; intros n H; [destruct H|].
  destruct H as [E|H]; [|apply IH, H]. subst x. inversion X; subst.
  eapply nth_error_In; eassumption.
Qed.

Lemma productive_form g u : productive g -> (forall n, In (NT n) u -> defined g n) ->
  exists w, yields g u (chars w).
Proof.
  intros P. induction u as [|x u IH]; intros H; [exists []; constructor|].
  destruct IH as (w & Y); [intros n Hn; apply H; right; exact Hn|].
  destruct x as [n|c].
  - destruct (P n) as (v & Yv); [apply H; left; reflexivity|].
    exists (v ++ w). unfold chars. rewrite map_app. apply (yields_app g [NT n] u); assumption.
  - exists (c :: w). apply (yields_app g [Ch c] u [Ch c]); [constructor|exact Y].
Qed.

Lemma refused_viable order fuel0 g tbl names text k form :
  wf_grammar g -> first_disjoint g -> productive g -> FromGrammar_order order fuel0 g = Ok (tbl, names) ->
  rewrites_star tbl text (0, [Row 0]) (k, form) -> k <= length text /\ viable g (firstn k text).
Proof.
  intros W D P E H.
  pose proof (FromGrammar_nulfree _ _ _ _ _ (wf_nulfree _ W) E) as Nf.
  destruct (matched_prefix _ _ _ _ Nf H) as (L & G). split; [exact L|].
  pose proof (FromGrammar_table _ _ _ _ _ (wf_distinct _ W) (wf_nulfree _ W) E) as T.
  destruct (generates_yields g tbl W T D _ _ G [NT (start g)]) as (u & F & Y).
  { constructor; [|constructor]. apply (io_nt g _ 0). pose proof (wf_nonempty _ W). destruct g; [congruence|reflexivity]. }
  apply Forall2_app_inv_r in F. destruct F as (u1 & u2 & F1 & F2 & ->). apply bytes_items in F1. subst u1.
  destruct (productive_form g u2 P (item_defined _ _ _ F2)) as (w & Yw).
  exists w. split; [exact (wf_nonempty _ W)|]. eapply yields_trans; [exact Y|].
  unfold chars. rewrite map_app. apply yields_app; [constructor|exact Yw].
Qed.

Lemma byte_at_firstn a k i : i < k -> byte_at (firstn k a) i = byte_at a i.
Proof.
  intros H. unfold byte_at. destruct (Nat.lt_ge_cases i (length a)) as [L|L].
  - rewrite <- (firstn_skipn k a) at 2. rewrite app_nth1; [reflexivity|]. rewrite firstn_length. lia.
  - rewrite !nth_overflow; [reflexivity|exact L|]. rewrite firstn_length. lia.
Qed.

Lemma word_not_refused order fuel0 g tbl names F m w k e :
  wf_grammar g -> LL1_wrt F g -> closed_follow g F ->
  (forall n x, nullable g [NT n] -> F n x -> follow_code g n x) ->
  FromGrammar_order order fuel0 g = Ok (tbl, names) -> word g w -> ~ refuses tbl w (Some m) k e.
Proof.
  intros W L C S E Hw R.
  destruct (ll1_complete _ _ _ _ _ _ m (SrcString w) w W L C S E (dl_string w) Hw) as (fuel & t & Hp).
  pose proof (FromGrammar_public _ _ _ _ _ E) as Pub.
  destruct (C17_one_outcome tbl m (SrcString w) w Pub (FromGrammar_row0 _ _ _ _ _ E) (dl_string w)) as (O & _).
  apply (O t k e); [|exact R].
  apply (C11_parse_iff_derivation tbl m (SrcString w) w t Pub (dl_string w)). exists fuel. exact Hp.
Qed.
